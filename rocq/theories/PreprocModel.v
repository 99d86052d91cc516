(** Model of src/protocol/preproc.rs: the dealing protocols, the description of
    the material, [preproc], [PreProc::dummy] and the serde conversions.
    Coins are arguments, as in CoreModel.  Sizes are natural numbers ([usize]
    overflow is not modelled). *)

From Coq Require Import NArith List.
From mathcomp Require Import all_ssreflect all_algebra.
From Verif Require Import MathModel SharingModel MachineModel CoreModel.
From Verif Require CircuitModel ProtoIdModel.
Set Implicit Arguments.
Unset Strict Implicit.
Unset Printing Implicit Defensive.
Import GRing.Theory.
Local Open Scope ring_scope.

(** preproc.rs:17-19 [num_batches]; a zero batch size panics. *)
Definition num_batches (num batch_size : nat) : option nat :=
  if batch_size is 0%N then None else Some ((num + batch_size - 1) %/ batch_size)%N.

Section Preproc.
Variable F : fieldType.
Variable emb : nat -> F.
Variable D : eqType.
Variable ser : seq F -> D.
Variable de : D -> option (seq F).

Section Deal.
Variable I : eqType.
Notation proc := (proc I D (val F)).

(** preproc.rs:47-75, 106-136, 165-196: deal one sharing per batch, send
    column [i] to party [i], combine what was received with the matrix.
    [dealt j] is the sharing dealt for batch [j]. *)
Definition deal (n : nat) (M : mat F) (id : I) (num : nat) (dealt : nat -> option (seq F)) (k : seq F -> proc) : proc :=
  if num_batches num (size (rows M)) is Some batches then
    if obind (fun shs => to_mat batches n (flatten shs)) (all_some [seq dealt j | j <- iota 0 batches]) is Some shares then
      send_each n id (fun i => ser (col i shares))
        (gather n id (fun ds =>
           if unpack de n batches ds is Some sent then
             if ncols M == n then k (flatten (mmul M batches sent)) else @Panic I D (val F)
           else @Panic I D (val F)))
    else @Panic I D (val F)
  else @Panic I D (val F).

(** preproc.rs:38-76 [rand]; [coin j] is the generator used for batch [j]. *)
Definition rand (c : ctx F) (M : mat F) (id : I) (num : nat) (coin : nat -> nat -> F) (k : seq F -> proc) : proc :=
  deal (c_n c) M id num (fun j => pss_rand (c_pss c) (coin j)) k.

(** preproc.rs:97-137 [zero]. *)
Definition zero (c : ctx F) (M : mat F) (id : I) (num : nat) (coin : nat -> nat -> F) (k : seq F -> proc) : proc :=
  deal (c_n c) M id num (fun j => pss_share (c_pssn c) (nseq (c_l c) 0) (coin j)) k.

(** preproc.rs:156-197 [randbit]; [bit j q] is the bit drawn for slot [q]. *)
Definition randbit (c : ctx F) (M : mat F) (id : I) (num : nat) (bit : nat -> nat -> bool) (coin : nat -> nat -> F)
    (k : seq F -> proc) : proc :=
  deal (c_n c) M id num
    (fun j => pss_share (c_pss c) [seq (if bit j q then 1 else 0) | q <- iota 0 (ps_l (c_pss c))] (coin j)) k.

(** Tasks all spawned and then awaited in order (preproc.rs:378-434,
    garble.rs). *)
Fixpoint spawn_all (ps : seq proc) (k : seq (val F) -> proc) : proc :=
  if ps is p :: ps' then
    Fork p (spawn_all ps' (fun vs => Ret (Node vs)))
      (fun a b => if b is Node vs then k (a :: vs) else @Panic I D (val F))
  else k [::].

(** The vector a task returned.  preproc.rs:380-382. *)
Definition vec_of (v : val F) : seq F := if v is Leaf [:: x] then x else [::].

End Deal.

(** ** The description of the material *)

(** protocol/mod.rs:99-109 [MPCContext]: the LPN parameters ([lpn_tau] is only
    used in a debug assertion). *)
Record lpn := Lpn { lpn_key_len : nat; lpn_mssg_len : nat }.

(** preproc.rs:212-219 [PreProcCount]. *)
Record count := Count {
  n_masks : nat; n_keys : nat * nat * nat; n_randoms : nat; n_zeros : nat; n_errors : nat }.

Definition keys_total (d : count) : nat := ((n_keys d).1.1 * (n_keys d).1.2 * (n_keys d).2)%N.

(** preproc.rs:222-250 [PreProcCount::new]; also 254-256 [describe]. *)
Definition describe (circ : CircuitModel.pcircuit) (n t l : nat) (p : lpn) : option count :=
  let num_circ_inp_blocks := size (CircuitModel.p_inputs circ) in
  let num_gate_blocks := size (CircuitModel.p_gates circ) in
  let num_blocks := (num_circ_inp_blocks + num_gate_blocks)%N in
  let: (num_and, num_xor, num_inv) := CircuitModel.get_gate_counts (CircuitModel.p_gates circ) in
  let num_inp_blocks := (num_and * 2 + num_xor * 2 + num_inv)%N in
  let num_trans_per_wire := (2 * lpn_key_len p + 1)%N in
  obind (fun b1 => obind (fun b2 =>
    let num_rtrans := ((b1 + b2) * num_trans_per_wire)%N in
    let num_mult := (num_and * (3 * (lpn_key_len p + 1) + 1) + num_xor * (lpn_key_len p + 1)
                     + num_inv * (lpn_key_len p + 1))%N in
    let num_rand := (num_rtrans * (n + t) + num_mult)%N in
    let num_zeros := (num_rtrans * 2 * n + num_mult)%N in
    let num_errors := (num_and * 4 * lpn_mssg_len p + num_xor * 4 * lpn_mssg_len p
                       + num_inv * 2 * lpn_mssg_len p)%N in
    Some (Count num_blocks (2%N, lpn_key_len p, num_blocks) num_rand num_zeros num_errors))
    (num_batches num_inp_blocks l)) (num_batches num_blocks l).

(** preproc.rs:199-210 [PreProc]; the key array is its shape and its elements
    in row-major order. *)
Record preproc_data := PreProc {
  pp_masks : seq F; pp_kshape : nat * nat * nat; pp_keys : seq F;
  pp_randoms : seq F; pp_zeros : seq F; pp_errors : seq F }.

(** ** preproc *)

(** [VecDeque::drain(..k)]: the drained elements and the rest; a range past the end
    panics.  preproc.rs:384-386, 397-400, 408-409, 423, 449. *)
Definition drain (k : nat) (q : seq F) : option (seq F * seq F) :=
  if (k <= size q)%N then Some (take k q, drop k q) else None.

(** The inputs of one error task (preproc.rs:384-387). *)
Record err_inp := ErrInp { e_size : nat; e_bit0 : seq F; e_bit1 : seq F; e_rand : seq F; e_zeros : seq F }.

(** preproc.rs:379-387: the loop handing out the material. *)
Fixpoint err_inputs (bs : seq nat) (rbits rands zeros : seq F) : option (seq err_inp) :=
  if bs is b :: bs' then
    obind (fun x0 => obind (fun x1 => obind (fun xr => obind (fun xz =>
      omap (cons (ErrInp b x0.1 x1.1 xr.1 xz.1)) (err_inputs bs' x1.2 xr.2 xz.2))
      (drain (2 * b)%N zeros)) (drain (3 * b)%N rands)) (drain b x0.2)) (drain b rbits)
  else Some [::].

(** preproc.rs:376-382: the batch sizes. *)
Definition err_sizes (errors n : nat) : seq nat :=
  let b := (errors %/ n)%N in rcons (nseq n.-1 b) (errors - n.-1 * b)%N.

Section ErrTask.
Variable I : eqType.
Notation proc := (proc I D (val F)).

(** preproc.rs:394-425: one error task. *)
Definition err_task (c : ctx F) (id1 id2 : I) (leader : nat) (x : err_inp) (coin1 coin2 : nat -> nat -> F)
    (k : seq F -> proc) : proc :=
  if (drain (e_size x) (e_rand x), drain (e_size x) (e_zeros x)) is (Some (rands, brand), Some (zeros, bzeros)) then
    mult ser de c id1 (e_bit0 x) (e_bit1 x) rands zeros leader coin1 (fun biased_bits =>
      if drain (e_size x) brand is Some (scalars, rest) then
        mult ser de c id2 biased_bits scalars rest bzeros leader coin2 k
      else @Panic I D (val F))
  else @Panic I D (val F).
End ErrTask.

(** The coins of one party in [preproc]; the last two are indexed by the error task.
    preproc.rs:50, 110-111, 167-171. *)
Record coins := Coins {
  k_rand : nat -> nat -> F; k_zero : nat -> nat -> F; k_bit : nat -> nat -> bool; k_bitrand : nat -> nat -> F;
  k_mult1 : nat -> nat -> nat -> F; k_mult2 : nat -> nat -> nat -> F }.

Notation pproc := (proc [eqType of seq N] D (val F)).
Notation panic := (@Panic [eqType of seq N] D (val F)).

(** preproc.rs:335-460 [preproc].  [M] and [Mb] are the matrices of the three
    contexts ([RandContext], [ZeroContext] share one).  The ids are taken from
    the builder up front ([preproc_ids]). *)
Definition preproc (c : ctx F) (M Mb : mat F) (id : seq N) (d : count) (r : coins) (k : preproc_data -> pproc) : pproc :=
  if ProtoIdModel.preproc_ids id (N.of_nat (c_n c)) is Some [:: idr, idz, idb & eids] then
    let keys := keys_total d in
    let errs := n_errors d in
    spawn_all
      [:: rand c M idr (keys + n_randoms d + 3 * errs)%N (k_rand r) (fun x => Ret (Leaf [:: x]));
          zero c M idz (n_zeros d + 2 * errs)%N (k_zero r) (fun x => Ret (Leaf [:: x]));
          randbit c Mb idb (n_masks d + 2 * errs)%N (k_bit r) (k_bitrand r) (fun x => Ret (Leaf [:: x]))]
      (fun vs =>
         if [seq vec_of v | v <- vs] is [:: rand_shares; zero_shares; rbit_shares] then
           if (drain (3 * errs)%N rand_shares, drain (2 * errs)%N zero_shares, drain (2 * errs)%N rbit_shares)
             is (Some (er, rand_shares), Some (ez, zero_shares), Some (eb, rbit_shares)) then
             if c_n c is 0%N then panic else
             if err_inputs (err_sizes errs (c_n c)) eb er ez is Some xs then
               spawn_all
                 [seq err_task c (nth [::] eids (2 * i)%N) (nth [::] eids (2 * i + 1)%N) i
                        (nth (ErrInp 0 [::] [::] [::] [::]) xs i) (k_mult1 r i) (k_mult2 r i)
                        (fun x => Ret (Leaf [:: x])) | i <- iota 0 (c_n c)]
                 (fun es =>
                    if drain keys rand_shares is Some (key_shares, rand_shares) then
                      k (PreProc (take (n_masks d) rbit_shares) (n_keys d) key_shares rand_shares zero_shares
                           (flatten [seq vec_of e | e <- es]))
                    else panic)
             else panic
           else panic
         else panic)
  else panic.

(** The value a task running [preproc] returns: the fields in order; the key array is
    preceded by its three dimensions (as lengths).  preproc.rs:452-460. *)
Definition pp_val (p : preproc_data) : val F :=
  Leaf [:: pp_masks p; nseq (pp_kshape p).1.1 0; nseq (pp_kshape p).1.2 0; nseq (pp_kshape p).2 0; pp_keys p;
           pp_randoms p; pp_zeros p; pp_errors p].

(** ** dummy *)
Section Dummy.
(** The generator: [StdRng::seed_from_u64], [GF::rand], [rng.gen::<bool>()]. *)
Variable G : Type.
Variable seed_from_u64 : N -> G.
Variable gf_rand : G -> F * G.
Variable gen_bool : G -> bool * G.

(** [Array2::from_shape_simple_fn((r, c), ..)]: elements in row-major order.
    preproc.rs:275, 290, 305, 310. *)
Fixpoint fill_row (A : Type) (gen : G -> A * G) (c : nat) (g : G) : seq A * G :=
  if c is c'.+1 then let: (a, g1) := gen g in let: (s, g2) := fill_row gen c' g1 in (a :: s, g2) else ([::], g).
(** preproc.rs:275, 290, 305, 310. *)
Fixpoint fill (A : Type) (gen : G -> A * G) (r c : nat) (g : G) : seq (seq A) * G :=
  if r is r'.+1 then let: (a, g1) := fill_row gen c g in let: (s, g2) := fill gen r' c g1 in (a :: s, g2) else ([::], g).

(** preproc.rs:260. *)
Definition POOL_SIZE : N := 100000%num.

(** A pool: the single row of [coeffs.dot(&inp)] (one row: the party's).
    preproc.rs:278, 294, 312. *)
Definition pool (coeffs : mat F) (ps : nat) (inp : seq (seq F)) : option (seq F) :=
  if ncols coeffs == size inp then Some (flatten (mmul coeffs ps inp)) else None.

(** [pool.into_iter().cycle()], [num] elements from position [off]. *)
Definition cycled (p : seq F) (off num : nat) : seq F := [seq nth 0 p ((off + i) %% size p)%N | i <- iota 0 num].

(** preproc.rs:258-332 [dummy].  [None]: a slice out of range, [n - l]
    underflow, or a party id outside the parties.  The struct's fields are
    evaluated in order, so keys, randoms and errors continue one cycle. *)
Definition dummy (id n t l : nat) (seed : N) (d : count) : option preproc_data :=
  let ps := N.to_nat POOL_SIZE in
  let all_pos := default_pos emb n l ++ share_pos emb n in
  if [&& (id < n)%N, (t + l <= size all_pos)%N & (l <= n)%N] then
    let mine := [:: nth 0 (share_pos emb n) id] in
    let coeffs := lagrange_coeffs (take (t + l)%N all_pos) mine in
    let coeffs_n := lagrange_coeffs (take n all_pos) mine in
    let: (inp1, g1) := fill gf_rand (t + l)%N ps (seed_from_u64 seed) in
    let: (inp2, g2) := fill gf_rand (n - l)%N ps g1 in
    let: (inp3, g3) := fill gen_bool l ps g2 in
    let: (inp4, _) := fill gf_rand t ps g3 in
    obind (fun rp => obind (fun zp => obind (fun bp =>
      let k := keys_total d in
      Some (PreProc (cycled bp 0 (n_masks d)) (n_keys d) (cycled rp 0 k) (cycled rp k (n_randoms d))
              (cycled zp 0 (n_zeros d)) (cycled rp (k + n_randoms d)%N (n_errors d))))
      (pool coeffs ps ([seq [seq (if b then 1 else 0) | b <- row] | row <- inp3] ++ inp4)))
      (pool coeffs_n ps (nseq l (nseq ps 0) ++ inp2)))
      (pool coeffs ps inp1)
  else None.
End Dummy.

(** ** Serialization *)

(** preproc.rs:462-469 [PreProcSer]. *)
Record preproc_ser := PreProcSer {
  s_masks : seq F; s_keys : seq F; s_randoms : seq F; s_zeros : seq F; s_errors : seq F }.

(** preproc.rs:471-481; [into_raw_vec] forgets the shape. *)
Definition to_ser (p : preproc_data) : preproc_ser :=
  PreProcSer (pp_masks p) (pp_keys p) (pp_randoms p) (pp_zeros p) (pp_errors p).

(** preproc.rs:483-499: the shape is recomputed; [None]: division by zero or a
    shape that does not match the number of elements. *)
Definition from_ser (s : preproc_ser) : option preproc_data :=
  if size (s_masks s) is 0%N then None else
    let kshape := (size (s_masks s), 2%N, (size (s_keys s) %/ (2 * size (s_masks s)))%N) in
    if size (s_keys s) == (kshape.1.1 * kshape.1.2 * kshape.2)%N then
      Some (PreProc (s_masks s) kshape (s_keys s) (s_randoms s) (s_zeros s) (s_errors s))
    else None.

End Preproc.

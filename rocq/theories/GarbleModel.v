(** Model of src/protocol/garble.rs (the LPN matrix lookup is in LpnModel).
    As in CoreModel a protocol function takes the rest of the computation as an
    argument; coins, the hash of protocol ids, SHA-256 and the draws of the
    seeded generator are arguments.  Conversions to [u32]/[u16] of the
    parameters are not modelled. *)

From Coq Require Import NArith List.
From Verif Require Import CircuitModel LpnModel.
From mathcomp Require Import all_ssreflect all_algebra.
From Verif Require Import MathModel SharingModel MachineModel CoreModel PreprocModel.
From Verif Require ProtoIdModel.
Set Implicit Arguments.
Unset Strict Implicit.
Unset Printing Implicit Defensive.
Import GRing.Theory.
Local Open Scope ring_scope.

(** [Vec::dedup]: drops elements equal to the one kept before them.  garble.rs:71,
    645. *)
Fixpoint dedup_from (x : N) (s : seq N) : seq N :=
  if s is y :: s' then if y == x then dedup_from x s' else y :: dedup_from y s' else [::].
(** garble.rs:71, 645. *)
Definition dedup (s : seq N) : seq N := if s is x :: s' then x :: dedup_from x s' else [::].

(** garble.rs:69-71, 643-645: [sort_unstable] (on integers any sort) and
    [dedup]. *)
Definition sorted_wires (ws : seq N) : seq N := dedup (sort N.leb ws).

(** garble.rs:99-125 [compute_wire_to_block_map]: the insertions in order. *)
Definition block_map (circ : pcircuit) : seq (N * nat) :=
  flatten [seq [seq (w, i) | w <- nth [::] (p_inputs circ) i] | i <- iota 0 (size (p_inputs circ))] ++
  flatten [seq [seq (w, (i + size (p_inputs circ))%N) | w <- gate_out (nth (PInv [::] [::]) (p_gates circ) i)]
          | i <- iota 0 (size (p_gates circ))].

(** [HashMap::get]: the last insertion for a key wins.  garble.rs:104, 120, 651. *)
Fixpoint map_get (m : seq (N * nat)) (w : N) : option nat :=
  if m is (x, i) :: m' then if map_get m' w is Some j then Some j else if x == w then Some i else None
  else None.

Section Garble.
Variable F : fieldType.
Variable emb : nat -> F.
Variable D : eqType.
Variable ser : seq F -> D.
Variable de : D -> option (seq F).
(** SHA-256, the zero nonce, the field elements drawn from the generator seeded
    with a nonce, and seahash on protocol ids. *)
Variable H : eqType.
Variable sha : seq N -> H.
Variable h0 : H.
Variable draws : H -> nat -> F.
Variable hash : seq N -> N.

Notation pid := [eqType of seq N].
Notation pproc := (proc pid D (val F)).
Notation panic := (@Panic pid D (val F)).

(** ** Transforms *)

(** garble.rs:669-672 [Transforms]. *)
Record transforms := Tfs { tf_trans : seq (sharing_transform F); tf_rtrans : seq (rand_transform F) }.

(** garble.rs:676-694 [Transforms::new]; chunks of zero elements panic. *)
Definition transforms_new (c : ctx F) (tf : seq (seq F * seq F * seq nat)) : option transforms :=
  obind (fun b =>
    omap (fun rts => Tfs [seq ST x.1.1 x.1.2 x.2 | x <- tf] rts)
      (all_some [seq rt_new emb c (take (c_l c) (drop (k * c_l c)%N tf)) | k <- iota 0 b]))
    (num_batches (size tf) (c_l c)).

(** A block of wires as positions (sharing.rs:28-34). *)
Definition wires_pos (n l : nat) (ws : seq N) : seq F := wire_to_pos emb n l [seq N.to_nat w | w <- ws].

(** garble.rs:47-53: the transformation for the output wires of a block; the
    slice of [defpos] panics for a block longer than [l]. *)
Definition out_tf (n l : nat) (wires : seq N) : option (seq F * seq F * seq nat) :=
  if (size wires <= l)%N
  then Some (take (size wires) (default_pos emb n l), wires_pos n l wires, iota 0 (size wires)) else None.

(** garble.rs:68-79: the transformation for the input wires of a block. *)
Definition inp_tf (n l : nat) (wires : seq N) : option (seq F * seq F * seq nat) :=
  if (size wires <= l)%N then
    omap (fun f => (wires_pos n l (sorted_wires wires), take (size wires) (default_pos emb n l), f))
      (from_instance (sorted_wires wires) wires)
  else None.

(** ** The LPN matrices *)

(** garble.rs:801-810, 658: the values of the Lagrange polynomials for [pos]
    at a party's share position. *)
Definition own_coeffs (c : ctx F) (pos : seq F) : seq F :=
  nth [::] (rows (lagrange_coeffs pos [:: nth 0 (share_pos emb (c_n c)) (c_id c)])) 0.

(** garble.rs:812-827: the matrix of one nonce, this party's share of every
    entry; the generator is drawn [l] times per entry in row-major order. *)
Definition lpn_matrix (c : ctx F) (p : lpn) (h : H) : seq (seq (seq F)) :=
  let cc := own_coeffs c (default_pos emb (c_n c) (c_l c)) in
  let: (M, K) := (lpn_mssg_len p, lpn_key_len p) in
  [seq [seq [seq dotv cc [seq draws h (((r * M + m) * K + k) * c_l c + q)%N | q <- iota 0 (c_l c)]
            | k <- iota 0 K] | m <- iota 0 M] | r <- iota 0 4].

(** ** GarbleContext *)

(** garble.rs:22-30 [GarbleContext] with the fields of [LPNMatrix] (792-795). *)
Record gctx := GCtx {
  g_out : transforms; g_inp : transforms; g_lookup : seq (N * nat); g_enc : mat F;
  g_mats : seq (seq (seq (seq F))); g_gids : seq nat; g_circ : pcircuit; g_mpc : ctx F; g_lpn : lpn }.

(** garble.rs:33-97 [GarbleContext::new] and 798-830 [LPNMatrix::new]. *)
Definition gctx_new (circ : pcircuit) (c : ctx F) (p : lpn) : option gctx :=
  let: (n, l) := (c_n c, c_l c) in
  let outs := p_inputs circ ++ [seq gate_out g | g <- p_gates circ] in
  let inps := flatten [seq gate_inps g | g <- p_gates circ] in
  obind (fun tf_out => obind (fun tf_inp => obind (fun enc => obind (fun nl =>
    if (c_id c < n)%N then
      Some (GCtx tf_out tf_inp (block_map circ) enc [seq lpn_matrix c p h | h <- nl.1] nl.2 circ c p)
    else None)
    (compute_lookup sha h0 (p_gates circ) l))
    (rs_gen_mat emb (lpn_key_len p + 1) (lpn_mssg_len p)))
    (obind (transforms_new c) (all_some [seq inp_tf n l ws | ws <- inps])))
    (obind (transforms_new c) (all_some [seq out_tf n l ws | ws <- outs])).

(** ** gen_rand_shares and transform *)

(** [k] times [drain(..m)].  garble.rs:158-160, 720-721. *)
Fixpoint drain_each (k m : nat) (q : seq F) : option (seq (seq F) * seq F) :=
  if k is k'.+1 then
    obind (fun x => omap (fun y => (x.1 :: y.1, y.2)) (drain_each k' m x.2)) (drain m q)
  else Some ([::], q).

(** The pair of matrices a [randtrans] task returned.  garble.rs:731. *)
Definition pair_of (v : val F) : seq (seq F) * seq (seq F) := if v is Node [:: Leaf a; Leaf b] then (a, b) else ([::], [::]).

(** garble.rs:733-742: what is appended from the [i]-th result; the last one is
    cut to the transformations there are.  [None]: the slice panics. *)
Definition cut_rows (i num_rtrans l num_trans : nat) (r : seq (seq F)) : option (seq (seq F)) :=
  if i == num_rtrans.-1 then
    let e := minn l (num_trans - i * l) in if (e <= size r)%N then Some (take e r) else None
  else Some r.

(** garble.rs:728-743: [append] panics when the number of columns differs. *)
Definition append_rows (reps : nat) (ms : seq (option (seq (seq F)))) : option (seq (seq F)) :=
  obind (fun rs => if all (fun r => size r == reps) (flatten rs) then Some (flatten rs) else None) (all_some ms).

(** garble.rs:699-746 [gen_rand_shares]. *)
Definition gen_rand_shares (c : ctx F) (tf : transforms) (id : seq N) (reps : nat) (randoms zeros : seq F)
    (k : seq (seq F) * seq (seq F) -> pproc) : pproc :=
  let: (n, t, l) := (c_n c, c_t c, c_l c) in
  let m := size (tf_rtrans tf) in
  if (ProtoIdModel.gen_rand_ids id (N.of_nat m), drain_each m ((n + t) * reps) randoms, drain_each m (2 * n * reps) zeros)
    is (Some ids, Some rs, Some zs) then
    spawn_all
      [seq randtrans ser de c (nth [::] ids i) (nth [::] rs.1 i) (nth [::] zs.1 i) (nth (RT [::] [::]) (tf_rtrans tf) i)
             (fun y => Ret (Node [:: Leaf y.1; Leaf y.2])) | i <- iota 0 m]
      (fun vs =>
         let cut i r := cut_rows i m l (size (tf_trans tf)) r in
         let res i := pair_of (nth (Leaf [::]) vs i) in
         if (append_rows reps [seq cut i (res i).1 | i <- iota 0 m], append_rows reps [seq cut i (res i).2 | i <- iota 0 m])
           is (Some rand, Some rand_n) then k (rand, rand_n)
         else panic)
  else panic.

(** garble.rs:749-786 [transform]; [reps] is the number of columns of the
    matrices, [coin i] are the coins of the [i]-th transformation. *)
Definition transform (c : ctx F) (tf : transforms) (id : seq N) (reps : nat) (inp rand rand_n : seq (seq F))
    (coin : nat -> nat -> nat -> F) (k : seq (seq F) -> pproc) : pproc :=
  let num := size (tf_trans tf) in
  if [&& (0 < c_n c)%N, (num <= size inp)%N, (num <= size rand)%N & (num <= size rand_n)%N] then
    if ProtoIdModel.transform_ids id (N.of_nat num) is Some ids then
      spawn_all
        [seq trans emb ser de c (nth [::] ids i) (nth [::] inp i) (nth [::] rand i) (nth [::] rand_n i)
               (nth (ST [::] [::] [::]) (tf_trans tf) i) (i %% c_n c)%N (coin i) (fun x => Ret (Leaf [:: x]))
        | i <- iota 0 num]
        (fun vs => if to_mat num reps (flatten [seq vec_of v | v <- vs]) is Some res then k res else panic)
    else panic
  else panic.

(** ** select *)

(** garble.rs:642-662: one input block of a gate; [reps] is the number of
    columns of [shares]. *)
Definition select_block (g : gctx) (reps : nat) (shares : seq (seq F)) (ws : seq N) : option (seq F) :=
  let wires := sorted_wires ws in
  let: (n, l) := (c_n (g_mpc g), c_l (g_mpc g)) in
  obind (fun indices =>
    if all (fun i => (i < size shares)%N) indices then
      let selected := [seq nth [::] shares i | i <- indices] in
      let const_coeffs := own_coeffs (g_mpc g) (wires_pos n l wires) in
      Some [seq dotv const_coeffs (col j selected) | j <- iota 0 reps]
    else None)
    (all_some [seq map_get (g_lookup g) w | w <- wires]).

(** garble.rs:202-213 with 630-665 [select]: all blocks of all gates, as a
    matrix. *)
Definition select_all (g : gctx) (reps : nat) (shares : seq (seq F)) : option (seq (seq F)) :=
  obind (fun rs => let selected := flatten rs in to_mat (size selected %/ reps)%N reps selected)
    (all_some [seq select_block g reps shares ws | ws <- flatten [seq gate_inps x | x <- p_gates (g_circ g)]]).

(** ** The tables *)

(** garble.rs:234-237 [keys.slice(s![.., .., b])] of an array with the given
    shape. *)
Definition key_slice (shape : nat * nat * nat) (keys : seq F) (b : nat) : option (seq (seq F)) :=
  let: (d0, d1, d2) := shape in
  if (b < d2)%N then Some [seq [seq nth 0 keys ((i * d1 + c) * d2 + b)%N | c <- iota 0 d1] | i <- iota 0 d0] else None.

(** garble.rs:242-253, 316-321: a row of input shares is the labels 0 and 1
    followed by the mask. *)
Definition row_mask (row : seq F) : F := last 0 row.
Definition row_label (K : nat) (row : seq F) (i : nat) : seq F := take K (drop (i * K)%N row).

(** garble.rs:379-381, 491-493, 574-576 [push_column]. *)
Definition ext_label (out_keys : seq (seq F)) (out_mask : F) (i : nat) : seq F :=
  rcons (nth [::] out_keys i) (if i == 0%N then out_mask else out_mask + 1).

(** garble.rs:447-465 (530-548): encryption of the four encoded messages. *)
Definition table4 (A : seq (seq (seq F))) (K M : nat) (lft rgt : seq F) (mssgs : seq (seq F)) (errors : seq F)
    : seq (seq F) :=
  [seq let: (i, j) := ((r %/ 2)%N, (r %% 2)%N) in
       let keys := zipw +%R (row_label K lft i) (row_label K rgt j) in
       let masks := [seq dotv a keys | a <- nth [::] A r] in
       zipw +%R (zipw +%R masks (nth [::] mssgs r)) (take M (drop (r * M)%N errors)) | r <- iota 0 4].

(** garble.rs:611-627. *)
Definition table2 (A : seq (seq (seq F))) (K M : nat) (inp : seq F) (mssgs : seq (seq F)) (errors : seq F)
    : seq (seq F) :=
  [seq let masks := [seq dotv a (row_label K inp i) | a <- nth [::] A i] in
       zipw +%R (zipw +%R masks (nth [::] mssgs i)) (take M (drop (i * M)%N errors)) | i <- iota 0 2].

(** What a gate task is given (239-341). *)
Record gate_inp := GateInp {
  gi_rows : seq (seq F); gi_mask : F; gi_keys : seq (seq F);
  gi_randoms : seq F; gi_zeros : seq F; gi_errors : seq F }.

(** The matrix of a gate (832-834 [get]). *)
Definition gate_mat (g : gctx) (gid : nat) : seq (seq (seq F)) := nth [::] (g_mats g) (nth 0%N (g_gids g) gid).

(** The leader of a multiplication (core.rs:33-36); [None] panics. *)
Definition mult_leader (c : ctx F) (id : seq N) (k : nat -> pproc) : pproc :=
  if leader_from_proto_id hash id (c_n c) is Some L then k L else panic.

(** garble.rs:355-466 [garble_and]; [pop] takes the last elements.  [debug]
    assertions on the sizes are modelled. *)
Definition garble_and (g : gctx) (id : seq N) (gid : nat) (x : gate_inp) (coin1 coin2 : nat -> nat -> F)
    (k : seq (seq F) -> pproc) : pproc :=
  let c := g_mpc g in
  let: (K, M) := (lpn_key_len (g_lpn g), lpn_mssg_len (g_lpn g)) in
  let num_mult := (3 * (K + 1) + 1)%N in
  if [&& size (gi_randoms x) == num_mult, size (gi_zeros x) == num_mult & size (gi_errors x) == (4 * M)%N] then
    let: (lft, rgt) := (nth [::] (gi_rows x) 0, nth [::] (gi_rows x) 1) in
    let: (m0, m1) := (row_mask lft, row_mask rgt) in
    let: (key0, key1) := (ext_label (gi_keys x) (gi_mask x) 0, ext_label (gi_keys x) (gi_mask x) 1) in
    let randoms := take (3 * (K + 1))%N (gi_randoms x) in
    let zeros := take (3 * (K + 1))%N (gi_zeros x) in
    if ProtoIdModel.take_ids id 2 1 is Some [:: id1] then
      mult_leader c id1 (fun L1 =>
      mult ser de c id1 [:: m0] [:: m1] [:: last 0 (gi_randoms x)] [:: last 0 (gi_zeros x)] L1 coin1 (fun prod =>
        let s := nth 0 prod 0 + gi_mask x in
        let selector := nseq (K + 1) s ++ nseq (K + 1) (s + m0) ++ nseq (K + 1) (s + m1) in
        let d := zipw (fun a b => a - b) key1 key0 in
        mult_leader c id (fun L2 =>
        mult ser de c id selector (d ++ d ++ d) randoms zeros L2 coin2 (fun sel =>
          if to_mat 3 (K + 1) sel is Some sel then
            let r3 := zipw (fun a b => a - b)
                        (zipw +%R (zipw +%R (zipw +%R (nth [::] sel 0) (nth [::] sel 1)) (nth [::] sel 2)) key1) key0 in
            let plain := [seq zipw +%R r key0 | r <- rcons sel r3] in
            k (table4 (gate_mat g gid) K M lft rgt [seq mdot (g_enc g) p | p <- plain] (gi_errors x))
          else panic))))
    else panic
  else panic.

(** garble.rs:468-549 [garble_xor]. *)
Definition garble_xor (g : gctx) (id : seq N) (gid : nat) (x : gate_inp) (coin : nat -> nat -> F)
    (k : seq (seq F) -> pproc) : pproc :=
  let c := g_mpc g in
  let: (K, M) := (lpn_key_len (g_lpn g), lpn_mssg_len (g_lpn g)) in
  if [&& size (gi_randoms x) == (K + 1)%N, size (gi_zeros x) == (K + 1)%N & size (gi_errors x) == (4 * M)%N] then
    let: (lft, rgt) := (nth [::] (gi_rows x) 0, nth [::] (gi_rows x) 1) in
    let: (key0, key1) := (ext_label (gi_keys x) (gi_mask x) 0, ext_label (gi_keys x) (gi_mask x) 1) in
    let selector := nseq (K + 1) (row_mask lft + row_mask rgt + gi_mask x) in
    mult_leader c id (fun L =>
    mult ser de c id selector (zipw (fun a b => a - b) key1 key0) (gi_randoms x) (gi_zeros x) L coin (fun sel =>
      let: (mssg1, mssg2) := (zipw +%R sel key0, zipw +%R sel key1) in
      k (table4 (gate_mat g gid) K M lft rgt
           [seq mdot (g_enc g) p | p <- [:: mssg1; mssg2; mssg2; mssg1]] (gi_errors x))))
  else panic.

(** garble.rs:551-628 [garble_inv]. *)
Definition garble_inv (g : gctx) (id : seq N) (gid : nat) (x : gate_inp) (coin : nat -> nat -> F)
    (k : seq (seq F) -> pproc) : pproc :=
  let c := g_mpc g in
  let: (K, M) := (lpn_key_len (g_lpn g), lpn_mssg_len (g_lpn g)) in
  if [&& size (gi_randoms x) == (K + 1)%N, size (gi_zeros x) == (K + 1)%N & size (gi_errors x) == (2 * M)%N] then
    let inp := nth [::] (gi_rows x) 0 in
    let: (key0, key1) := (ext_label (gi_keys x) (gi_mask x) 0, ext_label (gi_keys x) (gi_mask x) 1) in
    let selector := nseq (K + 1) (row_mask inp + gi_mask x) in
    mult_leader c id (fun L =>
    mult ser de c id selector (zipw (fun a b => a - b) key1 key0) (gi_randoms x) (gi_zeros x) L coin (fun sel =>
      let mssg1 := zipw +%R sel key0 in
      let mssg2 := zipw +%R (zipw +%R key0 key1) mssg1 in
      k (table2 (gate_mat g gid) K M inp [seq mdot (g_enc g) p | p <- [:: mssg1; mssg2]] (gi_errors x))))
  else panic.

(** ** garble *)

(** The coins of one party: the transformations of output and input blocks, the first
    and the last multiplication of every gate.  garble.rs:156-170, 715-735. *)
Record gcoins := GCoins {
  gk_out : nat -> nat -> nat -> F; gk_inp : nat -> nat -> nat -> F;
  gk_and : nat -> nat -> nat -> F; gk_gate : nat -> nat -> nat -> F }.

(** What remains of the queues of the preprocessing.  garble.rs:158-160, 258-264,
    296-298, 324-326. *)
Record queues := Queues { q_randoms : seq F; q_zeros : seq F; q_errors : seq F }.

(** garble.rs:154-160: the material of one [run_rtrans]. *)
Definition drain_rtrans (c : ctx F) (tf : transforms) (reps : nat) (q : queues) : option (seq F * seq F * queues) :=
  let num := (size (tf_rtrans tf) * reps)%N in
  if (drain (num * (c_n c + c_t c)) (q_randoms q), drain (num * 2 * c_n c) (q_zeros q))
    is (Some (r, qr), Some (z, qz)) then Some (r, z, Queues qr qz (q_errors q)) else None.

(** garble.rs:256-264, 296-298, 324-326. *)
Definition gate_mults (p : lpn) (x : pgate) : nat :=
  if x is PAnd _ _ _ then (3 * (lpn_key_len p + 1) + 1)%N else (lpn_key_len p + 1)%N.
Definition gate_rows (x : pgate) : nat := if x is PInv _ _ then 2 else 4.

(** garble.rs:229-342: the loop over the gates handing out input rows, output
    masks and keys (block [b] on), and material. *)
Fixpoint hand_out (p : lpn) (gs : seq pgate) (b : nat) (inp_rows : seq (seq F)) (masks : seq F) (shape : nat * nat * nat)
    (keys : seq F) (q : queues) : option (seq gate_inp * queues) :=
  if gs is x :: gs' then
    let ni := size (gate_inps x) in
    if [&& (ni <= size inp_rows)%N & (b < size masks)%N] then
      if (key_slice shape keys b, drain (gate_mults p x) (q_randoms q), drain (gate_mults p x) (q_zeros q),
          drain (gate_rows x * lpn_mssg_len p) (q_errors q))
        is (Some ks, Some (r, qr), Some (z, qz), Some (e, qe)) then
        omap (fun y => (GateInp (take ni inp_rows) (nth 0 masks b) ks r z e :: y.1, y.2))
          (hand_out p gs' b.+1 (drop ni inp_rows) masks shape keys (Queues qr qz qe))
      else None
    else None
  else Some ([::], q).

(** garble.rs:239-342: the task of one gate. *)
Definition gate_task (g : gctx) (id : seq N) (gid : nat) (x : gate_inp) (r : gcoins) (k : seq (seq F) -> pproc) : pproc :=
  match nth (PInv [::] [::]) (p_gates (g_circ g)) gid with
  | PAnd _ _ _ => garble_and g id gid x (gk_and r gid) (gk_gate r gid) k
  | PXor _ _ _ => garble_xor g id gid x (gk_gate r gid) k
  | PInv _ _ => garble_inv g id gid x (gk_gate r gid) k
  end.

(** garble.rs:179-184: [into_shape] keeps the element order. *)
Definition label_rows (nb K : nat) (keys masks : seq F) : option (seq (seq F)) :=
  if size masks == nb then
    omap (fun m => [seq rcons (nth [::] m b) (nth 0 masks b) | b <- iota 0 nb]) (to_mat nb (2 * K) keys)
  else None.

(** garble.rs:151-227: the shares of the labels and masks of every gate input.
    The four ids are taken up front; the task of line 172 runs concurrently
    with the rest up to line 215. *)
Definition wire_shares (g : gctx) (ids : seq (seq N)) (pp : preproc_data F) (rz_out rz_inp : seq F * seq F)
    (r : gcoins) (k : seq (seq F) -> pproc) : pproc :=
  let c := g_mpc g in
  let K := lpn_key_len (g_lpn g) in
  let reps := (2 * K + 1)%N in
  let nb := (size (p_inputs (g_circ g)) + size (p_gates (g_circ g)))%N in
  Fork
    (gen_rand_shares c (g_inp g) (nth [::] ids 1) reps rz_inp.1 rz_inp.2 (fun y => Ret (Node [:: Leaf y.1; Leaf y.2])))
    (gen_rand_shares c (g_out g) (nth [::] ids 0) reps rz_out.1 rz_out.2 (fun y =>
       if label_rows nb K (pp_keys pp) (pp_masks pp) is Some inp then
         transform c (g_out g) (nth [::] ids 2) reps inp y.1 y.2 (gk_out r) (fun out_shares =>
           if select_all g reps out_shares is Some selected then Ret (Leaf selected) else panic)
       else panic))
    (fun a b =>
       let y := pair_of a in
       if b is Leaf selected then
         transform c (g_inp g) (nth [::] ids 3) reps selected y.1 y.2 (gk_inp r) k
       else panic).

(** garble.rs:132-353 [garble].  The ids are taken up front.  The result is
    the tables and what is left of the queues. *)
Definition garble (g : gctx) (id : seq N) (pp : preproc_data F) (r : gcoins)
    (k : seq (seq (seq F)) * queues -> pproc) : pproc :=
  let c := g_mpc g in
  let p := g_lpn g in
  let reps := (2 * lpn_key_len p + 1)%N in
  let gates := p_gates (g_circ g) in
  let ninp := size (p_inputs (g_circ g)) in
  let nb := (ninp + size gates)%N in
  if (size (pp_masks pp) == nb) && (pp_kshape pp == (2%N, lpn_key_len p, nb)) then
    if ProtoIdModel.take_ids id (4 + N.of_nat (size gates))%num (4 + size gates) is Some ids then
      let q0 := Queues (pp_randoms pp) (pp_zeros pp) (pp_errors pp) in
      if drain_rtrans c (g_out g) reps q0 is Some (r1, z1, q1) then
        if drain_rtrans c (g_inp g) reps q1 is Some (r2, z2, q2) then
          wire_shares g ids pp (r1, z1) (r2, z2) r (fun inp_shares =>
            if hand_out p gates ninp inp_shares (pp_masks pp) (pp_kshape pp) (pp_keys pp) q2 is Some (xs, q3) then
              spawn_all
                [seq gate_task g (nth [::] ids (4 + gid)) gid (nth (GateInp [::] 0 [::] [::] [::] [::]) xs gid) r
                       (fun tb => Ret (Leaf tb)) | gid <- iota 0 (size gates)]
                (fun vs => k ([seq (if v is Leaf tb then tb else [::]) | v <- vs], q3))
            else panic)
        else panic
      else panic
    else panic
  else panic.

End Garble.

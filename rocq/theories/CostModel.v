(** Field operations of the local computations of src/sharing.rs,
    src/protocol/core.rs, preproc.rs and garble.rs: the functions of the models
    again, with additions (and subtractions) and multiplications counted as they
    are carried out.  They are used to compare scripts/computation_estimates.py
    with the library (P_Cost).

    Counted is arithmetic on shares.  Not counted, as in the script: the
    computation of Lagrange coefficients and of the LPN matrices, random draws,
    comparisons and serialization.  An inner product of [k] terms is [k]
    multiplications and [k - 1] additions; [ndarray] in addition adds the first
    terms to accumulators that are zero. *)

From Coq Require Import NArith ZArith List.
From Verif Require Import CircuitModel LpnModel.
From mathcomp Require Import all_ssreflect all_algebra.
From Verif Require Import MathModel SharingModel MachineModel CoreModel PreprocModel GarbleModel EstModel EstFullModel.
Set Implicit Arguments.
Unset Strict Implicit.
Unset Printing Implicit Defensive.
Import GRing.Theory.
Local Open Scope ring_scope.

(** A value and the operations it took.  computation_estimates.py:50 counts additions
    and multiplications in this order. *)
Definition counted (A : Type) : Type := (A * ops)%type.
(** No counterpart in the source: no operation. *)
Definition ret (A : Type) (a : A) : counted A := (a, zero_ops).
(** No counterpart in the source: one computation after another. *)
Definition bnd (A B : Type) (m : counted A) (f : A -> counted B) : counted B :=
  let (a, o) := m in let (b, o') := f a in (b, o +o o').
Notation "'do' x <- m ; k" := (bnd m (fun x => k)) (at level 200, x name, m at level 100, k at level 200).

(** No counterpart in the source: a computation for each element. *)
Fixpoint mapw (A B : Type) (f : A -> counted B) (s : seq A) : counted (seq B) :=
  if s is a :: s' then do b <- f a; do t <- mapw f s'; ret (b :: t) else ret [::].

Section Cost.
Variable F : fieldType.
Variable emb : nat -> F.

(** math/galois/mod.rs:78-233: the operations of a field element. *)
Definition addw (x y : F) : counted F := (x + y, Ops 1 0).
Definition subw (x y : F) : counted F := (x - y, Ops 1 0).
Definition mulw (x y : F) : counted F := (x * y, Ops 0 1).

(** ** [ndarray] *)

(** The sums in [dot]: sharing.rs:61, 83, 137, 146, 157. *)
Fixpoint sumw (s : seq F) : counted F :=
  if s is x :: s' then if s' is [::] then ret x else do y <- sumw s'; addw x y else ret 0.
(** core.rs:273, 284; sharing.rs:61, 83, 137, 146, 157, for each row. *)
Definition dotw (r v : seq F) : counted F := do xs <- mapw (fun x => mulw x.1 x.2) (zip r v); sumw xs.
(** sharing.rs:61, 83, 137, 146, 157. *)
Definition mdotw (m : mat F) (v : seq F) : counted (seq F) := mapw (fun r => dotw r v) (rows m).
(** sharing.rs:61, 83, 137, 146, 157. *)
Definition mdot_chkw (m : mat F) (v : seq F) : counted (option (seq F)) :=
  if size v == ncols m then do x <- mdotw m v; ret (Some x) else ret None.
(** core.rs:40-43, 80-82, 96-98, 135-137, 193-195. *)
Definition zipww (f : F -> F -> counted F) (a b : seq F) : counted (seq F) := mapw (fun x => f x.1 x.2) (zip a b).
(** core.rs:164, 327-328, 358, 362; preproc.rs:73, 134, 194. *)
Definition mmulw (a : seq (seq F)) (c : nat) (x : seq (seq F)) : counted (seq (seq F)) :=
  mapw (fun r => mapw (fun j => dotw r (col j x)) (iota 0 c)) a.
(** core.rs:327-328. *)
Definition maddw (a b : seq (seq F)) : counted (seq (seq F)) := mapw (fun x => zipww addw x.1 x.2) (zip a b).

(** ** sharing.rs *)

(** sharing.rs:43-63. *)
Definition share_using_coeffsw (secrets : seq F) (coeffs : mat F) (l : nat) (r : nat -> F) : counted (option (seq F)) :=
  let np := ncols coeffs in
  let shares := [seq r i | i <- iota 0 (np - l)] in
  let filler := [seq r (np - l + i)%N | i <- iota 0 (l - size secrets)] in
  let points := take l (secrets ++ filler) ++ shares in
  do x <- mdot_chkw coeffs points; ret (omap (cat shares) x).

(** sharing.rs:126-139. *)
Definition pss_sharew (P : pss F) (secrets : seq F) (r : nat -> F) : counted (option (seq F)) :=
  share_using_coeffsw secrets (ps_share P) (ps_l P) r.
Definition pss_randw (P : pss F) (r : nat -> F) : counted (option (seq F)) :=
  let shares := [seq r i | i <- iota 0 (ps_np P)] in
  do x <- mdot_chkw (ps_rand P) shares; ret (omap (cat shares) x).

(** sharing.rs:141-148. *)
Definition pss_semihon_reconw (P : pss F) (shares : seq F) : counted (option (seq F)) :=
  if size shares == ps_n P then
    mdot_chkw (top_rows (ps_l P) (ps_recon P)) (drop (ps_n P - ps_np P) shares)
  else ret None.

(** sharing.rs:150-167. *)
Definition pss_reconw (P : pss F) (shares : seq F) : counted (option (recon_res F)) :=
  if size shares != ps_n P then ret (Some (@RWrongNumber F)) else
  do x <- mdot_chkw (ps_recon P) (drop (ps_n P - ps_np P) shares);
  ret (omap (fun vals =>
    if all (fun x : F * F => x.1 == x.2) (zip (drop (ps_l P) vals) shares)
    then ROk (take (ps_l P) vals) else @RMalicious F) x).

(** ** preproc.rs *)

(** preproc.rs:38-76, 97-137, 156-197: what a party computes, given the matrix
    [sent] of what it received: the sharings it deals, and the results. *)
Definition deal_work (M : mat F) (num : nat) (dealt : nat -> counted (option (seq F))) (sent : seq (seq F))
    : counted (seq (option (seq F)) * seq F) :=
  if num_batches num (size (rows M)) is Some batches then
    do shs <- mapw dealt (iota 0 batches);
    do out <- mmulw (rows M) batches sent; ret (shs, flatten out)
  else ret ([::], [::]).
Definition rand_work (c : ctx F) (M : mat F) (num : nat) (coin : nat -> nat -> F) (sent : seq (seq F)) :=
  deal_work M num (fun j => pss_randw (c_pss c) (coin j)) sent.
Definition zero_work (c : ctx F) (M : mat F) (num : nat) (coin : nat -> nat -> F) (sent : seq (seq F)) :=
  deal_work M num (fun j => pss_sharew (c_pssn c) (nseq (c_l c) 0) (coin j)) sent.
Definition randbit_work (c : ctx F) (M : mat F) (num : nat) (bit : nat -> nat -> bool) (coin : nat -> nat -> F)
    (sent : seq (seq F)) :=
  deal_work M num
    (fun j => pss_sharew (c_pss c) [seq (if bit j q then 1 else 0) | q <- iota 0 (ps_l (c_pss c))] (coin j)) sent.

(** ** core.rs *)

(** core.rs:86-100 and 25-45, 78-83: what every party computes in [mult], given
    the shares [ans] the leader answers: the shares it sends, and the results. *)
Definition mult_work (vx vy random zero ans : seq F) : counted (seq F * seq F) :=
  do xy <- zipww mulw vx vy;
  do a <- zipww addw xy random;
  do b <- zipww addw a zero;
  do res <- zipww subw ans random; ret (b, res).

(** core.rs:60-68: what the leader computes from the matrix of the shares. *)
Definition reduce_work (c : ctx F) (num : nat) (coin : nat -> nat -> F) (shares_n : seq (seq F))
    : counted (seq (option (seq F))) :=
  mapw (fun j => do secrets <- pss_semihon_reconw (c_pssn c) (col j shares_n);
                 if secrets is Some s then pss_sharew (c_pss c) s (coin j) else ret None) (iota 0 num).

(** core.rs:135-142, 191-196: what every party computes in [trans]. *)
Definition trans_work (vx random random_n ans : seq F) : counted (seq F * seq F) :=
  do up <- zipww addw random_n vx;
  do res <- zipww subw ans random; ret (up, res).

(** core.rs:144-181: what the leader computes. *)
Definition trans_leader_work (c : ctx F) (tr : sharing_transform F) (num : nat) (coin : nat -> nat -> F)
    (shares_n : seq (seq F)) : counted (seq (option (seq F))) :=
  let n := c_n c in
  do secrets <- mmulw (rows (compute_recon_coeffs emb n.-1 n (st_old tr))) num shares_n;
  mapw (fun j =>
    if comb_apply (st_f tr) (col j secrets) is Some s
    then share_using_coeffsw s (compute_share_coeffs emb (c_t c + c_l c).-1 n (st_new tr)) (size (st_new tr)) (coin j)
    else ret None) (iota 0 num).

(** core.rs:326-328: the products with the matrices of points and the sums with
    the sharings of zero. *)
Definition randtrans_work (rt : rand_transform F) (num : nat) (points points_n zeros zeros_n : seq (seq F))
    : counted (seq (seq F) * seq (seq F)) :=
  do a <- mmulw (rt_share rt) num points;
  do b <- maddw a zeros;
  do a_n <- mmulw (rt_share_n rt) num points_n;
  do b_n <- maddw a_n zeros_n; ret (b, b_n).

(** core.rs:354-362: the reconstruction from the matrix [m] of received shares. *)
Definition randtrans_recon_work (c : ctx F) (num : nat) (m : seq (seq F)) : counted (seq (seq F) * seq (seq F)) :=
  let recon := rows (top_rows (ps_l (c_pssn c)) (ps_recon (c_pssn c))) in
  do a <- mmulw recon num [seq take num r | r <- m];
  do b <- mmulw recon num [seq drop num r | r <- m]; ret (a, b).

(** ** garble.rs *)

(** garble.rs:642-662, once the rows of the wires are looked up. *)
Definition select_work (g : gctx F) (reps : nat) (selected : seq (seq F)) (ws : seq N) : counted (seq F) :=
  let const_coeffs := own_coeffs emb (g_mpc g) (wires_pos emb (c_n (g_mpc g)) (c_l (g_mpc g)) (sorted_wires ws)) in
  mapw (fun j => dotw const_coeffs (col j selected)) (iota 0 reps).

(** garble.rs:443, 526, 607: encoding the messages. *)
Definition encode_work (enc : mat F) (plain : seq (seq F)) : counted (seq (seq F)) := mapw (mdotw enc) plain.

(** garble.rs:447-465, 530-548. *)
Definition table4_work (A : seq (seq (seq F))) (K M : nat) (lft rgt : seq F) (mssgs : seq (seq F)) (errors : seq F)
    : counted (seq (seq F)) :=
  mapw (fun r =>
    do keys <- zipww addw (row_label K lft (r %/ 2)) (row_label K rgt (r %% 2));
    do masks <- mapw (fun a => dotw a keys) (nth [::] A r);
    do x <- zipww addw masks (nth [::] mssgs r);
    zipww addw x (take M (drop (r * M)%N errors))) (iota 0 4).

(** garble.rs:611-627. *)
Definition table2_work (A : seq (seq (seq F))) (K M : nat) (inp : seq F) (mssgs : seq (seq F)) (errors : seq F)
    : counted (seq (seq F)) :=
  mapw (fun i =>
    do masks <- mapw (fun a => dotw a (row_label K inp i)) (nth [::] A i);
    do x <- zipww addw masks (nth [::] mssgs i);
    zipww addw x (take M (drop (i * M)%N errors))) (iota 0 2).

(** garble.rs:379-381, 491-493, 574-576. *)
Definition ext_label1w (out_keys : seq (seq F)) (out_mask : F) : counted (seq F) :=
  do m <- addw out_mask 1; ret (rcons (nth [::] out_keys 1) m).

(** garble.rs:379-441 without the multiplications: the factors, and the messages
    from the products [prod] and [sel] (three rows). *)
Definition and_work (K : nat) (x : gate_inp F) (m0 m1 prod : F) (sel : seq (seq F))
    : counted (seq F * seq F * seq (seq F)) :=
  let key0 := ext_label (gi_keys x) (gi_mask x) 0 in
  do key1 <- ext_label1w (gi_keys x) (gi_mask x);
  do s <- addw prod (gi_mask x);
  do s0 <- addw s m0;
  do s1 <- addw s m1;
  do d <- zipww subw key1 key0;
  do a <- zipww addw (nth [::] sel 0) (nth [::] sel 1);
  do b <- zipww addw a (nth [::] sel 2);
  do e <- zipww addw b key1;
  do r3 <- zipww subw e key0;
  do plain <- mapw (fun r => zipww addw r key0) (rcons sel r3);
  ret (nseq (K + 1) s ++ nseq (K + 1) s0 ++ nseq (K + 1) s1, d ++ d ++ d, plain).

(** garble.rs:491-523. *)
Definition xor_work (K : nat) (x : gate_inp F) (m0 m1 : F) (sel : seq F) : counted (seq F * seq F * seq (seq F)) :=
  let key0 := ext_label (gi_keys x) (gi_mask x) 0 in
  do key1 <- ext_label1w (gi_keys x) (gi_mask x);
  do s <- addw m0 m1;
  do s' <- addw s (gi_mask x);
  do d <- zipww subw key1 key0;
  do mssg2 <- zipww addw sel key1;
  do mssg1 <- zipww addw sel key0;
  ret (nseq (K + 1) s', d, [:: mssg1; mssg2; mssg2; mssg1]).

(** garble.rs:574-604. *)
Definition inv_work (K : nat) (x : gate_inp F) (m : F) (sel : seq F) : counted (seq F * seq F * seq (seq F)) :=
  let key0 := ext_label (gi_keys x) (gi_mask x) 0 in
  do key1 <- ext_label1w (gi_keys x) (gi_mask x);
  do s <- addw m (gi_mask x);
  do d <- zipww subw key1 key0;
  do mssg1 <- zipww addw sel key0;
  do a <- zipww addw key0 key1;
  do mssg2 <- zipww addw a mssg1;
  ret (nseq (K + 1) s, d, [:: mssg1; mssg2]).

End Cost.

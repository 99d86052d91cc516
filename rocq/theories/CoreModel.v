(** Model of src/protocol/core.rs over an arbitrary field, as code for the
    asynchronous machine.  A function of the code takes the rest of the
    computation as an argument [k].  Coins are arguments; [ser] and [de] stand
    for bincode's [serialize]/[deserialize] of a vector of field elements
    (modelled in CodecModel). *)

From Coq Require Import NArith.
From mathcomp Require Import all_ssreflect all_algebra.
From Verif Require Import MathModel SharingModel MachineModel.
Set Implicit Arguments.
Unset Strict Implicit.
Unset Printing Implicit Defensive.
Import GRing.Theory.
Local Open Scope ring_scope.

(** core.rs:21-23 [leader_from_proto_id]; [hash] stands for seahash.  [None]:
    remainder by zero, or a leader that does not fit a [u16]. *)
Definition leader_from_proto_id (T : Type) (hash : T -> N) (id : T) (n : nat) : option nat :=
  if n is 0 then None
  else let r := N.to_nat (N.modulo (hash id) (N.of_nat n)) in
       if (r < 2 ^ 16)%N then Some r else None.

Section Core.
Variable F : fieldType.
Variable emb : nat -> F.
Variables I D : eqType.
Variable ser : seq F -> D.
Variable de : D -> option (seq F).

(** Results of spawned tasks: matrices and tuples.  core.rs:83, 301; preproc.rs:45,
    104, 163, 340. *)
Inductive val := Leaf of seq (seq F) | Node of seq val.

Notation proc := (proc I D val).

(** protocol/mod.rs:99-109 [MPCContext] (without the LPN parameters, which
    core.rs does not use). *)
Record ctx := Ctx { c_id : nat; c_n : nat; c_t : nat; c_l : nat; c_pss : pss F; c_pssn : pss F }.

(** Elementwise operations on arrays of equal length ([ndarray::Zip]; the callers
    check the lengths).  core.rs:40-43, 80-82, 96-98, 135-137, 193-195. *)
Definition zipw (f : F -> F -> F) (a b : seq F) : seq F := [seq f x.1 x.2 | x <- zip a b].

(** [ndarray::Array2::from_shape_vec]: a matrix as its rows; a wrong number of
    elements is an error (unwrapped by the callers).  core.rs:56, 67, 162, 180,
    305-324, 353. *)
Definition to_mat (r c : nat) (v : seq F) : option (seq (seq F)) :=
  if size v == (r * c)%N then Some (reshape (nseq r c) v) else None.

(** Column [j] of a matrix.  core.rs:73, 186. *)
Definition col (j : nat) (m : seq (seq F)) : seq F := [seq nth 0 r j | r <- m].

(** [ndarray::dot] of two matrices, the second with [c] columns; given as rows.
    core.rs:164, 327-328, 358, 362; preproc.rs:73, 134, 194. *)
Definition mmul (m : mat F) (c : nat) (x : seq (seq F)) : seq (seq F) :=
  [seq [seq dotv r (col j x) | j <- iota 0 c] | r <- rows m].

(** core.rs:53-58, 156-161, 345-352: deserialize all messages, collect the
    elements and form a matrix with one row per party. *)
Definition unpack (n num : nat) (ds : seq D) : option (seq (seq F)) :=
  obind (fun vs => to_mat n num (flatten vs)) (all_some [seq de d | d <- ds]).

(** core.rs:25-84 [reduce_degree].  [leader] is the resolved leader
    (33-36); [coin j] is the generator used for column [j] (60-66). *)
Definition reduce_leader (c : ctx) (num : nat) (coin : nat -> nat -> F) (ds : seq D) : option (seq (seq F)) :=
  obind (fun shares_n =>
    obind (fun shs => to_mat num (c_n c) (flatten shs))
      (all_some [seq obind (fun secrets => pss_share (c_pss c) secrets (coin j))
                           (pss_semihon_recon (c_pssn c) (col j shares_n)) | j <- iota 0 num]))
    (unpack (c_n c) num ds).

(** core.rs:78-83, 191-196. *)
Definition unmask (id : I) (random : seq F) (k : seq F -> proc) : proc :=
  Recv id (fun _ d =>
    if de d is Some shares then
      if size shares == size random then k (zipw (fun a b => a - b) shares random) else @Panic I D val
    else @Panic I D val).

(** core.rs:70-76, 183-189: column [i] of the result to party [i]. *)
Definition answer (c : ctx) (id : I) (shares : option (seq (seq F))) (fin : proc) : proc :=
  if shares is Some m then send_each (c_n c) id (fun i => ser (col i m)) fin else @Panic I D val.

Definition reduce_degree (c : ctx) (id : I) (vx random zero : seq F) (leader : nat)
    (coin : nat -> nat -> F) (k : seq F -> proc) : proc :=
  let num := size vx in
  if (size random == num) && (size zero == num) then
    let vrecon := zipw +%R (zipw +%R vx random) zero in
    let fin := unmask id random k in
    Send (One leader) id (ser vrecon)
      (if c_id c == leader
       then gather (c_n c) id (fun ds => answer c id (reduce_leader c num coin ds) fin)
       else fin)
  else @Panic I D val.

(** core.rs:86-100 [mult]. *)
Definition mult (c : ctx) (id : I) (vx vy random zero : seq F) (leader : nat)
    (coin : nat -> nat -> F) (k : seq F -> proc) : proc :=
  if size vx == size vy then reduce_degree c id (zipw *%R vx vy) random zero leader coin k
  else @Panic I D val.

(** core.rs:102-117 [SharingTransform]. *)
Record sharing_transform := ST { st_old : seq F; st_new : seq F; st_f : seq nat }.

(** core.rs:144-181: what the leader computes. *)
Definition trans_leader (c : ctx) (tr : sharing_transform) (num : nat) (coin : nat -> nat -> F) (ds : seq D)
    : option (seq (seq F)) :=
  let n := c_n c in
  let recon := compute_recon_coeffs emb n.-1 n (st_old tr) in
  let share := compute_share_coeffs emb (c_t c + c_l c).-1 n (st_new tr) in
  obind (fun shares_n =>
    let secrets := mmul recon num shares_n in
    obind (fun shs => to_mat num n (flatten shs))
      (all_some [seq obind (fun tf_secrets => share_using_coeffs tf_secrets share (size (st_new tr)) (coin j))
                           (comb_apply (st_f tr) (col j secrets)) | j <- iota 0 num]))
    (unpack n num ds).

(** core.rs:119-197 [trans]. *)
Definition trans (c : ctx) (id : I) (vx random random_n : seq F) (tr : sharing_transform) (leader : nat)
    (coin : nat -> nat -> F) (k : seq F -> proc) : proc :=
  let num := size vx in
  if size random_n == num then
    let up := zipw +%R random_n vx in
    let fin := unmask id random k in
    Send (One leader) id (ser up)
      (if c_id c == leader
       then gather (c_n c) id (fun ds => answer c id (trans_leader c tr num coin ds) fin)
       else fin)
  else @Panic I D val.

(** ** Random transformations *)

(** core.rs:212-217: coefficients for all share positions from the first
    [d + 1] of the given positions followed by the share positions. *)
Definition share_coeffs (d n : nat) (pos : seq F) : mat F :=
  let sh_pos := share_pos emb n in
  lagrange_coeffs (take d.+1 (pos ++ sh_pos)) sh_pos.

(** [Array2::eye] followed by 237-243: the matrix of an index map; entry (i,j)
    is one iff position [i] takes the value at [j]. *)
Definition trans_mat (m : seq nat) : seq (seq F) :=
  [seq [seq (j == i)%:R | j <- iota 0 (size m)] | i <- m].

(** core.rs:231-236: the given map on the first positions, the identity behind
    them; [None]: index out of range in [apply] or a slice out of range. *)
Definition ext_map (k : nat) (tr : seq nat) (olen nlen : nat) : option (seq nat) :=
  let v := iota 0 k in
  if (olen <= k)%N && (nlen <= k)%N then omap (fun m => m ++ drop nlen v) (comb_apply tr (take olen v)) else None.

(** core.rs:199-203 [RandSharingTransform]. *)
Record rand_transform := RT { rt_share : seq (seq F); rt_share_n : seq (seq F) }.

(** core.rs:222-249, one entry of the lists: the coefficient matrices of
    transformation (old positions, new positions, map).  The columns of the
    matrix of the map must be as many as there are points ([dot] panics). *)
Definition acc_coeffs (c : ctx) (x : seq F * seq F * seq nat) : option (seq (seq F) * seq (seq F)) :=
  let: (opos, npos, tr) := x in
  let k := (c_t c + c_l c)%N in
  let coeffs_n := share_coeffs (c_n c).-1 (c_n c) opos in
  let coeffs := share_coeffs k.-1 (c_n c) npos in
  obind (fun m => if (size m == k) && (ncols coeffs == k) && (ncols coeffs_n == c_n c)
                  then Some (mmul coeffs k (trans_mat m), rows coeffs_n) else None)
    (ext_map k tr (size opos) (size npos)).

(** core.rs:266-288: entry (r,c) of all matrices, combined with the first
    coefficients of this party's row of the sharing with degree [l]. *)
Definition combine_coeffs (sl : seq F) (r k : nat) (ms : seq (seq (seq F))) : seq (seq F) :=
  [seq [seq dotv (take (size ms) sl) [seq nth 0 (nth [::] m i) j | m <- ms] | j <- iota 0 k] | i <- iota 0 r].

(** core.rs:205-292 [RandSharingTransform::new]; the lists are zipped. *)
Definition rt_new (c : ctx) (tf : seq (seq F * seq F * seq nat)) : option rand_transform :=
  let n := c_n c in
  let sl := nth [::] (rows (share_coeffs (c_l c) n (default_pos emb n (c_l c)))) (c_id c) in
  obind (fun ms =>
    if (c_id c < n)%N && (size ms <= size sl)%N then
      Some (RT (combine_coeffs sl n (c_t c + c_l c) [seq m.1 | m <- ms])
               (combine_coeffs sl n n [seq m.2 | m <- ms]))
    else None)
    (all_some [seq acc_coeffs c x | x <- tf]).

(** Matrix product of two matrices given as rows, [k] the inner dimension.
    core.rs:252. *)
Definition mmul2 (a : seq (seq F)) (num : nat) (b : seq (seq F)) : seq (seq F) :=
  [seq [seq dotv r (col j b) | j <- iota 0 num] | r <- a].

(** core.rs:327-328, the sum with the zero sharings. *)
Definition madd (a b : seq (seq F)) : seq (seq F) := [seq zipw +%R x.1 x.2 | x <- zip a b].

(** core.rs:305-330: the matrices to send, rows indexed by recipient. *)
Definition randtrans_shares (c : ctx) (rt : rand_transform) (randoms zeros : seq F)
    : option (nat * seq (seq F) * seq (seq F)) :=
  let: (n, t, l) := (c_n c, c_t c, c_l c) in
  let num := (size randoms %/ (n + t))%N in
  obind (fun secrets =>
  obind (fun rands =>
  obind (fun rands_n =>
  obind (fun zeros_n =>
  obind (fun zeros' =>
    let points := secrets ++ rands in
    let points_n := secrets ++ rands_n in
    Some (num, madd (mmul2 (rt_share rt) num points) zeros', madd (mmul2 (rt_share_n rt) num points_n) zeros_n))
    (to_mat n num (drop (n * num) zeros)))
    (if (n * num <= size zeros)%N then to_mat n num (take (n * num) zeros) else None))
    (if (l <= n)%N then to_mat (n - l) num (drop (num * t) (drop (num * l) randoms)) else None))
    (if (num * l + num * t <= size randoms)%N then to_mat t num (take (num * t) (drop (num * l) randoms)) else None))
    (if (num * l <= size randoms)%N then to_mat l num (take (num * l) randoms) else None).

(** core.rs:294-366 [randtrans]; the result is the pair of (l, num) matrices. *)
Definition randtrans (c : ctx) (id : I) (randoms zeros : seq F) (rt : rand_transform)
    (k : seq (seq F) * seq (seq F) -> proc) : proc :=
  if randtrans_shares c rt randoms zeros is Some (num, shares, shares_n) then
    send_each (c_n c) id (fun i => ser (nth [::] shares i ++ nth [::] shares_n i))
      (gather (c_n c) id (fun ds =>
         if unpack (c_n c) (2 * num) ds is Some m then
           let recon := top_rows (ps_l (c_pssn c)) (ps_recon (c_pssn c)) in
           if ncols recon == c_n c then
             k (mmul recon num [seq take num r | r <- m], mmul recon num [seq drop num r | r <- m])
           else @Panic I D val
         else @Panic I D val))
  else @Panic I D val.

End Core.

Arguments Leaf {F} _.
Arguments Node {F} _.

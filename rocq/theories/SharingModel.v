(** Model of src/sharing.rs over an arbitrary field.  [emb] stands for
    [GF::from] on in-range integers, random generators are coin streams
    [nat -> F]: the i-th draw from the generator. *)

From mathcomp Require Import all_ssreflect all_algebra.
From Verif Require Import MathModel.
Set Implicit Arguments.
Unset Strict Implicit.
Unset Printing Implicit Defensive.
Import GRing.Theory.
Local Open Scope ring_scope.

Section Sharing.
Variable F : fieldType.
Variable emb : nat -> F.
Notation mat := (mat F).

(** sharing.rs:20-22. *)
Definition default_pos (n l : nat) : seq F := [seq emb i | i <- iota n l].

(** sharing.rs:24-26. *)
Definition share_pos (n : nat) : seq F := [seq emb i | i <- iota 0 n].

(** sharing.rs:28-34. *)
Definition wire_to_pos (n l : nat) (ws : seq nat) : seq F := [seq emb (x + (n + l))%N | x <- ws].

(** sharing.rs:36-41.  The slices panic when [d + 1 > |pos| + n]; that is
    excluded by the hypotheses of the theorems ([pss_new] below models the
    panic). *)
Definition compute_share_coeffs (d n : nat) (pos : seq F) : mat :=
  let np := d.+1 in
  let all_pos := pos ++ share_pos n in
  lagrange_coeffs (take np all_pos) (drop np all_pos).

(** sharing.rs:43-63.  The generator [r] is drawn first for the random shares
    and then for the missing secrets.  The final [dot] panics if the number of
    points is not the number of columns. *)
Definition share_using_coeffs (secrets : seq F) (coeffs : mat) (l : nat) (r : nat -> F)
  : option (seq F) :=
  let np := ncols coeffs in
  let shares := [seq r i | i <- iota 0 (np - l)] in
  let filler := [seq r (np - l + i)%N | i <- iota 0 (l - size secrets)] in
  let points := take l (secrets ++ filler) ++ shares in
  omap (cat shares) (mdot_chk coeffs points).

(** sharing.rs:65-75. *)
Definition compute_recon_coeffs (d n : nat) (pos : seq F) : mat :=
  let np := d.+1 in
  let all_pos := pos ++ share_pos n in
  lagrange_coeffs (drop (size pos + n - np) all_pos) (take (size pos) all_pos).

(** sharing.rs:77-84.  [n - np] underflow and size mismatches panic. *)
Definition recon_using_coeffs (shares : seq F) (coeffs : mat) : option (seq F) :=
  let np := ncols coeffs in
  if (np <= size shares)%N then mdot_chk coeffs (drop (size shares - np) shares) else None.

(** sharing.rs:10-17. *)
Record pss := PSS {
  ps_n : nat; ps_np : nat; ps_l : nat;
  ps_share : mat; ps_recon : mat; ps_rand : mat }.

(** sharing.rs:86-124.  [np > n] makes the slice [sh_pos[..np]] panic.  The
    debug assertions (positions outside the share positions) are hypotheses of
    the theorems. *)
Definition pss_new (d n : nat) (pos : seq F) : option pss :=
  let sh_pos := share_pos n in
  let np := d.+1 in
  let l := size pos in
  let all_pos := pos ++ sh_pos in
  if (np <= n)%N then
    Some (PSS n np l
      (lagrange_coeffs (take np all_pos) (drop np all_pos))
      (lagrange_coeffs (drop (l + n - np) all_pos) (take (l + n - np) all_pos))
      (lagrange_coeffs (take np sh_pos) (drop np sh_pos)))
  else None.

(** sharing.rs:126-133. *)
Definition pss_share (P : pss) (secrets : seq F) (r : nat -> F) : option (seq F) :=
  share_using_coeffs secrets (ps_share P) (ps_l P) r.

(** sharing.rs:135-139. *)
Definition pss_rand (P : pss) (r : nat -> F) : option (seq F) :=
  let shares := [seq r i | i <- iota 0 (ps_np P)] in
  omap (cat shares) (mdot_chk (ps_rand P) shares).

(** [ndarray] [slice(s![..k, ..])].  sharing.rs:145, 170. *)
Definition top_rows (k : nat) (m : mat) : mat := Mat (ncols m) (take k (rows m)).

(** sharing.rs:141-148. *)
Definition pss_semihon_recon (P : pss) (shares : seq F) : option (seq F) :=
  if size shares == ps_n P then
    mdot_chk (top_rows (ps_l P) (ps_recon P)) (drop (ps_n P - ps_np P) shares)
  else None.

(** sharing.rs:150-167: [Ok], the two errors, or a panic ([None]). *)
Inductive recon_res := ROk (secrets : seq F) | RWrongNumber | RMalicious.

Definition pss_recon (P : pss) (shares : seq F) : option recon_res :=
  if size shares != ps_n P then Some RWrongNumber else
  omap (fun vals =>
    if all (fun x : F * F => x.1 == x.2) (zip (drop (ps_l P) vals) shares)
    then ROk (take (ps_l P) vals) else RMalicious)
  (mdot_chk (ps_recon P) (drop (ps_n P - ps_np P) shares)).

End Sharing.

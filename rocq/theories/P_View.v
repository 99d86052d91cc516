(** Property theorems C60: what a coalition sees in the core protocols. *)

From Coq Require Import NArith.
From mathcomp Require Import all_ssreflect all_algebra zify.
From Verif Require Import MathModel MathProofs SharingModel SharingSpec SharingProofs.
From Verif Require Import MachineModel CoreModel CoreSpec CoreProofs ViewSpec ViewProofs.
From Verif Require Import GFField GFCodec P_Math P_Core.
Set Implicit Arguments.
Unset Strict Implicit.
Unset Printing Implicit Defensive.
Import GRing.Theory.
Local Open Scope ring_scope.

(** ** C60 *)

(** At most [t] parties. *)
Definition coalition (n t : nat) (A : seq nat) : Prop :=
  [/\ uniq A, all (fun i => (i < n)%N) A & (size A <= t)%N].

(** An honest party's results in two executions differ by its part of [dr]. *)
Definition differ_by (F : fieldType) (dr : nat -> seq F) (i : nat) (v v' : val F) : Prop :=
  exists2 y, v = Leaf [:: y] & v' = Leaf [:: vsub y (dr i)].

(** Let [vx] and [vx'] be two inputs of [reduce_degree] that the coalition
    cannot tell apart.  There is a shift [dr], [dz] of the masks, itself a pair
    of valid masks, that leaves the coalition's parts alone, such that the
    execution on [vx] with any masks and the one on [vx'] with the shifted
    masks are the same for the coalition: every run of one is matched step by
    step by a run of the other with the same messages on the network.  The
    coalition may run any code [Q]; it may contain the leader. *)
Theorem C60_reduce_degree_private : forall (F : fieldType) (emb : nat -> F) (I D : eqType) ser de n t l P Pn
    (id : I) num L (coin : nat -> nat -> nat -> F) A vx x vx' x',
  setting emb n t l P Pn -> coalition n t A ->
  let pos := default_pos emb n l in
  sharings emb n n.-1 pos num vx x -> sharings emb n n.-1 pos num vx' x' ->
  (forall i, i \in A -> vx' i = vx i) ->
  exists dr sr dz,
  [/\ sharings emb n (t + l).-1 pos num dr sr, sharings emb n n.-1 pos num dz (fun _ => nseq l 0),
      forall i, i \in A -> dr i = nseq num 0 /\ dz i = nseq num 0 &
  forall (random zero : nat -> seq F) (Q : nat -> proc I D (val F)),
    (forall i, (i < n)%N -> size (random i) = num /\ size (zero i) = num) ->
    let code v r z := with_code A Q (fun i =>
      reduce_degree ser de (Ctx i n t l P Pn) id (v i) (r i) (z i) L (coin i) (fun y => Ret (Leaf [:: y]))) in
    indistinguishable n A (differ_by dr) (code vx random zero)
      (code vx' (fun i => vadd (random i) (dr i)) (fun i => vadd (zero i) (dz i)))].
Proof.
  move=> F emb I D ser de n t l P Pn id num L coin A vx x vx' x' HS [UA HA Ht] pos Sx Sx' HE.
  have Hn := setting_n HS. have [Htl HP HPn Hg] := HS.
  have Hdn : ((t + l).-1 < n)%N by move: HP; rewrite /pss_new; case: ifP.
  have Hs : (size pos + size A <= (t + l).-1.+1)%N.
  { rewrite /pos size_default prednK // addnC. by rewrite leq_add2r. }
  have [dr [sr [dz [Sr Sz Zr Zz E]]]] := shift_reduce UA HA Hn Hg Hs Hdn Sx Sx' HE.
  exists dr, sr, dz. split=> //; first by move: Sz; rewrite size_default.
  - move=> i Hi. by split; [exact: Zr|exact: Zz].
  - move=> random zero Q Hsz code. apply: like_indistinguishable => i Hi _.
    have [Hr Hz] := Hsz i Hi. apply: (@like_reduce _ _ _ _ _ num) => //.
    + by apply: (proj1 Sx).
    + by apply: (proj1 Sx').
    + by apply: (proj1 Sr).
    + by apply: (proj1 Sz).
    + move=> j Hj. exact: E.
Qed.
Print Assumptions C60_reduce_degree_private.

(** The same for [mult]. *)
Theorem C60_mult_private : forall (F : fieldType) (emb : nat -> F) (I D : eqType) ser de n t l P Pn
    (id : I) num L (coin : nat -> nat -> nat -> F) A d1 d2 vx x vy y vx' x' vy' y',
  setting emb n t l P Pn -> coalition n t A -> (d1 + d2 <= n.-1)%N ->
  let pos := default_pos emb n l in
  sharings emb n d1 pos num vx x -> sharings emb n d2 pos num vy y ->
  sharings emb n d1 pos num vx' x' -> sharings emb n d2 pos num vy' y' ->
  (forall i, i \in A -> vx' i = vx i /\ vy' i = vy i) ->
  exists dr sr dz,
  [/\ sharings emb n (t + l).-1 pos num dr sr, sharings emb n n.-1 pos num dz (fun _ => nseq l 0),
      forall i, i \in A -> dr i = nseq num 0 /\ dz i = nseq num 0 &
  forall (random zero : nat -> seq F) (Q : nat -> proc I D (val F)),
    (forall i, (i < n)%N -> size (random i) = num /\ size (zero i) = num) ->
    let code v w r z := with_code A Q (fun i =>
      mult ser de (Ctx i n t l P Pn) id (v i) (w i) (r i) (z i) L (coin i) (fun y => Ret (Leaf [:: y]))) in
    indistinguishable n A (differ_by dr) (code vx vy random zero)
      (code vx' vy' (fun i => vadd (random i) (dr i)) (fun i => vadd (zero i) (dz i)))].
Proof.
  move=> F emb I D ser de n t l P Pn id num L coin A d1 d2 vx x vy y vx' x' vy' y' HS [UA HA Ht] Hd pos Sx Sy Sx' Sy' HE.
  have Hn := setting_n HS. have [Htl HP HPn Hg] := HS.
  have Hdn : ((t + l).-1 < n)%N by move: HP; rewrite /pss_new; case: ifP.
  have Hs : (size pos + size A <= (t + l).-1.+1)%N.
  { rewrite /pos size_default prednK // addnC. by rewrite leq_add2r. }
  have Sm := sharings_degree Hd (sharings_mul Sx Sy). have Sm' := sharings_degree Hd (sharings_mul Sx' Sy').
  have HE' i : i \in A -> zipw *%R (vx' i) (vy' i) = zipw *%R (vx i) (vy i) by move=> Hi; have [-> ->] := HE i Hi.
  have [dr [sr [dz [Sr Sz Zr Zz E]]]] := shift_reduce UA HA Hn Hg Hs Hdn Sm Sm' HE'.
  exists dr, sr, dz. split=> //; first by move: Sz; rewrite size_default.
  - move=> i Hi. by split; [exact: Zr|exact: Zz].
  - move=> random zero Q Hsz code. apply: like_indistinguishable => i Hi _.
    have [Hr Hz] := Hsz i Hi.
    rewrite /mult !(proj1 Sx) ?(proj1 Sy) ?(proj1 Sx') ?(proj1 Sy') // eqxx.
    apply: (@like_reduce _ _ _ _ _ num) => //.
    + exact: (proj1 Sm i Hi).
    + exact: (proj1 Sm' i Hi).
    + by apply: (proj1 Sr).
    + by apply: (proj1 Sz).
    + move=> j Hj. exact: E.
Qed.
Print Assumptions C60_mult_private.

(** The same for [trans]; the shift is a pair of correlated masks. *)
Theorem C60_trans_private : forall (F : fieldType) (emb : nat -> F) (I D : eqType) ser de n t l P Pn
    (id : I) num L (coin : nat -> nat -> nat -> F) A opos npos f vx x vx' x',
  setting emb n t l P Pn -> coalition n t A ->
  good_pos emb n opos -> good_pos emb n npos -> (size npos <= l)%N -> size f = size npos ->
  sharings emb n n.-1 opos num vx x -> sharings emb n n.-1 opos num vx' x' ->
  (forall i, i \in A -> vx' i = vx i) ->
  exists dn sn dr,
  [/\ sharings emb n n.-1 opos num dn sn, sharings emb n (t + l).-1 npos num dr (fun j => pick f (sn j)),
      forall i, i \in A -> dn i = nseq num 0 /\ dr i = nseq num 0 &
  forall (random random_n : nat -> seq F) (Q : nat -> proc I D (val F)),
    (forall i, (i < n)%N -> size (random i) = num /\ size (random_n i) = num) ->
    let code v r rn := with_code A Q (fun i =>
      trans emb ser de (Ctx i n t l P Pn) id (v i) (r i) (rn i) (ST opos npos f) L (coin i) (fun y => Ret (Leaf [:: y]))) in
    indistinguishable n A (differ_by dr) (code vx random random_n)
      (code vx' (fun i => vadd (random i) (dr i)) (fun i => vadd (random_n i) (dn i)))].
Proof.
  move=> F emb I D ser de n t l P Pn id num L coin A opos npos f vx x vx' x' HS [UA HA Ht] Ho Hnp Hl Hf Sx Sx' HE.
  have Hn := setting_n HS. have [Htl HP HPn Hg] := HS.
  have Hs : (size npos + size A <= (t + l).-1.+1)%N by rewrite prednK // addnC leq_add.
  have [dn [sn [dr [Sn Sr Zn Zr E]]]] := shift_trans UA HA Hn Ho Hnp Hs Hf Sx Sx' HE.
  exists dn, sn, dr. split=> //.
  - move=> i Hi. by split; [exact: Zn|exact: Zr].
  - move=> random random_n Q Hsz code. apply: like_indistinguishable => i Hi _.
    have [Hr Hz] := Hsz i Hi. apply: (@like_trans _ _ _ _ _ _ num) => //.
    + by apply: (proj1 Sx).
    + by apply: (proj1 Sx').
    + by apply: (proj1 Sr).
    + by apply: (proj1 Sn).
    + move=> j Hj. exact: E.
Qed.
Print Assumptions C60_trans_private.

(** Party 2 of three holds the same share of the secrets 5 and 4 (at position 3). *)
Example C60_example : exists P Pn vx x vx' x',
  [/\ setting g4 3 1 1 P Pn, coalition 3 1 [:: 2%N], sharings g4 3 2 (default_pos g4 3 1) 1 vx x &
  [/\ sharings g4 3 2 (default_pos g4 3 1) 1 vx' x', forall i, i \in [:: 2%N] -> vx' i = vx i &
      [seq gval a | a <- x 0%N ++ x' 0%N] = [:: 5; 4]%num]].
Proof.
  have [P [Pn HS]] := setting4. exists P, Pn.
  exists (fun i => [seq ('X^2 : {poly gf w4}).[g4 i] | j <- iota 0 1]), (fun j => evals 'X^2 (default_pos g4 3 1)).
  exists (fun i => [seq ('X^2 + ('X - (g4 2)%:P) : {poly gf w4}).[g4 i] | j <- iota 0 1]),
         (fun j => evals ('X^2 + ('X - (g4 2)%:P)) (default_pos g4 3 1)).
  split=> //.
  - apply: (@sharings_poly _ g4 3 2 _ 1 (fun j => 'X^2)) => j _. by rewrite size_polyXn.
  split.
  - apply: (@sharings_poly _ g4 3 2 _ 1 (fun j => 'X^2 + ('X - (g4 2)%:P))) => j _.
    apply: (leq_trans (size_add _ _)). by rewrite geq_max size_polyXn size_XsubC.
  - move=> i. rewrite inE => /eqP ->. rewrite /= hornerD hornerXsubC subrr addr0. by [].
  - rewrite /evals /= !hornerD !hornerXn !hornerX !hornerN !hornerC. by vm_compute.
Qed.

(** Property theorems C29-C33 and C49: the core protocols. *)

From Coq Require Import NArith.
From mathcomp Require Import all_ssreflect all_algebra zify.
From Verif Require Import MathModel MathProofs MatProofs SharingModel SharingSpec SharingProofs.
From Verif Require Import MachineModel MachineProofs MachineBuild Realize CoreModel CoreSpec CoreProofs.
From Verif Require Import RandTransProofs LeaderView GFField GFCodec P_Math.
Set Implicit Arguments.
Unset Strict Implicit.
Unset Printing Implicit Defensive.
Import GRing.Theory.
Local Open Scope ring_scope.

Lemma ends_mono n (I D : eqType) (V : Type) (c : cfg I D V) (Q Q' : cfg I D V -> Prop) :
  (forall c', Q c' -> Q' c') -> every_run_ends n c Q -> every_run_ends n c Q'.
Proof.
  move=> H [B HB]. exists B => k c' S. have [H1 [H2|H2]] := HB k c' S; split=> //; first by left.
  right. exact: H.
Qed.

Lemma size_default (F : fieldType) (emb : nat -> F) n l : size (default_pos emb n l) = l.
Proof. by rewrite size_map size_iota. Qed.

Lemma setting_n (F : fieldType) (emb : nat -> F) n t l P Pn : setting emb n t l P Pn -> (0 < n)%N.
Proof. move=> [_ _ + _]. rewrite /pss_new. case: ifP => // H _. lia. Qed.

(** One round run to the end. *)
Lemma one_round (F : fieldType) (I D : eqType) (d0 : D) n (T : Type) (inj : T -> val F) id rd
    (C : nat -> (T -> proc I D (val F)) -> proc I D (val F)) res :
  (0 < n)%N -> realizes n [:: (id, rd)] C res ->
  every_run_ends n (start (fun i => C i (fun x => Ret (inj x)))) (all_done n (fun i => inj (res i))).
Proof. move=> Hn R. exact: (realizes_runs Hn d0 inj _ R). Qed.

(** ** C29 *)

(** Every schedule of [reduce_degree] at all parties is finite and ends with
    everybody holding shares of the same secrets with the low degree; no
    message is left over.  [id] and the leader's coins are arbitrary. *)
Theorem C29_reduce_degree : forall (F : fieldType) (emb : nat -> F) (I D : eqType) ser de fits n t l P Pn
    (id : I) num L (coin : nat -> nat -> nat -> F) vx x random r zero,
  @codec_ok F D ser de fits -> setting emb n t l P Pn -> (L < n)%N -> fits num ->
  let pos := default_pos emb n l in
  sharings emb n n.-1 pos num vx x ->
  sharings emb n (t + l).-1 pos num random r ->
  sharings emb n n.-1 pos num zero (fun _ => nseq l 0) ->
  every_run_ends n
    (start (fun i => reduce_degree ser de (Ctx i n t l P Pn) id (vx i) (random i) (zero i) L (coin i)
                       (fun y => Ret (Leaf [:: y]))))
    (fun c => exists res, all_done n (fun i => Leaf [:: res i]) c /\ sharings emb n (t + l).-1 pos num res x).
Proof.
  move=> F emb I D ser de fits n t l P Pn id num L coin vx x random r zero serK HS HL Hf pos Sx Sr Sz.
  have Hn := setting_n HS. have [Ht HP HPn Hg] := HS.
  have Hl : (size (default_pos emb n l) <= (t + l).-1.+1)%N by rewrite size_default prednK // leq_addl.
  have Sz' : sharings emb n n.-1 pos num zero (fun _ => nseq (size (default_pos emb n l)) 0) by rewrite size_default.
  have [rd [res [R S]]] := reduce_degree_ok serK Hn HP HPn Hg Hl id coin HL Hf Sx Sr Sz'.
  apply: ends_mono (one_round (ser [::]) (fun y => Leaf [:: y]) Hn R) => c Hc. by exists res.
Qed.
Print Assumptions C29_reduce_degree.

(** A concrete instance, used for all examples below: three parties, one
    corruption, one slot, over GF(16); messages are encoded as in CodecModel. *)
Notation g4 := (gf_of w4).

Lemma setting4 : exists P Pn, setting g4 3 1 1 P Pn.
Proof. do 2 eexists. split; [by []|reflexivity|reflexivity|by vm_compute]. Qed.

Lemma sharings_poly (F : fieldType) (emb : nat -> F) n d pos num (p : nat -> {poly F}) :
  (forall j, (j < num)%N -> (size (p j) <= d.+1)%N) ->
  sharings emb n d pos num (fun i => [seq (p j).[emb i] | j <- iota 0 num]) (fun j => evals (p j) pos).
Proof.
  move=> H. split=> [i Hi|j Hj]; first by rewrite size_map size_iota.
  exists (p j). split=> //; first exact: H.
  apply/eq_in_map => i Hi. by rewrite (nth_map 0%N) ?size_iota // nth_iota.
Qed.

Example C29_example : exists P Pn vx x random r zero,
  [/\ setting g4 3 1 1 P Pn, codec_ok (@gser w4) (@gde w4) len_ok, len_ok 2 &
  [/\ sharings g4 3 2 (default_pos g4 3 1) 2 vx x, sharings g4 3 1 (default_pos g4 3 1) 2 random r,
      sharings g4 3 2 (default_pos g4 3 1) 2 zero (fun _ => nseq 1 0) &
      [seq gval a | a <- x 0%N ++ x 1%N] = [:: 5; 6]%num]].
Proof.
  have [P [Pn HS]] := setting4. exists P, Pn.
  exists (fun i => [seq (('X^2 + (g4 (3 * j))%:P) : {poly gf w4}).[g4 i] | j <- iota 0 2]),
         (fun j => evals ('X^2 + (g4 (3 * j))%:P) (default_pos g4 3 1)).
  exists (fun i => [seq ('X + (g4 j)%:P : {poly gf w4}).[g4 i] | j <- iota 0 2]),
         (fun j => evals ('X + (g4 j)%:P) (default_pos g4 3 1)).
  exists (fun i => [seq ('X - (g4 3)%:P : {poly gf w4}).[g4 i] | j <- iota 0 2]).
  split=> //; first exact: gserK. split.
  - apply: (@sharings_poly _ g4 3 2 _ 2 (fun j => 'X^2 + (g4 (3 * j))%:P)) => j _.
    apply: (leq_trans (size_add _ _)). rewrite geq_max size_polyXn /=.
    by rewrite (leq_trans (size_polyC_leq1 _)).
  - apply: (@sharings_poly _ g4 3 1 _ 2 (fun j => 'X + (g4 j)%:P)) => j _.
    by rewrite size_XaddC.
  - have H := (@sharings_poly _ g4 3 2 (default_pos g4 3 1) 2 (fun j => 'X - (g4 3)%:P)).
    apply: sharings_ext (H _) => // [j _|_ _]; last by rewrite size_XsubC.
    by rewrite /evals /= hornerXsubC subrr.
  - rewrite /evals /= !hornerD !hornerXn !hornerC. by vm_compute.
Qed.

(** ** C30 *)

Theorem C30_mult : forall (F : fieldType) (emb : nat -> F) (I D : eqType) ser de fits n t l P Pn
    (id : I) num L (coin : nat -> nat -> nat -> F) d1 d2 vx x vy y random r zero,
  @codec_ok F D ser de fits -> setting emb n t l P Pn -> (L < n)%N -> fits num -> (d1 + d2 <= n.-1)%N ->
  let pos := default_pos emb n l in
  sharings emb n d1 pos num vx x -> sharings emb n d2 pos num vy y ->
  sharings emb n (t + l).-1 pos num random r ->
  sharings emb n n.-1 pos num zero (fun _ => nseq l 0) ->
  every_run_ends n
    (start (fun i => mult ser de (Ctx i n t l P Pn) id (vx i) (vy i) (random i) (zero i) L (coin i)
                       (fun y => Ret (Leaf [:: y]))))
    (fun c => exists res, all_done n (fun i => Leaf [:: res i]) c /\
                          sharings emb n (t + l).-1 pos num res (fun j => vmul (x j) (y j))).
Proof.
  move=> F emb I D ser de fits n t l P Pn id num L coin d1 d2 vx x vy y random r zero serK HS HL Hf Hd pos Sx Sy Sr Sz.
  have Hn := setting_n HS. have [Ht HP HPn Hg] := HS.
  have Hl : (size (default_pos emb n l) <= (t + l).-1.+1)%N by rewrite size_default prednK // leq_addl.
  have Sz' : sharings emb n n.-1 pos num zero (fun _ => nseq (size (default_pos emb n l)) 0) by rewrite size_default.
  have [rd [res [R S]]] := mult_ok serK Hn HP HPn Hg Hl id coin HL Hf Hd Sx Sy Sr Sz'.
  apply: ends_mono (one_round (ser [::]) (fun y => Leaf [:: y]) Hn R) => c Hc. by exists res.
Qed.
Print Assumptions C30_mult.

Example C30_example : exists P Pn vx x vy y random r zero,
  [/\ setting g4 3 1 1 P Pn, (1 + 1 <= 3.-1)%N, sharings g4 3 1 (default_pos g4 3 1) 1 vx x,
      sharings g4 3 1 (default_pos g4 3 1) 1 vy y &
  [/\ sharings g4 3 1 (default_pos g4 3 1) 1 random r,
      sharings g4 3 2 (default_pos g4 3 1) 1 zero (fun _ => nseq 1 0) &
      [seq gval a | a <- vmul (x 0%N) (y 0%N)] = [:: 6]%num]].
Proof.
  have [P [Pn HS]] := setting4. exists P, Pn.
  pose v c := (fun i => [seq ('X + (g4 c)%:P : {poly gf w4}).[g4 i] | j <- iota 0 1]) : nat -> seq (gf w4).
  pose s c := (fun j => evals ('X + (g4 c)%:P) (default_pos g4 3 1)) : nat -> seq (gf w4).
  have S c : sharings g4 3 1 (default_pos g4 3 1) 1 (v c) (s c).
  { apply: (@sharings_poly _ g4 3 1 _ 1 (fun j => 'X + (g4 c)%:P)) => j _. by rewrite size_XaddC. }
  exists (v 1%N), (s 1%N), (v 0%N), (s 0%N), (v 2%N), (s 2%N).
  exists (fun i => [seq ('X - (g4 3)%:P : {poly gf w4}).[g4 i] | j <- iota 0 1]).
  split; [exact: HS|by []|exact: S|exact: S|]. split; first exact: S.
  - have H := (@sharings_poly _ g4 3 2 (default_pos g4 3 1) 1 (fun j => 'X - (g4 3)%:P)).
    apply: sharings_ext (H _) => // [j _|_ _]; last by rewrite size_XsubC.
    by rewrite /evals /= hornerXsubC subrr.
  - rewrite /evals /= !hornerD !hornerX !hornerC. by vm_compute.
Qed.

(** ** C31 *)

Theorem C31_trans : forall (F : fieldType) (emb : nat -> F) (I D : eqType) ser de fits n t l P Pn
    (id : I) num L (coin : nat -> nat -> nat -> F) opos npos f vx x random random_n r,
  @codec_ok F D ser de fits -> setting emb n t l P Pn -> (L < n)%N -> fits num ->
  good_pos emb n opos -> good_pos emb n npos -> (size npos <= t + l)%N ->
  size f = size npos -> all (fun i => (i < size opos)%N) f ->
  sharings emb n n.-1 opos num vx x ->
  sharings emb n n.-1 opos num random_n r ->
  sharings emb n (t + l).-1 npos num random (fun j => pick f (r j)) ->
  every_run_ends n
    (start (fun i => trans emb ser de (Ctx i n t l P Pn) id (vx i) (random i) (random_n i) (ST opos npos f) L (coin i)
                       (fun y => Ret (Leaf [:: y]))))
    (fun c => exists res, all_done n (fun i => Leaf [:: res i]) c /\
                          sharings emb n (t + l).-1 npos num res (fun j => pick f (x j))).
Proof.
  move=> F emb I D ser de fits n t l P Pn id num L coin opos npos f vx x random random_n r serK HS HL Hf Ho Hnp Hl Hs Hfo Sx Sn Sr.
  have Hn := setting_n HS. have [Ht HP _ _] := HS.
  have Hdn : ((t + l).-1 < n)%N by move: HP; rewrite /pss_new; case: ifP.
  have Hl' : (size npos <= (t + l).-1.+1)%N by rewrite prednK.
  have [rd [res [R S]]] := @trans_ok _ emb I D ser de fits serK n t l P Pn Hn opos npos f Hdn Ho Hnp Hl' Hs Hfo
     id num L coin vx x random random_n r HL Hf Sx Sn Sr.
  apply: ends_mono (one_round (ser [::]) (fun y => Leaf [:: y]) Hn R) => c Hc. by exists res.
Qed.
Print Assumptions C31_trans.

Example C31_example : exists P Pn vx x random random_n r,
  [/\ setting g4 3 1 1 P Pn, good_pos g4 3 [:: g4 4; g4 5] & good_pos g4 3 [:: g4 6; g4 7]] /\
  [/\ (2 <= 1 + 1)%N,
      all (fun i => (i < 2)%N) [:: 1; 0]%N,
      sharings g4 3 2 [:: g4 4; g4 5] 1 vx x, sharings g4 3 2 [:: g4 4; g4 5] 1 random_n r &
  sharings g4 3 1 [:: g4 6; g4 7] 1 random (fun j => pick [:: 1; 0]%N (r j)) /\
  [seq gval a | a <- pick [:: 1; 0]%N (x 0%N)] = [:: 5; 4]%num].
Proof.
  have [P [Pn HS]] := setting4. exists P, Pn.
  (* at 4, 5 the polynomial X + 2 takes the values of X + 1 at 7, 6 *)
  exists (fun i => [seq ('X + (g4 0)%:P : {poly gf w4}).[g4 i] | j <- iota 0 1]),
         (fun j => evals ('X + (g4 0)%:P) [:: g4 4; g4 5]).
  exists (fun i => [seq ('X + (g4 1)%:P : {poly gf w4}).[g4 i] | j <- iota 0 1]).
  exists (fun i => [seq ('X + (g4 2)%:P : {poly gf w4}).[g4 i] | j <- iota 0 1]),
         (fun j => evals ('X + (g4 2)%:P) [:: g4 4; g4 5]).
  split; first by split=> //; vm_compute.
  split=> //.
  - apply: (@sharings_poly _ g4 3 2 _ 1 (fun j => 'X + (g4 0)%:P)) => j _. by rewrite size_XaddC.
  - apply: (@sharings_poly _ g4 3 2 _ 1 (fun j => 'X + (g4 2)%:P)) => j _. by rewrite size_XaddC.
  - split.
    + have H := (@sharings_poly _ g4 3 1 [:: g4 6; g4 7] 1 (fun j => 'X + (g4 1)%:P)).
      apply: sharings_ext (H _) => // [j _|_ _]; last by rewrite size_XaddC.
      rewrite /evals /pick /= !hornerD !hornerX !hornerC.
      congr [:: _; _]; apply: gf_inj; by vm_compute.
    + rewrite /evals /pick /= !hornerD !hornerX !hornerC. by vm_compute.
Qed.

(** ** C32 *)

(** A transformation from [opos] to [npos] by [f]. *)
Definition transform_ok (F : fieldType) (emb : nat -> F) n l (x : seq F * seq F * seq nat) : Prop :=
  let: (opos, npos, f) := x in
  [/\ good_pos emb n opos, good_pos emb n npos, (size opos <= l)%N, (size npos <= l)%N &
      size f = size npos /\ all (fun i => (i < size opos)%N) f].

(** [RandSharingTransform::new] does not panic, and every schedule of
    [randtrans] ends with everybody holding, for transformation [k] and column
    [j], shares of [f_k r] at the new positions and of [r] at the old ones,
    where [r] collects slot [k] of the secrets of the random sharings
    [j, num + j, 2 num + j, ...]. *)
Theorem C32_randtrans : forall (F : fieldType) (emb : nat -> F) (I D : eqType) ser de fits n t l P Pn
    (id : I) num (tf : seq (seq F * seq F * seq nat)) randoms zeros R,
  @codec_ok F D ser de fits -> setting emb n t l P Pn -> fits (2 * num)%N ->
  (t + 2 * l <= n)%N -> (size tf <= l)%N ->
  let none := ([::], [::], [::]) in
  (forall k, (k < size tf)%N -> transform_ok emb n l (nth none tf k)) ->
  let pos := default_pos emb n l in
  sharings emb n (t + l).-1 pos ((n + t) * num) randoms R ->
  sharings emb n n.-1 pos (2 * n * num) zeros (fun _ => nseq l 0) ->
  exists rt, (forall i, (i < n)%N -> rt_new emb (Ctx i n t l P Pn) tf = Some (rt i)) /\
  every_run_ends n
    (start (fun i => randtrans ser de (Ctx i n t l P Pn) id (randoms i) (zeros i) (rt i)
                       (fun y => Ret (Node [:: Leaf y.1; Leaf y.2]))))
    (fun c => exists out, all_done n (fun i => Node [:: Leaf (out i).1; Leaf (out i).2]) c /\
       forall k, (k < size tf)%N ->
         let: (opos, npos, f) := nth none tf k in
         let r := fun j => [seq nth 0 (R (c * num + j)%N) k | c <- iota 0 (size opos)] in
         sharings emb n (t + l).-1 npos num (fun i => nth [::] (out i).1 k) (fun j => pick f (r j)) /\
         sharings emb n n.-1 opos num (fun i => nth [::] (out i).2 k) r).
Proof.
  move=> F emb I D ser de fits n t l P Pn id num tf randoms zeros R serK HS Hf Htl Hm none Htf pos Sr Sz.
  have Hn := setting_n HS. have [Ht HP HPn Hg] := HS.
  have HKl : (t + l + l <= n)%N by lia.
  have Htf' : forall k, (k < size tf)%N -> tf_ok emb n l (nth ([::], [::], [::]) tf k).
  { move=> k Hk. have := Htf k Hk. rewrite /transform_ok /tf_ok /none. by case: (nth _ tf k) => [[o p] f]. }
  exists (rts emb n t l tf). split.
  { move=> i Hi. exact: (@rt_newE _ emb n t l P Pn Hn Ht HKl tf Hm Htf' i Hi). }
  have R1 := @randtrans_realizes _ emb _ D ser de fits serK n t l P Pn Hn HPn Ht HKl tf Hm num randoms zeros R Hf Sr Sz id.
  apply: ends_mono (one_round (ser [::]) (fun y => Node [:: Leaf y.1; Leaf y.2]) Hn R1) => c Hc.
  eexists. split; first exact: Hc. move=> k Hk.
  have := @randtrans_out _ emb n t l Hn Hg Ht HKl tf Hm Htf' num randoms zeros R Sr Sz k Hk.
  rewrite /rt_sec /none. by case: (nth _ tf k) => [[o p] f].
Qed.
Print Assumptions C32_randtrans.

Example C32_example : exists P Pn randoms R zeros,
  [/\ setting g4 3 1 1 P Pn, (1 + 2 * 1 <= 3)%N,
      transform_ok g4 3 1 ([:: g4 4], [:: g4 5], [:: 0%N]),
      sharings g4 3 1 (default_pos g4 3 1) ((3 + 1) * 1) randoms R &
      sharings g4 3 2 (default_pos g4 3 1) (2 * 3 * 1) zeros (fun _ => nseq 1 0) /\
      [seq gval a | a <- R 0%N ++ R 1%N] = [:: 3; 2]%num].
Proof.
  have [P [Pn HS]] := setting4. exists P, Pn.
  exists (fun i => [seq ('X + (g4 j)%:P : {poly gf w4}).[g4 i] | j <- iota 0 4]),
         (fun j => evals ('X + (g4 j)%:P) (default_pos g4 3 1)).
  exists (fun i => [seq ('X - (g4 3)%:P : {poly gf w4}).[g4 i] | j <- iota 0 6]).
  split; [exact: HS|by []|by split; [vm_compute|vm_compute| | |split]| |].
  - apply: (@sharings_poly _ g4 3 1 _ 4 (fun j => 'X + (g4 j)%:P)) => j _. by rewrite size_XaddC.
  - split.
    + have H := (@sharings_poly _ g4 3 2 (default_pos g4 3 1) 6 (fun j => 'X - (g4 3)%:P)).
      apply: sharings_ext (H _) => // [j _|_ _]; last by rewrite size_XsubC.
      by rewrite /evals /= hornerXsubC subrr.
    + rewrite /evals /= !hornerD !hornerX !hornerC. by vm_compute.
Qed.

(** ** C33 *)

Theorem C33_leader_is_a_party : forall (T : Type) (hash : T -> N) (id : T) n,
  (1 <= n <= 2 ^ 16)%N -> exists2 L, leader_from_proto_id hash id n = Some L & (L < n)%N.
Proof.
  move=> T hash id n /andP [H1 H2]. rewrite /leader_from_proto_id.
  case: n H1 H2 => // n _ H2.
  have Hlt : (N.to_nat (N.modulo (hash id) (N.of_nat n.+1)) < n.+1)%N.
  { have := N.mod_lt (hash id) (N.of_nat n.+1). lia. }
  rewrite (leq_trans Hlt H2). by eexists; first reflexivity.
Qed.
Print Assumptions C33_leader_is_a_party.

(** Without parties the remainder panics. *)
Theorem C33_no_parties_panics : forall (T : Type) (hash : T -> N) (id : T), leader_from_proto_id hash id 0 = None.
Proof. by []. Qed.
Print Assumptions C33_no_parties_panics.

(** Different hashes elect different leaders: the choice is onto the parties. *)
Theorem C33_every_party_can_lead : forall n L, (L < n <= 2 ^ 16)%N ->
  leader_from_proto_id (fun x : N => x) (N.of_nat L) n = Some L.
Proof.
  move=> n L /andP [H1 H2]. rewrite /leader_from_proto_id. case: n H1 H2 => // n H1 H2.
  rewrite N.mod_small; last by lia. by rewrite Nat2N.id (leq_trans H1 H2).
Qed.
Print Assumptions C33_every_party_can_lead.

Example C33_example : leader_from_proto_id (fun x : N => x) 1000003%num 7 = Some 4%N.
Proof. by vm_compute. Qed.

(** ** C49 *)

(** The data of the first message a code sends. *)
Definition first_sent (I D : eqType) (V : Type) (p : proc I D V) : option D :=
  if p is Send _ _ d _ then Some d else None.

(** Column [j] is masked with a polynomial [(rz j).1] of degree t+l-1 and a
    polynomial [(rz j).2] of degree n-1 that vanishes at the secret positions.
    Whatever the input shares [vx] are, every matrix [v] of messages to the
    leader arises from the same number of masks: the leader's view is uniform
    and independent of the inputs. *)
Theorem C49_leader_view_uniform : forall (F : finFieldType) (emb : nat -> F) (I D : eqType) ser de fits n t l P Pn
    (id : I) num L (coin : nat -> nat -> nat -> F) (k : seq F -> proc I D (val F)) (vx v : nat -> seq F),
  @codec_ok F D ser de fits -> setting emb n t l P Pn -> fits num ->
  (forall i, (i < n)%N -> size (vx i) = num) -> (forall i, (i < n)%N -> size (v i) = num) ->
  #|[set rz : {ffun 'I_num -> (t + l).-1.+1.-tuple F * n.-tuple F} |
      [forall j, all (root (Poly (rz j).2)) (default_pos emb n l)] &&
      [forall i : 'I_n,
         first_sent (reduce_degree ser de (Ctx i n t l P Pn) id (vx i)
            [seq (Poly (rz j).1).[emb i] | j <- enum 'I_num] [seq (Poly (rz j).2).[emb i] | j <- enum 'I_num]
            L (coin i) k) == Some (ser (v i))]]| = ((#|F| ^ t) ^ num)%N.
Proof.
  move=> F emb I D ser de fits n t l P Pn id num L coin k vx v serK HS Hf Hx Hv.
  have [Ht HP HPn Hg] := HS.
  have Hdn : ((t + l).-1.+1 <= n)%N by move: HP; rewrite /pss_new; case: ifP.
  have Hl : (size (default_pos emb n l) <= (t + l).-1.+1)%N by rewrite size_default prednK // leq_addl.
  pose col (u : nat -> seq F) (j : 'I_num) := [seq nth 0 (u i) j | i <- iota 0 n].
  pose Fam (j : 'I_num) := [set rz | explains emb (default_pos emb n l) (col vx j) (col v j) rz] : {set (t + l).-1.+1.-tuple F * n.-tuple F}.
  have Inj a b : size a = num -> size b = num -> ser a = ser b -> a = b.
  { move=> Ha Hb E. have E1 : de (ser a) = Some a by apply: serK; rewrite Ha.
    have E2 : de (ser b) = Some b by apply: serK; rewrite Hb.
    by move: E1; rewrite E E2 => -[]. }
  transitivity #|[set rz : {ffun 'I_num -> (t + l).-1.+1.-tuple F * n.-tuple F} | [forall j, rz j \in Fam j]]|.
  - congr (#|pred_of_set _|). apply/setP => rz. rewrite !inE.
    have E (i : 'I_n) : (first_sent (reduce_degree ser de (Ctx i n t l P Pn) id (vx i)
            [seq (Poly (rz j).1).[emb i] | j <- enum 'I_num] [seq (Poly (rz j).2).[emb i] | j <- enum 'I_num]
            L (coin i) k) == Some (ser (v i))) =
          [forall j : 'I_num, nth 0 (vx i) j + (Poly (rz j).1).[emb i] + (Poly (rz j).2).[emb i] == nth 0 (v i) j].
    { have Sm (f : 'I_num -> F) : size [seq f j | j <- enum 'I_num] = num by rewrite size_map size_enum_ord.
      rewrite /reduce_degree !Sm Hx // eqxx /=.
      set a := zipw _ _ _.
      have Sa : size a = num by rewrite /a !size_zipw !Sm Hx // !minnn.
      have Ea (j : 'I_num) : nth 0 a j = nth 0 (vx i) j + (Poly (rz j).1).[emb i] + (Poly (rz j).2).[emb i].
      { rewrite /a nth_zipw ?size_zipw ?Sm ?Hx ?minnn //.
        rewrite nth_zipw ?Sm ?Hx //.
        have En (f : 'I_num -> F) : nth 0 [seq f j | j <- enum 'I_num] j = f j.
        { rewrite (nth_map j); first by rewrite nth_ord_enum. by rewrite size_enum_ord. }
        by rewrite !En. }
      apply/eqP/forallP => [[Es] j|H].
      - by rewrite -Ea (Inj a (v i)) ?Hv.
      - congr (Some (ser _)). apply: (@eq_from_nth _ 0); rewrite Sa ?Hv // => m Hm.
        have := eqP (H (Ordinal Hm)). by rewrite -Ea. }
    apply/andP/forallP => [[/forallP H1 /forallP H2] j|H].
    + rewrite inE /explains H1 /=. apply/allP => i. rewrite mem_iota /= => Hi.
      have := H2 (Ordinal Hi). rewrite E => /forallP /(_ j).
      by rewrite /col !(nth_map 0%N) ?size_iota // nth_iota.
    + split; apply/forallP; first by move=> j; have := H j; rewrite inE => /andP [].
      move=> i. rewrite E. apply/forallP => j. have := H j. rewrite inE => /andP [_ /allP H'].
      have Hi : (i : nat) \in iota 0 n by rewrite mem_iota /=.
      have := H' _ Hi. by rewrite /col !(nth_map 0%N) ?size_iota // nth_iota.
  - have -> : #|[set rz : {ffun 'I_num -> (t + l).-1.+1.-tuple F * n.-tuple F} | [forall j, rz j \in Fam j]]| =
        #|(family (fun j => mem (Fam j)) : simpl_pred _)|.
    { rewrite cardsE. apply: eq_card => rz. rewrite !inE. by []. }
    rewrite card_family /image_mem.
    have Hc j : #|Fam j| = (#|F| ^ t)%N.
    { rewrite (count_explains Hg Hdn Hl) size_default prednK //. by rewrite addnK. }
    rewrite (eq_map (f2 := fun _ => (#|F| ^ t)%N)); last by move=> j; exact: Hc.
    have -> : forall (T : Type) (s : seq T) (a : nat), foldr muln 1%N [seq a | _ <- s] = (a ^ size s)%N.
    { move=> T s a. elim: s => //= _ s ->. by rewrite expnS. }
    by rewrite -cardT card_ord.
Qed.
Print Assumptions C49_leader_view_uniform.

Example C49_example : exists P Pn, setting g4 3 1 1 P Pn /\
  codec_ok (@gser w4) (@gde w4) len_ok /\ len_ok 2 /\
  (forall i, (i < 3)%N -> size [:: g4 i; g4 9] = 2%N).
Proof. have [P [Pn HS]] := setting4. exists P, Pn. do !split=> //. exact: gserK. Qed.

(** C20 and C21: protocol ids. *)

From Coq Require Import Arith NArith List Bool Lia.
From Verif Require Import CodecModel CircuitModel ProtoIdModel ProtoIdProofs.
Import ListNotations.
Local Open Scope N_scope.

(** ** C20: ids are unique *)

(** Ids handed out before the first [None] are distinct, of one length, and
    proper extensions of the parent. *)
Theorem C20_builder_ids_distinct : forall parent num b k ids,
  builder_new parent num = Some b -> builder_run k b = map Some ids ->
  NoDup ids /\ length ids = k /\
  (forall c, In c ids -> exists s, s <> [] /\ c = parent ++ s) /\
  (forall c d, In c ids -> In d ids -> length c = length d).
Proof.
  intros parent num b k ids Hb Hr. destruct (run_distinct _ _ _ _ _ Hb Hr) as (A & B & C & D). repeat split; try assumption.
  - intros c HI. destruct (C c HI) as (s & E & L). exists s. split; [|assumption]. intros ->.
    specialize (D c HI). rewrite E, app_nil_r in D. lia.
  - intros c d H1 H2. destruct (C c H1) as (s & -> & L1), (C d H2) as (u & -> & L2). rewrite !app_length. congruence.
Qed.
Print Assumptions C20_builder_ids_distinct.

Example C20_builder_example :
  builder_run 3 (Builder [7] [254; 0]) = [Some [7; 254; 0]; Some [7; 255; 0]; Some [7; 0; 1]] /\
  option_map (builder_run 3) (builder_new [7] 300) = Some (map Some [[7; 0; 0]; [7; 1; 0]; [7; 2; 0]]).
Proof. split; reflexivity. Qed.

(** The ids reachable from [p] through any number of nested builders. *)
Inductive below : pid -> pid -> Prop :=
| below_child p num b k ids c :
    builder_new p num = Some b -> builder_run k b = map Some ids -> In c ids -> below p c
| below_deeper p c d : below p c -> below c d -> below p d.

Lemma below_ext p c : below p c -> ext p c /\ (length p < length c)%nat.
Proof.
  induction 1 as [p num b k ids c Hb Hr HI|p c d _ [E1 L1] _ [E2 L2]].
  - destruct (run_distinct _ _ _ _ _ Hb Hr) as (_ & _ & C & D). destruct (C c HI) as (s & E & _).
    split; [now exists s|now apply D].
  - split; [now apply ext_trans with c|lia].
Qed.

(** Nothing at or below one child of a builder equals anything at or below
    another child, and an id is never below itself. *)
Theorem C20_subtrees_disjoint : forall parent num b k ids c d x,
  builder_new parent num = Some b -> builder_run k b = map Some ids ->
  In c ids -> In d ids -> c <> d -> c = x \/ below c x -> ~ (d = x \/ below d x).
Proof.
  intros parent num b k ids c d x Hb Hr Hc Hd HN Hx Hy. apply HN.
  destruct (C20_builder_ids_distinct _ _ _ _ _ Hb Hr) as (_ & _ & _ & L).
  assert (E : forall e, e = x \/ below e x -> ext e x).
  { intros e [->|H]; [apply ext_refl|]. now apply below_ext. }
  apply (ext_len_inj c d x); [now apply L|now apply E..].
Qed.
Print Assumptions C20_subtrees_disjoint.

Theorem C20_never_below_itself : forall p, ~ below p p.
Proof. intros p H. apply below_ext in H as [_ H]. lia. Qed.
Print Assumptions C20_never_below_itself.

Example C20_subtrees_example : below [] [1; 0] /\ below [2] [2; 3] /\ [1] <> [2].
Proof.
  repeat split.
  - apply below_deeper with [1].
    + apply (below_child [] 5 (Builder [] [0]) 2 [[0]; [1]]); [reflexivity..|simpl; auto].
    + apply (below_child [1] 2 (Builder [1] [0]) 1 [[1; 0]]); [reflexivity..|simpl; auto].
  - apply (below_child [2] 9 (Builder [2] [0]) 4 [[2; 0]; [2; 1]; [2; 2]; [2; 3]]); [reflexivity..|simpl; auto].
  - discriminate.
Qed.

(** Every id on which one invocation of [garble] exchanges messages is
    different from all the others. *)
Theorem C20_garble_ids_distinct : forall id c l ids, garble_ids id c l = Some ids ->
  NoDup ids /\ forall x, In x ids -> exists s, s <> [] /\ x = id ++ s.
Proof.
  intros id c l ids E. unfold garble_ids in E. cbv zeta in E.
  destruct (num_batches _ l) as [ro|]; cbn [obind] in E; [|discriminate].
  destruct (num_batches _ l) as [ri|]; cbn [obind] in E; [|discriminate].
  destruct (take_ids id _ _) as [is|] eqn:T; cbn [obind] in E; [|discriminate].
  destruct (take_ids_spec _ _ _ _ T) as (ND & L & X & D & EL).
  destruct is as [|i0 [|i1 [|i2 [|i3 gids]]]]; try discriminate.
  destruct (gen_rand_ids i0 ro) as [a|] eqn:Ea; cbn [obind] in E; [|discriminate].
  destruct (gen_rand_ids i1 ri) as [b|] eqn:Eb; cbn [obind] in E; [|discriminate].
  destruct (transform_ids i2 _) as [d|] eqn:Ed; cbn [obind] in E; [|discriminate].
  destruct (transform_ids i3 _) as [e|] eqn:Ee; cbn [obind] in E; [|discriminate].
  destruct (omapM _ _) as [f|] eqn:Ef; cbn [obind] in E; [|discriminate]. injection E as <-.
  cbn [length Nat.add] in L. apply gates_forall2 in Ef; [|lia].
  apply take_ids_spec in Ea as (Na & _ & Xa & _), Eb as (Nb & _ & Xb & _), Ed as (Nd & _ & Xd & _), Ee as (Ne & _ & Xe & _).
  replace (a ++ b ++ d ++ e ++ concat f) with (concat (a :: b :: d :: e :: f)) by reflexivity.
  assert (F : Forall2 (fun p l => NoDup l /\ forall x, In x l -> ext p x) (i0 :: i1 :: i2 :: i3 :: gids) (a :: b :: d :: e :: f)).
  { repeat (constructor; [now split|]). assumption. }
  split; [now apply (nodup_concat_ext _ _ F)|].
  intros x Hx. apply in_concat in Hx as (m & Hm & Hx).
  assert (Q : exists q, In q (i0 :: i1 :: i2 :: i3 :: gids) /\ ext q x).
  { clear - F Hm Hx. induction F as [|q l' ps ls [_ E] H IH]; [destruct Hm|]. destruct Hm as [->|Hm].
    - exists q. split; [now left|now apply E].
    - destruct (IH Hm) as (q' & A & B). exists q'. split; [now right|assumption]. }
  destruct Q as (q & Hq & [u ->]). destruct (X q Hq) as [s ->]. exists (s ++ u). split; [|now rewrite app_assoc].
  specialize (D _ Hq). rewrite app_length in D. destruct s; [simpl in D; lia|discriminate].
Qed.
Print Assumptions C20_garble_ids_distinct.

Theorem C20_preproc_ids_distinct : forall id n ids, preproc_ids id n = Some ids ->
  NoDup ids /\ length ids = (3 + 2 * N.to_nat n)%nat.
Proof. intros id n ids E. apply take_ids_spec in E as (A & B & _). now split. Qed.
Print Assumptions C20_preproc_ids_distinct.

Definition small_pc : pcircuit :=
  PCircuit [PAnd [0; 1] [1; 2] [3; 4]; PInv [3] [5]] [[0; 1]; [2]] [[5]] 6 2.

Example C20_garble_example :
  garble_ids [9] small_pc 2 =
    Some [[9; 0; 0]; [9; 0; 1]; [9; 1; 0]; [9; 1; 1];
          [9; 2; 0]; [9; 2; 1]; [9; 2; 2]; [9; 2; 3]; [9; 3; 0]; [9; 3; 1]; [9; 3; 2];
          [9; 4; 0]; [9; 4]; [9; 5]] /\
  preproc_ids [1] 2 = Some [[1; 0]; [1; 1]; [1; 2]; [1; 3]; [1; 4]; [1; 5]; [1; 6]].
Proof. split; reflexivity. Qed.

(** ** C21: enough ids *)

(** The number of ids a builder hands out before its first [None]. *)
Theorem C21_capacity : forall parent num b, builder_new parent num = Some b ->
  let cap := 256 ^ num_bytes num - 1 in
  (exists ids, builder_run (N.to_nat cap) b = map Some ids) /\
  nth_error (builder_run (N.to_nat cap + 1) b) (N.to_nat cap) = Some None.
Proof.
  intros parent num b Hb cap. split.
  - destruct (run_capacity _ _ _ Hb) as (ids & E & _). now exists ids.
  - assert (HN : num <= 2 ^ 63).
    { unfold builder_new in Hb. destruct (N.leb_spec num (2 ^ 63)); [assumption|discriminate]. }
    rewrite new_ok in Hb by assumption. injection Hb as <-.
    unfold cap. rewrite <- cap_pow. set (m := N.to_nat (num_bytes num)). assert (P := pow256_pos m).
    rewrite run_ok by assumption. set (Q := 256 ^ N.of_nat m) in *.
    rewrite nth_error_map, (nth_error_nth' _ 0%nat) by (rewrite seq_length; lia).
    rewrite seq_nth by lia. cbn [option_map]. cbv zeta. rewrite Nat.add_0_l, N.add_0_l, N2Nat.id, N.mod_small by lia.
    destruct (N.ltb_spec (Q - 1 + 1) Q); [lia|reflexivity].
Qed.
Print Assumptions C21_capacity.

(** A builder made for [num] children supplies them exactly when [num] is not
    a power of 256. *)
Theorem C21_supplies_num_iff : forall parent num b, builder_new parent num = Some b ->
  ((exists ids, builder_run (N.to_nat num) b = map Some ids) <-> ~ exists k, num = 256 ^ k).
Proof.
  intros parent num b Hb. rewrite <- capacity_iff. split.
  - intros [ids E]. destruct (run_prefix _ _ _ _ _ Hb E) as [_ K]. now rewrite N2Nat.id in K.
  - intro K. destruct (run_capacity _ _ _ Hb) as (ids & E & _).
    exists (firstn (N.to_nat num) ids). rewrite (run_firstn (N.to_nat (capacity num))) by lia. now rewrite E, firstn_map.
Qed.
Print Assumptions C21_supplies_num_iff.

(** So the documented upper bound is not one. *)
Theorem C21_supplies_num_refuted : ~ forall parent num b, builder_new parent num = Some b ->
  exists ids, builder_run (N.to_nat num) b = map Some ids.
Proof.
  intro H. specialize (H [] 1 (Builder [] []) eq_refl). destruct H as [ids E]. change (N.to_nat 1) with 1%nat in E.
  destruct ids; discriminate.
Qed.
Print Assumptions C21_supplies_num_refuted.

Example C21_examples :
  option_map (builder_run 1) (builder_new [3] 1) = Some [None] /\
  option_map (fun b => nth_error (builder_run 256 b) 255) (builder_new [3] 256) = Some (Some None) /\
  option_map (fun b => nth_error (builder_run 257 b) 256) (builder_new [3] 257) = Some (Some (Some [3; 0; 1])).
Proof. repeat split; vm_compute; reflexivity. Qed.

(** After a [None] the counter starts over and ids repeat. *)
Theorem C21_repeats_after_none : forall parent num b, builder_new parent num = Some b -> 0 < num_bytes num ->
  nth_error (builder_run (N.to_nat (256 ^ num_bytes num) + 1) b) (N.to_nat (256 ^ num_bytes num)) =
  nth_error (builder_run 1 b) 0.
Proof.
  intros parent num b Hb HB.
  assert (HN : num <= 2 ^ 63).
  { unfold builder_new in Hb. destruct (N.leb_spec num (2 ^ 63)); [assumption|discriminate]. }
  rewrite new_ok in Hb by assumption. injection Hb as <-.
  rewrite <- cap_pow. set (m := N.to_nat (num_bytes num)) in *. assert (P := pow256_pos m).
  rewrite !run_ok by assumption. set (Q := 256 ^ N.of_nat m) in *.
  rewrite !nth_error_map, !(nth_error_nth' _ 0%nat) by (rewrite seq_length; lia).
  rewrite !seq_nth by lia. cbn [option_map]. cbv zeta.
  now rewrite !Nat.add_0_l, !N.add_0_l, N2Nat.id, N.mod_same, N.mod_0_l by lia.
Qed.
Print Assumptions C21_repeats_after_none.

(** [garble] can name its subprotocols exactly when none of its five block
    counts is a power of 256. *)
Theorem C21_garble_names_subprotocols_iff : forall id c l,
  let ng := N.of_nat (length (p_gates c)) in
  let nb := N.of_nat (length (p_inputs c)) + ng in
  let ni := num_inp_blocks (p_gates c) in
  0 < l -> nb <= 2 ^ 62 -> ni <= 2 ^ 62 -> ng <= 2 ^ 62 ->
  ((exists ids, garble_ids id c l = Some ids) <->
   forall x, In x [4 + ng; nb; ni; (nb + l - 1) / l; (ni + l - 1) / l] -> ~ exists k, x = 256 ^ k).
Proof.
  intros id c l ng nb ni Hl H1 H2 H3.
  assert (B62 : 2 ^ 62 + 4 <= 2 ^ 63) by (apply N.leb_le; reflexivity).
  unfold garble_ids. cbv zeta. fold ng. fold nb. fold ni.
  unfold num_batches. destruct (N.eqb_spec l 0); [lia|]. cbn [obind].
  assert (C1 : (nb + l - 1) / l <= 2 ^ 63) by (apply N.div_le_upper_bound; nia).
  assert (C2 : (ni + l - 1) / l <= 2 ^ 63) by (apply N.div_le_upper_bound; nia).
  set (ro := (nb + l - 1) / l) in *. set (ri := (ni + l - 1) / l) in *.
  assert (K : forall p x, x <= 2 ^ 63 -> ((exists ids, take_ids p x (N.to_nat x) = Some ids) <-> ~ exists k, x = 256 ^ k)).
  { intros p x Hx. rewrite (take_ids_some p x) by assumption. rewrite N2Nat.id. apply capacity_iff. }
  assert (K4 : forall p, ((exists ids, take_ids p (4 + ng) (4 + length (p_gates c)) = Some ids) <-> ~ exists k, 4 + ng = 256 ^ k)).
  { intro p. rewrite <- (K p) by lia. replace (N.to_nat (4 + ng)) with (4 + length (p_gates c))%nat by (unfold ng; lia). reflexivity. }
  assert (G : forall gs gids, exists f, omapM (fun x => gate_ids (fst x) (snd x)) (combine gs gids) = Some f).
  { clear. intros gs. induction gs as [|g gs IH]; intros [|i gids]; cbn [combine omapM]; eauto.
    destruct (IH gids) as [f E]. rewrite E.
    assert (exists a, gate_ids g i = Some a) as [a Ea].
    { destruct g; simpl; eauto. }
    cbn [fst snd]. rewrite Ea. cbn [obind]. eauto. }
  split.
  - intros [ids E]. destruct (take_ids id _ _) as [is|] eqn:T; cbn [obind] in E; [|discriminate].
    destruct is as [|i0 [|i1 [|i2 [|i3 gids]]]]; try discriminate.
    destruct (gen_rand_ids i0 ro) as [a|] eqn:Ea; cbn [obind] in E; [|discriminate].
    destruct (gen_rand_ids i1 ri) as [b|] eqn:Eb; cbn [obind] in E; [|discriminate].
    destruct (transform_ids i2 _) as [d|] eqn:Ed; cbn [obind] in E; [|discriminate].
    destruct (transform_ids i3 _) as [e|] eqn:Ee; cbn [obind] in E; [|discriminate].
    intros x Hx. destruct Hx as [X|[X|[X|[X|[X|[]]]]]]; rewrite <- X;
      [apply (proj1 (K4 id))|apply (proj1 (K i2 nb ltac:(lia)))|apply (proj1 (K i3 ni ltac:(lia)))|apply (proj1 (K i0 ro C1))|apply (proj1 (K i1 ri C2))]; eauto.
  - intro H. destruct (proj2 (K4 id)) as [is T]; [apply H; simpl; auto|]. rewrite T. cbn [obind].
    destruct (take_ids_spec _ _ _ _ T) as (_ & L & _).
    destruct is as [|i0 [|i1 [|i2 [|i3 gids]]]]; try discriminate.
    destruct (proj2 (K i0 ro C1)) as [a Ea]; [apply H; simpl; auto|].
    destruct (proj2 (K i1 ri C2)) as [b Eb]; [apply H; simpl; auto 10|].
    destruct (proj2 (K i2 nb ltac:(lia))) as [d Ed]; [apply H; simpl; auto|].
    destruct (proj2 (K i3 ni ltac:(lia))) as [e Ee]; [apply H; simpl; auto|].
    destruct (G (p_gates c) gids) as [f Ef].
    unfold gen_rand_ids, transform_ids. rewrite Ea, Eb, Ed, Ee, Ef. cbn [obind]. eauto.
Qed.
Print Assumptions C21_garble_names_subprotocols_iff.

Example C21_garble_iff_example :
  let ng := N.of_nat (length (p_gates small_pc)) in
  let nb := N.of_nat (length (p_inputs small_pc)) + ng in
  ng = 2 /\ nb = 4 /\ num_inp_blocks (p_gates small_pc) = 3 /\ (nb + 2 - 1) / 2 = 2 /\ 0 < 2 /\ 4 <= 2 ^ 62.
Proof. repeat split; try reflexivity; apply N.leb_le; reflexivity. Qed.

(** In particular every nonempty circuit that packs into at most [l] blocks
    makes [garble] panic, and so does every circuit with 252 gate blocks. *)
Theorem C21_small_circuits_refuted : forall id c l,
  let nb := N.of_nat (length (p_inputs c)) + N.of_nat (length (p_gates c)) in
  0 < nb -> nb <= l -> garble_ids id c l = None.
Proof.
  intros id c l nb H1 H2. unfold garble_ids. cbv zeta. fold nb.
  unfold num_batches. destruct (N.eqb_spec l 0); [lia|]. cbn [obind].
  replace ((nb + l - 1) / l) with 1 by (apply N.div_unique with (nb - 1); lia).
  destruct (take_ids id _ _) as [is|]; cbn [obind]; [|reflexivity].
  now destruct is as [|i0 [|i1 [|i2 [|i3 gids]]]].
Qed.
Print Assumptions C21_small_circuits_refuted.

Theorem C21_252_gate_blocks_refuted : forall id c l, length (p_gates c) = 252%nat -> garble_ids id c l = None.
Proof.
  intros id c l H. unfold garble_ids. cbv zeta. rewrite H.
  destruct (num_batches _ l); cbn [obind]; [|reflexivity].
  destruct (num_batches _ l); cbn [obind]; [|reflexivity].
  change (4 + N.of_nat 252) with 256. destruct (take_ids id 256 (4 + 252)) as [ids|] eqn:T; [exfalso|reflexivity].
  assert (K : exists ids, take_ids id 256 (4 + 252) = Some ids) by eauto.
  apply take_ids_some in K; [|apply N.leb_le; reflexivity]. apply N.leb_le in K. vm_compute in K. discriminate.
Qed.
Print Assumptions C21_252_gate_blocks_refuted.

Example C21_refuted_examples :
  garble_ids [9] small_pc 4 = None /\ garble_ids [9] small_pc 5 = None /\
  length (repeat (PInv [0] [1]) 252) = 252%nat.
Proof. repeat split. Qed.

(** [preproc] always finds enough ids. *)
Theorem C21_preproc_names_subprotocols : forall id n, n <= 2 ^ 32 ->
  exists ids, preproc_ids id n = Some ids.
Proof.
  intros id n Hn. unfold preproc_ids.
  assert (B : 4 + 2 * 2 ^ 32 <= 2 ^ 63) by (apply N.leb_le; reflexivity).
  apply take_ids_some; [lia|].
  assert (C := capacity_iff (4 + 2 * n)).
  destruct (N.le_gt_cases (N.of_nat (3 + 2 * N.to_nat n)) (capacity (4 + 2 * n))) as [H|H]; [assumption|exfalso].
  unfold capacity, num_bytes in H.
  assert (D := N.div_mod (N.log2_up (4 + 2 * n) + 7) 8 ltac:(lia)). assert (M := N.mod_lt (N.log2_up (4 + 2 * n) + 7) 8 ltac:(lia)).
  set (b := (N.log2_up (4 + 2 * n) + 7) / 8) in *. set (r := (N.log2_up (4 + 2 * n) + 7) mod 8) in *.
  destruct (N.log2_up_spec (4 + 2 * n)) as [L1 L2]; [lia|].
  assert (B1 : 2 ^ N.log2_up (4 + 2 * n) <= 256 ^ b) by (rewrite pow256_2; apply N.pow_le_mono_r; lia).
  lia.
Qed.
Print Assumptions C21_preproc_names_subprotocols.

Example C21_preproc_example :
  option_map (@length pid) (preproc_ids [5] 126) = Some 255%nat /\ 126 <= 2 ^ 32.
Proof. split; [vm_compute; reflexivity|apply N.leb_le; reflexivity]. Qed.

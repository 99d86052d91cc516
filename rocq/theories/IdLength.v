(** Lengths of the ids of one invocation. *)

From Coq Require Import Arith NArith List Bool Lia.
From Verif Require Import CircuitModel ProtoIdModel ProtoIdProofs.
Import ListNotations.
Local Open Scope N_scope.

Lemma num_bytes_le num k : num <= 2 ^ (8 * k) -> num_bytes num <= k.
Proof.
  intro H. unfold num_bytes.
  assert (L : N.log2_up num <= 8 * k). { rewrite <- (N.log2_up_pow2 (8 * k)) by lia. now apply N.log2_up_le_mono. }
  apply N.lt_succ_r. apply N.div_lt_upper_bound; lia.
Qed.

Lemma take_ids_length parent num k ids c : take_ids parent num k = Some ids -> In c ids ->
  length c = (length parent + N.to_nat (num_bytes num))%nat.
Proof.
  unfold take_ids. intro E. destruct (builder_new parent num) as [b|] eqn:Hb; [|discriminate]. cbn [obind] in E.
  apply omapM_id_some in E. destruct (run_distinct _ _ _ _ _ Hb E) as (_ & _ & C & _). intro HI.
  destruct (C c HI) as (s & -> & L). now rewrite app_length, L.
Qed.

Lemma take_ids_short parent num k ids c m : take_ids parent num k = Some ids -> num <= 2 ^ (8 * m) -> In c ids ->
  (length c <= length parent + N.to_nat m)%nat.
Proof.
  intros E H HI. rewrite (take_ids_length _ _ _ _ _ E HI). pose proof (num_bytes_le _ _ H). lia.
Qed.

(** All ids of an invocation of [garble] are short. *)
Lemma garble_ids_short id c l ids m :
  let ng := N.of_nat (length (p_gates c)) in
  let nb := N.of_nat (length (p_inputs c)) + ng in
  let ni := num_inp_blocks (p_gates c) in
  0 < l -> 0 < m -> nb + 4 <= 2 ^ (8 * m) -> ni <= 2 ^ (8 * m) -> garble_ids id c l = Some ids ->
  (N.to_nat nb <= length ids)%nat /\ forall x, In x ids -> (length x <= length id + 2 * N.to_nat m)%nat.
Proof.
  intros ng nb ni Hl Hm H1 H2. unfold garble_ids. cbv zeta. fold ng. fold nb. fold ni.
  unfold num_batches. destruct (N.eqb_spec l 0); [lia|]. cbn [obind].
  assert (C : forall a, (a + l - 1) / l <= a).
  { intro a. apply N.lt_succ_r, N.div_lt_upper_bound; [assumption|]. nia. }
  set (q1 := (nb + l - 1) / l). set (q2 := (ni + l - 1) / l).
  assert (Q1 : q1 <= 2 ^ (8 * m)) by (specialize (C nb); unfold q1; lia).
  assert (Q2 : q2 <= 2 ^ (8 * m)) by (specialize (C ni); unfold q2; lia).
  intro E. destruct (take_ids id (4 + ng) _) as [is|] eqn:T; cbn [obind] in E; [|discriminate].
  assert (T' : forall x, In x is -> (length x <= length id + N.to_nat m)%nat).
  { intros x HI. apply (take_ids_short _ _ _ _ _ m T); [lia|assumption]. }
  assert (Ln := take_ids_spec _ _ _ _ T). destruct Ln as (_ & Ln & _).
  destruct is as [|i0 [|i1 [|i2 [|i3 gids]]]]; try discriminate.
  destruct (gen_rand_ids i0 q1) as [a|] eqn:Ea; cbn [obind] in E; [|discriminate].
  destruct (gen_rand_ids i1 q2) as [b|] eqn:Eb; cbn [obind] in E; [|discriminate].
  destruct (transform_ids i2 nb) as [d|] eqn:Ed; cbn [obind] in E; [|discriminate].
  destruct (transform_ids i3 ni) as [e|] eqn:Ee; cbn [obind] in E; [|discriminate].
  destruct (omapM _ _) as [f|] eqn:Ef; cbn [obind] in E; [|discriminate]. injection E as <-.
  split.
  - destruct (take_ids_spec _ _ _ _ Ed) as (_ & L & _). rewrite !app_length, L. lia.
  - assert (S : forall i num k js x, In i (i0 :: i1 :: i2 :: i3 :: gids) -> take_ids i num k = Some js -> num <= 2 ^ (8 * m) -> In x js ->
      (length x <= length id + 2 * N.to_nat m)%nat).
    { intros i num k js x Hi Ht Hn Hx. specialize (T' i Hi). pose proof (take_ids_short _ _ _ _ _ m Ht Hn Hx). lia. }
    assert (B : nb <= 2 ^ (8 * m)) by lia.
    intros x Hx. rewrite !in_app_iff in Hx. destruct Hx as [Hx|[Hx|[Hx|[Hx|Hx]]]].
    + now apply (S i0 _ _ _ x (or_introl eq_refl) Ea).
    + now apply (S i1 _ _ _ x (or_intror (or_introl eq_refl)) Eb).
    + apply (S i2 _ _ _ x) with (2 := Ed); simpl; auto.
    + apply (S i3 _ _ _ x) with (2 := Ee); simpl; auto.
    + apply in_concat in Hx as (js & Hj & Hx).
      assert (G : forall g i, In i gids -> forall js, gate_ids g i = Some js -> In x js -> (length x <= length id + 2 * N.to_nat m)%nat).
      { intros g i Hi js' Eg Hx'. assert (Hi' : In i (i0 :: i1 :: i2 :: i3 :: gids)) by (simpl; auto).
        assert (X : x = i -> (length x <= length id + 2 * N.to_nat m)%nat) by (intros ->; specialize (T' i Hi'); lia).
        assert (P2 : 2 <= 2 ^ (8 * m)). { change 2 with (2 ^ 1) at 1. apply N.pow_le_mono_r; lia. }
        destruct g; unfold gate_ids in Eg; try (injection Eg as <-; destruct Hx' as [<-|[]]; now apply X).
        destruct (take_ids i 2 1) as [cs|] eqn:Et; cbn [obind] in Eg; [|discriminate]. injection Eg as <-.
        apply in_app_iff in Hx' as [Hx'|[<-|[]]]; [|now apply X]. now apply (S i _ _ _ x Hi' Et). }
      clear - Ef Hj Hx G. revert gids f Ef Hj G. generalize (p_gates c) as gs.
      induction gs as [|g gs IH]; intros [|i gids] f Ef Hj G; simpl in Ef; try (injection Ef as <-; destruct Hj).
      destruct (gate_ids g i) as [a|] eqn:Eg; cbn [obind] in Ef; [|discriminate].
      destruct (omapM _ _) as [r|] eqn:R; cbn [obind] in Ef; [|discriminate]. injection Ef as <-.
      destruct Hj as [<-|Hj]; [now apply (G g i (or_introl eq_refl) a)|].
      apply (IH gids r R Hj). intros g' i' Hi'. apply G. now right.
Qed.

Lemma preproc_ids_short id n ids m : 4 + 2 * n <= 2 ^ (8 * m) -> preproc_ids id n = Some ids ->
  forall x, In x ids -> (length x <= length id + N.to_nat m)%nat.
Proof. intros H E x HI. exact (take_ids_short _ _ _ _ _ m E H HI). Qed.

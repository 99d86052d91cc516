(** The id builder counts in little endian. *)

From Coq Require Import Arith NArith List Bool Lia.
From Verif Require Import CodecModel CodecProofs CircuitModel ProtoIdModel.
Import ListNotations.
Local Open Scope N_scope.

Lemma pow256_pos m : 0 < 256 ^ N.of_nat m.
Proof. apply N.neq_0_lt_0, N.pow_nonzero. lia. Qed.

Lemma pow256_S m : 256 ^ N.of_nat (S m) = 256 * 256 ^ N.of_nat m.
Proof. rewrite Nat2N.inj_succ. apply N.pow_succ_r'. Qed.

Lemma le_bytes_0 m : le_bytes m 0 = repeat 0 m.
Proof. induction m as [|m IH]; [reflexivity|]. cbn [le_bytes repeat]. rewrite N.mod_0_l, N.div_0_l by lia. now rewrite IH. Qed.

Lemma le_bytes_len m : forall v, length (le_bytes m v) = m.
Proof. induction m as [|m IH]; intro v; simpl; [reflexivity|]. now rewrite IH. Qed.

Lemma le_bytes_inj m : forall v u, v < 256 ^ N.of_nat m -> u < 256 ^ N.of_nat m -> le_bytes m v = le_bytes m u -> v = u.
Proof.
  induction m as [|m IH]; intros v u Hv Hu E.
  - change (256 ^ N.of_nat 0) with 1 in *. lia.
  - rewrite pow256_S in *. cbn [le_bytes] in E. injection E as E1 E2.
    apply IH in E2; [|apply N.div_lt_upper_bound; lia..].
    rewrite (N.div_mod v 256), (N.div_mod u 256) by lia. congruence.
Qed.

Lemma increment_le m : forall v, v < 256 ^ N.of_nat m ->
  increment_bytes (le_bytes m v) =
    (le_bytes m ((v + 1) mod 256 ^ N.of_nat m), v + 1 <? 256 ^ N.of_nat m).
Proof.
  induction m as [|m IH]; intros v Hv.
  - change (256 ^ N.of_nat 0) with 1 in *. cbn [le_bytes increment_bytes].
    destruct (N.ltb_spec (v + 1) 1); [lia|reflexivity].
  - rewrite pow256_S in *. assert (P := pow256_pos m). set (Q := 256 ^ N.of_nat m) in *.
    cbn [le_bytes increment_bytes].
    assert (D := N.div_mod v 256 ltac:(lia)). assert (M := N.mod_lt v 256 ltac:(lia)).
    set (q := (v / 256)%N) in *. set (r := v mod 256) in *.
    assert (Hq : q < Q) by nia.
    destruct (N.eqb_spec r 255) as [E|E].
    + rewrite (IH q Hq). fold Q.
      assert (K : v + 1 = (q + 1) * 256) by lia.
      assert (K1 : (v + 1) mod (256 * Q) = ((q + 1) mod Q) * 256).
      { rewrite K, (N.mul_comm 256 Q). apply N.mul_mod_distr_r; lia. }
      rewrite K1, N.mod_mul, N.div_mul by lia. f_equal.
      destruct (N.ltb_spec (q + 1) Q), (N.ltb_spec (v + 1) (256 * Q)); try reflexivity; nia.
    + assert (K : v + 1 < 256 * Q) by nia.
      rewrite (N.mod_small (v + 1) (256 * Q)) by assumption. destruct (N.ltb_spec (v + 1) (256 * Q)); [|lia].
      f_equal. f_equal.
      * apply N.mod_unique with q; lia.
      * f_equal. apply N.div_unique with (r + 1); lia.
Qed.

(** The suffix after [v] calls, and the calls' results. *)
Lemma run_ok parent m : forall k v, v < 256 ^ N.of_nat m ->
  builder_run k (Builder parent (le_bytes m v)) =
  map (fun i => let u := (v + N.of_nat i) mod 256 ^ N.of_nat m in
                if u + 1 <? 256 ^ N.of_nat m then Some (parent ++ le_bytes m u) else None) (seq 0 k).
Proof.
  assert (P := pow256_pos m). set (Q := 256 ^ N.of_nat m) in *.
  induction k as [|k IH]; intros v Hv; [reflexivity|].
  cbn [builder_run]. unfold builder_next. cbn [b_id b_suffix]. rewrite increment_le by assumption. fold Q.
  cbn [seq map]. rewrite N.add_0_r, (N.mod_small v Q) by assumption. f_equal.
  rewrite IH by now apply N.mod_lt; lia. rewrite <- seq_shift, map_map. apply map_ext. intro i.
  rewrite N.add_mod_idemp_l by lia. rewrite Nat2N.inj_succ.
  replace (v + 1 + N.of_nat i) with (v + N.succ (N.of_nat i)) by lia. reflexivity.
Qed.

Lemma new_ok parent num : num <= 2 ^ 63 ->
  builder_new parent num = Some (Builder parent (le_bytes (N.to_nat (num_bytes num)) 0)).
Proof. intro H. unfold builder_new. rewrite (proj2 (N.leb_le _ _) H). now rewrite le_bytes_0. Qed.

Definition capacity (num : N) : N := 256 ^ num_bytes num - 1.

Lemma cap_pow num : 256 ^ N.of_nat (N.to_nat (num_bytes num)) = 256 ^ num_bytes num.
Proof. now rewrite N2Nat.id. Qed.

(** Before the first [None] the calls return [parent ++ le_bytes m i]. *)
Lemma run_prefix parent num b k ids : builder_new parent num = Some b ->
  builder_run k b = map Some ids ->
  ids = map (fun i => parent ++ le_bytes (N.to_nat (num_bytes num)) (N.of_nat i)) (seq 0 k) /\
  N.of_nat k <= capacity num.
Proof.
  intros Hb Hr. assert (HN : num <= 2 ^ 63).
  { unfold builder_new in Hb. destruct (N.leb_spec num (2 ^ 63)); [assumption|discriminate]. }
  rewrite new_ok in Hb by assumption. injection Hb as <-.
  set (m := N.to_nat (num_bytes num)) in *.
  assert (P := pow256_pos m). rewrite run_ok in Hr by assumption.
  assert (K : N.of_nat k <= capacity num).
  { unfold capacity. rewrite <- cap_pow. fold m. set (Q := 256 ^ N.of_nat m) in *.
    destruct (N.le_gt_cases (N.of_nat k) (Q - 1)) as [H|H]; [assumption|exfalso].
    assert (HI : In None (map (fun i => let u := (0 + N.of_nat i) mod Q in if u + 1 <? Q then Some (parent ++ le_bytes m u) else None) (seq 0 k))).
    { apply in_map_iff. exists (N.to_nat (Q - 1)). split; [|apply in_seq; lia].
      cbv zeta. rewrite N.add_0_l, N2Nat.id, N.mod_small by lia.
      destruct (N.ltb_spec (Q - 1 + 1) Q); [lia|reflexivity]. }
    rewrite Hr in HI. apply in_map_iff in HI as (? & ? & _). discriminate. }
  split; [|assumption].
  unfold capacity in K. rewrite <- cap_pow in K. fold m in K. set (Q := 256 ^ N.of_nat m) in *.
  assert (E : map Some ids = map Some (map (fun i => parent ++ le_bytes m (N.of_nat i)) (seq 0 k))).
  { rewrite <- Hr, map_map. apply map_ext_in. intros i Hi. apply in_seq in Hi. cbv zeta.
    rewrite N.add_0_l, N.mod_small by lia. destruct (N.ltb_spec (N.of_nat i + 1) Q); [reflexivity|lia]. }
  clear - E. revert E. generalize (map (fun i => parent ++ le_bytes m (N.of_nat i)) (seq 0 k)).
  induction ids as [|x ids IH]; intros [|y l] E; simpl in E; try discriminate; [reflexivity|].
  injection E as -> E. f_equal. now apply IH.
Qed.

Lemma run_capacity parent num b : builder_new parent num = Some b ->
  exists ids, builder_run (N.to_nat (capacity num)) b = map Some ids /\ length ids = N.to_nat (capacity num).
Proof.
  intro Hb. assert (HN : num <= 2 ^ 63).
  { unfold builder_new in Hb. destruct (N.leb_spec num (2 ^ 63)); [assumption|discriminate]. }
  rewrite new_ok in Hb by assumption. injection Hb as <-.
  set (m := N.to_nat (num_bytes num)) in *. assert (P := pow256_pos m).
  exists (map (fun i => parent ++ le_bytes m (N.of_nat i)) (seq 0 (N.to_nat (capacity num)))).
  split; [|now rewrite map_length, seq_length].
  rewrite run_ok by assumption. rewrite map_map. apply map_ext_in. intros i Hi. apply in_seq in Hi. cbv zeta.
  unfold capacity in Hi. rewrite <- cap_pow in Hi. fold m in Hi. set (Q := 256 ^ N.of_nat m) in *.
  rewrite N.add_0_l, N.mod_small by lia. destruct (N.ltb_spec (N.of_nat i + 1) Q); [reflexivity|lia].
Qed.

(** When does the capacity suffice? *)
Lemma pow256_2 b : 256 ^ b = 2 ^ (8 * b).
Proof. rewrite N.pow_mul_r. reflexivity. Qed.

Lemma capacity_iff num : num <= capacity num <-> ~ exists k, num = 256 ^ k.
Proof.
  unfold capacity, num_bytes.
  assert (D := N.div_mod (N.log2_up num + 7) 8 ltac:(lia)). assert (M := N.mod_lt (N.log2_up num + 7) 8 ltac:(lia)).
  set (b := (N.log2_up num + 7) / 8) in *. set (r := (N.log2_up num + 7) mod 8) in *.
  destruct (N.le_gt_cases num 1) as [H|H].
  - assert (L : N.log2_up num = 0) by now apply N.log2_up_eqn0.
    assert (B : b = 0) by lia. rewrite B. change (256 ^ 0) with 1.
    assert (E : num = 0 \/ num = 1) by lia. destruct E as [->| ->].
    + split; [|lia]. intros _ (k & E). assert (256 ^ k <> 0) by (apply N.pow_nonzero; lia). congruence.
    + split; [lia|]. intro HN. exfalso. apply HN. exists 0. reflexivity.
  - destruct (N.log2_up_spec num H) as [L1 L2].
    assert (B1 : 2 ^ N.log2_up num <= 256 ^ b).
    { rewrite pow256_2. apply N.pow_le_mono_r; lia. }
    split.
    + intros HC (k & ->). rewrite pow256_2 in *. rewrite N.log2_up_pow2 in * by lia.
      assert (EB : b = k) by lia. rewrite EB in HC. assert (0 < 2 ^ (8 * k)) by (apply N.neq_0_lt_0, N.pow_nonzero; lia).
      rewrite ?pow256_2 in HC. lia.
    + intro HN. destruct (N.eq_dec num (256 ^ b)) as [E|E]; [exfalso; apply HN; eauto|]. lia.
Qed.

(** ** Sets of ids *)

Definition ext (c x : pid) : Prop := exists s, x = c ++ s.

Lemma ext_len_inj c d x : length c = length d -> ext c x -> ext d x -> c = d.
Proof.
  intros L [s ->] [u E]. revert d L E. induction c as [|a c IH]; intros [|b d] L E; simpl in *; try discriminate; [reflexivity|].
  injection E as <- E. injection L as L. f_equal. now apply IH.
Qed.

Lemma ext_refl c : ext c c.
Proof. exists []. now rewrite app_nil_r. Qed.

Lemma ext_trans a b c : ext a b -> ext b c -> ext a c.
Proof. intros [s ->] [u ->]. exists (s ++ u). now rewrite app_assoc. Qed.

Lemma omapM_id_some {A} (l : list (option A)) ids : omapM (fun x => x) l = Some ids -> l = map Some ids.
Proof.
  revert ids. induction l as [|[a|] l IH]; intros ids E; cbn in E; try discriminate; [now injection E as <-|].
  destruct (omapM _ l) as [r|] eqn:R; cbn in E; [|discriminate]. injection E as <-. simpl. now rewrite (IH r).
Qed.

Lemma omapM_id_map {A} (l : list A) : omapM (fun x => x) (map Some l) = Some l.
Proof. induction l as [|a l IH]; [reflexivity|]. simpl. now rewrite IH. Qed.

Lemma NoDup_map_in {A B} (f : A -> B) l : (forall x y, In x l -> In y l -> f x = f y -> x = y) -> NoDup l -> NoDup (map f l).
Proof.
  induction l as [|a l IH]; intros Hf Hn; simpl; [constructor|]. inversion_clear Hn. constructor.
  - intro HI. apply in_map_iff in HI as (b & E & Hb). apply Hf in E; simpl; auto. now subst.
  - apply IH; [|assumption]. intros. apply Hf; simpl; auto.
Qed.

Lemma run_distinct parent num b k ids : builder_new parent num = Some b -> builder_run k b = map Some ids ->
  NoDup ids /\ length ids = k /\
  (forall c, In c ids -> exists s, c = parent ++ s /\ length s = N.to_nat (num_bytes num)) /\
  (forall c, In c ids -> (length parent < length c)%nat).
Proof.
  intros Hb Hr. destruct (run_prefix _ _ _ _ _ Hb Hr) as [-> K].
  set (m := N.to_nat (num_bytes num)) in *.
  assert (K' : N.of_nat k <= 256 ^ N.of_nat m - 1) by (unfold m; rewrite cap_pow; exact K).
  assert (A : forall c, In c (map (fun i => parent ++ le_bytes m (N.of_nat i)) (seq 0 k)) -> exists s, c = parent ++ s /\ length s = m).
  { intros c HI. apply in_map_iff in HI as (i & <- & _). exists (le_bytes m (N.of_nat i)). split; [reflexivity|apply le_bytes_len]. }
  repeat split.
  - apply NoDup_map_in; [|apply seq_NoDup]. intros i j Hi Hj E. apply in_seq in Hi, Hj. apply app_inv_head in E.
    apply le_bytes_inj in E; lia.
  - now rewrite map_length, seq_length.
  - exact A.
  - intros c HI. destruct (A c HI) as (s & -> & L). rewrite app_length.
    destruct s; simpl in *; [|lia]. exfalso. rewrite <- L in K'. change (256 ^ N.of_nat 0 - 1) with 0 in K'.
    assert (k = 0%nat) by lia. subst k. destruct HI.
Qed.

Lemma take_ids_spec parent num k ids : take_ids parent num k = Some ids ->
  NoDup ids /\ length ids = k /\ (forall c, In c ids -> ext parent c) /\ (forall c, In c ids -> (length parent < length c)%nat) /\
  (forall c d, In c ids -> In d ids -> length c = length d).
Proof.
  unfold take_ids. intro E. destruct (builder_new parent num) as [b|] eqn:Hb; [|discriminate]. cbn [obind] in E.
  apply omapM_id_some in E. destruct (run_distinct _ _ _ _ _ Hb E) as (A & B & C & D). repeat split; try assumption.
  - intros c HI. destruct (C c HI) as (s & -> & _). now exists s.
  - intros c d H1 H2. destruct (C c H1) as (s & -> & L1). destruct (C d H2) as (u & -> & L2). rewrite !app_length. congruence.
Qed.

Lemma run_firstn : forall k j b, (j <= k)%nat -> builder_run j b = firstn j (builder_run k b).
Proof.
  induction k as [|k IH]; intros [|j] b H; try reflexivity; [lia|]. cbn [builder_run].
  destruct (builder_next b) as [r b']. cbn [firstn]. f_equal. apply IH. lia.
Qed.

Lemma take_ids_some parent num k : num <= 2 ^ 63 ->
  ((exists ids, take_ids parent num k = Some ids) <-> N.of_nat k <= capacity num).
Proof.
  intro HN. unfold take_ids. rewrite new_ok by assumption. cbn [obind].
  assert (Hb := new_ok parent num HN). set (b := Builder _ _) in *. split.
  - intros [ids E]. apply omapM_id_some in E. now destruct (run_prefix _ _ _ _ _ Hb E).
  - intro K. destruct (run_capacity _ _ _ Hb) as (ids & E & L).
    exists (firstn k ids). rewrite (run_firstn (N.to_nat (capacity num))) by lia. rewrite E, firstn_map. apply omapM_id_map.
Qed.

Lemma nodup_concat_ext : forall ps ls, Forall2 (fun p l => NoDup l /\ forall x, In x l -> ext p x) ps ls ->
  NoDup ps -> (forall c d, In c ps -> In d ps -> length c = length d) -> NoDup (concat ls).
Proof.
  intros ps ls H. induction H as [|p l ps ls [N1 E1] H IH]; intros ND L; simpl; [constructor|].
  inversion_clear ND as [|? ? NI ND'].
  assert (IH' : NoDup (concat ls)) by (apply IH; [assumption|intros; apply L; simpl; auto]).
  assert (X : forall x, In x l -> In x (concat ls) -> False).
  { intros x Hx Hc. apply in_concat in Hc as (l2 & Hl2 & Hx2).
    assert (Q : exists q, In q ps /\ ext q x).
    { clear - H Hl2 Hx2. induction H as [|q l' ps ls [_ E] H IH]; [destruct Hl2|]. destruct Hl2 as [->|Hl2].
      - exists q. split; [now left|now apply E].
      - destruct (IH Hl2) as (q' & A & B). exists q'. split; [now right|assumption]. }
    destruct Q as (q & Hq & Eq). apply NI. replace p with q; [assumption|].
    apply (ext_len_inj q p x); [apply L; simpl; auto|assumption|now apply E1]. }
  clear - N1 IH' X. induction l as [|a l IH]; simpl; [assumption|]. inversion_clear N1. constructor.
  - rewrite in_app_iff. intros [|]; [contradiction|]. apply (X a); simpl; auto.
  - apply IH; [assumption|]. intros x Hx. apply X. now right.
Qed.

Lemma gate_ids_spec g id ids : gate_ids g id = Some ids -> NoDup ids /\ forall x, In x ids -> ext id x.
Proof.
  destruct g; unfold gate_ids; intro E.
  1,3: injection E as <-; split; [repeat constructor; intros []|intros x [<-|[]]; apply ext_refl].
  destruct (take_ids id 2 1) as [c|] eqn:T; cbn [obind] in E; [|discriminate]. injection E as <-.
  destruct (take_ids_spec _ _ _ _ T) as (A & B & C & D & _). split.
  - destruct c as [|c0 [|]]; try discriminate. cbn [app]. constructor; [|repeat constructor; intros []].
    intros [E|[]]. specialize (D c0 (or_introl eq_refl)). rewrite E in D. exact (Nat.lt_irrefl _ D).
  - intros x HI. apply in_app_iff in HI as [H|[<-|[]]]; [now apply C|apply ext_refl].
Qed.

Lemma gates_forall2 : forall gs gids f,
  length gs = length gids ->
  omapM (fun x => gate_ids (fst x) (snd x)) (combine gs gids) = Some f ->
  Forall2 (fun p l => NoDup l /\ forall x, In x l -> ext p x) gids f.
Proof.
  induction gs as [|g gs IH]; intros [|i gids] f L E; simpl in *; try discriminate; [injection E as <-; constructor|].
  destruct (gate_ids g i) as [a|] eqn:G; simpl in E; [|discriminate].
  destruct (omapM _ _) as [r|] eqn:R; simpl in E; [|discriminate]. injection E as <-.
  constructor; [now apply (gate_ids_spec g)|]. apply IH; [lia|assumption].
Qed.

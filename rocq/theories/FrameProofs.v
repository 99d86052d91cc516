(** Proofs about framing. *)

From Coq Require Import PeanoNat NArith List Bool Lia Wf_nat.
From Verif Require Import CodecModel CodecProofs FrameModel.
Import ListNotations.
Local Open Scope N_scope.

(** ** vint64 *)

Lemma pow2_pos k : 0 < 2 ^ k.
Proof. apply N.neq_0_lt_0, N.pow_nonzero. discriminate. Qed.

Lemma tz_mod k : forall b, trailing_zeros k (b mod 2 ^ N.of_nat k) = trailing_zeros k b.
Proof.
  induction k as [|k IH]; intro b; [reflexivity|].
  cbn [trailing_zeros]. rewrite Nat2N.inj_succ, N.pow_succ_r'.
  pose proof (pow2_pos (N.of_nat k)) as Hp.
  assert (E : b mod (2 * 2 ^ N.of_nat k) = b mod 2 + 2 * ((b / 2) mod 2 ^ N.of_nat k)).
  { apply N.mod_mul_r; lia. }
  rewrite E. rewrite N.odd_add, N.odd_mul. change (N.odd 2) with false. cbn [andb]. rewrite xorb_false_r.
  assert (Eo : N.odd (b mod 2) = N.odd b).
  { rewrite <- N.bit0_mod, N.bit0_odd. destruct (N.odd b); reflexivity. }
  rewrite Eo. destruct (N.odd b) eqn:Ob; [reflexivity|]. f_equal.
  rewrite <- (IH (b / 2)). f_equal.
  assert (Em : b mod 2 = 0).
  { rewrite <- N.bit0_mod, N.bit0_odd, Ob. reflexivity. }
  rewrite Em, N.add_0_l, N.mul_comm, N.div_mul by lia. reflexivity.
Qed.

Lemma tz_pow j : forall k q, (j < k)%nat -> trailing_zeros k (2 ^ N.of_nat j * (2 * q + 1)) = j.
Proof.
  induction j as [|j IH]; intros [|k] q H; try lia.
  - cbn [trailing_zeros]. change (2 ^ N.of_nat 0) with 1. rewrite N.mul_1_l.
    rewrite N.odd_add, N.odd_mul. reflexivity.
  - cbn [trailing_zeros]. rewrite Nat2N.inj_succ, N.pow_succ_r'.
    rewrite <- N.mul_assoc, N.odd_mul. change (N.odd 2) with false. cbn [andb].
    f_equal. rewrite (N.mul_comm 2 (2 ^ N.of_nat j * (2 * q + 1))), N.div_mul by lia. apply IH. lia.
Qed.

Lemma tz_le k : forall b, (trailing_zeros k b <= k)%nat.
Proof. induction k; intro b; cbn; [lia|]. destruct (N.odd b); [lia|]. specialize (IHk (b / 2)). lia. Qed.

Lemma tz_spec k : forall b, exists q,
  b = 2 ^ N.of_nat (trailing_zeros k b) * q /\ ((trailing_zeros k b < k)%nat -> exists q', q = 2 * q' + 1).
Proof.
  induction k as [|k IH]; intro b; cbn [trailing_zeros].
  - exists b. change (2 ^ N.of_nat 0) with 1. split; [lia|]. lia.
  - destruct (N.odd b) eqn:Ob.
    + exists b. change (2 ^ N.of_nat 0) with 1. split; [lia|]. intros _.
      apply N.odd_spec in Ob. exact Ob.
    + destruct (IH (b / 2)) as [q [E Hq]]. exists q. split; [|intro H; apply Hq; lia].
      assert (Em : b = 2 * (b / 2)).
      { assert (M : b mod 2 = 0) by (rewrite <- N.bit0_mod, N.bit0_odd, Ob; reflexivity).
        pose proof (N.div_mod b 2). lia. }
      rewrite Em at 1. rewrite E at 1. rewrite Nat2N.inj_succ, N.pow_succ_r'. lia.
Qed.

Lemma encoded_len_spec v :
  (1 <= encoded_len v <= 8 /\ v < 2 ^ (7 * encoded_len v) /\
     (encoded_len v = 1 \/ 2 ^ (7 * (encoded_len v - 1)) <= v)) \/
  (encoded_len v = 9 /\ 2 ^ 56 <= v).
Proof.
  unfold encoded_len.
  repeat match goal with |- context [?a <? ?b] => destruct (N.ltb_spec a b) end;
    try (right; split; [reflexivity|assumption]);
    left; (split; [lia|split; [assumption|]]); try (left; reflexivity); right; assumption.
Qed.

Lemma encoded_len_unique v len : 1 <= len <= 8 -> v < 2 ^ (7 * len) -> (len = 1 \/ 2 ^ (7 * (len - 1)) <= v) ->
  encoded_len v = len.
Proof.
  intros Hl Hv Hc.
  assert (mono : forall a b, a <= b -> 2 ^ (7 * a) <= 2 ^ (7 * b)) by (intros; apply N.pow_le_mono_r; lia).
  destruct (encoded_len_spec v) as [[H1 [H2 H3]]|[H1 H2]].
  - destruct (N.lt_trichotomy (encoded_len v) len) as [L|[E|L]]; [|exact E|].
    + destruct Hc as [->|Hc]; [lia|]. specialize (mono (encoded_len v) (len - 1)). lia.
    + destruct H3 as [E|H3]; [lia|]. specialize (mono len (encoded_len v - 1)). lia.
  - specialize (mono len 8). change (7 * 8) with 56 in mono. lia.
Qed.

Lemma encoded_len_9 v : 2 ^ 56 <= v -> encoded_len v = 9.
Proof.
  intro H. destruct (encoded_len_spec v) as [[H1 [H2 H3]]|[H1 _]]; [|exact H1].
  assert (2 ^ (7 * encoded_len v) <= 2 ^ 56) by (apply N.pow_le_mono_r; lia). lia.
Qed.

Lemma vint_encode_short v : encoded_len v <= 8 ->
  vint_encode v = le_bytes (N.to_nat (encoded_len v)) ((v * 2 + 1) * 2 ^ (encoded_len v - 1)).
Proof. intro H. unfold vint_encode. destruct (N.eqb_spec (encoded_len v) 9); [lia|reflexivity]. Qed.

Lemma vint_len v : length (vint_encode v) = N.to_nat (encoded_len v).
Proof.
  destruct (N.eq_dec (encoded_len v) 9) as [E|E].
  - unfold vint_encode. rewrite E. cbn [N.eqb Pos.eqb length]. rewrite le_bytes_length. reflexivity.
  - rewrite vint_encode_short, le_bytes_length; [reflexivity|].
    destruct (encoded_len_spec v) as [[H _]|[H _]]; lia.
Qed.

Lemma vint_first v : v < 2 ^ 64 -> exists b bs, vint_encode v = b :: bs /\
  N.of_nat (decoded_len b) = encoded_len v.
Proof.
  intro Hv. destruct (encoded_len_spec v) as [[H1 [H2 H3]]|[H1 H2]].
  - rewrite vint_encode_short by lia. set (len := encoded_len v) in *.
    destruct (N.to_nat len) as [|k] eqn:Ek; [lia|]. cbn [le_bytes]. eexists; eexists; split; [reflexivity|].
    unfold decoded_len. rewrite Nat2N.inj_succ.
    change 256 with (2 ^ N.of_nat 8). rewrite tz_mod.
    replace (len - 1) with (N.of_nat k) by lia.
    replace ((v * 2 + 1) * 2 ^ N.of_nat k) with (2 ^ N.of_nat k * (2 * v + 1)) by lia.
    rewrite tz_pow by lia. lia.
  - unfold vint_encode. rewrite H1. cbn [N.eqb Pos.eqb]. eexists; eexists; split; reflexivity.
Qed.

Lemma vint_roundtrip v : v < 2 ^ 64 -> vint_decode (vint_encode v) = Some v.
Proof.
  intro Hv. unfold vint_decode. rewrite vint_len, N2Nat.id.
  destruct (encoded_len_spec v) as [[H1 [H2 H3]]|[H1 H2]].
  - destruct (N.eqb_spec (encoded_len v) 9) as [E|_]; [lia|].
    rewrite vint_encode_short by lia. set (len := encoded_len v) in *.
    assert (Eb : (v * 2 + 1) * 2 ^ (len - 1) < 256 ^ N.of_nat (N.to_nat len)).
    { rewrite N2Nat.id. change 256 with (2 ^ 8). rewrite <- N.pow_mul_r.
      replace (8 * len) with (7 * len + (1 + (len - 1))) by lia. rewrite !N.pow_add_r. change (2 ^ 1) with 2.
      rewrite N.mul_assoc. apply N.mul_lt_mono_pos_r; [apply pow2_pos|]. lia. }
    rewrite le_value_bytes by exact Eb.
    assert (Ed : (v * 2 + 1) * 2 ^ (len - 1) / 2 ^ len = v).
    { replace (2 ^ len) with (2 * 2 ^ (len - 1)).
      2: { rewrite <- N.pow_succ_r'. f_equal. lia. }
      pose proof (pow2_pos (len - 1)). rewrite N.div_mul_cancel_r by lia.
      rewrite N.add_comm, N.div_add by lia. reflexivity. }
    rewrite Ed. destruct H3 as [->|H3]; [reflexivity|].
    destruct (N.ltb_spec v (2 ^ (7 * (len - 1)))); [lia|]. rewrite andb_false_r. reflexivity.
  - rewrite H1. cbn [N.eqb Pos.eqb]. unfold vint_encode. rewrite H1. cbn [N.eqb Pos.eqb skipn].
    rewrite le_value_bytes by (change (256 ^ N.of_nat 8) with (2 ^ 64); exact Hv).
    change (7 * (9 - 1)) with 56. destruct (N.ltb_spec v (2 ^ 56)); [lia|]. rewrite andb_false_r. reflexivity.
Qed.

(** Decoding succeeds only on the encoding of the result. *)
Lemma vint_unique b bs v : Forall byte_ok (b :: bs) -> length (b :: bs) = decoded_len b ->
  vint_decode (b :: bs) = Some v -> vint_encode v = b :: bs /\ v < 2 ^ 64.
Proof.
  intros Hok Hlen. unfold vint_decode. rewrite Hlen. unfold decoded_len in *.
  destruct (tz_spec 8 b) as [q [Eb Hq]]. pose proof (tz_le 8 b) as Hle.
  set (j := trailing_zeros 8 b) in *. rewrite Nat2N.inj_succ.
  destruct (Nat.eq_dec j 8) as [E8|N8].
  - rewrite E8 in *. change (N.succ (N.of_nat 8)) with 9. cbn [N.eqb Pos.eqb skipn N.ltb N.compare Pos.compare Pos.compare_cont andb].
    change (7 * (9 - 1)) with 56. destruct (N.ltb_spec (le_value bs) (2 ^ 56)); [discriminate|].
    intro E. injection E as <-. pose proof (Forall_inv Hok) as Hb. pose proof (Forall_inv_tail Hok) as Hbs.
    assert (Hb0 : b = 0).
    { unfold byte_ok in Hb. change (2 ^ N.of_nat 8) with 256 in Eb. destruct q; lia. }
    assert (L8 : length bs = 8%nat) by (cbn [length] in Hlen; lia).
    pose proof (le_value_lt bs Hbs) as Hlt. rewrite L8 in Hlt. change (256 ^ N.of_nat 8) with (2 ^ 64) in Hlt.
    split; [|exact Hlt]. unfold vint_encode. rewrite encoded_len_9 by assumption. cbn [N.eqb Pos.eqb].
    rewrite Hb0, <- L8, le_bytes_value by assumption. reflexivity.
  - destruct Hq as [q' Eq]; [lia|]. set (len := N.succ (N.of_nat j)) in *.
    destruct (N.eqb_spec len 9) as [E9|_]; [lia|].
    set (X := le_value (b :: bs)) in *.
    assert (HX : X < 2 ^ (8 * len)).
    { unfold X. pose proof (le_value_lt _ Hok) as H. rewrite Hlen in H. rewrite Nat2N.inj_succ in H.
      fold len in H. change 256 with (2 ^ 8) in H. rewrite <- N.pow_mul_r in H. exact H. }
    pose proof (pow2_pos (N.of_nat j)) as Hpj.
    assert (EX : exists y, X = 2 ^ N.of_nat j * (2 * y + 1)).
    { unfold X. cbn [le_value]. exists (q' + 2 ^ (7 - N.of_nat j) * le_value bs).
      assert (E256 : 256 = 2 ^ N.of_nat j * (2 * 2 ^ (7 - N.of_nat j))).
      { change 2 with (2 ^ 1) at 2. rewrite <- !N.pow_add_r.
        replace (N.of_nat j + (1 + (7 - N.of_nat j))) with 8 by lia. reflexivity. }
      rewrite E256 at 1. rewrite Eb at 1. rewrite Eq. lia. }
    destruct EX as [y EX].
    assert (Ey : X / 2 ^ len = y).
    { unfold len. rewrite N.pow_succ_r', EX. rewrite (N.mul_comm 2 (2 ^ N.of_nat j)), N.div_mul_cancel_l by lia.
      rewrite (N.add_comm (2 * y) 1), (N.mul_comm 2 y), N.div_add by lia. reflexivity. }
    rewrite Ey.
    assert (Hy : y < 2 ^ (7 * len)).
    { rewrite <- Ey. apply N.div_lt_upper_bound; [pose proof (pow2_pos len); lia|].
      rewrite <- N.pow_add_r. replace (len + 7 * len) with (8 * len) by lia. exact HX. }
    destruct ((1 <? len) && (y <? 2 ^ (7 * (len - 1)))) eqn:Ec; [discriminate|].
    intro E. injection E as <-.
    assert (El : encoded_len y = len).
    { apply encoded_len_unique; [lia|exact Hy|]. apply andb_false_iff in Ec. destruct Ec as [Ec|Ec].
      - apply N.ltb_ge in Ec. left. lia.
      - apply N.ltb_ge in Ec. right. exact Ec. }
    split.
    + rewrite vint_encode_short by lia. rewrite El.
      replace (len - 1) with (N.of_nat j) by lia.
      replace ((y * 2 + 1) * 2 ^ N.of_nat j) with X by (rewrite EX; lia).
      replace (N.to_nat len) with (length (b :: bs)) by lia.
      apply le_bytes_value. exact Hok.
    + assert (2 ^ (7 * len) <= 2 ^ 64) by (apply N.pow_le_mono_r; lia). lia.
Qed.

(** ** Reading *)

Lemma read_exact_spec chs : forall k,
  match read_exact chs k with
  | Some (h, t) => concat chs = h ++ concat t /\ N.of_nat (length h) = k
  | None => N.of_nat (length (concat chs)) < k
  end.
Proof.
  induction chs as [|c chs IH]; intro k; cbn [read_exact concat].
  - destruct (N.eqb_spec k 0); [subst; split; reflexivity|]. cbn. lia.
  - destruct (N.eqb_spec k 0) as [->|Hk]; [split; reflexivity|].
    destruct (N.leb_spec k (N.of_nat (length c))) as [L|L].
    + cbn [concat]. rewrite app_assoc, firstn_skipn. split; [reflexivity|].
      rewrite firstn_length. lia.
    + specialize (IH (k - N.of_nat (length c))). destruct (read_exact chs (k - N.of_nat (length c))) as [[h t]|].
      * destruct IH as [E H]. rewrite E, app_assoc. split; [reflexivity|]. rewrite app_length. lia.
      * rewrite app_length. lia.
Qed.

(** What reading does depends on the bytes, not on the chunks. *)
Lemma read_exact_app chs k h t : concat chs = h ++ t -> N.of_nat (length h) = k ->
  exists chs', read_exact chs k = Some (h, chs') /\ concat chs' = t.
Proof.
  intros E H. pose proof (read_exact_spec chs k) as S. destruct (read_exact chs k) as [[h' t']|].
  - destruct S as [E' H']. exists t'. rewrite E in E'.
    assert (L : length h = length h') by lia.
    assert (h = h' /\ t = concat t') as [-> ->]; [|split; reflexivity].
    clear -E' L. revert h' E' L. induction h as [|x h IH]; intros [|y h'] E' L; try discriminate; [split; auto|].
    cbn in *. injection E' as -> E'. destruct (IH h' E') as [-> ->]; [lia|]. split; reflexivity.
  - rewrite E, app_length in S. lia.
Qed.

Definition msg_ok (m : list N * list N) : Prop :=
  (length (fst m) <= 255)%nat /\ N.of_nat (length (fst m) + length (snd m) + 1) < 2 ^ 63.

Lemma frame_ok m : msg_ok m -> exists b, frame m = Some b.
Proof.
  destruct m as [id data]. intros [H1 _]. unfold frame. cbn [fst] in H1.
  destruct (Nat.leb_spec (length id) 255); [eexists; reflexivity|lia].
Qed.

(** The frame begins with its header; what the header says. *)
Lemma frame_parts m b : msg_ok m -> frame m = Some b ->
  exists b0 bs, b = (b0 :: bs) ++ (N.of_nat (length (fst m)) :: fst m ++ snd m) /\
    decoded_len b0 = S (length bs) /\
    vint_decode (b0 :: bs) = Some (N.of_nat (length (fst m) + length (snd m) + 1)).
Proof.
  destruct m as [id data]. intros [H1 H2]. cbn [fst snd] in *. unfold frame.
  destruct (Nat.leb_spec (length id) 255); [|lia]. intro E. injection E as <-.
  set (v := N.of_nat (length id + length data + 1)) in *.
  assert (Hv : v < 2 ^ 64).
  { assert (2 ^ 63 <= 2 ^ 64) by (apply N.pow_le_mono_r; lia). lia. }
  destruct (vint_first v Hv) as [b0 [bs [E Hd]]].
  exists b0, bs. rewrite <- E. split; [reflexivity|]. split; [|exact (vint_roundtrip v Hv)].
  pose proof (vint_len v) as L. rewrite E in L. cbn [length] in L. lia.
Qed.

Lemma recv_one_frame m b chs rest : msg_ok m -> frame m = Some b -> concat chs = b ++ rest ->
  exists chs', recv_one chs = RMsg m chs' /\ concat chs' = rest.
Proof.
  intros Hm Hb E. destruct (frame_parts m b Hm Hb) as [b0 [bs [Eb [Hd Hv]]]].
  rewrite Eb in E. cbn [app] in E. rewrite <- app_assoc in E.
  destruct (read_exact_app chs 1 [b0] _ E eq_refl) as [c1 [E1 C1]].
  destruct (read_exact_app c1 (N.of_nat (decoded_len b0) - 1) bs _ C1) as [c2 [E2 C2]]; [lia|].
  set (body := N.of_nat (length (fst m)) :: fst m ++ snd m) in *.
  destruct (read_exact_app c2 (N.of_nat (length (fst m) + length (snd m) + 1)) body _ C2) as [c3 [E3 C3]].
  { unfold body. cbn [length]. rewrite app_length. lia. }
  exists c3. split; [|exact C3].
  unfold recv_one. rewrite E1. cbn [hd]. rewrite E2, Hv.
  destruct Hm as [Hm1 Hm2].
  destruct (N.leb_spec (2 ^ 63) (N.of_nat (length (fst m) + length (snd m) + 1))); [lia|].
  rewrite E3. unfold body. cbv beta iota. rewrite Nat2N.id.
  destruct (Nat.leb_spec (length (fst m)) (length (fst m ++ snd m))) as [_|L].
  2: { rewrite app_length in L. lia. }
  rewrite firstn_app, Nat.sub_diag, firstn_all, skipn_app, Nat.sub_diag, skipn_all. cbn [firstn skipn app].
  rewrite app_nil_r. destruct m; reflexivity.
Qed.

(** The converse: a message is produced only from its frame. *)
Lemma recv_one_sound chs m rest : Forall byte_ok (concat chs) -> recv_one chs = RMsg m rest ->
  msg_ok m /\ exists b, frame m = Some b /\ concat chs = b ++ concat rest.
Proof.
  intros Hok. unfold recv_one.
  pose proof (read_exact_spec chs 1) as S1. destruct (read_exact chs 1) as [[bs0 c1]|]; [|discriminate].
  destruct S1 as [E1 L1]. destruct bs0 as [|b0 [|? ?]]; try (cbn in L1; lia). cbn [hd].
  pose proof (read_exact_spec c1 (N.of_nat (decoded_len b0) - 1)) as S2.
  destruct (read_exact c1 (N.of_nat (decoded_len b0) - 1)) as [[bs c2]|]; [|discriminate].
  destruct S2 as [E2 L2]. destruct (vint_decode (b0 :: bs)) as [ml|] eqn:Ev; [|discriminate].
  destruct (N.leb_spec (2 ^ 63) ml) as [|Hml]; [discriminate|].
  pose proof (read_exact_spec c2 ml) as S3. destruct (read_exact c2 ml) as [[[|il r] c3]|]; try discriminate.
  destruct S3 as [E3 L3].
  destruct (Nat.leb_spec (N.to_nat il) (length r)) as [Hil|]; [|discriminate].
  intro E. injection E as <- <-.
  rewrite E1, E2, E3 in Hok |- *. cbn [app] in Hok |- *.
  assert (Hd : length (b0 :: bs) = decoded_len b0) by (cbn [length]; unfold decoded_len in *; lia).
  assert (Hbb : Forall byte_ok (b0 :: bs)).
  { apply (Forall_app byte_ok (b0 :: bs) ((il :: r) ++ concat c3)). exact Hok. }
  assert (Hil2 : byte_ok il).
  { assert (H : Forall byte_ok ((il :: r) ++ concat c3)) by (apply (Forall_app byte_ok (b0 :: bs)); exact Hok).
    inversion H; assumption. }
  destruct (vint_unique b0 bs ml Hbb Hd Ev) as [Evv _].
  assert (Lf : length (firstn (N.to_nat il) r) = N.to_nat il) by (rewrite firstn_length; lia).
  assert (Ls : length (skipn (N.to_nat il) r) = (length r - N.to_nat il)%nat) by apply skipn_length.
  cbn [length] in L3. unfold byte_ok in Hil2.
  assert (Em : N.of_nat (length (firstn (N.to_nat il) r) + length (skipn (N.to_nat il) r) + 1) = ml).
  { rewrite Lf, Ls. lia. }
  split; [split; cbn [fst snd]; [lia|rewrite Em; exact Hml]|].
  exists ((b0 :: bs) ++ il :: r). split.
  - unfold frame. destruct (Nat.leb_spec (length (firstn (N.to_nat il) r)) 255) as [_|H]; [|lia].
    rewrite Em, Evv, Lf, N2Nat.id, firstn_skipn. reflexivity.
  - cbn [app]. rewrite <- app_assoc. reflexivity.
Qed.

Lemma recv_one_end chs : recv_one chs = REnd -> concat chs = [].
Proof.
  unfold recv_one. pose proof (read_exact_spec chs 1) as S1. destruct (read_exact chs 1) as [[bs0 c1]|].
  - destruct (read_exact c1 _) as [[bs c2]|]; [|discriminate].
    destruct (vint_decode _); [|discriminate]. destruct (2 ^ 63 <=? n); [discriminate|].
    destruct (read_exact c2 n) as [[[|il r] c3]|]; try discriminate.
    destruct (N.to_nat il <=? length r)%nat; discriminate.
  - intros _. destruct (concat chs); [reflexivity|]. cbn [length] in S1. lia.
Qed.

Lemma recv_one_nil chs : concat chs = [] -> recv_one chs = REnd.
Proof.
  intro E. unfold recv_one. pose proof (read_exact_spec chs 1) as S1. destruct (read_exact chs 1) as [[bs0 c1]|]; [|reflexivity].
  destruct S1 as [E1 L1]. rewrite E in E1. destruct bs0; [cbn in L1; lia|discriminate].
Qed.

Lemma frame_nonempty m b : frame m = Some b -> (0 < length b)%nat.
Proof.
  destruct m as [id data]. unfold frame. destruct (length id <=? 255)%nat; [|discriminate].
  intro E. injection E as <-. rewrite app_length. cbn [length]. lia.
Qed.

Lemma recv_loop_frames fuel : forall ms chs bytes, Forall msg_ok ms -> send_all ms = Some bytes ->
  concat chs = bytes -> (length bytes < fuel)%nat -> recv_loop fuel chs = (ms, Closed).
Proof.
  induction fuel as [|f IH]; intros ms chs bytes Hms Hs E Hf; [lia|].
  destruct ms as [|m ms]; cbn [send_all] in Hs.
  - injection Hs as <-. cbn [recv_loop]. rewrite (recv_one_nil chs E). reflexivity.
  - destruct (frame m) as [b|] eqn:Eb; [|discriminate]. destruct (send_all ms) as [bs|] eqn:Ebs; [|discriminate].
    injection Hs as <-. inversion Hms as [|? ? Hm Hms']; subst.
    destruct (recv_one_frame m b chs bs Hm Eb E) as [c' [E' C']].
    cbn [recv_loop]. rewrite E'. pose proof (frame_nonempty m b Eb). rewrite app_length in Hf.
    rewrite (IH ms c' bs Hms' Ebs C') by lia. reflexivity.
Qed.

(** Any byte stream: the messages produced are a prefix of it, and it stops at
    a place where no further frame is complete. *)
Lemma recv_loop_sound fuel : forall chs ms o, Forall byte_ok (concat chs) ->
  (length (concat chs) < fuel)%nat -> recv_loop fuel chs = (ms, o) ->
  Forall msg_ok ms /\ exists bytes rest, send_all ms = Some bytes /\ concat chs = bytes ++ rest /\
    (o = Closed <-> rest = []) /\
    forall m b rest', msg_ok m -> frame m = Some b -> rest <> b ++ rest'.
Proof.
  induction fuel as [|f IH]; intros chs ms o Hok Hf E; [lia|]. cbn [recv_loop] in E.
  destruct (recv_one chs) as [m rest| |] eqn:Er.
  - destruct (recv_loop f rest) as [ms' o'] eqn:El. injection E as <- <-.
    destruct (recv_one_sound chs m rest Hok Er) as [Hm [b [Eb Ec]]].
    rewrite Ec in Hok, Hf. apply Forall_app in Hok. destruct Hok as [Hob Hor].
    pose proof (frame_nonempty m b Eb). rewrite app_length in Hf.
    destruct (IH rest ms' o' Hor ltac:(lia) El) as [Hms [bytes [r [Es [E1 [E2 E3]]]]]].
    split; [constructor; assumption|]. exists (b ++ bytes), r.
    cbn [send_all]. rewrite Eb, Es, Ec, E1, app_assoc. repeat split; auto; apply E2.
  - injection E as <- <-. split; [constructor|]. exists [], [].
    rewrite (recv_one_end chs Er). repeat split; auto.
    intros m b rest' Hm Eb Hc. pose proof (frame_nonempty m b Eb). destruct b; [cbn in *; lia|discriminate].
  - injection E as <- <-. split; [constructor|]. exists [], (concat chs).
    split; [reflexivity|]. split; [reflexivity|]. split.
    + split; [discriminate|]. intro Ec. rewrite (recv_one_nil chs Ec) in Er. discriminate.
    + intros m b rest' Hm Eb Hc. destruct (recv_one_frame m b chs rest' Hm Eb Hc) as [c' [E' _]].
      rewrite E' in Er. discriminate.
Qed.

Lemma send_all_app a b : send_all (a ++ b) =
  match send_all a, send_all b with Some x, Some y => Some (x ++ y) | _, _ => None end.
Proof.
  induction a as [|m a IH]; cbn [send_all app].
  - destruct (send_all b); reflexivity.
  - rewrite IH. destruct (frame m); [|reflexivity]. destruct (send_all a); [|reflexivity].
    destruct (send_all b); [|reflexivity]. rewrite app_assoc. reflexivity.
Qed.

Lemma send_all_ok ms : Forall msg_ok ms -> exists bytes, send_all ms = Some bytes.
Proof.
  induction 1 as [|m ms Hm _ [bs IH]]; cbn [send_all]; [eexists; reflexivity|].
  destruct (frame_ok m Hm) as [b ->]. rewrite IH. eexists; reflexivity.
Qed.

(** Two frames at the same place are the same frame. *)
Lemma frame_prefix m m' b b' r r' : msg_ok m -> msg_ok m' -> frame m = Some b -> frame m' = Some b' ->
  b ++ r = b' ++ r' -> m = m' /\ r = r'.
Proof.
  intros Hm Hm' Hb Hb' E.
  destruct (recv_one_frame m b [b ++ r] r Hm Hb) as [c [E1 C1]]; [cbn; apply app_nil_r|].
  destruct (recv_one_frame m' b' [b ++ r] r' Hm' Hb') as [c' [E2 C2]]; [cbn; rewrite app_nil_r; exact E|].
  rewrite E1 in E2. injection E2 as <- <-. rewrite C1 in C2. split; auto.
Qed.

(** More bytes behind a complete frame do not matter. *)
Lemma recv_one_more chs m rest chs' t : recv_one chs = RMsg m rest -> concat chs' = concat chs ++ t ->
  exists rest', recv_one chs' = RMsg m rest' /\ concat rest' = concat rest ++ t.
Proof.
  unfold recv_one at 1.
  pose proof (read_exact_spec chs 1) as S1. destruct (read_exact chs 1) as [[bs0 c1]|]; [|discriminate].
  destruct S1 as [E1 L1].
  pose proof (read_exact_spec c1 (N.of_nat (decoded_len (hd 0 bs0)) - 1)) as S2.
  destruct (read_exact c1 (N.of_nat (decoded_len (hd 0 bs0)) - 1)) as [[bs c2]|] eqn:R2; [|discriminate].
  destruct S2 as [E2 L2]. destruct (vint_decode (hd 0 bs0 :: bs)) as [ml|] eqn:Ev; [|discriminate].
  destruct (2 ^ 63 <=? ml) eqn:Hml; [discriminate|].
  pose proof (read_exact_spec c2 ml) as S3. destruct (read_exact c2 ml) as [[[|il r] c3]|]; try discriminate.
  destruct S3 as [E3 L3].
  destruct (N.to_nat il <=? length r)%nat eqn:Hil; [|discriminate].
  intros E Ec. injection E as <- <-.
  rewrite E1 in Ec. rewrite <- app_assoc in Ec.
  destruct (read_exact_app chs' 1 bs0 _ Ec L1) as [d1 [R1' D1]].
  rewrite E2, <- app_assoc in D1.
  destruct (read_exact_app d1 _ bs _ D1 L2) as [d2 [R2' D2]].
  rewrite E3, <- app_assoc in D2.
  destruct (read_exact_app d2 ml (il :: r) _ D2 L3) as [d3 [R3' D3]].
  exists d3. split; [|exact D3].
  unfold recv_one. rewrite R1'. cbn zeta. rewrite R2', Ev, Hml, R3', Hil. reflexivity.
Qed.

Lemma recv_one_shrinks chs m rest : recv_one chs = RMsg m rest -> (length (concat rest) < length (concat chs))%nat.
Proof.
  unfold recv_one.
  pose proof (read_exact_spec chs 1) as S1. destruct (read_exact chs 1) as [[bs0 c1]|]; [|discriminate].
  destruct S1 as [E1 L1].
  pose proof (read_exact_spec c1 (N.of_nat (decoded_len (hd 0 bs0)) - 1)) as S2.
  destruct (read_exact c1 (N.of_nat (decoded_len (hd 0 bs0)) - 1)) as [[bs c2]|] eqn:R2; [|discriminate].
  destruct S2 as [E2 L2]. destruct (vint_decode (hd 0 bs0 :: bs)) as [ml|] eqn:Ev; [|discriminate].
  destruct (2 ^ 63 <=? ml) eqn:Hml; [discriminate|].
  pose proof (read_exact_spec c2 ml) as S3. destruct (read_exact c2 ml) as [[[|il r] c3]|]; try discriminate.
  destruct S3 as [E3 L3].
  destruct (N.to_nat il <=? length r)%nat eqn:Hil; [|discriminate].
  intros E. injection E as <- <-. rewrite E1, E2, E3, !app_length. lia.
Qed.

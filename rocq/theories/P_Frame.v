(** Property theorems C26 and C51: framing on a TCP stream
    (src/protocol/network.rs:314-376). *)

From Coq Require Import PeanoNat NArith List Bool Lia.
From Verif Require Import CodecModel CodecProofs FrameModel FrameProofs.
Import ListNotations.
Local Open Scope N_scope.

(** A message that can be sent: id of at most 255 bytes, total length below
    2^63 (every Rust buffer is shorter), and it consists of bytes. *)
Definition sendable (m : list N * list N) : Prop :=
  (length (fst m) <= 255)%nat /\ N.of_nat (length (fst m) + length (snd m) + 1) < 2 ^ 63 /\
  Forall (fun b => b < 256) (fst m ++ snd m).

Lemma sendable_ok ms : Forall sendable ms -> Forall msg_ok ms.
Proof. apply Forall_impl. intros m [H1 [H2 _]]. split; assumption. Qed.

Lemma frame_bytes m b : sendable m -> frame m = Some b -> Forall byte_ok b.
Proof.
  destruct m as [id data]. intros [H1 [H2 H3]]. cbn [fst snd] in *. unfold frame.
  destruct (Nat.leb_spec (length id) 255); [|discriminate]. intro E. injection E as <-.
  apply Forall_app. split.
  - unfold vint_encode. destruct (encoded_len _ =? 9); [constructor; [reflexivity|]|]; apply le_bytes_ok.
  - constructor; [unfold byte_ok; lia|exact H3].
Qed.

Lemma send_all_bytes ms : forall bytes, Forall sendable ms -> send_all ms = Some bytes -> Forall byte_ok bytes.
Proof.
  induction ms as [|m ms IH]; cbn [send_all]; intros bytes Hs E; [injection E as <-; constructor|].
  destruct (frame m) as [b|] eqn:Eb; [|discriminate]. destruct (send_all ms) as [bs|]; [|discriminate].
  injection E as <-. apply Forall_app. split.
  - exact (frame_bytes m b (Forall_inv Hs) Eb).
  - exact (IH bs (Forall_inv_tail Hs) eq_refl).
Qed.

(** Two frame sequences, one a prefix of the other as bytes. *)
Lemma frames_prefix ms' : forall ms bytes bytes' rest tail,
  Forall msg_ok ms -> Forall msg_ok ms' -> send_all ms = Some bytes -> send_all ms' = Some bytes' ->
  bytes = (bytes' ++ rest) ++ tail ->
  exists ms2 b2, ms = ms' ++ ms2 /\ send_all ms2 = Some b2 /\ b2 = rest ++ tail.
Proof.
  induction ms' as [|m' ms' IH]; cbn [send_all]; intros ms bytes bytes' rest tail Hms Hms' E E' Eb.
  - injection E' as <-. exists ms, bytes. auto.
  - destruct (frame m') as [b'|] eqn:Ef'; [|discriminate]. destruct (send_all ms') as [bs'|] eqn:Es'; [|discriminate].
    injection E' as <-. pose proof (frame_nonempty _ _ Ef').
    destruct ms as [|m ms]; cbn [send_all] in E.
    { injection E as E. rewrite <- E in Eb. destruct b'; [cbn in *; lia|discriminate]. }
    destruct (frame m) as [b|] eqn:Ef; [|discriminate]. destruct (send_all ms) as [bs|] eqn:Es; [|discriminate].
    injection E as <-. rewrite <- !app_assoc in Eb.
    destruct (frame_prefix m m' b b' _ _ (Forall_inv Hms) (Forall_inv Hms') Ef Ef' Eb) as [-> Er].
    destruct (IH ms bs bs' rest tail (Forall_inv_tail Hms) (Forall_inv_tail Hms') Es eq_refl) as [ms2 [b2 [-> H2]]].
    { rewrite Er, app_assoc. reflexivity. }
    exists ms2, b2. split; [reflexivity|exact H2].
Qed.

(** ** C26 *)

(** Whatever is sent and however the bytes are cut into reads, the receiver
    hands over exactly the messages sent and then stops without a panic. *)
Theorem C26_lossless : forall ms : list (list N * list N), Forall sendable ms ->
  exists bytes, send_all ms = Some bytes /\
    forall chunks, concat chunks = bytes -> party_receiver chunks = (ms, Closed).
Proof.
  intros ms Hms. apply sendable_ok in Hms. destruct (send_all_ok ms Hms) as [bytes E].
  exists bytes. split; [exact E|]. intros chs Ec. unfold party_receiver.
  apply (recv_loop_frames _ ms chs bytes Hms E Ec). rewrite Ec. lia.
Qed.
Print Assumptions C26_lossless.

(** A stream that ends early: the messages handed over are the first [j]; they
    are all the messages whose frames arrived completely; the task stops
    without panic exactly if the cut is at the end of a frame. *)
Theorem C26_cut_stream : forall ms bytes chunks tail, Forall sendable ms -> send_all ms = Some bytes ->
  concat chunks ++ tail = bytes ->
  exists j o, party_receiver chunks = (firstn j ms, o) /\ (j <= length ms)%nat /\
    (o = Closed <-> send_all (firstn j ms) = Some (concat chunks)) /\
    forall k bk, (k <= length ms)%nat -> send_all (firstn k ms) = Some bk ->
      ((k <= j)%nat <-> (length bk <= length (concat chunks))%nat).
Proof.
  intros ms bytes chs tail Hs E Ec. pose proof (sendable_ok ms Hs) as Hms.
  pose proof (send_all_bytes ms bytes Hs E) as Hb. rewrite <- Ec in Hb. apply Forall_app in Hb. destruct Hb as [Hb _].
  destruct (party_receiver chs) as [ms' o] eqn:Er. unfold party_receiver in Er.
  destruct (recv_loop_sound (S (length (concat chs))) chs ms' o Hb ltac:(lia) Er) as [Hms' [b' [rest [Es' [Ech [Hcl Hno]]]]]].
  rewrite Ech in Ec. symmetry in Ec.
  destruct (frames_prefix ms' ms bytes b' rest tail Hms Hms' E Es' Ec) as [ms2 [b2 [-> [Es2 Eb2]]]].
  exists (length ms'), o.
  assert (F : firstn (length ms') (ms' ++ ms2) = ms').
  { rewrite firstn_app, Nat.sub_diag, firstn_all. cbn [firstn]. apply app_nil_r. }
  rewrite F. split; [reflexivity|]. split; [rewrite app_length; lia|]. split.
  - rewrite Hcl, Es', Ech. split; [intros ->; rewrite app_nil_r; reflexivity|].
    intro H. injection H as H. symmetry in H. rewrite <- (app_nil_r b') in H at 2. apply app_inv_head in H. exact H.
  - intros k bk Hk Ek. rewrite Ech, app_length. split.
    + intro L. rewrite firstn_app in Ek. replace (k - length ms')%nat with 0%nat in Ek by lia.
      cbn [firstn] in Ek. rewrite app_nil_r in Ek. rewrite <- (firstn_skipn k ms') in Es'.
      rewrite send_all_app, Ek in Es'. destruct (send_all (skipn k ms')); [|discriminate].
      injection Es' as <-. rewrite app_length. lia.
    + intro L. destruct (Nat.leb_spec k (length ms')) as [|G]; [assumption|exfalso].
      destruct ms2 as [|m ms2]; [rewrite app_nil_r in Hk; lia|].
      cbn [send_all] in Es2. destruct (frame m) as [fm|] eqn:Ef; [|discriminate].
      destruct (send_all ms2) as [bs2|] eqn:Es3; [|discriminate]. injection Es2 as Es2.
      rewrite firstn_app, firstn_all2 in Ek by lia.
      destruct (k - length ms')%nat as [|k'] eqn:Ek'; [lia|]. cbn [firstn] in Ek.
      rewrite send_all_app, Es' in Ek. cbn [send_all] in Ek. rewrite Ef in Ek.
      destruct (send_all (firstn k' ms2)) as [bs|]; [|discriminate]. injection Ek as <-.
      rewrite !app_length in L.
      assert (Hm : msg_ok m).
      { apply Forall_app in Hms. destruct Hms as [_ H]. exact (Forall_inv H). }
      rewrite Eb2 in Es2.
      apply (Hno m fm (skipn (length fm) rest) Hm Ef).
      assert (Hf : firstn (length fm) (fm ++ bs2) = firstn (length fm) (rest ++ tail)) by (rewrite Es2; reflexivity).
      rewrite !firstn_app, Nat.sub_diag, firstn_all in Hf.
      replace (length fm - length rest)%nat with 0%nat in Hf by lia. cbn [firstn] in Hf.
      rewrite !app_nil_r in Hf. rewrite Hf at 1. rewrite firstn_skipn. reflexivity.
Qed.
Print Assumptions C26_cut_stream.

(** An id of more than 255 bytes panics the sender. *)
Theorem C26_long_id_panics : forall ms id data, In (id, data) ms -> (255 < length id)%nat -> send_all ms = None.
Proof.
  induction ms as [|m ms IH]; intros id data Hin Hl; [contradiction|]. cbn [send_all].
  destruct Hin as [->|Hin].
  - unfold frame. destruct (Nat.leb_spec (length id) 255); [lia|reflexivity].
  - rewrite (IH id data Hin Hl). destruct (frame m); reflexivity.
Qed.
Print Assumptions C26_long_id_panics.

(** ** C51 *)

(** The bytes of some sequence of messages. *)
Definition encodes (bytes : list N) (ms : list (list N * list N)) : Prop :=
  Forall sendable ms /\ send_all ms = Some bytes.

Lemma frame_back ms : forall bytes, Forall msg_ok ms -> send_all ms = Some bytes -> Forall byte_ok bytes ->
  Forall sendable ms.
Proof.
  induction ms as [|m ms IH]; cbn [send_all]; intros bytes Hms E Hb; [constructor|].
  destruct (frame m) as [b|] eqn:Ef; [|discriminate]. destruct (send_all ms) as [bs|]; [|discriminate].
  injection E as <-. apply Forall_app in Hb. destruct Hb as [Hb Hbs].
  constructor; [|exact (IH bs (Forall_inv_tail Hms) eq_refl Hbs)].
  destruct (Forall_inv Hms) as [H1 H2]. split; [exact H1|]. split; [exact H2|].
  destruct m as [id data]. unfold frame in Ef. destruct (length id <=? 255)%nat; [|discriminate].
  injection Ef as <-. apply Forall_app in Hb. exact (Forall_inv_tail (proj2 Hb)).
Qed.

(** For every byte stream: the messages handed over are encoded by a prefix of
    it; the task stops without panic exactly if that is the whole stream; no
    longer prefix encodes messages; no other messages are encoded by the same
    bytes. *)
Theorem C51_maximal_valid_prefix : forall chunks, Forall (fun b => b < 256) (concat chunks) ->
  exists ms o bytes rest, party_receiver chunks = (ms, o) /\ concat chunks = bytes ++ rest /\
    encodes bytes ms /\
    (o = Closed <-> rest = []) /\
    (forall bytes' rest' ms', concat chunks = bytes' ++ rest' -> encodes bytes' ms' ->
       (length bytes' <= length bytes)%nat /\ exists ms2, ms = ms' ++ ms2) /\
    (forall ms', encodes bytes ms' -> ms' = ms).
Proof.
  intros chs Hb. destruct (party_receiver chs) as [ms o] eqn:Er. unfold party_receiver in Er.
  destruct (recv_loop_sound (S (length (concat chs))) chs ms o Hb ltac:(lia) Er) as [Hms [bytes [rest [Es [Ech [Hcl Hno]]]]]].
  exists ms, o, bytes, rest. split; [reflexivity|]. split; [exact Ech|].
  assert (Hs : Forall sendable ms).
  { apply (frame_back ms bytes Hms Es). rewrite Ech in Hb. apply Forall_app in Hb. apply Hb. }
  split; [split; assumption|]. split; [exact Hcl|].
  assert (Hmax : forall bytes' rest' ms', concat chs = bytes' ++ rest' -> encodes bytes' ms' ->
            (length bytes' <= length bytes)%nat /\ exists ms2, ms = ms' ++ ms2).
  { intros bytes' rest' ms' E' [Hs' Es']. pose proof (sendable_ok ms' Hs') as Hms'.
    destruct (Nat.leb_spec (length bytes') (length bytes)) as [L|L].
    - split; [exact L|].
      destruct (frames_prefix ms' ms bytes bytes' (skipn (length bytes') bytes) [] Hms Hms' Es Es') as [ms2 [b2 [H _]]].
      + rewrite app_nil_r.
        assert (Hf : firstn (length bytes') (bytes ++ rest) = bytes').
        { rewrite <- Ech, E', firstn_app, Nat.sub_diag, firstn_all. cbn [firstn]. apply app_nil_r. }
        rewrite firstn_app in Hf. replace (length bytes' - length bytes)%nat with 0%nat in Hf by lia.
        cbn [firstn] in Hf. rewrite app_nil_r in Hf. rewrite <- Hf at 1. rewrite firstn_skipn. reflexivity.
      + exists ms2. exact H.
    - exfalso.
      assert (Hf : firstn (length bytes) (bytes' ++ rest') = bytes).
      { rewrite <- E', Ech, firstn_app, Nat.sub_diag, firstn_all. cbn [firstn]. apply app_nil_r. }
      rewrite firstn_app in Hf. replace (length bytes - length bytes')%nat with 0%nat in Hf by lia.
      cbn [firstn] in Hf. rewrite app_nil_r in Hf.
      destruct (frames_prefix ms ms' bytes' bytes (skipn (length bytes) bytes') [] Hms' Hms Es' Es) as [ms2 [b2 [H [Es2 Eb2]]]].
      { rewrite app_nil_r. rewrite <- Hf at 1. symmetry. apply firstn_skipn. }
      rewrite app_nil_r in Eb2.
      destruct ms2 as [|m ms2].
      { cbn in Es2. injection Es2 as <-. symmetry in Eb2. apply (f_equal (@length N)) in Eb2.
        rewrite skipn_length in Eb2. cbn in Eb2. lia. }
      cbn [send_all] in Es2. destruct (frame m) as [fm|] eqn:Ef; [|discriminate].
      destruct (send_all ms2) as [bs2|]; [|discriminate]. injection Es2 as Es2.
      rewrite H in Hms'. apply Forall_app in Hms'. destruct Hms' as [_ Hm].
      apply (Hno m fm (bs2 ++ rest') (Forall_inv Hm) Ef).
      rewrite Ech in E'. rewrite app_assoc, Es2, Eb2.
      rewrite <- (firstn_skipn (length bytes) bytes'), Hf, <- app_assoc in E'.
      apply app_inv_head in E'. exact E'. }
  split; [exact Hmax|].
  intros ms' He. destruct (Hmax bytes rest ms' Ech He) as [_ [ms2 E2]].
  destruct He as [_ Es']. rewrite E2, send_all_app, Es' in Es.
  destruct (send_all ms2) as [b2|] eqn:Es2; [|discriminate]. injection Es as Es.
  rewrite <- (app_nil_r bytes) in Es at 2. apply app_inv_head in Es. subst b2.
  destruct ms2 as [|m ms2]; [rewrite app_nil_r in E2; symmetry; exact E2|].
  cbn [send_all] in Es2. destruct (frame m) as [fm|] eqn:Ef; [|discriminate].
  destruct (send_all ms2); [|discriminate]. injection Es2 as Es2.
  pose proof (frame_nonempty _ _ Ef). destruct fm; [cbn in *; lia|discriminate].
Qed.
Print Assumptions C51_maximal_valid_prefix.

(** A frame of length zero panics the receiver, whatever follows. *)
Theorem C51_zero_length_panics : forall chunks rest,
  concat chunks = vint_encode 0 ++ rest -> party_receiver chunks = ([], Panicked).
Proof.
  intros chs rest E. change (vint_encode 0) with [1] in E. cbn [app] in E.
  unfold party_receiver. cbn [recv_loop]. unfold recv_one.
  destruct (read_exact_app chs 1 [1] rest E eq_refl) as [c1 [-> C1]]. cbn [hd].
  change (N.of_nat (decoded_len 1) - 1) with 0.
  destruct (read_exact_app c1 0 [] rest C1 eq_refl) as [c2 [-> C2]].
  change (vint_decode [1]) with (Some 0). change (2 ^ 63 <=? 0) with false. cbv iota.
  destruct (read_exact_app c2 0 [] rest C2 eq_refl) as [c3 [-> C3]]. reflexivity.
Qed.
Print Assumptions C51_zero_length_panics.

(** So does an id length that exceeds the rest of the frame. *)
Theorem C51_long_id_length_panics : forall chunks idlen body rest,
  idlen < 256 -> (length body < N.to_nat idlen)%nat ->
  concat chunks = vint_encode (N.of_nat (length body + 1)) ++ (idlen :: body) ++ rest ->
  party_receiver chunks = ([], Panicked).
Proof.
  intros chs il body rest Hi Hl E. set (v := N.of_nat (length body + 1)) in *.
  assert (Hv : v < 2 ^ 9) by (change (2 ^ 9) with 512; lia).
  assert (Hv63 : v < 2 ^ 63).
  { assert (2 ^ 9 <= 2 ^ 63) by (apply N.pow_le_mono_r; lia). lia. }
  assert (Hv64 : v < 2 ^ 64).
  { assert (2 ^ 9 <= 2 ^ 64) by (apply N.pow_le_mono_r; lia). lia. }
  destruct (vint_first v Hv64) as [b0 [bs [Ev Hd]]]. pose proof (vint_len v) as Hlen. rewrite Ev in Hlen, E.
  cbn [app length] in Hlen, E.
  unfold party_receiver. cbn [recv_loop]. unfold recv_one.
  destruct (read_exact_app chs 1 [b0] _ E eq_refl) as [c1 [-> C1]]. cbn [hd].
  destruct (read_exact_app c1 (N.of_nat (decoded_len b0) - 1) bs _ C1) as [c2 [-> C2]]; [lia|].
  rewrite <- Ev, (vint_roundtrip v Hv64). destruct (N.leb_spec (2 ^ 63) v); [lia|].
  destruct (read_exact_app c2 v (il :: body) rest C2) as [c3 [-> C3]]; [cbn [length]; lia|].
  destruct (Nat.leb_spec (N.to_nat il) (length body)); [lia|reflexivity].
Qed.
Print Assumptions C51_long_id_length_panics.

(** ** Cases *)

Definition m1 : list N * list N := ([1; 2], [7; 8; 9]).
Definition m2 : list N * list N := ([1; 3], []).
(** A message long enough for a two-byte header. *)
Definition m3 : list N * list N := ([4], repeat 5 200).

Example ex_sendable : Forall sendable [m1; m2; m3].
Proof.
  repeat constructor; cbn [fst snd m1 m2 m3 length repeat app]; try (cbn; lia);
    try reflexivity; repeat (constructor; try reflexivity).
Qed.

Example ex_bytes : send_all [m1; m2] = Some [13; 2; 1; 2; 7; 8; 9; 7; 2; 1; 3].
Proof. reflexivity. Qed.

Example ex_two_byte_header : option_map (firstn 4) (frame m3) = Some [42; 3; 1; 4].
Proof. reflexivity. Qed.

(** Split inside headers and bodies. *)
Example ex_chunks : party_receiver [[13; 2; 1]; []; [2; 7; 8; 9; 7; 2]; [1]; [3]] = ([m1; m2], Closed).
Proof. reflexivity. Qed.

Example ex_cut : party_receiver [[13; 2; 1]; [2; 7; 8; 9; 7; 2; 1]] = ([m1], Panicked).
Proof. reflexivity. Qed.

(** An encoding of the length that is longer than needed. *)
Example ex_long_encoding : party_receiver [[13; 2; 1; 2; 7; 8; 9; 2; 0; 0]] = ([m1], Panicked).
Proof. reflexivity. Qed.

Example ex_id_length : party_receiver [vint_encode 3 ++ [3; 1; 1; 9]] = ([], Panicked).
Proof. reflexivity. Qed.

(** Proofs about the encodings of CodecModel. *)

From Coq Require Import NArith List Bool Lia Arith.
From Verif Require Import GaloisModel CodecModel.
Import ListNotations.
Local Open Scope N_scope.

Lemma le_bytes_length n : forall v, length (le_bytes n v) = n.
Proof. induction n; intro v; simpl; [reflexivity|]. now rewrite IHn. Qed.

Lemma le_bytes_ok n : forall v, Forall byte_ok (le_bytes n v).
Proof.
  induction n; intro v; simpl; constructor; [|apply IHn].
  unfold byte_ok. apply N.mod_lt. lia.
Qed.

Lemma le_value_bytes n : forall v, v < 256 ^ N.of_nat n -> le_value (le_bytes n v) = v.
Proof.
  induction n; intros v H.
  - simpl in *. lia.
  - rewrite Nat2N.inj_succ, N.pow_succ_r' in H. cbn [le_bytes le_value].
    rewrite IHn.
    + generalize (N.div_mod' v 256). lia.
    + apply N.div_lt_upper_bound; lia.
Qed.

Lemma le_value_lt bs : Forall byte_ok bs -> le_value bs < 256 ^ N.of_nat (length bs).
Proof.
  induction 1 as [|b bs Hb _ IH].
  - simpl. lia.
  - simpl length. rewrite Nat2N.inj_succ, N.pow_succ_r'. cbn [le_value]. unfold byte_ok in Hb. lia.
Qed.

Lemma le_bytes_value bs : Forall byte_ok bs -> le_bytes (length bs) (le_value bs) = bs.
Proof.
  induction 1 as [|b bs Hb _ IH]; [reflexivity|]. unfold byte_ok in Hb.
  cbn [length le_bytes le_value].
  f_equal.
  - rewrite N.mul_comm, N.mod_add by lia. now apply N.mod_small.
  - rewrite N.mul_comm, N.div_add by lia. rewrite N.div_small by assumption. apply IH.
Qed.

Lemma take_bytes_app h t : take_bytes (length h) (h ++ t) = Some (h, t).
Proof. induction h; simpl; [reflexivity|]. now rewrite IHh. Qed.

Lemma take_bytes_spec n : forall bs h t, take_bytes n bs = Some (h, t) -> bs = h ++ t /\ length h = n.
Proof.
  induction n; intros bs h t H; simpl in H.
  - injection H as <- <-. split; reflexivity.
  - destruct bs as [|b bs]; [discriminate|].
    destruct (take_bytes n bs) as [[h' t']|] eqn:E; [|discriminate].
    injection H as <- <-. apply IHn in E as [-> <-]. split; reflexivity.
Qed.

Lemma take_bytes_short n : forall bs, (length bs < n)%nat -> take_bytes n bs = None.
Proof.
  induction n; intros bs H; [lia|]. simpl. destruct bs; [reflexivity|].
  simpl in H. rewrite IHn by lia. reflexivity.
Qed.

Lemma num_bytes_bound w v : v < 2 ^ w -> v < 256 ^ N.of_nat (N.to_nat (gf_num_bytes w)).
Proof.
  intro H. rewrite N2Nat.id. change 256 with (2 ^ 8). rewrite <- N.pow_mul_r.
  eapply N.lt_le_trans; [exact H|]. apply N.pow_le_mono_r; [lia|].
  unfold gf_num_bytes. generalize (N.div_mod' (w + 7) 8), (N.mod_lt (w + 7) 8 ltac:(lia)). lia.
Qed.

Lemma ser_gf_length w v : length (ser_gf w v) = N.to_nat (gf_num_bytes w).
Proof. apply le_bytes_length. Qed.

Lemma de_ser_gf w v rest : v < 2 ^ w -> de_gf w (ser_gf w v ++ rest) = Some (v, rest).
Proof.
  intro H. unfold de_gf, ser_gf.
  rewrite <- (le_bytes_length (N.to_nat (gf_num_bytes w)) v) at 1.
  rewrite take_bytes_app, le_value_bytes; [reflexivity|]. now apply num_bytes_bound.
Qed.

Lemma de_ser_elems w vs rest : Forall (fun v => v < 2 ^ w) vs ->
  de_elems w (length vs) (flat_map (ser_gf w) vs ++ rest) = Some (vs, rest).
Proof.
  induction 1 as [|v vs Hv _ IH]; simpl; [reflexivity|].
  rewrite <- app_assoc, de_ser_gf by assumption. now rewrite IH.
Qed.

Lemma de_ser_vec w vs rest : Forall (fun v => v < 2 ^ w) vs ->
  N.of_nat (length vs) < 2 ^ 64 -> de_vec w (ser_vec w vs ++ rest) = Some vs.
Proof.
  intros H L. unfold de_vec, ser_vec. rewrite <- app_assoc.
  rewrite <- (le_bytes_length 8 (N.of_nat (length vs))) at 1.
  rewrite take_bytes_app, le_value_bytes; [|exact L].
  rewrite Nat2N.id. now rewrite de_ser_elems.
Qed.

Lemma flat_ser_length w vs :
  length (flat_map (ser_gf w) vs) = (length vs * N.to_nat (gf_num_bytes w))%nat.
Proof.
  induction vs; simpl; [reflexivity|]. now rewrite app_length, ser_gf_length, IHvs.
Qed.

Lemma ser_vec_length w vs :
  length (ser_vec w vs) = (8 + length vs * N.to_nat (gf_num_bytes w))%nat.
Proof. unfold ser_vec. now rewrite app_length, le_bytes_length, flat_ser_length. Qed.

Lemma de_elems_len w n : forall bs vs t, de_elems w n bs = Some (vs, t) ->
  length bs = (n * N.to_nat (gf_num_bytes w) + length t)%nat.
Proof.
  induction n; intros bs vs t H; simpl in H.
  - injection H as _ <-. reflexivity.
  - unfold de_gf in H. destruct (take_bytes _ bs) as [[h t']|] eqn:E; [|discriminate].
    apply take_bytes_spec in E as [-> Eh].
    destruct (de_elems w n t') as [[vs' t'']|] eqn:E2; [|discriminate].
    injection H as _ <-. apply IHn in E2. rewrite app_length, Eh, E2. simpl. lia.
Qed.

Lemma firstn_app_exact {A} (a b : list A) k : (length a <= k)%nat ->
  firstn k (a ++ b) = a ++ firstn (k - length a) b.
Proof. intro H. rewrite firstn_app, firstn_all2 by assumption. reflexivity. Qed.

(** Every proper prefix of an encoded vector is rejected. *)
Lemma de_vec_truncated w vs k : N.of_nat (length vs) < 2 ^ 64 ->
  (k < length (ser_vec w vs))%nat -> de_vec w (firstn k (ser_vec w vs)) = None.
Proof.
  intros L Hk. rewrite ser_vec_length in Hk. unfold de_vec, ser_vec.
  destruct (Nat.lt_ge_cases k 8) as [S|G].
  - rewrite take_bytes_short; [reflexivity|]. rewrite firstn_length. lia.
  - rewrite firstn_app_exact by (rewrite le_bytes_length; lia).
    rewrite <- (le_bytes_length 8 (N.of_nat (length vs))) at 1.
    rewrite take_bytes_app, le_value_bytes by exact L.
    rewrite Nat2N.id. rewrite le_bytes_length.
    destruct (de_elems w (length vs) _) as [[vs' t]|] eqn:E; [|reflexivity].
    apply de_elems_len in E. rewrite firstn_length, flat_ser_length in E. lia.
Qed.

Lemma de_gf_truncated w v k : (k < N.to_nat (gf_num_bytes w))%nat ->
  de_gf w (firstn k (ser_gf w v)) = None.
Proof.
  intro H. unfold de_gf. rewrite take_bytes_short; [reflexivity|].
  rewrite firstn_length, ser_gf_length. lia.
Qed.

(** A decoded vector always re-encodes to the bytes consumed (no byte string
    is read as a value it does not encode). *)
Lemma ser_de_gf w bs v rest : Forall byte_ok bs -> de_gf w bs = Some (v, rest) ->
  bs = ser_gf w v ++ rest.
Proof.
  unfold de_gf. intros H E. destruct (take_bytes _ bs) as [[h t]|] eqn:T; [|discriminate].
  injection E as <- <-. apply take_bytes_spec in T as [-> Eh].
  apply Forall_app in H as [H _]. unfold ser_gf. now rewrite <- Eh, le_bytes_value.
Qed.

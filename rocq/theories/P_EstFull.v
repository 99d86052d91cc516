(** Property theorems C79: the estimates of the malicious protocol and of the computation. *)

From Coq Require Import ZArith.
From mathcomp Require Import all_ssreflect zify.
From Verif Require Import EstModel EstFullModel.
Set Implicit Arguments.
Unset Strict Implicit.
Unset Printing Implicit Defensive.

Lemma ceil_bounds a b : 0 < b -> a <= ceil a b * b < a + b.
Proof.
move=> Hb; rewrite /ceil; have Ea := divn_eq a b; have Hm := ltn_pmod a Hb.
by case: eqP => E; rewrite ?mulSn; lia.
Qed.

Lemma ceil_le a a' b : 0 < b -> a <= a' -> ceil a b <= ceil a' b.
Proof.
move=> Hb H; have /andP[A1 A2] := ceil_bounds a Hb; have /andP[B1 B2] := ceil_bounds a' Hb.
by rewrite -ltnS -(ltn_pmul2r Hb) mulSn; lia.
Qed.

Lemma ceil_sub k a b : 0 < b -> ceil (k * a) b <= k * ceil a b.
Proof.
move=> Hb; have /andP[A1 A2] := ceil_bounds a Hb; have /andP[B1 B2] := ceil_bounds (k * a) Hb.
rewrite -ltnS -(ltn_pmul2r Hb) mulSn; nia.
Qed.

Lemma ceil_dvd a b : 0 < b -> b %| a -> ceil a b * b = a.
Proof. by move=> Hb; rewrite /ceil /dvdn => /eqP E; rewrite E /=; have := divn_eq a b; rewrite E addn0. Qed.

Ltac open_comm := cbv beta iota zeta delta [malicious_comm cseq cret m_rand m_zero m_bitrand m_mackeygen m_randshare m_coin m_mult
  m_authmult m_trans m_authtrans m_auth m_checkbit m_autherror m_checkcons m_checkmac m_checkzero q_rand q_zero q_bitrand q_mackey
  mr_transform mr_plaintexts mr_ciphertexts mr_verification mr_garbling mr_mackeys mr_keys mr_masks mr_errors mr_rand mr_zero
  mr_bitrand mr_mackeygen mr_preproc mr_counts].
Ltac open_comp := cbv beta iota zeta delta [malicious_comp semihon_comp start on_counts add_cons add_mac add_zero pseq pret p_rand p_zero
  p_bitrand p_mackeygen p_randshare p_coin p_mult p_authmult p_trans p_authtrans p_auth p_error p_checkbit p_autherror p_checkcons
  p_checkmac p_checkzero q_rand q_zero q_bitrand q_mackey cq ncons nmac nzero
  pr_transform pr_plaintexts pr_ciphertexts pr_verification pr_garbling pr_mackeys pr_keys pr_masks pr_errors pr_rand pr_zero
  pr_bitrand pr_mackeygen pr_preproc pr_counts].

Ltac open_semi := cbv beta iota zeta delta [semihon_protocol both comm rand zero bitrand mult trans error randshare r_transform r_plaintexts
  r_garbling r_keys r_masks r_errors r_rand r_zero r_bitrand r_preproc n_rand n_zero n_bitrand].

Section Closed.
Variables (mp : mparams) (num_inp num_and num_xor : nat).
Let p := base mp.
Let A := ceil num_and (e_l p).
Let X := ceil num_xor (e_l p).
Let W := ceil num_inp (e_l p) + A + X.
Let G := A + X.
Let K := e_key_len p.
Let m := lenmac mp.
Let N := e_noise p.
Let e := G * 4 * e_ctx_len p.
Let S := A * (3 * (K + 1) + 1) + X * (K + 1).
Let coin := ceil 128 (e_field_bits p).
Let b1 := ceil (W + W * 2 * K) (e_l p).
Let b2 := ceil (2 * G + 2 * G * 2 * K) (e_l p).
Let B1 := ceil ((m + 1) * (W * (2 * K + 1))) (e_l p).
Let B2 := ceil ((m + 1) * (2 * G * (2 * K + 1))) (e_l p).

Definition semi_counts : counts := Counts
  (W * 2 * K + e * (N - 1) + e + e + b1 * (e_n p + e_t p) + b2 * (e_n p + e_t p) + S)
  (e * (N - 1) + e + b1 * 2 * e_n p + b2 * 2 * e_n p + S)
  (W + e * N) 0.

Definition mal_counts : counts := Counts
  (W * 2 * K + m * (W * 2 * K) + m * W + (m + 1) * W + m * (e * N) + (m + 1) * (e * N) + (m + 1) * (e * (N - 1)) +
   e + e * (m + 1) + B1 * (e_n p + e_t p) + B2 * (e_n p + e_t p) + (m + 1) * S + (m + 1) * (4 * G * e_ctx_len p) +
   lencheck mp + coin + coin + coin)
  (m * (W * 2 * K) + m * W + (m + 1) * W + m * (e * N) + (m + 1) * (e * N) + (m + 1) * (e * (N - 1)) +
   e * (m + 1) + B1 * 2 * e_n p + B2 * 2 * e_n p + (m + 1) * S + (m + 1) * (4 * G * e_ctx_len p))
  (W + e * N) m.

Lemma mal_comm_counts : mr_counts (malicious_comm mp num_inp num_and num_xor) = mal_counts.
Proof. by open_comm; rewrite ?add0n ?addnA. Qed.

Lemma mal_comp_counts : pr_counts (malicious_comp mp num_inp num_and num_xor) = mal_counts.
Proof. by open_comp; rewrite ?add0n ?addnA. Qed.

Lemma semi_comp_counts : pr_counts (semihon_comp mp num_inp num_and num_xor) = semi_counts.
Proof. by open_comp; rewrite ?add0n. Qed.

Lemma batches_le : 0 < e_l p -> [/\ b1 <= B1, b2 <= B2, B1 <= (m + 1) * b1 & B2 <= (m + 1) * b2].
Proof.
move=> Hl; have E1 : W * (2 * K + 1) = W + W * 2 * K by lia. have E2 : 2 * G * (2 * K + 1) = 2 * G + 2 * G * 2 * K by lia.
by rewrite /b1 /b2 /B1 /B2 E1 E2; split; rewrite ?ceil_sub //; apply: ceil_le => //; rewrite leq_pmull // addn1.
Qed.

Lemma counts_le : 0 < e_l p -> [/\ q_rand semi_counts <= q_rand mal_counts, q_zero semi_counts <= q_zero mal_counts,
  q_bitrand semi_counts = q_bitrand mal_counts & q_mackey mal_counts = m].
Proof.
move=> Hl; have [L1 L2 _ _] := batches_le Hl; rewrite /semi_counts /mal_counts /q_rand /q_zero /q_bitrand /q_mackey.
have H1 : e * (N - 1) <= (m + 1) * (e * (N - 1)) by rewrite leq_pmull // addn1.
have H2 : S <= (m + 1) * S by rewrite leq_pmull // addn1.
have H3 : e <= e * (m + 1) by rewrite leq_pmulr // addn1.
have H4 : b1 * (e_n p + e_t p) <= B1 * (e_n p + e_t p) by rewrite leq_mul2r L1 orbT.
have H5 : b2 * (e_n p + e_t p) <= B2 * (e_n p + e_t p) by rewrite leq_mul2r L2 orbT.
have H6 : b1 * 2 * e_n p <= B1 * 2 * e_n p by rewrite !leq_mul2r L1 !orbT.
have H7 : b2 * 2 * e_n p <= B2 * 2 * e_n p by rewrite !leq_mul2r L2 !orbT.
move: (W * 2 * K) (m * (e * N)) ((m + 1) * (e * N)) (e * (N - 1)) ((m + 1) * (e * (N - 1))) S ((m + 1) * S) e (e * (m + 1))
  (b1 * _) (b2 * _) (B1 * _) (B2 * _) (b1 * _ * _) (b2 * _ * _) (B1 * _ * _) (B2 * _ * _) ((m + 1) * (4 * G * e_ctx_len p)) coin
  H1 H2 H3 H4 H5 H6 H7 => *; split=> //; lia.
Qed.

Lemma semi_lines : let R := semihon_protocol p num_inp num_and num_xor in
  [/\ r_transform R = allrecon p (2 * b1) + degreduce p (W * (2 * K + 1)) + (allrecon p (2 * b2) + degreduce p (2 * G * (2 * K + 1))),
      r_plaintexts R = degreduce p S, r_keys R = 0, r_masks R = 0 & r_errors R = degreduce p (e * (N - 1)) + degreduce p e].
Proof.
have E1 : W * (2 * K + 1) = W + W * 2 * K by lia. have E2 : 2 * G * (2 * K + 1) = 2 * G + 2 * G * 2 * K by lia.
by rewrite E1 E2; open_semi; rewrite ?add0n ?addn0 ?addnA.
Qed.

Lemma mal_lines : let R := malicious_comm mp num_inp num_and num_xor in
  [/\ mr_transform R = allrecon p (2 * B1) + degreduce p ((m + 1) * (W * (2 * K + 1))) +
        (allrecon p (2 * B2) + degreduce p ((m + 1) * (2 * G * (2 * K + 1)))),
      mr_plaintexts R = degreduce p ((m + 1) * S), mr_ciphertexts R = degreduce p ((m + 1) * (4 * G * e_ctx_len p)),
      mr_verification R = allrecon p coin + allrecon p (lencheck mp) + allrecon p coin + allrecon p m + allrecon p m + allrecon p coin +
        allrecon p (lencheck mp) &
      mr_errors R = degreduce p (m * (e * N)) + degreduce p ((m + 1) * (e * N)) + degreduce p ((m + 1) * (e * (N - 1))) +
        degreduce p (e * (m + 1))].
Proof. by open_comm; rewrite ?add0n ?addn0 ?addnA. Qed.

End Closed.

(** Both scripts count the same preprocessed material, in both protocols. *)
Theorem C79_same_material : forall mp num_inp num_and num_xor,
  let p := base mp in let share x := e_n p * e_n p * ((e_field_bits p + 7) %/ 8) * x in
  let mal := malicious_comm mp num_inp num_and num_xor in
  let semi := semihon_protocol p num_inp num_and num_xor in
  let q := pr_counts (malicious_comp mp num_inp num_and num_xor) in
  let q' := pr_counts (semihon_comp mp num_inp num_and num_xor) in
  [/\ [/\ mr_rand mal = share (ceil (q_rand q) (e_n p - e_t p)), mr_zero mal = share (ceil (q_zero q) (e_n p - e_t p)) &
          mr_bitrand mal = share (ceil (q_bitrand q) (e_binsup_dim p))],
      [/\ r_rand semi = share (ceil (q_rand q') (e_n p - e_t p)), r_zero semi = share (ceil (q_zero q') (e_n p - e_t p)) &
          r_bitrand semi = share (ceil (q_bitrand q') (e_binsup_dim p))],
      q = mr_counts mal & q_mackey q' = 0].
Proof.
move=> mp i a x p share mal semi q q'.
have Es y : allshare p y = share y by rewrite /allshare /share /e_fcomm; lia.
split.
- by rewrite -!Es /q mal_comp_counts -mal_comm_counts /mal; open_comm; split; reflexivity.
- rewrite -!Es /q' semi_comp_counts /semi /semihon_protocol.
  by split; cbv beta iota zeta delta [both comm rand zero bitrand mult trans error randshare r_rand r_zero r_bitrand n_rand n_zero n_bitrand
    semi_counts q_rand q_zero q_bitrand]; rewrite ?add0n.
- by rewrite /q mal_comp_counts mal_comm_counts.
- by rewrite /q' semi_comp_counts.
Qed.
Print Assumptions C79_same_material.

(** The lines of the malicious estimate against those of the semi-honest one. *)
Theorem C79_malicious_costs : forall mp num_inp num_and num_xor,
  let p := base mp in let k := lenmac mp + 1 in
  0 < e_l p -> e_t p < e_n p -> 0 < e_binsup_dim p ->
  let mal := malicious_comm mp num_inp num_and num_xor in
  let semi := semihon_protocol p num_inp num_and num_xor in
  [/\ [/\ r_transform semi <= mr_transform mal <= k * r_transform semi, mr_plaintexts mal = k * r_plaintexts semi &
          r_garbling semi <= mr_garbling mal],
      [/\ r_keys semi <= mr_keys mal, r_masks semi <= mr_masks mal & r_errors semi <= mr_errors mal],
      [/\ r_rand semi <= mr_rand mal, r_zero semi <= mr_zero mal & r_bitrand semi = mr_bitrand mal] &
      r_preproc semi <= mr_preproc mal].
Proof.
move=> mp i a x p k Hl Ht Hd mal semi.
have dle y z : y <= z -> degreduce p y <= degreduce p z by move=> H; rewrite /degreduce !leq_mul2r H !orbT.
have ale y z : y <= z -> allrecon p y <= allrecon p z by move=> H; rewrite /allrecon !leq_mul2r leq_mul2l H !orbT.
have dk y : degreduce p (k * y) = k * degreduce p y by rewrite /degreduce; lia.
have ak y : allrecon p (2 * (k * y)) = k * allrecon p (2 * y) by rewrite /allrecon; lia.
have kl y : y <= k * y by rewrite leq_pmull // /k addn1.
have tw y z : y <= z -> 2 * y <= 2 * z by rewrite leq_mul2l.
have dist y z u v : k * (y + z + (u + v)) = k * y + k * z + (k * u + k * v) by rewrite !mulnDr.
have kr y : y <= y * k by rewrite mulnC.
have [L1 L2 L3 L4] := batches_le i a x Hl; have [C1 C2 C3 C4] := counts_le i a x Hl.
have [[R1 R2 R3] [R4 R5 R6] _ _] := C79_same_material mp i a x.
have Ht' : 0 < e_n p - e_t p by rewrite subn_gt0.
have HR : r_rand semi <= mr_rand mal.
  by rewrite R1 R4 mal_comp_counts semi_comp_counts leq_mul2l ceil_le ?orbT.
have HZ : r_zero semi <= mr_zero mal.
  by rewrite R2 R5 mal_comp_counts semi_comp_counts leq_mul2l ceil_le ?orbT.
have HB : r_bitrand semi = mr_bitrand mal by rewrite R3 R6 mal_comp_counts semi_comp_counts C3.
have [T1 P1 K1 M1 E1] := semi_lines mp i a x; have [T2 P2 _ _ E2] := mal_lines mp i a x; rewrite -/mal -/semi -/p in T1 P1 K1 M1 E1 T2 P2 E2 *.
have HP : mr_plaintexts mal = k * r_plaintexts semi by rewrite P1 P2 dk.
have HE : r_errors semi <= mr_errors mal.
  by rewrite E1 E2; apply: leq_add (dle _ _ (kr _)); exact: leq_trans (dle _ _ (kl _)) (leq_addl _ _).
have HT : r_transform semi <= mr_transform mal <= k * r_transform semi.
  rewrite T1 T2; apply/andP; split.
    exact: (leq_add (leq_add (ale _ _ (tw _ _ L1)) (dle _ _ (kl _))) (leq_add (ale _ _ (tw _ _ L2)) (dle _ _ (kl _)))).
  rewrite dist -!dk -!ak.
  exact: (leq_add (leq_add (ale _ _ (tw _ _ L3)) (leqnn _)) (leq_add (ale _ _ (tw _ _ L4)) (leqnn _))).
have HG : r_garbling semi <= mr_garbling mal.
  rewrite (_ : r_garbling semi = r_transform semi + r_plaintexts semi); last by rewrite /semi; open_semi.
  rewrite (_ : mr_garbling mal = mr_transform mal + mr_plaintexts mal + mr_ciphertexts mal + mr_verification mal); last by rewrite /mal; open_comm.
  by case/andP: HT => HT _; rewrite HP -addnA; apply: (leq_trans _ (leq_addr _ _)); exact: leq_add.
clear T1 T2 E1 E2 P1 P2 L1 L2 L3 L4 C1 C2 C3 C4 R1 R2 R3 R4 R5 R6.
suff HQ : r_preproc semi <= mr_preproc mal by split; [split|rewrite K1 M1; split|split|].
rewrite (_ : r_preproc semi = r_keys semi + r_masks semi + r_errors semi + r_rand semi + r_zero semi + r_bitrand semi); last by rewrite /semi; open_semi.
rewrite (_ : mr_preproc mal = mr_mackeys mal + mr_keys mal + mr_masks mal + mr_errors mal + mr_rand mal + mr_zero mal + mr_bitrand mal + mr_mackeygen mal); last by rewrite /mal; open_comm.
rewrite K1 M1 HB; move: HR HZ HE; clear; lia.
Qed.
Print Assumptions C79_malicious_costs.

(** Verification costs the same for every circuit. *)
Theorem C79_verification : forall mp num_inp num_and num_xor, let p := base mp in
  mr_verification (malicious_comm mp num_inp num_and num_xor) =
  e_n p * e_n p * ((e_field_bits p + 7) %/ 8) * (3 * ceil 128 (e_field_bits p) + 2 * lencheck mp + 2 * lenmac mp).
Proof.
move=> mp i a x p; have [_ _ _ -> _] := mal_lines mp i a x; rewrite /allrecon /e_fcomm -/p.
by move: (ceil _ _) (_ %/ _) => c f; lia.
Qed.
Print Assumptions C79_verification.

(** ** Computation *)

Local Open Scope Z_scope.

Definition ole (a b : ops) : Prop := adds a <= adds b /\ mults a <= mults b.

Lemma zero_l a : zero_ops +o a = a.
Proof. by case: a. Qed.
Lemma zero_r a : a +o zero_ops = a.
Proof. by case: a => x y; rewrite /oplus /= !Z.add_0_r. Qed.
Lemma oplusA a b c : a +o (b +o c) = a +o b +o c.
Proof. by rewrite /oplus /= !Z.add_assoc. Qed.

Lemma ole_refl a : ole a a.
Proof. by split; apply: Z.le_refl. Qed.
Lemma ole_trans a b c : ole a b -> ole b c -> ole a c.
Proof. by case=> H1 H2 [H3 H4]; split; lia. Qed.
Lemma ole_add a b c d : ole a b -> ole c d -> ole (a +o c) (b +o d).
Proof. by case=> H1 H2 [H3 H4]; split; rewrite /=; lia. Qed.
Lemma ole_r a b : ole zero_ops b -> ole a (a +o b).
Proof. by case=> /= H1 H2; split; rewrite /=; lia. Qed.
Lemma ole_l a b : ole zero_ops b -> ole a (b +o a).
Proof. by case=> /= H1 H2; split; rewrite /=; lia. Qed.
Lemma nn_add a b : ole zero_ops a -> ole zero_ops b -> ole zero_ops (a +o b).
Proof. by case=> /= H1 H2 [/= H3 H4]; split; rewrite /=; lia. Qed.
Lemma nn_scale k x y : 0 <= k -> 0 <= x -> 0 <= y -> ole zero_ops (k *o Ops x y).
Proof. by move=> Hk Hx Hy; split; rewrite /=; nia. Qed.
Lemma scale_le j k x y : 0 <= x -> 0 <= y -> j <= k -> ole (j *o Ops x y) (k *o Ops x y).
Proof. by move=> Hx Hy H; split; rewrite /=; nia. Qed.

Section Comp.
Variable mp : mparams.
Let p := base mp.
Let n := Z.of_nat (e_n p).
Let t := Z.of_nat (e_t p).
Let l := Z.of_nat (e_l p).
Hypothesis Hl : (0 < e_l p)%N.
Hypothesis Hn : (e_t p + e_l p <= e_n p)%N.

Definition mcost (k : nat) : ops := Z.of_nat k *o Ops 3 1 +o p_degreduce mp k.
Definition rscost (b : nat) : ops :=
  (Z.of_nat b * l *o Ops (n - 1) n) +o (Z.of_nat b * (n + l - (t + l - 1) - 1) *o Ops (t + l - 1) (t + l - 1 + 1)) +o p_recon mp (2 * Z.of_nat b).
Definition tcost (k : nat) : ops := rscost (ceil k (e_l p)) +o Z.of_nat k *o Ops 2 0 +o p_degreduce mp k.

Lemma bounds : [/\ 1 <= l, 0 <= t & t + l <= n].
Proof. by rewrite /l /t /n; split; lia. Qed.

Lemma recon_le j k : j <= k -> ole (p_recon mp j) (p_recon mp k).
Proof. by case: bounds => B1 B2 B3 H; rewrite /p_recon -/p -/n -/l; apply: scale_le => //; nia. Qed.

Lemma share_le j k : j <= k -> ole (p_share mp j None) (p_share mp k None).
Proof. by case: bounds => B1 B2 B3 H; rewrite /p_share /the_degree -/p -/n -/l -/t; apply: scale_le => //; nia. Qed.

Lemma degreduce_le j k : (j <= k)%N -> ole (p_degreduce mp j) (p_degreduce mp k).
Proof.
move=> H; rewrite /p_degreduce; have Hd : ((j + e_n p - 1) %/ e_n p <= (k + e_n p - 1) %/ e_n p)%N by apply: leq_div2r; lia.
by apply: ole_add; [apply: recon_le|apply: share_le]; rewrite -/p; lia.
Qed.

Lemma mcost_le j k : (j <= k)%N -> ole (mcost j) (mcost k).
Proof. by move=> H; apply: ole_add (degreduce_le H); apply: scale_le; lia. Qed.

Lemma tcost_le j k : (j <= k)%N -> ole (tcost j) (tcost k).
Proof.
move=> H; have Hc := ceil_le Hl H; case: bounds => B1 B2 B3.
apply: ole_add (degreduce_le H); apply: ole_add; last by apply: scale_le; lia.
apply: ole_add; last by apply: recon_le; lia.
by apply: ole_add; apply: scale_le; nia.
Qed.

Lemma mcost_nn k : ole zero_ops (mcost k).
Proof.
apply: (ole_trans _ (mcost_le (leq0n k))); rewrite /mcost /p_degreduce -/p divn_small; last by lia.
by split.
Qed.

Lemma rand_le j k : (j <= k)%N -> ole (rand_comp mp j) (rand_comp mp k).
Proof.
case: bounds => B1 B2 B3 H; have Hb : (0 < e_n p - e_t p)%N by lia.
have Hc := ceil_le Hb H; rewrite /rand_comp /p_rand_share /the_degree -/p -/n -/t -/l.
by apply: ole_add; apply: scale_le; nia.
Qed.

Lemma zero_le j k : (j <= k)%N -> ole (zero_comp mp j) (zero_comp mp k).
Proof.
case: bounds => B1 B2 B3 H; have Hb : (0 < e_n p - e_t p)%N by lia.
have Hc := ceil_le Hb H; rewrite /zero_comp /p_share /the_degree -/p -/n -/t -/l.
case: Z.eqb_spec => E; by apply: ole_add; apply: scale_le; nia.
Qed.

Lemma robust_nn k : 0 <= k -> ole zero_ops (p_robustrecon mp k).
Proof. by case: bounds => B1 B2 B3 H; rewrite /p_robustrecon -/p -/n -/t -/l; apply: nn_scale => //; nia. Qed.

Lemma mackey_nn k : ole zero_ops (mackeygen_comp mp k).
Proof.
case: bounds => B1 B2 B3; rewrite /mackeygen_comp /p_share /the_degree -/p -/n -/t -/l.
move: (ceil _ _) => b; apply: nn_add; last by apply: robust_nn; lia.
by apply: nn_add; apply: nn_scale; nia.
Qed.

End Comp.

Section Closed2.
Variables (mp : mparams) (num_inp num_and num_xor : nat).
Let p := base mp.
Let A := ceil num_and (e_l p).
Let X := ceil num_xor (e_l p).
Let W := (ceil num_inp (e_l p) + A + X)%N.
Let G := (A + X)%N.
Let K := e_key_len p.
Let m := lenmac mp.
Let N := e_noise p.
Let e := (G * 4 * e_ctx_len p)%N.
Let S := (A * (3 * (K + 1) + 1) + X * (K + 1))%N.
Let w1 := (W * (2 * K + 1))%N.
Let w2 := (2 * G * (2 * K + 1))%N.
Let sel := p_select mp (Z.of_nat w2).
Let lin := Z.of_nat (G * 4 * K) *o Ops 2 0.
Let enc := p_ecc mp (Z.of_nat (4 * G)) +o Z.of_nat (4 * G * e_ctx_len p) *o Ops (Z.of_nat K + 1) (Z.of_nat K).

Lemma semi_comp_lines : let R := semihon_comp mp num_inp num_and num_xor in
  [/\ [/\ pr_transform R = tcost mp w1 +o sel +o tcost mp w2,
          pr_plaintexts R = mcost mp S +o Z.of_nat A *o Ops 7 0 +o Z.of_nat X *o Ops 4 0 +o lin &
          pr_ciphertexts R = enc],
      [/\ pr_keys R = zero_ops, pr_masks R = zero_ops & pr_errors R = mcost mp (e * (N - 1)) +o mcost mp e],
      [/\ pr_rand R = rand_comp mp (q_rand (pr_counts R)), pr_zero R = zero_comp mp (q_zero (pr_counts R)) &
          pr_bitrand R = bitrand_comp mp (q_bitrand (pr_counts R))] &
      pr_garbling R = pr_transform R +o pr_plaintexts R +o pr_ciphertexts R /\
      pr_preproc R = pr_keys R +o pr_masks R +o pr_errors R +o pr_rand R +o pr_zero R +o pr_bitrand R].
Proof.
have E1 : w1 = (W + W * 2 * K)%N by rewrite /w1; lia. have E2 : w2 = (2 * G + 2 * G * 2 * K)%N by rewrite /w2; lia.
rewrite /sel E1 E2; split; [split|split|split|split]; open_comp; by rewrite ?zero_l ?zero_r // /mcost /p_degreduce ?oplusA.
Qed.

Lemma mal_comp_lines : let R := malicious_comp mp num_inp num_and num_xor in
  [/\ [/\ pr_transform R = tcost mp ((m + 1) * w1) +o sel +o tcost mp ((m + 1) * w2),
          pr_plaintexts R = mcost mp ((m + 1) * S) +o Z.of_nat A *o Ops 7 0 +o Z.of_nat X *o Ops 4 0 +o lin &
          pr_ciphertexts R = enc +o mcost mp ((m + 1) * (4 * G * e_ctx_len p))],
      [/\ pr_mackeys R = zero_ops, pr_keys R = mcost mp (m * (W * 2 * K)), pr_masks R = mcost mp (m * W) +o (mcost mp ((m + 1) * W) +o Z.of_nat W *o Ops 1 0) &
          pr_errors R = mcost mp (m * (e * N)) +o (mcost mp ((m + 1) * (e * N)) +o Z.of_nat (e * N) *o Ops 1 0) +o
                        mcost mp ((m + 1) * (e * (N - 1))) +o mcost mp (e * (m + 1))],
      [/\ pr_rand R = rand_comp mp (q_rand (pr_counts R)), pr_zero R = zero_comp mp (q_zero (pr_counts R)),
          pr_bitrand R = bitrand_comp mp (q_bitrand (pr_counts R)) & pr_mackeygen R = mackeygen_comp mp (q_mackey (pr_counts R))] &
      pr_garbling R = pr_transform R +o pr_plaintexts R +o pr_ciphertexts R +o pr_verification R /\
      pr_preproc R = pr_mackeys R +o pr_keys R +o pr_masks R +o pr_errors R +o pr_rand R +o pr_zero R +o pr_bitrand R +o pr_mackeygen R].
Proof.
split; [split|split|split|split]; open_comp; by rewrite ?zero_l ?zero_r // /mcost /p_degreduce ?oplusA.
Qed.

End Closed2.

Lemma verification_nn mp c : (0 < e_l (base mp))%N -> (e_t (base mp) + e_l (base mp) <= e_n (base mp))%N ->
  0 <= ncons c -> 1 <= nmac c -> 1 <= nzero c ->
  ole zero_ops (fst ((pseq (pseq (p_checkcons mp) (p_checkmac mp)) (p_checkzero mp)) c)).
Proof.
move=> Hl Hn H1 H2 H3; have Hr x : ole zero_ops (p_robustrecon mp (Z.of_nat x)) by apply: robust_nn => //; lia.
cbv beta iota zeta delta [pseq pret p_checkcons p_checkmac p_checkzero p_coin p_rand on_counts fst cq ncons nmac nzero] in *.
move: (ceil _ _) => b; rewrite ?zero_l ?zero_r; case: c H1 H2 H3 => q x y z H1 H2 H3.
have H11 : ole zero_ops (Ops 1 1) by split.
do ! [apply: nn_add]; rewrite ?zero_l; try exact: Hr; try exact: H11; apply: nn_scale; lia.
Qed.

Lemma verification_state mp num_inp num_and num_xor : exists c,
  pr_verification (malicious_comp mp num_inp num_and num_xor) =
    fst ((pseq (pseq (p_checkcons mp) (p_checkmac mp)) (p_checkzero mp)) c) /\
  let l := e_l (base mp) in let W := (ceil num_inp l + ceil num_and l + ceil num_xor l)%N in
  [/\ 0 <= ncons c, Z.of_nat W <= nmac c & Z.of_nat W <= nzero c].
Proof.
cbv beta iota zeta delta [malicious_comp start on_counts add_cons add_mac add_zero pret p_rand p_zero p_bitrand p_mackeygen
  p_randshare p_coin p_mult p_authmult p_trans p_authtrans p_auth p_error p_checkbit p_autherror q_rand q_zero q_bitrand q_mackey cq ncons
  nmac nzero pseq].
match goal with |- context [p_checkcons mp ?c] => exists c end; split.
  case: (p_checkcons mp _) => x1 c1; case: (p_checkmac mp c1) => x2 c2; case: (p_checkzero mp c2) => x3 c3.
  by cbv beta iota delta [pr_verification fst].
cbv beta iota zeta; cbv beta iota delta [ncons nmac nzero].
have nz x : 0 <= Z.of_nat x by lia.
by split; repeat (apply: Z.add_nonneg_nonneg => //); lia.
Qed.

(** The lines of the computation estimates: the malicious protocol costs at least as
    many additions and as many multiplications in each. *)
Theorem C79_computation_costs : forall mp num_inp num_and num_xor,
  let p := base mp in
  (0 < e_l p)%N -> (e_t p + e_l p <= e_n p)%N -> (0 < num_inp + num_and + num_xor)%N ->
  let mal := malicious_comp mp num_inp num_and num_xor in
  let semi := semihon_comp mp num_inp num_and num_xor in
  [/\ [/\ ole (pr_transform semi) (pr_transform mal), ole (pr_plaintexts semi) (pr_plaintexts mal),
          ole (pr_ciphertexts semi) (pr_ciphertexts mal) & ole (pr_garbling semi) (pr_garbling mal)],
      [/\ ole (pr_keys semi) (pr_keys mal), ole (pr_masks semi) (pr_masks mal) & ole (pr_errors semi) (pr_errors mal)],
      [/\ ole (pr_rand semi) (pr_rand mal), ole (pr_zero semi) (pr_zero mal) & pr_bitrand semi = pr_bitrand mal] &
      ole (pr_preproc semi) (pr_preproc mal)].
Proof.
move=> mp i a x p Hl Hn Hs mal semi.
have kl y : (y <= (lenmac mp + 1) * y)%N by rewrite leq_pmull // addn1.
have kr y : (y <= y * (lenmac mp + 1))%N by rewrite mulnC.
have ml y := mcost_le Hl Hn (kl y); have mr y := mcost_le Hl Hn (kr y); have tl y := tcost_le Hl Hn (kl y).
have mn y := mcost_nn Hl Hn y.
have HV : ole zero_ops (pr_verification mal).
  have [c [-> [H1 H2 H3]]] := verification_state mp i a x.
  have /andP[I1 _] := ceil_bounds i Hl; have /andP[I2 _] := ceil_bounds a Hl; have /andP[I3 _] := ceil_bounds x Hl.
  have Hp : (0 < ceil i (e_l p) + ceil a (e_l p) + ceil x (e_l p))%N.
    by rewrite lt0n; apply/eqP => E; rewrite /p in E I1 I2 I3; nia.
  by apply: verification_nn => //; rewrite /p in Hp; lia.
have [C1 C2 C3 C4] := counts_le i a x Hl.
have [[T1 P1 X1] [K1 M1 E1] [R1 Z1 B1] [G1 Q1]] := semi_comp_lines mp i a x.
have [[T2 P2 X2] [Y2 K2 M2 E2] [R2 Z2 B2 L2] [G2 Q2]] := mal_comp_lines mp i a x.
rewrite -/mal -/semi in T1 P1 X1 K1 M1 E1 R1 Z1 B1 G1 Q1 T2 P2 X2 Y2 K2 M2 E2 R2 Z2 B2 L2 G2 Q2.
have HT : ole (pr_transform semi) (pr_transform mal).
  by rewrite T1 T2; apply: ole_add (tl _); apply: ole_add (ole_refl _); exact: tl.
have HP : ole (pr_plaintexts semi) (pr_plaintexts mal).
  by rewrite P1 P2; do 3![apply: ole_add (ole_refl _)]; exact: ml.
have HX : ole (pr_ciphertexts semi) (pr_ciphertexts mal) by rewrite X1 X2; exact: ole_r (mn _).
have HK : ole (pr_keys semi) (pr_keys mal) by rewrite K1 K2; exact: mn.
have HM : ole (pr_masks semi) (pr_masks mal).
  by rewrite M1 M2; apply: nn_add (mn _) (nn_add (mn _) _); apply: nn_scale; lia.
have HE : ole (pr_errors semi) (pr_errors mal).
  rewrite E1 E2; apply: ole_add (mr _); apply: (ole_trans (ml _)); apply: ole_l.
  by apply: nn_add (mn _) (nn_add (mn _) _); apply: nn_scale; lia.
have Dm : pr_counts mal = mal_counts mp i a x by exact: mal_comp_counts.
have Ds : pr_counts semi = semi_counts mp i a x by exact: semi_comp_counts.
have HR : ole (pr_rand semi) (pr_rand mal) by rewrite R1 R2 Dm Ds; exact: (rand_le Hl Hn C1).
have HZ : ole (pr_zero semi) (pr_zero mal) by rewrite Z1 Z2 Dm Ds; exact: (zero_le Hl Hn C2).
have HB : pr_bitrand semi = pr_bitrand mal by rewrite B1 B2 Dm Ds C3.
have HL : ole zero_ops (pr_mackeygen mal) by rewrite L2; exact: (mackey_nn Hl Hn _).
have HG : ole (pr_garbling semi) (pr_garbling mal).
  by rewrite G1 G2; apply: (ole_trans _ (ole_r _ HV)); apply: ole_add HX; exact: ole_add.
have HQ : ole (pr_preproc semi) (pr_preproc mal).
  rewrite Q1 Q2 Y2 zero_l HB; apply: (ole_trans _ (ole_r _ HL)); apply: ole_add (ole_refl _).
  by apply: ole_add HZ; apply: ole_add HR; apply: ole_add HE; exact: ole_add.
by clear - HT HP HX HK HM HE HR HZ HB HG HQ; split; [split|split|split|].
Qed.
Print Assumptions C79_computation_costs.

(** The numbers of the README's example: 128 parties, threshold 31, packing parameter 33. *)
Example C79_example : let mp := MParams (Params 18 128 31 33 14 127 555 2) 3 3 in
  [/\ (0 < e_l (base mp))%N, (e_t (base mp) + e_l (base mp) <= e_n (base mp))%N, (e_t (base mp) < e_n (base mp))%N & (0 < e_binsup_dim (base mp))%N].
Proof. by []. Qed.

(** Without any wire the time estimated for the verification is negative. *)
Theorem C79_empty_refuted : exists mp, [/\ (0 < e_l (base mp))%N, (e_t (base mp) + e_l (base mp) <= e_n (base mp))%N &
  adds (pr_garbling (malicious_comp mp 0 0 0)) < 0].
Proof. by exists (MParams (Params 18 2 0 1 1 1 1 2) 3 3); split=> //; vm_compute. Qed.
Print Assumptions C79_empty_refuted.

(** ** Exact figures *)

(** The totals that communication_estimates.py prints are the sums of its lines. *)
Theorem C79_totals : forall mp num_inp num_and num_xor, let R := malicious_comm mp num_inp num_and num_xor in
  (mr_garbling R = mr_transform R + mr_plaintexts R + mr_ciphertexts R + mr_verification R /\
   mr_preproc R = mr_mackeys R + mr_keys R + mr_masks R + mr_errors R + mr_rand R + mr_zero R + mr_bitrand R + mr_mackeygen R)%N.
Proof.
move=> mp i a x R; rewrite /R /malicious_comm; cbv zeta.
do 8![match goal with |- context [match ?y with pair _ _ => _ end] => case: y => ? ? end].
by cbv beta iota delta [mr_garbling mr_transform mr_plaintexts mr_ciphertexts mr_verification mr_preproc mr_mackeys mr_keys mr_masks mr_errors
  mr_rand mr_zero mr_bitrand mr_mackeygen].
Qed.
Print Assumptions C79_totals.

(** MAC keys are made in batches of [2 l]: one sharing and [2 t] further elements
    per party and batch are sent; one sharing, one product with an n x n matrix and
    one robust reconstruction are computed. *)
Theorem C79_mac_keys : forall mp num_inp num_and num_xor, let p := base mp in
  (0 < e_l p)%N -> (e_t p + e_l p <= e_n p)%N ->
  let n := Z.of_nat (e_n p) in let t := Z.of_nat (e_t p) in let l := Z.of_nat (e_l p) in
  let k := pr_mackeygen (malicious_comp mp num_inp num_and num_xor) in
  exists c : nat, [/\ (lenmac mp <= 2 * e_l p * c < lenmac mp + 2 * e_l p)%N,
    mr_mackeygen (malicious_comm mp num_inp num_and num_xor) = (e_n p * (e_n p + 2 * e_t p) * ((e_field_bits p + 7) %/ 8) * c)%N,
    adds k = Z.of_nat c * (2 * (n - t) * (t + l - 1) + n * (n - 1)) & mults k = Z.of_nat c * (2 * (n - t) * (t + l) + n * n)].
Proof.
move=> mp i a x p Hl Hn n t l k; have Hl2 : (0 < 2 * e_l p)%N by lia.
have [_ _ [_ _ _ L2] _] := mal_comp_lines mp i a x; rewrite -/k mal_comp_counts /= in L2.
have Eq : mr_mackeygen (malicious_comm mp i a x) = mackeygen_comm mp (q_mackey (mr_counts (malicious_comm mp i a x))).
  rewrite /malicious_comm; cbv zeta.
  do 8![match goal with |- context [match ?y with pair _ _ => _ end] => case: y => ? ? end].
  by cbv beta iota delta [mr_mackeygen mr_counts].
rewrite mal_comm_counts in Eq; cbv beta iota delta [q_mackey] in Eq.
exists (ceil (lenmac mp) (2 * e_l p)); have /andP[B1 B2] := ceil_bounds (lenmac mp) Hl2.
split; first by rewrite /p in B1 B2 *; nia.
- by rewrite Eq /mackeygen_comm /allshare /e_fcomm -/p; move: (ceil _ _) (_ %/ _) => c f; nia.
- by rewrite L2 /mackeygen_comp /p_share /p_robustrecon /the_degree; cbv beta iota zeta delta [oplus oscale adds mults]; rewrite -/p -/n -/t -/l; ring.
- by rewrite L2 /mackeygen_comp /p_share /p_robustrecon /the_degree; cbv beta iota zeta delta [oplus oscale adds mults]; rewrite -/p -/n -/t -/l; ring.
Qed.
Print Assumptions C79_mac_keys.

(** The random sharings, zero sharings and random bits: per batch one sharing (of
    random values, for random sharings) and the product with the matrix. *)
Definition material_cost (p : params) (R : preport) : Prop :=
  let n := Z.of_nat (e_n p) in let t := Z.of_nat (e_t p) in let l := Z.of_nat (e_l p) in let b := Z.of_nat (e_binsup_dim p) in
  let q := pr_counts R in
  exists cr cz cb : nat,
    [/\ (q_rand q <= (e_n p - e_t p) * cr < q_rand q + (e_n p - e_t p))%N,
        (q_zero q <= (e_n p - e_t p) * cz < q_zero q + (e_n p - e_t p))%N &
        (q_bitrand q <= e_binsup_dim p * cb < q_bitrand q + e_binsup_dim p)%N] /\
    [/\ pr_rand R = Ops (Z.of_nat cr * ((n - t - l) * (t + l - 1) + (n - t) * (n - 1))) (Z.of_nat cr * ((n - t - l) * (t + l) + (n - t) * n)),
        pr_zero R = Ops (Z.of_nat cz * (l * (n - 1) + (n - t) * (n - 1))) (Z.of_nat cz * (l * n + (n - t) * n)) &
        pr_bitrand R = Ops (Z.of_nat cb * ((n - t) * (t + l - 1) + b * (n - 1))) (Z.of_nat cb * ((n - t) * (t + l) + b * n))].

Theorem C79_material_computation : forall mp num_inp num_and num_xor, let p := base mp in
  (0 < e_l p)%N -> (e_t p + e_l p <= e_n p)%N -> (1 < e_n p)%N -> (0 < e_binsup_dim p)%N ->
  material_cost p (malicious_comp mp num_inp num_and num_xor) /\ material_cost p (semihon_comp mp num_inp num_and num_xor).
Proof.
move=> mp i a x p Hl Hn Hn1 Hd.
have gen R : pr_rand R = rand_comp mp (q_rand (pr_counts R)) -> pr_zero R = zero_comp mp (q_zero (pr_counts R)) ->
    pr_bitrand R = bitrand_comp mp (q_bitrand (pr_counts R)) -> material_cost p R.
  rewrite /material_cost => -> -> ->; cbv zeta; move: (pr_counts R) => q.
  have Ht : (0 < e_n p - e_t p)%N by lia.
  have /andP[R1 R2] := ceil_bounds (q_rand q) Ht; have /andP[Z1 Z2] := ceil_bounds (q_zero q) Ht; have /andP[X1 X2] := ceil_bounds (q_bitrand q) Hd.
  exists (ceil (q_rand q) (e_n p - e_t p)), (ceil (q_zero q) (e_n p - e_t p)), (ceil (q_bitrand q) (e_binsup_dim p)); split.
    by split; rewrite mulnC; apply/andP; split; nia.
  split.
  - rewrite /rand_comp /p_rand_share /the_degree -/p; cbv beta iota zeta delta [oplus oscale adds mults]; move: (ceil _ _) => c; congr Ops; ring.
  - rewrite /zero_comp /p_share /the_degree -/p; cbv beta iota zeta delta [oplus oscale adds mults]; case: Z.eqb_spec => [E|_]; first by exfalso; lia.
    by move: (ceil _ _) => c; congr Ops; ring.
  - by rewrite /bitrand_comp /p_share /the_degree -/p; cbv beta iota zeta delta [oplus oscale adds mults]; move: (ceil _ _) => c; congr Ops; ring.
have [_ _ [R1 Z1 B1 _] _] := mal_comp_lines mp i a x; have [_ _ [R2 Z2 B2] _] := semi_comp_lines mp i a x.
by split; apply: gen.
Qed.
Print Assumptions C79_material_computation.

(** The verification of the malicious protocol: three coins, [2 lencheck + 2 lenmac]
    robust reconstructions, and the linear combinations of all shared values
    ([cons]), of all authenticated ones ([mac]) and of those that have to be zero. *)
Theorem C79_verification_computation : forall mp num_inp num_and num_xor, let p := base mp in
  let n := Z.of_nat (e_n p) in let t := Z.of_nat (e_t p) in let l := Z.of_nat (e_l p) in
  let A := ceil num_and (e_l p) in let X := ceil num_xor (e_l p) in let G := (A + X)%N in let W := (ceil num_inp (e_l p) + A + X)%N in
  let K := e_key_len p in let N := e_noise p in let e := (4 * G * e_ctx_len p)%N in let m := lenmac mp in
  let S := (A * (3 * (K + 1) + 1) + X * (K + 1))%N in
  let mult := (W + e * N + e * (N - 1) + S + e)%N in let trans := (W * (2 * K + 1) + 2 * G * (2 * K + 1))%N in
  let cons := Z.of_nat ((W * 2 * K + W) * (m + 1) + e * N * m + (mult + trans) * (m + 1)) in
  let mac := Z.of_nat (W * 2 * K + W + e * N + mult + 2 * G * (2 * K + 1)) in
  let zero := Z.of_nat (W + e * N) in
  let c := Z.of_nat (3 * ceil 128 (e_field_bits p) + 2 * lencheck mp + 2 * m) in let k := Z.of_nat (lencheck mp) in
  pr_verification (malicious_comp mp num_inp num_and num_xor) =
    Ops (c * (n - t) * (t + l - 1) + k * cons + 2 * Z.of_nat m * (mac - 1) + 1 + k * (zero - 1))
        (c * (n - t) * (t + l) + k * (cons + 1) + 2 * Z.of_nat m * mac + 1 + k * zero).
Proof.
move=> mp i a x p n t l A X G W K N e m S mult trans cons mac zero c k.
open_comp; rewrite /p_robustrecon /zero_ops; cbv beta iota delta [oplus oscale adds mults].
rewrite -/p -/n -/t -/l -/A -/X -/G -/W -/K -/N -/m -/S.
have Ee : (G * 4 * e_ctx_len p)%N = e by rewrite /e; lia.
rewrite Ee -/e /c /k /cons /mac /zero /mult /trans.
move: (ceil 128 _) (e * (N - 1))%N => f eN.
congr Ops; rewrite ?(PeanoNat.Nat.add_0_r) -?plusE -?multE ?Nat2Z.inj_add ?Nat2Z.inj_mul ?Nat2Z.inj_add ?Nat2Z.inj_mul ?Nat2Z.inj_add; cbn [Z.of_nat Pos.of_succ_nat Pos.succ]; ring.
Qed.
Print Assumptions C79_verification_computation.

(** A circuit with one input and one AND gate. *)
Example C79_figures : let R := malicious_comp (MParams (Params 18 5 1 1 2 1 2 2) 1 1) 1 1 0 in
  [/\ pr_verification R = Ops 400 516, pr_mackeygen R = Ops 28 41 & pr_rand R = Ops 1444 1976].
Proof. by vm_compute. Qed.

(** The remaining lines of the computation.  A product of two sharings costs three
    additions and a multiplication at every party; a moved value two additions and
    its share of a batch of [l] random transformations.  The reductions of the degree
    are spread over the parties, each reconstructs from [n] shares and shares again. *)
Definition reduction (p : params) (x : nat) : ops :=
  let n := Z.of_nat (e_n p) in let t := Z.of_nat (e_t p) in let l := Z.of_nat (e_l p) in
  Z.of_nat ((x + e_n p - 1) %/ e_n p) *o Ops (l * (n - 1) + (n - t) * (t + l - 1)) (l * n + (n - t) * (t + l)).
Definition products (p : params) (x : nat) : ops := Ops (3 * Z.of_nat x) (Z.of_nat x) +o reduction p x.
Definition moves (p : params) (x : nat) : ops :=
  let n := Z.of_nat (e_n p) in let t := Z.of_nat (e_t p) in let l := Z.of_nat (e_l p) in
  Z.of_nat (ceil x (e_l p)) *o Ops (3 * l * (n - 1) + (n - t) * (t + l - 1)) (3 * l * n + (n - t) * (t + l)) +o
  Ops (2 * Z.of_nat x) 0 +o reduction p x.

Theorem C79_lines : forall mp num_inp num_and num_xor, let p := base mp in
  let A := ceil num_and (e_l p) in let X := ceil num_xor (e_l p) in let G := (A + X)%N in let W := (ceil num_inp (e_l p) + A + X)%N in
  let K := e_key_len p in let N := e_noise p in let e := (4 * G * e_ctx_len p)%N in let m := lenmac mp in
  let w1 := (W * (2 * K + 1))%N in let w2 := (2 * G * (2 * K + 1))%N in
  let S := (A * (3 * (K + 1) + 1) + X * (K + 1))%N in
  let select := Ops (Z.of_nat w2 * (Z.of_nat (e_l p) - 1)) (Z.of_nat w2 * Z.of_nat (e_l p)) in
  let rows := Ops (Z.of_nat (7 * A + 4 * X + 8 * G * K)) 0 in
  let encrypt := Ops (Z.of_nat (e * (2 * K + 1))) (Z.of_nat (e * (2 * K + 1))) in
  let M := malicious_comp mp num_inp num_and num_xor in let R := semihon_comp mp num_inp num_and num_xor in
  [/\ [/\ pr_transform M = moves p ((m + 1) * w1) +o select +o moves p ((m + 1) * w2),
          pr_plaintexts M = products p ((m + 1) * S) +o rows &
          pr_ciphertexts M = encrypt +o products p ((m + 1) * e)],
      [/\ pr_keys M = products p (m * (W * 2 * K)),
          pr_masks M = products p (m * W) +o products p ((m + 1) * W) +o Ops (Z.of_nat W) 0 &
          pr_errors M = products p (m * (e * N)) +o products p ((m + 1) * (e * N)) +o Ops (Z.of_nat (e * N)) 0 +o
                        products p ((m + 1) * (e * (N - 1))) +o products p ((m + 1) * e)],
      [/\ pr_transform R = moves p w1 +o select +o moves p w2,
          pr_plaintexts R = products p S +o rows &
          pr_ciphertexts R = encrypt] &
      [/\ pr_keys R = Ops 0 0, pr_masks R = Ops 0 0 & pr_errors R = products p (e * (N - 1)) +o products p e]].
Proof.
move=> mp i a x p A X G W K N e m w1 w2 S select rows encrypt M R.
have [[T1 P1 X1] [K1 M1 E1] _ _] := semi_comp_lines mp i a x.
have [[T2 P2 X2] [_ K2 M2 E2] _ _] := mal_comp_lines mp i a x.
have Hm z : mcost mp z = products p z.
  rewrite /mcost /products /reduction /p_degreduce /p_recon /p_share /the_degree /ceil -/p.
  cbv beta iota zeta delta [oplus oscale adds mults]; congr Ops; ring.
have Ht z : tcost mp z = moves p z.
  rewrite /tcost /rscost /moves /reduction /p_degreduce /p_recon /p_share /the_degree /ceil -/p.
  cbv beta iota zeta delta [oplus oscale adds mults]; congr Ops; ring.
have Ee : (G * 4 * e_ctx_len p = e)%N by rewrite /e; lia.
rewrite -/p -/A -/X -/G -/W -/K -/N -/m -/M -/R in T1 P1 X1 K1 M1 E1 T2 P2 X2 K2 M2 E2.
rewrite !(Hm, Ht, Ee) in T1 P1 X1 K1 M1 E1 T2 P2 X2 K2 M2 E2.
have HR y : y +o Z.of_nat A *o Ops 7 0 +o Z.of_nat X *o Ops 4 0 +o Z.of_nat (G * 4 * K) *o Ops 2 0 = y +o rows.
  rewrite /rows; cbv beta iota delta [oplus oscale adds mults]; congr Ops; last by ring.
  by rewrite -plusE -multE !Nat2Z.inj_add !Nat2Z.inj_mul; cbn [Z.of_nat Pos.of_succ_nat Pos.succ]; ring.
have HE : p_ecc mp (Z.of_nat (4 * G)) +o Z.of_nat (4 * G * e_ctx_len p) *o Ops (Z.of_nat K + 1) (Z.of_nat K) = encrypt.
  rewrite /encrypt /p_ecc /e -/p -/K; cbv beta iota delta [oplus oscale adds mults]; congr Ops;
  by rewrite -plusE -multE !(Nat2Z.inj_add, Nat2Z.inj_mul); cbn [Z.of_nat Pos.of_succ_nat Pos.succ]; ring.
have H1 z : Z.of_nat z *o Ops 1 0 = Ops (Z.of_nat z) 0 by rewrite /oscale /=; congr Ops; ring.
rewrite !(HR, HE) in P1 X1 P2 X2; rewrite !H1 in M2 E2.
clearbody M R; clear Hm Ht HR HE.
split; split=> //; first by rewrite M2; exact: oplusA.
by rewrite E2 [(e * (m + 1))%N]mulnC; congr (_ +o _ +o _); exact: oplusA.
Qed.
Print Assumptions C79_lines.

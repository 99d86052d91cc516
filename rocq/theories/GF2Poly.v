(** Arithmetic of binary polynomials modulo a polynomial of degree [w], on
    binary numbers (bit i = coefficient of x^i).  Proof library; the
    specification-level definitions are [clmul] and [gmul]. *)

From Coq Require Import ZArith NArith List Bool Lia Arith.
Import ListNotations.
Local Open Scope N_scope.

(** Carry-less product of two binary polynomials (specification). *)
Fixpoint clmul_pos (a : positive) (b : N) : N :=
  match a with
  | xH => b
  | xO a' => N.double (clmul_pos a' b)
  | xI a' => N.lxor b (N.double (clmul_pos a' b))
  end.
Definition clmul (a b : N) : N :=
  match a with N0 => 0 | Npos p => clmul_pos p b end.

(** Multiplication by x modulo x^w + (low part of p), on values below 2^w. *)
Definition xt (w p b : N) : N :=
  N.lxor ((2 * b) mod 2 ^ w) (if N.testbit b (w - 1) then p mod 2 ^ w else 0).

Definition xpow (w p : N) (n : nat) (b : N) : N := Nat.iter n (xt w p) b.
Arguments xpow : simpl never.

(** Sum over the low [n] bits i of [a] of x^i * b. *)
Fixpoint gmuln (w p : N) (n : nat) (a b : N) : N :=
  match n with
  | O => 0
  | S n' => N.lxor (gmuln w p n' a b)
                   (if N.testbit a (N.of_nat n') then xpow w p n' b else 0)
  end.

(** Product modulo the polynomial. *)
Definition gmul (w p a b : N) : N := gmuln w p (N.to_nat w) a b.

(** ** Generalities on bits *)

Lemma lt_pow2_bits a n : a < 2 ^ n -> forall i, n <= i -> N.testbit a i = false.
Proof.
  intros H i Hi. destruct (N.eq_dec a 0) as [->|Ha]; [apply N.bits_0|].
  apply N.bits_above_log2. apply N.log2_lt_pow2 in H; lia.
Qed.

Lemma bits_lt_pow2 a n : (forall i, n <= i -> N.testbit a i = false) -> a < 2 ^ n.
Proof.
  intros H. destruct (N.eq_dec a 0) as [->|Ha].
  - apply N.neq_0_lt_0, N.pow_nonzero; lia.
  - apply N.log2_lt_pow2; [lia|].
    destruct (N.lt_ge_cases (N.log2 a) n) as [|G]; [assumption|].
    specialize (H _ G). rewrite N.bit_log2 in H; [discriminate|assumption].
Qed.

Lemma lxor_lt a b n : a < 2 ^ n -> b < 2 ^ n -> N.lxor a b < 2 ^ n.
Proof.
  intros Ha Hb. apply bits_lt_pow2. intros i Hi. rewrite N.lxor_spec.
  rewrite (lt_pow2_bits a n), (lt_pow2_bits b n); auto.
Qed.

Lemma pow2_pos n : 0 < 2 ^ n.
Proof. apply N.neq_0_lt_0, N.pow_nonzero; lia. Qed.

Lemma mod_pow2_lt a n : a mod 2 ^ n < 2 ^ n.
Proof. apply N.mod_lt, N.pow_nonzero; lia. Qed.

Ltac xorsolve := repeat match goal with
  | |- context [N.testbit ?a ?i] => destruct (N.testbit a i) end; reflexivity.

Ltac xring := apply N.bits_inj; intro; rewrite !N.lxor_spec; xorsolve.

Lemma lxor_swap a b c d :
  N.lxor (N.lxor a b) (N.lxor c d) = N.lxor (N.lxor a c) (N.lxor b d).
Proof. apply N.bits_inj; intro i; rewrite !N.lxor_spec; xorsolve. Qed.

Lemma xor_is_sum_disj a n (b : bool) :
  a < 2 ^ (N.succ n) ->
  a = N.lxor (a mod 2 ^ n) (if N.testbit a n then 2 ^ n else 0).
Proof.
  intros H. apply N.bits_inj; intro i. rewrite N.lxor_spec.
  destruct (N.lt_trichotomy i n) as [Hi|[->|Hi]].
  - rewrite N.mod_pow2_bits_low by assumption.
    destruct (N.testbit a n); [rewrite N.pow2_bits_false by lia|rewrite N.bits_0];
      now rewrite xorb_false_r.
  - rewrite N.mod_pow2_bits_high by lia.
    destruct (N.testbit a n) eqn:E; [now rewrite N.pow2_bits_true|now rewrite N.bits_0].
  - rewrite N.mod_pow2_bits_high by lia. rewrite (lt_pow2_bits a (N.succ n)) by (auto; lia).
    destruct (N.testbit a n); [rewrite N.pow2_bits_false by lia|rewrite N.bits_0]; reflexivity.
Qed.

Lemma dbl_bits_0 a : N.testbit (N.double a) 0 = false.
Proof. rewrite N.double_spec. apply N.testbit_even_0. Qed.
Lemma dbl_bits_succ a n : N.testbit (N.double a) (N.succ n) = N.testbit a n.
Proof. rewrite N.double_spec. apply N.testbit_even_succ, N.le_0_l. Qed.

(** ** Multiplication by x *)

Section Ring.
Variables w p : N.
Hypothesis Hw : 1 <= w.

Notation xt := (xt w p).
Notation xpow := (xpow w p).
Notation gmuln := (gmuln w p).
Notation gmul := (gmul w p).

Lemma xt_lt b : xt b < 2 ^ w.
Proof.
  unfold GF2Poly.xt. apply lxor_lt; [apply mod_pow2_lt|].
  destruct (N.testbit b (w - 1)); [apply mod_pow2_lt|apply pow2_pos].
Qed.

Lemma xt_lxor a b : xt (N.lxor a b) = N.lxor (xt a) (xt b).
Proof.
  unfold GF2Poly.xt. rewrite lxor_swap. f_equal.
  - apply N.bits_inj; intro i. rewrite N.lxor_spec.
    destruct (N.lt_ge_cases i w).
    + rewrite !N.mod_pow2_bits_low by assumption.
      rewrite <- !N.double_spec.
      destruct (N.eq_dec i 0) as [->|Hi].
      * now rewrite !dbl_bits_0.
      * replace i with (N.succ (i - 1)) by lia.
        now rewrite !dbl_bits_succ, N.lxor_spec.
    + now rewrite !N.mod_pow2_bits_high by assumption.
  - rewrite N.lxor_spec.
    destruct (N.testbit a (w - 1)), (N.testbit b (w - 1)); simpl;
      rewrite ?N.lxor_nilpotent, ?N.lxor_0_r, ?N.lxor_0_l; reflexivity.
Qed.

Lemma xt_0 : xt 0 = 0.
Proof.
  unfold GF2Poly.xt. rewrite N.bits_0, N.mul_0_r, N.mod_0_l; [reflexivity|].
  apply N.pow_nonzero; lia.
Qed.

Lemma xpow_S n b : xpow (S n) b = xt (xpow n b).
Proof. reflexivity. Qed.

Lemma xpow_add n m b : xpow (n + m) b = xpow n (xpow m b).
Proof. induction n; simpl; [reflexivity|]. now rewrite !xpow_S, IHn. Qed.

Lemma xpow_lxor n a b : xpow n (N.lxor a b) = N.lxor (xpow n a) (xpow n b).
Proof. induction n; simpl; [reflexivity|]. now rewrite !xpow_S, IHn, xt_lxor. Qed.

Lemma xpow_0 n : xpow n 0 = 0.
Proof. induction n; simpl; [reflexivity|]. now rewrite xpow_S, IHn, xt_0. Qed.

Lemma xpow_lt n b : b < 2 ^ w -> xpow n b < 2 ^ w.
Proof. destruct n; simpl; [auto|]. intros _. rewrite xpow_S. apply xt_lt. Qed.

Lemma xt_pow2 i : i + 1 < w -> xt (2 ^ i) = 2 ^ (i + 1).
Proof.
  intro H. unfold GF2Poly.xt. rewrite N.pow2_bits_false by lia. rewrite N.lxor_0_r.
  rewrite <- N.pow_succ_r', N.add_1_r. apply N.mod_small, N.pow_lt_mono_r; lia.
Qed.

Lemma xpow_one_pow2 n : N.of_nat n < w -> xpow n 1 = 2 ^ N.of_nat n.
Proof.
  induction n; intro H; [reflexivity|].
  rewrite xpow_S, IHn by lia. rewrite xt_pow2 by lia. f_equal; lia.
Qed.

(** ** Bilinearity *)

Lemma gmuln_lxor_l n a a' b :
  gmuln n (N.lxor a a') b = N.lxor (gmuln n a b) (gmuln n a' b).
Proof.
  induction n; simpl; [reflexivity|]. rewrite IHn, N.lxor_spec.
  rewrite (lxor_swap (gmuln n a b)). f_equal.
  destruct (N.testbit a _), (N.testbit a' _); simpl;
    rewrite ?N.lxor_nilpotent, ?N.lxor_0_r, ?N.lxor_0_l; reflexivity.
Qed.

Lemma gmuln_lxor_r n a b b' :
  gmuln n a (N.lxor b b') = N.lxor (gmuln n a b) (gmuln n a b').
Proof.
  induction n; simpl; [reflexivity|]. rewrite IHn.
  rewrite (lxor_swap (gmuln n a b)). f_equal.
  destruct (N.testbit a _); [apply xpow_lxor|reflexivity].
Qed.

Lemma gmuln_lt n a b : b < 2 ^ w -> gmuln n a b < 2 ^ w.
Proof.
  intro Hb. induction n; simpl; [apply pow2_pos|].
  apply lxor_lt; [assumption|]. destruct (N.testbit a _); [now apply xpow_lt|apply pow2_pos].
Qed.

Lemma gmuln_0_l n b : gmuln n 0 b = 0.
Proof. induction n; simpl; [reflexivity|]. now rewrite IHn. Qed.

Lemma gmuln_0_r n a : gmuln n a 0 = 0.
Proof. induction n; simpl; [reflexivity|]. rewrite IHn, xpow_0. now destruct (N.testbit a _). Qed.

Lemma gmuln_pow2 n i b : (i < n)%nat -> gmuln n (2 ^ N.of_nat i) b = xpow i b.
Proof.
  induction n; intro H; [lia|]. simpl.
  destruct (Nat.eq_dec i n) as [->|Hi].
  - rewrite N.pow2_bits_true.
    replace (gmuln n (2 ^ N.of_nat n) b) with 0; [apply N.lxor_0_l|].
    symmetry. clear H IHn. assert (H : (n <= n)%nat) by lia. revert H.
    generalize n at 1 3 as m. induction m; intro H; simpl; [reflexivity|].
    rewrite IHm by lia. rewrite N.pow2_bits_false by lia. reflexivity.
  - rewrite N.pow2_bits_false by lia. rewrite N.lxor_0_r. apply IHn; lia.
Qed.

Lemma gmul_lxor_l a a' b : gmul (N.lxor a a') b = N.lxor (gmul a b) (gmul a' b).
Proof. apply gmuln_lxor_l. Qed.
Lemma gmul_lxor_r a b b' : gmul a (N.lxor b b') = N.lxor (gmul a b) (gmul a b').
Proof. apply gmuln_lxor_r. Qed.
Lemma gmul_lt a b : b < 2 ^ w -> gmul a b < 2 ^ w.
Proof. apply gmuln_lt. Qed.
Lemma gmul_0_l b : gmul 0 b = 0.
Proof. apply gmuln_0_l. Qed.
Lemma gmul_0_r a : gmul a 0 = 0.
Proof. apply gmuln_0_r. Qed.
Lemma gmul_pow2_l i b : N.of_nat i < w -> gmul (2 ^ N.of_nat i) b = xpow i b.
Proof. intro H. apply gmuln_pow2. lia. Qed.
Lemma gmul_1_l b : gmul 1 b = b.
Proof. change 1 with (2 ^ N.of_nat 0). now rewrite gmul_pow2_l by (simpl; lia). Qed.

(** Linear induction: a predicate closed under xor holds below 2^n if it holds
    at the powers of two below 2^n. *)
Lemma lin_ind (Q : N -> Prop) n :
  Q 0 -> (forall a b, Q a -> Q b -> Q (N.lxor a b)) ->
  (forall i, (i < n)%nat -> Q (2 ^ N.of_nat i)) ->
  forall a, a < 2 ^ N.of_nat n -> Q a.
Proof.
  intros Q0 Qx. induction n; intros Qb a Ha.
  - simpl in Ha. replace a with 0 by lia. assumption.
  - rewrite (xor_is_sum_disj a (N.of_nat n) true).
    + apply Qx.
      * apply IHn; [intros; apply Qb; lia|apply mod_pow2_lt].
      * destruct (N.testbit a _); [apply Qb; lia|assumption].
    + now rewrite <- Nat2N.inj_succ.
Qed.

Lemma w_nat : N.of_nat (N.to_nat w) = w.
Proof. apply N2Nat.id. Qed.

Lemma gmul_comm a b : a < 2 ^ w -> b < 2 ^ w -> gmul a b = gmul b a.
Proof.
  intro Ha. revert b. rewrite <- w_nat in Ha. revert a Ha.
  apply (lin_ind (fun a => forall b, b < 2 ^ w -> gmul a b = gmul b a)).
  - intros. now rewrite gmul_0_l, gmul_0_r.
  - intros a b IHa IHb c Hc. now rewrite gmul_lxor_l, gmul_lxor_r, IHa, IHb.
  - intros i Hi b Hb. rewrite <- w_nat in Hb. revert b Hb. apply lin_ind.
    + now rewrite gmul_0_l, gmul_0_r.
    + intros a b Ha Hb. now rewrite gmul_lxor_l, gmul_lxor_r, Ha, Hb.
    + intros j Hj. rewrite !gmul_pow2_l by lia.
      rewrite <- (xpow_one_pow2 j), <- (xpow_one_pow2 i) by lia.
      now rewrite <- !xpow_add, Nat.add_comm.
Qed.

Lemma gmuln_xt n a b : gmuln n a (xt b) = xt (gmuln n a b).
Proof.
  induction n; simpl; [now rewrite xt_0|]. rewrite IHn, xt_lxor. f_equal.
  destruct (N.testbit a _); [|now rewrite xt_0].
  change (xt b) with (xpow 1 b). rewrite <- xpow_add, Nat.add_1_r. reflexivity.
Qed.

Lemma gmul_xpow n a b : gmul a (xpow n b) = xpow n (gmul a b).
Proof.
  induction n; simpl; [reflexivity|]. rewrite !xpow_S, <- IHn. apply gmuln_xt.
Qed.

Lemma gmuln_commute n a c b : gmul c (gmuln n a b) = gmuln n a (gmul c b).
Proof.
  induction n; simpl; [apply gmul_0_r|]. rewrite gmul_lxor_r, IHn. f_equal.
  destruct (N.testbit a _); [apply gmul_xpow|apply gmul_0_r].
Qed.

Lemma gmul_assoc a b c : a < 2 ^ w -> b < 2 ^ w -> c < 2 ^ w ->
  gmul a (gmul b c) = gmul (gmul a b) c.
Proof.
  intros Ha Hb Hc.
  rewrite (gmul_comm (gmul a b) c) by (auto; now apply gmul_lt).
  assert (E : gmul c (gmul a b) = gmul a (gmul c b)) by apply gmuln_commute.
  rewrite E. f_equal. now apply gmul_comm.
Qed.

Lemma gmul_1_r a : a < 2 ^ w -> gmul a 1 = a.
Proof.
  intro Ha. rewrite gmul_comm; [apply gmul_1_l|assumption|].
  apply N.le_lt_trans with (2 ^ 0); [reflexivity|]. apply N.pow_lt_mono_r; lia.
Qed.

Lemma one_lt : 1 < 2 ^ w.
Proof. apply N.le_lt_trans with (2 ^ 0); [reflexivity|]. apply N.pow_lt_mono_r; lia. Qed.

Lemma xpow_gmul n a : a < 2 ^ w -> xpow n a = gmul (xpow n 1) a.
Proof.
  intro Ha. rewrite gmul_comm; [|apply xpow_lt, one_lt|assumption].
  now rewrite gmul_xpow, gmul_1_r.
Qed.

(** ** Relation with the carry-less product *)

Lemma clmul_double a b : clmul (N.double a) b = N.double (clmul a b).
Proof. destruct a; reflexivity. Qed.

Lemma double_lxor a b : N.double (N.lxor a b) = N.lxor (N.double a) (N.double b).
Proof.
  apply N.bits_inj; intro i. rewrite N.lxor_spec.
  destruct (N.eq_dec i 0) as [->|Hi]; [now rewrite !dbl_bits_0|].
  replace i with (N.succ (i - 1)) by lia.
  now rewrite !dbl_bits_succ, N.lxor_spec.
Qed.

Lemma clmul_pos_lxor_r q b c : clmul_pos q (N.lxor b c) = N.lxor (clmul_pos q b) (clmul_pos q c).
Proof.
  induction q; simpl; rewrite ?IHq, ?double_lxor; try reflexivity. apply lxor_swap.
Qed.

Lemma clmul_lxor_r a b c : clmul a (N.lxor b c) = N.lxor (clmul a b) (clmul a c).
Proof. destruct a; [reflexivity|apply clmul_pos_lxor_r]. Qed.

Lemma clmul_succ_double a b : clmul (N.succ_double a) b = N.lxor b (N.double (clmul a b)).
Proof. destruct a; simpl; [now rewrite N.lxor_0_r|reflexivity]. Qed.

Lemma clmul_lxor_l a : forall a' b, clmul (N.lxor a a') b = N.lxor (clmul a b) (clmul a' b).
Proof.
  induction a as [|a IH|a IH] using N.binary_ind; intros a' b.
  - now rewrite !N.lxor_0_l.
  - destruct (N.even a') eqn:E.
    + apply N.even_spec in E as [c ->]. rewrite <- (N.double_spec c).
      rewrite <- double_lxor, !clmul_double, IH. apply double_lxor.
    + rewrite <- N.negb_odd in E. apply negb_false_iff, N.odd_spec in E as [c ->].
      rewrite <- N.succ_double_spec.
      assert (X : N.lxor (N.double a) (N.succ_double c) = N.succ_double (N.lxor a c)).
      { destruct a, c; simpl; try reflexivity. }
      rewrite X, clmul_succ_double, clmul_double, IH, clmul_succ_double, double_lxor.
      xring.
  - destruct (N.even a') eqn:E.
    + apply N.even_spec in E as [c ->]. rewrite <- (N.double_spec c).
      assert (X : N.lxor (N.succ_double a) (N.double c) = N.succ_double (N.lxor a c)).
      { destruct a, c; simpl; try reflexivity. }
      rewrite X, !clmul_succ_double, clmul_double, IH, double_lxor.
      xring.
    + rewrite <- N.negb_odd in E. apply negb_false_iff, N.odd_spec in E as [c ->].
      rewrite <- N.succ_double_spec.
      assert (X : N.lxor (N.succ_double a) (N.succ_double c) = N.double (N.lxor a c)).
      { destruct a, c; simpl; try reflexivity. }
      rewrite X, clmul_double, IH, !clmul_succ_double, double_lxor.
      rewrite (lxor_swap b), N.lxor_nilpotent, N.lxor_0_l. reflexivity.
Qed.

Lemma clmul_pow2 n b : clmul (2 ^ N.of_nat n) b = Nat.iter n N.double b.
Proof.
  induction n; [reflexivity|].
  rewrite Nat2N.inj_succ, N.pow_succ_r', <- N.double_spec, clmul_double, IHn. reflexivity.
Qed.

Lemma clmul_0_r a : clmul a 0 = 0.
Proof.
  destruct a; [reflexivity|]. simpl. induction p0; simpl; rewrite ?IHp0; reflexivity.
Qed.

(** The modulus: x^w plus the low [w] coefficients of [p]. *)
Definition modulus : N := N.lxor (2 ^ w) (p mod 2 ^ w).

Lemma xt_double b : b < 2 ^ w ->
  N.double b = N.lxor (if N.testbit b (w - 1) then modulus else 0) (xt b).
Proof.
  intro Hb. unfold GF2Poly.xt, modulus.
  assert (D : N.double b = N.lxor (N.double b mod 2 ^ w)
                 (if N.testbit (N.double b) w then 2 ^ w else 0)).
  { apply xor_is_sum_disj; [exact true|].
    rewrite N.pow_succ_r', N.double_spec. lia. }
  assert (T : N.testbit (N.double b) w = N.testbit b (w - 1)).
  { replace w with (N.succ (w - 1)) at 1 by lia. apply dbl_bits_succ. }
  rewrite T in D. rewrite <- (N.double_spec b).
  destruct (N.testbit b (w - 1)).
  - rewrite D at 1. apply N.bits_inj; intro i; rewrite !N.lxor_spec.
    destruct (N.testbit (N.double b mod 2 ^ w) i), (N.testbit (2 ^ w) i), (N.testbit (p mod 2 ^ w) i); reflexivity.
  - rewrite D at 1. now rewrite N.lxor_0_l.
Qed.

Lemma iter_double_xpow n b : b < 2 ^ w ->
  exists q, Nat.iter n N.double b = N.lxor (clmul q modulus) (xpow n b).
Proof.
  intro Hb. induction n as [|n [q IH]].
  - exists 0. simpl. now rewrite ?N.lxor_0_l.
  - simpl Nat.iter. rewrite IH, double_lxor, <- clmul_double.
    rewrite (xt_double (xpow n b)) by now apply xpow_lt.
    rewrite <- N.lxor_assoc, <- xpow_S.
    destruct (N.testbit (xpow n b) (w - 1)).
    + exists (N.lxor (N.double q) 1). now rewrite clmul_lxor_l.
    + exists (N.double q). now rewrite N.lxor_0_r.
Qed.

(** [gmul a b] is the remainder of the carry-less product modulo [modulus]. *)
Lemma gmul_clmul a b : a < 2 ^ w -> b < 2 ^ w ->
  exists q, clmul a b = N.lxor (clmul q modulus) (gmul a b).
Proof.
  intros Ha Hb. rewrite <- w_nat in Ha. revert a Ha. apply lin_ind.
  - exists 0. rewrite gmul_0_l. reflexivity.
  - intros a a' [q Hq] [q' Hq']. exists (N.lxor q q').
    rewrite !clmul_lxor_l, gmul_lxor_l, Hq, Hq'. apply lxor_swap.
  - intros i Hi. rewrite clmul_pow2, gmul_pow2_l by lia. now apply iter_double_xpow.
Qed.

End Ring.

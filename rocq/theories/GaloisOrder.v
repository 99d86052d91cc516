(** For every width 1..30 the element x has multiplicative order exactly
    2^w - 1 modulo the library's polynomial, hence every nonzero residue is a
    power of x.  Proof library. *)

From Coq Require Import ZArith NArith List Bool Lia Arith Znumtheory.
From Verif Require Import GaloisModel GF2Poly.
Import ListNotations.

(** ** Trial division *)

Local Open Scope Z_scope.

Fixpoint tdiv (fuel : nat) (k q : Z) : bool :=
  match fuel with
  | O => false
  | S f => if q <? k * k then true
           else if q mod k =? 0 then false else tdiv f (k + 1) q
  end.

Definition tprime (q : Z) : bool := (2 <=? q) && tdiv 800 2 q.

Lemma tdiv_sound fuel : forall k q, 2 <= k -> 2 <= q -> tdiv fuel k q = true ->
  (forall d, 2 <= d < k -> ~ (d | q)) ->
  forall d, 2 <= d -> d * d <= q -> ~ (d | q).
Proof.
  induction fuel; intros k q Hk Hq H Hs d Hd Hdd; simpl in H; [discriminate|].
  destruct (Z.ltb_spec q (k * k)).
  - apply Hs. split; [assumption|]. nia.
  - destruct (Z.eqb_spec (q mod k) 0) as [|E]; [discriminate|].
    apply (IHfuel (k + 1) q); auto; [lia|].
    intros e He. destruct (Z.eq_dec e k) as [->|]; [|apply Hs; lia].
    intro D. apply Z.mod_divide in D; lia.
Qed.

Lemma tprime_sound q : tprime q = true -> prime q.
Proof.
  unfold tprime. intro H. apply andb_prop in H as [H1 H2]. apply Z.leb_le in H1.
  apply prime_alt. split; [lia|]. intros n Hn D.
  assert (S := tdiv_sound 800 2 q (Z.le_refl 2) H1 H2).
  assert (S' : forall d, 2 <= d -> d * d <= q -> ~ (d | q)) by (apply S; intros; lia).
  clear S. destruct D as [m Hm].
  destruct (Z_le_gt_dec (n * n) q) as [L|G].
  - apply (S' n); [lia|assumption|]. exists m; lia.
  - apply (S' m); [nia|nia|]. exists n. lia.
Qed.

(** A proper divisor of a product of primes divides a maximal proper divisor. *)
Lemma proper_divisor qs : Forall prime qs ->
  forall d, 0 < d -> (d | fold_right Z.mul 1 qs) -> d <> fold_right Z.mul 1 qs ->
  exists q e, In q qs /\ fold_right Z.mul 1 qs = q * e /\ (d | e).
Proof.
  induction 1 as [|q qs Hq Hqs IH]; intros d Hd D Hne; simpl in *.
  - exfalso. apply Hne. apply Z.divide_1_r_nonneg; [lia|assumption].
  - destruct D as [k Hk].
    assert (Q : (q | k * d)) by (exists (fold_right Z.mul 1 qs); lia).
    assert (q1 : 1 < q) by (destruct Hq; assumption).
    apply prime_mult in Q as [[k' ->]|[d' ->]]; [| |assumption].
    + exists q, (fold_right Z.mul 1 qs). split; [now left|]. split; [reflexivity|].
      exists k'. nia.
    + destruct (IH d') as (q' & e & I & E & D').
      * nia.
      * exists k. nia.
      * intro X. apply Hne. nia.
      * exists q', (q * e). split; [now right|]. split; [rewrite E; ring|].
        destruct D' as [z ->]. exists z. ring.
Qed.

(** ** Fast powering of x *)

Local Open Scope N_scope.

Definition fstep (m md b : N) : N :=
  let b2 := N.double b in if b2 <? m then b2 else N.lxor b2 md.

Fixpoint hmul (m md : N) (a : positive) (b : N) : N :=
  match a with
  | xH => b
  | xO a' => fstep m md (hmul m md a' b)
  | xI a' => N.lxor b (fstep m md (hmul m md a' b))
  end.

Definition hmulN (m md a b : N) : N :=
  match a with N0 => 0 | Npos q => hmul m md q b end.

Fixpoint fpow (m md : N) (x : N) (e : positive) : N :=
  match e with
  | xH => x
  | xO e' => let y := fpow m md x e' in hmulN m md y y
  | xI e' => let y := fpow m md x e' in fstep m md (hmulN m md y y)
  end.

Section Fast.
Variables w p : N.
Hypothesis Hw : 1 <= w.
Let m := 2 ^ w.
Let md := modulus w p.

Lemma fstep_xt b : b < 2 ^ w -> fstep m md b = xt w p b.
Proof.
  intro Hb. unfold fstep, m. generalize (xt_double w p Hw b Hb). intro D.
  destruct (N.ltb_spec (N.double b) (2 ^ w)) as [L|G].
  - assert (T : N.testbit b (w - 1) = false).
    { rewrite <- dbl_bits_succ. replace (N.succ (w - 1)) with w by lia.
      apply (lt_pow2_bits _ w L). lia. }
    rewrite T, N.lxor_0_l in D. assumption.
  - destruct (N.testbit b (w - 1)).
    + rewrite D. fold md. xring.
    + rewrite N.lxor_0_l in D. generalize (xt_lt w p b). lia.
Qed.

Lemma xt_half a : 2 * a < 2 ^ w -> xt w p a = 2 * a.
Proof.
  intro H. unfold xt. rewrite N.mod_small by assumption.
  assert (T : N.testbit a (w - 1) = false).
  { rewrite <- dbl_bits_succ. replace (N.succ (w - 1)) with w by lia.
    apply (lt_pow2_bits _ w); [now rewrite N.double_spec|lia]. }
  now rewrite T, N.lxor_0_r.
Qed.

Lemma gmul_xt_l a b : a < 2 ^ w -> b < 2 ^ w -> gmul w p (xt w p a) b = xt w p (gmul w p a b).
Proof.
  intros Ha Hb. rewrite gmul_comm by (auto; apply xt_lt).
  change (xt w p a) with (xpow w p 1 a). rewrite gmul_xpow by assumption.
  rewrite gmul_comm by auto. reflexivity.
Qed.

Lemma hmul_gmul a : forall b, Npos a < 2 ^ w -> b < 2 ^ w -> hmul m md a b = gmul w p (Npos a) b.
Proof.
  induction a; intros b Ha Hb.
  - assert (H1 : N.pos a < 2 ^ w) by lia.
    assert (H2 : 2 * N.pos a < 2 ^ w) by lia.
    cbn [hmul]. rewrite IHa by assumption. rewrite fstep_xt by now apply gmul_lt.
    rewrite <- gmul_xt_l, xt_half by assumption.
    replace (N.pos a~1) with (N.lxor 1 (2 * N.pos a)) by reflexivity.
    rewrite gmul_lxor_l, gmul_1_l by assumption. reflexivity.
  - assert (H1 : N.pos a < 2 ^ w) by lia.
    assert (H2 : 2 * N.pos a < 2 ^ w) by lia.
    cbn [hmul]. rewrite IHa by assumption. rewrite fstep_xt by now apply gmul_lt.
    rewrite <- gmul_xt_l, xt_half by assumption. reflexivity.
  - cbn [hmul]. now rewrite gmul_1_l.
Qed.

Lemma hmulN_gmul a b : a < 2 ^ w -> b < 2 ^ w -> hmulN m md a b = gmul w p a b.
Proof.
  intros Ha Hb. destruct a; simpl; [now rewrite gmul_0_l|]. now apply hmul_gmul.
Qed.

Notation X n := (xpow w p n 1).

Lemma X_lt n : X n < 2 ^ w.
Proof. apply xpow_lt, one_lt; assumption. Qed.

Lemma X_add i j : X (i + j) = gmul w p (X i) (X j).
Proof. rewrite xpow_add. apply xpow_gmul; [assumption|]. apply X_lt. Qed.

Lemma fpow_X e : fpow m md (X 1) e = X (Pos.to_nat e).
Proof.
  induction e; simpl fpow.
  - rewrite IHe, hmulN_gmul, <- X_add by apply X_lt. rewrite fstep_xt by apply X_lt.
    rewrite <- xpow_S. f_equal. lia.
  - rewrite IHe, hmulN_gmul, <- X_add by apply X_lt. f_equal. lia.
  - reflexivity.
Qed.

(** Order of x from the prime factorisation of [M]. *)
Variable qs : list Z.
Hypothesis Hqs : Forall prime qs.
Let M := N.of_nat (Z.to_nat (fold_right Z.mul 1%Z qs)).
Hypothesis HM : X (N.to_nat M) = 1.
Hypothesis Hmax : forall q e, In q qs -> fold_right Z.mul 1%Z qs = (q * e)%Z -> X (Z.to_nat e) <> 1.

Lemma prod_pos : (0 < fold_right Z.mul 1 qs)%Z.
Proof.
  clear -Hqs. revert Hqs. induction qs as [|q l IH]; intro F; simpl; [lia|].
  inversion F as [|? ? Hq Hl]; subst. destruct Hq. specialize (IH Hl).
  apply Z.mul_pos_pos; lia.
Qed.

Lemma X_mul_1 n k : X n = 1 -> X (n * k) = 1.
Proof.
  intro H. induction k; [now rewrite Nat.mul_0_r|].
  rewrite Nat.mul_succ_r, X_add, IHk, H. now apply gmul_1_l.
Qed.

Lemma X_gcd : forall a b, X a = 1 -> X b = 1 -> X (Nat.gcd a b) = 1.
Proof.
  intros a b Ha Hb.
  destruct (Nat.eq_dec a 0) as [->|Ha0]; [assumption|].
  destruct (Nat.gcd_bezout_pos a b) as (u & v & E); [lia|].
  assert (Hu : X (u * a) = 1) by (rewrite Nat.mul_comm; now apply X_mul_1).
  assert (Hv : X (v * b) = 1) by (rewrite Nat.mul_comm; now apply X_mul_1).
  rewrite E, X_add, Hv, gmul_1_r in Hu; [assumption|assumption|apply X_lt].
Qed.

Lemma X_order d : (0 < d < N.to_nat M)%nat -> X d <> 1.
Proof.
  intros Hd E.
  assert (P := prod_pos).
  remember (Nat.gcd d (N.to_nat M)) as g eqn:Eg.
  assert (G1 : X g = 1) by (subst g; apply X_gcd; assumption).
  assert (D1 : Nat.divide g d) by (subst g; apply Nat.gcd_divide_l).
  assert (D2 : Nat.divide g (N.to_nat M)) by (subst g; apply Nat.gcd_divide_r).
  assert (Gpos : (0 < g)%nat).
  { destruct D1 as [k Hk]. destruct g; lia. }
  assert (Gle : (g <= d)%nat) by (apply Nat.divide_pos_le; [lia|assumption]).
  assert (Mz : Z.of_nat (N.to_nat M) = fold_right Z.mul 1%Z qs).
  { unfold M. rewrite Nat2N.id. apply Z2Nat.id. lia. }
  destruct (proper_divisor qs Hqs (Z.of_nat g)) as (q & e & I & Eq & De).
  - lia.
  - destruct D2 as [k Hk]. exists (Z.of_nat k). rewrite <- Mz, Hk. lia.
  - rewrite <- Mz. lia.
  - apply (Hmax q e I Eq).
    assert (q1 : (1 < q)%Z).
    { rewrite Forall_forall in Hqs. specialize (Hqs q I). destruct Hqs; assumption. }
    assert (e0 : (0 < e)%Z) by nia.
    destruct De as [k Hk].
    replace (Z.to_nat e) with (g * Z.to_nat k)%nat; [now apply X_mul_1|].
    assert (0 < k)%Z by nia. nia.
Qed.

Hypothesis HMw : M = 2 ^ w - 1.

Lemma X_inj i j : (i < N.to_nat M)%nat -> (j < N.to_nat M)%nat -> X i = X j -> i = j.
Proof.
  assert (K : forall i j, (i < j < N.to_nat M)%nat -> X i <> X j).
  { clear i j. intros i j Hij E.
    assert (E2 : X (N.to_nat M - i + i) = X (N.to_nat M - i + j)).
    { rewrite !X_add, E. reflexivity. }
    replace (N.to_nat M - i + i)%nat with (N.to_nat M) in E2 by lia.
    replace (N.to_nat M - i + j)%nat with (j - i + N.to_nat M)%nat in E2 by lia.
    rewrite X_add, HM, gmul_1_r in E2; [|assumption|apply X_lt].
    symmetry in E2. revert E2. apply X_order. lia. }
  intros Hi Hj E. destruct (Nat.lt_trichotomy i j) as [L|[|L]]; [|assumption|].
  - exfalso. apply (K i j); [lia|assumption].
  - exfalso. apply (K j i); [lia|congruence].
Qed.

Lemma X_nz i : X i <> 0.
Proof.
  assert (S1 : forall k, (i <= k * N.to_nat M)%nat -> X i <> 0).
  { intros k Hk E.
    assert (Z : X (k * N.to_nat M - i + i) = 1).
    { replace (k * N.to_nat M - i + i)%nat with (N.to_nat M * k)%nat by lia. now apply X_mul_1. }
    rewrite X_add, E in Z. rewrite gmul_0_r in Z by assumption. discriminate. }
  apply (S1 i). assert (1 <= N.to_nat M)%nat.
  { rewrite HMw. assert (2 ^ 1 <= 2 ^ w) by (apply N.pow_le_mono_r; lia). simpl in *. lia. }
  nia.
Qed.

Lemma X_surj a : 0 < a -> a < 2 ^ w -> exists i, (i < N.to_nat M)%nat /\ X i = a.
Proof.
  intros H0 Ha.
  assert (ND : NoDup (map (fun i => X i) (seq 0 (N.to_nat M)))).
  { assert (G : forall l, NoDup l -> (forall i, In i l -> (i < N.to_nat M)%nat) ->
                NoDup (map (fun i => X i) l)).
    { induction 1 as [|x l Hx Hl IH]; intro B; simpl; constructor.
      - rewrite in_map_iff. intros (y & Ey & Iy). apply X_inj in Ey.
        + subst. contradiction.
        + apply B. now right.
        + apply B. now left.
      - apply IH. intros; apply B; now right. }
    apply G; [apply seq_NoDup|]. intros i Hi. apply in_seq in Hi. lia. }
  assert (I := NoDup_length_incl ND (l' := map (fun k => N.of_nat (S k)) (seq 0 (N.to_nat M)))).
  rewrite !map_length in I. specialize (I (Nat.le_refl _)).
  assert (A : incl (map (fun i => X i) (seq 0 (N.to_nat M)))
                   (map (fun k => N.of_nat (S k)) (seq 0 (N.to_nat M)))).
  { intros b Hb. apply in_map_iff in Hb as (i & <- & _).
    apply in_map_iff. exists (N.to_nat (X i) - 1)%nat.
    assert (G := X_lt i). assert (Z := X_nz i).
    split; [lia|]. apply in_seq. rewrite HMw. lia. }
  specialize (I A a). rewrite in_map_iff in I.
  assert (J : exists k, N.of_nat (S k) = a /\ In k (seq 0 (N.to_nat M))).
  { exists (N.to_nat a - 1)%nat. split; [lia|]. apply in_seq. rewrite HMw. lia. }
  rewrite in_map_iff in I. destruct (I J) as (i & E & Hi).
  exists i. apply in_seq in Hi. split; [lia|assumption].
Qed.

End Fast.

(** ** The 30 polynomials *)

Definition factor_table : list (list Z) :=
  [ []; []; [3]; [7]; [3; 5]; [31]; [3; 3; 7]; [127]; [3; 5; 17]; [7; 73];
    [3; 11; 31]; [23; 89]; [3; 3; 5; 7; 13]; [8191]; [3; 43; 127];
    [7; 31; 151]; [3; 5; 17; 257]; [131071]; [3; 3; 3; 7; 19; 73]; [524287];
    [3; 5; 5; 11; 31; 41]; [7; 7; 127; 337]; [3; 23; 89; 683]; [47; 178481];
    [3; 3; 5; 7; 13; 17; 241]; [31; 601; 1801]; [3; 2731; 8191];
    [7; 73; 262657]; [3; 5; 29; 43; 113; 127]; [233; 1103; 2089];
    [3; 3; 7; 11; 31; 151; 331] ]%Z.

Definition factors (w : N) : list Z := nth (N.to_nat w) factor_table [].

Definition order_check (w : N) : bool :=
  let p := prim_poly w in
  let m := 2 ^ w in
  let md := modulus w p in
  let qs := factors w in
  let M := fold_right Z.mul 1%Z qs in
  let x := xt w p 1 in
  (M =? Z.of_N (m - 1))%Z
  && forallb tprime qs
  && (fpow m md x (Z.to_pos M) =? 1)
  && forallb (fun q => negb (fpow m md x (Z.to_pos (M / q)) =? 1)) qs.

Definition widths : list N := map N.of_nat (seq 1 30).

Lemma order_check_all : forallb order_check widths = true.
Proof. vm_compute. reflexivity. Qed.

Lemma width_in w : 1 <= w <= 30 -> In w widths.
Proof.
  intro H. unfold widths. apply in_map_iff. exists (N.to_nat w).
  split; [apply N2Nat.id|]. apply in_seq. lia.
Qed.

Lemma order_facts w : 1 <= w <= 30 ->
  let p := prim_poly w in
  xpow w p (N.to_nat (2 ^ w - 1)) 1 = 1 /\
  (forall d, (0 < d < N.to_nat (2 ^ w - 1))%nat -> xpow w p d 1 <> 1) /\
  (forall i j, (i < N.to_nat (2 ^ w - 1))%nat -> (j < N.to_nat (2 ^ w - 1))%nat ->
     xpow w p i 1 = xpow w p j 1 -> i = j) /\
  (forall i, xpow w p i 1 <> 0) /\
  (forall a, 0 < a -> a < 2 ^ w ->
     exists i, (i < N.to_nat (2 ^ w - 1))%nat /\ xpow w p i 1 = a).
Proof.
  intros Hw p.
  assert (C : order_check w = true).
  { generalize order_check_all. rewrite forallb_forall. intro H. apply H, width_in, Hw. }
  unfold order_check in C. fold p in C.
  apply andb_prop in C as [C C4]. apply andb_prop in C as [C C3]. apply andb_prop in C as [C1 C2].
  apply Z.eqb_eq in C1.
  assert (W1 : 1 <= w) by lia.
  set (qs := factors w) in *. set (M := fold_right Z.mul 1%Z qs) in *.
  assert (Hqs : Forall prime qs).
  { apply Forall_forall. intros q Hq. rewrite forallb_forall in C2. now apply tprime_sound, C2. }
  assert (P : (0 < M)%Z) by (apply (prod_pos qs Hqs)).
  assert (MN : N.of_nat (Z.to_nat M) = 2 ^ w - 1).
  { rewrite C1, <- Z_N_nat, N2Z.id. apply N2Nat.id. }
  change (xt w p 1) with (xpow w p 1 1) in C3, C4.
  assert (HM : xpow w p (N.to_nat (N.of_nat (Z.to_nat M))) 1 = 1).
  { apply N.eqb_eq in C3. rewrite fpow_X in C3 by assumption. rewrite <- C3 at 2.
    f_equal. rewrite Nat2N.id. symmetry. now apply Z2Nat.inj_pos || (destruct M; try lia; reflexivity). }
  assert (Hmax : forall q e, In q qs -> M = (q * e)%Z -> xpow w p (Z.to_nat e) 1 <> 1).
  { intros q e I E. rewrite forallb_forall in C4. specialize (C4 q I).
    apply negb_true_iff, N.eqb_neq in C4. rewrite fpow_X in C4 by assumption.
    assert (q1 : (1 < q)%Z).
    { rewrite Forall_forall in Hqs. specialize (Hqs q I). destruct Hqs; assumption. }
    replace (M / q)%Z with e in C4.
    - replace (Z.to_nat e) with (Pos.to_nat (Z.to_pos e)); [assumption|].
      destruct e; simpl; try reflexivity; nia.
    - rewrite E, Z.mul_comm. symmetry. apply Z.div_mul. lia. }
  rewrite <- MN.
  split; [exact HM|]. split; [|split; [|split]].
  - now apply X_order.
  - now apply X_inj.
  - now apply (X_nz w p W1 qs).
  - now apply X_surj.
Qed.

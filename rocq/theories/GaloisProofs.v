(** Proofs about the C table construction and the [GF<W>] operations. *)

From Coq Require Import ZArith NArith List Bool Lia Arith.
From Verif Require Import GaloisModel GF2Poly GaloisOrder.
Import ListNotations.
Local Open Scope Z_scope.

Notation xp w i := (xpow w (prim_poly w) i 1%N).
Notation ord w := (2 ^ w - 1)%N.

(** What the finished tables contain. *)
Definition tables_ok (w : N) (lg il : table) : Prop :=
  (forall i, (i < N.to_nat (ord w))%nat -> tread lg (Z.of_N (xp w i)) = Done (Z.of_nat i)) /\
  (forall z, - Z.of_N (ord w) <= z < 2 * Z.of_N (ord w) ->
     tread il z = Done (Z.of_N (xp w (Z.to_nat (z mod Z.of_N (ord w)))))) /\
  t_lo lg = 0 /\ t_hi lg = Z.of_N (2 ^ w).

Lemma nw_pow w : nw w = (2 ^ w)%N.
Proof. unfold nw. rewrite N.shiftl_mul_pow2. apply N.mul_1_l. Qed.

Lemma nwm1_pow w : nwm1 w = ord w.
Proof. unfold nwm1. now rewrite nw_pow. Qed.

Lemma pow_bound w : (1 <= w <= 30)%N -> (2 <= 2 ^ w <= 1073741824)%N.
Proof.
  intro H. change 1073741824%N with (2 ^ 30)%N. change 2%N with (2 ^ 1)%N at 1.
  split; apply N.pow_le_mono_r; lia.
Qed.

Lemma pow_bound29 w : (1 <= w <= 29)%N -> (2 <= 2 ^ w <= 536870912)%N.
Proof.
  intro H. change 536870912%N with (2 ^ 29)%N. change 2%N with (2 ^ 1)%N at 1.
  split; apply N.pow_le_mono_r; lia.
Qed.

Lemma int_okP z : -2147483648 <= z < 2147483648 -> int_ok z = true.
Proof.
  intro H. unfold int_ok. change (2 ^ 31) with 2147483648.
  apply andb_true_intro. split; [apply Z.leb_le|apply Z.ltb_lt]; lia.
Qed.

Lemma tread_ok t i v : -2147483648 <= i < 2147483648 -> t_lo t <= i < t_hi t ->
  t_cell t i = Some v -> tread t i = Done v.
Proof.
  intros H1 H2 H3. unfold tread. rewrite int_okP by assumption.
  destruct (Z.leb_spec (t_lo t) i), (Z.ltb_spec i (t_hi t)); try lia. simpl. now rewrite H3.
Qed.

Lemma twrite_ok t i v : -2147483648 <= i < 2147483648 -> t_lo t <= i < t_hi t ->
  twrite t i v = Done (mkTable (t_lo t) (t_hi t) (fun k => if k =? i then Some v else t_cell t k)).
Proof.
  intros H1 H2. unfold twrite. rewrite int_okP by assumption.
  destruct (Z.leb_spec (t_lo t) i), (Z.ltb_spec i (t_hi t)); try lia. reflexivity.
Qed.

Lemma cfor_inv {S} (Inv : Z -> S -> Prop) (body : Z -> S -> cres S) (n : nat) : forall j s,
  Inv j s ->
  (forall k s, j <= k < j + Z.of_nat n -> Inv k s -> exists s', body k s = Done s' /\ Inv (k + 1) s') ->
  exists s', cfor n j body s = Done s' /\ Inv (j + Z.of_nat n) s'.
Proof.
  induction n; intros j s I B.
  - exists s. split; [reflexivity|]. now rewrite Z.add_0_r.
  - destruct (B j s) as (s1 & E1 & I1); [lia|assumption|].
    destruct (IHn (j + 1) s1 I1) as (s2 & E2 & I2).
    + intros k s' Hk. apply B. lia.
    + exists s2. split; [simpl; now rewrite E1|].
      now replace (j + Z.of_nat (Datatypes.S n)) with (j + 1 + Z.of_nat n) by lia.
Qed.

Lemma c_step_xt w b : (1 <= w)%N -> (b < 2 ^ w)%N -> c_step w b = xt w (prim_poly w) b.
Proof.
  intros Hw Hb. unfold c_step. rewrite nw_pow, nwm1_pow, N.shiftl_mul_pow2.
  change (2 ^ 1)%N with 2%N. rewrite (N.mul_comm b 2), <- (N.double_spec b).
  assert (T : N.testbit (N.double b) w = N.testbit b (w - 1)).
  { replace w with (N.succ (w - 1))%N at 1 by lia. apply dbl_bits_succ. }
  assert (L : (N.land (N.double b) (2 ^ w) = if N.testbit b (w - 1) then 2 ^ w else 0)%N).
  { apply N.bits_inj; intro i. rewrite N.land_spec.
    destruct (N.eq_dec i w) as [->|Hi].
    - rewrite N.pow2_bits_true, T, andb_true_r.
      destruct (N.testbit b (w - 1)); [now rewrite N.pow2_bits_true|now rewrite N.bits_0].
    - rewrite (N.pow2_bits_false w i) by lia. rewrite andb_false_r.
      destruct (N.testbit b (w - 1)); [now rewrite N.pow2_bits_false by lia|now rewrite N.bits_0]. }
  rewrite L. unfold xt. rewrite <- (N.double_spec b).
  destruct (N.testbit b (w - 1)) eqn:E.
  - assert (P := N.pow_nonzero 2 w ltac:(lia)). apply N.eqb_neq in P. rewrite P.
    rewrite <- N.pred_sub. fold (N.ones w). rewrite <- (N.ones_equiv w), N.land_ones.
    apply N.bits_inj; intro i. rewrite N.lxor_spec.
    destruct (N.lt_ge_cases i w).
    + now rewrite !N.mod_pow2_bits_low, N.lxor_spec by assumption.
    + now rewrite !N.mod_pow2_bits_high by assumption.
  - rewrite N.lxor_0_r. simpl. symmetry. apply N.mod_small.
    apply bits_lt_pow2. intros i Hi. destruct (N.eq_dec i w) as [->|].
    + rewrite T. reflexivity.
    + replace i with (N.succ (i - 1)) by lia. rewrite dbl_bits_succ.
      apply (lt_pow2_bits b w); [assumption|lia].
Qed.

(** State after the first two loops, for all widths up to 30. *)
Lemma gen_loops w : (1 <= w <= 30)%N ->
  exists s1 lg il b,
  cfor (N.to_nat (nw w)) 0 (init_body w)
       (tmalloc (Z.of_N (nw w)), tmalloc (Z.of_N (nw w) * 3)) = Done s1 /\
  cfor (N.to_nat (nwm1 w)) 0 (gen_body w) (s1, 1%N) = Done (lg, il, b) /\
  t_lo lg = 0 /\ t_hi lg = Z.of_N (2 ^ w) /\ t_lo il = 0 /\ t_hi il = Z.of_N (2 ^ w) * 3 /\
  (forall i, (i < N.to_nat (ord w))%nat -> t_cell lg (Z.of_N (xp w i)) = Some (Z.of_nat i)) /\
  (forall i, (i < N.to_nat (ord w))%nat -> t_cell il (Z.of_nat i) = Some (Z.of_N (xp w i))).
Proof.
  intro Hw. assert (PB := pow_bound w Hw).
  assert (W1 : (1 <= w)%N) by lia.
  destruct (order_facts w Hw) as (_ & _ & Xinj & Xnz & _).
  assert (Xlt := X_lt w (prim_poly w) W1).
  rewrite nwm1_pow, nw_pow in *.
  pose (I1 := fun (j : Z) (s : table * table) =>
    t_lo (fst s) = 0 /\ t_hi (fst s) = Z.of_N (2 ^ w) /\
    t_lo (snd s) = 0 /\ t_hi (snd s) = Z.of_N (2 ^ w) * 3 /\
    (forall k, 0 <= k < j -> t_cell (fst s) k = Some (Z.of_N (ord w)))).
  destruct (cfor_inv I1 (init_body w) (N.to_nat (2 ^ w)) 0
             (tmalloc (Z.of_N (2 ^ w)), tmalloc (Z.of_N (2 ^ w) * 3))) as (s1 & E1 & H1).
  - unfold I1; simpl. repeat split; try reflexivity. intros; lia.
  - intros k [lg il] Hk (A & B & C & D & F). simpl in *.
    unfold init_body. rewrite nwm1_pow, !twrite_ok by lia. simpl. eexists. split; [reflexivity|].
    unfold I1; simpl. repeat split; try assumption.
    intros i Hi. destruct (Z.eqb_spec i k); [reflexivity|]. apply F. lia.
  - pose (I2 := fun (j : Z) (s : table * table * N) =>
      let '(lg, il, b) := s in
      t_lo lg = 0 /\ t_hi lg = Z.of_N (2 ^ w) /\ t_lo il = 0 /\ t_hi il = Z.of_N (2 ^ w) * 3 /\
      b = xp w (Z.to_nat j) /\
      (forall i, (i < Z.to_nat j)%nat -> t_cell lg (Z.of_N (xp w i)) = Some (Z.of_nat i)) /\
      (forall i, (i < Z.to_nat j)%nat -> t_cell il (Z.of_nat i) = Some (Z.of_N (xp w i))) /\
      (forall v, (v < 2 ^ w)%N -> (forall i, (i < Z.to_nat j)%nat -> xp w i <> v) ->
         t_cell lg (Z.of_N v) = Some (Z.of_N (ord w)))).
    destruct (cfor_inv I2 (gen_body w) (N.to_nat (ord w)) 0 (s1, 1%N)) as ([[lg il] b] & E2 & H2).
    + destruct s1 as [lg il]. destruct H1 as (A & B & C & D & F). simpl in *.
      unfold I2. repeat split; auto; try (intros; simpl in *; lia).
      intros v Hv _. apply F. lia.
    + intros k [[lg il] b] Hk (A & B & C & D & Eb & F & G & U).
      assert (Kn : (Z.to_nat k < N.to_nat (ord w))%nat) by lia.
      assert (Hb : (b < 2 ^ w)%N) by (subst b; apply Xlt).
      unfold gen_body. rewrite (tread_ok lg (Z.of_N b) (Z.of_N (ord w))); [|lia|lia|].
      2:{ apply U; [assumption|]. intros i Hi Ei. subst b. apply Xinj in Ei; lia. }
      simpl cbind. rewrite nwm1_pow, Z.eqb_refl. simpl negb. cbv iota.
      rewrite !twrite_ok by lia. simpl cbind. eexists. split; [reflexivity|].
      unfold I2. simpl t_lo. simpl t_hi. simpl t_cell.
      assert (K1 : Z.to_nat (k + 1) = S (Z.to_nat k)) by lia.
      repeat split; auto.
      * rewrite K1, xpow_S, <- Eb. now apply c_step_xt.
      * intros i Hi. destruct (Z.eqb_spec (Z.of_N (xp w i)) (Z.of_N b)) as [E|E].
        -- apply N2Z.inj in E. rewrite Eb in E. apply Xinj in E; [|lia|lia]. f_equal; lia.
        -- apply F. assert (i <> Z.to_nat k); [|lia]. intro; subst i. apply E. now rewrite Eb.
      * intros i Hi. destruct (Z.eqb_spec (Z.of_nat i) k) as [E|E].
        -- subst b. do 2 f_equal. f_equal. lia.
        -- apply G. lia.
      * intros v Hv Hn. destruct (Z.eqb_spec (Z.of_N v) (Z.of_N b)) as [E|E].
        -- exfalso. apply N2Z.inj in E. apply (Hn (Z.to_nat k)); [lia|]. congruence.
        -- apply U; [assumption|]. intros i Hi. apply Hn. lia.
    + exists s1, lg, il, b. destruct H2 as (A & B & C & D & _ & F & G & _).
      rewrite Z.add_0_l in *. rewrite N_nat_Z in *.
      replace (Z.to_nat (Z.of_N (ord w))) with (N.to_nat (ord w)) in * by lia.
      repeat split; assumption.
Qed.

Lemma create_ok w : (1 <= w <= 29)%N ->
  exists lg il, create_log_tables true true w = Done (lg, il) /\ tables_ok w lg il.
Proof.
  intro Hw. assert (Hw' : (1 <= w <= 30)%N) by lia.
  destruct (gen_loops w Hw') as (s1 & lg & il & b & E1 & E2 & A & B & C & D & F & G).
  assert (PB := pow_bound29 w Hw).
  assert (W1 : (1 <= w)%N) by lia.
  assert (Xlt := X_lt w (prim_poly w) W1).
  unfold create_log_tables.
  destruct (N.ltb_spec 30 w); [lia|]. simpl negb. cbv iota.
  destruct (N.eqb_spec w 0); [lia|].
  rewrite E1. simpl cbind. rewrite E2. simpl cbind.
  rewrite nwm1_pow. set (m := Z.of_N (ord w)) in *.
  assert (Hm : 1 <= m <= 536870911) by lia.
  pose (I3 := fun (j : Z) (t : table) =>
     t_lo t = 0 /\ t_hi t = Z.of_N (2 ^ w) * 3 /\
     (forall i, 0 <= i < m -> t_cell t i = Some (Z.of_N (xp w (Z.to_nat i)))) /\
     (forall i, 0 <= i < j -> t_cell t (i + m) = Some (Z.of_N (xp w (Z.to_nat i)))) /\
     (forall i, 0 <= i < j -> t_cell t (i + m * 2) = Some (Z.of_N (xp w (Z.to_nat i))))).
  destruct (cfor_inv I3 (rep_body w) (N.to_nat (ord w)) 0 il) as (il' & E3 & H3).
  - unfold I3. repeat split; try assumption; try (intros; lia).
    intros i Hi. rewrite <- G by lia. f_equal. lia.
  - intros k t Hk (A3 & B3 & C3 & D3 & F3). unfold rep_body. rewrite nwm1_pow. fold m.
    assert (Hkm : 0 <= k < m) by lia.
    rewrite (tread_ok t k (Z.of_N (xp w (Z.to_nat k)))) by (auto; lia). simpl cbind.
    rewrite twrite_ok by lia. simpl cbind.
    rewrite (tread_ok _ k (Z.of_N (xp w (Z.to_nat k)))).
    2: lia. 2: simpl; lia.
    2:{ simpl. destruct (Z.eqb_spec k (k + m)); [lia|]. now apply C3. }
    simpl cbind. rewrite twrite_ok by (simpl; lia). eexists. split; [reflexivity|].
    unfold I3. cbn [t_lo t_hi t_cell]. repeat split; try assumption.
    + intros i Hi. destruct (Z.eqb_spec i (k + m * 2)); [lia|].
      destruct (Z.eqb_spec i (k + m)); [lia|]. now apply C3.
    + intros i Hi. destruct (Z.eqb_spec (i + m) (k + m * 2)); [lia|].
      destruct (Z.eqb_spec (i + m) (k + m)); [do 2 f_equal; f_equal; lia|]. apply D3. lia.
    + intros i Hi. destruct (Z.eqb_spec (i + m * 2) (k + m * 2)); [do 2 f_equal; f_equal; lia|].
      destruct (Z.eqb_spec (i + m * 2) (k + m)); [lia|]. apply F3. lia.
  - rewrite E3. simpl cbind. eexists _, _. split; [reflexivity|].
    destruct H3 as (A3 & B3 & C3 & D3 & F3).
    assert (J : 0 + Z.of_nat (N.to_nat (ord w)) = m) by lia. rewrite J in *.
    split; [|split; [|now split]].
    + intros i Hi. apply tread_ok; [|rewrite A, B|now apply F];
        generalize (Xlt i); lia.
    + fold m. intros z Hz. apply tread_ok; [lia|simpl; lia|].
      unfold tshift. cbn [t_cell].
      assert (Hdm := Z.div_mod z m ltac:(lia)). assert (Hmod := Z.mod_pos_bound z m ltac:(lia)).
      set (r := z mod m) in *. set (q := z / m) in *.
      assert (q = -1 \/ q = 0 \/ q = 1) as [Hq|[Hq|Hq]] by nia; rewrite Hq in Hdm.
      * rewrite <- C3 by lia. f_equal. lia.
      * rewrite <- D3 by lia. f_equal. lia.
      * rewrite <- F3 by lia. f_equal. lia.
Qed.

(** Width 30: the replication loop computes index 2 + 2*(2^30-1) = 2^31. *)
Lemma create_30_ub w : w = 30%N -> create_log_tables true true w = UB.
Proof.
  intro Ew. assert (P30 : (2 ^ w = 1073741824)%N) by (subst w; reflexivity).
  destruct (gen_loops w ltac:(lia)) as (s1 & lg & il & b & E1 & E2 & A & B & C & D & F & G).
  unfold create_log_tables.
  destruct (N.ltb_spec 30 w); [lia|]. cbn [negb]. cbv iota.
  destruct (N.eqb_spec w 0); [lia|].
  rewrite E1. cbn [cbind]. rewrite E2. cbn [cbind].
  rewrite nwm1_pow.
  assert (V : Z.of_N (ord w) = 1073741823) by lia.
  assert (V' : Z.of_N (2 ^ w) = 1073741824) by lia.
  clear E1 E2 F.
  assert (GI : forall i, (i < 3)%nat -> exists v, t_cell il (Z.of_nat i) = Some v).
  { intros i Hi. eexists. apply G. lia. }
  clear G. assert (N3 : (3 <= N.to_nat (ord w))%nat) by lia.
  remember (N.to_nat (ord w)) as k eqn:Ek. clear Ek.
  do 3 (destruct k as [|k]; [lia|]). clear N3.
  cbn [cfor]. unfold rep_body. rewrite !nwm1_pow, V.
  destruct (GI 0%nat ltac:(lia)) as [v0 G0]. destruct (GI 1%nat ltac:(lia)) as [v1 G1].
  destruct (GI 2%nat ltac:(lia)) as [v2 G2]. simpl Z.of_nat in *.
  rewrite (tread_ok il 0 v0) by (auto; lia). cbn [cbind].
  rewrite twrite_ok by lia. cbn [cbind].
  rewrite (tread_ok _ 0 v0) by (auto; simpl; lia). cbn [cbind].
  rewrite twrite_ok by (simpl; lia). cbn [cbind t_lo t_hi t_cell].
  rewrite (tread_ok _ (0 + 1) v1) by (auto; simpl; lia). cbn [cbind].
  rewrite twrite_ok by (simpl; lia). cbn [cbind t_lo t_hi t_cell].
  rewrite (tread_ok _ (0 + 1) v1) by (auto; simpl; lia). cbn [cbind].
  rewrite twrite_ok by (simpl; lia). cbn [cbind t_lo t_hi t_cell].
  rewrite (tread_ok _ (0 + 1 + 1) v2) by (auto; simpl; lia). cbn [cbind].
  rewrite twrite_ok by (simpl; lia). cbn [cbind t_lo t_hi t_cell].
  rewrite (tread_ok _ (0 + 1 + 1) v2) by (auto; simpl; lia). cbn [cbind].
  reflexivity.
Qed.

(** ** Operations *)

Lemma as_i32_small v : (v < 2147483648)%N -> as_i32 v = Z.of_N v.
Proof.
  intro H. unfold as_i32. change (2 ^ 32) with 4294967296. change (2 ^ 31) with 2147483648.
  rewrite Z.mod_small by lia. destruct (Z.ltb_spec (Z.of_N v) 2147483648); lia.
Qed.

Lemma as_u32_small v : (v < 4294967296)%N -> as_u32 (Z.of_N v) = v.
Proof.
  intro H. unfold as_u32. change (2 ^ 32) with 4294967296.
  rewrite Z.mod_small by lia. apply N2Z.id.
Qed.

Section Ops.
Variable w : N.
Hypothesis Hw : (1 <= w <= 29)%N.
Variables lg il : table.
Hypothesis OK : tables_ok w lg il.
Variable g : gstate.
Hypothesis Hg : g_tabs g w = Some (lg, il).

Notation p := (prim_poly w).
Notation gm := (gmul w (prim_poly w)).

Lemma W1 : (1 <= w)%N. Proof. lia. Qed.
Lemma W30 : (1 <= w <= 30)%N. Proof. lia. Qed.

Lemma nz_xp a : (a < 2 ^ w)%N -> a <> 0%N ->
  exists i, (i < N.to_nat (ord w))%nat /\ a = xp w i.
Proof.
  intros Ha Hn. destruct (order_facts w W30) as (_ & _ & _ & _ & S).
  destruct (S a) as (i & Hi & E); [lia|assumption|]. exists i. split; [assumption|congruence].
Qed.

Lemma xp_period i : xp w (i + N.to_nat (ord w)) = xp w i.
Proof.
  destruct (order_facts w W30) as (E & _). rewrite X_add by apply W1.
  rewrite E. apply gmul_1_r; [apply W1|]. apply X_lt, W1.
Qed.

Lemma xp_mod i : xp w (i mod N.to_nat (ord w)) = xp w i.
Proof.
  assert (PB := pow_bound29 w Hw).
  rewrite (Nat.div_mod_eq i (N.to_nat (ord w))) at 2. rewrite Nat.add_comm, Nat.mul_comm.
  induction (i / N.to_nat (ord w))%nat as [|k IH]; [now rewrite Nat.add_0_r|].
  simpl Nat.mul. rewrite (Nat.add_comm (N.to_nat (ord w))), Nat.add_assoc, xp_period.
  exact IH.
Qed.

Lemma xp_lt i : (xp w i < 2 ^ w)%N.
Proof. apply X_lt, W1. Qed.

Lemma small a : (a < 2 ^ w)%N -> (a < 2147483648)%N.
Proof. generalize (pow_bound29 w Hw). lia. Qed.

Lemma mul_ok a b : (a < 2 ^ w)%N -> (b < 2 ^ w)%N -> gf_mul g w a b = Done (gm a b).
Proof.
  intros Ha Hb. unfold gf_mul. rewrite !as_i32_small by now apply small.
  unfold logtable_multiply. rewrite Hg.
  destruct (Z.eqb_spec (Z.of_N a) 0) as [E|Ea].
  { replace a with 0%N by lia. rewrite gmul_0_l by apply W1. reflexivity. }
  destruct (Z.eqb_spec (Z.of_N b) 0) as [E|Eb].
  { replace b with 0%N by lia. rewrite gmul_0_r by apply W1. reflexivity. }
  cbn [orb]. cbv iota.
  destruct (nz_xp a) as (i & Hi & ->); [assumption|lia|].
  destruct (nz_xp b) as (j & Hj & ->); [assumption|lia|].
  destruct OK as (L & I & _ & _). rewrite !L by assumption. cbn [cbind].
  rewrite I by lia. cbn [cbind]. rewrite as_u32_small.
  - f_equal. rewrite <- X_add by apply W1. rewrite <- (xp_mod (i + j)). f_equal.
    rewrite <- Nat2Z.inj_add. rewrite <- (Nat2Z.id ((i + j) mod N.to_nat (ord w))).
    f_equal. rewrite Nat2Z.inj_mod. f_equal. lia.
  - match goal with |- (xp w ?k < _)%N => generalize (small _ (xp_lt k)) end. lia.
Qed.

Lemma div_ok a b : (a < 2 ^ w)%N -> (b < 2 ^ w)%N -> b <> 0%N ->
  exists q, gf_div g w a b = Done q /\ (q < 2 ^ w)%N /\ gm q b = a.
Proof.
  intros Ha Hb Hn. unfold gf_div. rewrite !as_i32_small by now apply small.
  unfold logtable_divide. rewrite Hg.
  destruct (Z.eqb_spec (Z.of_N b) 0); [lia|].
  destruct (Z.eqb_spec (Z.of_N a) 0) as [E|Ea].
  { exists 0%N. split; [reflexivity|]. split; [apply pow2_pos|].
    rewrite gmul_0_l by apply W1. lia. }
  destruct (nz_xp a) as (i & Hi & ->); [assumption|lia|].
  destruct (nz_xp b) as (j & Hj & ->); [assumption|lia|].
  destruct OK as (L & I & _ & _). rewrite !L by assumption. cbn [cbind].
  rewrite I by lia. cbn [cbind].
  eexists. split; [reflexivity|]. rewrite as_u32_small.
  - split; [apply xp_lt|]. rewrite <- X_add by apply W1.
    rewrite <- (xp_mod (_ + j)), <- (xp_mod i). f_equal.
    apply Nat2Z.inj. rewrite !Nat2Z.inj_mod, Nat2Z.inj_add.
    assert (O : Z.of_nat (N.to_nat (ord w)) = Z.of_N (ord w)) by lia. rewrite O.
    assert (Op : 0 < Z.of_N (ord w)) by (generalize (pow_bound29 w Hw); lia).
    rewrite Z2Nat.id by (apply Z.mod_pos_bound; assumption).
    rewrite Zplus_mod_idemp_l. f_equal. lia.
  - match goal with |- (xp w ?k < _)%N => generalize (small _ (xp_lt k)) end. lia.
Qed.

Lemma from_oob v : (2 ^ w <= v < 4294967296)%N -> gf_from g w v = UB.
Proof.
  intro Hv. assert (P := pow_bound29 w Hw). unfold gf_from, gf_order.
  destruct (N.leb_spec (2 ^ w) v); [|lia].
  unfold gf_mul, logtable_multiply. rewrite Hg. unfold as_i32 at 1 3.
  change (2 ^ 32) with 4294967296. change (2 ^ 31) with 2147483648.
  rewrite Z.mod_small by lia.
  destruct OK as (_ & _ & Lo & Hi).
  change (as_i32 1 =? 0) with false. rewrite orb_false_r.
  destruct (Z.ltb_spec (Z.of_N v) 2147483648).
  - destruct (Z.eqb_spec (Z.of_N v) 0); [lia|].
    unfold tread at 1. rewrite Lo, Hi. destruct (Z.ltb_spec (Z.of_N v) (Z.of_N (2 ^ w))); [lia|].
    now rewrite andb_false_r.
  - destruct (Z.eqb_spec (Z.of_N v - 4294967296) 0); [lia|].
    unfold tread at 1. rewrite Lo. destruct (Z.leb_spec 0 (Z.of_N v - 4294967296)); [lia|].
    now rewrite andb_false_r.
Qed.

Lemma nodiv0 a : gf_div g w a 0 = Done 4294967295%N.
Proof. reflexivity. Qed.

End Ops.

(** No zero divisors and inverses, for all widths up to 30. *)
Lemma gmul_inv w a : (1 <= w <= 30)%N -> (0 < a < 2 ^ w)%N ->
  exists b, (b < 2 ^ w)%N /\ gmul w (prim_poly w) a b = 1%N.
Proof.
  intros Hw Ha. assert (W : (1 <= w)%N) by lia.
  destruct (order_facts w Hw) as (E & _ & _ & _ & S).
  destruct (S a) as (i & Hi & Ei); [lia|lia|]. subst a.
  exists (xp w (N.to_nat (ord w) - i)). split; [now apply X_lt|].
  rewrite <- X_add by assumption. now replace (i + (N.to_nat (ord w) - i))%nat with (N.to_nat (ord w)) by lia.
Qed.

(** Property theorems C80, the security estimate of the parameter script, and the
    theorem of C72 that depends on it. *)

From Coq Require Import ZArith Reals List Lia Lra Psatz.
From Verif Require Import LpnParamModel LpnParam.
From mathcomp Require Import all_ssreflect zify.
From Verif Require Import LpnScriptModel P_LpnScript.
Set Implicit Arguments.
Unset Strict Implicit.
Unset Printing Implicit Defensive.
Local Open Scope R_scope.

(** ** C80: the formulas *)

(** [com] is the binomial coefficient as long as there are enough elements to choose
    from; in all other cases it is 1, not 0. *)
Theorem C80_com : forall n m : Z,
  com n m = if (0 <=? m)%Z && (m <=? n)%Z then INR 'C(Z.to_nat n, Z.to_nat m) else 1.
Proof.
  move=> n m. case: Z.leb_spec => H1 /=; last by apply: com_out; left.
  case: Z.leb_spec => H2; last by apply: com_out; right.
  rewrite -{1}(Z2Nat.id m) // -{1}(Z2Nat.id n); last lia. apply: com_bin. lia.
Qed.
Print Assumptions C80_com.

Example C80_com_example : com 5 2 = 10 /\ com 2 5 = 1.
Proof. rewrite !C80_com /=. split; lra. Qed.

(** The choices of [t] positions for the errors, and those that miss [K]. *)
Definition errors (T : finType) (t : nat) : nat := #|[set A : {set T} | #|A| == t]|.
Definition errors_off (T : finType) (K : {set T}) (t : nat) : nat :=
  #|[set A : {set T} | (#|A| == t) && [disjoint A & K]]|.

Lemma errors_offE (T : finType) (K : {set T}) t : errors_off K t = 'C(#|T| - #|K|, t).
Proof.
  rewrite /errors_off. have -> : (#|T| - #|K|)%N = #|~: K| by rewrite [#|~: K|]cardsCs setCK.
  rewrite -cards_draws. apply: eq_card => A. by rewrite !inE andbC disjoints_subset.
Qed.

Lemma lg_Rpower x y : 0 < x -> lg (Rpower x y) = y * lg x.
Proof. move=> H. rewrite /lg /Rpower ln_exp. rewrite /Rdiv. ring. Qed.

Lemma INR_bin_gt0 n m : (m <= n)%N -> 0 < INR 'C(n, m).
Proof. move=> H. apply: lt_0_INR. have := bin_gt0 n m. rewrite H. lia. Qed.

Lemma Guass_bin (N k t : nat) : (0 < k < N)%N -> (t <= N - k)%N ->
  Guass (Z.of_nat N) (Z.of_nat k) (Z.of_nat t) =
  Fin (28 / 10 * lg (INR (minn k (N - k))) - lg (INR 'C(N - k, t) / INR 'C(N, t))).
Proof.
  move=> /andP [K0 KN] Ht. rewrite /Guass.
  have -> : (Z.of_nat N - Z.of_nat k)%Z = Z.of_nat (N - k) by lia.
  have -> : (if (Z.of_nat k <? Z.of_nat (N - k))%Z then Z.of_nat k else Z.of_nat (N - k)) = Z.of_nat (minn k (N - k)).
  { case: Z.ltb_spec => H; lia. }
  have M0 : (0 < minn k (N - k))%N by lia.
  case: Z.eqb_spec => H; first lia.
  rewrite -INR_IZR_INZ lg_Rpower; last by apply: lt_0_INR; lia.
  rewrite !com_bin //; last by lia. rewrite lg_div //; apply: INR_bin_gt0; lia.
Qed.

(** The cost of the pooled Gauss attack: inverting a matrix of the smaller dimension
    as often as is needed until the [k] positions chosen have no error.  [N] is the
    number of positions, [K] the choice. *)
Theorem C80_pooled_gauss : forall (T : finType) (K : {set T}) (t : nat),
  (0 < #|K| < #|T|)%N -> (t <= #|T| - #|K|)%N ->
  Guass (Z.of_nat #|T|) (Z.of_nat #|K|) (Z.of_nat t) =
  Fin (28 / 10 * lg (INR (minn #|K| (#|T| - #|K|))) - lg (INR (errors_off K t) / INR (errors T t))).
Proof. move=> T K t HK Ht. rewrite errors_offE /errors card_draws. exact: Guass_bin. Qed.
Print Assumptions C80_pooled_gauss.

Example C80_pooled_gauss_example : Guass 4 2 1 = Fin (28 / 10 + 1).
Proof.
  rewrite (@Guass_bin 4 2 1) //. congr Fin. change 'C(4 - 2, 1) with 2%N. change 'C(4, 1) with 4%N.
  change (minn 2 (4 - 2)) with 2%N. have -> : INR 2 / INR 4 = / 2 by rewrite /=; field.
  rewrite -[INR 2]/2 lg_2. have -> : lg (/ 2) = - lg 2 by rewrite /lg ln_Rinv; lra. rewrite lg_2. ring.
Qed.

(** If there are more errors than positions left the attack never succeeds, but the
    cost is estimated as if one choice of the errors did. *)
Theorem C80_pooled_gauss_refuted : forall (T : finType) (K : {set T}) (t : nat),
  (0 < #|K| < #|T|)%N -> (#|T| - #|K| < t <= #|T|)%N ->
  errors_off K t = 0%N /\
  Guass (Z.of_nat #|T|) (Z.of_nat #|K|) (Z.of_nat t) =
  Fin (28 / 10 * lg (INR (minn #|K| (#|T| - #|K|))) - lg (1 / INR (errors T t))).
Proof.
  move=> T K t /andP [K0 KN] /andP [Ht Ht']. rewrite errors_offE /errors card_draws. split; first exact: bin_small.
  move: #|T| #|K| K0 KN Ht Ht' => N k K0 KN Ht Ht'. rewrite /Guass.
  have -> : (Z.of_nat N - Z.of_nat k)%Z = Z.of_nat (N - k) by lia.
  have -> : (if (Z.of_nat k <? Z.of_nat (N - k))%Z then Z.of_nat k else Z.of_nat (N - k)) = Z.of_nat (minn k (N - k)).
  { case: Z.ltb_spec => H; lia. }
  have M0 : (0 < minn k (N - k))%N by lia.
  case: Z.eqb_spec => H; first lia.
  rewrite -INR_IZR_INZ lg_Rpower; last by apply: lt_0_INR; lia.
  rewrite com_out; last by right; lia. rewrite com_bin //. rewrite lg_div //; [lra|exact: INR_bin_gt0].
Qed.
Print Assumptions C80_pooled_gauss_refuted.

Example C80_pooled_gauss_refuted_example : exists K : {set 'I_4}, errors_off K 2 = 0%N /\ Guass 4 3 2 = Fin (lg 6).
Proof.
  have HK : #|[set~ (ord0 : 'I_4)]| = 3%N by rewrite cardsC1 card_ord.
  exists [set~ ord0]. have [] := @C80_pooled_gauss_refuted _ [set~ (ord0 : 'I_4)] 2; rewrite ?HK ?card_ord //.
  move=> -> ->. split=> //. congr Fin. rewrite /errors card_draws card_ord. change 'C(4, 2) with 6%N.
  change (minn 3 (4 - 3)) with 1%N. rewrite -[INR 1]/1 lg_1. have -> : INR 6 = 6 by rewrite /=; lra.
  have -> : lg (1 / 6) = - lg 6 by rewrite /lg /Rdiv Rmult_1_l ln_Rinv; lra. ring.
Qed.

(** The cost of statistical decoding: [k + 1] positions without error, twice. *)
Theorem C80_statistical_decoding : forall (T : finType) (K : {set T}) (t : nat),
  (0 < #|K|)%N -> (t <= #|T| - #|K|)%N -> (#|K| <= #|T|)%N ->
  Ourparitycheckforq (Z.of_nat #|T|) (Z.of_nat #|K| - 1) (Z.of_nat t) =
  Fin (lg (INR #|K|) + 2 * lg (INR (errors T t) / INR (errors_off K t))).
Proof.
  move=> T K t K0 Ht KN. rewrite errors_offE /errors card_draws /Ourparitycheckforq.
  move: #|T| #|K| K0 Ht KN => N k K0 Ht KN.
  have -> : (Z.of_nat N - (Z.of_nat k - 1) - 1)%Z = Z.of_nat (N - k) by lia.
  have -> : (Z.of_nat k - 1 + 1)%Z = Z.of_nat k by lia.
  rewrite -INR_IZR_INZ !com_bin //; last by lia. rewrite lg_div //; apply: INR_bin_gt0; lia.
Qed.
Print Assumptions C80_statistical_decoding.

Example C80_statistical_decoding_example : Ourparitycheckforq 4 1 1 = Fin 3.
Proof.
  rewrite /Ourparitycheckforq. congr Fin. rewrite (@com_bin 4 1) // (@com_bin 2 1) // !bin1 lg_div; [|by rewrite /=; lra..].
  have -> : INR 4 / INR 2 = 2 by rewrite /=; field. rewrite (_ : IZR (1 + 1) = 2) // lg_2. ring.
Qed.

(** ** C80: information set decoding *)

(** The choices of [t] positions with [j] in each of two parts. *)
Definition errors_split (T : finType) (A B : {set T}) (t j : nat) : nat :=
  #|[set E : {set T} | [&& #|E| == t, #|E :&: A| == j & #|E :&: B| == j]]|.

Lemma errors_splitE (T : finType) (A B : {set T}) t j : [disjoint A & B] -> (2 * j <= t)%N ->
  errors_split A B t j = ('C(#|A|, j) * 'C(#|B|, j) * 'C(#|T| - #|A| - #|B|, t - 2 * j))%N.
Proof.
  move=> HAB Ht. pose C := ~: (A :|: B).
  have AB0 : A :&: B = set0 by apply/eqP; rewrite setI_eq0.
  have HC : #|C| = (#|T| - #|A| - #|B|)%N.
  { rewrite /C [#|~: _|]cardsCs setCK cardsU AB0 cards0. lia. }
  have AC0 : A :&: C = set0 by rewrite /C setCU setIA setICr set0I.
  have BC0 : B :&: C = set0 by rewrite /C setCU setICA setICr setI0.
  pose D := setX (setX [set X : {set T} | X \subset A & #|X| == j] [set X : {set T} | X \subset B & #|X| == j])
                 [set X : {set T} | X \subset C & #|X| == (t - 2 * j)%N].
  pose f (x : {set T} * {set T} * {set T}) := x.1.1 :|: x.1.2 :|: x.2.
  have fA x : x \in D -> [/\ f x :&: A = x.1.1, f x :&: B = x.1.2, f x :&: C = x.2 & [/\ #|x.1.1| = j, #|x.1.2| = j & #|x.2| = (t - 2 * j)%N]].
  { case: x => [[X Y] Z]. rewrite !inE /= => /andP [/andP [/andP [X1 /eqP X2] /andP [Y1 /eqP Y2]] /andP [Z1 /eqP Z2]].
    have z0 (U V W : {set T}) : U \subset V -> V :&: W = set0 -> U :&: W = set0.
    { move=> S1 E. apply/eqP. rewrite -subset0 -E. exact: setSI. }
    split; last by [].
    - rewrite /f /= !setIUl (setIidPl X1) (z0 Y B A Y1) ?setU0; last by rewrite setIC.
      by rewrite (z0 Z C A Z1) ?setU0 // setIC.
    - rewrite /f /= !setIUl (setIidPl Y1) (z0 X A B X1) ?set0U //.
      by rewrite (z0 Z C B Z1) ?setU0 // setIC.
    - by rewrite /f /= !setIUl (setIidPl Z1) (z0 X A C X1) // (z0 Y B C Y1) // !set0U. }
  have -> : errors_split A B t j = #|f @: D|.
  { apply: eq_card => E. rewrite inE. apply/idP/imsetP.
    - move=> /and3P [/eqP E0 /eqP E1 /eqP E2].
      have HU : E = E :&: A :|: E :&: B :|: E :&: C.
      { by rewrite -!setIUr /C setUCr setIT. }
      exists ((E :&: A, E :&: B), E :&: C); last exact: HU.
      rewrite !inE /= !subsetIr E1 E2 !eqxx /=. apply/eqP.
      have : (#|E| = #|E :&: A| + #|E :&: B| + #|E :&: C|)%N.
      { rewrite {1}HU cardsU cardsU. rewrite [_ :&: (E :&: C)](_ : _ = set0).
        + rewrite [E :&: A :&: (E :&: B)](_ : _ = set0) ?cards0; first lia.
          by rewrite setIACA AB0 setI0.
        + by rewrite -setIUr setIACA setIUl AC0 BC0 setU0 setI0. }
      lia.
    - case=> x Hx ->. have [F1 F2 F3 [N1 N2 N3]] := fA x Hx. rewrite F1 F2 N1 N2 !eqxx !andbT.
      move: Hx. case: x F1 F2 F3 N1 N2 N3 => [[X Y] Z] /= F1 F2 F3 N1 N2 N3.
      rewrite !inE /= => /andP [/andP [/andP [X1 _] /andP [Y1 _]] /andP [Z1 _]].
      have D1 : X :&: Y = set0 by apply/eqP; rewrite -subset0 -AB0; exact: setISS.
      have D2 : (X :|: Y) :&: Z = set0.
      { apply/eqP. rewrite setIUl setU_eq0 -!subset0 -{1}AC0 -BC0. by rewrite !setISS. }
      rewrite /f /= cardsU D2 cardsU D1 cards0. lia. }
  rewrite card_in_imset; last first.
  { move=> x y Hx Hy E. have [A1 A2 A3 _] := fA x Hx. have [B1 B2 B3 _] := fA y Hy.
    move: A1 A2 A3. rewrite E B1 B2 B3. case: x y {Hx Hy E B1 B2 B3} => [[a b] c] [[a' b'] c'] /= -> -> ->. by []. }
  by rewrite /D !cardsX !cards_draws HC.
Qed.

Lemma lg_mult x y : 0 < x -> 0 < y -> lg (x * y) = lg x + lg y.
Proof. move=> Hx Hy. rewrite /lg ln_mult // /Rdiv. ring. Qed.
Lemma lg_pow x n : 0 < x -> lg (x ^ n) = INR n * lg x.
Proof. move=> H. rewrite -Rpower_pow // lg_Rpower //. Qed.

(** The cost of information set decoding (SD-ISD) with two lists of the vectors of
    weight [j] on [h] positions: [L] is the length of a list, [S] the expected number
    of pairs that agree on the [l = 2 h - k] additional positions, and [P] the share of
    the choices of the errors that leave [j] in each part.  Costs over 230 bits are
    cut off, and so is an attack that always succeeds. *)
Theorem C80_information_set : forall (T : finType) (A B : {set T}) (k t l0 p0 : nat) (q : Z),
  let N := #|T| in let h := ((k + l0) %/ 2 + 1)%N in let j := (p0 %/ 2)%N in
  [disjoint A & B] -> #|A| = h -> #|B| = h -> (2 * h + 2 <= N)%N -> (2 * j <= t)%N -> (t - 2 * j <= N - 2 * h)%N ->
  (j <= h)%N -> (2 <= q)%Z ->
  let L := INR 'C(h, j) * IZR (q - 1) ^ j in let S := L ^ 2 / IZR q ^ (2 * h - k) in
  let P := INR (errors_split A B t j) / INR (errors T t) in
  let m := INR (N - 2 * h) in
  sub_SD_ISDq (Z.of_nat N) (Z.of_nat k) (Z.of_nat t) q (Z.of_nat l0) (Z.of_nat p0) =
  Some (Fin (if Rlt_dec 230 (lg S) then 230 else if Rlt_dec 230 (lg L) then 230 else
             if Rle_dec 1 P then 230 else lg ((m * INR N / lg m + 2 * L + 2 * S) * INR N) - lg P)).
Proof.
  move=> T A B k t l0 p0 q N h j HAB HA HB HN Ht Ht' Hj Hq L S P m.
  have Qh : (Z.quot (Z.of_nat k + Z.of_nat l0) 2 = Z.of_nat h - 1)%Z.
  { have := @quot2 (Z.of_nat k + Z.of_nat l0) ltac:(lia). rewrite /h. have := divn_eq (k + l0) 2.
    have := ltn_pmod (k + l0) (isT : 0 < 2)%N. move: (_ %/ _) (_ %% _) => a b. lia. }
  have Kh : (k <= 2 * h)%N.
  { rewrite /h. have := divn_eq (k + l0) 2. have := ltn_pmod (k + l0) (isT : 0 < 2)%N. move: (_ %/ _) (_ %% _) => a b. lia. }
  have Qj : Z.quot (Z.of_nat p0) 2 = Z.of_nat j.
  { have := @quot2 (Z.of_nat p0) ltac:(lia). rewrite /j. have := divn_eq p0 2.
    have := ltn_pmod p0 (isT : 0 < 2)%N. move: (_ %/ _) (_ %% _) => a b. lia. }
  rewrite /sub_SD_ISDq Qh Qj.
  have -> : Z.quot (Z.of_nat j * 2) 2 = Z.of_nat j by rewrite Z.quot_mul.
  have -> : (Z.of_nat k + ((Z.of_nat h - 1) * 2 - Z.of_nat k + 2) = Z.of_nat h * 2)%Z by lia.
  rewrite Z.quot_mul //.
  have -> : ((Z.of_nat h - 1) * 2 - Z.of_nat k + 2 = Z.of_nat (2 * h - k))%Z by lia.
  have -> : (Z.of_nat N - Z.of_nat k - Z.of_nat (2 * h - k) = Z.of_nat (N - 2 * h))%Z by lia.
  have -> : (Z.of_nat t - Z.of_nat j * 2 = Z.of_nat (t - 2 * j))%Z by lia.
  have C0 : 0 < INR 'C(h, j) by apply: INR_bin_gt0.
  have Q0 : 0 < IZR q by apply: IZR_lt; lia. have Q1 : 0 < IZR (q - 1) by apply: IZR_lt; lia.
  have P0 : 0 < IZR (q - 1) ^ j by apply: pow_lt. have L0 : 0 < L by apply: Rmult_lt_0_compat.
  have EL : IZR ((q - 1) ^ Z.of_nat j) = IZR (q - 1) ^ j by rewrite pow_IZR.
  rewrite !com_bin //; try lia. rewrite EL -/L.
  have Hl : lg (INR 'C(h, j)) + IZR (Z.of_nat j) * lg (IZR (q - 1)) = lg L.
  { by rewrite -INR_IZR_INZ /L lg_mult // lg_pow. }
  rewrite Hl. have HS : 2 * lg L - IZR (Z.of_nat (2 * h - k)) * lg (IZR q) = lg S.
  { rewrite /S -lg_div; [|exact: pow_lt|exact: pow_lt]. by rewrite -INR_IZR_INZ !lg_pow. }
  rewrite HS. have S0 : 0 < S by apply: Rdiv_lt_0_compat; apply: pow_lt.
  rewrite Rpower_lg //. case: (Rlt_dec 230 (lg S)) => H1 //. case: (Rlt_dec 230 (lg L)) => H2 //. rewrite /is_left. clear H1 H2.
  have -> : (Z.of_nat (N - 2 * h) =? 1)%Z = false by apply/Z.eqb_neq; lia.
  have -> : (Z.of_nat (N - 2 * h) =? 0)%Z = false by apply/Z.eqb_neq; lia.
  have -> : (Z.of_nat (N - 2 * h) <? 0)%Z = false by apply/Z.ltb_nlt; lia.
  have EP : P = INR 'C(h, j) * INR 'C(h, j) * INR 'C(N - 2 * h, t - 2 * j) / INR 'C(N, t).
  { rewrite /P errors_splitE // /errors card_draws HA HB !mult_INR -/N.
    by have -> : (N - h - h = N - 2 * h)%N by lia. }
  have C1 : 0 < INR 'C(N - 2 * h, t - 2 * j) by apply: INR_bin_gt0.
  have C2 : 0 < INR 'C(N, t) by apply: INR_bin_gt0; lia.
  have PP : 0 < P by rewrite EP; apply: Rdiv_lt_0_compat => //; apply: Rmult_lt_0_compat => //; apply: Rmult_lt_0_compat.
  clearbody S L. set pp := (X in Rle_dec 0 X). have Epp : pp = lg P.
  { rewrite /pp EP -lg_div //; last by apply: Rmult_lt_0_compat => //; apply: Rmult_lt_0_compat.
    rewrite !lg_mult //; last by apply: Rmult_lt_0_compat. rewrite -HS -Hl mult_IZR. rewrite -!INR_IZR_INZ. ring. }
  case: (Rle_dec 0 pp) => H1; case: (Rle_dec 1 P) => H2 //.
  - case: H2. case: (Rle_lt_dec 1 P) => // H. have := lg_lt PP H. rewrite lg_1. lra.
  - case: H1. rewrite Epp. exact: lg_ge0.
  - by rewrite -/pp Epp mult_IZR -!INR_IZR_INZ -/m.
Qed.
Print Assumptions C80_information_set.

(** Eight positions, two errors, one expected in each of two parts of two. *)
Example C80_information_set_example :
  sub_SD_ISDq 8 2 2 3 0 2 = Some (Fin (lg ((4 * 8 / lg 4 + 2 * 4 + 2 * (16 / 9)) * 8) - lg (1 / 7))).
Proof.
  pose A := [set (inord 0 : 'I_8); inord 1]. pose B := [set (inord 2 : 'I_8); inord 3].
  have D (a b : nat) : (a < 8)%N -> (b < 8)%N -> a != b -> (inord a : 'I_8) != inord b.
  { move=> Ha Hb. by rewrite -val_eqE /= !inordK. }
  have HA : #|A| = 2%N by rewrite cards2 D. have HB : #|B| = 2%N by rewrite cards2 D.
  have HAB : [disjoint A & B].
  { rewrite -setI_eq0 -subset0. apply/subsetP => x. rewrite !inE => /andP [/orP [] /eqP -> /orP [] E];
    by move: E; apply/contraTT => _; apply: D. }
  have := @C80_information_set _ A B 2 2 0 2 3 HAB HA HB. rewrite errors_splitE // HA HB /errors card_draws card_ord.
  change ((2 + 0) %/ 2 + 1)%N with 2%N. change (2 %/ 2)%N with 1%N. change 'C(2, 1) with 2%N. change 'C(8, 2) with 28%N.
  change 'C(8 - 2 - 2, 2 - 2 * 1) with 1%N. move=> H. rewrite [LHS]H // {H}.
  have -> : INR 2 * IZR (3 - 1) ^ 1 = 4 by rewrite /=; lra. have -> : 4 ^ 2 / IZR 3 ^ (2 * 2 - 2) = 16 / 9 by rewrite /=; field.
  have -> : INR (8 - 2 * 2) = 4 by rewrite /=; lra. have -> : INR 8 = 8 by rewrite /=; lra.
  have -> : 4 / INR 28 = 1 / 7 by rewrite /=; field.
  have H4 : lg 4 = 2 by (have -> : 4 = 2 * 2 by lra); rewrite lg_mult ?lg_2; lra.
  have HS : lg (16 / 9) <= lg 4 by apply: lg_le; lra.
  case: Rlt_dec => H1; first lra. case: Rlt_dec => H2; first lra. case: Rle_dec => H3; first lra. by [].
Qed.

(** ** C80: the minimum *)

(** The estimate is the cost of one of the attacks: pooled Gauss, statistical
    decoding, or information set decoding for some [l] and [p].  If it is a number it
    is not more than the first two. *)
Theorem C80_estimate : forall N k t q v, analysisforq N k t q = Some v ->
  (v = Guass N k t \/ v = Ourparitycheckforq N k t \/
     exists l p, (0 <= l)%Z /\ (0 <= p)%Z /\ sub_SD_ISDq N k t q l p = Some v) /\
  (v <> NaN -> le_num v (Guass N k t) /\ le_num v (Ourparitycheckforq N k t)).
Proof. by move=> N k t q v /analysis_parts []. Qed.
Print Assumptions C80_estimate.

(** It is a number for secrets shorter than the number of queries less one. *)
Theorem C80_number : forall N k t q, (0 < k)%Z -> (k + 2 <= N)%Z -> analysisforq N k t q <> Some NaN.
Proof.
  move=> N k t q Hk HN E. have [_ _] := analysis_parts E. apply=> // /sub_nan. rewrite Z.add_0_r.
  have := @quot2 k ltac:(lia). lia.
Qed.
Print Assumptions C80_number.

(** No exception occurs if the number of queries is even. *)
Theorem C80_even : forall N k t q, Z.Even N -> analysisforq N k t q <> None.
Proof.
  move=> N k t q HN.
  have Hs l p : sub_SD_ISDq N k t q l p <> None by move=> /sub_none E; case: HN => x; lia.
  rewrite /analysisforq /SD_ISD_q. case E0: (sub_SD_ISDq N k t q 0 0) => [w|]; last by case: (Hs 0%Z 0%Z).
  case Eo: over_p => [w'|] //.
  case: (@over_p_total (fun p => min_SD_ISDq N k t q p) (range 0 (Z.quot t 2)) w _ Eo) => p _.
  exact: min_search_total.
Qed.
Print Assumptions C80_even.

Example C80_even_example : exists2 v, analysisforq 60 30 14 (2 ^ 18) = Some v & v <> NaN.
Proof.
  case E: analysisforq => [v|]; last by case: (@C80_even 60 30 14 (2 ^ 18) _ E); exists 30%Z.
  exists v => // Ev. by apply: (@C80_number 60 30 14 (2 ^ 18)) => //; rewrite E Ev.
Qed.

(** But for odd numbers of queries that exceed the length of the secret by at most
    39, where [np.log2(1)] divides: the estimate is then 0 for every field and every
    number of errors from 2 on. *)
Theorem C80_odd_refuted : forall N k tau q, Z.Odd N -> (0 < k)%Z -> (3 <= N - k <= 39)%Z -> (2 <= q)%Z ->
  (2 <= num_errors N tau q)%Z -> sec_lpn N k tau q = Fin 0.
Proof.
  move=> N k tau q [x Hx] Hk HN Hq. rewrite /sec_lpn. move: (num_errors N tau q) => t Ht.
  suff -> : analysisforq N k t q = None by [].
  rewrite /analysisforq /SD_ISD_q. case: (sub_SD_ISDq N k t q 0 0) => [w|] //.
  have [r ->] : exists r, range 0 (Z.quot t 2) = 0%Z :: r.
  { rewrite /range. have H1 : (1 <= Z.quot t 2)%Z by have := @quot2 t ltac:(lia); lia.
    case E: (Z.to_nat (Z.quot t 2 - 0)) => [|m]; first lia. by eexists. }
  cbn [over_p]. suff -> : min_SD_ISDq N k t q 0 = None by [].
  rewrite /min_SD_ISDq /min_search. case: (sub_SD_ISDq N k t q 1 0) => [T|] //.
  have -> : ternary (fun l => sub_SD_ISDq N k t q l 0) (Z.to_nat (N - k - 8)) 1 (N - k - 8) T = Some (1, N - k - 8, T)%Z.
  { case: (Z.to_nat (N - k - 8)) => [|f] //. cbn [ternary]. case: Z.ltb_spec => H //. lia. }
  change (if (1 <? 10)%Z then 0%Z else (1 - 10)%Z) with 0%Z.
  apply: (@scan_none _ _ _ (N - 3 - k)%Z); first by apply/in_range; lia.
  have Eq : Z.quot (k + (N - 3 - k)) 2 = (x - 1)%Z.
  { have := @quot2 (k + (N - 3 - k)) ltac:(lia). lia. }
  apply: sub_p0_none; rewrite ?Eq; lia.
Qed.
Print Assumptions C80_odd_refuted.

Example C80_odd_example : (2 <= num_errors 39 2 (2 ^ 18))%Z /\ sec_lpn 39 10 2 (2 ^ 18) = Fin 0.
Proof. split; first by []. apply: C80_odd_refuted; try lia; [by exists 19%Z|by []]. Qed.

(** ** C80: the search for [l] *)

(** The ternary search keeps the place where the costs turn from falling to rising. *)
Lemma ternary_finds f g fuel start end' min s e v m : (start <= m <= end')%Z ->
  (forall l, (start <= l <= end')%Z -> f l = Some (Fin (g l))) ->
  (forall a b, (start <= a)%Z -> (a + 2 <= b)%Z -> (b <= m)%Z -> g b < g a) ->
  (forall a b, (m <= a)%Z -> (a + 2 <= b)%Z -> (b <= end')%Z -> g a < g b) ->
  ternary f fuel start end' min = Some (s, e, v) -> (s <= m <= e)%Z.
Proof.
  elim: fuel start end' min => [|fuel IH] start end' min Hm Hf H1 H2; first by move=> [<- <- _].
  cbn [ternary]. case: Z.ltb_spec => H; last by move=> [<- <- _].
  have := midsP H. cbv zeta. move: (Z.quot (end' - start) 3 + start)%Z (end' - Z.quot (end' - start) 3)%Z => a b [M1 [M2 M3]].
  rewrite (Hf a); last lia. rewrite (Hf b); last lia. case: ifP => Hc; move: (Hc) => /=; case: Rlt_dec => // Hlt _.
  - have Ham : (a < m)%Z by case: (Z_lt_le_dec a m) => // L; have := H2 a b L ltac:(lia) ltac:(lia); lra.
    apply: IH; first lia.
    + move=> l Hl. apply: Hf. lia.
    + move=> x y *. apply: H1; lia.
    + move=> x y *. apply: H2; lia.
  - have Ham : (m < b)%Z by case: (Z_lt_le_dec m b) => // L; have := H1 a b ltac:(lia) ltac:(lia) L; lra.
    apply: IH; first lia.
    + move=> l Hl. apply: Hf. lia.
    + move=> x y *. apply: H1; lia.
    + move=> x y *. apply: H2; lia.
Qed.

(** The search finds the least cost if the costs fall up to some [l] and then rise.
    Neighbouring costs may be equal, as [l] is rounded. *)
Theorem C80_search : forall (f : Z -> option num) (g : Z -> R) end' m v,
  (1 <= m <= end')%Z ->
  (forall l, (1 <= l <= end')%Z -> f l = Some (Fin (g l))) ->
  (forall a b, (1 <= a)%Z -> (a + 2 <= b)%Z -> (b <= m)%Z -> g b < g a) ->
  (forall a b, (m <= a)%Z -> (a + 2 <= b)%Z -> (b <= end')%Z -> g a < g b) ->
  min_search f end' = Some v ->
  (exists2 l, (0 <= l)%Z & f l = Some v) /\
  (forall l, (1 <= l <= end')%Z -> le_num v (Fin (g l))).
Proof.
  move=> f g end' m v Hm Hf H1 H2 E. split; first exact: min_searchP E.
  move: E. rewrite /min_search Hf; last lia. case Et: ternary => [[[s e] mn]|] //.
  have [A B C _] := ternaryP Et. have Hse := ternary_finds Hm Hf H1 H2 Et.
  have Mn : mn <> NaN by case: C => [->|[l L1]] //; rewrite Hf; [case=> <-|lia].
  case/scanP => _ _ Hs. have Hin l : (1 <= l <= end')%Z -> (m - 1 <= l <= m + 1)%Z -> le_num v (Fin (g l)).
  { move=> L1 L2. apply: (Hs Mn l) => //; last exact: Hf. apply/in_range. case: Z.ltb_spec; lia. }
  move=> l Hl. case: (Z_lt_le_dec l (m - 1)) => L1.
  - apply: le_trans (Hin m Hm ltac:(lia)) _. apply/leFF. left. apply: H1; lia.
  - case: (Z_lt_le_dec (m + 1) l) => L2; last by apply: Hin.
    apply: le_trans (Hin m Hm ltac:(lia)) _. apply/leFF. left. apply: H2; lia.
Qed.
Print Assumptions C80_search.

(** A parabola of which neighbours are equal. *)
Example C80_search_example : let g := fun l => IZR ((Z.quot l 2 - 50) * (Z.quot l 2 - 50)) in
  exists2 v, min_search (fun l => Some (Fin (g l))) 1000 = Some v & le_num v (Fin 0).
Proof.
  move=> g. case E: min_search => [v|]; last by case: (@min_search_total _ _ _ E). exists v => //. have [|||_ H] := @C80_search _ g 1000 100 v _ (fun l _ => erefl) _ _ E; try lia.
  - move=> a b A1 A2 A3. apply: IZR_lt. have := @quot2 a ltac:(lia). have := @quot2 b ltac:(lia). nia.
  - move=> a b A1 A2 A3. apply: IZR_lt. have := @quot2 a ltac:(lia). have := @quot2 b ltac:(lia). nia.
  - exact: (H 100%Z ltac:(lia)).
Qed.

Lemma over_p_finds (g : Z -> option num) (c : Z -> R) (n m : Z) :
  (forall p, (0 <= p < n)%Z -> g p = Some (Fin (c p))) ->
  (forall a b, (0 <= a <= b)%Z -> (b <= m)%Z -> c b <= c a) ->
  (forall a b, (m <= a <= b)%Z -> (b < n)%Z -> c a <= c b) ->
  forall ps a x v, (forall i : nat, (i < length ps)%coq_nat -> List.nth i ps 0%Z = a + Z.of_nat i)%Z ->
  (n = a + Z.of_nat (length ps))%Z -> (0 <= a)%Z ->
  (forall p, (0 <= p < a)%Z -> x <= c p) -> (exists2 p, (0 <= p <= a)%Z & c p <= x + 30) ->
  over_p g ps (Fin x) = Some v -> forall p, (0 <= p < n)%Z -> le_num v (Fin (c p)).
Proof.
  move=> Hg H1 H2. elim=> [|y ps IH] a x v Hn Ea A0 Hpre Hw.
  { move=> [<-] p Hp. apply/leFF. apply: Hpre. move: Ea Hp => /=. lia. }
  have Ey : y = a by have := Hn 0%N ltac:(move=> /=; lia); rewrite /=; lia.
  have La : (a < n)%Z by move: Ea => /=; lia.
  cbn [over_p]. rewrite Ey Hg; last lia.
  have Hn' : (forall i : nat, (i < length ps)%coq_nat -> List.nth i ps 0%Z = a + 1 + Z.of_nat i)%Z.
  { move=> i Hi. have := Hn i.+1 ltac:(move=> /=; lia). rewrite /=. lia. }
  have Ea' : (n = a + 1 + Z.of_nat (length ps))%Z by move: Ea => /=; lia.
  case Hm: (le_num (Fin (c a)) (Fin x)).
  - have {}Hm : c a <= x by apply/leFF.
    have -> : lt_num (add_num (Fin (c a)) 30) (Fin (c a)) = false by rewrite /=; case: Rlt_dec => // H; lra.
    apply: (IH (a + 1)%Z) => //; first lia.
    + move=> p Hp. case: (Z.eq_dec p a) => [->|Hpa]; first lra. have := Hpre p ltac:(lia). lra.
    + exists a; [lia|lra].
  - have {}Hm : x < c a by apply: Rnot_le_lt => /leFF; rewrite Hm.
    case Hb: (lt_num _ _).
    + have {}Hb : x + 30 < c a by move: Hb; rewrite /=; case: Rlt_dec.
      case: Hw => p' P1 P2. have Ma : (m < a)%Z.
      { case: (Z_lt_le_dec m a) => // L. have := H1 p' a P1 L. lra. }
      move=> [<-] p Hp. apply/leFF. case: (Z_lt_le_dec p a) => L; first by apply: Hpre; lia.
      have := H2 a p ltac:(lia) ltac:(lia). lra.
    + have {}Hb : c a <= x + 30 by apply: Rnot_lt_le => H; move: Hb; rewrite /=; case: Rlt_dec.
      apply: (IH (a + 1)%Z) => //; first lia.
      * move=> p Hp. case: (Z.eq_dec p a) => [->|Hpa]; first lra. have := Hpre p ltac:(lia). lra.
      * exists a; [lia|lra].
Qed.

(** The loop over [p] stops early, when a cost is more than 30 over the least so far.
    It still finds the least cost if the costs do not rise up to some [p] and do not
    fall from there. *)
Theorem C80_search_p : forall (g : Z -> option num) (c : Z -> R) (n m : Z) (x : R) v,
  (0 <= n)%Z ->
  (forall p, (0 <= p < n)%Z -> g p = Some (Fin (c p))) ->
  (forall a b, (0 <= a <= b)%Z -> (b <= m)%Z -> c b <= c a) ->
  (forall a b, (m <= a <= b)%Z -> (b < n)%Z -> c a <= c b) ->
  c 0%Z <= x + 30 ->
  over_p g (range 0 n) (Fin x) = Some v ->
  le_num v (Fin x) /\ forall p, (0 <= p < n)%Z -> le_num v (Fin (c p)).
Proof.
  move=> g c n m x v N0 Hg H1 H2 H0 E. split; first by have [_ []] := over_pP E.
  move=> p Hp. apply: (over_p_finds Hg H1 H2 (ps := range 0 n) (a := 0%Z) (x := x)) => //.
  - move=> i. rewrite /range map_length seq_length => Hi.
    rewrite (nth_indep _ 0%Z (0 + Z.of_nat 0)%Z); last by rewrite map_length seq_length.
    by rewrite (map_nth (fun i => 0 + Z.of_nat i)%Z) seq_nth.
  - rewrite /range map_length seq_length. lia.
  - lia.
  - by exists 0%Z; [lia|].
Qed.
Print Assumptions C80_search_p.

(** Costs that fall and rise by pairs, as [p] is rounded too. *)
Example C80_search_p_example : let c := fun p => IZR ((Z.quot p 2 - 5) * (Z.quot p 2 - 5)) in
  exists2 v, over_p (fun p => Some (Fin (c p))) (range 0 100) (Fin 7) = Some v & le_num v (Fin 0).
Proof.
  move=> c. case E: over_p => [v|]; last by case: (@over_p_total (fun p => Some (Fin (c p))) (range 0 100) (Fin 7) _ E).
  exists v => //. have [|||||_ H] := @C80_search_p (fun p => Some (Fin (c p))) c 100 10 7 v _ _ _ _ _ E => //.
  - move=> a b A1 A2. apply: IZR_le. have U : (Z.quot a 2 <= Z.quot b 2 <= 5)%Z.
    { have := @quot2 a ltac:(lia). have := @quot2 b ltac:(lia). lia. }
    clear -U. nia.
  - move=> a b A1 A2. apply: IZR_le. have U : (5 <= Z.quot a 2 <= Z.quot b 2)%Z.
    { have := @quot2 a ltac:(lia). have := @quot2 b ltac:(lia). lia. }
    clear -U. nia.
  - rewrite /c /=. lra.
  - exact: (H 10%Z ltac:(lia)).
Qed.

(** ** C72 with the estimate of the script *)

Lemma errors_half (N tau q : Z) : (0 < N)%Z -> (1 <= tau)%Z -> (2 <= q)%Z ->
  (0 <= num_errors N tau q)%Z /\ (2 * num_errors N tau q < N)%Z.
Proof.
  move=> HN Ht Hq. rewrite /num_errors.
  have Hp : (2 <= 2 ^ tau)%Z by rewrite -[X in (X <= _)%Z]Z.pow_1_r; apply: Z.pow_le_mono_r.
  move: (2 ^ tau)%Z Hp => P Hp. have D0 : (0 < P * q)%Z by nia.
  have := Z.mul_div_le (N * (q - 1)) (P * q) D0. have := Z.div_pos (N * (q - 1)) (P * q) ltac:(nia) D0.
  move: (N * (q - 1) / (P * q))%Z => t H1 H2. split=> //.
  suff : (2 * t * q < N * q)%Z by nia. have : (2 * (t * q) <= P * (t * q))%Z by nia. lia.
Qed.

(** A secret of one symbol has less than one bit of security. *)
Lemma one_symbol (N tau q sec : Z) : (0 < N)%Z -> (1 <= tau)%Z -> (2 <= q)%Z -> (1 <= sec)%Z ->
  at_least N 1 tau q sec = false.
Proof.
  move=> HN Ht Hq Hs. have [T0 T1] := errors_half HN Ht Hq. rewrite /at_least /sec_lpn.
  move: (num_errors N tau q) T0 T1 => t T0 T1. have S1 : 1 <= IZR sec by apply: IZR_le.
  case E: analysisforq => [v|]; last by rewrite /=; case: Rle_dec => // H; lra.
  case Hle: le_num => //. have Vn : v <> NaN by move=> Ev; move: Hle; rewrite Ev.
  have [_ /(_ Vn) [Hg _]] := C80_estimate E. have := le_trans Hle Hg.
  case: (Z_le_gt_dec N 1) => N1.
  { have -> : N = 1%Z by lia. by rewrite /Guass. }
  rewrite -(Z2Nat.id N); last lia. rewrite -(Z2Nat.id t) //. 
  have {}N1 : (1 < Z.to_nat N)%N by lia. have {}T1 : (2 * Z.to_nat t < Z.to_nat N)%N by lia.
  move: (Z.to_nat N) (Z.to_nat t) N1 T1 => n u N1 T1. rewrite (@Guass_bin n 1 u); try lia. move/leFF.
  have -> : minn 1 (n - 1) = 1%N by lia. rewrite -[INR 1]/1 lg_1 => H.
  have H1 : (n * 'C(n - 1, u) = (n - u) * 'C(n, u))%N by rewrite subn1 mul_bin_down.
  have P1 : 0 < INR 'C(n - 1, u) by apply: INR_bin_gt0; lia. have P2 : 0 < INR 'C(n, u) by apply: INR_bin_gt0; lia.
  have H2 : (2 * 'C(n - 1, u) > 'C(n, u))%N.
  { have B0 : (0 < 'C(n, u))%N by rewrite bin_gt0; lia. rewrite ltnNge. apply/negP => Hc.
    have : (n * (2 * 'C(n - 1, u)) <= n * 'C(n, u))%N by rewrite leq_mul2l Hc orbT.
    have : (n * 'C(n, u) < 2 * (n - u) * 'C(n, u))%N by rewrite ltn_mul2r B0; lia. lia. }
  have H3 : INR 'C(n, u) < 2 * INR 'C(n - 1, u).
  { rewrite -[2]/(INR 2) -mult_INR. apply: lt_INR. lia. }
  have H4 : lg (/ 2) < lg (INR 'C(n - 1, u) / INR 'C(n, u)).
  { apply: lg_lt; first lra. apply: (Rmult_lt_reg_r (INR 'C(n, u))) => //.
    rewrite /Rdiv Rmult_assoc Rinv_l; lra. }
  have H5 : lg (/ 2) = -1.
  { have -> : lg (/ 2) = - lg 2 by rewrite /lg ln_Rinv; lra. by rewrite lg_2. }
  lra.
Qed.

Lemma opposite (N k tau q sec : Z) : (0 < k)%Z -> (k + 2 <= N)%Z ->
  below N k tau q sec = ~~ at_least N k tau q sec.
Proof.
  move=> Hk HN. rewrite /below /at_least /sec_lpn. have := @C80_number N k (num_errors N tau q) q Hk HN.
  case: analysisforq => [[x| |]|] //= _; case: Rlt_dec; case: Rle_dec => //=; lra.
Qed.

(** The parameters the script prints for an error rate of [2^-tau], with [tau] at
    least 1, and at least one bit of security: of the [2^(tau N)] ways for the errors
    of a row of [N] symbols, at most one in [2^bits] has more errors than half the
    distance; and the estimated costs of pooled Gauss and of statistical decoding are
    at least [sec]. *)
Theorem C72_parameters_keep_bounds : forall (tau bits : nat) (q sec : Z) (N k : nat),
  (0 < tau)%N -> (2 <= q)%Z -> (1 <= sec)%Z ->
  gen_lpn_params tau bits (fun N k => at_least (Z.of_nat N) (Z.of_nat k) (Z.of_nat tau) q sec)
    (fun N k => below (Z.of_nat N) (Z.of_nat k) (Z.of_nat tau) q sec) = (N, Some k) ->
  let t := num_errors (Z.of_nat N) (Z.of_nat tau) q in
  [/\ (1 < k <= N)%N,
      ((\sum_(h < N.+1 | (N - k) %/ 2 < h) 'C(N, h) * (2 ^ tau - 1) ^ (N - h)) * 2 ^ bits <= 2 ^ (tau * N))%N,
      le_num (Fin (IZR sec)) (Guass (Z.of_nat N) (Z.of_nat k) t) &
      le_num (Fin (IZR sec)) (Ourparitycheckforq (Z.of_nat N) (Z.of_nat k) t)].
Proof.
  move=> tau bits q sec N k Htau Hq Hs Hg t.
  have HN : (0 < N)%N by have [+ _ _] := genP tau bits
    (fun N k => at_least (Z.of_nat N) (Z.of_nat k) (Z.of_nat tau) q sec)
    (fun N k => below (Z.of_nat N) (Z.of_nat k) (Z.of_nat tau) q sec); rewrite Hg => /andP [].
  have H1 : at_least (Z.of_nat N) (Z.of_nat 1) (Z.of_nat tau) q sec = false by apply: one_symbol; lia.
  have [|K Hsec Hacc _] := C72_parameters_found _ Hg.
  { move=> k' K1 K2. apply: opposite; lia. }
  move: Hacc => /(_ (or_intror (negbT H1))) Hacc.
  have Hv : exists2 v, analysisforq (Z.of_nat N) (Z.of_nat k) t q = Some v & le_num (Fin (IZR sec)) v.
  { move: Hsec. rewrite /at_least /sec_lpn -/t. case: analysisforq => [v|]; first by exists v.
    rewrite /=. case: Rle_dec => // H. have : 1 <= IZR sec by apply: IZR_le. lra. }
  case: Hv => v Ev Hv. have [_ Hle] := C80_estimate Ev. have Vn : v <> NaN by move=> E; move: Hv; rewrite E.
  have [Hle1 Hle2] := Hle Vn. split.
  - case/andP: K => K0 K1. rewrite K1 andbT ltn_neqAle K0 andbT. apply/eqP => E. by move: Hsec; rewrite -E H1.
  - move: Hacc. by rewrite /accepts /fail_ways /max_weight addnK.
  - exact: le_trans Hle1.
  - exact: le_trans Hle2.
Qed.
Print Assumptions C72_parameters_keep_bounds.

(** Something is found if the greatest length has parameters. *)
Lemma flp_some tau bits secure low fuel lo high : (lo <= high)%N ->
  find_k tau bits secure low high -> (high - lo <= fuel)%N ->
  (find_lpn_params tau bits secure low fuel lo high).2.
Proof.
  elim: fuel lo high => [|f IH] lo high H1 H2 Hf /=; first by (have -> : lo = high by lia).
  case: ifP => H3 /=; first by (have -> : lo = high by lia).
  have [L1 L2] : (lo <= (lo + high) %/ 2)%N /\ ((lo + high) %/ 2 < high)%N.
  { have := divn_eq (lo + high) 2. have : ((lo + high) %% 2 < 2)%N by apply: ltn_pmod. lia. }
  move: ((lo + high) %/ 2) L1 L2 => m L1 L2. case Ha: (find_k tau bits secure low m) => [k|].
  - apply: IH; [exact: L1|by rewrite Ha|lia].
  - apply: IH; [lia|exact: H2|lia].
Qed.

Theorem C72_search_succeeds : forall tau bits secure low,
  find_k tau bits secure low (15 * 100) -> (gen_lpn_params tau bits secure low).2.
Proof. move=> tau bits secure low H. exact: flp_some. Qed.
Print Assumptions C72_search_succeeds.

(** ** Parameters exist for one bit of security *)

Lemma com_mono (n n' : nat) (t : Z) : (0 <= t)%Z -> (n' <= n)%N -> com (Z.of_nat n') t <= com (Z.of_nat n) t.
Proof.
  move=> T0 H. case: (Z_lt_le_dec (Z.of_nat n') t) => L.
  { rewrite com_out; last by right. exact: com_ge1. }
  rewrite -(Z2Nat.id t) // !com_bin; try lia. apply: le_INR. have := leq_bin2l (Z.to_nat t) H. lia.
Qed.

Lemma lg_ge1 x : 2 <= x -> 1 <= lg x.
Proof. move=> H. rewrite -lg_2. apply: lg_le; lra. Qed.

Lemma one_bit (N k tau : nat) (q : Z) : Z.Even (Z.of_nat N) -> (1 < k < N)%N -> (2 <= q)%Z ->
  let t := num_errors (Z.of_nat N) (Z.of_nat tau) q in (0 < t < Z.of_nat N)%Z ->
  at_least (Z.of_nat N) (Z.of_nat k) (Z.of_nat tau) q 1.
Proof.
  move=> HE /andP [K1 K2] Hq t Ht. rewrite /at_least /sec_lpn -/t.
  case E: analysisforq => [v|]; last by have := @C80_even (Z.of_nat N) (Z.of_nat k) t q HE E.
  have [Hv _ Hn] := analysis_parts E.
  have {Hn} Vn : v <> NaN.
  { apply: Hn => /sub_nan. rewrite Z.add_0_r. have := @quot2 (Z.of_nat k) ltac:(lia). case: HE => x. lia. }
  case: Hv => [->|[->|[l [p [L0 [P0]]]]]].
  - rewrite /Guass. have -> : (Z.of_nat N - Z.of_nat k)%Z = Z.of_nat (N - k) by lia.
    have -> : (if (Z.of_nat k <? Z.of_nat (N - k))%Z then Z.of_nat k else Z.of_nat (N - k)) = Z.of_nat (minn k (N - k)).
    { case: Z.ltb_spec => H; lia. }
    case: Z.eqb_spec => H; first lia. apply/leFF.
    rewrite -INR_IZR_INZ lg_Rpower; last by apply: lt_0_INR; lia.
    have Hc : lg (com (Z.of_nat (N - k)) t) <= lg (com (Z.of_nat N) t).
    { apply: lg_le; last by apply: com_mono; lia. have := com_ge1 (Z.of_nat (N - k)) t. lra. }
    case: (leqP 2 (N - k)) => L.
    + have : 1 <= lg (INR (minn k (N - k))) by apply: lg_ge1; rewrite -[2]/(INR 2); apply: le_INR; lia. lra.
    + have -> : minn k (N - k) = 1%N by lia. rewrite -[INR 1]/1 lg_1.
      have -> : (N - k)%N = 1%N by lia. have C1 : com (Z.of_nat 1) t = 1.
      { case: (Z_lt_le_dec 1 t) => H1; first by rewrite com_out //; right.
        by (have -> : t = Z.of_nat 1 by lia); rewrite com_bin. }
      rewrite C1 lg_1. have H2 : (2 <= 'C(N, Z.to_nat t))%N.
      { have T0 : (0 < Z.to_nat t < N)%N by lia. case: (N) (Z.to_nat t) T0 => [|n] [|u] Hu; try lia. rewrite binS.
        have := bin_gt0 n u.+1. have := bin_gt0 n u. lia. }
      have : 1 <= lg (com (Z.of_nat N) t).
      { apply: lg_ge1. rewrite -(Z2Nat.id t); last lia. rewrite com_bin; last lia. rewrite -[2]/(INR 2). apply: le_INR. lia. }
      lra.
  - apply/leFF. have : 1 <= lg (IZR (Z.of_nat k + 1)) by apply: lg_ge1; apply: IZR_le; lia.
    have -> : (Z.of_nat N - Z.of_nat k - 1)%Z = Z.of_nat (N - k - 1) by lia.
    have : lg (com (Z.of_nat (N - k - 1)) t) <= lg (com (Z.of_nat N) t).
    { apply: lg_le; last by apply: com_mono; lia. have := com_ge1 (Z.of_nat (N - k - 1)) t. lra. }
    lra.
  - rewrite /sub_SD_ISDq. case: Rlt_dec => _; first by move=> [<-]; apply/leFF; lra.
    case: Rlt_dec => _; first by move=> [<-]; apply/leFF; lra. case: Z.eqb_spec => [|N1] //.
    case: Rle_dec => [_|Hpp]; first by move=> [<-]; apply/leFF; lra. case: Z.ltb_spec => N0 [Ev]; first by case: Vn. rewrite -Ev. apply/leFF. clear Ev.
    apply Rnot_le_lt in Hpp. match goal with |- _ <= lg ?T - ?pp => have HT : 2 <= T; [clear Hpp|have := lg_ge1 HT; lra] end.
    set m := (Z.of_nat N - Z.of_nat k - _)%Z in N1 N0 *. set S := Rpower _ _. set L := com _ _ * _.
    have S0 : 0 < S by apply: exp_pos. have HL : 1 <= L.
    { rewrite -[1]Rmult_1_r. apply: Rmult_le_compat; [lra|lra|exact: com_ge1|].
      apply: IZR_le. have H0 : (0 <= Z.quot (Z.quot p 2 * 2) 2)%Z by apply: Z.quot_pos; have := @quot2 p P0; lia.
      have : (0 < (q - 1) ^ Z.quot (Z.quot p 2 * 2) 2)%Z by apply: Z.pow_pos_nonneg => //; lia. lia. }
    have HN : 1 <= IZR (Z.of_nat N) by apply: IZR_le; lia.
    have HG : 0 <= (if (m =? 0)%Z then 0 else IZR (m * Z.of_nat N) / lg (IZR m)).
    { case: Z.eqb_spec => M0; first lra. apply: Rmult_le_pos; first by apply: IZR_le; lia.
      left. apply: Rinv_0_lt_compat. have : 1 <= lg (IZR m) by apply: lg_ge1; apply: IZR_le; lia. lra. }
    move: (if (m =? 0)%Z then _ else _) HG => G HG. nra.
Qed.

(** The estimate is not monotone in the number of queries: it is at least 1 for an
    even number and 0 for the next. *)
Theorem C80_monotone_refuted : forall (N k tau : nat) (q : Z),
  Z.Even (Z.of_nat N) -> (1 < k)%N -> (1 < N - k <= 38)%N -> (2 <= q)%Z -> (0 < tau)%N ->
  (2 <= num_errors (Z.of_nat N) (Z.of_nat tau) q)%Z ->
  at_least (Z.of_nat N) (Z.of_nat k) (Z.of_nat tau) q 1 /\
  sec_lpn (Z.of_nat N + 1) (Z.of_nat k) (Z.of_nat tau) q = Fin 0.
Proof.
  move=> N k tau q HE HK HN Hq Htau Ht. split.
  - apply: one_bit => //; first by lia.
    have := @errors_half (Z.of_nat N) (Z.of_nat tau) q ltac:(lia) ltac:(lia) Hq. lia.
  - apply: C80_odd_refuted => //; try lia; first by case: HE => x ->; exists x.
    apply: Z.le_trans Ht _. apply: Z.div_le_mono; last by nia.
    apply: Z.mul_pos_pos; last lia. apply: Z.pow_pos_nonneg; lia.
Qed.
Print Assumptions C80_monotone_refuted.

Example C80_monotone_example : at_least 60 30 2 (2 ^ 18) 1 /\ sec_lpn 61 30 2 (2 ^ 18) = Fin 0.
Proof. by apply: (@C80_monotone_refuted 60 30 2 (2 ^ 18)) => //; exists 30%Z. Qed.

Lemma accepts_two (j bits : nat) : (bits <= j)%N -> (0 < j)%N -> accepts (6 * j) 2 2 bits.
Proof.
  move=> Hb Hj. rewrite /accepts.
  have H1 : (fail_ways (6 * j) 2 2 <= 3 ^ (3 * j) * 2 ^ (6 * j))%N.
  { have E : (2 ^ (6 * j) = \sum_(h < (6 * j).+1) 'C(6 * j, h))%N.
    { rewrite -[2%N]/(1 + 1)%N expnDn. apply: eq_bigr => h _. by rewrite !exp1n !muln1. }
    rewrite E big_distrr /= /fail_ways big_mkcond /=. apply: leq_sum => h _. case: ifP => // Hh.
    rewrite mulnC leq_mul2r. apply/orP; right. rewrite leq_pexp2l //.
    move: Hh. rewrite /max_weight addnK. have := divn_eq (6 * j - 2) 2. have := ltn_pmod (6 * j - 2) (isT : 0 < 2)%N.
    move: ((6 * j - 2) %/ 2) ((6 * j - 2) %% 2) => a b. lia. }
  apply: (leq_trans (n := 3 ^ (3 * j) * 2 ^ (6 * j) * 2 ^ j)).
  - apply: leq_mul => //. by rewrite leq_pexp2l.
  - have -> : (2 * (6 * j) = 6 * j + 6 * j)%N by lia. rewrite expnD -mulnA mulnCA leq_mul2l. apply/orP; right.
    rewrite [X in (_ <= X)%N]expnM expnM -expnMn. by rewrite leq_exp2r.
Qed.

(** Parameters for an error rate of a quarter, 40 bits of correctness and (only) one
    bit of security, in the field of the library. *)
Example C72_keep_bounds_example : exists N k,
  gen_lpn_params 2 40 (fun N k => at_least (Z.of_nat N) (Z.of_nat k) (Z.of_nat 2) (2 ^ 18) 1)
    (fun N k => below (Z.of_nat N) (Z.of_nat k) (Z.of_nat 2) (2 ^ 18) 1) = (N, Some k).
Proof.
  set sec := (fun N k => at_least _ _ _ _ _). set low := (fun N k => below _ _ _ _ _).
  suff : find_k 2 40 sec low (15 * 100).
  { move/C72_search_succeeds. case: gen_lpn_params => N [k|] //= _. by exists N, k. }
  rewrite /find_k. have [| |A A' _ C] := @fkcP 2 40 (15 * 100) (15 * 100) 1 (15 * 100); try lia.
  have HN : Z.of_nat (15 * 100) = 1500%Z by lia. have E6 : (15 * 100 = 6 * 250)%N by lia.
  move: (find_k_correct _ _ _ _ _ _) A A' C => k A A' C. have {A'} K2 : (k < 15 * 100)%N by apply: A'; lia.
  have K1 : (1 < k)%N.
  { rewrite ltnNge. apply/negP => Hk. have := C 2%N ltac:(lia). by rewrite E6 accepts_two. }
  suff -> : sec (15 * 100)%N k by [].
  apply: one_bit; rewrite ?K1 ?K2 // HN; first by exists 750%Z.
Qed.

(** Lemmas about the security estimate of LpnParamModel. *)

From Coq Require Import ZArith Reals List Lia Lra Psatz.
From Verif Require Import LpnParamModel.
From mathcomp Require Import all_ssreflect zify.
Set Implicit Arguments.
Unset Strict Implicit.
Unset Printing Implicit Defensive.
Local Open Scope R_scope.

Lemma range_nil a b : (b <= a)%Z -> range a b = [::].
Proof. by move=> H; rewrite /range; (have -> : Z.to_nat (b - a) = 0%N by lia). Qed.

Lemma in_range a b x : In x (range a b) <-> (a <= x < b)%Z.
Proof.
  rewrite /range in_map_iff. split.
  - case=> i [<-] /in_seq H. lia.
  - move=> H. exists (Z.to_nat (x - a)). split; [lia|]. apply/in_seq. lia.
Qed.

Lemma range_snoc a b : (a <= b)%Z -> range a (b + 1) = (range a b ++ [:: b])%list.
Proof.
  move=> H. rewrite /range. have -> : Z.to_nat (b + 1 - a) = (Z.to_nat (b - a) + 1)%coq_nat by lia.
  rewrite seq_app map_app /=. congr (_ ++ [:: _])%list. lia.
Qed.

(** ** [com] *)

Lemma com_out n m : (m < 0)%Z \/ (n < m)%Z -> com n m = 1.
Proof. by move=> H; rewrite /com range_nil //; lia. Qed.

(** The product of the loop after [r] rounds. *)
Lemma com_loop (n M r : nat) : (M <= n)%N -> (r <= M)%N ->
  fold_left (fun res j => res * IZR (Z.of_nat n - j) / IZR (Z.of_nat M - j)) (range 0 (Z.of_nat r)) 1 *
  INR (M ^_ r)%N = INR (n ^_ r)%N.
Proof.
  move=> HM. elim: r => [|r IH] Hr; first by rewrite !ffactn0 /range /=; lra.
  have -> : Z.of_nat r.+1 = (Z.of_nat r + 1)%Z by lia.
  rewrite range_snoc; last lia. rewrite fold_left_app !ffactnSr !mult_INR.
  cbn [fold_left].
  have E1 : IZR (Z.of_nat n - Z.of_nat r) = INR (n - r)%N by rewrite INR_IZR_INZ; congr IZR; lia.
  have E2 : IZR (Z.of_nat M - Z.of_nat r) = INR (M - r)%N by rewrite INR_IZR_INZ; congr IZR; lia.
  rewrite -IH; last lia. rewrite E1 E2. field. apply: not_0_INR. lia.
Qed.

Lemma com_bin (n m : nat) : (m <= n)%N -> com (Z.of_nat n) (Z.of_nat m) = INR 'C(n, m).
Proof.
  move=> H. rewrite /com.
  pose M := minn m (n - m). have -> : Z.min (Z.of_nat m) (Z.of_nat n - Z.of_nat m) = Z.of_nat M by rewrite /M; lia.
  have HM : (M <= n)%N by rewrite /M; lia.
  have := com_loop HM (leqnn M). rewrite ffactnn -bin_ffact mult_INR => E.
  have F0 : INR M`! <> 0 by apply: not_0_INR; have := fact_gt0 M; lia.
  have -> : 'C(n, m) = 'C(n, M).
  { rewrite /M. case: (leqP m (n - m)) => L; first by congr 'C(_, _); lia.
    by rewrite -bin_sub. }
  exact: Rmult_eq_reg_r E F0.
Qed.

Lemma com_ge1 n m : 1 <= com n m.
Proof.
  case: (Z_lt_le_dec m 0) => H1; first by rewrite com_out; [lra|left].
  case: (Z_lt_le_dec n m) => H2; first by rewrite com_out; [lra|right].
  rewrite -(Z2Nat.id m) // -(Z2Nat.id n); last lia. rewrite com_bin; last lia.
  have : (0 < 'C(Z.to_nat n, Z.to_nat m))%N by rewrite bin_gt0; lia.
  move=> H. rewrite -[1]/(INR 1). apply: le_INR. lia.
Qed.

Lemma ln2_gt0 : 0 < ln 2. Proof. have := ln_lt_2; lra. Qed.

Lemma lg_1 : lg 1 = 0. Proof. rewrite /lg ln_1. lra. Qed.

Lemma lg_lt x y : 0 < x -> x < y -> lg x < lg y.
Proof.
  move=> H1 H2. apply: Rmult_lt_compat_r; [exact: Rinv_0_lt_compat ln2_gt0|exact: ln_increasing].
Qed.
Lemma lg_le x y : 0 < x -> x <= y -> lg x <= lg y.
Proof. move=> H1 [H2|->]; [by left; apply: lg_lt|lra]. Qed.
Lemma lg_ge0 x : 1 <= x -> 0 <= lg x.
Proof. move=> H. rewrite -lg_1. apply: lg_le; lra. Qed.
Lemma lg_div x y : 0 < x -> 0 < y -> lg x - lg y = lg (x / y).
Proof.
  move=> Hx Hy. rewrite /lg {3}/Rdiv ln_mult //; last exact: Rinv_0_lt_compat. rewrite ln_Rinv //.
  field. have := ln2_gt0. lra.
Qed.
Lemma lg_2 : lg 2 = 1. Proof. rewrite /lg. field. have := ln2_gt0. lra. Qed.
Lemma Rpower_lg x : 0 < x -> Rpower 2 (lg x) = x.
Proof.
  move=> H. rewrite /Rpower /lg. have -> : ln x / ln 2 * ln 2 = ln x by field; have := ln2_gt0; lra.
  exact: exp_ln.
Qed.

(** ** Comparisons *)

Lemma leFF x y : le_num (Fin x) (Fin y) <-> x <= y.
Proof. rewrite /=. by case: Rle_dec. Qed.
Lemma ltFF x y : lt_num (Fin x) (Fin y) <-> x < y.
Proof. rewrite /=. by case: Rlt_dec. Qed.

Lemma le_refl x : x <> NaN -> le_num x x.
Proof. case: x => // x _. by apply/leFF; lra. Qed.
Lemma le_trans x y z : le_num x y -> le_num y z -> le_num x z.
Proof.
  case: x => [x||] //; case: y => [y||] //; case: z => [z||] //.
  move=> /leFF H1 /leFF H2. apply/leFF. lra.
Qed.
Lemma nlt_le x y : x <> NaN -> y <> NaN -> lt_num y x = false -> le_num x y.
Proof.
  case: x => [x||] // _; case: y => [y||] // _.
  move=> H. apply/leFF. case: (Rle_lt_dec x y) => // L. have : lt_num (Fin y) (Fin x) by apply/ltFF. by rewrite H.
Qed.
Lemma lt_le x y : lt_num x y -> le_num x y.
Proof. case: x => [x||] //; case: y => [y||] //. move=> /ltFF H. apply/leFF. lra. Qed.

(** ** The parts of the search *)

Lemma scan_none f ls min l : In l ls -> f l = None -> scan f ls min = None.
Proof.
  elim: ls min => [|x ls IH] min //= [->|H] E; first by rewrite E.
  case: (f x) => // T. exact: IH.
Qed.

Lemma scan_total f ls min : (forall l, In l ls -> f l <> None) -> scan f ls min <> None.
Proof.
  elim: ls min => [|x ls IH] min //= H. case E: (f x) => [T|]; last by case: (H x (or_introl erefl)).
  apply: IH => l Hl. exact: H (or_intror Hl).
Qed.

Lemma scanP f ls min v : scan f ls min = Some v ->
  [/\ v = min \/ (exists2 l, In l ls & f l = Some v),
      min <> NaN -> v <> NaN /\ le_num v min &
      min <> NaN -> forall l T, In l ls -> f l = Some T -> T <> NaN -> le_num v T].
Proof.
  elim: ls min => [|x ls IH] min /=.
  { move=> [->]. split; [by left|by move=> H; split=> //; apply: le_refl|by []]. }
  case E: (f x) => [T|] // H. have [A B C] := IH _ H. split.
  - case: A => [->|[l L1 L2]]; last by right; exists l; [right|].
    case: ifP => _; [by right; exists x; [left|]|by left].
  - move=> Hm. move: B C. case: ifP => HT B C.
    + have Tn : T <> NaN by move: HT; case: T {E H A B C}. have [B1 B2] := B Tn. split=> //. exact: le_trans HT.
    + exact: B.
  - move=> Hm l T' Hl El Tn'. move: B C. case: ifP => HT B C.
    + have Tn : T <> NaN by move: HT; case: T {E H A B C}. case: Hl => [Hx|Hl]; last exact: C Tn l T' Hl El Tn'.
      have ET : T' = T by move: El; rewrite -Hx E => -[].
      rewrite ET. by have [] := B Tn.
    + case: Hl => [Hx|Hl]; last exact: C Hm l T' Hl El Tn'.
      have ET : T' = T by move: El; rewrite -Hx E => -[]. subst T'. have [_ B2] := B Hm. apply: le_trans B2 _.
      apply: nlt_le => //. apply/negP => /lt_le. by rewrite HT.
Qed.

(** The two points of a round. *)
Lemma midsP start end' : (30 < end' - start)%Z ->
  let mid1 := (Z.quot (end' - start) 3 + start)%Z in let mid2 := (end' - Z.quot (end' - start) 3)%Z in
  (start + 10 <= mid1 /\ mid1 + 10 <= mid2 /\ mid2 + 10 <= end')%Z.
Proof.
  move=> H. have := Z.quot_rem' (end' - start) 3. have := Z.rem_bound_pos (end' - start) 3 ltac:(lia) ltac:(lia).
  cbv zeta. lia.
Qed.

Lemma ternaryP f fuel start end' min s e v : ternary f fuel start end' min = Some (s, e, v) ->
  [/\ (start <= s)%Z, (e <= end')%Z, v = min \/ (exists2 l, (start < l < end')%Z & f l = Some v) &
      (end' - start <= Z.of_nat fuel)%Z -> (e - s <= 30)%Z].
Proof.
  elim: fuel start end' min => [|fuel IH] start end' min.
  { move=> [<- <- <-]. split; [lia|lia|by left|lia]. }
  cbn [ternary]. case: Z.ltb_spec => H; last by move=> [<- <- <-]; split; [lia|lia|by left|lia].
  have := midsP H. cbv zeta. move: (Z.quot (end' - start) 3 + start)%Z (end' - Z.quot (end' - start) 3)%Z => mid1 mid2 [M1 [M2 M3]].
  case E1: (f mid1) => [T1|] //. case E2: (f mid2) => [T2|] //. case: ifP => _ /IH [A B C D].
  - split; [lia|lia| |lia]. right. case: C => [->|[l L1 L2]]; [by exists mid2; [lia|]|by exists l; [lia|]].
  - split; [lia|lia| |lia]. right. case: C => [->|[l L1 L2]]; [by exists mid1; [lia|]|by exists l; [lia|]].
Qed.

Lemma ternary_total f fuel start end' min : (forall l, (start < l < end')%Z -> f l <> None) ->
  ternary f fuel start end' min <> None.
Proof.
  elim: fuel start end' min => [|fuel IH] start end' min Hf //.
  cbn [ternary]. case: Z.ltb_spec => H //.
  have := midsP H. cbv zeta. move: (Z.quot (end' - start) 3 + start)%Z (end' - Z.quot (end' - start) 3)%Z => mid1 mid2 [M1 [M2 M3]].
  case E1: (f mid1) => [T1|]; last by case: (Hf mid1); [lia|].
  case E2: (f mid2) => [T2|]; last by case: (Hf mid2); [lia|].
  case: ifP => _; apply: IH => l Hl; apply: Hf; lia.
Qed.

Lemma min_searchP f end' v : min_search f end' = Some v -> exists2 l, (0 <= l)%Z & f l = Some v.
Proof.
  rewrite /min_search. case E1: (f 1%Z) => [T|] //. case Et: ternary => [[[s e] m]|] //.
  have [A B C _] := ternaryP Et. case/scanP => D _ _. case: D => [->|[l L1 L2]].
  - case: C => [->|[l L1 L2]]; [by exists 1%Z; [lia|]|by exists l; [lia|]].
  - exists l => //. move/in_range: L1. case: Z.ltb_spec; lia.
Qed.

Lemma min_search_total f end' : (forall l, (0 <= l)%Z -> f l <> None) -> min_search f end' <> None.
Proof.
  move=> Hf. rewrite /min_search. case E1: (f 1%Z) => [T|]; last by case: (Hf 1%Z); [lia|].
  case Et: ternary => [[[s e] m]|]; last by case: (@ternary_total f (Z.to_nat end') 1 end' T _ Et) => l Hl; apply: Hf; lia.
  apply: scan_total => l /in_range Hl. apply: Hf. have [A _ _ _] := ternaryP Et. move: Hl. case: Z.ltb_spec; lia.
Qed.

Lemma over_pP g ps w v : over_p g ps w = Some v ->
  [/\ v = w \/ (exists2 p, In p ps & g p = Some v) & w <> NaN -> v <> NaN /\ le_num v w].
Proof.
  elim: ps w => [|p ps IH] w /=; first by move=> [->]; split; [left|move=> H; split=> //; apply: le_refl].
  case E: (g p) => [m|] //. case Hm: (le_num m w).
  - have Mn : m <> NaN by move=> Em; move: Hm; rewrite Em; case: (w).
    case: ifP => _.
    + move=> [<-]. split; [by right; exists p; [left|]|by move=> _; split].
    + move=> /IH [A B]. have [B1 B2] := B Mn. split; last by move=> _; split=> //; exact: le_trans Hm.
      case: A => [->|[p' P1 P2]]; right; [by exists p; [left|]|by exists p'; [right|]].
  - case: ifP => _; first by move=> [<-]; split; [left|move=> H; split=> //; apply: le_refl].
    move=> /IH [A B]. split=> //. case: A => [->|[p' P1 P2]]; [by left|by right; exists p'; [right|]].
Qed.

Lemma over_p_total g ps w : (forall p, In p ps -> g p <> None) -> over_p g ps w <> None.
Proof.
  elim: ps w => [|p ps IH] w //= H. case E: (g p) => [m|]; last by case: (H p (or_introl erefl)).
  case: (lt_num _ m) => //. apply: IH => p' Hp'. exact: H (or_intror Hp').
Qed.

(** ** The cost of one attack *)

Lemma quot2 x : (0 <= x)%Z -> (Z.quot x 2 * 2 <= x < Z.quot x 2 * 2 + 2)%Z.
Proof. move=> H. have := Z.quot_rem' x 2. have := Z.rem_bound_pos x 2 ltac:(lia) ltac:(lia). lia. Qed.

(** Exceptions need [N - k - l = 1]. *)
Lemma sub_none N k t q l p : sub_SD_ISDq N k t q l p = None -> (N = Z.quot (k + l) 2 * 2 + 3)%Z.
Proof.
  rewrite /sub_SD_ISDq. case: Rlt_dec => // _. case: Rlt_dec => // _. case: Z.eqb_spec => [H _|_]; first lia.
  case: Rle_dec => // _. by case: Z.ltb_spec.
Qed.

Lemma sub_nan N k t q l p : sub_SD_ISDq N k t q l p = Some NaN -> (N < Z.quot (k + l) 2 * 2 + 2)%Z.
Proof.
  rewrite /sub_SD_ISDq. case: Rlt_dec => // _. case: Rlt_dec => // _. case: Z.eqb_spec => // _.
  case: Rle_dec => // _. case: Z.ltb_spec => // H _. lia.
Qed.

Lemma sub_ninf N k t q l p : sub_SD_ISDq N k t q l p <> Some NInf.
Proof.
  rewrite /sub_SD_ISDq. case: Rlt_dec => // _. case: Rlt_dec => // _. case: Z.eqb_spec => // _.
  case: Rle_dec => // _. by case: Z.ltb_spec.
Qed.

(** With no errors in the first parts ([p] is 0 or 1). *)
Lemma sub_p0_none N k t q l p : (2 <= q)%Z -> (0 <= p < 2)%Z -> (0 <= k + l)%Z -> (k <= Z.quot (k + l) 2 * 2 + 2)%Z ->
  N = (Z.quot (k + l) 2 * 2 + 3)%Z -> sub_SD_ISDq N k t q l p = None.
Proof.
  move=> Hq Hp Hkl Hl HN. have Ep : Z.quot p 2 = 0%Z by have := quot2 (proj1 Hp); lia.
  rewrite /sub_SD_ISDq Ep. change (Z.quot (0 * 2) 2) with 0%Z.
  set h := Z.quot (k + (Z.quot (k + l) 2 * 2 - k + 2)) 2.
  have Ec : com h 0 = 1.
  { rewrite /com range_nil //. lia. }
  rewrite Ec lg_1 Rmult_0_l Rplus_0_r Rmult_0_r Rminus_0_l.
  have Q : 0 <= lg (IZR q) by apply: lg_ge0; apply: IZR_le; lia.
  have Hl' : 0 <= IZR (Z.quot (k + l) 2 * 2 - k + 2) by apply: IZR_le; lia.
  have := Rmult_le_pos _ _ Hl' Q => M.
  case: Rlt_dec => [|_]; first lra. case: Rlt_dec => [|_]; first lra.
  case: Z.eqb_spec => // H. case: H. lia.
Qed.

(** ** The estimate *)

Lemma Guass_num N k t : Guass N k t <> NaN.
Proof. rewrite /Guass. by case: (_ =? 0)%Z. Qed.

Lemma SD_parts N k t q v : SD_ISD_q N k t q = Some v ->
  [/\ v = Guass N k t \/ (exists l p, (0 <= l)%Z /\ (0 <= p)%Z /\ sub_SD_ISDq N k t q l p = Some v),
      v <> NaN -> le_num v (Guass N k t) & sub_SD_ISDq N k t q 0 0 <> Some NaN -> v <> NaN].
Proof.
  rewrite /SD_ISD_q. case E0: (sub_SD_ISDq N k t q 0 0) => [w|] //. case Eo: over_p => [w'|] // [<-].
  have [A B] := over_pP Eo. split.
  - case: ifP => _; [by left|]. right. case: A => [->|[p /in_range Hp Ep]]; first by exists 0%Z, 0%Z; split; [lia|split; [lia|]].
    have [l L1 L2] := min_searchP Ep. by exists l, p; split; [|split; [lia|]].
  - case: ifP => H Hn; first exact: le_refl. apply: nlt_le => //. exact: Guass_num.
  - move=> Hw. case: ifP => _; first exact: Guass_num. have Wn : w <> NaN by move=> E; apply: Hw; rewrite E.
    by case: (B Wn).
Qed.

Lemma analysis_parts N k t q v : analysisforq N k t q = Some v ->
  [/\ v = Guass N k t \/ v = Ourparitycheckforq N k t \/
        (exists l p, (0 <= l)%Z /\ (0 <= p)%Z /\ sub_SD_ISDq N k t q l p = Some v),
      v <> NaN -> le_num v (Guass N k t) /\ le_num v (Ourparitycheckforq N k t) &
      sub_SD_ISDq N k t q 0 0 <> Some NaN -> v <> NaN].
Proof.
  rewrite /analysisforq. case Es: (SD_ISD_q N k t q) => [w|] // [<-]. have [A B C] := SD_parts Es.
  have Pn : Ourparitycheckforq N k t <> NaN by [].
  split.
  - case: ifP => _; [by right; left|]. case: A => [->|A]; [by left|by right; right].
  - case: ifP => H Hn; last by split; [exact: B|exact: nlt_le].
    split; [|exact: le_refl]. have Wn : w <> NaN by move: H; case: (w).
    exact: (le_trans (@lt_le (Ourparitycheckforq N k t) w H) (B Wn)).
  - move=> Hw. case: ifP => _; [by []|exact: C].
Qed.

(** GF(2^w), 1 <= w <= 29, as a mathcomp (finite) field, and the bridge between
    its operations and the table-based operations of GaloisModel. *)

From Coq Require Import NArith ZArith Lia.
From mathcomp Require Import all_ssreflect all_algebra.
From Verif Require Import GaloisModel GF2Poly GaloisOrder GaloisProofs GaloisSpec GaloisHist.
Set Implicit Arguments.
Unset Strict Implicit.
Unset Printing Implicit Defensive.
Import GRing.Theory.

Definition N_choiceMixin := CanChoiceMixin N2Nat.id.
Canonical N_choiceType := Eval hnf in ChoiceType N N_choiceMixin.

(** Widths the field supports (galois/mod.rs:12: "W is expected to be less than 30"). *)
Record width := Width { wv :> N; wok : (N.leb 1 wv && N.leb wv 29)%bool }.

Lemma width_bounds (w : width) : (1 <= wv w <= 29)%num.
Proof. by case: w => v /= /andP [/N.leb_le H1 /N.leb_le H2]. Qed.

Lemma width_ge1 (w : width) : (1 <= wv w)%num.
Proof. by case: (@width_bounds w). Qed.

(** An in-range value of [GF<W>] (galois/mod.rs:14, a [u32] newtype).  The
    representation invariant [< 2^W] is built into the type here; what the code
    does with other values is in GaloisModel. *)
Record gf (w : width) := GFE { gval :> N; gvalP : N.ltb gval (2 ^ wv w) }.

Section GFInst.
Variable w : width.
Notation W := (wv w).
Notation gm := (gmul W (prim_poly W)).

Canonical gf_subType := Eval hnf in [subType for @gval w].
Definition gf_eqMixin := Eval hnf in [eqMixin of gf w by <:].
Canonical gf_eqType := Eval hnf in EqType (gf w) gf_eqMixin.
Definition gf_choiceMixin := Eval hnf in [choiceMixin of gf w by <:].
Canonical gf_choiceType := Eval hnf in ChoiceType (gf w) gf_choiceMixin.

Lemma gf_lt (a : gf w) : (gval a < 2 ^ W)%num.
Proof. by case: a => v /= /N.ltb_lt. Qed.

Lemma gf_inj (a b : gf w) : gval a = gval b -> a = b.
Proof. exact: val_inj. Qed.

Lemma zeroP : N.ltb 0 (2 ^ W). Proof. apply/N.ltb_lt. exact: pow2_pos. Qed.
Lemma oneP : N.ltb 1 (2 ^ W). Proof. apply/N.ltb_lt. apply: one_lt. exact: width_ge1. Qed.
Lemma addP (a b : gf w) : N.ltb (N.lxor a b) (2 ^ W).
Proof. apply/N.ltb_lt. apply: lxor_lt; exact: gf_lt. Qed.
Lemma mulP (a b : gf w) : N.ltb (gm a b) (2 ^ W).
Proof. apply/N.ltb_lt. apply: gmul_lt. exact: gf_lt. Qed.

Definition gf0 : gf w := GFE zeroP.
Definition gf1 : gf w := GFE oneP.
Definition gfadd (a b : gf w) : gf w := GFE (addP a b).
Definition gfmul (a b : gf w) : gf w := GFE (mulP a b).

Lemma gfaddA : associative gfadd.
Proof. move=> a b c. apply: gf_inj => /=. by rewrite N.lxor_assoc. Qed.
Lemma gfaddC : commutative gfadd.
Proof. move=> a b. apply: gf_inj => /=. exact: N.lxor_comm. Qed.
Lemma gfadd0 : left_id gf0 gfadd.
Proof. move=> a. exact: gf_inj. Qed.
Lemma gfaddN : left_inverse gf0 id gfadd.
Proof. move=> a. apply: gf_inj => /=. exact: N.lxor_nilpotent. Qed.

Definition gf_zmodMixin := ZmodMixin gfaddA gfaddC gfadd0 gfaddN.
Canonical gf_zmodType := Eval hnf in ZmodType (gf w) gf_zmodMixin.

Lemma gfmulA : associative gfmul.
Proof. move=> a b c. apply: gf_inj => /=. apply: gmul_assoc; try exact: gf_lt. exact: width_ge1. Qed.
Lemma gfmulC : commutative gfmul.
Proof. move=> a b. apply: gf_inj => /=. apply: gmul_comm; try exact: gf_lt. exact: width_ge1. Qed.
Lemma gfmul1 : left_id gf1 gfmul.
Proof. move=> a. apply: gf_inj => /=. apply: gmul_1_l. exact: width_ge1. Qed.
Lemma gfmulD : left_distributive gfmul gfadd.
Proof. move=> a b c. apply: gf_inj => /=. exact: gmul_lxor_l. Qed.
Lemma gf1_neq0 : gf1 != gf0.
Proof. by []. Qed.

Definition gf_ringMixin := ComRingMixin gfmulA gfmulC gfmul1 gfmulD gf1_neq0.
Canonical gf_ringType := Eval hnf in RingType (gf w) gf_ringMixin.
Canonical gf_comRingType := Eval hnf in ComRingType (gf w) gfmulC.

(** Inverse as a^(2^w - 2), by square and multiply. *)
Fixpoint gfpow (a : gf w) (e : positive) : gf w :=
  match e with
  | xH => a
  | xO e' => let b := gfpow a e' in gfmul b b
  | xI e' => let b := gfpow a e' in gfmul a (gfmul b b)
  end.

Lemma gfpowE a e : gfpow a e = (a ^+ Pos.to_nat e)%R.
Proof.
  elim: e => [e IH|e IH|] /=.
  - by rewrite IH Pos2Nat.inj_xI multE exprS mulnC exprM expr2.
  - by rewrite IH Pos2Nat.inj_xO multE mulnC exprM expr2.
  - by rewrite expr1.
Qed.

Definition gfinv (a : gf w) : gf w :=
  match (2 ^ W - 2)%num with N0 => a | Npos e => gfpow a e end.

Lemma gf_pow_order (a : gf w) : a != gf0 -> (a ^+ N.to_nat (2 ^ W - 1))%R = gf1.
Proof.
  move=> Ha. have [b1 b2] := width_bounds w.
  have Hw30 : (1 <= W <= 30)%num by lia.
  have [E [_ [_ [_ S]]]] := order_facts W Hw30.
  have Ha0 : (0 < gval a)%num.
  { case: (N.eq_dec (gval a) 0) => [H0|]; last lia.
    exfalso. move/negP: Ha; apply. apply/eqP. exact: gf_inj. }
  have [i [Hi Ei]] := S (gval a) Ha0 (gf_lt a).
  have XP : forall k (x : gf w), gval x = xpow W (prim_poly W) i 1 ->
              gval (x ^+ k)%R = xpow W (prim_poly W) (k * i) 1.
  { elim=> [|k IH] x Ex; first by [].
    rewrite exprS mulSn. rewrite (@X_add W (prim_poly W) (@width_ge1 w)) -Ex.
    by rewrite -(IH x Ex). }
  apply: gf_inj. rewrite (XP _ a (esym Ei)) mulnC.
  move: E. set M := N.to_nat _ => E.
  have R : forall k, xpow W (prim_poly W) (k * M) 1 = 1%num.
  { elim=> [|k IH]; first by [].
    rewrite mulSn (@X_add W (prim_poly W) (@width_ge1 w)) E IH.
    rewrite gmul_1_l; first by []. exact: width_ge1. }
  exact: R.
Qed.

Lemma gfmulV (a : gf w) : a != gf0 -> gfmul (gfinv a) a = gf1.
Proof.
  move=> Ha. rewrite -(gf_pow_order Ha) /gfinv.
  have P : (2 <= 2 ^ W)%num.
  { have := one_lt W (@width_ge1 w). lia. }
  case E : (2 ^ W - 2)%num => [|e].
  - have E2 : (2 ^ W = 2)%num by lia.
    have Hv : gval a = 1%num.
    { have L := gf_lt a. rewrite E2 in L.
      case: (N.eq_dec (gval a) 0) => [H0|]; last lia.
      exfalso. move/negP: Ha; apply. apply/eqP. exact: gf_inj. }
    have -> : a = gf1 by apply: gf_inj.
    rewrite expr1n. exact: gfmul1.
  - rewrite gfpowE. have -> : N.to_nat (2 ^ W - 1) = (Pos.to_nat e).+1 by lia.
    by rewrite exprSr.
Qed.

Lemma gfinv0 : gfinv gf0 = gf0.
Proof.
  rewrite /gfinv. case: (2 ^ W - 2)%num => [//|e]. rewrite gfpowE.
  have [k ->] : exists k, Pos.to_nat e = k.+1 by exists (Pos.to_nat e).-1; lia.
  by rewrite exprS mul0r.
Qed.

Definition gf_unitRingMixin := FieldUnitMixin gfmulV gfinv0.
Canonical gf_unitRingType := Eval hnf in UnitRingType (gf w) gf_unitRingMixin.
Canonical gf_comUnitRingType := Eval hnf in [comUnitRingType of gf w].
Lemma gf_fieldMixin : GRing.Field.mixin_of gf_unitRingType.
Proof. move=> x H. exact: H. Qed.
Canonical gf_idomainType := Eval hnf in IdomainType (gf w) (FieldIdomainMixin gf_fieldMixin).
Canonical gf_fieldType := Eval hnf in FieldType (gf w) gf_fieldMixin.

(** Finiteness. *)
Lemma gf_ordP (a : gf w) : (N.to_nat (gval a) < N.to_nat (2 ^ W)%num)%nat.
Proof.
  have := gf_lt a. move=> H. apply/ltP. lia.
Qed.
Definition gf_toord (a : gf w) : 'I_(N.to_nat (2 ^ W)%num) := Ordinal (gf_ordP a).
Definition gf_ofnat (i : nat) : option (gf w) := insub (N.of_nat i).
Lemma gf_toordK : pcancel gf_toord (fun i => gf_ofnat i).
Proof. move=> a. rewrite /gf_ofnat /= N2Nat.id. exact: valK. Qed.
Definition gf_countMixin := PcanCountMixin gf_toordK.
Canonical gf_countType := Eval hnf in CountType (gf w) gf_countMixin.
Definition gf_finMixin := PcanFinMixin gf_toordK.
Canonical gf_finType := Eval hnf in FinType (gf w) gf_finMixin.
Canonical gf_finZmodType := Eval hnf in [finZmodType of gf w].
Canonical gf_finRingType := Eval hnf in [finRingType of gf w].
Canonical gf_finFieldType := Eval hnf in [finFieldType of gf w].

(** The element [GF::from(i)] for an in-range [i] (galois/mod.rs:60-70);
    out-of-range integers, on which the code reads outside its tables, are
    mapped to an arbitrary element and excluded by hypotheses wherever this is
    used. *)
Lemma modP v : N.ltb (v mod 2 ^ W)%num (2 ^ W).
Proof. apply/N.ltb_lt. exact: mod_pow2_lt. Qed.
Definition gf_of (i : nat) : gf w := GFE (modP (N.of_nat i)).

Lemma gf_ofE i : (i < N.to_nat (2 ^ W)%num)%nat -> gval (gf_of i) = N.of_nat i.
Proof.
  move=> Hi. rewrite /gf_of /=. apply: N.mod_small. move/ltP: Hi. lia.
Qed.

Lemma gf_of_inj i j : (i < N.to_nat (2 ^ W)%num)%nat -> (j < N.to_nat (2 ^ W)%num)%nat ->
  gf_of i = gf_of j -> i = j.
Proof.
  move=> Hi Hj E. rewrite -(Nat2N.id i) -(Nat2N.id j). by rewrite -!gf_ofE // E.
Qed.

(** Bridge: on an initialised library the code's operations are the field's. *)
Section Bridge.
Variable g : gstate.
Hypothesis HI : initialised W g.

Lemma bridge_add (a b : gf w) : gf_add (gval a) (gval b) = gval (a + b)%R.
Proof. by []. Qed.

Lemma bridge_sub (a b : gf w) : gf_sub (gval a) (gval b) = gval (a - b)%R.
Proof. by []. Qed.

Lemma bridge_mul (a b : gf w) : gf_mul g W (gval a) (gval b) = Done (gval (a * b)%R).
Proof.
  have [lg [il [E T]]] := initialised_tables W g (@width_bounds w) HI.
  exact: (mul_ok W (@width_bounds w) lg il T g E _ _ (gf_lt a) (gf_lt b)).
Qed.

Lemma bridge_div (a b : gf w) : b != 0%R -> gf_div g W (gval a) (gval b) = Done (gval (a / b)%R).
Proof.
  move=> Hb. have [lg [il [E T]]] := initialised_tables W g (@width_bounds w) HI.
  have Hb0 : gval b <> 0%num.
  { move=> H0. move/negP: Hb; apply. apply/eqP. exact: gf_inj. }
  have [q [Eq [Lq Mq]]] := div_ok W (@width_bounds w) lg il T g E _ _ (gf_lt a) (gf_lt b) Hb0.
  move/N.ltb_lt: Lq => Lq. rewrite Eq. congr Done.
  have Q : (GFE Lq * b)%R = a by apply: gf_inj.
  by rewrite -Q mulfK.
Qed.

Lemma bridge_from i : (i < N.to_nat (2 ^ W)%num)%nat -> gf_from g W (N.of_nat i) = Done (gval (gf_of i)).
Proof.
  move=> Hi. rewrite gf_ofE // /gf_from /gf_order.
  case: N.leb_spec => // H. exfalso. move/ltP: Hi. lia.
Qed.
End Bridge.
End GFInst.

(** Property theorems C78: the floating point division of the estimate scripts. *)

From Coq Require Import Reals ZArith Lia Lra.
From Flocq Require Import Core Relative.
From mathcomp Require Import zify.
From Verif Require EstModel P_Estimate.
Local Open Scope R_scope.

(** communication_estimates.py:57, 66, 75, 87, 100, 109, 200, 271 and
    computation_estimates.py:95, 107, 119, 133, 151, 161, 271, 355: [a / b] of two Python integers is the
    quotient rounded to binary64 (53 bits, least exponent -1074, ties to even).
    Overflow to infinity, from 2^1024 on, is not modelled. *)
Definition fdiv (a b : Z) : R := round radix2 (FLT_exp (-1074) 53) ZnearestE (IZR a / IZR b).

(** [int(math.ceil(a / b))]. *)
Definition py_ceil (a b : Z) : Z := Zceil (fdiv a b).

Lemma float_ceil : forall a b, (0 <= a < 2 ^ 53)%Z -> (0 < b <= 2 ^ 53)%Z ->
  py_ceil a b = ((a + b - 1) / b)%Z.
Proof.
intros a b Ha Hb. unfold py_ceil, fdiv.
destruct (Z.eq_dec a 0) as [->|Na].
{ unfold Rdiv. rewrite Rmult_0_l, round_0 by apply valid_rnd_N. rewrite Zceil_IZR.
  rewrite Z.div_small; lia. }
set (q := ((a + b - 1) / b)%Z).
assert (Q1 : (q * b < a + b)%Z) by (unfold q; pose proof (Z.mul_div_le (a + b - 1) b); lia).
assert (Q2 : (a <= q * b)%Z) by (unfold q; pose proof (Z.mul_succ_div_gt (a + b - 1) b); lia).
set (x := IZR a / IZR b).
assert (B0 : 0 < IZR b) by (apply IZR_lt; lia).
assert (A0 : 1 <= IZR a) by (apply IZR_le; lia).
assert (XB : x * IZR b = IZR a) by (unfold x; field; lra).
assert (P53 : bpow radix2 53 = IZR (2 ^ 53)) by reflexivity.
assert (X0 : bpow radix2 (-53) <= x).
{ apply Rmult_le_reg_r with (IZR b); [lra|]. rewrite XB. apply Rle_trans with (2 := A0).
  replace 1 with (bpow radix2 (-53) * bpow radix2 53) by (rewrite <- bpow_plus; reflexivity).
  apply Rmult_le_compat_l; [apply bpow_ge_0|]. rewrite P53. apply IZR_le. lia. }
pose proof (bpow_gt_0 radix2 (-53)) as E0.
pose proof (relative_error_N_FLT radix2 (-1074) 53 eq_refl (fun t => negb (Z.even t)) x) as RE.
fold ZnearestE in RE. rewrite (Rabs_pos_eq x) in RE by lra.
assert (RE' : Rabs (round radix2 (FLT_exp (-1074) 53) ZnearestE x - x) <= bpow radix2 (-53) * x).
{ replace (bpow radix2 (-53)) with (/ 2 * bpow radix2 (- (53) + 1)).
  - apply RE. apply Rle_trans with (2 := X0). apply bpow_le. lia.
  - change (/ 2) with (bpow radix2 (-1)). rewrite <- bpow_plus. reflexivity. }
apply Rabs_le_inv in RE'. apply Zceil_imp. split.
- rewrite minus_IZR. apply Rlt_le_trans with (x - bpow radix2 (-53) * x); [|lra].
  apply Rmult_lt_reg_r with (IZR b); [lra|].
  replace ((x - bpow radix2 (-53) * x) * IZR b) with (IZR a - bpow radix2 (-53) * IZR a) by (rewrite <- XB; ring).
  assert (H1 : bpow radix2 (-53) * IZR a < 1).
  { replace 1 with (bpow radix2 (-53) * bpow radix2 53) by (rewrite <- bpow_plus; reflexivity).
    apply Rmult_lt_compat_l; [exact E0|]. rewrite P53. apply IZR_lt. lia. }
  assert (H2 : (IZR q - 1) * IZR b <= IZR a - 1).
  { rewrite <- (minus_IZR a 1), <- (minus_IZR q 1), <- mult_IZR. apply IZR_le. lia. }
  lra.
- rewrite <- (round_generic radix2 (FLT_exp (-1074) 53) ZnearestE (IZR q)).
  + apply round_le; [apply FLT_exp_valid; reflexivity|apply valid_rnd_N|].
    apply Rmult_le_reg_r with (IZR b); [lra|]. rewrite XB, <- mult_IZR. apply IZR_le. lia.
  + apply generic_format_FLT. exists (Float radix2 q 0); [unfold F2R; simpl; ring| |simpl; lia].
    simpl. rewrite Z.abs_eq; nia.
Qed.

Lemma EstModel_ceil a b : (0 < b)%nat -> (a <= EstModel.ceil a b * b /\ EstModel.ceil a b * b < a + b)%nat.
Proof.
intro Hb. assert (Hb' : ssrnat.leq 1 b = true) by lia.
rewrite (P_Estimate.ceilE a Hb'). pose proof (P_Estimate.ceil_bounds a Hb') as H. lia.
Qed.

(** Below 2^53 the scripts round up exactly; this is the [ceil] of the model. *)
Theorem C78_float_ceil : forall a b : nat, (Z.of_nat a < 2 ^ 53)%Z -> (0 < Z.of_nat b <= 2 ^ 53)%Z ->
  py_ceil (Z.of_nat a) (Z.of_nat b) = Z.of_nat (EstModel.ceil a b).
Proof.
intros a b Ha Hb. rewrite float_ceil by lia.
pose proof (EstModel_ceil a b) as H.
apply eq_sym, Z.div_unique with (r := (Z.of_nat a + Z.of_nat b - 1 - Z.of_nat b * Z.of_nat (EstModel.ceil a b))%Z); lia.
Qed.
Print Assumptions C78_float_ceil.

(** The bound is sharp: 2^53 + 1 is rounded to 2^53. *)
Theorem C78_float_ceil_sharp : py_ceil (2 ^ 53 + 1) 1 = (2 ^ 53)%Z.
Proof.
unfold py_ceil, fdiv. set (x := IZR (2 ^ 53 + 1) / IZR 1).
assert (Ex : x = IZR (2 ^ 53 + 1)) by (unfold x; field).
assert (Em : mag radix2 x = 54%Z :> Z).
{ apply mag_unique. rewrite Ex, Rabs_pos_eq by (apply IZR_le; lia). split.
  - change (bpow radix2 (54 - 1)) with (IZR (2 ^ 53)). apply IZR_le. lia.
  - change (bpow radix2 54) with (IZR (2 ^ 54)). apply IZR_lt. lia. }
assert (Er : round radix2 (FLT_exp (-1074) 53) ZnearestE x = IZR (2 ^ 53)).
{ unfold round, scaled_mantissa, cexp. rewrite Em. unfold FLT_exp. change (Z.max (54 - 53) (-1074)) with 1%Z.
  assert (Es : x * bpow radix2 (- (1)) = IZR (2 ^ 52) + / 2).
  { rewrite Ex. change (bpow radix2 (- (1))) with (/ 2). change (2 ^ 53 + 1)%Z with (2 ^ 52 * 2 + 1)%Z.
    rewrite plus_IZR, mult_IZR. field. }
  rewrite Es. assert (Ef : Zfloor (IZR (2 ^ 52) + / 2) = (2 ^ 52)%Z).
  { apply Zfloor_imp. rewrite plus_IZR. lra. }
  unfold Znearest. rewrite Ef. rewrite Rcompare_Eq by lra. simpl Z.even. cbn [negb].
  unfold F2R. simpl Fnum. simpl Fexp. rewrite <- (IZR_Zpower radix2 1) by lia. rewrite <- mult_IZR. reflexivity. }
rewrite Er. apply Zceil_IZR.
Qed.
Print Assumptions C78_float_ceil_sharp.

Example C78_example : (Z.of_nat 281 < 2 ^ 53)%Z /\ (0 < Z.of_nat 33 <= 2 ^ 53)%Z /\ EstModel.ceil 281 33 = 9%nat.
Proof. repeat split; reflexivity || lia. Qed.

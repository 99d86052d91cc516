(** Model of scripts/gen_lpn_params.py, which looks for the parameters of the LPN
    encryption.  Probabilities are exact: the script computes [1 - binom.cdf] in
    floating point.  The estimate of the security ([sec_lpn], lines 12-17, and
    the formulas in lpn_param.py behind it) is in LpnParamModel; here [secure N k]
    stands for [sec_lpn(N, k, tau, q) >= sec] and [low N k] for
    [sec_lpn(N, k, tau, q) < sec] (both are false of a NaN). *)

From mathcomp Require Import all_ssreflect.
Set Implicit Arguments.
Unset Strict Implicit.
Unset Printing Implicit Defensive.

(** Lines 7-8: [d = N - k + 1; max_weight = (d - 1) // 2]. *)
Definition max_weight (N k : nat) : nat := (N - k + 1 - 1) %/ 2.

(** Line 9: [1 - binom.cdf(max_weight, N, 1 / 2**tau)] times [2^(tau N)]. *)
Definition fail_ways (N k tau : nat) : nat :=
  \sum_(h < N.+1 | max_weight N k < h) 'C(N, h) * (2 ^ tau - 1) ^ (N - h).

(** [correctness_error(N, k, tau) <= 2^-bits] (line 32, and line 96 for the
    bound). *)
Definition accepts (N k tau bits : nat) : bool := fail_ways N k tau * 2 ^ bits <= 2 ^ (tau * N).

Section Search.
Variables (tau bits : nat) (secure low : nat -> nat -> bool).

(** Lines 20-35: the recursion, at most [fuel] deep. *)
Fixpoint find_k_correct (fuel N kb ke : nat) : nat :=
  if fuel is f.+1 then
    if ke <= kb + 1 then kb
    else let km := (kb + ke) %/ 2 in
      if accepts N km tau bits then find_k_correct f N km ke else find_k_correct f N kb km
  else kb.

(** Lines 38-53. *)
Fixpoint find_k_sec (fuel N kb ke : nat) : nat :=
  if fuel is f.+1 then
    if ke <= kb then kb
    else let km := (kb + ke) %/ 2 in
      if low N km then find_k_sec f N (km + 1) ke else find_k_sec f N kb km
  else kb.

(** Lines 56-64; [None] is the result -1.  The test in lines 58-59 never
    succeeds. *)
Definition find_k (N : nat) : option nat :=
  let k_max := find_k_correct N N 1 N in
  if secure N k_max then Some (find_k_sec N N 1 k_max) else None.

(** Lines 67-82. *)
Fixpoint find_lpn_params (fuel low high : nat) : nat * option nat :=
  if fuel is f.+1 then
    if high <= low then (low, find_k low)
    else let N := (low + high) %/ 2 in
      if find_k N is Some _ then find_lpn_params f low N else find_lpn_params f (N + 1) high
  else (low, find_k low).
Definition gen_lpn_params : nat * option nat := find_lpn_params (15 * 100) 1 (15 * 100).

End Search.

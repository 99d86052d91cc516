(** Property theorems C72: the search for LPN parameters. *)

From mathcomp Require Import all_ssreflect zify.
From Verif Require Import LpnScriptModel.
Set Implicit Arguments.
Unset Strict Implicit.
Unset Printing Implicit Defensive.

(** Fewer symbols of plaintext leave a larger distance. *)
Lemma accepts_less N k k' tau bits : k <= k' -> accepts N k' tau bits -> accepts N k tau bits.
Proof.
  move=> Hk. apply: leq_trans. rewrite leq_mul2r. apply/orP; right. rewrite /fail_ways.
  have Hw : max_weight N k' <= max_weight N k by apply: leq_div2r; lia.
  rewrite big_mkcond [X in _ <= X]big_mkcond /=. apply: leq_sum => h _.
  case: (ltnP (max_weight N k) h) => // Hh. by rewrite (leq_ltn_trans Hw Hh).
Qed.

Section Search.
Variables (tau bits : nat) (secure low : nat -> nat -> bool).
Notation fkc := (find_k_correct tau bits).
Notation fks := (find_k_sec low).
Notation fk := (find_k tau bits secure low).

Lemma fkcP fuel N kb ke : kb <= ke -> ke - kb <= fuel ->
  let k := fkc fuel N kb ke in
  [/\ kb <= k <= ke, kb < ke -> k < ke, (k == kb) || accepts N k tau bits &
      forall k', k < k' < ke -> accepts N k' tau bits = false].
Proof.
  elim: fuel kb ke => [|f IH] kb ke H1 H2 /=; first by rewrite eqxx; split=> // [|k' Hk']; lia.
  case: ifP => H3; first by rewrite eqxx; split=> // [|k' Hk']; lia.
  have [L1 L2] : kb < (kb + ke) %/ 2 /\ (kb + ke) %/ 2 < ke.
  { have := divn_eq (kb + ke) 2. have : (kb + ke) %% 2 < 2 by apply: ltn_pmod. lia. }
  move: ((kb + ke) %/ 2) L1 L2 => km L1 L2. case Ha: (accepts N km tau bits).
  - have [|| A A' B C] := IH km ke; try lia. split; [lia|by move=> _; apply: A'| |exact: C].
    case/orP: B => [/eqP ->|->]; [by rewrite Ha orbT|by rewrite orbT].
  - have [|| A A' B C] := IH kb km; try lia. split; [lia|lia|exact: B|].
    move=> k' /andP [K1 K2]. case: (ltnP k' km) => K3; first by apply: C; rewrite K1 K3.
    apply/negbTE/negP => /(accepts_less K3). by rewrite Ha.
Qed.

(** Whenever the two comparisons are each other's negation below [ke]. *)
Lemma fksP fuel N kb ke : (forall k, kb <= k < ke -> low N k = ~~ secure N k) ->
  kb <= ke -> ke - kb <= fuel -> secure N ke ->
  let k := fks fuel N kb ke in kb <= k <= ke /\ secure N k.
Proof.
  elim: fuel kb ke => [|f IH] kb ke HL H1 H2 Hs /=; first by (have -> : kb = ke by lia); rewrite leqnn; split.
  case: ifP => H3; first by (have -> : kb = ke by lia); rewrite leqnn; split.
  have [L1 L2] : kb <= (kb + ke) %/ 2 /\ (kb + ke) %/ 2 < ke.
  { have := divn_eq (kb + ke) 2. have : (kb + ke) %% 2 < 2 by apply: ltn_pmod. lia. }
  move: ((kb + ke) %/ 2) L1 L2 => km L1 L2. rewrite HL ?L1 ?L2 //. case Ha: (secure N km) => /=.
  - have [A B] := IH kb km ltac:(move=> k Hk; apply: HL; lia) L1 ltac:(lia) Ha. split; [lia|exact: B].
  - have [A B] := IH (km + 1) ke ltac:(move=> k Hk; apply: HL; lia) ltac:(lia) ltac:(lia) Hs. split; [lia|exact: B].
Qed.

Lemma flpP fuel lo high : lo <= high -> high - lo <= fuel ->
  let r := find_lpn_params tau bits secure low fuel lo high in
  [/\ lo <= r.1 <= high, r.2 = fk r.1 &
      (forall N, fk N -> fk N.+1) -> forall N, lo <= N <= high -> fk N -> r.1 <= N /\ r.2].
Proof.
  elim: fuel lo high => [|f IH] lo high H1 H2 /=.
  { have -> : high = lo by lia. rewrite leqnn. split=> // _ N HN. have -> // : N = lo by lia. }
  case: ifP => H3 /=.
  { have -> : high = lo by lia. rewrite leqnn. split=> // _ N HN. have -> // : N = lo by lia. }
  have [L1 L2] : lo <= (lo + high) %/ 2 /\ (lo + high) %/ 2 < high.
  { have := divn_eq (lo + high) 2. have : (lo + high) %% 2 < 2 by apply: ltn_pmod. lia. }
  move: ((lo + high) %/ 2) L1 L2 => m L1 L2. case Ha: (fk m) => [k|].
  - have [A B C] := IH lo m L1 ltac:(lia). split; [lia|exact: B|]. move=> Hm N HN HF.
    case: (leqP N m) => Nm; first by apply: C => //; lia.
    have Hm1 : lo <= m <= m by lia. have Hm2 : fk m by rewrite Ha. have [C1 C2] := C Hm m Hm1 Hm2. split; [lia|exact: C2].
  - have [A B C] := IH (m + 1) high ltac:(lia) ltac:(lia). split; [lia|exact: B|]. move=> Hm N HN HF.
    apply: C => //. case: (leqP N m) => Nm; last lia.
    have : fk m.
    { clear -Hm HF Nm. rewrite -(subnK Nm). elim: (m - N) => // x IH'. exact: Hm. }
    by rewrite Ha.
Qed.

Lemma genP : let r := gen_lpn_params tau bits secure low in
  [/\ 1 <= r.1 <= 15 * 100, r.2 = fk r.1 &
      (forall N, fk N -> fk N.+1) -> forall N, 1 <= N <= 15 * 100 -> fk N -> r.1 <= N /\ r.2].
Proof. apply: flpP; [by rewrite muln_gt0|exact: leq_subr]. Qed.
End Search.

(** ** C72 *)

(** Parameters found are secure according to the estimate, and if a single symbol
    of plaintext can be sent with ciphertexts of this length, or a single symbol is
    not secure, they keep the bound on decryption errors.  If feasible lengths are
    closed upwards, the length found is the least feasible one.  The comparisons
    [>= sec] and [< sec] are opposite where the estimate is a number. *)
Theorem C72_parameters_found : forall tau bits secure low N k,
  (forall k', 0 < k' -> k'.+2 <= N -> low N k' = ~~ secure N k') ->
  gen_lpn_params tau bits secure low = (N, Some k) ->
  [/\ 0 < k <= N, secure N k, accepts N 1 tau bits \/ ~~ secure N 1 -> accepts N k tau bits &
      (forall N', find_k tau bits secure low N' -> find_k tau bits secure low N'.+1) ->
      forall N', 0 < N' <= 15 * 100 -> find_k tau bits secure low N' -> N <= N'].
Proof.
  move=> tau bits secure low N k HL Hg.
  have [] := genP tau bits secure low. rewrite Hg => /= HN Hk Hmin.
  have [| |A A' B _] := @fkcP tau bits N N 1 N; try lia.
  move: Hk. rewrite /find_k. case Hs: (secure N _) => // -[->].
  have [|C D] := @fksP secure low N N 1 (find_k_correct tau bits N N 1 N) _ ltac:(lia) ltac:(lia) Hs.
  { move=> k' Hk'. apply: HL; first lia. case: (ltnP 1 N) => N1; last lia. by have := A' N1; lia. }
  split; [lia|exact: D| |].
  - move=> H1. have {}B : accepts N (find_k_correct tau bits N N 1 N) tau bits.
    { case/orP: B => [/eqP E|//]. case: H1 => H1; [by rewrite E|]. by rewrite E (negbTE H1) in Hs. }
    apply: accepts_less B. lia.
  - move=> Hm N' HN' HF. by have [] := Hmin Hm N' HN' HF.
Qed.
Print Assumptions C72_parameters_found.

(** For an arbitrary security estimate not: with 40 bits asked for and an estimate
    that is always high enough, the search gives N = 1, k = 1, where a quarter of the
    rows cannot be decrypted.  The estimate the script uses does not do this:
    C72_parameters_keep_bounds. *)
Theorem C72_any_estimate_refuted : exists secure low N k,
  [/\ forall k', low N k' = ~~ secure N k', gen_lpn_params 2 40 secure low = (N, Some k) & ~~ accepts N k 2 40].
Proof.
  exists (fun _ _ => true), (fun _ _ => false).
  have Hk N : find_k 2 40 (fun _ _ => true) (fun _ _ => false) N by [].
  have [A B C] := genP 2 40 (fun _ _ => true) (fun _ _ => false).
  have H1 : 0 < 1 <= 15 * 100 by rewrite muln_gt0. have [C1 _] := C (fun N _ => Hk N.+1) 1 H1 (Hk 1).
  have E1 : (gen_lpn_params 2 40 (fun _ _ => true) (fun _ _ => false)).1 = 1 by lia.
  exists 1, 1. split; first by [].
  - move: E1 B. case: (gen_lpn_params _ _ _ _) => [a b] /= E1 B. by rewrite B E1.
  - have E2 : fail_ways 1 1 2 = 1 by rewrite /fail_ways /max_weight !big_mkcond !big_ord_recl big_ord0.
    by rewrite /accepts E2 mul1n -ltnNge ltn_exp2l.
Qed.
Print Assumptions C72_any_estimate_refuted.

Example C72_example : let secure N (_ : nat) := 3 <= N in let low N (_ : nat) := N < 3 in
  gen_lpn_params 2 2 secure low = (3, Some 1) /\ accepts 3 1 2 2.
Proof.
  move=> secure low.
  have A1 : accepts 3 1 2 2 by rewrite /accepts /fail_ways /max_weight !big_mkcond !big_ord_recl !big_ord0.
  have A2 : accepts 3 2 2 2 = false by rewrite /accepts /fail_ways /max_weight !big_mkcond !big_ord_recl !big_ord0.
  have Hk N : find_k 2 2 secure low N = (3 <= N) :> bool by rewrite /find_k /secure; case: (3 <= N).
  have E3 : find_k 2 2 secure low 3 = Some 1 by rewrite /find_k /= A2.
  have [A B C] := genP 2 2 secure low. have H3 : 0 < 3 <= 15 * 100 by rewrite -[3]/(3 * 1) leq_mul.
  have [C1 C2] := C (fun N => (fun H : find_k 2 2 secure low N => etrans (Hk N.+1) (leq_trans (etrans (esym (Hk N)) H) (leqnSn N)))) 3 H3 (etrans (Hk 3) isT).
  move: C1 C2 B. case: (gen_lpn_params 2 2 secure low) => [a b] /= L1 L2 B. rewrite B Hk in L2.
  have E : a = 3 by apply/eqP; rewrite eqn_leq L1 L2. by rewrite B E E3.
Qed.

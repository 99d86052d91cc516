(** Property theorems C77: the advice of the README on estimating the cost of
    circuits with INV gates. *)

From Coq Require Import NArith String List Ascii.
From Verif Require Import CircuitModel CircuitSpec LpnModel.
From mathcomp Require Import all_ssreflect all_algebra zify.
From Verif Require Import MathModel PreprocModel GarbleModel CoreSpec TrafficSpec P_Estimate.
From Verif Require EstModel.
Set Implicit Arguments.
Unset Strict Implicit.
Unset Printing Implicit Defensive.

(** ** INV gates as XOR gates *)

Section Advice.
Variables (fb n t l dim K M : nat) (c : circuit) (circ : pcircuit) (d : count) (nx : nat).
Hypothesis Hp : pack c (N.of_nat l) = Some circ.
Hypothesis Hd : describe circ n t l (Lpn K M) = Some d.
Hypothesis Hn : t < n.
Hypothesis Hdim : 0 < dim.
Let fc := (fb + 7) %/ 8.
Let R := EstModel.semihon_protocol (EstModel.Params fb n t l dim K M 2) (num_inps c) (num_ands c) nx.
Let A := ceil_div (num_ands c) l.
Let X := ceil_div (num_xors c) l.
Let V := ceil_div (num_invs c) l.
Let I := ceil_div (num_inps c) l.
Let X' := ceil_div nx l.
Let w := 2 * K + 1.
Let S := A * (3 * (K + 1) + 1) + X' * (K + 1).
Let e := (A + X') * 4 * M.

Lemma advice_closed : let b1 := ceil_div ((I + A + X') * w) l in let b2 := ceil_div (2 * (A + X') * w) l in
  EstModel.r_garbling R = 2 * n * fc * (n * (b1 + b2) + (I + A + X') * w + 2 * (A + X') * w + S) /\
  EstModel.r_preproc R = n * n * fc * (ceil_div ((I + A + X') * 2 * K + 3 * e + (b1 + b2) * (n + t) + S) (n - t) +
    ceil_div (2 * e + (b1 + b2) * (2 * n) + S) (n - t) + ceil_div (I + A + X' + 2 * e) dim) + 4 * n * fc * e.
Proof.
have Hl := pack_pos Hp; have Hnt : 0 < n - t by rewrite subn_gt0.
rewrite /R /EstModel.semihon_protocol /EstModel.e_l !(ceilE _ Hl) -/A -/X' -/I. 
cbv beta iota delta [EstModel.rand EstModel.zero EstModel.bitrand EstModel.mult EstModel.trans EstModel.error EstModel.both EstModel.comm EstModel.randshare
  EstModel.r_garbling EstModel.r_preproc EstModel.n_rand EstModel.n_zero EstModel.n_bitrand EstModel.e_n EstModel.e_t EstModel.e_l EstModel.e_noise EstModel.e_key_len EstModel.e_ctx_len EstModel.e_binsup_dim].
rewrite /EstModel.allshare /EstModel.allrecon /EstModel.degreduce /EstModel.e_fcomm /= -/fc !(ceilE _ Hl) !(ceilE _ Hnt) (ceilE _ Hdim).
rewrite (_ : I + A + X' + (I + A + X') * 2 * K = (I + A + X') * w); last by rewrite /w; lia.
rewrite (_ : 2 * (A + X') + 2 * (A + X') * 2 * K = 2 * (A + X') * w); last by rewrite /w; lia.
rewrite -/S -/e; move: (ceil_div (_ * w) l) (ceil_div (_ * w) l) => b2 b1; split; first by lia.
rewrite (_ : 0 + (I + A + X') * 2 * K + e * (2 - 1) + e + e + b1 * (n + t) + b2 * (n + t) + S =
             (I + A + X') * 2 * K + 3 * e + (b1 + b2) * (n + t) + S); last by lia.
rewrite (_ : 0 + e * (2 - 1) + e + b1 * 2 * n + b2 * 2 * n + S = 2 * e + (b1 + b2) * (2 * n) + S); last by lia.
rewrite (_ : 0 + (I + A + X') + e * 2 = I + A + X' + 2 * e); last by lia.
by move: (ceil_div _ (n - t)) (ceil_div _ (n - t)) (ceil_div _ dim) => x y z; lia.
Qed.

Hypothesis HX : X + V <= X'.

Lemma advice_near : garble_total (fun m => fc * m) n l K circ <= EstModel.r_garbling R + 8 * K * n * n * fc.
Proof.
have Hl := pack_pos Hp; have [-> _] := advice_closed; have [-> _] := code_closed fb Hp Hd Hn Hdim fc.
rewrite -/A -/X -/V -/I -/w.
have /andP[_] := ceil_once (I + A + X') w Hl; have /andP[_] := ceil_once (2 * (A + X')) w Hl.
set b1 := ceil_div ((I + A + X') * w) l; set b2 := ceil_div (2 * (A + X') * w) l.
have : ceil_div (I + A + X + V) l <= ceil_div (I + A + X') l by apply: ceil_le; lia.
have : ceil_div (2 * A + 2 * X + V) l <= ceil_div (2 * (A + X')) l by apply: ceil_le; lia.
set B1 := ceil_div (I + A + X + V) l; set B2 := ceil_div (2 * A + 2 * X + V) l.
set C1 := ceil_div (I + A + X') l; set C2 := ceil_div (2 * (A + X')) l => L2 L1 H2 H1.
have Ew : w.-1 = 2 * K by rewrite /w addn1.
rewrite Ew in H1 H2.
have M1 : B1 * w <= b1 + 2 * K by apply: leq_trans H1; rewrite leq_mul2r L1 orbT.
have M2 : B2 * w <= b2 + 2 * K by apply: leq_trans H2; rewrite leq_mul2r L2 orbT.
have M3 : n * (B1 * w + B2 * w) <= n * (b1 + b2) + n * (4 * K) by rewrite -mulnDr leq_mul2l; apply/orP; right; lia.
have M4 : (I + A + X + V) * w <= (I + A + X') * w by rewrite leq_mul2r; apply/orP; right; lia.
have M5 : (2 * A + 2 * X + V) * w <= 2 * (A + X') * w by rewrite leq_mul2r; apply/orP; right; lia.
have M6 : A * (3 * (K + 1) + 1) + X * (K + 1) + V * (K + 1) <= S.
  by rewrite /S -addnA -mulnDl leq_add2l leq_mul2r HX orbT.
rewrite (_ : 8 * K * n * n * fc = 2 * n * fc * (n * (4 * K))); last by lia.
rewrite -[X in _ <= X]mulnDr leq_mul2l; apply/orP; right.
by move: M3 M4 M5 M6; clear; lia.
Qed.

Lemma advice_exact : l %| I + A + X' -> l %| 2 * (A + X') ->
  garble_total (fun m => fc * m) n l K circ <= EstModel.r_garbling R /\
  preproc_total (fun m => fc * m) n (n - t) dim d <= EstModel.r_preproc R.
Proof.
move=> D1 D2; have Hl := pack_pos Hp; have [-> ->] := advice_closed; have [-> ->] := code_closed fb Hp Hd Hn Hdim fc.
rewrite -/A -/X -/V -/I -/w (ceil_exact w Hl D1) (ceil_exact w Hl D2).
have : ceil_div (I + A + X + V) l <= ceil_div (I + A + X') l by apply: ceil_le; lia.
have : ceil_div (2 * A + 2 * X + V) l <= ceil_div (2 * (A + X')) l by apply: ceil_le; lia.
set B1 := ceil_div (I + A + X + V) l; set B2 := ceil_div (2 * A + 2 * X + V) l.
set C1 := ceil_div (I + A + X') l; set C2 := ceil_div (2 * (A + X')) l => L2 L1.
have M3 : B1 * w + B2 * w <= C1 * w + C2 * w by rewrite leq_add // leq_mul2r ?L1 ?L2 orbT.
have M4 : (I + A + X + V) * w <= (I + A + X') * w by rewrite leq_mul2r; apply/orP; right; lia.
have M5 : (2 * A + 2 * X + V) * w <= 2 * (A + X') * w by rewrite leq_mul2r; apply/orP; right; lia.
have M6 : A * (3 * (K + 1) + 1) + X * (K + 1) + V * (K + 1) <= S.
  by rewrite /S -addnA -mulnDl leq_add2l leq_mul2r HX orbT.
have M7 : (A + X) * 4 * M + V * 2 * M <= e.
  by rewrite /e -mulnDl leq_mul2r; apply/orP; right; move: HX; move: (X) (V) (X') (A) => ? ? ? ?; lia.
have M8 : (I + A + X + V) * 2 * K <= (I + A + X') * 2 * K by rewrite !leq_mul2r; apply/orP; right; apply/orP; right; lia.
split.
  rewrite leq_mul2l; apply/orP; right; do 3![apply: leq_add => //]; by rewrite leq_mul2l M3 orbT.
apply: leq_add; last by rewrite leq_mul2l M7 orbT.
rewrite leq_mul2l; apply/orP; right; apply: leq_add; [apply: leq_add|]; apply: ceil_le.
- by apply: leq_add => //; apply: leq_add; [apply: leq_add => //|]; rewrite ?leq_mul2r ?leq_mul2l ?M3 ?M7 !orbT.
- by apply: leq_add => //; apply: leq_add; rewrite ?leq_mul2r ?leq_mul2l ?M3 ?M7 !orbT.
- by apply: leq_add; [lia|rewrite leq_mul2l M7 orbT].
Qed.

End Advice.

(** Estimating a circuit with [nx] XOR gates in place of its XOR and INV gates:
    if these fill at least as many blocks as the XOR gates and the INV gates do,
    the programs send at most [8 K n^2] elements more than the estimate of
    garbling, and nothing more in either phase if the numbers of blocks are
    multiples of [l]. *)
Theorem C77_enough_blocks : forall fb n t l dim K M c circ d nx,
  pack c (N.of_nat l) = Some circ -> describe circ n t l (Lpn K M) = Some d -> t < n -> 0 < dim ->
  let blocks x := ceil_div x l in
  blocks (num_xors c) + blocks (num_invs c) <= blocks nx ->
  let R := EstModel.semihon_protocol (EstModel.Params fb n t l dim K M 2) (num_inps c) (num_ands c) nx in
  let cost m := (fb + 7) %/ 8 * m in
  garble_total cost n l K circ <= EstModel.r_garbling R + 8 * K * n * n * ((fb + 7) %/ 8) /\
  (l %| blocks (num_inps c) + blocks (num_ands c) + blocks nx -> l %| 2 * (blocks (num_ands c) + blocks nx) ->
   garble_total cost n l K circ <= EstModel.r_garbling R /\ preproc_total cost n (n - t) dim d <= EstModel.r_preproc R).
Proof.
move=> fb n t l dim K M c circ d nx Hp Hd Hn Hdim; cbv zeta => HX; split; first exact: (advice_near fb Hp Hd Hn Hdim HX).
by move=> D1 D2; apply: (advice_exact fb Hp Hd Hn Hdim HX).
Qed.
Print Assumptions C77_enough_blocks.

Lemma ceil_dvd_add a b l : 0 < l -> l %| a -> ceil_div (a + b) l = ceil_div a l + ceil_div b l.
Proof.
move=> Hl /dvdnP[q ->]; have /andP[B1 B2] := ceil_bounds b Hl.
rewrite (@ceil_unique (q * l) l q) //; last by lia.
by apply: ceil_unique => //; rewrite mulnDl; lia.
Qed.

(** The advice (any inversion gates can be considered as XOR gates) is safe when
    the XOR gates or the INV gates fill their blocks. *)
Theorem C77_inv_as_xor : forall fb n t l dim K M c circ d,
  pack c (N.of_nat l) = Some circ -> describe circ n t l (Lpn K M) = Some d -> t < n -> 0 < dim ->
  l %| num_xors c \/ l %| num_invs c ->
  let R := EstModel.semihon_protocol (EstModel.Params fb n t l dim K M 2) (num_inps c) (num_ands c) (num_xors c + num_invs c) in
  let cost m := (fb + 7) %/ 8 * m in
  garble_total cost n l K circ <= EstModel.r_garbling R + 8 * K * n * n * ((fb + 7) %/ 8).
Proof.
move=> fb n t l dim K M c circ d Hp Hd Hn Hdim H; cbv zeta.
have Hl := pack_pos Hp; have HX : ceil_div (num_xors c) l + ceil_div (num_invs c) l <= ceil_div (num_xors c + num_invs c) l.
  by case: H => D; [rewrite ceil_dvd_add|rewrite addnC (addnC (num_xors c)) ceil_dvd_add].
by have [] := C77_enough_blocks fb Hp Hd Hn Hdim HX.
Qed.
Print Assumptions C77_inv_as_xor.

(** It is always safe with one more block of XOR gates. *)
Theorem C77_one_block_more : forall fb n t l dim K M c circ d,
  pack c (N.of_nat l) = Some circ -> describe circ n t l (Lpn K M) = Some d -> t < n -> 0 < dim ->
  let R := EstModel.semihon_protocol (EstModel.Params fb n t l dim K M 2) (num_inps c) (num_ands c) (num_xors c + num_invs c + l) in
  let cost m := (fb + 7) %/ 8 * m in
  garble_total cost n l K circ <= EstModel.r_garbling R + 8 * K * n * n * ((fb + 7) %/ 8).
Proof.
move=> fb n t l dim K M c circ d Hp Hd Hn Hdim; cbv zeta.
have Hl := pack_pos Hp; have HX : ceil_div (num_xors c) l + ceil_div (num_invs c) l <= ceil_div (num_xors c + num_invs c + l) l.
  have /andP[A1 A2] := ceil_bounds (num_xors c) Hl; have /andP[B1 B2] := ceil_bounds (num_invs c) Hl.
  have /andP[C1 C2] := ceil_bounds (num_xors c + num_invs c + l) Hl.
  move: (ceil_div _ _) (ceil_div _ _) (ceil_div _ _) A1 A2 B1 B2 C1 C2 => x y z A1 A2 B1 B2 C1 C2; nia.
by have [] := C77_enough_blocks fb Hp Hd Hn Hdim HX.
Qed.
Print Assumptions C77_one_block_more.

(** The numbers of the README's example, aes_128.txt with packing parameter 33:
    256 inputs, 6400 AND and 28176 + 2087 = 30263 XOR and INV gates. *)
Theorem C77_readme_example : forall fb n t dim K M c circ d,
  pack c 33%num = Some circ -> describe circ n t 33 (Lpn K M) = Some d -> t < n -> 0 < dim ->
  N.of_nat (num_xors c) = 28176%num -> N.of_nat (num_invs c) = 2087%num ->
  let R := EstModel.semihon_protocol (EstModel.Params fb n t 33 dim K M 2) (num_inps c) (num_ands c) (N.to_nat 30263) in
  let cost m := (fb + 7) %/ 8 * m in
  garble_total cost n 33 K circ <= EstModel.r_garbling R + 8 * K * n * n * ((fb + 7) %/ 8).
Proof.
move=> fb n t dim K M c circ d Hp Hd Hn Hdim Ex Ev; cbv zeta.
have HX : ceil_div (num_xors c) 33 + ceil_div (num_invs c) 33 <= ceil_div (N.to_nat 30263) 33.
  have /andP[A1 A2] := ceil_bounds (num_xors c) (isT : 0 < 33); have /andP[B1 B2] := ceil_bounds (num_invs c) (isT : 0 < 33).
  have /andP[C1 C2] := ceil_bounds (N.to_nat 30263) (isT : 0 < 33).
  move: (ceil_div _ _) (ceil_div _ _) (ceil_div _ _) A1 A2 B1 B2 C1 C2 => x y z A1 A2 B1 B2 C1 C2; lia.
by have [] := @C77_enough_blocks fb n t 33 dim K M c circ d _ Hp Hd Hn Hdim HX.
Qed.
Print Assumptions C77_readme_example.

(** In general it is not: a circuit with one XOR gate and one INV gate. *)
Definition xor_inv : circuit := Circuit [:: Xor 0 1 2; CircuitModel.Inv 2 3]%num [:: [:: 0; 1]]%num [:: [:: 3]]%num 4%num.

Lemma xor_inv_wf : well_formed xor_inv.
Proof.
  split; [|split; [|split]].
  - simpl. repeat (constructor; [simpl; intuition discriminate|]). constructor.
  - simpl. repeat constructor.
  - apply: (CircuitEval.topo_ok (c_gates xor_inv) [:: 0; 1]%num). repeat split; move=> w Hw; simpl in *; intuition.
  - move=> w Hw. simpl in *. intuition.
Qed.

Theorem C77_inv_as_xor_refuted : exists c circ, well_formed c /\ pack c (N.of_nat 2) = Some circ /\
  forall fb K M dim, 0 < fb -> 0 < dim -> exists d, describe circ 5 1 2 (Lpn K M) = Some d /\
  let R := EstModel.semihon_protocol (EstModel.Params fb 5 1 2 dim K M 2) (num_inps c) (num_ands c) (num_xors c + num_invs c) in
  let cost m := (fb + 7) %/ 8 * m in
  EstModel.r_garbling R + 8 * K * 5 * 5 * ((fb + 7) %/ 8) < garble_total cost 5 2 K circ.
Proof.
have [circ Hp] : exists circ, pack xor_inv (N.of_nat 2) = Some circ by eexists; vm_compute; reflexivity.
exists xor_inv, circ; split; first exact: xor_inv_wf.
split=> // fb K M dim Hfb Hdim.
have [d Hd] : exists d, describe circ 5 1 2 (Lpn K M) = Some d.
  by rewrite /describe; case: get_gate_counts => [[a x] v]; rewrite /num_batches /=; eexists; reflexivity.
exists d; split=> //; cbv zeta.
have [-> _] := advice_closed fb K M (num_xors xor_inv + num_invs xor_inv) Hp (isT : 1 < 5) Hdim; have [-> _] := code_closed fb Hp Hd (isT : 1 < 5) Hdim ((fb + 7) %/ 8).
rewrite ?(erefl : ceil_div (num_inps xor_inv) 2 = 1) ?(erefl : ceil_div (num_ands xor_inv) 2 = 0).
rewrite ?(erefl : ceil_div (num_xors xor_inv) 2 = 1) ?(erefl : ceil_div (num_invs xor_inv) 2 = 1).
rewrite ?(erefl : ceil_div (num_xors xor_inv + num_invs xor_inv) 2 = 1).
rewrite ?(erefl : ceil_div (1 + 0 + 1 + 1) 2 = 2) ?(erefl : ceil_div (2 * 0 + 2 * 1 + 1) 2 = 2).
have Ec w : ceil_div (2 * w) 2 = w by apply: ceil_unique => //; lia.
rewrite -[2 * (0 + 1)]/2 -[1 + 0 + 1]/2 -[2 * 0 + 2 * 1 + 1]/3 !Ec.
have : 0 < (fb + 7) %/ 8 by rewrite divn_gt0 //; lia.
by move: (_ %/ 8) => f Hf; nia.
Qed.
Print Assumptions C77_inv_as_xor_refuted.

(** The same circuit with packing parameter 1 meets the hypotheses. *)
Example C77_example : exists circ d, [/\ pack xor_inv (N.of_nat 1) = Some circ, describe circ 3 1 1 (Lpn 3 5) = Some d,
  1 < 3 & 1 %| num_xors xor_inv].
Proof. by eexists; eexists; split; [vm_compute|vm_compute| |]. Qed.

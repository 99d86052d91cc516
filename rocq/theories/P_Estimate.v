(** Property theorems C68: the estimates of scripts/communication_estimates.py. *)

From Coq Require Import NArith String List Ascii Permutation PeanoNat.
From Verif Require Import CircuitModel CircuitSpec P_Circuit LpnModel.
From mathcomp Require Import all_ssreflect all_algebra zify.
From Verif Require Import MathModel MatFileModel MachineModel CoreModel CoreSpec PreprocModel GarbleModel PipeModel BinModel CodecModel GFField GFCodec.
From Verif Require Import P_Garble P_MatFile P_Bin P_BinPre P_Pipeline RouterModel RouteModel RouteSpec StackModel StackSpec StackNets P_Stack.
From Verif Require Import TrafficSpec TrafficProofs P_Traffic.
From Verif Require ProtoIdModel EstModel.
Set Implicit Arguments.
Unset Strict Implicit.
Unset Printing Implicit Defensive.

Notation num_ands c := (size (List.filter is_and (c_gates c))).
Notation num_xors c := (size (List.filter is_xor (c_gates c))).
Notation num_invs c := (size (List.filter is_inv (c_gates c))).
Notation num_inps c := (size (List.concat (c_inputs c))).

Lemma ceil_unique a b q : 0 < b -> a <= q * b -> q * b < a + b -> ceil_div a b = q.
Proof.
move=> Hb H1 H2; rewrite /ceil_div (_ : a + b - 1 = q * b + (a + b - 1 - q * b)); last by lia.
by rewrite divnMDl // divn_small ?addn0 //; lia.
Qed.

Lemma ceilE a b : 0 < b -> EstModel.ceil a b = ceil_div a b.
Proof.
move=> Hb; rewrite /EstModel.ceil; have Ea := divn_eq a b; have Hm := ltn_pmod a Hb.
by symmetry; case: eqP => E; apply: ceil_unique => //; rewrite ?mulSn; lia.
Qed.

Lemma ceil_bounds a b : 0 < b -> a <= ceil_div a b * b < a + b.
Proof. by move=> Hb; rewrite /ceil_div; have := divn_eq (a + b - 1) b; have := ltn_pmod (a + b - 1) Hb; lia. Qed.

Lemma ceil_le a a' b : a <= a' -> ceil_div a b <= ceil_div a' b.
Proof. by move=> H; rewrite /ceil_div; apply: leq_div2r; lia. Qed.

(** Rounding once instead of [w] times. *)
Lemma ceil_once a w b : 0 < b -> ceil_div (a * w) b <= ceil_div a b * w <= ceil_div (a * w) b + w.-1.
Proof.
move=> Hb; have /andP[A1 A2] := ceil_bounds a Hb; have /andP[B1 B2] := ceil_bounds (a * w) Hb.
case: w B1 B2 => [|w] B1 B2.
  by rewrite !muln0 /ceil_div add0n divn_small //; lia.
move: (ceil_div a b) (ceil_div _ b) A1 A2 B1 B2 => x y A1 A2 B1 B2.
by apply/andP; split; rewrite /=; nia.
Qed.

Lemma ceil_exact a w b : 0 < b -> b %| a -> ceil_div (a * w) b = ceil_div a b * w.
Proof.
move=> Hb /dvdnP[q ->]; rewrite (@ceil_unique (q * b) b q) //; last by lia.
by apply: ceil_unique => //; nia.
Qed.

(** ** Packing makes as many blocks as the script assumes *)

Lemma full_blocks_ceil k sizes : 0 < k -> full_blocks k sizes -> size sizes = ceil_div (sumn sizes) k.
Proof.
move=> Hk [->|[m [last [-> H]]]]; first by rewrite /ceil_div divn_small //=; lia.
have -> : app (repeat k m) [:: last] = nseq m k ++ [:: last] by elim: m => //= m ->.
rewrite size_cat size_nseq sumn_cat sumn_nseq /= addn0 addn1; symmetry; apply: ceil_unique => //; nia.
Qed.

Lemma sum_block_sizes bs : Forall block_wf bs -> sumn (map block_size bs) = length (flat_map block_gates bs).
Proof.
have zip l r o (f : N -> N -> N -> gate) : length l = length o -> length r = length o -> length (zip3 l r o f) = length o.
  by elim: l r o => [|a l IH] [|b r] [|x o] //= [H1] [H2]; rewrite IH.
elim=> [|b {}bs Hb _ IH] //=; rewrite app_length -IH; congr addn.
case: b Hb => [l r o|l r o|a o] /= Hb.
- by case: Hb => H1 H2; rewrite zip.
- by case: Hb => H1 H2; rewrite zip.
- by rewrite map_length combine_length Hb PeanoNat.Nat.min_id.
Qed.

Theorem C68_blocks : forall c l circ, pack c (N.of_nat l) = Some circ ->
  get_gate_counts (p_gates circ) = (ceil_div (num_ands c) l, ceil_div (num_xors c) l, ceil_div (num_invs c) l) /\
  size (p_inputs circ) = ceil_div (num_inps c) l /\
  size (p_gates circ) = ceil_div (num_ands c) l + ceil_div (num_xors c) l + ceil_div (num_invs c) l.
Proof.
move=> c l circ Hp.
have Hl : (1 <= N.of_nat l)%num.
  by case: l Hp => [|l] Hp; [rewrite /pack /pack_gate_info /chunks in Hp|lia].
have [pc [Hp' [WF [Fa [Fx [Fv [_ [Ci [Fi _]]]]]]]]] := C19_pack_preserves_the_circuit c _ Hl.
move: Hp'; rewrite Hp => -[E]; subst pc; rewrite Nat2N.id in Fa Fx Fv Fi.
have Hl0 : 0 < l by lia.
have [Eg [-> [Pa [Px Pv]]]] := C19_block_order_and_counts _ _ _ Hp.
have K (q : pgate -> bool) gs : full_blocks l (map block_size (List.filter q (p_gates circ))) ->
    Permutation (flat_map block_gates (List.filter q (p_gates circ))) gs -> length (List.filter q (p_gates circ)) = ceil_div (length gs) l.
  move=> Hf Hpm; rewrite -(Permutation_length Hpm) -sum_block_sizes; last first.
    by apply/Forall_forall => b /filter_In [Hb _]; move/Forall_forall: WF; apply.
  by rewrite -(full_blocks_ceil Hl0 Hf) size_map.
rewrite (K _ _ Fa Pa) (K _ _ Fx Px) (K _ _ Fv Pv); split=> //; split.
  rewrite -Ci -(size_map (@length N)) (full_blocks_ceil Hl0 Fi); congr ceil_div.
  by elim: (p_inputs circ) => //= b bs ->; rewrite -[size (_ ++ _)%list]/(length _) app_length.
rewrite {1}Eg -[size _]/(length _) !app_length (K _ _ Fa Pa) (K _ _ Fx Px) (K _ _ Fv Pv) !plusE addnA; reflexivity.
Qed.
Print Assumptions C68_blocks.

(** ** The script against the programs *)

Section Compare.
Variables (fb n t l dim K M : nat) (c : circuit) (circ : pcircuit) (d : count).
Hypothesis Hp : pack c (N.of_nat l) = Some circ.
Hypothesis Hd : describe circ n t l (Lpn K M) = Some d.
Hypothesis Hn : t < n.
Hypothesis Hdim : 0 < dim.
Let fc := (fb + 7) %/ 8.
Let R := EstModel.semihon_protocol (EstModel.Params fb n t l dim K M 2) (num_inps c) (num_ands c) (num_xors c).
Let A := ceil_div (num_ands c) l.
Let X := ceil_div (num_xors c) l.
Let V := ceil_div (num_invs c) l.
Let I := ceil_div (num_inps c) l.
Let w := 2 * K + 1.
Let S := A * (3 * (K + 1) + 1) + X * (K + 1).
Let e := (A + X) * 4 * M.

Lemma pack_pos : 0 < l.
Proof. by move: Hp; case: (l) => // ; rewrite /pack /pack_gate_info /chunks. Qed.

Lemma inps_count gs : size (flatten [seq gate_inps x | x <- gs]) = let: (a, x, v) := get_gate_counts gs in 2 * a + 2 * x + v.
Proof.
elim: gs => //= g gs IH; rewrite size_cat IH; case: (get_gate_counts gs) => [[a x] v]; case: g => * /=; lia.
Qed.

(** The script in closed form. *)
Lemma est_closed : let b1 := ceil_div ((I + A + X) * w) l in let b2 := ceil_div (2 * (A + X) * w) l in
  EstModel.r_garbling R = 2 * n * fc * (n * (b1 + b2) + (I + A + X) * w + 2 * (A + X) * w + S) /\
  EstModel.r_preproc R = n * n * fc * (ceil_div ((I + A + X) * 2 * K + 3 * e + (b1 + b2) * (n + t) + S) (n - t) +
    ceil_div (2 * e + (b1 + b2) * (2 * n) + S) (n - t) + ceil_div (I + A + X + 2 * e) dim) + 4 * n * fc * e.
Proof.
have Hl := pack_pos; have Hnt : 0 < n - t by rewrite subn_gt0.
rewrite /R /EstModel.semihon_protocol /EstModel.e_l !(ceilE _ Hl) -/A -/X -/I. 
cbv beta iota delta [EstModel.rand EstModel.zero EstModel.bitrand EstModel.mult EstModel.trans EstModel.error EstModel.both EstModel.comm EstModel.randshare
  EstModel.r_garbling EstModel.r_preproc EstModel.n_rand EstModel.n_zero EstModel.n_bitrand EstModel.e_n EstModel.e_t EstModel.e_l EstModel.e_noise EstModel.e_key_len EstModel.e_ctx_len EstModel.e_binsup_dim].
rewrite /EstModel.allshare /EstModel.allrecon /EstModel.degreduce /EstModel.e_fcomm /= -/fc !(ceilE _ Hl) !(ceilE _ Hnt) (ceilE _ Hdim).
rewrite (_ : I + A + X + (I + A + X) * 2 * K = (I + A + X) * w); last by rewrite /w; lia.
rewrite (_ : 2 * (A + X) + 2 * (A + X) * 2 * K = 2 * (A + X) * w); last by rewrite /w; lia.
rewrite -/S -/e; move: (ceil_div (_ * w) l) (ceil_div (_ * w) l) => b2 b1; split; first by lia.
rewrite (_ : 0 + (I + A + X) * 2 * K + e * (2 - 1) + e + e + b1 * (n + t) + b2 * (n + t) + S =
             (I + A + X) * 2 * K + 3 * e + (b1 + b2) * (n + t) + S); last by lia.
rewrite (_ : 0 + e * (2 - 1) + e + b1 * 2 * n + b2 * 2 * n + S = 2 * e + (b1 + b2) * (2 * n) + S); last by lia.
rewrite (_ : 0 + (I + A + X) + e * 2 = I + A + X + 2 * e); last by lia.
by move: (ceil_div _ (n - t)) (ceil_div _ (n - t)) (ceil_div _ dim) => x y z; lia.
Qed.

(** The programs in closed form, [f] times the number of elements of a message. *)
Lemma code_closed f : let B1 := ceil_div (I + A + X + V) l in let B2 := ceil_div (2 * A + 2 * X + V) l in
  let S' := S + V * (K + 1) in let e' := e + V * 2 * M in
  garble_total (fun m => f * m) n l K circ =
    2 * n * f * (n * (B1 * w + B2 * w) + (I + A + X + V) * w + (2 * A + 2 * X + V) * w + S') /\
  preproc_total (fun m => f * m) n (n - t) dim d =
    n * n * f * (ceil_div ((I + A + X + V) * 2 * K + 3 * e' + (B1 * w + B2 * w) * (n + t) + S') (n - t) +
      ceil_div (2 * e' + (B1 * w + B2 * w) * (2 * n) + S') (n - t) + ceil_div (I + A + X + V + 2 * e') dim) + 4 * n * f * e'.
Proof.
have Hl := pack_pos; have [Ec [Ei Eg]] := C68_blocks Hp; rewrite -/A -/X -/V -/I in Ec Ei Eg.
have EI : I + (A + X + V) = I + A + X + V by rewrite !addnA.
move=> B1 B2 S' e'; split.
  rewrite /garble_total inps_count Ec Ei Eg EI -/B1 -/B2 -/w /S' /S; cbv beta; move: B1 B2 A X V I w => B1 B2 A0 X0 V0 I0 w0; lia.
move: Hd; rewrite /describe Ec Ei Eg EI.
have nb a : num_batches a l = Some (ceil_div a l) by case: (l) Hl.
rewrite !nb /= => -[<-]; rewrite /preproc_total /keys_total /=.
have -> : A * 4 * M + X * 4 * M + V * 2 * M = e' by rewrite /e' /e; lia.
have -> : A * 2 + X * 2 + V = 2 * A + 2 * X + V by lia.
rewrite -/B1 -/B2 -/w.
have -> : 2 * K * (I + A + X + V) + ((B1 + B2) * w * (n + t) + (A * (3 * (K + 1) + 1) + X * (K + 1) + V * (K + 1))) + 3 * e' =
  (I + A + X + V) * 2 * K + 3 * e' + (B1 * w + B2 * w) * (n + t) + S' by rewrite /S' /S; lia.
have -> : (B1 + B2) * w * 2 * n + (A * (3 * (K + 1) + 1) + X * (K + 1) + V * (K + 1)) + 2 * e' =
  2 * e' + (B1 * w + B2 * w) * (2 * n) + S' by rewrite /S' /S; lia.
have He : n.-1 * (e' %/ n) <= e' by apply: leq_trans (leq_trunc_div e' n); rewrite mulnC leq_mul2l leq_pred orbT.
have -> : n.-1 * (f * (e' %/ n)) + f * (e' - n.-1 * (e' %/ n)) = f * e'.
  by rewrite mulnCA -mulnDr subnKC.
by move: (ceil_div _ (n - t)) (ceil_div _ (n - t)) (ceil_div _ dim) => x y z; lia.
Qed.

(** Never more than the code sends; exact for circuits without INV gates whose
    numbers of blocks are multiples of [l]. *)
Lemma est_le : EstModel.r_garbling R <= garble_total (fun m => fc * m) n l K circ /\
  EstModel.r_preproc R <= preproc_total (fun m => fc * m) n (n - t) dim d.
Proof.
have Hl := pack_pos; have [-> ->] := est_closed; have [-> ->] := code_closed fc.
set b1 := ceil_div (_ * w) l; set b2 := ceil_div (_ * w) l; set B1 := ceil_div _ l; set B2 := ceil_div _ l.
have H1 : b1 <= B1 * w.
  apply: leq_trans (_ : ceil_div (I + A + X) l * w <= _); first by have /andP[] := ceil_once (I + A + X) w Hl.
  by rewrite leq_mul2r ceil_le ?orbT // leq_addr.
have H2 : b2 <= B2 * w.
  apply: leq_trans (_ : ceil_div (2 * (A + X)) l * w <= _); first by have /andP[] := ceil_once (2 * (A + X)) w Hl.
  by rewrite leq_mul2r ceil_le ?orbT // mulnDr leq_addr.
have H3 : b1 + b2 <= B1 * w + B2 * w by exact: leq_add.
split.
  rewrite leq_mul2l; apply/orP; right; apply: leq_add (leq_addr _ _); apply: leq_add.
    by apply: leq_add; rewrite ?leq_mul2r ?leq_mul2l ?H3 ?leq_addr ?orbT.
  by rewrite leq_mul2r mulnDr leq_addr orbT.
apply: leq_add; last by rewrite leq_mul2l leq_addr orbT.
rewrite leq_mul2l; apply/orP; right; apply: leq_add; first apply: leq_add; apply: ceil_le.
- apply: leq_add (leq_addr _ _); apply: leq_add; last by rewrite leq_mul2r H3 orbT.
  by apply: leq_add; rewrite ?leq_mul2l ?leq_mul2r ?leq_addr ?orbT.
- apply: leq_add (leq_addr _ _); apply: leq_add; last by rewrite leq_mul2r H3 orbT.
  by rewrite leq_mul2l leq_addr orbT.
- by apply: leq_add; rewrite ?leq_mul2l leq_addr ?orbT.
Qed.

Lemma est_near : num_invs c = 0 -> garble_total (fun m => fc * m) n l K circ <= EstModel.r_garbling R + 8 * K * n * n * fc.
Proof.
move=> H0; have Hl := pack_pos; have [-> _] := est_closed; have [-> _] := code_closed fc.
have -> : V = 0 by rewrite /V H0 /ceil_div divn_small //; lia.
rewrite ?mul0n !addn0.
have /andP[_] := ceil_once (I + A + X) w Hl; have /andP[_] := ceil_once (2 * (A + X)) w Hl.
have -> : 2 * (A + X) = 2 * A + 2 * X by rewrite mulnDr.
set b1 := ceil_div (_ * w) l; set b2 := ceil_div (_ * w) l; set B1 := ceil_div _ l; set B2 := ceil_div _ l => H2 H1.
have Ew : w.-1 = 2 * K by rewrite /w addn1.
rewrite Ew in H1 H2.
have H3 : n * (B2 * w + B1 * w) <= n * (b2 + b1) + n * (4 * K) by rewrite -mulnDr leq_mul2l; apply/orP; right; lia.
apply: leq_trans (_ : 2 * n * fc * (n * (b2 + b1) + n * (4 * K) + (I + A + X) * w + (2 * A + 2 * X) * w + S) <= _).
  by rewrite leq_mul2l !leq_add2r H3 orbT.
lia.
Qed.

Lemma est_exact : num_invs c = 0 -> l %| I + A + X -> l %| 2 * (A + X) ->
  EstModel.r_garbling R = garble_total (fun m => fc * m) n l K circ /\
  EstModel.r_preproc R = preproc_total (fun m => fc * m) n (n - t) dim d.
Proof.
move=> H0 D1 D2; have Hl := pack_pos; have [-> ->] := est_closed; have [-> ->] := code_closed fc.
have -> : V = 0 by rewrite /V H0 /ceil_div divn_small //; lia.
rewrite ?mul0n !addn0 (ceil_exact w Hl D1) (ceil_exact w Hl D2).
by have -> : 2 * A + 2 * X = 2 * (A + X) by rewrite mulnDr.
Qed.

(** What a block of INV gates costs and the script leaves out. *)
Lemma est_inv : EstModel.r_garbling R + 2 * n * fc * (V * (5 * K + 3)) <= garble_total (fun m => fc * m) n l K circ.
Proof.
have Hl := pack_pos; have [-> _] := est_closed; have [-> _] := code_closed fc.
set b1 := ceil_div (_ * w) l; set b2 := ceil_div (_ * w) l; set B1 := ceil_div _ l; set B2 := ceil_div _ l.
have H1 : b1 <= B1 * w.
  apply: leq_trans (_ : ceil_div (I + A + X) l * w <= _); first by have /andP[] := ceil_once (I + A + X) w Hl.
  by rewrite leq_mul2r ceil_le ?orbT // leq_addr.
have H2 : b2 <= B2 * w.
  apply: leq_trans (_ : ceil_div (2 * (A + X)) l * w <= _); first by have /andP[] := ceil_once (2 * (A + X)) w Hl.
  by rewrite leq_mul2r ceil_le ?orbT // mulnDr leq_addr.
have H3 : n * (b1 + b2) <= n * (B1 * w + B2 * w) by rewrite leq_mul2l leq_add ?orbT.
rewrite -mulnDr leq_mul2l; apply/orP; right.
apply: leq_trans (_ : n * (B1 * w + B2 * w) + ((I + A + X) * w + 2 * (A + X) * w + S + V * (5 * K + 3)) <= _).
  by rewrite -!addnA leq_add2r.
rewrite /w; lia.
Qed.

End Compare.

(** For every circuit (of [num_inp], [num_and] and [num_xor] wires and gates) and
    all parameters the estimates of both phases are at most the bytes of field
    elements that the programs send (the messages of [C67] without their headers
    of eight bytes); without INV gates the estimate of garbling is at most
    [8 K n^2] elements below (the script rounds the number of batches once instead
    of once per column); and both estimates are exact if moreover the numbers of
    blocks are multiples of [l].  The noise parameter is 2, as in the code. *)
Theorem C68_estimate : forall fb n t l dim K M c circ d,
  pack c (N.of_nat l) = Some circ -> describe circ n t l (Lpn K M) = Some d -> t < n -> 0 < dim ->
  let R := EstModel.semihon_protocol (EstModel.Params fb n t l dim K M 2) (num_inps c) (num_ands c) (num_xors c) in
  let cost m := (fb + 7) %/ 8 * m in
  [/\ EstModel.r_garbling R <= garble_total cost n l K circ,
      EstModel.r_preproc R <= preproc_total cost n (n - t) dim d,
      num_invs c = 0 -> garble_total cost n l K circ <= EstModel.r_garbling R + 8 * K * n * n * ((fb + 7) %/ 8) &
      num_invs c = 0 -> l %| size (p_inputs circ) + size (p_gates circ) -> l %| 2 * size (p_gates circ) ->
        EstModel.r_garbling R = garble_total cost n l K circ /\ EstModel.r_preproc R = preproc_total cost n (n - t) dim d].
Proof.
move=> fb n t l dim K M c circ d Hp Hd Hn Hdim R cost.
have Hl := pack_pos Hp; have [_ [Ei Eg]] := C68_blocks Hp.
have V0 : num_invs c = 0 -> ceil_div (num_invs c) l = 0.
  by move=> ->; rewrite /ceil_div add0n subn1 divn_small // prednK.
have [L1 L2] := est_le fb Hp Hd Hn Hdim.
have L3 := est_near fb Hp Hd Hn Hdim; have L4 := est_exact fb Hp Hd Hn Hdim; cbv zeta in L1, L2, L3, L4.
rewrite {}/R {}/cost; split; [exact: L1|exact: L2|exact: L3|].
move=> H0; rewrite Ei Eg (V0 H0) addn0 addnA => D1 D2; exact (L4 H0 D1 D2).
Qed.
Print Assumptions C68_estimate.

(** INV gates are missing from the script: every block of them makes all parties
    together send at least [10 K + 6] elements per party more than estimated. *)
Theorem C68_inv_gates : forall fb n t l dim K M c circ d,
  pack c (N.of_nat l) = Some circ -> describe circ n t l (Lpn K M) = Some d -> t < n -> 0 < dim ->
  let R := EstModel.semihon_protocol (EstModel.Params fb n t l dim K M 2) (num_inps c) (num_ands c) (num_xors c) in
  let fc := (fb + 7) %/ 8 in
  EstModel.r_garbling R + n * fc * (10 * K + 6) * ceil_div (num_invs c) l <= garble_total (fun m => fc * m) n l K circ.
Proof.
move=> fb n t l dim K M c circ d Hp Hd Hn Hdim; cbv zeta.
have L := est_inv fb Hp Hd Hn Hdim; cbv zeta in L; apply: leq_trans L; rewrite leq_add2l.
by move: (ceil_div _ _) (_ %/ 8) => v f; rewrite leq_eqVlt; apply/orP; left; apply/eqP; lia.
Qed.
Print Assumptions C68_inv_gates.

(** ** The programs *)

Lemma byte_len_split (w : N) m : byte_len w m = 8 + (N.to_nat w + 7) %/ 8 * m.
Proof.
rewrite /byte_len mulnC; congr (8 + _ * m).
have E := N.div_mod (w + 7)%num 8%num; have L := N.mod_lt (w + 7)%num 8%num.
by move: ((w + 7) / 8)%num ((w + 7) mod 8)%num E L => q r E L; lia.
Qed.

Lemma garble_total_split (w : N) n l K circ :
  garble_total (byte_len w) n l K circ =
  8 * garble_total (fun _ => 1) n l K circ + garble_total (fun m => (N.to_nat w + 7) %/ 8 * m) n l K circ.
Proof.
rewrite /garble_total; case: get_gate_counts => [[a x] v]; rewrite !byte_len_split.
cbv beta zeta; move: (_ %/ 8) (size (p_inputs circ) + size (p_gates circ)) (size (flatten _)) => fc nb ni.
by move: (ceil_div nb l) (ceil_div ni l) => B1 B2; lia.
Qed.

Lemma preproc_total_split (w : N) n B C d :
  preproc_total (byte_len w) n B C d =
  8 * preproc_total (fun _ => 1) n B C d + preproc_total (fun m => (N.to_nat w + 7) %/ 8 * m) n B C d.
Proof.
rewrite /preproc_total !byte_len_split; cbv beta zeta.
move: (n_errors d %/ n) => v; move: (n_errors d - n.-1 * v) n.-1 => u m.
move: ((_ + _) %/ 8) (ceil_div _ B) (ceil_div _ B) (ceil_div _ C) => fc x y z; lia.
Qed.

Lemma rest_split x (m g e : nat) : e <= g -> x + (8 * m + g) = x + 8 * m + e + (g - e).
Proof. lia. Qed.

(** bin/garble.rs over TCP: in every execution the bytes of all messages are
    [reps] times the bytes of the synchronisation, eight for every message and at
    least the script's estimate. *)
Theorem C68_garble_program : forall (w : width) (H : eqType) (sha : seq N -> H) h0 draws hash
    (G : Type) (seed_from : N -> G) gf_rand gen_bool (syn : bytes) text c circ n t l dim K M reps coins,
  from_bristol_fashion text = Some c -> well_formed c -> pack c (N.of_nat l) = Some circ ->
  (0 < l)%N -> (t + 2 * l <= n <= 2 ^ 16)%N -> (2 * (t + l - 1) <= n - 1)%N -> (0 < dim)%N ->
  (N.of_nat n + N.of_nat l + c_num_wires c <= 2 ^ w)%num -> (N.of_nat M < 2 ^ w)%num ->
  (8 + N.of_nat (4 * K + 3) * ((w + 7) / 8) < 2 ^ 62)%num ->
  let ng := N.of_nat (length (p_gates circ)) in
  let nb := (N.of_nat (length (p_inputs circ)) + ng)%num in
  let ni := ProtoIdModel.num_inp_blocks (p_gates circ) in
  (0 < nb <= 2 ^ 48)%num -> (ni <= 2 ^ 48)%num ->
  (forall x, In x [:: 4 + ng; nb; ni; (nb + N.of_nat l - 1) / N.of_nat l; (ni + N.of_nat l - 1) / N.of_nat l]%num ->
     ~ exists k, x = (256 ^ k)%num) ->
  let R := EstModel.semihon_protocol (EstModel.Params (N.to_nat w) n t l dim K M 2) (num_inps c) (num_ands c) (num_xors c) in
  ends_in (sstep n raw (tnstep n) t_out)
    (fun s => (exists res, stack_done n t_out res s) /\ exists msgs rest,
        [/\ \sum_(j < n) \sum_(r < n) tally (fun _ => 1) (got_from (t_out (s_net s) r) j) = reps * (n * n + msgs),
            \sum_(j < n) \sum_(r < n) tally id (got_from (t_out (s_net s) r) j) =
              reps * (n * n * size (raw syn) + 8 * msgs + EstModel.r_garbling R + rest) &
            num_invs c = 0 -> rest <= 8 * K * n * n * ((N.to_nat w + 7) %/ 8)])
    (stack_start n tinit (fun i => garble_bin (gf_of w) (@bser w) (@bde w) syn sha h0 draws hash seed_from gf_rand gen_bool
       text i n t l (Lpn K M) reps (fun r => coins r i) (fun ys => Ret (Node [seq garble_val y | y <- ys])))).
Proof.
move=> w H sha h0 draws hash G seed_from gf_rand gen_bool syn text c circ n t l dim K M reps coins.
move=> Ht Hwf Hp Hl Hn Hd Hdim Hw HM HK ng nb ni Hb Hni Hpow R.
have [d Ed] : exists d, describe circ n t l (Lpn K M) = Some d.
  rewrite /describe; case: get_gate_counts => [[a x] v].
  have nbs a' : num_batches a' l = Some (ceil_div a' l) by case: (l) Hl.
  by rewrite !nbs; eexists.
have Htn : t < n by clear -Hl Hn; lia.
have [L1 _ L3 _] := C68_estimate (N.to_nat w) Hp Ed Htn Hdim; rewrite -/R in L1 L3; cbv zeta in L1, L3.
have [l1 [l2 [_ HE]]] := C67_garble_program sha h0 draws hash seed_from gf_rand gen_bool syn reps coins Ht Hwf Hp Hl Hn Hd Hw HM HK Hb Hni Hpow.
apply: ends_in_mono HE => s [Hs _ Htot]; split; first exact: Hs.
exists (garble_total (fun _ => 1) n l K circ), (garble_total (fun m => (N.to_nat w + 7) %/ 8 * m) n l K circ - EstModel.r_garbling R).
split; first by rewrite Htot muln1.
  rewrite Htot [garble_total (id \o _) _ _ _ _]garble_total_split; congr (reps * _).
  exact (rest_split _ _ L1).
by move=> H0; rewrite leq_subLR; exact: L3.
Qed.
Print Assumptions C68_garble_program.

(** bin/preproc.rs likewise; [binsup_dim] is the length of the lines of the
    matrix file. *)
Theorem C68_preproc_program : forall (w : width) (syn : bytes) text c circ (bs : seq (seq bool)) es C n t l K M d reps
    (r : nat -> nat -> coins (gf_fieldType w)),
  from_bristol_fashion text = Some c -> pack c (N.of_nat l) = Some circ -> describe circ n t l (Lpn K M) = Some d ->
  size bs = n -> size es = n -> ends_ok es -> (0 < C)%N -> all (fun row => size row == C) bs ->
  (0 < l)%N -> (t + l <= n)%N -> (2 * (t + l - 1) <= n - 1)%N -> (N.of_nat n + N.of_nat l <= 2 ^ w)%num ->
  let most := maxn (keys_total d + n_randoms d + 3 * n_errors d) (maxn (n_zeros d + 2 * n_errors d) (n_masks d + 2 * n_errors d)) in
  (8 + N.of_nat most * ((w + 7) / 8) < 2 ^ 62)%num ->
  let R := EstModel.semihon_protocol (EstModel.Params (N.to_nat w) n t l C K M 2) (num_inps c) (num_ands c) (num_xors c) in
  ends_in (sstep n raw (tnstep n) t_out)
    (fun s => (exists res, stack_done n t_out res s) /\ exists msgs rest,
        [/\ \sum_(j < n) \sum_(r < n) tally (fun _ => 1) (got_from (t_out (s_net s) r) j) = reps * (n * n + msgs),
            \sum_(j < n) \sum_(r < n) tally id (got_from (t_out (s_net s) r) j) =
              reps * (n * n * size (raw syn) + 8 * msgs + EstModel.r_preproc R + rest) &
            num_invs c = 0 -> l %| size (p_inputs circ) + size (p_gates circ) -> l %| 2 * size (p_gates circ) -> rest = 0])
    (stack_start n tinit (fun i => preproc_bin (gf_of w) (@bser w) (@bde w) syn text (matrix_text bs es) i n t l (Lpn K M) reps (fun q => r q i)
       (fun ys => Ret (Node [seq pp_val y | y <- ys])))).
Proof.
move=> w syn text c circ bs es C n t l K M d reps r Ht Hp Ed Zb Ze He HC Hrows Hl Htl Hd Hw most Hft R.
have Htn : t < n by clear -Hl Htl; lia.
have [_ L2 _ L4] := C68_estimate (N.to_nat w) Hp Ed Htn HC; rewrite -/R in L2 L4; cbv zeta in L2, L4.
have HE := C67_preproc_program syn reps r Ht Hp Ed Zb Ze He HC Hrows Hl Htl Hd Hw Hft.
apply: ends_in_mono HE => s [Hs _ Htot]; split; first exact: Hs.
exists (preproc_total (fun _ => 1) n (n - t) C d), (preproc_total (fun m => (N.to_nat w + 7) %/ 8 * m) n (n - t) C d - EstModel.r_preproc R).
split; first by rewrite Htot muln1.
  rewrite Htot [preproc_total (id \o _) _ _ _ _]preproc_total_split; congr (reps * _).
  exact (rest_split _ _ L2).
by move=> H0 D1 D2; have [_ ->] := L4 H0 D1 D2; rewrite subnn.
Qed.
Print Assumptions C68_preproc_program.

(** ** Examples *)

(** Two inputs, an AND and an XOR gate. *)
Definition source2 : circuit := Circuit [:: And 0 1 2; Xor 2 0 3]%num [:: [:: 0]; [:: 1]]%num [:: [:: 3]]%num 4.

(** The estimates are not exact: not without INV gates (blocks of two wires), and
    not for the circuit of [C54_example], which has an INV gate (blocks of one). *)
Definition estimates_exact (n t l K : nat) (c : circuit) : Prop :=
  forall circ d, pack c (N.of_nat l) = Some circ -> describe circ n t l (Lpn K 2) = Some d ->
  let R := EstModel.semihon_protocol (EstModel.Params 4 n t l 1 K 2 2) (num_inps c) (num_ands c) (num_xors c) in
  EstModel.r_garbling R = garble_total (fun m => (4 + 7) %/ 8 * m) n l K circ /\
  EstModel.r_preproc R = preproc_total (fun m => (4 + 7) %/ 8 * m) n (n - t) 1 d.

Theorem C68_exact_refuted : ~ estimates_exact 5 1 2 1 source2 /\ num_invs source2 = 0 /\ ~ estimates_exact 3 1 1 1 source3.
Proof.
split; [|split=> //].
- have [circ [d [E1 E2 N]]] : exists circ d, [/\ pack source2 (N.of_nat 2) = Some circ, describe circ 5 1 2 (Lpn 1 2) = Some d &
    garble_total (fun m => (4 + 7) %/ 8 * m) 5 2 1 circ <> 850] by eexists _, _; split.
  by move=> H; have [X _] := H _ _ E1 E2; apply: N; rewrite -X.
- have [circ [d [E1 E2 N]]] : exists circ d, [/\ pack source3 (N.of_nat 1) = Some circ, describe circ 3 1 1 (Lpn 1 2) = Some d &
    garble_total (fun m => (4 + 7) %/ 8 * m) 3 1 1 circ <> 630] by eexists _, _; split.
  by move=> H; have [X _] := H _ _ E1 E2; apply: N; rewrite -X.
Qed.
Print Assumptions C68_exact_refuted.

(** Beside [C67_example], whose hypotheses the theorems share: with blocks of one
    wire the circuit without INV gates meets the condition of exactness. *)
Example C68_example : exists circ d,
  [/\ pack source2 (N.of_nat 1) = Some circ, describe circ 3 1 1 (Lpn 1 2) = Some d, 1 < 3 /\ 0 < 1 &
      [/\ num_invs source2 = 0, 1 %| size (p_inputs circ) + size (p_gates circ) & 1 %| 2 * size (p_gates circ)]] /\
  [/\ garble_total (fun m => m) 3 1 1 circ = 630,
      EstModel.r_garbling (EstModel.semihon_protocol (EstModel.Params 4 3 1 1 1 1 2 2) 2 1 1) = 630 &
      EstModel.r_preproc (EstModel.semihon_protocol (EstModel.Params 4 3 1 1 1 1 2 2) 2 1 1) = 2082].
Proof. by eexists _, _; split; split. Qed.

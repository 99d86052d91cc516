(** Property theorems C64: which coalitions the shipped binary matrices hide
    random bits from. *)

From Coq Require Import NArith.
From mathcomp Require Import all_ssreflect all_algebra zify.
From Verif Require Import MathModel MatFileModel SharingModel SharingSpec MachineModel MachineProofs Realize CoreModel CoreSpec CoreProofs.
From Verif Require Import PreprocModel PreprocSpec PreprocProofs HideSpec SupmatModel GFField GFCodec P_Math P_Core P_Preproc P_MatFile P_View P_Leak.
Set Implicit Arguments.
Unset Strict Implicit.
Unset Printing Implicit Defensive.
Import GRing.Theory.
Local Open Scope ring_scope.

(** ** C64 *)

(** The text of a file: a line per party, each with a line feed. *)
Definition file_of (bs : seq (seq bool)) : seq N := matrix_text bs (nseq (size bs) [:: 10%num]).

(** The parity of the entries of a line at the places chosen. *)
Definition dot (c row : seq bool) : bool := foldr addb false [seq x.1 && x.2 | x <- zip c row].

Section Bits.
Variable F : fieldType.
Hypothesis C2 : 1 + 1 = 0 :> F.

Lemma natr_addb (a b : bool) : (addb a b)%:R = a%:R + b%:R :> F.
Proof. case: a; case: b; by rewrite /= ?addr0 ?add0r // C2. Qed.

Lemma sum_dot (c : nat -> bool) (row : seq bool) : \sum_(r < size row) (if c r then (nth false row r)%:R else 0) =
  (dot [seq c r | r <- iota 0 (size row)] row)%:R :> F.
Proof.
  elim: row c => [|b row IH] c; first by rewrite big_ord0.
  rewrite big_ord_recl /= (iotaDl 1 0) -map_comp /dot /= natr_addb -/(dot _ _).
  rewrite -(IH (c \o addn 1)). congr (_ + _); first by case: (c 0%N).
Qed.

Lemma file_ends (bs : seq (seq bool)) : bs <> [::] -> ends_ok (nseq (size bs) [:: 10%num]).
Proof.
  case: bs => // r bs _. rewrite /ends_ok size_nseq. apply/andP. split.
  - apply/allP => x /mem_take. rewrite mem_nseq => /andP [_ /eqP ->]. by rewrite !inE.
  - elim: bs => //.
Qed.

Lemma loaded (bs : seq (seq bool)) k (M : mat F) : bs <> [::] -> (0 < k)%N -> all (fun r => size r == k) bs ->
  binary_super_inv_matrix F (file_of bs) = Some M ->
  [/\ ncols M = size bs, size (rows M) = k & forall i j, (i < k)%N -> (j < size bs)%N -> entry M i j = (nth false (nth [::] bs j) i)%:R].
Proof.
  move=> H0 Hk Hall. have [|m [E H1 H2 H3]] := C52_transpose F (es := nseq (size bs) [:: 10%num]) _ H0 (file_ends H0) Hk Hall.
  - by rewrite size_nseq.
  - by rewrite /file_of E => -[<-].
Qed.

Lemma file_sum (bs : seq (seq bool)) k (M : mat F) (c : nat -> bool) s : bs <> [::] -> (0 < k)%N -> all (fun r => size r == k) bs ->
  binary_super_inv_matrix F (file_of bs) = Some M -> (s < size bs)%N ->
  \sum_(r < size (rows M)) (if c r then entry M r s else 0) = (dot [seq c r | r <- iota 0 k] (nth [::] bs s))%:R.
Proof.
  move=> H0 Hk Hall E Hs. have [H1 H2 H3] := loaded H0 Hk Hall E.
  have Es : size (nth [::] bs s) = k by apply/eqP; apply: (allP Hall); apply: mem_nth.
  have := sum_dot c (nth [::] bs s). rewrite Es H2 => <-. apply: eq_bigr => r _. by rewrite H3.
Qed.
End Bits.

Lemma not_hidden n k t bs c : size bs = n -> bs <> [::] -> (0 < k)%N -> all (fun r => size r == k) bs ->
  size c = k -> true \in c -> (seq.count (dot c) bs <= t)%N ->
  let A := [seq s <- iota 0 n | dot c (nth [::] bs s)] in
  coalition n t A /\ forall (F : fieldType) (M : mat F), 1 + 1 = 0 :> F ->
    binary_super_inv_matrix F (file_of bs) = Some M -> ~ hides_bits n M A.
Proof.
  move=> <- H0 Hk Hall Sc Hc Hw A. split.
  - split; first by rewrite filter_uniq // iota_uniq.
    + apply/allP => s. by rewrite mem_filter mem_iota => /andP [_ /andP []].
    + apply: leq_trans Hw. rewrite size_filter -{3}(mkseq_nth [::] bs) /mkseq count_map. by apply/eq_leq/eq_count.
  - move=> F M C2 E Hh. have [i Hi Ei] := nthP false Hc. have := Hh (nth false c) _ i. rewrite Ei => X.
    have [_ Er _] := loaded H0 Hk Hall E. suff : true = false by []. apply: X; last by rewrite Er -Sc.
    move=> s Hs. rewrite mem_filter mem_iota /= Hs andbT (file_sum C2 _ H0 Hk Hall E Hs).
    have -> : [seq nth false c r | r <- iota 0 k] = c by rewrite -Sc; exact: (mkseq_nth false c).
    by case: (dot _ _).
Qed.

(** A matrix file hides sums of random bits from all sets of at most [t] parties
    iff its lines are a code with distance above [t]: whichever columns are
    added, more than [t] parties have a 1 in the sum. *)
Theorem C64_hides_iff_distance : forall (F : fieldType) bs k t (M : mat F), 1 + 1 = 0 :> F ->
  bs <> [::] -> (0 < k)%N -> all (fun r => size r == k) bs -> binary_super_inv_matrix F (file_of bs) = Some M ->
  (forall A, coalition (size bs) t A -> hides_bits (size bs) M A) <->
  (forall c, size c = k -> true \in c -> (t < seq.count (dot c) bs)%N).
Proof.
  move=> F bs k t M C2 H0 Hk Hall E. pose n := size bs.
  have N1 (b : bool) : (b%:R == 0 :> F) = ~~ b by case: b; rewrite ?oner_eq0 ?eqxx.
  have Cnt c : seq.count (dot c) bs = size [seq s <- iota 0 n | dot c (nth [::] bs s)].
  { rewrite size_filter. rewrite -{1}(mkseq_nth [::] bs) /mkseq count_map. by apply: eq_count. }
  split=> [H c Sc Hc|H A [UA HA tA] c Hc r].
  - rewrite ltnNge. apply/negP => Hw. have [HA Hn] := not_hidden (erefl (size bs)) H0 Hk Hall Sc Hc Hw. exact: (Hn F M C2 E (H _ HA)).
  - have [_ Er _] := loaded H0 Hk Hall E. rewrite Er => Hr. apply: negbTE. apply/negP => Hcr.
    pose w := [seq c r | r <- iota 0 k].
    have Sw : size w = k by rewrite size_map size_iota.
    have Hw : true \in w by rewrite -Hcr; apply: map_f; rewrite mem_iota.
    have := H w Sw Hw. rewrite Cnt ltnNge => /negP. apply. apply: leq_trans tA. apply: uniq_leq_size; first by rewrite filter_uniq // iota_uniq.
    move=> s. rewrite mem_filter mem_iota /= => /andP [Hd Hs]. apply: contraLR Hd => HsA.
    have := Hc s Hs HsA. rewrite (file_sum C2 _ H0 Hk Hall E Hs) -/w => /eqP. by rewrite N1.
Qed.
Print Assumptions C64_hides_iff_distance.

(** If some rows add up to zero but at the parties in [A], these know the sum of the
    results of [randbit] for these rows: it is given by the bits they drew. *)
Theorem C64_known_to_coalition : forall (F : fieldType) (emb : nat -> F) (I D : eqType) ser de fits n t l P Pn
    (M : mat F) (id : I) num b (bit : nat -> nat -> nat -> bool) (coin : nat -> nat -> nat -> F) (A : seq nat) (c : nat -> bool),
  @codec_ok F D ser de fits -> setting emb n t l P Pn ->
  let B := size (rows M) in
  (0 < B)%N -> ncols M = n -> (num <= B * b < num + B)%N -> fits b -> 1 + 1 = 0 :> F -> binary M ->
  (forall s, (s < n)%N -> s \notin A -> \sum_(r < B) (if c r then entry M r s else 0) = 0) ->
  every_run_ends n
    (start (fun i => randbit ser de (Ctx i n t l P Pn) M id num (bit i) (coin i) (fun x => Ret (Leaf [:: x]))))
    (fun cf => exists res sec,
       [/\ all_done n (fun i => Leaf [:: res i]) cf,
           sharings emb n (t + l).-1 (default_pos emb n l) (B * b) res sec,
           forall j, (j < B * b)%N -> bits (sec j) &
           forall j q, (j < b)%N -> (q < l)%N -> \sum_(r < B) (if c r then nth 0 (sec (r * b + j)%N) q else 0) =
             \sum_(s < n | nat_of_ord s \in A) (\sum_(r < B) (if c r then entry M r s else 0)) * (if bit s j q then 1 else 0)]).
Proof.
  move=> F emb I D ser de fits n t l P Pn M id num b bit coin A c serK HS B HB HM Hb Hf C2 HMb Hc.
  apply: ends_mono (C34_randbit id bit coin serK HS HB HM Hb Hf C2 HMb) => cf [p [res [sec [_ H1 _ H3 H4]]]].
  exists res, sec. split=> // [j Hj|j q Hj Hq]; first by have [] := H4 j Hj.
  have b0 : (0 < b)%N by apply: leq_ltn_trans Hj.
  have Es r : (r < B)%N -> nth 0 (sec (r * b + j)%N) q = \sum_(s < n) entry M r s * (if bit s j q then 1 else 0).
  { move=> Hr. have Hrb : (r * b + j < B * b)%N by clear -Hr Hj; nia.
    have [_ ->] := H4 _ Hrb => //. by rewrite divnMDl // divn_small // addn0 modnMDl modn_small. }
  rewrite (eq_bigr (fun r : 'I_B => \sum_(s < n) (if c r then entry M r s else 0) * (if bit s j q then 1 else 0))); last first.
  { move=> r _. case: (c r); first by rewrite Es. by rewrite big1 // => s _; rewrite mul0r. }
  rewrite exchange_big (bigID (fun s : 'I_n => nat_of_ord s \in A)) /= addrC big1 ?add0r => [|s Hs].
  - by apply: eq_bigr => s _; rewrite mulr_suml.
  - by rewrite -mulr_suml Hc // mul0r.
Qed.
Print Assumptions C64_known_to_coalition.

(** All sums of the columns have more than [t] ones. *)
Fixpoint heavy_from (t : nat) (G : seq (seq bool)) (acc : seq bool) : bool :=
  if G is g :: G' then heavy_from t G' acc && heavy_from t G' [seq addb x.1 x.2 | x <- zip acc g]
  else (t < seq.count id acc)%N.
Fixpoint heavy (t : nat) (G : seq (seq bool)) : bool :=
  if G is g :: G' then heavy_from t G' g && heavy t G' else true.
Definition columns (k : nat) (bs : seq (seq bool)) : seq (seq bool) := [seq [seq nth false row r | row <- bs] | r <- iota 0 k].

Lemma heavy_fromP t n G acc c : heavy_from t G acc -> size acc = n -> all (fun g => size g == n) G -> size c = size G ->
  (t < seq.count (fun s => addb (nth false acc s) (dot c [seq nth false g s | g <- G])) (iota 0 n))%N.
Proof.
  elim: G acc c => [|g G IH] acc [|x c] //= H Sa.
  - move=> _ _. rewrite (eq_count (a2 := id \o nth false acc)) => [|s]; last by rewrite /= addbF.
    by rewrite -count_map -Sa -/(mkseq _ _) mkseq_nth.
  - move=> /andP [/eqP Sg SG] [Sc]. case/andP: H => H1 H2. case: x.
    + have Sz : size [seq addb y.1 y.2 | y <- zip acc g] = n by rewrite size_map size_zip Sa Sg minnn.
      have := IH _ c H2 Sz SG Sc. congr (is_true (_ < _)%N). apply: eq_in_count => s. rewrite mem_iota /= => Hs.
      by rewrite (nth_map (false, false)) ?size_zip ?Sa ?Sg ?minnn // nth_zip ?Sa ?Sg //= /dot /= addbA.
    + exact: IH.
Qed.

Lemma heavyP t n G c : heavy t G -> all (fun g => size g == n) G -> size c = size G -> true \in c ->
  (t < seq.count (fun s => dot c [seq nth false g s | g <- G]) (iota 0 n))%N.
Proof.
  elim: G c => [|g G IH] [|x c] //= /andP [H1 H2] /andP [/eqP Sg SG] [Sc]. rewrite inE. case: x => [_|/= Hc].
  - exact: heavy_fromP H1 Sg SG Sc.
  - exact: IH.
Qed.

Lemma heavy_columns t k bs c : heavy t (columns k bs) -> all (fun r => size r == k) bs -> size c = k -> true \in c ->
  (t < seq.count (dot c) bs)%N.
Proof.
  move=> H Hall Sc Hc. have := heavyP (n := size bs) H _ _ Hc. rewrite size_map size_iota => /(_ _ Sc) X.
  rewrite -{1}(mkseq_nth [::] bs) /mkseq count_map. apply: leq_trans (X _) _.
  - apply/allP => g /mapP [r _ ->]. by rewrite size_map.
  - rewrite (eq_in_count (a2 := dot c \o nth [::] bs)) // => s. rewrite mem_iota /= => Hs. congr dot.
    have Es : size (nth [::] bs s) = k by apply/eqP; apply: (allP Hall); apply: mem_nth.
    rewrite -map_comp -[RHS](mkseq_nth false) Es. apply: eq_map => r /=. by rewrite (nth_map [::]).
Qed.

(** The file for the parameters of the README: it hides from any four
    parties, ... *)
Theorem C64_n16_t5_hides_from_4 : forall (F : fieldType) (M : mat F) A, 1 + 1 = 0 :> F ->
  binary_super_inv_matrix F (file_of n16_t5) = Some M -> coalition 16 4 A -> hides_bits 16 M A.
Proof.
  move=> F M A C2 E. apply: (C64_hides_iff_distance (k := 7) 4 C2 _ _ _ E).2 => // c Sc Hc.
  by apply: heavy_columns Sc Hc.
Qed.
Print Assumptions C64_n16_t5_hides_from_4.

(** ... and not from five: parties 0, 4, 11, 12 and 13 know the sum of the results
    for rows 0 and 4. *)
Theorem C64_n16_t5_refuted : let A := [:: 0; 4; 11; 12; 13]%N in coalition 16 5 A /\
  forall (F : fieldType) (M : mat F), 1 + 1 = 0 :> F -> binary_super_inv_matrix F (file_of n16_t5) = Some M -> ~ hides_bits 16 M A.
Proof. by apply: (@not_hidden 16 7 5 n16_t5 [:: true; false; false; false; true; false; false]). Qed.
Print Assumptions C64_n16_t5_refuted.

(** Which sets of five: *)
Definition five_leaks : seq (seq nat) :=
  [:: [:: 0; 4; 11; 12; 13]; [:: 1; 4; 7; 10; 13]; [:: 0; 1; 2; 4; 8]; [:: 1; 5; 12; 13; 14];
      [:: 2; 5; 8; 11; 14]; [:: 1; 2; 3; 5; 9]; [:: 2; 3; 4; 6; 10]; [:: 5; 6; 7; 9; 13]]%N.

Fixpoint words (k : nat) : seq (seq bool) :=
  if k is k'.+1 then [seq true :: w | w <- words k'] ++ [seq false :: w | w <- words k'] else [:: [::]].

Lemma words_all k w : size w = k -> w \in words k.
Proof.
  elim: k w => [|k IH] [|b w] //= [Sw]. rewrite mem_cat. apply/orP. case: b; [left|right]; exact: map_f (IH w Sw).
Qed.

Definition ones (w : seq bool) : seq nat := [seq s <- iota 0 16 | dot w (nth [::] n16_t5 s)].

Theorem C64_n16_t5_exactly : forall (F : fieldType) (M : mat F) A, 1 + 1 = 0 :> F ->
  binary_super_inv_matrix F (file_of n16_t5) = Some M -> coalition 16 5 A ->
  hides_bits 16 M A <-> forall S, S \in five_leaks -> ~~ all (fun i => i \in A) S.
Proof.
  move=> F M A C2 E [UA HA tA]. have N0 : n16_t5 <> [::] by [].
  have [Ec Er Ee] := loaded (k := 7) N0 isT isT E.
  have N1 (b : bool) : (b%:R == 0 :> F) = ~~ b by case: b; rewrite ?oner_eq0 ?eqxx.
  split=> [Hh S HS|H c Hc r].
  - have : all (fun S => has (fun w => (true \in w) && (size w == 7%N) && (ones w == S)) (words 7)) five_leaks by vm_compute.
    move=> /allP /(_ S HS) /hasP [w _ /andP [/andP [Hw /eqP Sw] /eqP ES]]. apply/negP => HSA.
    have [i Hi Ei] := nthP false Hw. suff : true = false by []. rewrite -[LHS]Ei. apply: Hh; last by rewrite Er -Sw.
    move=> s Hs HsA. rewrite (file_sum C2 _ N0 (isT : (0 < 7)%N) isT E Hs).
    have -> : [seq nth false w r | r <- iota 0 7] = w by rewrite -Sw; exact: (mkseq_nth false w).
    have : s \notin S by apply: contra HsA => HsS; exact: (allP HSA).
    rewrite -ES mem_filter mem_iota /= Hs andbT => /negbTE ->. by [].
  - rewrite Er => Hr. apply: negbTE. apply/negP => Hcr. pose w := [seq c r | r <- iota 0 7].
    have Hw : true \in w by rewrite -Hcr; apply: map_f; rewrite mem_iota.
    have Ho : {subset ones w <= A}.
    { move=> s. rewrite mem_filter mem_iota /= => /andP [Hd Hs]. apply: contraLR Hd => HsA.
      have := Hc s Hs HsA. rewrite (file_sum C2 _ N0 (isT : (0 < 7)%N) isT E Hs) -/w => /eqP. by rewrite N1. }
    have So : (size (ones w) <= 5)%N.
    { apply: leq_trans tA. apply: uniq_leq_size => //. by rewrite filter_uniq // iota_uniq. }
    have : all (fun w => (true \in w) && (size (ones w) <= 5)%N ==> (ones w \in five_leaks)) (words 7) by vm_compute.
    move=> /allP /(_ w (words_all (size_map _ _))). rewrite Hw So => /H /negP. apply. apply/allP. exact: Ho.
Qed.
Print Assumptions C64_n16_t5_exactly.

(** In every run of [randbit] with this file, whatever the bits drawn. *)
Theorem C64_readme_leak : forall (F : fieldType) (emb : nat -> F) (I D : eqType) ser de fits l P Pn
    (M : mat F) (id : I) num b (bit : nat -> nat -> nat -> bool) (coin : nat -> nat -> nat -> F),
  @codec_ok F D ser de fits -> setting emb 16 5 l P Pn -> 1 + 1 = 0 :> F ->
  binary_super_inv_matrix F (file_of n16_t5) = Some M -> (num <= 7 * b < num + 7)%N -> fits b ->
  every_run_ends 16
    (start (fun i => randbit ser de (Ctx i 16 5 l P Pn) M id num (bit i) (coin i) (fun x => Ret (Leaf [:: x]))))
    (fun cf => exists res sec,
       [/\ all_done 16 (fun i => Leaf [:: res i]) cf,
           sharings emb 16 (5 + l).-1 (default_pos emb 16 l) (7 * b) res sec,
           forall j, (j < 7 * b)%N -> bits (sec j) &
           forall j q, (j < b)%N -> (q < l)%N -> nth 0 (sec j) q + nth 0 (sec (4 * b + j)%N) q =
             \sum_(s <- [:: 0; 4; 11; 12; 13]%N) (if bit s j q then 1 else 0)]).
Proof.
  move=> F emb I D ser de fits l P Pn M id num b bit coin serK HS C2 E Hb Hf.
  have N0 : n16_t5 <> [::] by [].
  have [Ec Er Ee] := loaded (k := 7) N0 isT isT E.
  have Hc s : (s < 16)%N -> \sum_(r < size (rows M)) (if (nat_of_ord r == 0%N) || (nat_of_ord r == 4%N) then entry M r s else 0) =
     (s \in [:: 0; 4; 11; 12; 13]%N)%:R.
  { move=> Hs. rewrite (file_sum (k := 7) C2 (fun r => (r == 0%N) || (r == 4%N)) N0 isT isT E Hs). congr (nat_of_bool _)%:R. have : all (fun s => dot [seq (r == 0%N) || (r == 4%N) | r <- iota 0 7] (nth [::] n16_t5 s) == (s \in [:: 0; 4; 11; 12; 13]%N)) (iota 0 16) by vm_compute.
    move=> /allP /(_ s). rewrite mem_iota => /(_ Hs) /eqP. exact. }
  have := @C64_known_to_coalition F emb I D ser de fits 16 5 l P Pn M id num b bit coin [:: 0; 4; 11; 12; 13]%N (fun r => (r == 0%N) || (r == 4%N)) serK HS.
  rewrite /= Er in Hc *. move=> /(_ isT Ec Hb Hf C2 (C52_only_bits E)) X.
  apply: (ends_mono _ (X _)); last first.
  - move=> s Hs HA. by rewrite Hc // (negbTE HA).
  - move=> cf [res [sec [H1 H2 H3 H4]]]. exists res, sec. split=> // j q Hj Hq. have := H4 j q Hj Hq.
    rewrite !big_ord_recl big_ord0 /= !addr0 !add0r mul0n add0n => ->.
    rewrite (eq_bigr (fun s : 'I_16 => if bit s j q then 1 else 0)) => [|s Hs]; last first.
    { by rewrite Hc ?ltn_ord // Hs mul1r. }
    rewrite big_mkcond !big_ord_recl big_ord0 !big_cons big_nil /= !addr0 !add0r. by [].
Qed.
Print Assumptions C64_readme_leak.

(** The README's parameters over GF(32): 16 parties, 5 of them corrupt, 3 secrets in
    a sharing, and the file is accepted. *)
Example C64_example : exists P Pn (M : mat (gf_fieldType w5)),
  [/\ setting g5 16 5 3 P Pn, codec_ok (@gser w5) (@gde w5) len_ok, 1 + 1 = 0 :> gf w5,
      binary_super_inv_matrix _ (file_of n16_t5) = Some M & (20 <= 7 * 3 < 20 + 7)%N /\ len_ok 3].
Proof.
  have [P [Pn HS]] : exists P Pn, setting g5 16 5 3 P Pn by do 2 eexists; split; [by []|reflexivity|reflexivity|by vm_compute].
  have N0 : n16_t5 <> [::] by []. have Hall : all (fun r => size r == 7%N) n16_t5 by vm_compute.
  have [|M [E _ _ _]] := C52_transpose (gf_fieldType w5) (es := nseq (size n16_t5) [:: 10%num]) _ N0 (file_ends N0) (isT : (0 < 7)%N) Hall.
  - by rewrite size_nseq.
  - exists P, Pn, M. split=> //; [exact: gserK|exact: gf_char2].
Qed.

(** The file for 128 parties hides from any 31, even from any 39, ... *)
Lemma n128_heavy : heavy 39 (columns 14 n128_t31).
Proof. by vm_compute. Qed.

Theorem C64_n128_t31_hides : forall (F : fieldType) (M : mat F) A, 1 + 1 = 0 :> F ->
  binary_super_inv_matrix F (file_of n128_t31) = Some M -> coalition 128 39 A -> hides_bits 128 M A.
Proof.
  move=> F M A C2 E. have N0 : n128_t31 <> [::] by []. have Hall : all (fun r => size r == 14%N) n128_t31 by vm_compute.
  apply: (C64_hides_iff_distance (k := 14) 39 C2 N0 isT Hall E).2 => c Sc Hc.
  exact: heavy_columns n128_heavy Hall Sc Hc.
Qed.
Print Assumptions C64_n128_t31_hides.

(** ... but those for 256 and 512 parties do not hide from as many parties as they
    are made for: there are 80, 62, 52, 43 and 122 who know a sum of the results. *)
Theorem C64_n256_t89_refuted : exists A, coalition 256 80 A /\
  forall (F : fieldType) (M : mat F), 1 + 1 = 0 :> F -> binary_super_inv_matrix F (file_of n256_t89) = Some M -> ~ hides_bits 256 M A.
Proof.
  eexists. apply: (@not_hidden 256 14 80 n256_t89 (line_of 14 0x410)); by [vm_compute|].
Qed.
Print Assumptions C64_n256_t89_refuted.

Theorem C64_n256_t53_refuted : exists A, coalition 256 52 A /\
  forall (F : fieldType) (M : mat F), 1 + 1 = 0 :> F -> binary_super_inv_matrix F (file_of n256_t53) = Some M -> ~ hides_bits 256 M A.
Proof.
  eexists. apply: (@not_hidden 256 56 52 n256_t53 (line_of 56 0xfca3dd609978ca)); by [vm_compute|].
Qed.
Print Assumptions C64_n256_t53_refuted.

Theorem C64_n256_t43_refuted : exists A, coalition 256 43 A /\
  forall (F : fieldType) (M : mat F), 1 + 1 = 0 :> F -> binary_super_inv_matrix F (file_of n256_t43) = Some M -> ~ hides_bits 256 M A.
Proof.
  eexists. apply: (@not_hidden 256 66 43 n256_t43 (line_of 66 0x483494194500452)); by [vm_compute|].
Qed.
Print Assumptions C64_n256_t43_refuted.

Theorem C64_n256_t65_refuted : exists A, coalition 256 62 A /\
  forall (F : fieldType) (M : mat F), 1 + 1 = 0 :> F -> binary_super_inv_matrix F (file_of n256_t65) = Some M -> ~ hides_bits 256 M A.
Proof.
  eexists. apply: (@not_hidden 256 42 62 n256_t65 (line_of 42 0x2bb0c50e48b)); by [vm_compute|].
Qed.
Print Assumptions C64_n256_t65_refuted.

Theorem C64_n512_t131_refuted : exists A, coalition 512 122 A /\
  forall (F : fieldType) (M : mat F), 1 + 1 = 0 :> F -> binary_super_inv_matrix F (file_of n512_t131) = Some M -> ~ hides_bits 512 M A.
Proof.
  eexists. apply: (@not_hidden 512 77 122 n512_t131 (line_of 77 0x9533b037e59d161d002)); by [vm_compute|].
Qed.
Print Assumptions C64_n512_t131_refuted.

(** The dealing protocols of the preprocessing in two executions that look the
    same to a set of parties: any results that agree with theirs can be
    reached. *)

From Coq Require Import NArith.
From mathcomp Require Import all_ssreflect all_algebra zify.
From Verif Require Import MathModel MathProofs MatProofs SharingModel SharingSpec SharingProofs.
From Verif Require Import MachineModel MachineProofs MachineBuild Realize CoreModel CoreSpec CoreProofs RandTransProofs.
From Verif Require Import PreprocModel PreprocSpec PreprocProofs GarbleGates ViewProofs TwinProofs TwinCore HideSpec HideProofs.
Set Implicit Arguments.
Unset Strict Implicit.
Unset Printing Implicit Defensive.
Import GRing.Theory.
Local Open Scope ring_scope.

Section Deal.
Variable F : fieldType.
Variable emb : nat -> F.
Variables I D : eqType.
Variable ser : seq F -> D.
Variable de : D -> option (seq F).
Variable fits : nat -> Prop.
Hypothesis serK : codec_ok ser de fits.
Variables (n t l : nat) (P Pn : pss F).
Hypothesis HS : setting emb n t l P Pn.
Notation mk me := (Ctx me n t l P Pn).
Notation pos := (default_pos emb n l).
Notation held := (held emb).
Notation realizes := (@realizes n I D (val F)).

Let n_pos : (0 < n)%N := npos HS.

(** The round in which the polynomials are dealt. *)
Definition dealing (b : nat) (p : nat -> nat -> {poly F}) : round D :=
  Exch (fun s r => ser [seq (p s j).[emb r] | j <- iota 0 b]).

(** Polynomials are determined by the values at [k] positions. *)
Lemma same_poly k (p q : {poly F}) ps m : good_pos emb n ps -> (size p <= k)%N -> (size q <= k)%N -> (k <= size ps + m)%N -> (m <= n)%N ->
  (forall c, (c < size ps)%N -> p.[nth 0 ps c] = q.[nth 0 ps c]) -> (forall i, (i < m)%N -> p.[emb i] = q.[emb i]) -> p = q.
Proof.
  move=> Hg Hp Hq Hk Hm H1 H2. pose pts := ps ++ [seq emb i | i <- iota 0 m].
  have U : uniq pts by apply: (@sub_pos _ emb n) => //; [exact: iota_uniq|apply/allP => i; rewrite mem_iota /=; lia].
  have Sp : (size pts = size ps + m)%N by rewrite size_cat size_map size_iota.
  apply: (@poly_agree _ _ _ pts) => //; [by rewrite Sp; lia|by rewrite Sp; lia|].
  rewrite /evals !map_cat. congr (_ ++ _).
  - apply: (@eq_from_nth _ 0); rewrite !size_map // => c Hc. by rewrite !(nth_map 0) // H1.
  - rewrite -!map_comp. apply/eq_in_map => i. rewrite mem_iota /= => Hi. exact: H2.
Qed.

Lemma rand_from (M : mat F) (id : I) num (coin : nat -> nat -> nat -> F) b p :
  num_batches num (size (rows M)) = Some b -> ncols M = n -> fits b -> rand_polys emb n (t + l) coin p ->
  realizes [:: (id, dealing b p)] (fun me k => rand ser de (mk me) M id num (coin me) k) (held (mixed n M b p) (size (rows M) * b)).
Proof.
  move=> Hb HM Hf Hp. have /andP [_ Hk] := tl_le n_pos HS. have [_ _ _ Hg] := HS.
  apply: (@deal_realizes F emb I D ser de fits serK n n_pos M id num b (fun s j => pss_rand P (coin s j)) p Hb HM Hf) => s j Hs.
  have [q [Q1 Q2 ->]] := rand_dealt n_pos HS (coin s j). have [P1 P2] := Hp s j Hs.
  congr (Some _). suff -> : q = p s j by [].
  apply: (@same_poly (t + l) _ _ [::] (t + l)) => // [|i Hi]; last by rewrite Q2 ?P2.
  exact: U_sh Hg.
Qed.

Lemma zero_from (M : mat F) (id : I) num (coin : nat -> nat -> nat -> F) b p :
  num_batches num (size (rows M)) = Some b -> ncols M = n -> fits b -> secret_polys emb n n pos (fun _ _ _ => 0) coin p ->
  realizes [:: (id, dealing b p)] (fun me k => zero ser de (mk me) M id num (coin me) k) (held (mixed n M b p) (size (rows M) * b)).
Proof.
  move=> Hb HM Hf Hp. have /andP [_ Hk] := tl_le n_pos HS. have [_ _ HPn Hg] := HS.
  have En : (n.-1.+1 = n)%N by rewrite prednK.
  have Hl : (l <= n.-1.+1)%N by lia.
  apply: (@deal_realizes F emb I D ser de fits serK n n_pos M id num b (fun s j => pss_share Pn (nseq l 0) (coin s j)) p Hb HM Hf) => s j Hs.
  have [q [Q1 Q2 Q3 ->]] := @secret_dealt F emb n t l P Pn n_pos HS Pn n.-1 (nseq l 0) (coin s j) HPn Hl (size_nseq _ _).
  have [P1 P2 P3] := Hp s j Hs. rewrite En in Q1 Q3. rewrite size_dp in P2 P3.
  congr (Some _). suff -> : q = p s j by [].
  apply: (@same_poly n _ _ pos (n - l)) => //; rewrite ?size_dp.
  - clear. lia.
  - clear. lia.
  - move=> c Hc. by rewrite Q2 // P2 // nth_nseq Hc.
  - move=> i Hi. by rewrite Q3 // P3.
Qed.

Lemma bit_from (M : mat F) (id : I) num (bit : nat -> nat -> nat -> bool) (coin : nat -> nat -> nat -> F) b p :
  num_batches num (size (rows M)) = Some b -> ncols M = n -> fits b ->
  secret_polys emb n (t + l) pos (fun s j q => if bit s j q then 1 else 0) coin p ->
  realizes [:: (id, dealing b p)] (fun me k => randbit ser de (mk me) M id num (bit me) (coin me) k) (held (mixed n M b p) (size (rows M) * b)).
Proof.
  move=> Hb HM Hf Hp. have /andP [Ht Hk] := tl_le n_pos HS. have [_ HP _ Hg] := HS.
  have En : ((t + l).-1.+1 = t + l)%N by rewrite prednK.
  have Hl : (l <= (t + l).-1.+1)%N by lia.
  have El : ps_l P = l by move: HP; rewrite /pss_new; case: ifP => // _ [<-] /=; rewrite size_dp.
  pose sec s j := [seq (if bit s j q then 1 else 0 : F) | q <- iota 0 l].
  have R := @deal_realizes F emb I D ser de fits serK n n_pos M id num b (fun s j => pss_share P (sec s j) (coin s j)) p Hb HM Hf.
  rewrite /randbit /= El. apply: R => s j Hs.
  have [|q [Q1 Q2 Q3 ->]] := @secret_dealt F emb n t l P Pn n_pos HS P (t + l).-1 (sec s j) (coin s j) HP Hl; first by rewrite size_map size_iota.
  have [P1 P2 P3] := Hp s j Hs. rewrite En in Q1 Q3. rewrite size_dp in P2 P3.
  congr (Some _). suff -> : q = p s j by [].
  apply: (@same_poly (t + l) _ _ pos (t + l - l)) => //; rewrite ?size_dp.
  - clear. lia.
  - clear -Hk. lia.
  - move=> c Hc. by rewrite Q2 // P2 // (nth_map 0%N) ?size_iota // nth_iota.
  - move=> i Hi. by rewrite Q3 // P3.
Qed.

(** ** Other results *)
Section Shift.
Variable A : seq nat.
Variables (M : mat F) (b : nat) (X : nat -> nat -> F).
Notation B := (size (rows M)).
Hypothesis XA : forall s r, s \in A -> X s r = 0.
Hypothesis XM : forall r r', (r < B)%N -> (r' < B)%N -> \sum_(s < n) entry M r s * X s r' = (r == r')%:R.
Variables (p : nat -> nat -> {poly F}) (q : nat -> {poly F}).
Notation m := (mixed n M b p).

(** The parties outside deal what makes the difference. *)
Definition redealt (s j : nat) : {poly F} :=
  if (j < b)%N then p s j + \sum_(r < B) X s r *: (q (r * b + j)%N - m (r * b + j)%N) else p s j.

Lemma redealt_in s j : s \in A -> redealt s j = p s j.
Proof. move=> Hs. rewrite /redealt. case: ifP => // _. rewrite big1 ?addr0 // => r _. by rewrite XA // scale0r. Qed.

Lemma redealt_mixed idx : (idx < B * b)%N -> mixed n M b redealt idx = q idx.
Proof.
  move=> Hi. have b0 : (0 < b)%N by move: Hi; case: (b) => //; rewrite muln0.
  have Hr : (idx %/ b < B)%N by rewrite ltn_divLR.
  have Hj : (idx %% b < b)%N by rewrite ltn_mod.
  rewrite {1}/mixed. under eq_bigr => s _ do rewrite /redealt Hj scalerDr.
  rewrite big_split /= -/(m idx). apply: (addrI (- m idx)). rewrite addKr.
  under eq_bigr => s _ do rewrite scaler_sumr.
  rewrite exchange_big /= (bigD1 (Ordinal Hr)) //= [X in _ + X]big1 ?addr0 => [|r Hne].
  - under eq_bigr => s _ do rewrite scalerA. rewrite -scaler_suml XM // eqxx scale1r -divn_eq. by rewrite addrC.
  - under eq_bigr => s _ do rewrite scalerA. rewrite -scaler_suml XM // (_ : (_ == _) = false) ?scale0r //.
    apply/negbTE. apply: contra Hne => /eqP E. apply/eqP/val_inj. by rewrite /= E.
Qed.

Lemma redealt_size k s j : (forall s j, (s < n)%N -> (size (p s j) <= k)%N) -> (forall i, (i < B * b)%N -> (size (q i) <= k)%N) ->
  (s < n)%N -> (size (redealt s j) <= k)%N.
Proof.
  move=> Hp Hq Hs. rewrite /redealt. case: ifP => Hj; last exact: Hp. apply: sz_add; first exact: Hp.
  apply: (leq_trans (size_sum _ _ _)). apply/bigmax_leqP => r _. apply: (leq_trans (size_scale_leq _ _)).
  apply: sz_sub; last exact: mixed_size. apply: Hq. have := ltn_ord r. move: (r : nat) => r'. clear -Hj. nia.
Qed.

Lemma redealt_eval x s j : (redealt s j).[x] =
  (p s j).[x] + (if (j < b)%N then \sum_(r < B) X s r * ((q (r * b + j)%N).[x] - (m (r * b + j)%N).[x]) else 0).
Proof.
  rewrite /redealt. case: ifP => _; last by rewrite addr0. rewrite hornerD horner_sum. congr (_ + _).
  apply: eq_bigr => r _. by rewrite hornerZ hornerD hornerN.
Qed.

Lemma redealt_same x s j : (forall i, (i < B * b)%N -> (q i).[x] = (m i).[x]) -> (redealt s j).[x] = (p s j).[x].
Proof.
  move=> H. rewrite redealt_eval. case: ifP => Hj; last by rewrite addr0. rewrite big1 ?addr0 // => r _.
  rewrite H ?subrr ?mulr0 //. have := ltn_ord r. move: (r : nat) => r'. clear -Hj. nia.
Qed.

Lemma redealt_alike : agree emb A (B * b) m q -> alike n A (dealing b p) (dealing b redealt).
Proof.
  move=> H s a Hs Ha /=. congr ser. apply/eq_in_map => j _. rewrite redealt_same // => i Hi. by rewrite -H.
Qed.
End Shift.

Section Twin.
Variable A : seq nat.
Variables (M : mat F) (b : nat).
Notation tot := (size (rows M) * b)%N.
Notation mx p := (mixed n M b p).

Lemma rand_twin coin p q : hides n M A -> rand_polys emb n (t + l) coin p -> low t l tot q -> agree emb A tot (mx p) q ->
  exists coin' p', [/\ forall a, a \in A -> coin' a = coin a, rand_polys emb n (t + l) coin' p',
    forall i, (i < tot)%N -> mx p' i = q i & alike n A (dealing b p) (dealing b p')].
Proof.
  move=> HM Hp Lq Hq. have [X [XA XM]] := right_inverse HM. pose p' := redealt M b X p q.
  exists (fun s => if s \in A then coin s else fun j i => (p' s j).[emb i]), p'. split.
  - by move=> a ->.
  - move=> s j Hs. have [P1 P2] := Hp s j Hs. split.
    + apply: redealt_size => // s' j' Hs'. by have [] := Hp s' j' Hs'.
    + move=> i Hi. case: ifP => // HsA. by rewrite /p' (redealt_in M b XA) // P2.
  - exact: redealt_mixed.
  - exact: redealt_alike.
Qed.

Lemma zero_twin coin p q : hides n M A -> secret_polys emb n n pos (fun _ _ _ => 0) coin p -> zero_at emb n l tot q -> agree emb A tot (mx p) q ->
  exists coin' p', [/\ forall a, a \in A -> coin' a = coin a, secret_polys emb n n pos (fun _ _ _ => 0) coin' p',
    forall i, (i < tot)%N -> mx p' i = q i & alike n A (dealing b p) (dealing b p')].
Proof.
  move=> HM Hp Lq Hq. have [X [XA XM]] := right_inverse HM. pose p' := redealt M b X p q.
  exists (fun s => if s \in A then coin s else fun j i => (p' s j).[emb i]), p'. split.
  - by move=> a ->.
  - move=> s j Hs. have [P1 P2 P3] := Hp s j Hs. split.
    + apply: redealt_size => // [s' j' Hs'|i Hi]; [by have [] := Hp s' j' Hs'|by have [] := Lq i Hi].
    + move=> c Hc. apply: etrans (P2 c Hc). apply: redealt_same => i Hi. have [_ ->] := Lq i Hi; last by rewrite mem_nth.
      rewrite mixed_eval big1 // => s' _. have [_ -> //] := Hp s' (i %% b)%N (ltn_ord s'). by rewrite mulr0.
    + move=> i Hi. case: ifP => // HsA. by rewrite /p' (redealt_in M b XA) // P3.
  - exact: redealt_mixed.
  - exact: redealt_alike.
Qed.

Hypothesis C2 : 1 + 1 = 0 :> F.
Definition is_bit (x : F) : Prop := x = 0 \/ x = 1.

Lemma is_bit_add x y : is_bit x -> is_bit y -> is_bit (x + y).
Proof. by move=> [] -> [] ->; rewrite ?add0r ?addr0 ?C2; rewrite /is_bit; auto. Qed.
Lemma is_bit_opp x : is_bit x -> is_bit (- x).
Proof. move=> [] ->; rewrite ?oppr0 /is_bit; auto. right. apply/eqP. by rewrite eq_sym -addr_eq0 C2. Qed.
Lemma is_bit_sum (T : Type) (r : seq T) f : (forall i, is_bit (f i)) -> is_bit (\sum_(i <- r) f i).
Proof. move=> H. elim/big_ind: _ => //; [by left|exact: is_bit_add]. Qed.
Lemma is_bit_mul x y : is_bit x -> is_bit y -> is_bit (x * y).
Proof. by move=> [] -> [] ->; rewrite ?mul0r ?mul1r /is_bit; auto. Qed.

Lemma binary_entry : binary M -> forall r s, is_bit (entry M r s).
Proof.
  move=> H r s. rewrite /entry. case: (ltnP r (size (rows M))) => Hr; last by rewrite (nth_default _ Hr) nth_nil; left.
  case: (ltnP s (size (nth [::] (rows M) r))) => Hs; last by rewrite nth_default //; left.
  exact: (H _ (mem_nth _ Hr) _ (mem_nth _ Hs)).
Qed.

Lemma bit_twin bit coin p q : hides_bits n M A -> binary M ->
  secret_polys emb n (t + l) pos (fun s j q => if bit s j q then 1 else 0) coin p -> low t l tot q -> agree emb A tot (mx p) q ->
  (forall i x, (i < tot)%N -> x \in pos -> is_bit (q i).[x]) ->
  exists (bit' : nat -> nat -> nat -> bool) coin' p',
   [/\ forall a, a \in A -> bit' a = bit a /\ coin' a = coin a,
    secret_polys emb n (t + l) pos (fun s j q => if bit' s j q then 1 else 0) coin' p',
    forall i, (i < tot)%N -> mx p' i = q i & alike n A (dealing b p) (dealing b p')].
Proof.
  move=> HM HB Hp Lq Hq Bq. have [X [XA XM]] := right_inverse_bits C2 (binary_entry HB) HM.
  pose Y s r := (X s r)%:R : F. have YA s r : s \in A -> Y s r = 0 by move=> Hs; rewrite /Y XA.
  pose p' := redealt M b Y p q.
  exists (fun s => if s \in A then bit s else fun j c => (p' s j).[nth 0 pos c] == 1), (fun s => if s \in A then coin s else fun j i => (p' s j).[emb i]), p'. split.
  - by move=> a ->.
  - move=> s j Hs. have [P1 P2 P3] := Hp s j Hs. split.
    + apply: redealt_size => // s' j' Hs'. by have [] := Hp s' j' Hs'.
    + move=> c Hc. case HsA: (s \in A); first by rewrite /p' (redealt_in M b YA) // P2.
      suff : is_bit (p' s j).[nth 0 pos c] by case=> ->; rewrite ?eqxx // eq_sym oner_eq0.
      rewrite /p' redealt_eval. apply: is_bit_add; first by rewrite P2 //; case: (bit _ _ _); [right|left].
      case: ifP => Hj; last by left. apply: is_bit_sum => r. apply: is_bit_mul; first by rewrite /Y; case: (X _ _); [right|left].
      have Hr : (r * b + j < tot)%N by have := ltn_ord r; move: (r : nat) => r'; clear -Hj; nia.
      apply: is_bit_add; first by apply: Bq => //; apply: mem_nth.
      apply: is_bit_opp. rewrite mixed_eval. apply: is_bit_sum => s'. apply: is_bit_mul; first exact: binary_entry.
      have [_ -> // _] := Hp s' ((r * b + j) %% b)%N (ltn_ord s'). by case: (bit _ _ _); [right|left].
    + move=> i Hi. case: ifP => // HsA. by rewrite /p' (redealt_in M b YA) // P3.
  - exact: redealt_mixed.
  - exact: redealt_alike.
Qed.
End Twin.
End Deal.

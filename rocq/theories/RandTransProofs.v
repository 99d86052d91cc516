(** Proofs about [RandSharingTransform::new] and [randtrans]. *)

From mathcomp Require Import all_ssreflect all_algebra zify.
From Verif Require Import MathModel MathProofs MatProofs SharingModel SharingSpec SharingProofs.
From Verif Require Import MachineModel MachineProofs MachineBuild Realize CoreModel CoreSpec CoreProofs.
Set Implicit Arguments.
Unset Strict Implicit.
Unset Printing Implicit Defensive.
Import GRing.Theory.
Local Open Scope ring_scope.

Lemma fin_choice (T : Type) (K : nat) (R : nat -> T -> Prop) (t0 : T) :
  (forall c, (c < K)%N -> exists x, R c x) -> exists f, forall c, (c < K)%N -> R c (f c).
Proof.
elim: K => [|K IH] H; first by exists (fun _ => t0).
have [f Hf] := IH (fun c Hc => H c (ltnW Hc)).
have [x Hx] := H K (leqnn _).
exists (fun c => if c == K then x else f c) => c; rewrite ltnS leq_eqVlt.
by case: eqP => [-> _|_ /= Hc] //; apply: Hf.
Qed.

Section Mat.
Variable F : fieldType.

Lemma dotv_iota (a b : seq F) K : size a = K -> size b = K ->
  dotv a b = \sum_(c <- iota 0 K) nth 0 a c * nth 0 b c.
Proof.
  move=> Ha Hb. rewrite -(dotv_map2 (nth 0 a) (nth 0 b)). congr dotv.
  - by rewrite -{1}[a](mkseq_nth 0) Ha.
  - by rewrite -{1}[b](mkseq_nth 0) Hb.
Qed.

Lemma reshape_cat a b c (u w : seq F) : size u = (a * c)%N ->
  reshape (nseq a c) u ++ reshape (nseq b c) w = reshape (nseq (a + b) c) (u ++ w).
Proof.
  elim: a u => [|a IH] u //=; first by move/size0nil => ->.
  rewrite mulSn => E. rewrite take_cat drop_cat E.
  case: ifP => H.
  - rewrite IH // size_drop E. lia.
  - have {H}E0 : (a * c = 0)%N by lia.
    rewrite E0 addn0 subnn take0 drop0 cats0 in E *.
    rewrite take_oversize ?E // drop_oversize ?E //. congr (_ :: _). by rewrite IH.
Qed.

Lemma nth_reshape a c (u : seq F) i j : (i < a)%N -> (j < c)%N ->
  nth 0 (nth [::] (reshape (nseq a c) u) i) j = nth 0 u (i * c + j).
Proof.
  elim: a u i => [|a IH] u [|i] //= Hi Hj; first by rewrite nth_take.
  rewrite IH // nth_drop mulSn. congr nth. lia.
Qed.

Lemma size_reshape_row a c (u : seq F) i : size u = (a * c)%N -> (i < a)%N ->
  size (nth [::] (reshape (nseq a c) u) i) = c.
Proof.
  elim: a u i => [|a IH] u [|i] //= E Hi; first by rewrite size_take E mulSn; case: ifP; lia.
  rewrite IH // size_drop E mulSn. lia.
Qed.

Lemma size_reshape (s : seq nat) (u : seq F) : size (reshape s u) = size s.
Proof. elim: s u => //= x s IH u. by rewrite IH. Qed.

End Mat.

Section Coeffs.
Variable F : fieldType.
Variable emb : nat -> F.
Variable n : nat.
Notation share_pos := (share_pos emb n).

(** The coefficients evaluate polynomials given on the first positions. *)
Lemma share_coeffs_eval d pos (p : {poly F}) : good_pos emb n pos -> (size p <= d.+1)%N ->
  (d.+1 <= size pos + n)%N ->
  mdot (share_coeffs emb d n pos) (evals p (take d.+1 (pos ++ share_pos))) = evals p share_pos.
Proof.
  move=> U Hp Hd. apply: lagrange_eval; first exact: take_uniq.
  by rewrite size_takel // size_cat size_share_pos.
Qed.

Lemma share_coeffs_ncols d pos : (d.+1 <= size pos + n)%N -> ncols (share_coeffs emb d n pos) = d.+1.
Proof. by move=> H; rewrite /= size_takel // size_cat size_share_pos. Qed.

Lemma size_lagrange_row (cpos : seq F) v : size (lagrange_row cpos (lagrange_denom cpos) v) = size cpos.
Proof.
  rewrite /lagrange_row. case: ifP => H.
  - rewrite size_set_nth size_nseq. apply/maxn_idPr. by rewrite index_mem.
  - by rewrite size_map size_zip lagrange_denomE size_map minnn.
Qed.

Lemma share_coeffs_row d pos i : (d.+1 <= size pos + n)%N -> (i < n)%N ->
  size (nth [::] (rows (share_coeffs emb d n pos)) i) = d.+1.
Proof.
  move=> Hd Hi. rewrite /= (nth_map 0) ?size_share_pos // size_lagrange_row size_takel //.
  by rewrite size_cat size_share_pos.
Qed.

Lemma nth_mdot (m : mat F) v i : (i < size (rows m))%N -> nth 0 (mdot m v) i = dotv (nth [::] (rows m) i) v.
Proof. move=> Hi. by rewrite (nth_map [::]). Qed.

(** Any values at the first positions, the map applied: a sharing. *)
Lemma share_coeffs_sharing d pos (vs : seq F) : good_pos emb n pos -> size vs = d.+1 ->
  (d.+1 <= size pos + n)%N -> (size pos <= d.+1)%N ->
  is_sharing emb n d pos (take (size pos) vs) (mdot (share_coeffs emb d n pos) vs).
Proof.
  move=> U Hs Hd Hl. have Ut : uniq (take d.+1 (pos ++ share_pos)) by apply: take_uniq.
  have St : size (take d.+1 (pos ++ share_pos)) = d.+1 by rewrite size_takel // size_cat size_share_pos.
  have [p Hp E] := @interp_exists _ (take d.+1 (pos ++ share_pos)) vs Ut (etrans Hs (esym St)).
  apply/is_sharingE. exists p. rewrite St in Hp. split=> //.
  - by rewrite -E share_coeffs_eval.
  - by rewrite -E /evals -map_take take_take // take_size_cat.
Qed.

(** The share at a position whose value was given is that value. *)
Lemma share_coeffs_node d pos (vs : seq F) m : good_pos emb n pos -> size vs = d.+1 ->
  (d.+1 <= size pos + n)%N -> (size pos + m < d.+1)%N -> (m < n)%N ->
  nth 0 (mdot (share_coeffs emb d n pos) vs) m = nth 0 vs (size pos + m).
Proof.
  move=> U Hs Hd Hm Hmn. have Ut : uniq (take d.+1 (pos ++ share_pos)) by apply: take_uniq.
  have St : size (take d.+1 (pos ++ share_pos)) = d.+1 by rewrite size_takel // size_cat size_share_pos.
  have [p Hp E] := @interp_exists _ (take d.+1 (pos ++ share_pos)) vs Ut (etrans Hs (esym St)).
  rewrite St in Hp. rewrite -E share_coeffs_eval // /evals !(nth_map 0) ?size_share_pos ?St //.
  by rewrite nth_take // nth_cat ltnNge leq_addr /= addKn.
Qed.

(** The matrix of an index map. *)
Lemma trans_mat_dot (m : seq nat) (row rv : seq F) : size row = size m -> size rv = size m ->
  all (fun i => (i < size m)%N) m ->
  \sum_(c <- iota 0 (size m)) dotv row (col c (trans_mat F m)) * nth 0 rv c = dotv row [seq nth 0 rv i | i <- m].
Proof.
  move=> Hr Hv Hm.
  rewrite (@dotv_iota _ row _ (size m)) ?size_map //.
  transitivity (\sum_(c <- iota 0 (size m)) \sum_(a <- iota 0 (size m))
     (nth 0 row a * (c == nth 0%N m a)%:R * nth 0 rv c)).
  { rewrite !big_seq. apply: eq_bigr => c. rewrite mem_iota /= => Hc.
    rewrite (@dotv_iota _ row _ (size m)) ?size_map // mulr_suml !big_seq. apply: eq_bigr => a.
    rewrite mem_iota /= => Ha. congr (_ * _ * _).
    rewrite (nth_map [::]) ?size_map // (nth_map 0%N) // (nth_map 0%N) ?size_iota // nth_iota //. }
  rewrite exchange_big. rewrite !big_seq. apply: eq_bigr => a. rewrite mem_iota /= => Ha.
  have Hma : (nth 0%N m a < size m)%N by apply: (allP Hm); apply: mem_nth.
  rewrite (nth_map 0%N) // (bigD1_seq (nth 0%N m a)) ?iota_uniq ?mem_iota //= eqxx mulr1.
  rewrite big1 ?addr0 // => c Hc. by rewrite (negbTE Hc) mulr0 mul0r.
Qed.

End Coeffs.

Section Combine.
Variable F : fieldType.
Variable emb : nat -> F.
Variables (n l : nat).
Hypothesis n_pos : (0 < n)%N.
Notation dpos := (default_pos emb n l).
Hypothesis Hd : good_pos emb n dpos.

Lemma size_dpos : size dpos = l.
Proof. by rewrite size_map size_iota. Qed.

Definition sl (i : nat) : seq F := nth [::] (rows (share_coeffs emb l n dpos)) i.

Lemma take_dpos1 : take l.+1 (dpos ++ share_pos emb n) = rcons dpos (emb 0%N).
Proof.
  rewrite take_cat size_dpos ltnNge leqnSn /= subSnn.
  case: n n_pos => // m _ /=. by rewrite take0 cats1.
Qed.

(** The basis polynomials whose values are the parties' coefficients. *)
Lemma sl_basis k : (k < l)%N -> exists B : {poly F}, [/\ (size B <= l.+1)%N,
  (forall k', (k' < l)%N -> B.[nth 0 dpos k'] = (k' == k)%:R) &
  forall i, (i < n)%N -> nth 0 (sl i) k = B.[emb i]].
Proof.
  move=> Hk.
  pose e : seq F := set_nth 0 (nseq l.+1 0) k 1.
  have Se : size e = l.+1 by rewrite size_set_nth size_nseq; apply/maxn_idPr; lia.
  have He c : nth 0 e c = (c == k)%:R.
  { rewrite /e nth_set_nth /=. case: eqP => // _. by rewrite -[0 :: _]/(nseq l.+1 0) nth_nseq if_same. }
  have Sd : (l.+1 <= size dpos + n)%N by rewrite size_dpos; lia.
  have U : uniq (take l.+1 (dpos ++ share_pos emb n)) by apply: take_uniq.
  have St : size (take l.+1 (dpos ++ share_pos emb n)) = l.+1 by rewrite take_dpos1 size_rcons size_dpos.
  have [B HB E] := @interp_exists _ _ e U (etrans Se (esym St)).
  rewrite St in HB. exists B. split=> //.
  - move=> k' Hk'. have := congr1 (fun s => nth 0 s k') E.
    rewrite (nth_map 0) ?St; last by lia. rewrite take_dpos1 nth_rcons size_dpos Hk' => ->.
    exact: He.
  - move=> i Hi. have := share_coeffs_eval Hd HB Sd. rewrite E => /(congr1 (fun s => nth 0 s i)).
    rewrite nth_mdot ?size_map ?size_iota // -/(sl i) => EB.
    have Ssl : size (sl i) = l.+1 by apply: share_coeffs_row.
    have -> : nth 0 (sl i) k = dotv (sl i) e.
    { rewrite (@dotv_iota _ _ _ l.+1) // (bigD1_seq k) ?iota_uniq ?mem_iota //=; last by lia.
      rewrite He eqxx mulr1 big1 ?addr0 // => c /negbTE Hc. by rewrite He Hc mulr0. }
    by rewrite EB (nth_map 0) ?size_share_pos // (nth_map 0%N) ?size_iota // nth_iota.
Qed.

Lemma size_sl i : (i < n)%N -> size (sl i) = l.+1.
Proof. move=> Hi. apply: share_coeffs_row => //. rewrite size_dpos. lia. Qed.

Lemma take_sl i m : (i < n)%N -> (m <= l)%N -> take m (sl i) = [seq nth 0 (sl i) k | k <- iota 0 m].
Proof.
  move=> Hi Hm. have S := size_sl Hi. apply: (@eq_from_nth _ 0).
  - rewrite size_takel ?S ?size_map ?size_iota //. lia.
  - move=> k. rewrite size_takel ?S; last by lia. move=> Hk.
    by rewrite nth_take // (nth_map 0%N) ?size_iota // nth_iota.
Qed.

Lemma map_nth_iota (T U : Type) (f : T -> U) (x0 : T) (s : seq T) :
  [seq f x | x <- s] = [seq f (nth x0 s k) | k <- iota 0 (size s)].
Proof. by rewrite -{1}[s](mkseq_nth x0) /mkseq -map_comp. Qed.

Lemma combine_sharing d K (ms : seq (seq (seq F))) (pts : nat -> nat -> F) (R : nat -> seq F) (r : nat) :
  (size ms <= l)%N -> (forall c, (c < K)%N -> is_sharing emb n d dpos (R c) [seq pts i c | i <- iota 0 n]) ->
  exists sec, is_sharing emb n (l + d) dpos sec
    [seq dotv [seq dotv (take (size ms) (sl i)) [seq nth 0 (nth [::] M r) c | M <- ms] | c <- iota 0 K]
              [seq pts i c | c <- iota 0 K] | i <- iota 0 n] /\
    forall k, (k < size ms)%N ->
      nth 0 sec k = \sum_(c <- iota 0 K) nth 0 (nth [::] (nth [::] ms k) r) c * nth 0 (R c) k.
Proof.
  move=> Hm HR. set m := size ms in Hm *.
  have [p Hp] := fin_choice 0 HR.
  have [B HB] := @fin_choice {poly F} m _ 0 (fun k Hk => sl_basis (leq_trans Hk Hm)).
  pose a k c := nth 0 (nth [::] (nth [::] ms k) r) c.
  pose Q : {poly F} := \sum_(c <- iota 0 K) (\sum_(k <- iota 0 m) a k c *: B k) * p c.
  have Qe x : Q.[x] = \sum_(c <- iota 0 K) (\sum_(k <- iota 0 m) a k c * (B k).[x]) * (p c).[x].
  { rewrite /Q horner_sum. apply: eq_bigr => c _. rewrite hornerM horner_sum. congr (_ * _).
    apply: eq_bigr => k _. by rewrite hornerZ. }
  exists (evals Q dpos). split.
  - exists Q. split=> //.
    + rewrite /Q big_seq. apply: (big_ind (fun q : {poly F} => (size q <= (l + d).+1)%N)).
      * by rewrite size_poly0.
      * move=> q1 q2 H1 H2. apply: (leq_trans (size_add _ _)). by rewrite geq_max H1 H2.
      * move=> c. rewrite mem_iota /= => Hc. apply: (leq_trans (size_mul_leq _ _)).
        have [Hpc _ _] := Hp c Hc.
        have : (size (\sum_(k <- iota 0 m) a k c *: B k)%R <= l.+1)%N.
        { rewrite big_seq. apply: (big_ind (fun q : {poly F} => (size q <= l.+1)%N)).
          - by rewrite size_poly0.
          - move=> q1 q2 H1 H2. apply: (leq_trans (size_add _ _)). by rewrite geq_max H1 H2.
          - move=> k. rewrite mem_iota /= => Hk. apply: (leq_trans (size_scale_leq _ _)). by have [] := HB k Hk. }
        set x := size _. move: Hpc. set y := size (p c). lia.
    + apply/eq_in_map => i. rewrite mem_iota /= => Hi.
      rewrite dotv_map2 Qe !big_seq. apply: eq_bigr => c. rewrite mem_iota /= => Hc.
      have [_ Ep _] := Hp c Hc. congr (_ * _); last first.
      { have := congr1 (fun s => nth 0 s i) Ep. by rewrite !(nth_map 0%N) ?size_iota // nth_iota. }
      rewrite take_sl // (map_nth_iota _ [::]) dotv_map2 !big_seq. apply: eq_bigr => k.
      rewrite mem_iota /= => Hk. have [_ _ Hs] := HB k Hk. by rewrite Hs // mulrC.
  - move=> k Hk. have Hkl : (k < l)%N by apply: leq_trans Hm.
    rewrite (nth_map 0) ?size_dpos // Qe !big_seq. apply: eq_bigr => c. rewrite mem_iota /= => Hc.
    have [_ _ Es] := Hp c Hc. congr (_ * _); last first.
    { by rewrite Es (nth_map 0) ?size_dpos. }
    rewrite (bigD1_seq k) ?iota_uniq ?mem_iota //=.
    have [_ Hb _] := HB k Hk. rewrite Hb // eqxx mulr1 big_seq_cond big1 ?addr0 // => k' /andP [].
    rewrite mem_iota /= => Hk' Hne. have [_ Hb' _] := HB k' Hk'. by rewrite Hb' // eq_sym (negbTE Hne) mulr0.
Qed.
End Combine.

Section RandTrans.
Variable F : fieldType.
Variable emb : nat -> F.
Variables I D : eqType.
Variable ser : seq F -> D.
Variable de : D -> option (seq F).
Variable fits : nat -> Prop.
Hypothesis serK : forall x, fits (size x) -> de (ser x) = Some x.
Variables (n t l : nat) (P Pn : pss F).
Hypothesis n_pos : (0 < n)%N.
Notation proc := (proc I D (val F)).
Notation realizes := (@realizes n I D (val F)).
Notation mk me := (Ctx me n t l P Pn).
Notation sharings := (sharings emb n).
Notation dpos := (default_pos emb n l).
Notation K := (t + l)%N.
Hypothesis HPn : pss_new emb n.-1 n dpos = Some Pn.
Hypothesis Hd : good_pos emb n dpos.
Hypothesis HK : (0 < K)%N.
Hypothesis Hn : (K + l <= n)%N.

Definition tf_ok (x : seq F * seq F * seq nat) : Prop :=
  [/\ good_pos emb n x.1.1, good_pos emb n x.1.2, (size x.1.1 <= l)%N, (size x.1.2 <= l)%N &
      size x.2 = size x.1.2 /\ all (fun i => (i < size x.1.1)%N) x.2].

Section One.
Variable x : seq F * seq F * seq nat.
Hypothesis Hx : tf_ok x.

Definition emap : seq nat := x.2 ++ drop (size x.1.2) (iota 0 K).
Definition accm : seq (seq F) := mmul (share_coeffs emb K.-1 n x.1.2) K (trans_mat F emap).
Definition accn : seq (seq F) := rows (share_coeffs emb n.-1 n x.1.1).

Lemma size_emap : size emap = K.
Proof.
  have [_ _ _ Hs [Es _]] := Hx. rewrite size_cat size_drop size_iota Es. lia.
Qed.

Lemma emap_lt : all (fun i => (i < size emap)%N) emap.
Proof.
  have [_ _ Ho _ [_ /allP Hf]] := Hx. rewrite size_emap. apply/allP => i. rewrite mem_cat => /orP [/Hf|/mem_drop].
  - move=> Hi. lia.
  - by rewrite mem_iota.
Qed.

Lemma acc_coeffsE me : acc_coeffs emb (mk me) x = Some (accm, accn).
Proof.
  have [_ _ Ho Hs [Es Hf]] := Hx.
  have Em := size_emap. rewrite /accm /accn /emap in Em *.
  have -> : acc_coeffs emb (mk me) x = acc_coeffs emb (mk me) (x.1.1, x.1.2, x.2) by case: (x) => [[]].
  move: Em Ho Hs Es Hf. set opos := x.1.1. set npos := x.1.2. set f := x.2 => Em Ho Hs Es Hf. rewrite /acc_coeffs.
  rewrite /ext_map (leq_trans Ho) ?leq_addl // (leq_trans Hs) ?leq_addl //=.
  have Ez : take (size opos) (iota 0 K) = iota 0 (size opos).
  { rewrite take_iota. congr iota. apply/minn_idPl. lia. }
  rewrite Ez (comb_apply_ok 0%N) ?size_iota //=.
  have -> : [seq nth 0%N (iota 0 (size opos)) i | i <- f] = f.
  { rewrite -[RHS]map_id. apply/eq_in_map => i Hi. by rewrite nth_iota ?(allP Hf). }
  rewrite Em eqxx /= !size_takel ?size_cat ?size_share_pos; [|lia|lia].
  by rewrite !prednK // !eqxx.
Qed.

Lemma accm_sharing (rv : seq F) : size rv = K ->
  is_sharing emb n K.-1 x.1.2 (pick x.2 rv)
    [seq \sum_(c <- iota 0 K) nth 0 (nth [::] accm r) c * nth 0 rv c | r <- iota 0 n].
Proof.
  move=> Hr. have [_ Hg Ho Hs [Es Hf]] := Hx.
  pose vs := [seq nth 0 rv i | i <- emap].
  have Sv : size vs = K.-1.+1 by rewrite size_map size_emap prednK.
  have HKn : (K.-1.+1 <= size x.1.2 + n)%N by lia.
  have Hsp : (size x.1.2 <= K.-1.+1)%N by lia.
  have := share_coeffs_sharing Hg Sv HKn Hsp.
  have -> : take (size x.1.2) vs = pick x.2 rv.
  { by rewrite /vs -map_take /emap -Es take_size_cat. }
  congr is_sharing. rewrite /mdot. rewrite (map_nth_iota _ [::]) [size (rows _)]size_map size_share_pos.
  apply/eq_in_map => r. rewrite mem_iota /= => Hir.
  have Hrow : size (nth [::] (rows (share_coeffs emb K.-1 n x.1.2)) r) = K.
  { by rewrite share_coeffs_row // prednK. }
  have Et := @trans_mat_dot _ emap _ rv (etrans Hrow (esym size_emap)) (etrans Hr (esym size_emap)) emap_lt.
  rewrite -/vs -Et size_emap.
  rewrite !big_seq. apply: eq_bigr => c. rewrite mem_iota /= => Hc. congr (_ * _).
  rewrite /accm /mmul (nth_map [::]) ?size_map ?size_iota // (nth_map 0%N) ?size_iota // nth_iota //.
Qed.

(** Behind the new positions the values are taken over. *)
Lemma accm_at (rv : seq F) m : size rv = K -> (size x.1.2 + m < K)%N -> (m < n)%N ->
  \sum_(c <- iota 0 K) nth 0 (nth [::] accm m) c * nth 0 rv c = nth 0 rv (size x.1.2 + m).
Proof.
  move=> Hr Hm Hmn. have [_ Hg Ho Hs [Es Hf]] := Hx.
  pose vs := [seq nth 0 rv i | i <- emap].
  have Sv : size vs = K.-1.+1 by rewrite size_map size_emap prednK.
  have HKn : (K.-1.+1 <= size x.1.2 + n)%N by lia.
  have Hm' : (size x.1.2 + m < K.-1.+1)%N by rewrite prednK.
  have := share_coeffs_node Hg Sv HKn Hm' Hmn.
  rewrite {2}/vs (nth_map 0%N) ?size_emap // /emap nth_cat Es ltnNge leq_addr /= addKn nth_drop nth_iota // => <-.
  rewrite nth_mdot; last by rewrite [size _]size_map size_share_pos.
  have Hrow : size (nth [::] (rows (share_coeffs emb K.-1 n x.1.2)) m) = K.
  { by rewrite share_coeffs_row // prednK. }
  have Et := @trans_mat_dot _ emap _ rv (etrans Hrow (esym size_emap)) (etrans Hr (esym size_emap)) emap_lt.
  rewrite -/vs -Et size_emap.
  rewrite !big_seq. apply: eq_bigr => c. rewrite mem_iota /= => Hc. congr (_ * _).
  rewrite /accm /mmul (nth_map [::]) ?size_map ?size_iota // (nth_map 0%N) ?size_iota // nth_iota //.
Qed.

Lemma accn_at (rv : seq F) m : size rv = n -> (size x.1.1 + m < n)%N -> (m < n)%N ->
  \sum_(c <- iota 0 n) nth 0 (nth [::] accn m) c * nth 0 rv c = nth 0 rv (size x.1.1 + m).
Proof.
  move=> Hr Hm Hmn. have [Hg _ Ho Hs [Es Hf]] := Hx.
  have Sv : size rv = n.-1.+1 by rewrite prednK.
  have HKn : (n.-1.+1 <= size x.1.1 + n)%N by lia.
  have Hm' : (size x.1.1 + m < n.-1.+1)%N by rewrite prednK.
  rewrite -(share_coeffs_node Hg Sv HKn Hm' Hmn) nth_mdot; last by rewrite [size _]size_map size_share_pos.
  have Hrow : size (nth [::] (rows (share_coeffs emb n.-1 n x.1.1)) m) = n.
  { by rewrite share_coeffs_row // prednK. }
  by rewrite (dotv_iota Hrow Hr).
Qed.

Lemma accn_sharing (rv : seq F) : size rv = n ->
  is_sharing emb n n.-1 x.1.1 (take (size x.1.1) rv)
    [seq \sum_(c <- iota 0 n) nth 0 (nth [::] accn r) c * nth 0 rv c | r <- iota 0 n].
Proof.
  move=> Hr. have [Hg _ Ho Hs [Es Hf]] := Hx.
  have Sv : size rv = n.-1.+1 by rewrite prednK.
  have HKn : (n.-1.+1 <= size x.1.1 + n)%N by lia.
  have Hsp : (size x.1.1 <= n.-1.+1)%N by lia.
  have := share_coeffs_sharing Hg Sv HKn Hsp.
  congr is_sharing. rewrite /mdot (map_nth_iota _ [::]) [size (rows _)]size_map size_share_pos.
  apply/eq_in_map => r. rewrite mem_iota /= => Hir.
  have Hrow : size (nth [::] (rows (share_coeffs emb n.-1 n x.1.1)) r) = n.
  { by rewrite share_coeffs_row // prednK. }
  by rewrite (dotv_iota Hrow Hr).
Qed.
End One.

Section Main.
Variable tf : seq (seq F * seq F * seq nat).
Hypothesis Hm : (size tf <= l)%N.
Let x0 : seq F * seq F * seq nat := ([::], [::], [::]).
Hypothesis Htf : forall k, (k < size tf)%N -> tf_ok (nth x0 tf k).

Definition rts (i : nat) : rand_transform F :=
  RT (combine_coeffs (sl emb n l i) n K [seq accm x | x <- tf])
     (combine_coeffs (sl emb n l i) n n [seq accn x | x <- tf]).

Lemma rt_newE i : (i < n)%N -> rt_new emb (mk i) tf = Some (rts i).
Proof.
  move=> Hi. rewrite /rt_new.
  have -> : all_some [seq acc_coeffs emb (mk i) x | x <- tf] = Some [seq (accm x, accn x) | x <- tf].
  { have Ha k : (k < size tf)%N -> acc_coeffs emb (mk i) (nth x0 tf k) = Some (accm (nth x0 tf k), accn (nth x0 tf k)).
    { move=> Hk. apply: acc_coeffsE. exact: Htf. }
    elim: (tf) Ha => [|y s IH] //= Ha. have /= -> := Ha 0%N isT. by rewrite IH // => k Hk; exact: (Ha k.+1). }
  rewrite /= Hi size_map -/(sl emb n l i) size_sl // (leq_trans Hm) //=.
  by rewrite /rts -!map_comp.
Qed.

Variables (num : nat) (randoms zeros : nat -> seq F) (R : nat -> seq F).
Hypothesis Hf : fits (2 * num).
Hypothesis Sr : sharings K.-1 dpos ((n + t) * num) randoms R.
Hypothesis Sz : sharings n.-1 dpos (2 * n * num) zeros (fun _ => nseq l 0).

Definition pts1 i : seq (seq F) := reshape (nseq K num) (take (num * K) (randoms i)).
Definition pts2 i : seq (seq F) :=
  reshape (nseq n num) (take (num * l) (randoms i) ++ drop (num * t) (drop (num * l) (randoms i))).
Definition z1 i : seq (seq F) := reshape (nseq n num) (drop (n * num) (zeros i)).
Definition z2 i : seq (seq F) := reshape (nseq n num) (take (n * num) (zeros i)).
Definition sh1 i := madd (mmul2 (rt_share (rts i)) num (pts1 i)) (z1 i).
Definition sh2 i := madd (mmul2 (rt_share_n (rts i)) num (pts2 i)) (z2 i).

Lemma randtrans_sharesE i : (i < n)%N ->
  randtrans_shares (mk i) (rts i) (randoms i) (zeros i) = Some (num, sh1 i, sh2 i).
Proof.
  move=> Hi. rewrite /randtrans_shares /= Sr.1 // mulKn; last by lia.
  have Er := Sr.1 i Hi. have Ez := Sz.1 i Hi.
  have Hl : (l <= n)%N by lia.
  have E1 : size (take (num * l) (randoms i)) = (l * num)%N by rewrite size_takel ?Er //; nia.
  have E2 : size (take (num * t) (drop (num * l) (randoms i))) = (t * num)%N
    by rewrite size_takel ?size_drop ?Er //; nia.
  have E3 : size (drop (num * t) (drop (num * l) (randoms i))) = ((n - l) * num)%N.
  { rewrite !size_drop Er mulnBl. nia. }
  have E4 : size (take (n * num) (zeros i)) = (n * num)%N by rewrite size_takel ?Ez //; nia.
  have E5 : size (drop (n * num) (zeros i)) = (n * num)%N by rewrite size_drop Ez; nia.
  rewrite /to_mat E1 eqxx.
  rewrite (_ : (num * l <= (n + t) * num)%N) /=; last by nia.
  rewrite (_ : (num * l + num * t <= (n + t) * num)%N) /=; last by nia.
  rewrite E2 eqxx Hl /= E3 eqxx /= Ez.
  rewrite (_ : (n * num <= 2 * n * num)%N) /=; last by nia.
  rewrite E4 eqxx /= E5 eqxx /=.
  rewrite (reshape_cat _ _ E1) (reshape_cat _ _ E1) subnKC //.
  rewrite /sh1 /sh2 /pts1 /pts2 /z1 /z2 [(l + t)%N]addnC.
  by rewrite mulnDr [(num * t + _)%N]addnC takeD.
Qed.

(** The sharing in row [c], column [j] of the points. *)
Definition ix1 (c j : nat) : nat := (c * num + j)%N.
Definition ix2 (c j : nat) : nat := if (c < l)%N then (c * num + j)%N else ((c + t) * num + j)%N.

Lemma pts1E i c j : (i < n)%N -> (c < K)%N -> (j < num)%N ->
  nth 0 (nth [::] (pts1 i) c) j = nth 0 (randoms i) (ix1 c j).
Proof. move=> Hi Hc Hj. rewrite /pts1 nth_reshape // nth_take // /ix1. nia. Qed.

Lemma pts2E i c j : (i < n)%N -> (c < n)%N -> (j < num)%N ->
  nth 0 (nth [::] (pts2 i) c) j = nth 0 (randoms i) (ix2 c j).
Proof.
  move=> Hi Hc Hj. rewrite /pts2 nth_reshape // nth_cat size_takel ?Sr.1 //; last by nia.
  rewrite /ix2. case: ifP => H1; case: ifP => H2; try by [rewrite nth_take].
  - exfalso. nia.
  - exfalso. nia.
  - rewrite !nth_drop. congr nth. nia.
Qed.

Lemma ix1_lt c j : (c < K)%N -> (j < num)%N -> (ix1 c j < (n + t) * num)%N.
Proof. rewrite /ix1. nia. Qed.
Lemma ix2_lt c j : (c < n)%N -> (j < num)%N -> (ix2 c j < (n + t) * num)%N.
Proof. rewrite /ix2. case: ifP; nia. Qed.

Lemma nth_madd (a b : seq (seq F)) r j : size a = size b -> (r < size a)%N ->
  size (nth [::] a r) = size (nth [::] b r) -> (j < size (nth [::] a r))%N ->
  nth 0 (nth [::] (madd a b) r) j = nth 0 (nth [::] a r) j + nth 0 (nth [::] b r) j.
Proof.
  move=> E Hr Es Hj. rewrite /madd (nth_map ([::], [::])) ?size_zip -?E ?minnn // nth_zip //.
  by rewrite nth_zipw.
Qed.

Lemma size_madd_row (a b : seq (seq F)) r : size a = size b -> (r < size a)%N ->
  size (nth [::] (madd a b) r) = minn (size (nth [::] a r)) (size (nth [::] b r)).
Proof.
  move=> E Hr. by rewrite /madd (nth_map ([::], [::])) ?size_zip -?E ?minnn // nth_zip // size_zipw.
Qed.

Lemma size_zrow i r : (i < n)%N -> (r < n)%N -> size (nth [::] (z1 i) r) = num /\ size (nth [::] (z2 i) r) = num.
Proof.
  move=> Hi Hr. have Ez := Sz.1 i Hi. split; apply: size_reshape_row => //.
  - rewrite size_drop Ez. nia.
  - rewrite size_takel ?Ez //. nia.
Qed.

Lemma nth_mmul2 (a b : seq (seq F)) r j : (r < size a)%N -> (j < num)%N ->
  nth 0 (nth [::] (mmul2 a num b) r) j = dotv (nth [::] a r) (col j b).
Proof. move=> Hr Hj. by rewrite /mmul2 (nth_map [::]) // (nth_map 0%N) ?size_iota // nth_iota. Qed.

Lemma size_mmul2_row (a b : seq (seq F)) r : (r < size a)%N -> size (nth [::] (mmul2 a num b) r) = num.
Proof. move=> Hr. by rewrite /mmul2 (nth_map [::]) // size_map size_iota. Qed.

Lemma sh_size i r : (i < n)%N -> (r < n)%N -> size (nth [::] (sh1 i) r) = num /\ size (nth [::] (sh2 i) r) = num.
Proof.
  move=> Hi Hr. have [S1 S2] := size_zrow Hi Hr. split.
  - rewrite /sh1 size_madd_row ?size_mmul2_row ?S1 ?minnn // ?size_map ?size_iota //.
    by rewrite /z1 size_reshape size_nseq.
  - rewrite /sh2 size_madd_row ?size_mmul2_row ?S2 ?minnn // ?size_map ?size_iota //.
    by rewrite /z2 size_reshape size_nseq.
Qed.

Lemma sh1E i r j : (i < n)%N -> (r < n)%N -> (j < num)%N -> nth 0 (nth [::] (sh1 i) r) j =
  dotv [seq dotv (take (size [seq accm x | x <- tf]) (sl emb n l i)) [seq nth 0 (nth [::] M r) c | M <- [seq accm x | x <- tf]] | c <- iota 0 K]
       [seq nth 0 (randoms i) (ix1 c j) | c <- iota 0 K]
  + nth 0 (zeros i) (n * num + (r * num + j)).
Proof.
  move=> Hi Hr Hj. have [S1 S2] := size_zrow Hi Hr.
  rewrite /sh1 nth_madd ?size_mmul2_row ?S1 // ?size_map ?size_iota //; last first.
  { by rewrite /z1 size_reshape size_nseq. }
  rewrite nth_mmul2 ?size_map ?size_iota // /z1 nth_reshape // nth_drop. congr (_ + _).
  rewrite (nth_map 0%N) ?size_iota // nth_iota // add0n size_map. congr dotv.
  rewrite /col (map_nth_iota _ [::]) size_reshape size_nseq. apply/eq_in_map => c.
  rewrite mem_iota /= => Hc. by rewrite pts1E.
Qed.

Lemma sh2E i r j : (i < n)%N -> (r < n)%N -> (j < num)%N -> nth 0 (nth [::] (sh2 i) r) j =
  dotv [seq dotv (take (size [seq accn x | x <- tf]) (sl emb n l i)) [seq nth 0 (nth [::] M r) c | M <- [seq accn x | x <- tf]] | c <- iota 0 n]
       [seq nth 0 (randoms i) (ix2 c j) | c <- iota 0 n]
  + nth 0 (zeros i) (r * num + j).
Proof.
  move=> Hi Hr Hj. have [S1 S2] := size_zrow Hi Hr.
  rewrite /sh2 nth_madd ?size_mmul2_row ?S2 // ?size_map ?size_iota //; last first.
  { by rewrite /z2 size_reshape size_nseq. }
  rewrite nth_mmul2 ?size_map ?size_iota // /z2 nth_reshape // nth_take; last by nia. congr (_ + _).
  rewrite (nth_map 0%N) ?size_iota // nth_iota // add0n size_map. congr dotv.
  rewrite /col (map_nth_iota _ [::]) size_reshape size_nseq. apply/eq_in_map => c.
  rewrite mem_iota /= => Hc. by rewrite pts2E.
Qed.

Lemma addv0 (a : seq F) m : size a = m -> addv a (nseq m 0) = a.
Proof. move=> <-. exact: vadd0. Qed.

(** What party [r] reconstructs. *)
Lemma view1 r j : (r < n)%N -> (j < num)%N -> exists sec,
  is_sharing emb n n.-1 dpos sec [seq nth 0 (nth [::] (sh1 i) r) j | i <- iota 0 n] /\
  forall k, (k < size tf)%N ->
    nth 0 sec k = \sum_(c <- iota 0 K) nth 0 (nth [::] (accm (nth x0 tf k)) r) c * nth 0 (R (ix1 c j)) k.
Proof.
  move=> Hr Hj.
  have HR c : (c < K)%N -> is_sharing emb n K.-1 dpos (R (ix1 c j)) [seq nth 0 (randoms i) (ix1 c j) | i <- iota 0 n].
  { move=> Hc. apply: Sr.2. exact: ix1_lt. }
  have Sm : (size [seq accm x | x <- tf] <= l)%N by rewrite size_map.
  have [sec [S E]] := combine_sharing n_pos Hd r Sm HR.
  exists sec. split; last first.
  { move=> k Hk. rewrite E ?size_map //. by rewrite (nth_map x0). }
  have Hdeg : (l + K.-1 <= n.-1)%N by lia.
  have Hz : (n * num + (r * num + j) < 2 * n * num)%N by nia.
  have := sharing_add (sharing_degree Hdeg S) (Sz.2 _ Hz).
  have [_ Ss] := sharing_size S. rewrite size_dpos in Ss.
  rewrite addv0 //. congr is_sharing. rewrite /addv zip_map -map_comp.
  apply/eq_in_map => i. rewrite mem_iota /= => Hi. by rewrite sh1E.
Qed.

Lemma view2 r j : (r < n)%N -> (j < num)%N -> exists sec,
  is_sharing emb n n.-1 dpos sec [seq nth 0 (nth [::] (sh2 i) r) j | i <- iota 0 n] /\
  forall k, (k < size tf)%N ->
    nth 0 sec k = \sum_(c <- iota 0 n) nth 0 (nth [::] (accn (nth x0 tf k)) r) c * nth 0 (R (ix2 c j)) k.
Proof.
  move=> Hr Hj.
  have HR c : (c < n)%N -> is_sharing emb n K.-1 dpos (R (ix2 c j)) [seq nth 0 (randoms i) (ix2 c j) | i <- iota 0 n].
  { move=> Hc. apply: Sr.2. exact: ix2_lt. }
  have Sm : (size [seq accn x | x <- tf] <= l)%N by rewrite size_map.
  have [sec [S E]] := combine_sharing n_pos Hd r Sm HR.
  exists sec. split; last first.
  { move=> k Hk. rewrite E ?size_map //. by rewrite (nth_map x0). }
  have Hdeg : (l + K.-1 <= n.-1)%N by lia.
  have Hz : (r * num + j < 2 * n * num)%N by nia.
  have := sharing_add (sharing_degree Hdeg S) (Sz.2 _ Hz).
  have [_ Ss] := sharing_size S. rewrite size_dpos in Ss.
  rewrite addv0 //. congr is_sharing. rewrite /addv zip_map -map_comp.
  apply/eq_in_map => i. rewrite mem_iota /= => Hi. by rewrite sh2E.
Qed.

Lemma reconE : top_rows (ps_l Pn) (ps_recon Pn) = compute_recon_coeffs emb n.-1 n dpos.
Proof.
  move: HPn. rewrite /pss_new. case: ifP => // _ [<-] /=.
  rewrite /top_rows /compute_recon_coeffs /= prednK // addnK.
  rewrite take_size_cat // take_oversize //. by rewrite size_map.
Qed.

Definition rt_msg s r : seq F := nth [::] (sh1 s) r ++ nth [::] (sh2 s) r.
Definition recon_n : mat F := compute_recon_coeffs emb n.-1 n dpos.
Definition rt_out (i : nat) : seq (seq F) * seq (seq F) :=
  (mmul recon_n num [seq nth [::] (sh1 s) i | s <- iota 0 n],
   mmul recon_n num [seq nth [::] (sh2 s) i | s <- iota 0 n]).

Lemma recon_rows : size (rows recon_n) = l.
Proof. by rewrite /recon_n /compute_recon_coeffs [size _]size_map take_size_cat // size_dpos. Qed.

Lemma recon_nth (m : seq (seq F)) sec j k : is_sharing emb n n.-1 dpos sec (col j m) -> (j < num)%N -> (k < l)%N ->
  nth 0 (nth [::] (mmul recon_n num m) k) j = nth 0 sec k.
Proof.
  move=> S Hj Hk. rewrite -(col_recon n_pos Hd S Hj) /col (nth_map [::]) //.
  by rewrite size_map -/recon_n recon_rows.
Qed.

Lemma randtrans_realizes id :
  realizes [:: (id, Exch (fun s r => ser (rt_msg s r)))]
    (fun me k => randtrans ser de (mk me) id (randoms me) (zeros me) (rts me) k) rt_out.
Proof.
  move=> plan ph /= [Hp _] me k js v Hme Fk. rewrite /randtrans randtrans_sharesE //.
  apply: (follows_exch n_pos Hp) => //=.
  have Sz2 s : (s < n)%N -> size (rt_msg s me) = (2 * num)%N.
  { move=> Hs. have [S1 S2] := sh_size Hs Hme. rewrite /rt_msg size_cat S1 S2. lia. }
  rewrite (unpack_ser serK Hf Sz2) reconE.
  have Hnc : ncols (compute_recon_coeffs emb n.-1 n dpos) == n.
  { by rewrite /= prednK // addnK drop_size_cat // size_share_pos. }
  case: ifP => [_|/negP []]; last by move: Hnc; rewrite -reconE.
  move: Fk. rewrite /rt_out /recon_n -!map_comp.
  have E1 : [seq (take num \o (fun s => rt_msg s me)) s | s <- iota 0 n] = [seq nth [::] (sh1 s) me | s <- iota 0 n].
  { apply/eq_in_map => s. rewrite mem_iota /= => Hs. have [S1 S2] := sh_size Hs Hme.
    by rewrite /rt_msg take_size_cat. }
  have E2 : [seq (drop num \o (fun s => rt_msg s me)) s | s <- iota 0 n] = [seq nth [::] (sh2 s) me | s <- iota 0 n].
  { apply/eq_in_map => s. rewrite mem_iota /= => Hs. have [S1 S2] := sh_size Hs Hme.
    by rewrite /rt_msg drop_size_cat. }
  by rewrite -E1 -E2.
Qed.

(** What is computed from the received messages. *)
Definition rt_read (ds : seq D) : seq (seq F) * seq (seq F) :=
  (mmul recon_n num [seq take num (odflt [::] (de d)) | d <- ds], mmul recon_n num [seq drop num (odflt [::] (de d)) | d <- ds]).

Lemma rt_readE me : (me < n)%N -> rt_read [seq ser (rt_msg s me) | s <- iota 0 n] = rt_out me.
Proof.
  move=> Hme. rewrite /rt_read /rt_out -!map_comp.
  have H s : (s < n)%N -> [/\ de (ser (rt_msg s me)) = Some (rt_msg s me), take num (rt_msg s me) = nth [::] (sh1 s) me & drop num (rt_msg s me) = nth [::] (sh2 s) me].
  { move=> Hs. have [S1 S2] := sh_size Hs Hme. rewrite serK; last by rewrite /rt_msg size_cat S1 S2 addnn -mul2n.
    split=> //; [by rewrite /rt_msg take_size_cat|by rewrite /rt_msg drop_size_cat]. }
  congr (_, _); congr mmul; apply/eq_in_map => s; rewrite mem_iota /= => Hs; have [E1 E2 E3] := H s Hs; by rewrite E1 /= ?E2 ?E3.
Qed.

(** The common secrets of transformation [k] in column [j]. *)
Definition rt_sec (k j : nat) : seq F :=
  [seq nth 0 (R (c * num + j)%N) k | c <- iota 0 (size (nth x0 tf k).1.1)].

Lemma rt_out_rows i k : (k < l)%N -> size (nth [::] (rt_out i).1 k) = num /\ size (nth [::] (rt_out i).2 k) = num.
Proof.
  move=> Hk. rewrite /rt_out /=. split; by rewrite /mmul (nth_map [::]) ?recon_rows // size_map size_iota.
Qed.

Lemma randtrans_out k : (k < size tf)%N ->
  sharings K.-1 (nth x0 tf k).1.2 num (fun i => nth [::] (rt_out i).1 k) (fun j => pick (nth x0 tf k).2 (rt_sec k j)) /\
  sharings n.-1 (nth x0 tf k).1.1 num (fun i => nth [::] (rt_out i).2 k) (rt_sec k).
Proof.
  move=> Hk. have Hkl : (k < l)%N by apply: leq_trans Hm. have Hx := Htf Hk.
  have [_ _ Ho Hs [Es Hfx]] := Hx.
  split; split=> [i Hi|j Hj].
  - by have [] := rt_out_rows i Hkl.
  - pose rv := [seq nth 0 (R (ix1 c j)) k | c <- iota 0 K].
    have Srv : size rv = K by rewrite size_map size_iota.
    have := accm_sharing Hx Srv.
    have -> : pick (nth x0 tf k).2 rv = pick (nth x0 tf k).2 (rt_sec k j).
    { rewrite /pick. apply/eq_in_map => c Hc. have Hc' := allP Hfx c Hc.
      rewrite !(nth_map 0%N) ?size_iota ?nth_iota //. lia. lia. }
    congr is_sharing. apply/eq_in_map => r. rewrite mem_iota /= => Hr.
    have [sec [S E]] := view1 Hr Hj. rewrite /rt_out /= (recon_nth (sec := sec)) //; last by rewrite col_map.
    rewrite E // !big_seq. apply: eq_bigr => c. rewrite mem_iota /= => Hc.
    by rewrite (nth_map 0%N) ?size_iota // nth_iota.
  - by have [] := rt_out_rows i Hkl.
  - pose rv := [seq nth 0 (R (ix2 c j)) k | c <- iota 0 n].
    have Srv : size rv = n by rewrite size_map size_iota.
    have := accn_sharing Hx Srv.
    have -> : take (size (nth x0 tf k).1.1) rv = rt_sec k j.
    { rewrite /rv /rt_sec -map_take take_iota (minn_idPl _); last by lia.
      apply/eq_in_map => c. rewrite mem_iota /= => Hc. by rewrite /ix2 (leq_trans Hc). }
    congr is_sharing. apply/eq_in_map => r. rewrite mem_iota /= => Hr.
    have [sec [S E]] := view2 Hr Hj. rewrite /rt_out /= (recon_nth (sec := sec)) //; last by rewrite col_map.
    rewrite E // !big_seq. apply: eq_bigr => c. rewrite mem_iota /= => Hc.
    by rewrite (nth_map 0%N) ?size_iota // nth_iota.
Qed.

(** With fewer than [l] positions a share of the low-degree mask is a share of
    the high-degree mask, of another party if the numbers of positions differ. *)
Lemma rt_repeat k m m' j : (k < size tf)%N -> (j < num)%N ->
  (size (nth x0 tf k).1.2 + m < l)%N -> (size (nth x0 tf k).1.2 + m = size (nth x0 tf k).1.1 + m')%N ->
  nth 0 (nth [::] (rt_out m).1 k) j = nth 0 (nth [::] (rt_out m').2 k) j.
Proof.
  move=> Hk Hj Hlt He. have Hkl : (k < l)%N by apply: leq_trans Hm. have Hx := Htf Hk.
  have Hmn : (m < n)%N by lia. have Hmn' : (m' < n)%N by lia.
  have [sec [S E]] := view1 Hmn Hj. rewrite /rt_out /= (recon_nth (sec := sec)) //; last by rewrite col_map.
  have [sec' [S' E']] := view2 Hmn' Hj. rewrite (recon_nth (sec := sec')) //; last by rewrite col_map.
  pose rv := [seq nth 0 (R (ix1 c j)) k | c <- iota 0 K]. pose rn := [seq nth 0 (R (ix2 c j)) k | c <- iota 0 n].
  have HE : nth 0 sec k = nth 0 rv (size (nth x0 tf k).1.2 + m).
  { have H1 : (size (nth x0 tf k).1.2 + m < K)%N by lia.
    rewrite -(accm_at Hx (rv := rv) _ H1 Hmn) ?size_map ?size_iota // E // !big_seq. apply: eq_bigr => c. rewrite mem_iota /= => Hc.
    by rewrite (nth_map 0%N) ?size_iota // nth_iota. }
  have HE' : nth 0 sec' k = nth 0 rn (size (nth x0 tf k).1.1 + m').
  { have H1 : (size (nth x0 tf k).1.1 + m' < n)%N by lia.
    rewrite -(accn_at Hx (rv := rn) _ H1 Hmn') ?size_map ?size_iota // E' // !big_seq. apply: eq_bigr => c. rewrite mem_iota /= => Hc.
    by rewrite (nth_map 0%N) ?size_iota // nth_iota. }
  rewrite HE HE' -He !(nth_map 0%N) ?size_iota ?nth_iota; [|lia|lia|lia|lia].
  by rewrite /ix1 /ix2 add0n Hlt.
Qed.
End Main.
End RandTrans.

(** Proofs about packed secret sharing. *)

From mathcomp Require Import all_ssreflect all_algebra zify.
From Verif Require Import MathModel MathProofs SharingModel SharingSpec.
Set Implicit Arguments.
Unset Strict Implicit.
Unset Printing Implicit Defensive.
Import GRing.Theory.
Local Open Scope ring_scope.

Section Proofs.
Variable F : fieldType.
Variable emb : nat -> F.
Notation share_pos := (share_pos emb).

Lemma evals_cat (p : {poly F}) s1 s2 : evals p (s1 ++ s2) = evals p s1 ++ evals p s2.
Proof. exact: map_cat. Qed.

Lemma size_share_pos n : size (share_pos n) = n.
Proof. by rewrite size_map size_iota. Qed.

Lemma evals_share_pos (p : {poly F}) n : evals p (share_pos n) = [seq p.[emb i] | i <- iota 0 n].
Proof. by rewrite /evals -map_comp. Qed.

Lemma is_sharingE n d pos sec sh : is_sharing emb n d pos sec sh <->
  exists p : {poly F}, [/\ (size p <= d.+1)%N, sh = evals p (share_pos n) & sec = evals p pos].
Proof. by split=> -[p [H1 H2 H3]]; exists p; split=> //; rewrite H2 evals_share_pos. Qed.

Lemma all_zip_eq (a b : seq F) : (size a <= size b)%N ->
  all (fun x : F * F => x.1 == x.2) (zip a b) = (a == take (size a) b).
Proof.
  elim: a b => [|x a IH] [|y b] //= Hs.
  by rewrite IH // eqseq_cons.
Qed.

Section Fixed.
Variables (n d : nat) (pos : seq F).
Hypothesis U : uniq (pos ++ share_pos n).
Notation l := (size pos).

Lemma U_pos : uniq pos. Proof. by move: U; rewrite cat_uniq => /and3P []. Qed.
Lemma U_sh : uniq (share_pos n). Proof. by move: U; rewrite cat_uniq => /and3P []. Qed.

Lemma size_all : size (pos ++ share_pos n) = (l + n)%N.
Proof. by rewrite size_cat size_share_pos. Qed.

(** Splitting the points as the code does. *)
Lemma take_all : (l <= d.+1)%N -> take d.+1 (pos ++ share_pos n) = pos ++ take (d.+1 - l) (share_pos n).
Proof. by move=> H; rewrite take_cat ltnNge H. Qed.
Lemma drop_all : (l <= d.+1)%N -> drop d.+1 (pos ++ share_pos n) = drop (d.+1 - l) (share_pos n).
Proof. by move=> H; rewrite drop_cat ltnNge H. Qed.

Section Share.
Hypothesis Hdn : (d.+1 <= n)%N.
Hypothesis Hld : (l <= d.+1)%N.

(** The polynomial through full points. *)
Lemma share_points (sec coins : seq F) : size sec = l -> size coins = (d.+1 - l)%N ->
  exists2 p : {poly F}, (size p <= d.+1)%N &
    evals p pos = sec /\ evals p (take (d.+1 - l) (share_pos n)) = coins.
Proof.
  move=> Ss Sc. set C := take d.+1 (pos ++ share_pos n).
  have UC : uniq C by apply: take_uniq.
  have SC : size C = d.+1 by rewrite size_takel // size_all; lia.
  have [|p Hp E] := @interp_exists _ C (sec ++ coins) UC; first by rewrite size_cat Ss Sc SC; lia.
  exists p; first by rewrite -SC.
  move: E. rewrite /C take_all // evals_cat => /eqP. rewrite eqseq_cat ?size_evals //.
  by case/andP => /eqP -> /eqP ->.
Qed.

Lemma mdot_share (p : {poly F}) : (size p <= d.+1)%N ->
  mdot (lagrange_coeffs (take d.+1 (pos ++ share_pos n)) (drop d.+1 (pos ++ share_pos n)))
       (evals p pos ++ evals p (take (d.+1 - l) (share_pos n)))
  = evals p (drop (d.+1 - l) (share_pos n)).
Proof.
  move=> Hp. rewrite -evals_cat -take_all // lagrange_eval ?drop_all //; first exact: take_uniq.
  rewrite size_takel // size_all; lia.
Qed.

Lemma share_of_poly (p : {poly F}) (sec : seq F) (r : nat -> F) :
  (size p <= d.+1)%N ->
  evals p pos = take l (sec ++ [seq r (d.+1 - l + i)%N | i <- iota 0 (l - size sec)]) ->
  evals p (take (d.+1 - l) (share_pos n)) = [seq r i | i <- iota 0 (d.+1 - l)] ->
  share_using_coeffs sec (compute_share_coeffs emb d n pos) l r = Some (evals p (share_pos n)).
Proof.
  move=> Hp E1 E2. rewrite /share_using_coeffs /compute_share_coeffs [ncols _]/=.
  rewrite size_takel ?size_all; last lia.
  rewrite -E1 -E2 /mdot_chk [ncols _]/= size_takel ?size_all; last lia.
  rewrite size_cat !size_evals size_takel ?size_share_pos; last lia.
  rewrite subnKC // eqxx /= mdot_share // -evals_cat cat_take_drop. by [].
Qed.

(** Sharing, with missing secrets filled from the generator. *)
Lemma share_ok (sec : seq F) (r : nat -> F) :
  let full := take l (sec ++ [seq r (d.+1 - l + i)%N | i <- iota 0 (l - size sec)]) in
  exists sh, share_using_coeffs sec (compute_share_coeffs emb d n pos) l r = Some sh /\
    is_sharing emb n d pos full sh.
Proof.
  move=> full.
  have Sf : size full = l.
  { rewrite size_takel // size_cat size_map size_iota. lia. }
  have [|p Hp [E1 E2]] := @share_points full [seq r i | i <- iota 0 (d.+1 - l)] Sf.
  { by rewrite size_map size_iota. }
  exists (evals p (share_pos n)). split; first exact: share_of_poly.
  apply/is_sharingE. by exists p.
Qed.

(** A polynomial is determined by its secrets and any d+1-l of its shares. *)
Lemma poly_from_view (A : seq nat) (p q : {poly F}) :
  uniq A -> all (fun i => (i < n)%N) A -> (d.+1 <= l + size A)%N ->
  (size p <= d.+1)%N -> (size q <= d.+1)%N ->
  evals p pos = evals q pos -> [seq p.[emb i] | i <- A] = [seq q.[emb i] | i <- A] -> p = q.
Proof.
  move=> UA /allP AA SA Hp Hq E1 E2.
  have UPA : uniq (pos ++ [seq emb i | i <- A]).
  { move: U. rewrite !cat_uniq => /and3P [-> H1 H2] /=. apply/andP; split.
    - apply: contra H1 => /hasP [x /mapP [i Hi ->] Hx]. apply/hasP. exists (emb i) => //.
      apply: map_f. by rewrite mem_iota add0n AA.
    - rewrite map_inj_in_uniq // => i j Hi Hj E. apply/eqP.
      rewrite -(nth_uniq 0 _ _ H2) ?size_share_pos ?AA //.
      by rewrite !(nth_map 0%N) ?size_iota ?AA // !nth_iota ?AA // E. }
  apply: (poly_agree UPA).
  - by rewrite size_cat size_map; lia.
  - by rewrite size_cat size_map; lia.
  - by rewrite !evals_cat E1 /evals -!map_comp; congr (_ ++ _).
Qed.

Lemma poly_with_view (A : seq nat) (sec vs : seq F) :
  uniq A -> all (fun i => (i < n)%N) A -> (l + size A)%N = d.+1 ->
  size sec = l -> size vs = size A ->
  exists2 p : {poly F}, (size p <= d.+1)%N & evals p pos = sec /\ [seq p.[emb i] | i <- A] = vs.
Proof.
  move=> UA /allP AA SA Ss Sv.
  have UPA : uniq (pos ++ [seq emb i | i <- A]).
  { move: U. rewrite !cat_uniq => /and3P [-> H1 H2] /=. apply/andP; split.
    - apply: contra H1 => /hasP [x /mapP [i Hi ->] Hx]. apply/hasP. exists (emb i) => //.
      apply: map_f. by rewrite mem_iota add0n AA.
    - rewrite map_inj_in_uniq // => i j Hi Hj E. apply/eqP.
      rewrite -(nth_uniq 0 _ _ H2) ?size_share_pos ?AA //.
      by rewrite !(nth_map 0%N) ?size_iota ?AA // !nth_iota ?AA // E. }
  have [|p Hp E] := @interp_exists _ _ (sec ++ vs) UPA.
  { by rewrite !size_cat size_map Ss Sv. }
  exists p; first by rewrite -SA -(size_map emb A) -size_cat.
  move: E. rewrite evals_cat => /eqP. rewrite eqseq_cat ?size_evals //.
  case/andP => /eqP -> /eqP <-. by rewrite /evals -map_comp.
Qed.

End Share.

Section Recon.
Hypothesis Hdn : (d.+1 <= n)%N.

Lemma drop_all_recon : drop (l + n - d.+1) (pos ++ share_pos n) = drop (n - d.+1) (share_pos n).
Proof.
  rewrite drop_cat. have -> : (l + n - d.+1 < l)%N = false by lia.
  congr drop. lia.
Qed.
Lemma take_all_recon : take (l + n - d.+1) (pos ++ share_pos n) = pos ++ take (n - d.+1) (share_pos n).
Proof.
  rewrite take_cat. have -> : (l + n - d.+1 < l)%N = false by lia.
  congr (_ ++ take _ _). lia.
Qed.

Lemma size_last : size (drop (n - d.+1) (share_pos n)) = d.+1.
Proof. rewrite size_drop size_share_pos. lia. Qed.

Lemma drop_evals k (p : {poly F}) s : drop k (evals p s) = evals p (drop k s).
Proof. by rewrite /evals map_drop. Qed.
Lemma take_evals k (p : {poly F}) s : take k (evals p s) = evals p (take k s).
Proof. by rewrite /evals map_take. Qed.

Lemma recon_mdot (p : {poly F}) npos : (size p <= d.+1)%N ->
  mdot (lagrange_coeffs (drop (n - d.+1) (share_pos n)) npos) (evals p (drop (n - d.+1) (share_pos n)))
  = evals p npos.
Proof.
  move=> Hp. apply: lagrange_eval; last by rewrite size_last.
  apply: drop_uniq. exact: U_sh.
Qed.

Lemma recon_coeffs_ok (sec sh : seq F) : is_sharing emb n d pos sec sh ->
  recon_using_coeffs sh (compute_recon_coeffs emb d n pos) = Some sec.
Proof.
  case/is_sharingE => p [Hp -> ->]. rewrite /recon_using_coeffs /compute_recon_coeffs.
  rewrite [ncols _]/= drop_all_recon size_last size_evals size_share_pos Hdn.
  rewrite /mdot_chk [ncols _]/= size_last drop_evals size_evals size_last eqxx.
  by rewrite take_size_cat // recon_mdot.
Qed.

Lemma semihon_ok P (sec sh : seq F) : pss_new emb d n pos = Some P -> is_sharing emb n d pos sec sh ->
  pss_semihon_recon P sh = Some sec.
Proof.
  rewrite /pss_new Hdn => -[<-] /is_sharingE [p [Hp -> ->]].
  rewrite /pss_semihon_recon /= size_evals size_share_pos eqxx drop_all_recon.
  rewrite /mdot_chk [ncols _]/= size_last drop_evals size_evals size_last eqxx.
  rewrite take_all_recon /top_rows /= map_cat take_size_cat ?size_map //.
  congr Some. exact: (@recon_mdot p pos Hp).
Qed.

Lemma recon_iff P (sh : seq F) : pss_new emb d n pos = Some P -> size sh = n ->
  (exists2 sec, is_sharing emb n d pos sec sh & pss_recon P sh = Some (ROk sec)) \/
  ((forall sec, ~ is_sharing emb n d pos sec sh) /\ pss_recon P sh = Some (@RMalicious F)).
Proof.
  rewrite /pss_new Hdn => -[<-] Ss.
  rewrite /pss_recon /= Ss eqxx /= drop_all_recon take_all_recon.
  rewrite /mdot_chk [ncols _]/= size_last size_drop Ss.
  have -> : (n - (n - d.+1) == d.+1)%N by apply/eqP; lia.
  have UD : uniq (drop (n - d.+1) (share_pos n)) by apply/drop_uniq/U_sh.
  have [|p Hp E] := @interp_exists _ _ (drop (n - d.+1) sh) UD.
  { by rewrite size_last size_drop Ss; lia. }
  rewrite size_last in Hp. rewrite -E recon_mdot // evals_cat.
  rewrite /= drop_size_cat ?size_evals // take_size_cat ?size_evals //.
  have Sz : size (evals p (take (n - d.+1) (share_pos n))) = (n - d.+1)%N.
  { rewrite size_evals size_takel // size_share_pos. lia. }
  case: ifP => H.
  - left. exists (evals p pos) => //. apply/is_sharingE. exists p. split=> //.
    rewrite -[LHS](cat_take_drop (n - d.+1)) -E -[RHS in _ = RHS](cat_take_drop (n - d.+1)) drop_evals.
    congr (_ ++ _). rewrite take_evals. rewrite all_zip_eq in H; last by rewrite Sz Ss; lia.
    rewrite Sz in H. by rewrite (eqP H).
  - right. split=> // sec /is_sharingE [q [Hq Eq _]]. move/negP: H; apply.
    have Epq : p = q.
    { apply: (poly_agree UD); rewrite ?size_last // E Eq drop_evals. by []. }
    rewrite all_zip_eq ?Sz; last by rewrite Ss; lia.
    by rewrite Eq Epq take_evals.
Qed.

Lemma recon_wrong_size P (sh : seq F) : pss_new emb d n pos = Some P -> size sh <> n ->
  pss_recon P sh = Some (@RWrongNumber F).
Proof. rewrite /pss_new Hdn => -[<-] Ss. rewrite /pss_recon /=. by case: eqP. Qed.

(** Sharings of the same shares have the same secrets. *)
Lemma is_sharing_fun (sec sec' sh : seq F) : is_sharing emb n d pos sec sh ->
  is_sharing emb n d pos sec' sh -> sec = sec'.
Proof.
  case/is_sharingE => p [Hp Ep ->] /is_sharingE [q [Hq Eq ->]]. congr (evals _ _).
  apply: (poly_agree U_sh); rewrite ?size_share_pos; try lia. by rewrite -Ep -Eq.
Qed.

Lemma corruption (sec sh sh' : seq F) : is_sharing emb n d pos sec sh -> size sh' = n ->
  (0 < count (fun x : F * F => x.1 != x.2) (zip sh sh') <= n - d.+1)%N ->
  forall sec', ~ is_sharing emb n d pos sec' sh'.
Proof.
  case/is_sharingE => p [Hp -> _] Ss' Hc sec' /is_sharingE [q [Hq Eq _]].
  rewrite Eq in Hc. clear Eq Ss'.
  have Z : zip (evals p (share_pos n)) (evals q (share_pos n)) = [seq (p.[x], q.[x]) | x <- share_pos n].
  { by rewrite zip_map. }
  rewrite Z count_map in Hc. case: (p =P q) => [Epq|/eqP Hpq].
  - move: Hc. rewrite Epq. rewrite (eq_count (a2 := pred0)) ?count_pred0 // => x /=. by rewrite eqxx.
  - have Hn : p - q != 0 by rewrite subr_eq0.
    have R : all (root (p - q)) [seq x <- share_pos n | p.[x] == q.[x]].
    { apply/allP => x. rewrite mem_filter => /andP [/eqP E _].
      by rewrite rootE hornerD hornerN E subrr. }
    have M := max_poly_roots Hn R (filter_uniq _ U_sh). rewrite size_filter in M.
    have SS : (size (p - q)%R <= d.+1)%N.
    { apply: (leq_trans (size_add _ _)). by rewrite size_opp geq_max Hp Hq. }
    have C := count_predC (fun x : F => p.[x] == q.[x]) (share_pos n).
    rewrite size_share_pos in C. move: Hc.
    have -> : count (preim (fun x : F => (p.[x], q.[x])) (fun x : F * F => x.1 != x.2)) (share_pos n) =
              count (predC (fun x : F => p.[x] == q.[x])) (share_pos n) by apply: eq_count.
    have M' := leq_trans M SS. move: C M'.
    set a := count _ (share_pos n). set b := count _ (share_pos n). lia.
Qed.
End Recon.
End Fixed.

(** ** Algebra of sharings *)
Section Alg.
Variables (n : nat) (pos : seq F).

Definition addv (a b : seq F) : seq F := [seq x.1 + x.2 | x <- zip a b].
Definition mulv (a b : seq F) : seq F := [seq x.1 * x.2 | x <- zip a b].
Definition scalev (c : F) (a : seq F) : seq F := [seq c * x | x <- a].

Lemma addv_evals (p q : {poly F}) s : addv (evals p s) (evals q s) = evals (p + q) s.
Proof. rewrite /addv zip_map -map_comp. apply: eq_map => x /=. by rewrite hornerD. Qed.
Lemma mulv_evals (p q : {poly F}) s : mulv (evals p s) (evals q s) = evals (p * q) s.
Proof. rewrite /mulv zip_map -map_comp. apply: eq_map => x /=. by rewrite hornerM. Qed.
Lemma scalev_evals c (p : {poly F}) s : scalev c (evals p s) = evals (c *: p) s.
Proof. rewrite /scalev -map_comp. apply: eq_map => x /=. by rewrite hornerZ. Qed.

Lemma sharing_add d s1 s2 h1 h2 : is_sharing emb n d pos s1 h1 -> is_sharing emb n d pos s2 h2 ->
  is_sharing emb n d pos (addv s1 s2) (addv h1 h2).
Proof.
  case/is_sharingE => p [Hp -> ->] /is_sharingE [q [Hq -> ->]].
  apply/is_sharingE. exists (p + q). split; rewrite ?addv_evals //.
  apply: (leq_trans (size_add _ _)). by rewrite geq_max Hp Hq.
Qed.

Lemma sharing_scale d c s h : is_sharing emb n d pos s h -> is_sharing emb n d pos (scalev c s) (scalev c h).
Proof.
  case/is_sharingE => p [Hp -> ->]. apply/is_sharingE. exists (c *: p).
  split; rewrite ?scalev_evals //. exact: (leq_trans (size_scale_leq _ _)).
Qed.

Lemma sharing_mul d1 d2 s1 s2 h1 h2 : is_sharing emb n d1 pos s1 h1 -> is_sharing emb n d2 pos s2 h2 ->
  is_sharing emb n (d1 + d2) pos (mulv s1 s2) (mulv h1 h2).
Proof.
  case/is_sharingE => p [Hp -> ->] /is_sharingE [q [Hq -> ->]].
  apply/is_sharingE. exists (p * q). split; rewrite ?mulv_evals //.
  apply: (leq_trans (size_mul_leq _ _)). lia.
Qed.

Lemma sharing_degree d d' s h : (d <= d')%N -> is_sharing emb n d pos s h -> is_sharing emb n d' pos s h.
Proof. move=> Hd [p [Hp E1 E2]]. exists p. split=> //. lia. Qed.

Lemma sharing_size d s h : is_sharing emb n d pos s h -> size h = n /\ size s = size pos.
Proof. case=> p [_ -> ->]. by rewrite !size_map size_iota. Qed.
End Alg.
End Proofs.

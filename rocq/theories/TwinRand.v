(** [randtrans] in two executions that look the same to a set of parties. *)

From mathcomp Require Import all_ssreflect all_algebra zify.
From Verif Require Import MathModel MathProofs MatProofs SharingModel SharingSpec SharingProofs.
From Verif Require Import MachineModel MachineProofs MachineBuild Realize CoreModel CoreSpec CoreProofs RandTransProofs.
From Verif Require Import PreprocModel PreprocSpec PreprocProofs GarbleGates ViewProofs TwinProofs TwinCore.
Set Implicit Arguments.
Unset Strict Implicit.
Unset Printing Implicit Defensive.
Import GRing.Theory.
Local Open Scope ring_scope.

Section Poly.
Variable F : fieldType.
Variable emb : nat -> F.
Variables (n l : nat).
Hypothesis n_pos : (0 < n)%N.
Notation dpos := (default_pos emb n l).
Hypothesis Hd : good_pos emb n dpos.

(** The combined rows as polynomials. *)
Lemma combine_poly d K (ms : seq (seq (seq F))) (p : nat -> {poly F}) (r : nat) :
  (size ms <= l)%N -> (forall c, (c < K)%N -> (size (p c) <= d.+1)%N) ->
  exists Q : {poly F}, [/\ (size Q <= (l + d).+1)%N,
    forall i, (i < n)%N -> Q.[emb i] = dotv [seq dotv (take (size ms) (sl emb n l i)) [seq nth 0 (nth [::] M r) c | M <- ms] | c <- iota 0 K]
              [seq (p c).[emb i] | c <- iota 0 K],
    forall k, (k < size ms)%N -> Q.[nth 0 dpos k] = \sum_(c <- iota 0 K) nth 0 (nth [::] (nth [::] ms k) r) c * (p c).[nth 0 dpos k],
    forall k, (size ms <= k < l)%N -> Q.[nth 0 dpos k] = 0 &
    forall x, (forall c, (c < K)%N -> (p c).[x] = 0) -> Q.[x] = 0].
Proof.
  move=> Hm Hp. set m := size ms in Hm *.
  have [B HB] := @fin_choice {poly F} m _ 0 (fun k Hk => sl_basis n_pos Hd (leq_trans Hk Hm)).
  pose a k c := nth 0 (nth [::] (nth [::] ms k) r) c.
  pose Q : {poly F} := \sum_(c <- iota 0 K) (\sum_(k <- iota 0 m) a k c *: B k) * p c.
  have Qe x : Q.[x] = \sum_(c <- iota 0 K) (\sum_(k <- iota 0 m) a k c * (B k).[x]) * (p c).[x].
  { rewrite /Q horner_sum. apply: eq_bigr => c _. rewrite hornerM horner_sum. congr (_ * _).
    apply: eq_bigr => k _. by rewrite hornerZ. }
  exists Q. split.
  - rewrite /Q big_seq. apply: (big_ind (fun q : {poly F} => (size q <= (l + d).+1)%N)).
    + by rewrite size_poly0.
    + move=> q1 q2 H1 H2. apply: (leq_trans (size_add _ _)). by rewrite geq_max H1 H2.
    + move=> c. rewrite mem_iota /= => Hc. apply: (leq_trans (size_mul_leq _ _)).
      have Hpc := Hp c Hc.
      have : (size (\sum_(k <- iota 0 m) a k c *: B k)%R <= l.+1)%N.
      { rewrite big_seq. apply: (big_ind (fun q : {poly F} => (size q <= l.+1)%N)).
        - by rewrite size_poly0.
        - move=> q1 q2 H1 H2. apply: (leq_trans (size_add _ _)). by rewrite geq_max H1 H2.
        - move=> k. rewrite mem_iota /= => Hk. apply: (leq_trans (size_scale_leq _ _)). by have [] := HB k Hk. }
      set x := size _. move: Hpc. set y := size (p c). lia.
  - move=> i Hi. rewrite dotv_map2 Qe !big_seq. apply: eq_bigr => c. rewrite mem_iota /= => Hc. congr (_ * _).
    rewrite take_sl // (map_nth_iota _ [::]) dotv_map2 !big_seq. apply: eq_bigr => k.
    rewrite mem_iota /= => Hk. have [_ _ Hs] := HB k Hk. by rewrite Hs // mulrC.
  - move=> k Hk. have Hkl : (k < l)%N by apply: leq_trans Hm.
    rewrite Qe !big_seq. apply: eq_bigr => c. rewrite mem_iota /= => Hc. congr (_ * _).
    rewrite (bigD1_seq k) ?iota_uniq ?mem_iota //=.
    have [_ Hb _] := HB k Hk. rewrite Hb // eqxx mulr1 big_seq_cond big1 ?addr0 // => k' /andP [].
    rewrite mem_iota /= => Hk' Hne. have [_ Hb' _] := HB k' Hk'. by rewrite Hb' // eq_sym (negbTE Hne) mulr0.
  - move=> k /andP [Hk Hkl]. rewrite Qe big1 // => c _. rewrite big_seq big1 ?mul0r // => k'. rewrite mem_iota /= => Hk'.
    have [_ Hb' _] := HB k' Hk'. rewrite Hb' // (_ : (k == k') = false) ?mulr0 //. apply/eqP. lia.
  - move=> x Hx. rewrite Qe big_seq big1 // => c. rewrite mem_iota /= => Hc. by rewrite Hx // mulr0.
Qed.
End Poly.

Section Acc.
Variable F : fieldType.
Variable emb : nat -> F.
Variables (n t l : nat).
Hypothesis HK : (0 < t + l)%N.
Hypothesis Hn : (t + l + l <= n)%N.
Variable x : seq F * seq F * seq nat.
Hypothesis Hx : tf_ok emb n l x.
Variables dl dn : {poly F}.
Hypothesis Hrel : related emb n l x.1.1 x.1.2 x.2 dl dn.
Notation nodes := (nodes emb n).

Lemma accm_poly r : (size dl <= t + l)%N -> (r < n)%N ->
  \sum_(c <- iota 0 (t + l)) nth 0 (nth [::] (accm emb n t l x) r) c * (if (c < l)%N then dn.[nodes x.1.1 c] else dl.[nodes x.1.2 c]) = dl.[emb r].
Proof.
  move=> Hs Hr. have [_ Hg Ho Hsq [Es Hf]] := Hx. have [R1 R2] := Hrel.
  pose rv := [seq (if (c < l)%N then dn.[nodes x.1.1 c] else dl.[nodes x.1.2 c]) | c <- iota 0 (t + l)].
  have Srv : size rv = (t + l)%N by rewrite size_map size_iota.
  have n_pos : (0 < n)%N by lia. have SE := size_emap n_pos HK Hn Hx. have EL := emap_lt n_pos HK Hn Hx.
  pose vs := [seq nth 0 rv i | i <- emap t l x].
  have Sv : size vs = (t + l)%N by rewrite size_map SE.
  have Sd : size (take (t + l).-1.+1 (x.1.2 ++ share_pos emb n)) = (t + l)%N.
  { rewrite prednK // size_takel // size_cat size_share_pos. lia. }
  have Ev : evals dl (take (t + l).-1.+1 (x.1.2 ++ share_pos emb n)) = vs.
  { apply: (@eq_from_nth _ 0); first by rewrite size_map Sd Sv.
    rewrite size_map Sd => c Hc. rewrite (nth_map 0) ?Sd // nth_take ?prednK // -/(nodes x.1.2 c).
    rewrite /vs (nth_map 0%N) ?SE //. have He := allP EL (nth 0%N (emap t l x) c).
    rewrite SE in He. have {}He : (nth 0%N (emap t l x) c < t + l)%N by apply: He; rewrite mem_nth ?SE.
    rewrite (nth_map 0%N) ?size_iota // nth_iota // add0n. clear He.
    rewrite /emap nth_cat Es. case: (ltnP c (size x.1.2)) => Hcq.
    - have Hfc : (nth 0%N x.2 c < size x.1.1)%N by apply: (allP Hf); rewrite mem_nth ?Es.
      rewrite (leq_trans Hfc Ho) {1}/nodes nth_cat Hcq R1 // /nodes nth_cat Hfc //.
    - rewrite nth_drop nth_iota ?subnKC // add0n. case: ifP => // Hcl.
      have Hcn : (c - size x.1.2 < n)%N by lia.
      have := R2 (c - size x.1.2)%N. rewrite subnKC // => <- //.
      by rewrite {1}/nodes nth_cat ltnNge Hcq /= (nth_map 0%N) ?size_iota // nth_iota. }
  have HKn : ((t + l).-1.+1 <= size x.1.2 + n)%N by lia.
  have Hs' : (size dl <= (t + l).-1.+1)%N by rewrite prednK.
  have := share_coeffs_eval Hg Hs' HKn. rewrite Ev => /(congr1 (fun s => nth 0 s r)).
  rewrite nth_mdot; last by rewrite [size _]size_map size_share_pos.
  rewrite [RHS](nth_map 0) ?size_share_pos // (nth_map 0%N) ?size_iota // nth_iota // add0n => <-.
  have Hrow : size (nth [::] (rows (share_coeffs emb (t + l).-1 n x.1.2)) r) = (t + l)%N by rewrite share_coeffs_row // prednK.
  have Et := @trans_mat_dot _ (emap t l x) _ rv (etrans Hrow (esym SE)) (etrans Srv (esym SE)) EL.
  rewrite -/vs in Et. rewrite -Et SE.
  rewrite !big_seq. apply: eq_bigr => c. rewrite mem_iota /= => Hc. congr (_ * _).
  - rewrite /accm /mmul (nth_map [::]) ?size_map ?size_iota // (nth_map 0%N) ?size_iota // nth_iota //.
  - by rewrite (nth_map 0%N) ?size_iota // nth_iota.
Qed.

Lemma accn_poly r : (size dn <= n)%N -> (r < n)%N ->
  \sum_(c <- iota 0 n) nth 0 (nth [::] (accn emb n x) r) c * dn.[nodes x.1.1 c] = dn.[emb r].
Proof.
  move=> Hs Hr. have [Hg _ Ho Hsq [Es Hf]] := Hx.
  have HKn : (n.-1.+1 <= size x.1.1 + n)%N by lia. have Hn1 : n.-1.+1 = n by lia.
  have Hs' : (size dn <= n.-1.+1)%N by rewrite Hn1.
  have Sd : size (take n.-1.+1 (x.1.1 ++ share_pos emb n)) = n by rewrite Hn1 size_takel // size_cat size_share_pos leq_addl.
  have := share_coeffs_eval Hg Hs' HKn => /(congr1 (fun s => nth 0 s r)).
  rewrite nth_mdot; last by rewrite [size _]size_map size_share_pos.
  rewrite [RHS](nth_map 0) ?size_share_pos // (nth_map 0%N) ?size_iota // nth_iota // add0n => <-.
  have Hrow : size (nth [::] (rows (share_coeffs emb n.-1 n x.1.1)) r) = n by rewrite share_coeffs_row.
  rewrite (dotv_iota Hrow); last by rewrite size_map Sd.
  rewrite !big_seq. apply: eq_bigr => c. rewrite mem_iota /= => Hc. congr (_ * _).
  by rewrite (nth_map 0) ?Sd // nth_take // Hn1.
Qed.
End Acc.

Section Twin.
Variable F : fieldType.
Variable emb : nat -> F.
Variables (n t l : nat) (P Pn : pss F).
Hypothesis HS : setting emb n t l P Pn.
Hypothesis HKl : (t + l + l <= n)%N.
Variable A : seq nat.
Hypothesis UA : uniq A.
Hypothesis HA : all (fun i => (i < n)%N) A.
Hypothesis tA : (size A <= t)%N.
Notation pos := (default_pos emb n l).
Notation held := (held emb).
Notation low := (low t l).
Notation high := (high n).
Notation zero_at := (zero_at emb n l).
Notation agree := (agree emb A).
Notation null := (null emb A).
Notation nodes := (nodes emb n).
Let x0 : seq F * seq F * seq nat := ([::], [::], [::]).
Variable tf : seq (seq F * seq F * seq nat).
Hypothesis Hm : (size tf <= l)%N.
Hypothesis Htf : forall k, (k < size tf)%N -> tf_ok emb n l (nth x0 tf k).
Variable num : nat.
Notation M1 := ((n + t) * num)%N.
Notation M2 := (2 * n * num)%N.
Notation op k := (nth x0 tf k).1.1.
Notation qp k := (nth x0 tf k).1.2.

Variables (dl dn : nat -> nat -> {poly F}).
Hypothesis Ldl : forall k, (k < size tf)%N -> low num (dl k).
Hypothesis Hdn : forall k, (k < size tf)%N -> high num (dn k).
Hypothesis Ndl : forall k, (k < size tf)%N -> null num (dl k).
Hypothesis Ndn : forall k, (k < size tf)%N -> null num (dn k).
Hypothesis Rel : forall k j, (k < size tf)%N -> (j < num)%N -> related emb n l (op k) (qp k) (nth x0 tf k).2 (dl k j) (dn k j).

(** The change of the random secrets. *)
Definition shift_at (k q : nat) : F :=
  let r := (q %/ num)%N in let j := (q %% num)%N in
  if (r < l)%N then (dn k j).[nodes (op k) r] else if (r < t + l)%N then (dl k j).[nodes (qp k) r] else (dn k j).[nodes (op k) (r - t)].

Lemma shift_at1 k c j : (j < num)%N -> (c < t + l)%N ->
  shift_at k (ix1 num c j) = if (c < l)%N then (dn k j).[nodes (op k) c] else (dl k j).[nodes (qp k) c].
Proof.
  move=> Hj Hc. have Hp : (0 < num)%N by apply: leq_ltn_trans Hj.
  rewrite /shift_at /ix1 divnMDl // divn_small // addn0 modnMDl modn_small //. by case: ifP => // _; rewrite Hc.
Qed.

Lemma shift_at2 k c j : (j < num)%N -> shift_at k (ix2 t l num c j) = (dn k j).[nodes (op k) c].
Proof.
  move=> Hj. have Hp : (0 < num)%N by apply: leq_ltn_trans Hj.
  rewrite /shift_at /ix2. case: (ltnP c l) => Hc; rewrite divnMDl // divn_small // addn0 modnMDl modn_small ?Hc //.
  rewrite (_ : (c + t < l)%N = false); last lia. rewrite (_ : (c + t < t + l)%N = false); last lia. by rewrite addnK.
Qed.

(** The change of the random sharings and of the sharings of zeros. *)
Definition rt_co (ac : seq F * seq F * seq nat -> seq (seq F)) K i r : seq F :=
  [seq dotv (take (size [seq ac x | x <- tf]) (sl emb n l i)) [seq nth 0 (nth [::] M r) c | M <- [seq ac x | x <- tf]] | c <- iota 0 K].
Definition rt_h (q : nat) : {poly F} := hidep emb A pos (fun k => if (k < size tf)%N then shift_at k q else 0).
Definition rt_Q (ac : seq F * seq F * seq nat -> seq (seq F)) K (ix : nat -> nat -> nat) (q : nat) : {poly F} :=
  allp emb n (fun i => dotv (rt_co ac K i (q %/ num)%N) [seq (rt_h (ix c (q %% num)%N)).[emb i] | c <- iota 0 K]).
Definition rt_z (q : nat) : {poly F} :=
  if (q < n * num)%N then if (q %/ num)%N \in A then rt_Q (accn emb n) n (ix2 t l num) q else 0
  else let q' := (q - n * num)%N in if (q' %/ num)%N \in A then rt_Q (accm emb n t l) (t + l) (ix1 num) q' else 0.

Variables pr pz : nat -> {poly F}.
Hypothesis Lr : low M1 pr.
Hypothesis Zz : zero_at M2 pz.

Notation msg pr pz := (rt_msg emb n t l tf num (held pr M1) (held pz M2)).
Notation out pr pz := (rt_out emb n t l tf num (held pr M1) (held pz M2)).

Lemma held_at (p : nat -> {poly F}) M i q : (q < M)%N -> nth 0 (held p M i) q = (p q).[emb i].
Proof. move=> Hq. by rewrite /held (nth_map 0%N) ?size_iota // nth_iota. Qed.

Lemma randtrans_exact : let pr' q := pr q + rt_h q in let pz' q := pz q - rt_z q in
  [/\ [/\ low M1 pr', zero_at M2 pz', agree M1 pr pr' & agree M2 pz pz'],
    forall s a, (s < n)%N -> a \in A -> msg pr pz s a = msg pr' pz' s a &
    forall i k, (i < n)%N -> (k < size tf)%N ->
      nth [::] (out pr' pz' i).1 k = zipw +%R (nth [::] (out pr pz i).1 k) (held (dl k) num i) /\
      nth [::] (out pr' pz' i).2 k = zipw +%R (nth [::] (out pr pz i).2 k) (held (dn k) num i)].
Proof.
  move=> pr' pz'. have Hn := npos HS. have [Ht HP HPn Hg] := HS. have Hg0 : good_pos emb n [::] by exact: U_sh Hg.
  pose h := rt_h.
  have Hh q : (q < M1)%N -> [/\ (size (h q) <= t + l)%N,
     forall k, (k < size pos)%N -> (h q).[nth 0 pos k] = (if (k < size tf)%N then shift_at k q else 0) & forall a, a \in A -> (h q).[emb a] = 0].
  { move=> Hq. apply: (hidep_ok _ UA HA Hg). rewrite size_pos addnC. by rewrite leq_add2r. }
  have Hat q k : (q < M1)%N -> (k < size tf)%N -> (h q).[nth 0 pos k] = shift_at k q.
  { move=> Hq Hk. have [_ E _] := Hh q Hq. rewrite E ?Hk // size_pos. exact: leq_trans Hm. }
  have Lr' : low M1 pr' by move=> q Hq; have [E _ _] := Hh q Hq; rewrite /pr' sz_add ?Lr.
  have Ar : agree M1 pr pr' by apply: agree_null => q a Hq Ha; have [_ _ ->] := Hh q Hq.
  pose co := rt_co.
  have Sm (ac : seq F * seq F * seq nat -> seq (seq F)) : (size [seq ac x | x <- tf] <= l)%N by rewrite size_map.
  have Hix1 c j : (c < t + l)%N -> (j < num)%N -> (ix1 num c j < M1)%N by clear -HKl => Hc Hj; rewrite /ix1; nia.
  have Hix2 c j : (c < n)%N -> (j < num)%N -> (ix2 t l num c j < M1)%N by clear -HKl => Hc Hj; rewrite /ix2; case: ifP => _; nia.
  (* the polynomials of the rows sent to a party *)
  have mkQ (ac : seq F * seq F * seq nat -> seq (seq F)) K (ix : nat -> nat -> nat) (target : nat -> nat -> {poly F}) :
    (forall c j, (c < K)%N -> (j < num)%N -> (ix c j < M1)%N) ->
    (forall k j r, (k < size tf)%N -> (j < num)%N -> (r < n)%N ->
       \sum_(c <- iota 0 K) nth 0 (nth [::] (ac (nth x0 tf k)) r) c * shift_at k (ix c j) = (target k j).[emb r]) ->
    (forall k, (k < size tf)%N -> null num (target k)) ->
    forall q, (q < n * num)%N -> let r := (q %/ num)%N in let j := (q %% num)%N in let Q := rt_Q ac K ix q in
      [/\ (size Q <= n)%N, forall i, (i < n)%N -> Q.[emb i] = dotv (co ac K i r) [seq (h (ix c j)).[emb i] | c <- iota 0 K],
         forall a, a \in A -> Q.[emb a] = 0 & r \in A -> forall x, x \in pos -> Q.[x] = 0].
  { move=> Hix Hsum Hnull q Hq. rewrite /rt_Q -/co -/h.
    have Hp : (0 < num)%N by case: (num) Hq; rewrite ?muln0.
    cbv zeta. have Hr : (q %/ num < n)%N by rewrite ltn_divLR. have Hj : (q %% num < num)%N by rewrite ltn_mod.
    move: (q %/ num)%N (q %% num)%N Hr Hj => r j Hr Hj.
    have Hpz c : (c < K)%N -> (size (h (ix c j)) <= (t + l).-1.+1)%N.
    { move=> Hc. have [E _ _] := Hh _ (Hix c j Hc Hj). by rewrite prednK. }
    have [Q [Q1 Q2 Q3 Q4 Q5]] := combine_poly Hn Hg r (Sm ac) Hpz.
    have Qn : (size Q <= n)%N by apply: leq_trans Q1 _; lia.
    rewrite -(allp_eq Hg0 Qn Q2). split.
    - exact: Qn.
    - exact: Q2.
    - move=> a Ha. apply: Q5 => c Hc. have [_ _ E] := Hh _ (Hix c j Hc Hj). exact: E.
    - move=> Hra x Hxp. rewrite -(nth_index 0 Hxp). have Hk : (index x pos < l)%N by rewrite -[X in (_ < X)%N](size_pos emb n) index_mem.
      case: (ltnP (index x pos) (size tf)) => Hkt; last by apply: Q4; rewrite size_map Hkt.
      rewrite Q3 ?size_map // (nth_map x0) //. apply: etrans (Hnull _ Hkt j r Hj Hra). rewrite -(Hsum _ _ _ Hkt Hj Hr) !big_seq.
      apply: eq_bigr => c. rewrite mem_iota /= => Hc. by rewrite Hat // Hix. }
  have Sum1 k j r : (k < size tf)%N -> (j < num)%N -> (r < n)%N ->
     \sum_(c <- iota 0 (t + l)) nth 0 (nth [::] (accm emb n t l (nth x0 tf k)) r) c * shift_at k (ix1 num c j) = (dl k j).[emb r].
  { move=> Hk Hj Hr. rewrite -(accm_poly Ht HKl (Htf Hk) (Rel Hk Hj) (Ldl Hk Hj) Hr) !big_seq.
    apply: eq_bigr => c. rewrite mem_iota /= => Hc. by rewrite shift_at1. }
  have Sum2 k j r : (k < size tf)%N -> (j < num)%N -> (r < n)%N ->
     \sum_(c <- iota 0 n) nth 0 (nth [::] (accn emb n (nth x0 tf k)) r) c * shift_at k (ix2 t l num c j) = (dn k j).[emb r].
  { move=> Hk Hj Hr. rewrite -(accn_poly Ht HKl (Htf Hk) (Hdn Hk Hj) Hr) !big_seq.
    apply: eq_bigr => c. rewrite mem_iota /= => Hc. by rewrite shift_at2. }
  have HQ1 := mkQ (accm emb n t l) (t + l)%N (ix1 num) dl Hix1 Sum1 Ndl.
  have HQ2 := mkQ (accn emb n) n (ix2 t l num) dn Hix2 Sum2 Ndn.
  pose Q1 := rt_Q (accm emb n t l) (t + l) (ix1 num). pose Q2 := rt_Q (accn emb n) n (ix2 t l num).
  pose dz (Q : nat -> {poly F}) q := if (q %/ num)%N \in A then Q q else 0.
  have Epz q : pz' q = pz q - (if (q < n * num)%N then dz Q2 q else dz Q1 (q - n * num)%N) by [].
  have Hdz q : (q < M2)%N -> let d := (if (q < n * num)%N then dz Q2 q else dz Q1 (q - n * num)%N) in
    [/\ (size d <= n)%N, forall a, a \in A -> d.[emb a] = 0 & forall x, x \in pos -> d.[x] = 0].
  { move=> Hq. cbv zeta. case: ifP => Hc.
    - have [E1 _ E3 E4] := HQ2 q Hc. rewrite /dz. case: ifP => Hin; last by split=> *; rewrite ?size_poly0 ?horner0.
      split=> //. exact: E4.
    - have Hq' : (q - n * num < n * num)%N by lia.
      have [E1 _ E3 E4] := HQ1 _ Hq'. rewrite /dz. case: ifP => Hin; last by split=> *; rewrite ?size_poly0 ?horner0.
      split=> //. exact: E4. }
  have Zz' : zero_at M2 pz'.
  { move=> q Hq. have [E1 E2] := Zz Hq. have [D1 D2 D3] := Hdz q Hq. rewrite Epz. split; first by rewrite sz_sub.
    move=> x Hxp. by rewrite hornerD hornerN E2 // D3 // subr0. }
  have Az : agree M2 pz pz'.
  { move=> q a Hq Ha. have [_ D2 _] := Hdz q Hq. by rewrite Epz hornerD hornerN D2 // subr0. }
  have Szz := sh_zero HS Zz. have Szz' := sh_zero HS Zz'.
  have Srr := sh_low HS Lr. have Srr' := sh_low HS Lr'.
  split=> //.
  - (* messages to the parties *)
    have Dot ac K (ix : nat -> nat -> nat) i r j : (forall c, (c < K)%N -> (ix c j < M1)%N) ->
      dotv (co ac K i r) [seq nth 0 (held pr' M1 i) (ix c j) | c <- iota 0 K] =
      dotv (co ac K i r) [seq nth 0 (held pr M1 i) (ix c j) | c <- iota 0 K] + dotv (co ac K i r) [seq (h (ix c j)).[emb i] | c <- iota 0 K].
    { move=> Hix. rewrite /co !dotv_map2 -big_split /= !big_seq. apply: eq_bigr => c. rewrite mem_iota /= => Hc.
      rewrite !held_at ?Hix // hornerD mulrDr. by []. }
    move=> s a Hs Ha. have Han := allP HA a Ha. rewrite /rt_msg.
    have [S1 S2] := sh_size Hn Ht HKl Hm (held pr M1) Szz Hs Han.
    have [S1' S2'] := sh_size Hn Ht HKl Hm (held pr' M1) Szz' Hs Han.
    congr (_ ++ _); apply: (@eq_from_nth _ 0); rewrite ?S1 ?S1' ?S2 ?S2' // => j Hj.
    + have Hp : (0 < num)%N by apply: leq_ltn_trans Hj.
      rewrite (sh1E Hn Ht HKl Hm (held pr M1) Szz) // (sh1E Hn Ht HKl Hm (held pr' M1) Szz') // Dot; last by move=> c Hc; apply: Hix1.
      have Hq1 : (a * num + j < n * num)%N by nia.
      have Hq2 : (n * num + (a * num + j) < M2)%N by nia.
      rewrite !held_at // Epz hornerD hornerN ltnNge leq_addr /= addKn /dz divnMDl // divn_small // addn0 Ha.
      have [_ E _ _] := HQ1 _ Hq1. rewrite E // divnMDl // divn_small // addn0 modnMDl modn_small //.
      by rewrite -/(co (accm emb n t l) (t + l)%N s a) -addrA; congr (_ + _); rewrite addrC subrK.
    + have Hp : (0 < num)%N by apply: leq_ltn_trans Hj.
      rewrite (sh2E Hn Ht HKl Hm Srr Szz) // (sh2E Hn Ht HKl Hm Srr' Szz') // Dot; last by move=> c Hc; apply: Hix2.
      have Hq1 : (a * num + j < n * num)%N by nia.
      have Hq2 : (a * num + j < M2)%N by nia.
      rewrite !held_at // Epz hornerD hornerN Hq1 /dz divnMDl // divn_small // addn0 Ha.
      have [_ E _ _] := HQ2 _ Hq1. rewrite E // divnMDl // divn_small // addn0 modnMDl modn_small //.
      by rewrite -/(co (accn emb n) n s a) -addrA; congr (_ + _); rewrite addrC subrK.
  - (* what is computed *)
    move=> i k Hi Hk. have Hkl : (k < l)%N by apply: leq_trans Hm.
    have [R1 R2] := @rt_out_rows _ emb n t l tf num (held pr M1) (held pz M2) i k Hkl.
    have [R1' R2'] := @rt_out_rows _ emb n t l tf num (held pr' M1) (held pz' M2) i k Hkl.
    have Hpos : (k < size pos)%N by rewrite size_pos.
    have EX (p : {poly F}) : nth 0 [seq p.[x] | x <- pos] k = p.[nth 0 pos k] by rewrite (nth_map 0).
    split; apply: (@eq_from_nth _ 0); rewrite ?size_zipw ?size_held ?R1 ?R1' ?R2 ?R2' ?minnn // => j Hj.
    + rewrite nth_zipw ?size_held ?R1 // held_at //.
      have [sec [S E]] := view1 Hn Hg Ht HKl Hm Srr Szz Hi Hj. have [sec' [S' E']] := view1 Hn Hg Ht HKl Hm Srr' Szz' Hi Hj.
      have X : nth 0 (nth [::] (out pr pz i).1 k) j = nth 0 sec k by apply: (recon_nth Hn Hg) => //; rewrite col_map.
      have X' : nth 0 (nth [::] (out pr' pz' i).1 k) j = nth 0 sec' k by apply: (recon_nth Hn Hg) => //; rewrite col_map.
      rewrite X X' E // E' // -Sum1 // -big_split /= !big_seq. apply: eq_bigr => c. rewrite mem_iota /= => Hc.
      rewrite !EX -/x0 -mulrDr -Hat // ?Hix1 // -hornerD. by [].
    + rewrite nth_zipw ?size_held ?R2 // held_at //.
      have [sec [S E]] := view2 Hn Hg Ht HKl Hm Srr Szz Hi Hj. have [sec' [S' E']] := view2 Hn Hg Ht HKl Hm Srr' Szz' Hi Hj.
      have X : nth 0 (nth [::] (out pr pz i).2 k) j = nth 0 sec k by apply: (recon_nth Hn Hg) => //; rewrite col_map.
      have X' : nth 0 (nth [::] (out pr' pz' i).2 k) j = nth 0 sec' k by apply: (recon_nth Hn Hg) => //; rewrite col_map.
      rewrite X X' E // E' // -Sum2 // -big_split /= !big_seq. apply: eq_bigr => c. rewrite mem_iota /= => Hc.
      rewrite !EX -/x0 -mulrDr -Hat // ?Hix2 // -hornerD. by [].
Qed.
End Twin.

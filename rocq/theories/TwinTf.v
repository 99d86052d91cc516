(** [Transforms] in two executions that look the same to a set of parties. *)

From Coq Require Import NArith List.
From Verif Require Import CircuitModel LpnModel.
From mathcomp Require Import all_ssreflect all_algebra zify.
From Verif Require Import MathModel MathProofs MatProofs SharingModel SharingSpec SharingProofs.
From Verif Require Import MachineModel MachineProofs MachineBuild Realize CoreModel CoreSpec CoreProofs.
From Verif Require Import RandTransProofs PreprocModel PreprocSpec PreprocProofs GarbleModel GarbleSpec GarbleGates GarbleTf.
From Verif Require Import ViewProofs TwinProofs TwinCore TwinRand.
From Verif Require ProtoIdModel ProtoIdProofs.
Set Implicit Arguments.
Unset Strict Implicit.
Unset Printing Implicit Defensive.
Import GRing.Theory.
Local Open Scope ring_scope.

Lemma In_iota_lt i m : List.In i (iota 0 m) -> (i < m)%N.
Proof.
  move=> H. suff : i \in iota 0 m by rewrite mem_iota.
  elim: (iota 0 m) H => //= a s IH [->|/IH H]; by rewrite inE ?eqxx ?H ?orbT.
Qed.

Section Twin.
Variable F : fieldType.
Variable emb : nat -> F.
Variable D : eqType.
Variable ser : seq F -> D.
Variable de : D -> option (seq F).
Variable fits : nat -> Prop.
Hypothesis serK : codec_ok ser de fits.
Variables (n t l : nat) (P Pn : pss F).
Hypothesis HS : setting emb n t l P Pn.
Hypothesis Hl0 : (0 < l)%N.
Hypothesis HKl : (t + l + l <= n)%N.
Variable A : seq nat.
Hypothesis UA : uniq A.
Hypothesis HA : all (fun i => (i < n)%N) A.
Hypothesis tA : (size A <= t)%N.
Notation mk me := (Ctx me n t l P Pn).
Notation pos := (default_pos emb n l).
Notation sharings := (sharings emb n).
Notation held := (held emb).
Notation pid := [eqType of seq N].
Notation realizes := (@realizes n pid D (val F)).
Notation low := (low t l).
Notation high := (high n).
Notation zero_at := (zero_at emb n l).
Notation agree := (agree emb A).
Notation null := (null emb A).

Let x0 : seq F * seq F * seq nat := ([::], [::], [::]).
Variable tf : seq (seq F * seq F * seq nat).
Hypothesis Htf : forall k, (k < size tf)%N -> tf_ok emb n l (nth x0 tf k).
Variable B : nat.
Hypothesis HB : num_batches (size tf) l = Some B.
Variable reps : nat.
Notation M1 := ((n + t) * reps)%N.
Notation M2 := (2 * n * reps)%N.

Lemma rt_msg_ext ch f f' g g' s r : f s = f' s -> g s = g' s ->
  rt_msg emb n t l ch reps f g s r = rt_msg emb n t l ch reps f' g' s r.
Proof. move=> E E'. by rewrite /rt_msg /sh1 /sh2 /pts1 /pts2 /z1 /z2 E E'. Qed.

Lemma rt_out_ext ch f f' g g' i : (forall s, f s = f' s) -> (forall s, g s = g' s) ->
  rt_out emb n t l ch reps f g i = rt_out emb n t l ch reps f' g' i.
Proof.
  move=> E E'. rewrite /rt_out. congr (_, _); congr mmul; apply: eq_map => s.
  - by rewrite /sh1 /pts1 /z1 E E'.
  - by rewrite /sh2 /pts2 /z2 E E'.
Qed.

Lemma gr_slice_held m N p i me : (i.+1 * m <= N)%N -> gr_slice m (held p N) i me = held (fun q => p (i * m + q)%N) m me.
Proof. move=> H. rewrite /gr_slice held_slice //. by rewrite -mulSnr. Qed.

(** New masks for one batch. *)
Definition batch (p z : nat -> {poly F}) (dl dn : nat -> nat -> {poly F}) (b : nat) (f : (nat -> {poly F}) * (nat -> {poly F})) : Prop :=
  let ch := tchunk l tf b in let o := rt_out emb n t l ch reps (held p M1) (held z M2) in let o' := rt_out emb n t l ch reps (held f.1 M1) (held f.2 M2) in
  [/\ [/\ low M1 f.1, zero_at M2 f.2, agree M1 p f.1 & agree M2 z f.2],
    forall s a, (s < n)%N -> a \in A -> rt_msg emb n t l ch reps (held p M1) (held z M2) s a = rt_msg emb n t l ch reps (held f.1 M1) (held f.2 M2) s a &
    forall i k, (i < n)%N -> (k < size ch)%N ->
      nth [::] (o' i).1 k = zipw +%R (nth [::] (o i).1 k) (held (dl (b * l + k)%N) reps i) /\
      nth [::] (o' i).2 k = zipw +%R (nth [::] (o i).2 k) (held (dn (b * l + k)%N) reps i)].

(** The changes for all batches, and the masks that come out. *)
Definition gr_h (dl dn : nat -> nat -> {poly F}) (q : nat) : {poly F} := let b := (q %/ M1)%N in
  rt_h emb n t l A (tchunk l tf b) reps (fun k => dl (b * l + k)%N) (fun k => dn (b * l + k)%N) (q %% M1)%N.
Definition gr_z (dl dn : nat -> nat -> {poly F}) (q : nat) : {poly F} := let b := (q %/ M2)%N in
  rt_z emb n t l A (tchunk l tf b) reps (fun k => dl (b * l + k)%N) (fun k => dn (b * l + k)%N) (q %% M2)%N.
Definition gr_ml (pr pz : nat -> {poly F}) (i j : nat) : {poly F} :=
  allp emb n (fun me => nth 0 (nth [::] (gr_out emb n t l tf reps (held pr (B * M1)) (held pz (B * M2)) (i %/ l)%N me).1 (i %% l)%N) j).
Definition gr_mn (pr pz : nat -> {poly F}) (i j : nat) : {poly F} :=
  allp emb n (fun me => nth 0 (nth [::] (gr_out emb n t l tf reps (held pr (B * M1)) (held pz (B * M2)) (i %/ l)%N me).2 (i %% l)%N) j).

Lemma gen_rand_exact (id : pid) (cs : seq pid) pr pz (dl dn : nat -> nat -> {poly F}) : fits (2 * reps) ->
  ProtoIdModel.gen_rand_ids id (N.of_nat B) = Some cs ->
  low (B * M1) pr -> zero_at (B * M2) pz ->
  (forall i, (i < size tf)%N -> [/\ low reps (dl i), high reps (dn i), null reps (dl i), null reps (dn i) &
     forall j, (j < reps)%N -> related emb n l (nth x0 tf i).1.1 (nth x0 tf i).1.2 (nth x0 tf i).2 (dl i j) (dn i j)]) ->
  let pr' q := pr q + gr_h dl dn q in let pz' q := pz q - gr_z dl dn q in let ml := gr_ml pr pz in let mn := gr_mn pr pz in
  exists (rds rds' : seq (pid * round D)),
   [/\ [/\ low (B * M1) pr', zero_at (B * M2) pz', agree (B * M1) pr pr' & agree (B * M2) pz pz'],
     [/\ ids rds = cs, ids rds' = cs & twins n A rds rds'],
     forall i, (i < size tf)%N -> low reps (ml i) /\ high reps (mn i),
     realizes rds (fun me k => gen_rand_shares ser de (mk me) (tfs emb n t l tf B me) id reps (held pr (B * M1) me) (held pz (B * M2) me) k)
       (fun me => ([seq held (ml i) reps me | i <- iota 0 (size tf)], [seq held (mn i) reps me | i <- iota 0 (size tf)])) &
     realizes rds' (fun me k => gen_rand_shares ser de (mk me) (tfs emb n t l tf B me) id reps (held pr' (B * M1) me) (held pz' (B * M2) me) k)
       (fun me => ([seq held (fun j => ml i j + dl i j) reps me | i <- iota 0 (size tf)], [seq held (fun j => mn i j + dn i j) reps me | i <- iota 0 (size tf)]))].
Proof.
  move=> Hf Hcs Lr Zz Hd pr' pz' ml mn. have Hn := n_pos' HS. have [Ht HP HPn Hg] := HS. have HBl := B_ok Hl0 HKl HB. have Hg0 : good_pos emb n [::] by exact: U_sh Hg.
  have Tle b : (size (tchunk l tf b) <= l)%N by apply: (@tchunk_le _ n t).
  have Tok b k : (k < size (tchunk l tf b))%N -> tf_ok emb n l (nth x0 (tchunk l tf b) k) by apply: (@tchunk_ok _ emb n t).
  have Hci b k : (k < size (tchunk l tf b))%N -> (b * l + k < size tf)%N by rewrite size_tchunk; lia.
  pose sl (p : nat -> {poly F}) m b q := p (b * m + q)%N.
  have Hsl m b q : (b < B)%N -> (q < m)%N -> (b * m + q < B * m)%N by clear; nia.
  pose f b : (nat -> {poly F}) * (nat -> {poly F}) :=
    (fun q => sl pr M1 b q + rt_h emb n t l A (tchunk l tf b) reps (fun k => dl (b * l + k)%N) (fun k => dn (b * l + k)%N) q,
     fun q => sl pz M2 b q - rt_z emb n t l A (tchunk l tf b) reps (fun k => dl (b * l + k)%N) (fun k => dn (b * l + k)%N) q).
  have Hfb b : (b < B)%N -> batch (sl pr M1 b) (sl pz M2 b) dl dn b (f b).
  { move=> Hb.
    have Hrel k j : (k < size (tchunk l tf b))%N -> (j < reps)%N ->
       related emb n l (nth x0 (tchunk l tf b) k).1.1 (nth x0 (tchunk l tf b) k).1.2 (nth x0 (tchunk l tf b) k).2 (dl (b * l + k)%N j) (dn (b * l + k)%N j).
    { move=> Hk Hj. rewrite (nth_tchunk Hl0 HKl) //. have [_ _ _ _ H] := Hd _ (Hci b k Hk). exact: H. }
    have H1 k : (k < size (tchunk l tf b))%N -> low reps (dl (b * l + k)%N) by move=> Hk; have [] := Hd _ (Hci b k Hk).
    have H2 k : (k < size (tchunk l tf b))%N -> high reps (dn (b * l + k)%N) by move=> Hk; have [] := Hd _ (Hci b k Hk).
    have H3 k : (k < size (tchunk l tf b))%N -> null reps (dl (b * l + k)%N) by move=> Hk; have [] := Hd _ (Hci b k Hk).
    have H4 k : (k < size (tchunk l tf b))%N -> null reps (dn (b * l + k)%N) by move=> Hk; have [] := Hd _ (Hci b k Hk).
    have L1 : low M1 (sl pr M1 b) by move=> q Hq; apply: Lr; apply: Hsl.
    have Z1 : zero_at M2 (sl pz M2 b) by move=> q Hq; apply: Zz; apply: Hsl.
    exact: (@randtrans_exact F emb n t l P Pn HS HKl A UA HA tA (tchunk l tf b) (Tle _) (@Tok b) reps
      (fun k => dl (b * l + k)%N) (fun k => dn (b * l + k)%N) H1 H2 H3 H4 Hrel _ _ L1 Z1). }
  have Ediv m b q : (q < m)%N -> ((b * m + q) %/ m = b)%N by move=> Hq; rewrite divnMDl ?(leq_ltn_trans _ Hq) // divn_small // addn0.
  have Emod m b q : (q < m)%N -> ((b * m + q) %% m = q)%N by move=> Hq; rewrite modnMDl modn_small.
  have Hdiv m q : (q < B * m)%N -> [/\ (q %/ m < B)%N, (q %% m < m)%N & q = (q %/ m * m + q %% m)%N].
  { move=> Hq. have Hm0 : (0 < m)%N by case: (m) Hq; rewrite ?muln0. by rewrite ltn_divLR // ltn_mod -divn_eq. }
  have Epr q : pr' q = (f (q %/ M1)%N).1 (q %% M1)%N by rewrite /f /= /sl -divn_eq.
  have Epz q : pz' q = (f (q %/ M2)%N).2 (q %% M2)%N by rewrite /f /= /sl -divn_eq.
  have Lr' : low (B * M1) pr' by move=> q /Hdiv [H1 H2 _]; rewrite Epr; have [[+ _ _ _] _ _] := Hfb _ H1; apply.
  have Zz' : zero_at (B * M2) pz' by move=> q /Hdiv [H1 H2 _]; rewrite Epz; have [[_ + _ _] _ _] := Hfb _ H1; apply.
  have Ar : agree (B * M1) pr pr'.
  { move=> q a /Hdiv [H1 H2 E] Ha. have [[_ _ + _] _ _] := Hfb _ H1. move=> /(_ _ a H2 Ha). by rewrite Epr /sl -E. }
  have Az : agree (B * M2) pz pz'.
  { move=> q a /Hdiv [H1 H2 E] Ha. have [[_ _ _ +] _ _] := Hfb _ H1. move=> /(_ _ a H2 Ha). by rewrite Epz /sl -E. }
  have Sr := sh_low HS Lr. have Sr' := sh_low HS Lr'. have Sz := sh_zero HS Zz. have Sz' := sh_zero HS Zz'.
  have HM b m : (b < B)%N -> (b.+1 * m <= B * m)%N by move=> Hb; rewrite leq_mul2r Hb orbT.
  have E1 b me : (b < B)%N -> gr_rs n t reps (held pr (B * M1)) b me = held (sl pr M1 b) M1 me by move=> Hb; rewrite /gr_rs gr_slice_held ?HM.
  have E2 b me : (b < B)%N -> gr_zs n reps (held pz (B * M2)) b me = held (sl pz M2 b) M2 me by move=> Hb; rewrite /gr_zs gr_slice_held ?HM.
  have E1' b me : (b < B)%N -> gr_rs n t reps (held pr' (B * M1)) b me = held (f b).1 M1 me.
  { move=> Hb. rewrite /gr_rs gr_slice_held ?HM //. apply: held_ext => q Hq. by rewrite Epr Ediv // Emod. }
  have E2' b me : (b < B)%N -> gr_zs n reps (held pz' (B * M2)) b me = held (f b).2 M2 me.
  { move=> Hb. rewrite /gr_zs gr_slice_held ?HM //. apply: held_ext => q Hq. by rewrite Epz Ediv // Emod. }
  have [I1 R1] := gen_rand_real serK HS Hl0 HKl HB Hf Hcs Sr Sz.
  have [I2 R2] := gen_rand_real serK HS Hl0 HKl HB Hf Hcs Sr' Sz'.
  pose go := gr_out emb n t l tf reps (held pr (B * M1)) (held pz (B * M2)).
  pose go' := gr_out emb n t l tf reps (held pr' (B * M1)) (held pz' (B * M2)).
  have Hq i : (i < size tf)%N -> (i %/ l < B)%N by move=> Hi; rewrite ltn_divLR //; lia.
  have Hk i : (i < size tf)%N -> (i %% l < size (tchunk l tf (i %/ l)))%N.
  { move=> Hi. rewrite size_tchunk. have := divn_eq i l. have := ltn_pmod i Hl0. lia. }
  have Hmm i : (i < size tf)%N ->
    [/\ low reps (ml i), high reps (mn i) & forall me, (me < n)%N ->
       nth [::] (go (i %/ l)%N me).1 (i %% l)%N = held (ml i) reps me /\ nth [::] (go (i %/ l)%N me).2 (i %% l)%N = held (mn i) reps me].
  { move=> Hi.
    have [S1 S2] := @randtrans_out _ emb n t l Hn Hg Ht HKl (tchunk l tf (i %/ l)%N) (Tle _) (@Tok _) reps _ _ _ (gr_rsS Sr (Hq i Hi)) (gr_zsS Sz (Hq i Hi)) (i %% l)%N (Hk i Hi).
    have [p1 [P1 P1']] := GarbleGates.sharings_polys S1. have [p2 [P2 P2']] := GarbleGates.sharings_polys S2.
    have Z1 j : (j < reps)%N -> (size (p1 j) <= t + l)%N by move=> Hj; have [H _] := P1 j Hj; move: H; rewrite prednK.
    have Z2 j : (j < reps)%N -> (size (p2 j) <= n)%N by move=> Hj; have [H _] := P2 j Hj; move: H; rewrite prednK.
    have E1m j : (j < reps)%N -> ml i j = p1 j.
    { move=> Hj. apply/esym/(allp_eq Hg0) => [|me Hme]; first by apply: leq_trans (Z1 j Hj) _; exact: Kn HS.
      rewrite -[gr_out _ _ _ _ _ _ _ _ _ me]/(go (i %/ l)%N me) (P1' me Hme). by rewrite (nth_map 0%N) ?size_iota // nth_iota. }
    have E2m j : (j < reps)%N -> mn i j = p2 j.
    { move=> Hj. apply/esym/(allp_eq Hg0) => [|me Hme]; first exact: Z2.
      rewrite -[gr_out _ _ _ _ _ _ _ _ _ me]/(go (i %/ l)%N me) (P2' me Hme). by rewrite (nth_map 0%N) ?size_iota // nth_iota. }
    split.
    - by move=> j Hj; rewrite E1m // Z1.
    - by move=> j Hj; rewrite E2m // Z2.
    - move=> me Hme. have -> : held (ml i) reps me = held p1 reps me by apply: held_ext => j Hj; rewrite E1m.
      have -> : held (mn i) reps me = held p2 reps me by apply: held_ext => j Hj; rewrite E2m.
      by rewrite -P1' // -P2'. }
  exists (flatten [seq [:: (nth [::] cs i, gr_rd emb ser n t l tf reps (held pr (B * M1)) (held pz (B * M2)) i)] | i <- iota 0 B]),
    (flatten [seq [:: (nth [::] cs i, gr_rd emb ser n t l tf reps (held pr' (B * M1)) (held pz' (B * M2)) i)] | i <- iota 0 B]).
  split=> //.
  - split=> //. apply: twins_flat => b /In_iota_lt Hb. split=> //= s a Hs Ha. congr ser.
    have [_ H _] := Hfb b Hb. rewrite (rt_msg_ext _ _ (E1 b s Hb) (E2 b s Hb)) (rt_msg_ext _ _ (E1' b s Hb) (E2' b s Hb)). exact: H.
  - by move=> i Hi; have [] := Hmm i Hi.
  - apply: realizes_eq R1 => // me Hme. rewrite /gr_res. congr (_, _); apply/eq_in_map => i; rewrite mem_iota add0n => /andP [_ Hi];
      have [_ _ H] := Hmm i Hi; have [E3 E4] := H me Hme; [exact: E3|exact: E4].
  - apply: realizes_eq R2 => // me Hme. 
    have Ego i : (i < size tf)%N -> go' (i %/ l)%N me = rt_out emb n t l (tchunk l tf (i %/ l)%N) reps (held (f (i %/ l)%N).1 M1) (held (f (i %/ l)%N).2 M2) me.
    { move=> Hi. apply: rt_out_ext => s; [exact: E1' (Hq i Hi)|exact: E2' (Hq i Hi)]. }
    have Ego1 i : (i < size tf)%N -> go (i %/ l)%N me = rt_out emb n t l (tchunk l tf (i %/ l)%N) reps (held (sl pr M1 (i %/ l)%N) M1) (held (sl pz M2 (i %/ l)%N) M2) me.
    { move=> Hi. apply: rt_out_ext => s; [exact: E1 (Hq i Hi)|exact: E2 (Hq i Hi)]. }
    rewrite /gr_res. congr (_, _); apply/eq_in_map => i; rewrite mem_iota add0n => /andP [_ Hi];
      have [_ _ H] := Hmm i Hi; have [E3 E4] := H me Hme; have [_ _ Hx] := Hfb _ (Hq i Hi); have [X1 X2] := Hx me _ Hme (Hk i Hi);
      rewrite -/(go' (i %/ l)%N me) Ego // ?X1 ?X2 -Ego1 // ?E3 ?E4 held_add -divn_eq //.
Qed.

(** ** transform *)
(** What the leaders deal differently, and what comes out. *)
Definition tf_at (i : nat) : seq F * seq F * seq nat := nth x0 tf i.
Definition tf_dl (px px' : nat -> nat -> {poly F}) (i j : nat) : {poly F} :=
  tdl emb n l A (tf_at i).1.1 (tf_at i).1.2 (tf_at i).2 (i %% n)%N (px i j) (px' i j).
Definition tf_dn (px px' : nat -> nat -> {poly F}) (i j : nat) : {poly F} := tdn A (i %% n)%N (px i j) (px' i j).
Definition tf_co (px px' : nat -> nat -> {poly F}) (me i j c : nat) : F :=
  if (me == i %% n)%N then tco emb A (tf_at i).1.1 (tf_at i).1.2 (tf_at i).2 me (px i j) (px' i j) c else 0.
Definition tf_w (px pr prn : nat -> nat -> {poly F}) (coin : nat -> nat -> nat -> nat -> F) (i j : nat) : {poly F} :=
  tout emb n t l (tf_at i).1.1 (tf_at i).1.2 (tf_at i).2 (px i j) (pr i j) (prn i j) (coin (i %% n)%N i j).
Definition tf_w' (px px' pr prn : nat -> nat -> {poly F}) (coin : nat -> nat -> nat -> nat -> F) (i j : nat) : {poly F} :=
  tout' emb n t l A (tf_at i).1.1 (tf_at i).1.2 (tf_at i).2 (i %% n)%N (px i j) (px' i j) (pr i j) (prn i j) (coin (i %% n)%N i j).

Lemma transform_exact (id : pid) (cs : seq pid) (coin : nat -> nat -> nat -> nat -> F) (px px' pr prn : nat -> nat -> {poly F}) : fits reps ->
  ProtoIdModel.transform_ids id (N.of_nat (size tf)) = Some cs ->
  let dl := tf_dl px px' in let dn := tf_dn px px' in let w := tf_w px pr prn coin in let w' := tf_w' px px' pr prn coin in
  (forall i, (i < size tf)%N -> [/\ high reps (px i), high reps (px' i), low reps (pr i), high reps (prn i) &
     shifts emb n t l A (nth x0 tf i).1.1 (nth x0 tf i).1.2 (nth x0 tf i).2 reps (i %% n)%N (px i) (px' i) (dl i) (dn i)]) ->
  exists (rds rds' : seq (pid * round D)),
   [/\ [/\ ids rds = cs, ids rds' = cs & twins n A rds rds'],
     forall i, (i < size tf)%N -> [/\ low reps (w i), low reps (w' i) & agree reps (w i) (w' i)],
     forall coin0 : nat -> nat -> nat -> nat -> F,
     (forall me i j c, (me < n)%N -> (i < size tf)%N -> (j < reps)%N -> (c < t + l)%N -> coin0 me i j c = coin me i j c) ->
     realizes rds (fun me k => transform emb ser de (mk me) (tfs emb n t l tf B me) id reps [seq held (px i) reps me | i <- iota 0 (size tf)]
        [seq held (pr i) reps me | i <- iota 0 (size tf)] [seq held (prn i) reps me | i <- iota 0 (size tf)] (coin0 me) k)
       (fun me => [seq held (w i) reps me | i <- iota 0 (size tf)]) &
     forall coin' : nat -> nat -> nat -> nat -> F,
     (forall me i j c, (me < n)%N -> (i < size tf)%N -> (j < reps)%N -> (c < t + l)%N -> coin' me i j c = coin me i j c + tf_co px px' me i j c) ->
     realizes rds' (fun me k => transform emb ser de (mk me) (tfs emb n t l tf B me) id reps [seq held (px' i) reps me | i <- iota 0 (size tf)]
        [seq held (fun j => pr i j + dl i j) reps me | i <- iota 0 (size tf)] [seq held (fun j => prn i j + dn i j) reps me | i <- iota 0 (size tf)] (coin' me) k)
       (fun me => [seq held (w' i) reps me | i <- iota 0 (size tf)])].
Proof.
  move=> Hf Hcs dl dn w w' Hi. have Hn := n_pos' HS.
  pose T := (round D * round D)%type.
  pose rel i (y : T) := let: (rd, rd') := y in let L := (i %% n)%N in
   [/\ [/\ low reps (w i), low reps (w' i) & agree reps (w i) (w' i)], alike n A rd rd',
     forall coin0 : nat -> nat -> nat -> F, (forall j c, (j < reps)%N -> (c < t + l)%N -> coin0 L j c = coin L i j c) ->
     realizes [:: (nth [::] cs i, rd)] (fun me k => trans emb ser de (mk me) (nth [::] cs i) (held (px i) reps me) (held (pr i) reps me) (held (prn i) reps me) (tr_st tf i) L (coin0 me) k) (held (w i) reps) &
     forall coin' : nat -> nat -> nat -> F,
     (forall j c, (j < reps)%N -> (c < t + l)%N -> coin' L j c = coin L i j c + tf_co px px' L i j c) ->
     realizes [:: (nth [::] cs i, rd')] (fun me k => trans emb ser de (mk me) (nth [::] cs i) (held (px' i) reps me) (held (fun j => pr i j + dl i j) reps me) (held (fun j => prn i j + dn i j) reps me) (tr_st tf i) L (coin' me) k) (held (w' i) reps)].
  have [y Hy] : exists y : nat -> T, forall i, (i < size tf)%N -> rel i (y i).
  { apply: (@fin_choice T (size tf) rel (Exch (fun _ _ => ser [::]), Exch (fun _ _ => ser [::]))) => i Hlt.
    have [H1 H2 H3 H4 H5] := Hi i Hlt.
    have HL : (i %% n < n)%N by rewrite ltn_mod.
    have Hx : tf_ok emb n l ((nth x0 tf i).1.1, (nth x0 tf i).1.2, (nth x0 tf i).2) by have := Htf Hlt; case: (nth x0 tf i) => [[]].
    have [rd [rd' [G1 G2 G3 G4]]] := trans_exact serK HS UA HA tA Hx (nth [::] cs i) (fun me => coin me i) HL Hf H1 H2 H3 H4 H5.
    exists (rd, rd'). split=> // coin' Hc; [apply: G3|apply: G4] => j c Hj Hc'; (rewrite Hc //; last by clear -Hc'; lia). by rewrite /tf_co eqxx. }
  have Hsz (p q r : nat -> nat -> {poly F}) me : (me < n)%N -> [/\ size [seq held (p i) reps me | i <- iota 0 (size tf)] = size tf,
    size [seq held (q i) reps me | i <- iota 0 (size tf)] = size tf & size [seq held (r i) reps me | i <- iota 0 (size tf)] = size tf].
  { by rewrite !size_map size_iota. }
  have En (p : nat -> nat -> {poly F}) me i : (i < size tf)%N -> nth [::] [seq held (p i) reps me | i <- iota 0 (size tf)] i = held (p i) reps me.
  { by move=> Hlt; rewrite (nth_map 0%N) ?size_iota // nth_iota. }
  have Ho (v : nat -> nat -> {poly F}) i me : (i < size tf)%N -> (me < n)%N -> size (held (v i) reps me) = reps by rewrite size_held.
  have Hstep0 coin0 : (forall me i j c, (me < n)%N -> (i < size tf)%N -> (j < reps)%N -> (c < t + l)%N -> coin0 me i j c = coin me i j c) ->
    forall i, (i < size tf)%N -> realizes [:: (nth [::] cs i, (y i).1)] (fun me k => trans emb ser de (mk me) (nth [::] cs i) (nth [::] [seq held (px i) reps me | i <- iota 0 (size tf)] i)
      (nth [::] [seq held (pr i) reps me | i <- iota 0 (size tf)] i) (nth [::] [seq held (prn i) reps me | i <- iota 0 (size tf)] i) (tr_st tf i) (i %% n)%N (coin0 me i) k) (held (w i) reps).
  { move=> Hc i Hlt. have := Hy i Hlt. rewrite /rel. case: (y i) => [rd rd'] [_ _ H _] /=.
    have HL : (i %% n < n)%N by rewrite ltn_mod.
    have {}H := H (fun me => coin0 me i) (fun j c Hj Hc' => Hc _ _ _ _ HL Hlt Hj Hc').
    apply: realizes_eq H => [me k Hme|//]. by rewrite !En. }
  have [I1 _] := @transform_real _ emb D ser de n t l P Pn HS tf B reps id cs _ _ _ coin (fun i => (y i).1) (fun i => held (w i) reps) Hcs
    (Hsz px pr prn) (Ho w) (Hstep0 coin (fun _ _ _ _ _ _ _ _ => erefl)).
  have Hstep coin' : (forall me i j c, (me < n)%N -> (i < size tf)%N -> (j < reps)%N -> (c < t + l)%N -> coin' me i j c = coin me i j c + tf_co px px' me i j c) ->
    forall i, (i < size tf)%N -> realizes [:: (nth [::] cs i, (y i).2)] (fun me k => trans emb ser de (mk me) (nth [::] cs i) (nth [::] [seq held (px' i) reps me | i <- iota 0 (size tf)] i)
      (nth [::] [seq held (fun j => pr i j + dl i j) reps me | i <- iota 0 (size tf)] i) (nth [::] [seq held (fun j => prn i j + dn i j) reps me | i <- iota 0 (size tf)] i) (tr_st tf i) (i %% n)%N (coin' me i) k) (held (w' i) reps).
  { move=> Hc i Hlt. have := Hy i Hlt. rewrite /rel. case: (y i) => [rd rd'] [_ _ _ H] /=.
    have HL : (i %% n < n)%N by rewrite ltn_mod.
    have {}H := H (fun me => coin' me i) (fun j c Hj Hc' => Hc _ _ _ _ HL Hlt Hj Hc').
    apply: realizes_eq H => [me k Hme|//]. by rewrite !En. }
  exists (flatten [seq [:: (nth [::] cs i, (y i).1)] | i <- iota 0 (size tf)]), (flatten [seq [:: (nth [::] cs i, (y i).2)] | i <- iota 0 (size tf)]).
  have I2 : ids (flatten [seq [:: (nth [::] cs i, (y i).2)] | i <- iota 0 (size tf)]) = cs.
  { rewrite -[RHS]I1 /ids !map_flatten -!map_comp. by []. }
  split=> //.
  - split=> //. apply: twins_flat => i /In_iota_lt Hlt. split=> //=.
    have := Hy i Hlt. rewrite /rel. by case: (y i) => [rd rd'] [_ H _ _].
  - move=> i Hlt. have := Hy i Hlt. rewrite /rel. by case: (y i) => [rd rd'] [H _ _ _].
  - move=> coin0 Hc.
    have [_ R1] := @transform_real _ emb D ser de n t l P Pn HS tf B reps id cs _ _ _ coin0 (fun i => (y i).1) (fun i => held (w i) reps) Hcs
      (Hsz px pr prn) (Ho w) (Hstep0 coin0 Hc).
    exact: R1.
  - move=> coin' Hc.
    have [_ R2] := @transform_real _ emb D ser de n t l P Pn HS tf B reps id cs _ _ _ coin' (fun i => (y i).2) (fun i => held (w' i) reps) Hcs
      (Hsz px' (fun i j => pr i j + dl i j) (fun i j => prn i j + dn i j)) (Ho w') (Hstep coin' Hc).
    exact: R2.
Qed.
End Twin.

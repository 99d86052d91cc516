(** The preprocessing in two executions that look the same to a set of parties:
    any material that agrees with theirs can be reached. *)

From Coq Require Import NArith.
From mathcomp Require Import all_ssreflect all_algebra zify.
From Verif Require Import MathModel MathProofs MatProofs SharingModel SharingSpec SharingProofs.
From Verif Require Import MachineModel MachineProofs MachineBuild Realize CoreModel CoreSpec CoreProofs RandTransProofs.
From Verif Require Import PreprocModel PreprocSpec PreprocProofs PreprocRun GarbleGates ViewProofs TwinProofs TwinCore TwinTf.
From Verif Require Import HideSpec HideProofs TwinDeal TwinErr.
From Verif Require ProtoIdModel.
Set Implicit Arguments.
Unset Strict Implicit.
Unset Printing Implicit Defensive.
Import GRing.Theory.
Local Open Scope ring_scope.

(** Blocks of lengths that are multiples of the given ones. *)
Section Blocks.
Variable bs : seq nat.
Notation times c := ([seq (c * b)%N | b <- bs]).

Lemma times_take c q : sumn (take q (times c)) = (c * sumn (take q bs))%N.
Proof. elim: bs q => [|b r IH] [|q] //=; rewrite ?muln0 //. by rewrite IH mulnDr. Qed.

Lemma times_nth c q : nth 0%N (times c) q = (c * nth 0%N bs q)%N.
Proof. elim: bs q => [|b r IH] [|q] //=; by rewrite ?muln0. Qed.

Definition blk c i : nat := reshape_index (times c) i.
Definition off c i : nat := reshape_offset (times c) i.

Lemma blkE c q o : (o < c * nth 0%N bs q)%N -> blk c (c * sumn (take q bs) + o) = q.
Proof. move=> Ho. rewrite /blk -times_take. apply: (@flatten_indexKl (times c) q o). by rewrite times_nth. Qed.

Lemma offE c q o : (o < c * nth 0%N bs q)%N -> off c (c * sumn (take q bs) + o) = o.
Proof. move=> Ho. rewrite /off -times_take. apply: (@flatten_indexKr (times c) q o). by rewrite times_nth. Qed.

Lemma blk_split c i : (i < c * sumn bs)%N -> exists q o, [/\ (q < size bs)%N, (o < c * nth 0%N bs q)%N & i = (c * sumn (take q bs) + o)%N].
Proof.
  move=> Hi. have Hi' : (i < sumn (times c))%N.
  { suff -> : sumn (times c) = (c * sumn bs)%N by []. elim: bs => [|b r IH] /=; first by rewrite muln0. by rewrite IH mulnDr. }
  exists (blk c i), (off c i). split.
  - have := reshape_indexP Hi'. by rewrite size_map.
  - rewrite -times_nth. exact: reshape_offsetP.
  - rewrite -times_take. exact: esym (reshape_indexK _ _).
Qed.

Lemma blk1_split i : (i < sumn bs)%N -> exists q o, [/\ (q < size bs)%N, (o < nth 0%N bs q)%N & i = (sumn (take q bs) + o)%N].
Proof. move=> Hi. have [|q [o]] := @blk_split 1 i; first by rewrite mul1n. rewrite !mul1n. by exists q, o. Qed.
End Blocks.

Section Pre.
Variable F : fieldType.
Variable emb : nat -> F.
Variable D : eqType.
Variable ser : seq F -> D.
Variable de : D -> option (seq F).
Variable fits : nat -> Prop.
Hypothesis serK : codec_ok ser de fits.
Variables (n t l : nat) (P Pn : pss F).
Hypothesis HS : setting emb n t l P Pn.
Hypothesis Hdeg : (2 * (t + l).-1 <= n.-1)%N.
Hypothesis C2 : 1 + 1 = 0 :> F.
Variable A : seq nat.
Hypothesis UA : uniq A.
Hypothesis HA : all (fun i => (i < n)%N) A.
Hypothesis tA : (size A <= t)%N.
Notation mk me := (Ctx me n t l P Pn).
Notation pos := (default_pos emb n l).
Notation held := (held emb).
Notation low := (low t l).
Notation zero_at := (zero_at emb n l).
Notation agree := (agree emb A).

(** The shares of the blocks together. *)
Lemma held_flatten (bs : seq nat) (w : nat -> nat -> {poly F}) (pe : nat -> {poly F}) i :
  (forall q j, (q < size bs)%N -> (j < nth 0%N bs q)%N -> pe (sumn (take q bs) + j)%N = w q j) ->
  flatten [seq held (w q) (nth 0%N bs q) i | q <- iota 0 (size bs)] = held pe (sumn bs) i.
Proof.
  clear. elim: bs w pe => [|b bs IH] w pe H //=.
  have E0 : held (w 0%N) b i = held pe b i by apply: held_ext => j Hj; rewrite -(H 0%N j) //=.
  rewrite E0. have -> : [seq held (w q) (nth 0%N (b :: bs) q) i | q <- iota 1 (size bs)] = [seq held (w q.+1) (nth 0%N bs q) i | q <- iota 0 (size bs)].
  { by rewrite -[1%N]addn0 iotaDl -map_comp. }
  rewrite (IH _ (fun j => pe (b + j)%N)) => [|q j Hq Hj]; last by rewrite -(H q.+1 j) //= addnA.
  rewrite /PreprocSpec.held iotaD map_cat add0n. congr (_ ++ _). by rewrite -{2}[b]addn0 iotaDl -map_comp.
Qed.

Section Whole.
Variables (M Mb : mat F) (id : seq N) (d : count) (r : nat -> coins F) (bR bZ bB : nat).
Notation keys := (keys_total d).
Notation errs := (n_errors d).
Hypothesis HbR : num_batches (keys + n_randoms d + 3 * errs) (size (rows M)) = Some bR.
Hypothesis HbZ : num_batches (n_zeros d + 2 * errs) (size (rows M)) = Some bZ.
Hypothesis HbB : num_batches (n_masks d + 2 * errs) (size (rows Mb)) = Some bB.
Hypothesis HM : ncols M = n.
Hypothesis HMb : ncols Mb = n.
Hypothesis Hf : forall m, (m <= maxn (maxn bR bZ) (maxn bB errs))%N -> fits m.
Variable chans : seq (seq N).
Hypothesis Hids : ProtoIdModel.preproc_ids id (N.of_nat n) = Some chans.
Hypothesis Hsz : size chans = (3 + 2 * n)%N.
Notation totR := (size (rows M) * bR)%N.
Notation totZ := (size (rows M) * bZ)%N.
Notation totB := (size (rows Mb) * bB)%N.
Hypothesis LR : (keys + n_randoms d + 3 * errs <= totR)%N.
Hypothesis LZ : (n_zeros d + 2 * errs <= totZ)%N.
Hypothesis LB : (n_masks d + 2 * errs <= totB)%N.
Hypothesis HhM : hides n M A.
Hypothesis HhB : hides_bits n Mb A.
Hypothesis Bin : binary Mb.
Notation mR pr := (mixed n M bR pr).
Notation mZ pz := (mixed n M bZ pz).
Notation mB pb := (mixed n Mb bB pb).
Notation bs := (err_sizes errs n).
Notation bq q := (nth 0%N bs q).
Notation oq q := (sumn (take q bs)).
Notation nR := (totR - (3 * errs + keys))%N.
Notation nZ := (totZ - 2 * errs)%N.

Definition material_of (pm pk pr pz pe : nat -> {poly F}) (i : nat) : preproc_data F :=
  PreProc (held pm (n_masks d) i) (n_keys d) (held pk keys i) (held pr nR i) (held pz nZ i) (held pe errs i).

(** What the error tasks are given, from the polynomials of the results. *)
Lemma givenE (qB qR qZ : nat -> {poly F}) pr pz pb q me p0 p1 rnd zr : (q < n)%N ->
  (forall i, (i < totB)%N -> mB pb i = qB i) -> (forall i, (i < totR)%N -> mR pr i = qR i) -> (forall i, (i < totZ)%N -> mZ pz i = qZ i) ->
  (forall j, (j < bq q)%N -> qB (2 * oq q + j)%N = p0 j /\ qB (2 * oq q + bq q + j)%N = p1 j) ->
  (forall j, (j < 3 * bq q)%N -> qR (3 * oq q + j)%N = rnd j) -> (forall j, (j < 2 * bq q)%N -> qZ (2 * oq q + j)%N = zr j) ->
  err_given emb n M Mb d bR bZ bB pr pz pb q me =
    ErrInp (bq q) (held p0 (bq q) me) (held p1 (bq q) me) (held rnd (3 * bq q) me) (held zr (2 * bq q) me).
Proof.
  move=> Hq HB HR HZ H01 Hr Hz. have Hb := nth_le_sumn bs q. rewrite sumn_err_sizes in Hb; last exact: npos HS.
  have S (p p' : nat -> {poly F}) tot e a m : (e <= tot)%N -> (a + m <= e)%N -> (forall j, (j < m)%N -> p (a + j)%N = p' j) ->
    take m (drop a (take e (held p tot me))) = held p' m me.
  { clear. move=> He Ha E. have E0 : take e (held p tot me) = held p e me by have := @held_slice _ emb p tot 0 e me He; rewrite drop0.
    rewrite E0 held_slice //. apply: held_ext => j Hj. by rewrite E. }
  rewrite /err_given. congr ErrInp; apply: S => [||j Hj].
  1,4,7,10: clear -LB LR LZ; lia.
  1,3,5,7: clear -Hb; lia.
  - have [<- _] := H01 j Hj. apply: HB. clear -Hj Hb LB. lia.
  - have [_ <-] := H01 j Hj. apply: HB. clear -Hj Hb LB. lia.
  - rewrite -Hr //. apply: HR. clear -Hj Hb LR. lia.
  - rewrite -Hz //. apply: HZ. clear -Hj Hb LZ. lia.
Qed.

Lemma preproc_twin : exists rds pm pk pr pz pe,
  [/\ ids rds = chans, realizes n rds (fun me k => preproc ser de (mk me) M Mb id d (r me) k) (material_of pm pk pr pz pe),
      [/\ low (n_masks d) pm, low keys pk, low nR pr, zero_at nZ pz & low errs pe] &
   forall pm' pk' pr' pz' pe',
    [/\ low (n_masks d) pm', low keys pk', low nR pr', zero_at nZ pz' & low errs pe'] ->
    [/\ agree (n_masks d) pm pm', agree keys pk pk', agree nR pr pr', agree nZ pz pz' & agree errs pe pe'] ->
    (forall j x, (j < n_masks d)%N -> x \in pos -> is_bit (pm' j).[x]) ->
    exists r' rds', [/\ forall a, a \in A -> r' a = r a, twins n A rds rds' &
      realizes n rds' (fun me k => preproc ser de (mk me) M Mb id d (r' me) k) (material_of pm' pk' pr' pz' pe')]].
Proof.
  have Hn := npos HS.
  case Ec : chans Hsz Hids => [|idr [|idz [|idb eids]]] //= [Hse] Hid.
  have fR : fits bR by apply: Hf; clear; lia. have fZ : fits bZ by apply: Hf; clear; lia. have fB : fits bB by apply: Hf; clear; lia.
  have [_ [pr [Hpr _]]] := rand_realizes serK Hn HS idr (fun s => k_rand (r s)) HbR HM fR.
  have [_ [pz [Hpz _]]] := zero_realizes serK Hn HS idz (fun s => k_zero (r s)) HbZ HM fZ.
  have [_ [pb [Hpb _]]] := randbit_realizes serK Hn HS idb (fun s => k_bit (r s)) (fun s => k_bitrand (r s)) HbB HMb fB.
  have RR := rand_from serK HS (id := idr) HbR HM fR Hpr.
  have RZ := zero_from serK HS (id := idz) HbZ HM fZ Hpz.
  have RB := bit_from serK HS (id := idb) HbB HMb fB Hpb.
  have Sbs : size bs = n by apply: size_err_sizes. have Ebs : sumn bs = errs by apply: sumn_err_sizes.
  have LmR i : (size (mR pr i) <= t + l)%N by apply: mixed_size => s j Hs; have [] := Hpr s j Hs.
  have LmB i : (size (mB pb i) <= t + l)%N by apply: mixed_size => s j Hs; have [] := Hpb s j Hs.
  have LmZ i : (size (mZ pz i) <= n)%N /\ forall x, x \in pos -> (mZ pz i).[x] = 0.
  { split; first by apply: mixed_size => s j Hs; have [] := Hpz s j Hs.
    move=> x Hx. rewrite mixed_eval big1 // => s _. have [_ H2 _] := Hpz s (i %% bZ)%N (ltn_ord s).
    have := H2 (index x pos). rewrite index_mem nth_index // => -> //. by rewrite mulr0. }
  pose p0 q j := mB pb (2 * oq q + j)%N. pose p1 q j := mB pb (2 * oq q + bq q + j)%N.
  pose rnd q j := mR pr (3 * oq q + j)%N. pose zr q j := mZ pz (2 * oq q + j)%N.
  pose task (g : nat -> coins F) q (p0 p1 rnd zr : nat -> {poly F}) := fun me (k : seq F -> proc [eqType of seq N] D (val F)) =>
    err_task ser de (mk me) (nth [::] eids (2 * q)%N) (nth [::] eids (2 * q + 1)%N) q
      (ErrInp (bq q) (held p0 (bq q) me) (held p1 (bq q) me) (held rnd (3 * bq q) me) (held zr (2 * bq q) me))
      (k_mult1 (g me) q) (k_mult2 (g me) q) k.
  pose Rel q (x : seq ([eqType of seq N] * round D) * (nat -> {poly F})) := [/\ twins n A x.1 x.1 /\ ids x.1 = [:: nth [::] eids (2 * q)%N; nth [::] eids (2 * q + 1)%N],
    low (bq q) x.2, realizes n x.1 (task r q (p0 q) (p1 q) (rnd q) (zr q)) (held x.2 (bq q)) &
    forall pe, low (bq q) pe -> agree (bq q) x.2 pe -> exists p0' p1' rnd' zr',
     [/\ [/\ low (bq q) p0', low (bq q) p1', low (3 * bq q) rnd' & zero_at (2 * bq q) zr'],
       [/\ agree (bq q) (p0 q) p0', agree (bq q) (p1 q) p1', agree (3 * bq q) (rnd q) rnd' & agree (2 * bq q) (zr q) zr'],
       forall j x, (j < bq q)%N -> x \in pos -> (p0' j).[x] = 1 /\ (p1' j).[x] = 1 &
       realizes n x.1 (task r q p0' p1' rnd' zr') (held pe (bq q))]].
  have [f Hf1] : exists f, forall q, (q < n)%N -> Rel q (f q).
  { apply: (@fin_choice _ n Rel ([::], fun _ => 0)) => q Hq. have Hb := nth_le_sumn bs q. rewrite Ebs in Hb.
    have Fb : fits (bq q) by apply: Hf; clear -Hb; lia.
    have [||||rds [w [H1 H2 H3 H4]]] := err_twin serK HS Hdeg UA HA tA (nth [::] eids (2 * q)%N) (nth [::] eids (2 * q + 1)%N)
       (fun me => k_mult1 (r me) q) (fun me => k_mult2 (r me) q) (p0 := p0 q) (p1 := p1 q) (rnd := rnd q) (zr := zr q) Hq Fb.
    - move=> j _. exact: LmB.
    - move=> j _. exact: LmB.
    - move=> j _. exact: LmR.
    - move=> j _. exact: LmZ.
    - by exists (rds, w). }
  pose rds := [:: (idr, dealing emb ser bR pr); (idz, dealing emb ser bZ pz); (idb, dealing emb ser bB pb)] ++ flatten [seq (f q).1 | q <- iota 0 n].
  pose pe j := (f (blk bs 1 j)).2 (off bs 1 j).
  have Epe q j : (q < n)%N -> (j < bq q)%N -> pe (oq q + j)%N = (f q).2 j.
  { move=> Hq Hj. have Hj' : (j < 1 * bq q)%N by rewrite mul1n. by rewrite /pe -{1 2}[oq q]mul1n blkE // offE. }
  have Give q me : (q < n)%N -> err_given emb n M Mb d bR bZ bB pr pz pb q me =
     ErrInp (bq q) (held (p0 q) (bq q) me) (held (p1 q) (bq q) me) (held (rnd q) (3 * bq q) me) (held (zr q) (2 * bq q) me).
  { move=> Hq. exact: (@givenE (mB pb) (mR pr) (mZ pz)). }
  exists rds, (fun j => mB pb (2 * errs + j)%N), (fun j => mR pr (3 * errs + j)%N), (fun j => mR pr (3 * errs + keys + j)%N), (fun j => mZ pz (2 * errs + j)%N), pe.
  split.
  - rewrite /ids /rds map_cat map_flatten -map_comp /=. congr [:: _, _, _ & _].
    rewrite -[RHS](flatten_pairs Hdeg [::] (m := n) (s := eids)); last by clear -Hse; lia.
    congr flatten. apply/eq_in_map => q. rewrite mem_iota /= => Hq. have [[_ E] _ _ _] := Hf1 q Hq. exact: E.
  - have R := preproc_from HS Hdeg (id := id) (r := r) HM HMb Hids Hsz LR LZ LB (rde := fun q => (f q).1) (res := fun q => held (f q).2 (bq q)) Ec RR RZ RB.
    apply: realizes_eq (R _) => // [i Hi|q Hq].
    + rewrite /material_of. congr PreProc. rewrite -[in RHS]Ebs -[in iota 0 n]Sbs. apply: (@held_flatten _ (fun q => (f q).2)) => q j. rewrite Sbs. exact: Epe.
    + have [_ _ RT _] := Hf1 q Hq. apply: realizes_eq RT => // i k Hi. by rewrite Give.
  - split=> [j _|j _|j _|j _|j Hj]; [exact: LmB|exact: LmR|exact: LmR|exact: LmZ|].
    have [q [o [Hq Ho ->]]] := @blk1_split bs j ltac:(by rewrite Ebs). rewrite Sbs in Hq. rewrite Epe //. have [_ Lw _ _] := Hf1 q Hq. exact: Lw.
  - move=> pm' pk' pr' pz' pe' [Lm' Lk' Lr' Lz' Le'] [Am Ak Ar Az Ae] Bm.
    pose R4 q (x : (nat -> {poly F}) * (nat -> {poly F}) * (nat -> {poly F}) * (nat -> {poly F})) :=
      [/\ [/\ low (bq q) x.1.1.1, low (bq q) x.1.1.2, low (3 * bq q) x.1.2 & zero_at (2 * bq q) x.2],
       [/\ agree (bq q) (p0 q) x.1.1.1, agree (bq q) (p1 q) x.1.1.2, agree (3 * bq q) (rnd q) x.1.2 & agree (2 * bq q) (zr q) x.2],
       forall j y, (j < bq q)%N -> y \in pos -> (x.1.1.1 j).[y] = 1 /\ (x.1.1.2 j).[y] = 1 &
       realizes n (f q).1 (task r q x.1.1.1 x.1.1.2 x.1.2 x.2) (held (fun j => pe' (oq q + j)%N) (bq q))].
    have [g Hg] : exists g, forall q, (q < n)%N -> R4 q (g q).
    { pose o0 := (fun _ : nat => 0 : {poly F}).
      apply: (@fin_choice _ n R4 (o0, o0, o0, o0)) => q Hq. have [_ Lw _ H4] := Hf1 q Hq. have Hb := nth_le_sumn bs q. rewrite Ebs in Hb.
      have [||q0 [q1 [rn [z [K1 K2 K3 K4]]]]] := H4 (fun j => pe' (oq q + j)%N).
      - move=> j Hj. apply: Le'. clear -Hj Hb. lia.
      - move=> j a Hj Ha. rewrite -Epe //. apply: Ae => //. clear -Hj Hb. lia.
      - by exists (q0, q1, rn, z). }
    pose g0 q := (g q).1.1.1. pose g1 q := (g q).1.1.2. pose gr q := (g q).1.2. pose gz q := (g q).2.
    pose qB i := if (i < 2 * errs)%N then (if (off bs 2 i < bq (blk bs 2 i))%N then g0 (blk bs 2 i) (off bs 2 i) else g1 (blk bs 2 i) (off bs 2 i - bq (blk bs 2 i))%N)
                 else if (i < 2 * errs + n_masks d)%N then pm' (i - 2 * errs)%N else mB pb i.
    pose qR i := if (i < 3 * errs)%N then gr (blk bs 3 i) (off bs 3 i) else if (i < 3 * errs + keys)%N then pk' (i - 3 * errs)%N else pr' (i - (3 * errs + keys))%N.
    pose qZ i := if (i < 2 * errs)%N then gz (blk bs 2 i) (off bs 2 i) else pz' (i - 2 * errs)%N.
    have Bq q : (q < n)%N -> (oq q + bq q <= errs)%N by move=> _; have := nth_le_sumn bs q; rewrite Ebs.
    have EB0 q j : (q < n)%N -> (j < bq q)%N -> qB (2 * oq q + j)%N = g0 q j.
    { move=> Hq Hj. have Hj2 : (j < 2 * bq q)%N by clear -Hj; lia. rewrite /qB blkE // offE // Hj. have Hq' := Bq q Hq. case: ltnP => // H. exfalso. clear -H Hj Hq'. lia. }
    have EB1 q j : (q < n)%N -> (j < bq q)%N -> qB (2 * oq q + bq q + j)%N = g1 q j.
    { move=> Hq Hj. have Hj2 : (bq q + j < 2 * bq q)%N by clear -Hj; lia. rewrite -addnA /qB blkE // offE // (_ : (bq q + j < bq q)%N = false) ?addKn; last by clear; lia.
      have Hq' := Bq q Hq. case: ltnP => // H. exfalso. clear -H Hj Hq'. lia. }
    have ER q j : (q < n)%N -> (j < 3 * bq q)%N -> qR (3 * oq q + j)%N = gr q j.
    { move=> Hq Hj. rewrite /qR blkE // offE //. have Hq' := Bq q Hq. case: ltnP => // H. exfalso. clear -H Hj Hq'. lia. }
    have EZ q j : (q < n)%N -> (j < 2 * bq q)%N -> qZ (2 * oq q + j)%N = gz q j.
    { move=> Hq Hj. rewrite /qZ blkE // offE //. have Hq' := Bq q Hq. case: ltnP => // H. exfalso. clear -H Hj Hq'. lia. }
    (* properties of the targets, block by block *)
    have CB (Q : nat -> {poly F} -> Prop) : (forall q j, (q < n)%N -> (j < bq q)%N -> Q (2 * oq q + j)%N (g0 q j)) ->
        (forall q j, (q < n)%N -> (j < bq q)%N -> Q (2 * oq q + bq q + j)%N (g1 q j)) ->
        (forall j, (j < n_masks d)%N -> Q (2 * errs + j)%N (pm' j)) -> (forall i, Q i (mB pb i)) -> forall i, (i < totB)%N -> Q i (qB i).
    { move=> Q0 Q1 Qm Qr i Hi. case: (ltnP i (2 * errs)) => H1.
      - have [q [o [Hq Ho ->]]] := @blk_split bs 2 i ltac:(by rewrite Ebs). rewrite Sbs in Hq. case: (ltnP o (bq q)) => H2.
        + rewrite EB0 //. exact: Q0.
        + have H3 : (o - bq q < bq q)%N by clear -H2 Ho; lia. have -> : (2 * oq q + o = 2 * oq q + bq q + (o - bq q))%N by clear -H2; lia.
          rewrite EB1 //. exact: Q1.
      - rewrite /qB ltnNge H1 /=. case: ltnP => H2; last exact: Qr.
        have {1}-> : i = (2 * errs + (i - 2 * errs))%N by clear -H1; lia. apply: Qm. clear -H1 H2. lia. }
    have CR (Q : nat -> {poly F} -> Prop) : (forall q j, (q < n)%N -> (j < 3 * bq q)%N -> Q (3 * oq q + j)%N (gr q j)) ->
        (forall j, (j < keys)%N -> Q (3 * errs + j)%N (pk' j)) -> (forall j, (j < nR)%N -> Q (3 * errs + keys + j)%N (pr' j)) -> forall i, (i < totR)%N -> Q i (qR i).
    { move=> Qe Qk Qr i Hi. case: (ltnP i (3 * errs)) => H1.
      - have [q [o [Hq Ho ->]]] := @blk_split bs 3 i ltac:(by rewrite Ebs). rewrite Sbs in Hq. rewrite ER //. exact: Qe.
      - rewrite /qR ltnNge H1 /=. case: ltnP => H2.
        + have {1}-> : i = (3 * errs + (i - 3 * errs))%N by clear -H1; lia. apply: Qk. clear -H1 H2. lia.
        + have {1}-> : i = (3 * errs + keys + (i - (3 * errs + keys)))%N by clear -H2; lia. apply: Qr. clear -H2 Hi. lia. }
    have CZ (Q : nat -> {poly F} -> Prop) : (forall q j, (q < n)%N -> (j < 2 * bq q)%N -> Q (2 * oq q + j)%N (gz q j)) ->
        (forall j, (j < nZ)%N -> Q (2 * errs + j)%N (pz' j)) -> forall i, (i < totZ)%N -> Q i (qZ i).
    { move=> Qe Qr i Hi. case: (ltnP i (2 * errs)) => H1.
      - have [q [o [Hq Ho ->]]] := @blk_split bs 2 i ltac:(by rewrite Ebs). rewrite Sbs in Hq. rewrite EZ //. exact: Qe.
      - rewrite /qZ ltnNge H1 /=. have {1}-> : i = (2 * errs + (i - 2 * errs))%N by clear -H1; lia. apply: Qr. clear -H1 Hi. lia. }
    have LB' : low totB qB.
    { apply: (CB (fun _ p => (size p <= t + l)%N)) => // q j Hq Hj; have [[L1 L2 _ _] _ _ _] := Hg q Hq; [exact: L1|exact: L2]. }
    have AB' : agree totB (mB pb) qB.
    { move=> i a Hi Ha. move: i Hi. apply: (CB (fun i p => (mB pb i).[emb a] = p.[emb a])) => // [q j Hq Hj|q j Hq Hj|j Hj].
      - have [_ [E _ _ _] _ _] := Hg q Hq. exact: (E j a Hj Ha).
      - have [_ [_ E _ _] _ _] := Hg q Hq. exact: (E j a Hj Ha).
      - exact: (Am j a Hj Ha). }
    have BB' i x : (i < totB)%N -> x \in pos -> is_bit (qB i).[x].
    { move=> Hi Hx. move: i Hi. apply: (CB (fun i p => is_bit p.[x])) => [q j Hq Hj|q j Hq Hj|j Hj|i].
      - have [_ _ E _] := Hg q Hq. have [E' _] := E j x Hj Hx. by right.
      - have [_ _ E _] := Hg q Hq. have [_ E'] := E j x Hj Hx. by right.
      - exact: Bm.
      - rewrite mixed_eval. apply: is_bit_sum => // s. apply: is_bit_mul; first exact: binary_entry.
        have [_ H2 _] := Hpb s (i %% bB)%N (ltn_ord s). have := H2 (index x pos). rewrite index_mem nth_index // => -> //.
        by case: (k_bit _ _ _); [right|left]. }
    have LR' : low totR qR.
    { apply: (CR (fun _ p => (size p <= t + l)%N)) => // q j Hq Hj; have [[_ _ L1 _] _ _ _] := Hg q Hq; exact: L1. }
    have AR' : agree totR (mR pr) qR.
    { move=> i a Hi Ha. move: i Hi. apply: (CR (fun i p => (mR pr i).[emb a] = p.[emb a])) => // [q j Hq Hj|j Hj|j Hj].
      - have [_ [_ _ E _] _ _] := Hg q Hq. exact: (E j a Hj Ha).
      - exact: (Ak j a Hj Ha).
      - exact: (Ar j a Hj Ha). }
    have LZ' : zero_at totZ qZ.
    { apply: (CZ (fun _ p => (size p <= n)%N /\ forall x, x \in pos -> p.[x] = 0)) => // q j Hq Hj; have [[_ _ _ L1] _ _ _] := Hg q Hq; exact: L1. }
    have AZ' : agree totZ (mZ pz) qZ.
    { move=> i a Hi Ha. move: i Hi. apply: (CZ (fun i p => (mZ pz i).[emb a] = p.[emb a])) => // [q j Hq Hj|j Hj].
      - have [_ [_ _ _ E] _ _] := Hg q Hq. exact: (E j a Hj Ha).
      - exact: (Az j a Hj Ha). }
    have [kr [pr2 [KR1 KR2 KR3 KR4]]] := rand_twin ser HhM Hpr LR' AR'.
    have [kz [pz2 [KZ1 KZ2 KZ3 KZ4]]] := zero_twin ser HhM Hpz LZ' AZ'.
    have [kt [kb [pb2 [KB1 KB2 KB3 KB4]]]] := bit_twin ser C2 HhB Bin Hpb LB' AB' BB'.
    pose r' me := if me \in A then r me else Coins (kr me) (kz me) (kt me) (kb me) (k_mult1 (r me)) (k_mult2 (r me)).
    have E1 me : k_rand (r' me) = kr me by rewrite /r'; case: ifP => // Ha; rewrite KR1.
    have E2 me : k_zero (r' me) = kz me by rewrite /r'; case: ifP => // Ha; rewrite KZ1.
    have E3 me : k_bit (r' me) = kt me by rewrite /r'; case: ifP => // Ha; have [-> _] := KB1 me Ha.
    have E4 me : k_bitrand (r' me) = kb me by rewrite /r'; case: ifP => // Ha; have [_ ->] := KB1 me Ha.
    have E5 me : k_mult1 (r' me) = k_mult1 (r me) by rewrite /r'; case: ifP.
    have E6 me : k_mult2 (r' me) = k_mult2 (r me) by rewrite /r'; case: ifP.
    have RR' := rand_from serK HS (id := idr) HbR HM fR KR2.
    have RZ' := zero_from serK HS (id := idz) HbZ HM fZ KZ2.
    have RB' := bit_from serK HS (id := idb) HbB HMb fB KB2.
    have {}RR' := realizes_eq (fun i k (Hi : (i < n)%N) => congr1 (fun c => rand ser de (mk i) M idr (keys + n_randoms d + 3 * errs) c k) (esym (E1 i))) (fun i Hi => erefl) RR'.
    have {}RZ' := realizes_eq (fun i k (Hi : (i < n)%N) => congr1 (fun c => zero ser de (mk i) M idz (n_zeros d + 2 * errs) c k) (esym (E2 i))) (fun i Hi => erefl) RZ'.
    have {}RB' := realizes_eq (fun i k (Hi : (i < n)%N) => congr2 (fun b c => randbit ser de (mk i) Mb idb (n_masks d + 2 * errs) b c k) (esym (E3 i)) (esym (E4 i))) (fun i Hi => erefl) RB'.
    exists r', ([:: (idr, dealing emb ser bR pr2); (idz, dealing emb ser bZ pz2); (idb, dealing emb ser bB pb2)] ++ flatten [seq (f q).1 | q <- iota 0 n]).
    split.
    + by move=> a Ha; rewrite /r' Ha.
    + split=> //. split=> //. split=> //. apply: twins_flat => q /In_iota_lt Hq. by have [[Tw _] _ _ _] := Hf1 q Hq.
    + have R := preproc_from HS Hdeg (id := id) (r := r') HM HMb Hids Hsz LR LZ LB (rde := fun q => (f q).1) (res := fun q => held (fun j => pe' (oq q + j)%N) (bq q)) Ec RR' RZ' RB'.
      apply: realizes_eq (R _) => // [i Hi|q Hq].
      * rewrite /material_of. congr PreProc.
        -- apply: held_ext => j Hj. rewrite KB3; last by clear -Hj LB; lia. rewrite /qB ltnNge leq_addr /= ltn_add2l Hj addKn //.
        -- apply: held_ext => j Hj. rewrite KR3; last by clear -Hj LR; lia. rewrite /qR ltnNge leq_addr /= ltn_add2l Hj addKn //.
        -- apply: held_ext => j Hj. rewrite KR3; last by clear -Hj LR; lia. by rewrite /qR -addnA ltnNge leq_addr /= addnA ltnNge leq_addr /= addKn.
        -- apply: held_ext => j Hj. rewrite KZ3; last by clear -Hj LZ; lia. by rewrite /qZ ltnNge leq_addr /= addKn.
        -- rewrite -[in RHS]Ebs -[in iota 0 n]Sbs. exact: (@held_flatten _ (fun q j => pe' (oq q + j)%N)).
      * have [_ _ _ RT] := Hg q Hq. apply: realizes_eq RT => // i k Hi. rewrite /task E5 E6.
        congr err_task. apply: esym. apply: (@givenE qB qR qZ) => // [j Hj|j Hj|j Hj].
        -- by rewrite EB0 // EB1.
        -- by rewrite ER.
        -- by rewrite EZ.
Qed.
End Whole.
End Pre.

(** The preprocessing in two executions that look the same to a set of parties,
    with explicit changes of what is dealt. *)

From Coq Require Import NArith.
From mathcomp Require Import all_ssreflect all_algebra zify.
From Verif Require Import MathModel MathProofs MatProofs SharingModel SharingSpec SharingProofs.
From Verif Require Import MachineModel MachineProofs MachineBuild Realize CoreModel CoreSpec CoreProofs RandTransProofs.
From Verif Require Import PreprocModel PreprocSpec PreprocProofs PreprocRun GarbleGates ViewProofs TwinProofs TwinCore TwinTf.
From Verif Require Import TwinDeal TwinErr TwinPre ExactErr.
From Verif Require ProtoIdModel.
Set Implicit Arguments.
Unset Strict Implicit.
Unset Printing Implicit Defensive.
Import GRing.Theory.
Local Open Scope ring_scope.

Section Pre.
Variable F : fieldType.
Variable emb : nat -> F.
Variable D : eqType.
Variable ser : seq F -> D.
Variable de : D -> option (seq F).
Variable fits : nat -> Prop.
Hypothesis serK : codec_ok ser de fits.
Variables (n t l : nat) (P Pn : pss F).
Hypothesis HS : setting emb n t l P Pn.
Hypothesis Hdeg : (2 * (t + l).-1 <= n.-1)%N.
Variable A : seq nat.
Hypothesis UA : uniq A.
Hypothesis HA : all (fun i => (i < n)%N) A.
Hypothesis tA : (size A <= t)%N.
Notation mk me := (Ctx me n t l P Pn).
Notation pos := (default_pos emb n l).
Notation held := (held emb).
Notation low := (low t l).
Notation zero_at := (zero_at emb n l).
Notation agree := (agree emb A).
Notation null := (null emb A).
Variables (M Mb : mat F) (id : seq N) (d : count) (bR bZ bB : nat).
Notation keys := (keys_total d).
Notation errs := (n_errors d).
Hypothesis HbR : num_batches (keys + n_randoms d + 3 * errs) (size (rows M)) = Some bR.
Hypothesis HbZ : num_batches (n_zeros d + 2 * errs) (size (rows M)) = Some bZ.
Hypothesis HbB : num_batches (n_masks d + 2 * errs) (size (rows Mb)) = Some bB.
Hypothesis HM : ncols M = n.
Hypothesis HMb : ncols Mb = n.
Hypothesis Hf : forall m, (m <= maxn (maxn bR bZ) (maxn bB errs))%N -> fits m.
Variable chans : seq (seq N).
Hypothesis Hids : ProtoIdModel.preproc_ids id (N.of_nat n) = Some chans.
Hypothesis Hsz : size chans = (3 + 2 * n)%N.
Notation totR := (size (rows M) * bR)%N.
Notation totZ := (size (rows M) * bZ)%N.
Notation totB := (size (rows Mb) * bB)%N.
Hypothesis LR : (keys + n_randoms d + 3 * errs <= totR)%N.
Hypothesis LZ : (n_zeros d + 2 * errs <= totZ)%N.
Hypothesis LB : (n_masks d + 2 * errs <= totB)%N.
Notation mR pr := (mixed n M bR pr).
Notation mZ pz := (mixed n M bZ pz).
Notation mB pb := (mixed n Mb bB pb).
Notation bs := (err_sizes errs n).
Notation bq q := (nth 0%N bs q).
Notation oq q := (sumn (take q bs)).
Notation err_rand := (err_rand emb n t l A).
Notation err_zero := (err_zero emb n t l A).

(** What error task [q] is given, from the results of the dealing. *)
Definition ta0 (qB : nat -> {poly F}) q j : {poly F} := qB (2 * oq q + j)%N.
Definition ta1 (qB : nat -> {poly F}) q j : {poly F} := qB (2 * oq q + bq q + j)%N.
Definition tar (qR : nat -> {poly F}) q j : {poly F} := qR (3 * oq q + j)%N.
Definition taz (qZ : nat -> {poly F}) q j : {poly F} := qZ (2 * oq q + j)%N.

(** The errors, from these and the coins of the leaders. *)
Definition pre_err (qB qR : nat -> {poly F}) (c1 c2 : nat -> nat -> nat -> F) (j : nat) : {poly F} :=
  let q := blk bs 1 j in err_w2 emb n t l (bq q) (ta0 qB q) (ta1 qB q) (tar qR q) (c1 q) (c2 q) (off bs 1 j).

(** What each party holds in the end. *)
Definition pre_out (qB qR qZ : nat -> {poly F}) (c1 c2 : nat -> nat -> nat -> F) : nat -> preproc_data F :=
  material_of emb M d bR bZ (fun j => qB (2 * errs + j)%N) (fun j => qR (3 * errs + j)%N) (fun j => qR (3 * errs + keys + j)%N) (fun j => qZ (2 * errs + j)%N)
    (pre_err qB qR c1 c2).

Lemma preproc_exact (r r' : nat -> coins F) pr pz pb pr' pz' pb' (hs : nat -> nat -> {poly F}) :
  let c1 q := k_mult1 (r q) q in let c2 q := k_mult2 (r q) q in
  [/\ rand_polys emb n (t + l) (fun s => k_rand (r s)) pr, secret_polys emb n n pos (fun _ _ _ => 0) (fun s => k_zero (r s)) pz &
    secret_polys emb n (t + l) pos (fun s j q => if k_bit (r s) j q then 1 else 0) (fun s => k_bitrand (r s)) pb] ->
  [/\ rand_polys emb n (t + l) (fun s => k_rand (r' s)) pr', secret_polys emb n n pos (fun _ _ _ => 0) (fun s => k_zero (r' s)) pz' &
    secret_polys emb n (t + l) pos (fun s j q => if k_bit (r' s) j q then 1 else 0) (fun s => k_bitrand (r' s)) pb'] ->
  [/\ alike n A (dealing emb ser bR pr) (dealing emb ser bR pr'), alike n A (dealing emb ser bZ pz) (dealing emb ser bZ pz') &
    alike n A (dealing emb ser bB pb) (dealing emb ser bB pb')] ->
  (forall me, (me < n)%N -> k_mult1 (r' me) = k_mult1 (r me) /\ k_mult2 (r' me) = k_mult2 (r me)) ->
  agree (2 * errs) (mB pb) (mB pb') -> (forall q, (q < n)%N -> low (bq q) (hs q) /\ null (bq q) (hs q)) ->
  (forall q j, (q < n)%N -> (j < 3 * bq q)%N -> mR pr' (3 * oq q + j)%N = mR pr (3 * oq q + j)%N +
     err_rand (bq q) (ta0 (mB pb) q) (ta1 (mB pb) q) (ta0 (mB pb') q) (ta1 (mB pb') q) (hs q) (tar (mR pr) q) (c1 q) j) ->
  (forall q j, (q < n)%N -> (j < 2 * bq q)%N -> mZ pz' (2 * oq q + j)%N = mZ pz (2 * oq q + j)%N +
     err_zero (bq q) (ta0 (mB pb) q) (ta1 (mB pb) q) (ta0 (mB pb') q) (ta1 (mB pb') q) (hs q) (tar (mR pr) q) (c1 q) j) ->
  let pe := pre_err (mB pb) (mR pr) c1 c2 in let pe' := pre_err (mB pb') (mR pr') c1 c2 in
  exists rds rds', [/\ ids rds = chans /\ twins n A rds rds',
    realizes n rds (fun me k => preproc ser de (mk me) M Mb id d (r me) k) (pre_out (mB pb) (mR pr) (mZ pz) c1 c2),
    realizes n rds' (fun me k => preproc ser de (mk me) M Mb id d (r' me) k) (pre_out (mB pb') (mR pr') (mZ pz') c1 c2) &
    [/\ low errs pe, low errs pe' & agree errs pe pe']].
Proof.
  move=> c1 c2 [Hpr Hpz Hpb] [Hpr' Hpz' Hpb'] [Tr Tz Tb] Hc AB Hhs ER EZ pe pe'.
  have Hn := npos HS.
  case Ec : chans Hsz Hids => [|idr [|idz [|idb eids]]] //= [Hse] Hid.
  have fR : fits bR by apply: Hf; clear; lia. have fZ : fits bZ by apply: Hf; clear; lia. have fB : fits bB by apply: Hf; clear; lia.
  have RR := rand_from serK HS (id := idr) HbR HM fR Hpr. have RR' := rand_from serK HS (id := idr) HbR HM fR Hpr'.
  have RZ := zero_from serK HS (id := idz) HbZ HM fZ Hpz. have RZ' := zero_from serK HS (id := idz) HbZ HM fZ Hpz'.
  have RB := bit_from serK HS (id := idb) HbB HMb fB Hpb. have RB' := bit_from serK HS (id := idb) HbB HMb fB Hpb'.
  have Sbs : size bs = n by apply: size_err_sizes. have Ebs : sumn bs = errs by apply: sumn_err_sizes.
  have LmR i : (size (mR pr i) <= t + l)%N by apply: mixed_size => s j Hs; have [] := Hpr s j Hs.
  have LmB i : (size (mB pb i) <= t + l)%N by apply: mixed_size => s j Hs; have [] := Hpb s j Hs.
  have LmB' i : (size (mB pb' i) <= t + l)%N by apply: mixed_size => s j Hs; have [] := Hpb' s j Hs.
  have LmZ i : (size (mZ pz i) <= n)%N /\ forall x, x \in pos -> (mZ pz i).[x] = 0.
  { split; first by apply: mixed_size => s j Hs; have [] := Hpz s j Hs.
    move=> x Hx. rewrite mixed_eval big1 // => s _. have [_ H2 _] := Hpz s (i %% bZ)%N (ltn_ord s).
    have := H2 (index x pos). rewrite index_mem nth_index // => -> //. by rewrite mulr0. }
  pose task (g : nat -> coins F) q (p0 p1 rnd zr : nat -> {poly F}) := fun me (k : seq F -> proc [eqType of seq N] D (val F)) =>
    err_task ser de (mk me) (nth [::] eids (2 * q)%N) (nth [::] eids (2 * q + 1)%N) q
      (ErrInp (bq q) (held p0 (bq q) me) (held p1 (bq q) me) (held rnd (3 * bq q) me) (held zr (2 * bq q) me))
      (k_mult1 (g me) q) (k_mult2 (g me) q) k.
  pose w q := err_w2 emb n t l (bq q) (ta0 (mB pb) q) (ta1 (mB pb) q) (tar (mR pr) q) (c1 q) (c2 q).
  pose w' q := err_w2 emb n t l (bq q) (ta0 (mB pb') q) (ta1 (mB pb') q) (tar (mR pr') q) (c1 q) (c2 q).
  have Bq q : (q < n)%N -> (oq q + bq q <= errs)%N by move=> _; have := nth_le_sumn bs q; rewrite Ebs.
  pose Rel q (x : seq ([eqType of seq N] * round D)) :=
    [/\ twins n A x x /\ ids x = [:: nth [::] eids (2 * q)%N; nth [::] eids (2 * q + 1)%N], [/\ low (bq q) (w q), low (bq q) (w' q) & agree (bq q) (w q) (w' q)],
      realizes n x (task r q (ta0 (mB pb) q) (ta1 (mB pb) q) (tar (mR pr) q) (taz (mZ pz) q)) (held (w q) (bq q)) &
      realizes n x (task r' q (ta0 (mB pb') q) (ta1 (mB pb') q) (tar (mR pr') q) (taz (mZ pz') q)) (held (w' q) (bq q))].
  have [f Hf1] : exists f, forall q, (q < n)%N -> Rel q (f q).
  { apply: (@fin_choice _ n Rel [::]) => q Hq. have Hb := Bq q Hq.
    have Fb : fits (bq q) by apply: Hf; clear -Hb; lia. have [Lh Nh] := Hhs q Hq.
    have I0 j : (j < bq q)%N -> (2 * oq q + j < 2 * errs)%N by move=> Hj; clear -Hb Hj; lia.
    have I1 j : (j < bq q)%N -> (2 * oq q + bq q + j < 2 * errs)%N by move=> Hj; clear -Hb Hj; lia.
    have [||||rds [H1 _ [Q1 Q2 Q3] R1 R2]] := err_exact serK HS Hdeg UA HA tA (nth [::] eids (2 * q)%N) (nth [::] eids (2 * q + 1)%N)
       (L := q) (b := bq q) (fun me => k_mult1 (r me) q) (fun me => k_mult2 (r me) q) (p0 := ta0 (mB pb) q) (p1 := ta1 (mB pb) q) (p0' := ta0 (mB pb') q) (p1' := ta1 (mB pb') q) (hs := hs q)
       (rnd := tar (mR pr) q) (zr := taz (mZ pz) q) Hq Fb.
    - split; [by move=> j _; exact: LmB|by move=> j _; exact: LmB|by move=> j _; exact: LmB'|by move=> j _; exact: LmB'|exact: Lh].
    - split; [by move=> j a Hj Ha; apply: AB => //; exact: I0|by move=> j a Hj Ha; apply: AB => //; exact: I1|exact: Nh].
    - by move=> j _; exact: LmR.
    - by move=> j _; exact: LmZ.
    have Ew j : (j < bq q)%N -> w' q j = err_w2 emb n t l (bq q) (ta0 (mB pb') q) (ta1 (mB pb') q)
       (fun j => tar (mR pr) q j + err_rand (bq q) (ta0 (mB pb) q) (ta1 (mB pb) q) (ta0 (mB pb') q) (ta1 (mB pb') q) (hs q) (tar (mR pr) q) (c1 q) j) (c1 q) (c2 q) j.
    { move=> Hj. have E3 i : (i < 3 * bq q)%N -> tar (mR pr') q i = tar (mR pr) q i +
         err_rand (bq q) (ta0 (mB pb) q) (ta1 (mB pb) q) (ta0 (mB pb') q) (ta1 (mB pb') q) (hs q) (tar (mR pr) q) (c1 q) i by move=> Hi; exact: (ER q i Hq Hi).
      have J1 : (j < 3 * bq q)%N by clear -Hj; lia. have J2 : (bq q + j < 3 * bq q)%N by clear -Hj; lia. have J3 : (bq q + bq q + j < 3 * bq q)%N by clear -Hj; lia.
      rewrite /w' /err_w2 /err_w1. apply: mout_ext; [apply: mout_ext => //; exact: (E3 _ J1)|exact: (E3 _ J2)|exact: (E3 _ J3)]. }
    exists rds. split; [exact: H1| |exact: R1|].
    - split; [exact: Q1|by move=> j Hj; rewrite Ew //; exact: Q2|by move=> j a Hj Ha; rewrite Ew //; exact: Q3].
    - apply: realizes_eq R2 => [i k Hi|i Hi].
      + rewrite /task. have [-> ->] := Hc i Hi. congr err_task. congr ErrInp; apply: held_ext => j Hj; congr (_.[_]); apply: esym; [exact (ER q j Hq Hj)|exact (EZ q j Hq Hj)].
      + by apply: held_ext => j Hj; rewrite Ew. }
  have Epe q j : (q < n)%N -> (j < bq q)%N -> pe (oq q + j)%N = w q j /\ pe' (oq q + j)%N = w' q j.
  { move=> Hq Hj. have Hj' : (j < 1 * bq q)%N by rewrite mul1n. have := blkE Hj'. have := offE Hj'. rewrite mul1n => Eo Eb. by rewrite /pe /pe' /pre_err Eb Eo. }
  have Give q me : (q < n)%N -> err_given emb n M Mb d bR bZ bB pr pz pb q me =
     ErrInp (bq q) (held (ta0 (mB pb) q) (bq q) me) (held (ta1 (mB pb) q) (bq q) me) (held (tar (mR pr) q) (3 * bq q) me) (held (taz (mZ pz) q) (2 * bq q) me).
  { move=> Hq. exact: (@givenE _ emb n t l P Pn HS M Mb d bR bZ bB LR LZ LB (mB pb) (mR pr) (mZ pz)). }
  have Give' q me : (q < n)%N -> err_given emb n M Mb d bR bZ bB pr' pz' pb' q me =
     ErrInp (bq q) (held (ta0 (mB pb') q) (bq q) me) (held (ta1 (mB pb') q) (bq q) me) (held (tar (mR pr') q) (3 * bq q) me) (held (taz (mZ pz') q) (2 * bq q) me).
  { move=> Hq. exact: (@givenE _ emb n t l P Pn HS M Mb d bR bZ bB LR LZ LB (mB pb') (mR pr') (mZ pz')). }
  exists ([:: (idr, dealing emb ser bR pr); (idz, dealing emb ser bZ pz); (idb, dealing emb ser bB pb)] ++ flatten [seq f q | q <- iota 0 n]),
    ([:: (idr, dealing emb ser bR pr'); (idz, dealing emb ser bZ pz'); (idb, dealing emb ser bB pb')] ++ flatten [seq f q | q <- iota 0 n]).
  have all_err (Q : nat -> Prop) : (forall q j, (q < n)%N -> (j < bq q)%N -> Q (oq q + j)%N) -> forall j, (j < errs)%N -> Q j.
  { move=> H j Hj. have [q [o [Hq Ho ->]]] := @blk1_split bs j ltac:(by rewrite Ebs). rewrite Sbs in Hq. exact: H. }
  split.
  - split.
    + rewrite /ids map_cat map_flatten -map_comp /=. congr [:: _, _, _ & _].
      rewrite -[RHS](flatten_pairs Hdeg [::] (m := n) (s := eids)); last by clear -Hse; lia.
      congr flatten. apply/eq_in_map => q. rewrite mem_iota /= => Hq. have [[_ E] _ _ _] := Hf1 q Hq. exact: E.
    + split=> //. split=> //. split=> //. apply: twins_flat => q /In_iota_lt Hq. by have [[Tw _] _ _ _] := Hf1 q Hq.
  - have R := preproc_from HS Hdeg (id := id) (r := r) HM HMb Hids Hsz LR LZ LB (rde := fun q => f q) (res := fun q => held (w q) (bq q)) Ec RR RZ RB.
    apply: realizes_eq (R _) => // [i Hi|q Hq].
    + rewrite /pre_out /material_of. congr PreProc. rewrite -[in RHS]Ebs -[in iota 0 n]Sbs. apply: (@held_flatten _ emb bs w) => q j. rewrite Sbs => Hq Hj. exact (Epe q j Hq Hj).1.
    + have [_ _ RT _] := Hf1 q Hq. apply: realizes_eq RT => // i k Hi. by rewrite Give.
  - have R := preproc_from HS Hdeg (id := id) (r := r') HM HMb Hids Hsz LR LZ LB (rde := fun q => f q) (res := fun q => held (w' q) (bq q)) Ec RR' RZ' RB'.
    apply: realizes_eq (R _) => // [i Hi|q Hq].
    + rewrite /pre_out /material_of. congr PreProc. rewrite -[in RHS]Ebs -[in iota 0 n]Sbs. apply: (@held_flatten _ emb bs w') => q j. rewrite Sbs => Hq Hj. exact (Epe q j Hq Hj).2.
    + have [_ _ _ RT] := Hf1 q Hq. apply: realizes_eq RT => // i k Hi. by rewrite Give'.
  - split.
    + apply: all_err => q j Hq Hj. have [-> _] := Epe q j Hq Hj. have [_ [H _ _] _ _] := Hf1 q Hq. exact: H.
    + apply: all_err => q j Hq Hj. have [_ ->] := Epe q j Hq Hj. have [_ [_ H _] _ _] := Hf1 q Hq. exact: H.
    + move=> j a Hj Ha. move: j Hj. apply: all_err => q j Hq Hj. have [-> ->] := Epe q j Hq Hj. have [_ [_ _ H] _ _] := Hf1 q Hq. exact: H.
Qed.
End Pre.

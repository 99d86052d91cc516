(** The shares of the gate inputs (garble.rs:33-227, 630-665) in two executions
    that look the same to a set of parties. *)

From Coq Require Import NArith List.
From Verif Require Import CircuitModel LpnModel.
From mathcomp Require Import all_ssreflect all_algebra zify.
From Verif Require Import MathModel MathProofs MatProofs SharingModel SharingSpec SharingProofs.
From Verif Require Import MachineModel MachineProofs MachineBuild Realize CoreModel CoreSpec CoreProofs.
From Verif Require Import RandTransProofs PreprocModel PreprocSpec PreprocProofs GarbleModel GarbleSpec GarbleGates GarbleTf GarbleWires.
From Verif Require Import ViewProofs TwinProofs TwinCore TwinRand TwinTf.
From Verif Require ProtoIdModel ProtoIdProofs.
Set Implicit Arguments.
Unset Strict Implicit.
Unset Printing Implicit Defensive.
Import GRing.Theory.
Local Open Scope ring_scope.

Section Twin.
Variable F : fieldType.
Variable emb : nat -> F.
Variable D : eqType.
Variable ser : seq F -> D.
Variable de : D -> option (seq F).
Variable fits : nat -> Prop.
Hypothesis serK : codec_ok ser de fits.
Variables (n t l : nat) (P Pn : pss F).
Hypothesis HS : setting emb n t l P Pn.
Hypothesis Hl0 : (0 < l)%N.
Hypothesis HKl : (t + l + l <= n)%N.
Variable A : seq nat.
Hypothesis UA : uniq A.
Hypothesis HA : all (fun i => (i < n)%N) A.
Hypothesis tA : (size A <= t)%N.
Notation mk me := (Ctx me n t l P Pn).
Notation pos := (default_pos emb n l).
Notation held := (held emb).
Notation pid := [eqType of seq N].
Notation realizes := (@realizes n pid D (val F)).
Notation low := (low t l).
Notation high := (high n).
Notation zero_at := (zero_at emb n l).
Notation agree := (agree emb A).
Notation null := (null emb A).
Variable circ : pcircuit.
Hypothesis Hwf : wf_packed circ l.
Hypothesis Hinj : distinct_positions emb n l circ.
Notation outs := (out_blocks circ).
Notation inps := (inp_blocks circ).
Notation tf_out := (tf_out emb n l circ).
Notation tf_inp := (tf_inp emb n l circ).
Variables (B1 B2 : nat).
Hypothesis HB1 : num_batches (size outs) l = Some B1.
Hypothesis HB2 : num_batches (size inps) l = Some B2.
Variables (K M : nat).
Notation prm := (Lpn K M).
Let reps := (2 * K + 1)%N.
Variable g : nat -> gctx F.
Hypothesis Hg : forall me, (me < n)%N ->
  [/\ g_mpc (g me) = mk me, g_lpn (g me) = prm, g_circ (g me) = circ &
   [/\ g_lookup (g me) = block_map circ, g_out (g me) = tfs emb n t l tf_out B1 me & g_inp (g me) = tfs emb n t l tf_inp B2 me]].
Notation M1 := ((n + t) * reps)%N.
Notation M2 := (2 * n * reps)%N.

(** What the coalition needs to miss: the leader of an input block, or parties
    whose mask shares repeat. *)
Definition blocks_shielded : Prop := forall i, (i < size inps)%N -> let ws := nth [::] inps i in
  (i %% n)%N \notin A \/ forall m, m \in A -> (size ws + m < l)%N -> (size ws + m - size (sorted_wires ws))%N \in A.
Hypothesis Hsh : blocks_shielded.

Let x0 : seq F * seq F * seq nat := ([::], [::], [::]).

Lemma sel_agree po po' ws : ws \in inps -> (forall b, (b < size outs)%N -> agree reps (po b) (po' b)) ->
  agree reps (sel_poly emb n l circ po ws) (sel_poly emb n l circ po' ws).
Proof.
  move=> Hws H j a Hj Ha. rewrite /sel_poly /weave !horner_sum. apply: eq_bigr => k _. rewrite !hornerM. congr (_ * _).
  apply: H => //. have Hk := ltn_ord k. have [_ Hsub] := inp_wires Hwf Hws.
  have Hk' : (k < size (sorted_wires ws))%N by move: Hk; move: (nat_of_ord k) => k'; rewrite wires_posE size_map.
  have Hw : nth 0%num (sorted_wires ws) k \in flatten outs.
  { apply: Hsub. rewrite -mem_sorted_wires. exact: mem_nth. }
  exact: (block_ofP Hw).1.
Qed.

(** Label rows. *)
Definition lrow (pm pk : nat -> {poly F}) b j := if (j < 2 * K)%N then pk (b * (2 * K) + j)%N else pm b.

Lemma label_rowsE (d : preproc_data F) pm pk me : pp_masks d = held pm (size outs) me -> pp_keys d = held pk (size outs * (2 * K)) me ->
  label_rows (size outs) K (pp_keys d) (pp_masks d) = Some [seq held (lrow pm pk b) reps me | b <- iota 0 (size outs)].
Proof.
  move=> Em Ek. rewrite /label_rows Em // size_held eqxx Ek // to_mat_held /=. congr Some. apply/eq_in_map => b.
  rewrite mem_iota add0n => /andP [_ Hb]. rewrite (nth_map 0%N) ?size_iota // nth_iota // add0n nth_held // held_rcons.
  by rewrite /reps.
Qed.

Lemma lrow_low pm pk b : (b < size outs)%N -> low (size outs) pm -> low (size outs * (2 * K)) pk -> low reps (lrow pm pk b).
Proof. move=> Hb Lm Lk j Hj. rewrite /lrow. case: ltnP => Hc; [apply: Lk|exact: Lm]. clear -Hb Hc. nia. Qed.

Lemma lrow_agree pm pk pm' pk' b : (b < size outs)%N -> agree (size outs) pm pm' -> agree (size outs * (2 * K)) pk pk' ->
  agree reps (lrow pm pk b) (lrow pm' pk' b).
Proof. move=> Hb Lm Lk j a Hj Ha. rewrite /lrow. case: ltnP => Hc; [apply: Lk|exact: Lm] => //. clear -Hb Hc. nia. Qed.

(** One execution, given its parts. *)
Lemma wire_compose (cids : seq pid) (pp : nat -> preproc_data F) pm pk (pr1 pz1 pr2 pz2 : nat -> {poly F}) (coins : nat -> gcoins F)
   (rd0 rd1 rd2 rd3 : seq (pid * round D)) (y0 y1 : nat -> seq (seq F) * seq (seq F)) (po : nat -> nat -> {poly F}) res :
  (forall me, (me < n)%N -> pp_masks (pp me) = held pm (size outs) me) ->
  (forall me, (me < n)%N -> pp_keys (pp me) = held pk (size outs * (2 * K)) me) ->
  realizes rd0 (fun me k => gen_rand_shares ser de (mk me) (tfs emb n t l tf_out B1 me) (nth [::] cids 0) reps (held pr1 (B1 * M1) me) (held pz1 (B1 * M2) me) k) y0 ->
  realizes rd1 (fun me k => gen_rand_shares ser de (mk me) (tfs emb n t l tf_inp B2 me) (nth [::] cids 1) reps (held pr2 (B2 * M1) me) (held pz2 (B2 * M2) me) k) y1 ->
  realizes rd2 (fun me k => transform emb ser de (mk me) (tfs emb n t l tf_out B1 me) (nth [::] cids 2) reps
     [seq held (lrow pm pk b) reps me | b <- iota 0 (size outs)] (y0 me).1 (y0 me).2 (gk_out (coins me)) k) (fun me => [seq held (po b) reps me | b <- iota 0 (size outs)]) ->
  realizes rd3 (fun me k => transform emb ser de (mk me) (tfs emb n t l tf_inp B2 me) (nth [::] cids 3) reps
     [seq held (sel_poly emb n l circ po (nth [::] inps i)) reps me | i <- iota 0 (size inps)] (y1 me).1 (y1 me).2 (gk_inp (coins me)) k) res ->
  realizes (rd1 ++ (rd0 ++ rd2) ++ rd3)
    (fun me k => wire_shares emb ser de (g me) cids (pp me) (held pr1 (B1 * M1) me, held pz1 (B1 * M2) me) (held pr2 (B2 * M1) me, held pz2 (B2 * M2) me) (coins me) k) res.
Proof.
  move=> Em Ek R0 R1 R2 R3.
  pose sel me := [seq held (sel_poly emb n l circ po (nth [::] inps i)) reps me | i <- iota 0 (size inps)].
  have Esel me : (me < n)%N -> select_all emb (g me) reps [seq held (po b) reps me | b <- iota 0 (size outs)] = Some (sel me).
  { move=> Hm. rewrite (@select_allE F emb n t l P Pn Hl0 HKl circ Hwf Hinj B1 B2 K M g Hg po (fun me => [seq held (po b) reps me | b <- iota 0 (size outs)])) //.
    - congr Some. rewrite /sel. apply: (@eq_from_nth _ [::]); rewrite !size_map ?size_iota // => i Hi.
      by rewrite (nth_map [::]) // (nth_map 0%N) ?size_iota // nth_iota.
    - move=> me' Hm'. rewrite size_map size_iota. split=> // b Hb. by rewrite (nth_map 0%N) ?size_iota // nth_iota. }
  pose Qf (me : nat) (k : seq (seq F) -> proc pid D (val F)) :=
    gen_rand_shares ser de (mk me) (tfs emb n t l tf_out B1 me) (nth [::] cids 0) reps (held pr1 (B1 * M1) me) (held pz1 (B1 * M2) me) (fun y =>
       if label_rows (size outs) K (pp_keys (pp me)) (pp_masks (pp me)) is Some inp then
         transform emb ser de (mk me) (tfs emb n t l tf_out B1 me) (nth [::] cids 2) reps inp y.1 y.2 (gk_out (coins me)) (fun out_shares =>
           if select_all emb (g me) reps out_shares is Some selected then k selected else @Panic pid D (val F))
       else @Panic pid D (val F)).
  have RQ : realizes (rd0 ++ rd2) Qf sel.
  { apply: (realizes_seq R0 (Q := fun me y k => if label_rows (size outs) K (pp_keys (pp me)) (pp_masks (pp me)) is Some inp then
         transform emb ser de (mk me) (tfs emb n t l tf_out B1 me) (nth [::] cids 2) reps inp y.1 y.2 (gk_out (coins me)) (fun out_shares =>
           if select_all emb (g me) reps out_shares is Some selected then k selected else @Panic pid D (val F))
       else @Panic pid D (val F))).
    move=> plan ph A0 me k js v Hm Fk. rewrite (label_rowsE (Em _ Hm) (Ek _ Hm)). apply: (R2 plan ph A0 me) => //. by rewrite Esel. }
  have RF := @realizes_fork n pid D (val F) _ _ _ _ _ _ (fun y => Node [:: Leaf y.1; Leaf y.2]) (fun s => Leaf s) _ _ Qf sel
    (fun me a b k => if b is Leaf selected then
         transform emb ser de (mk me) (tfs emb n t l tf_inp B2 me) (nth [::] cids 3) reps selected (pair_of a).1 (pair_of a).2 (gk_inp (coins me)) k
       else @Panic pid D (val F)) _ R1 RQ R3.
  apply: realizes_eq RF => // me k Hm. have [E1 E2 E3 [E4 E5 E6]] := Hg Hm. rewrite /wire_shares E1 E2 E3 E5 E6 /= -nbE //.
Qed.

(** ** What changes *)
Definition wi_dl1 (pm pk pm' pk' : nat -> {poly F}) := tf_dl emb n l A tf_out (lrow pm pk) (lrow pm' pk').
Definition wi_dn1 (pm pk pm' pk' : nat -> {poly F}) := tf_dn n A (lrow pm pk) (lrow pm' pk').
Definition wi_h1 (pm pk pm' pk' : nat -> {poly F}) := gr_h emb n t l A tf_out reps (wi_dl1 pm pk pm' pk') (wi_dn1 pm pk pm' pk').
Definition wi_z1 (pm pk pm' pk' : nat -> {poly F}) := gr_z emb n t l A tf_out reps (wi_dl1 pm pk pm' pk') (wi_dn1 pm pk pm' pk').
Definition wi_co1 (pm pk pm' pk' : nat -> {poly F}) := tf_co emb n A tf_out (lrow pm pk) (lrow pm' pk').
Definition wi_po (pm pk pr1 pz1 : nat -> {poly F}) (c1 : nat -> nat -> nat -> nat -> F) :=
  tf_w emb n t l tf_out (lrow pm pk) (gr_ml emb n t l tf_out B1 reps pr1 pz1) (gr_mn emb n t l tf_out B1 reps pr1 pz1) c1.
Definition wi_po' (pm pk pm' pk' pr1 pz1 : nat -> {poly F}) (c1 : nat -> nat -> nat -> nat -> F) :=
  tf_w' emb n t l A tf_out (lrow pm pk) (lrow pm' pk') (gr_ml emb n t l tf_out B1 reps pr1 pz1) (gr_mn emb n t l tf_out B1 reps pr1 pz1) c1.
Definition wi_sel (po : nat -> nat -> {poly F}) (i : nat) := sel_poly emb n l circ po (nth [::] inps i).
Definition wi_dl2 (po po' : nat -> nat -> {poly F}) := tf_dl emb n l A tf_inp (wi_sel po) (wi_sel po').
Definition wi_dn2 (po po' : nat -> nat -> {poly F}) := tf_dn n A (wi_sel po) (wi_sel po').
Definition wi_h2 (po po' : nat -> nat -> {poly F}) := gr_h emb n t l A tf_inp reps (wi_dl2 po po') (wi_dn2 po po').
Definition wi_z2 (po po' : nat -> nat -> {poly F}) := gr_z emb n t l A tf_inp reps (wi_dl2 po po') (wi_dn2 po po').
Definition wi_co2 (po po' : nat -> nat -> {poly F}) := tf_co emb n A tf_inp (wi_sel po) (wi_sel po').
Definition wi_w (po : nat -> nat -> {poly F}) (pr2 pz2 : nat -> {poly F}) (c2 : nat -> nat -> nat -> nat -> F) :=
  tf_w emb n t l tf_inp (wi_sel po) (gr_ml emb n t l tf_inp B2 reps pr2 pz2) (gr_mn emb n t l tf_inp B2 reps pr2 pz2) c2.
Definition wi_w' (po po' : nat -> nat -> {poly F}) (pr2 pz2 : nat -> {poly F}) (c2 : nat -> nat -> nat -> nat -> F) :=
  tf_w' emb n t l A tf_inp (wi_sel po) (wi_sel po') (gr_ml emb n t l tf_inp B2 reps pr2 pz2) (gr_mn emb n t l tf_inp B2 reps pr2 pz2) c2.

Lemma wire_exact (cids : seq pid) c0 c1 c2 c3 (pp : nat -> preproc_data F) pm pm' pk pk' pr1 pz1 pr2 pz2 (coins : nat -> gcoins F) (k1 k2 : nat -> nat -> nat -> nat -> F) :
  fits (2 * reps) -> fits reps ->
  ProtoIdModel.gen_rand_ids (nth [::] cids 0) (N.of_nat B1) = Some c0 ->
  ProtoIdModel.gen_rand_ids (nth [::] cids 1) (N.of_nat B2) = Some c1 ->
  ProtoIdModel.transform_ids (nth [::] cids 2) (N.of_nat (size outs)) = Some c2 ->
  ProtoIdModel.transform_ids (nth [::] cids 3) (N.of_nat (size inps)) = Some c3 ->
  low (size outs) pm -> low (size outs) pm' -> agree (size outs) pm pm' ->
  low (size outs * (2 * K)) pk -> low (size outs * (2 * K)) pk' -> agree (size outs * (2 * K)) pk pk' ->
  low (B1 * M1) pr1 -> zero_at (B1 * M2) pz1 -> low (B2 * M1) pr2 -> zero_at (B2 * M2) pz2 ->
  (forall me, (me < n)%N -> pp_masks (pp me) = held pm (size outs) me) ->
  (forall me, (me < n)%N -> pp_keys (pp me) = held pk (size outs * (2 * K)) me) ->
  (forall me i j c, (me < n)%N -> (i < size outs)%N -> (j < reps)%N -> (c < t + l)%N -> gk_out (coins me) i j c = k1 me i j c) ->
  (forall me i j c, (me < n)%N -> (i < size inps)%N -> (j < reps)%N -> (c < t + l)%N -> gk_inp (coins me) i j c = k2 me i j c) ->
  let pr1' q := pr1 q + wi_h1 pm pk pm' pk' q in let pz1' q := pz1 q - wi_z1 pm pk pm' pk' q in
  let po := wi_po pm pk pr1 pz1 k1 in let po' := wi_po' pm pk pm' pk' pr1 pz1 k1 in
  let pr2' q := pr2 q + wi_h2 po po' q in let pz2' q := pz2 q - wi_z2 po po' q in
  let w := wi_w po pr2 pz2 k2 in let w' := wi_w' po po' pr2 pz2 k2 in
  exists (rds rds' : seq (pid * round D)),
  [/\ [/\ low (B1 * M1) pr1', zero_at (B1 * M2) pz1', agree (B1 * M1) pr1 pr1' & agree (B1 * M2) pz1 pz1'],
      [/\ low (B2 * M1) pr2', zero_at (B2 * M2) pz2', agree (B2 * M1) pr2 pr2' & agree (B2 * M2) pz2 pz2'],
      [/\ ids rds = c1 ++ (c0 ++ c2) ++ c3, ids rds' = c1 ++ (c0 ++ c2) ++ c3 & twins n A rds rds'] &
   [/\ forall i, (i < size inps)%N -> [/\ low reps (w i), low reps (w' i) & agree reps (w i) (w' i)],
      realizes rds (fun me k => wire_shares emb ser de (g me) cids (pp me) (held pr1 (B1 * M1) me, held pz1 (B1 * M2) me) (held pr2 (B2 * M1) me, held pz2 (B2 * M2) me) (coins me) k)
        (fun me => [seq held (w i) reps me | i <- iota 0 (size inps)]) &
      forall (pp' : nat -> preproc_data F) (coins' : nat -> gcoins F),
        (forall me, (me < n)%N -> pp_masks (pp' me) = held pm' (size outs) me) ->
        (forall me, (me < n)%N -> pp_keys (pp' me) = held pk' (size outs * (2 * K)) me) ->
        (forall me i j c, (me < n)%N -> (i < size outs)%N -> (j < reps)%N -> (c < t + l)%N ->
          gk_out (coins' me) i j c = k1 me i j c + wi_co1 pm pk pm' pk' me i j c) ->
        (forall me i j c, (me < n)%N -> (i < size inps)%N -> (j < reps)%N -> (c < t + l)%N ->
          gk_inp (coins' me) i j c = k2 me i j c + wi_co2 po po' me i j c) ->
        realizes rds' (fun me k => wire_shares emb ser de (g me) cids (pp' me) (held pr1' (B1 * M1) me, held pz1' (B1 * M2) me) (held pr2' (B2 * M1) me, held pz2' (B2 * M2) me) (coins' me) k)
        (fun me => [seq held (w' i) reps me | i <- iota 0 (size inps)])]].
Proof.
  move=> F2 F1 Ec0 Ec1 Ec2 Ec3 Lm Lm' Am Lk Lk' Ak Lr1 Zz1 Lr2 Zz2 Em Ek Hk1 Hk2 pr1' pz1' po po' pr2' pz2' w w'.
  have Tsz : size tf_out = size outs by rewrite size_map.
  have Tsi : size tf_inp = size inps by rewrite size_map.
  have Tok := tf_out_ok Hl0 HKl Hwf Hinj. have Iok := tf_inp_ok Hl0 HKl Hwf Hinj.
  have Es0 : num_batches (size tf_out) l = Some B1 by rewrite Tsz. have Es1 : num_batches (size tf_inp) l = Some B2 by rewrite Tsi.
  (* the output blocks *)
  pose px := lrow pm pk. pose px' := lrow pm' pk'.
  have Lx b : (b < size outs)%N -> low reps (px b) by move=> Hb; exact: lrow_low.
  have Lx' b : (b < size outs)%N -> low reps (px' b) by move=> Hb; exact: lrow_low.
  pose dl1 := wi_dl1 pm pk pm' pk'. pose dn1 := wi_dn1 pm pk pm' pk'.
  have Hd0 b : (b < size tf_out)%N ->
     shifts emb n t l A (nth x0 tf_out b).1.1 (nth x0 tf_out b).1.2 (nth x0 tf_out b).2 reps (b %% n)%N (px b) (px' b) (dl1 b) (dn1 b).
  { move=> Hb. have Hb' : (b < size outs)%N by rewrite -Tsz.
    have Hx : tf_ok emb n l ((nth x0 tf_out b).1.1, (nth x0 tf_out b).1.2, (nth x0 tf_out b).2) by have := Tok b Hb; rewrite -/x0; case: (nth x0 tf_out b) => [[]].
    have Eo : size (nth x0 tf_out b).1.1 = size (nth x0 tf_out b).1.2.
    { rewrite (nth_map [::]) //= size_take_pos ?wires_posE ?size_map //. exact: (outs_size Hwf b). }
    have Hshi : shielded l A (nth x0 tf_out b).1.1 (nth x0 tf_out b).1.2 (b %% n)%N by right=> m Hm _; rewrite Eo addKn.
    exact: (shifts_ok HS UA HA tA Hx (eq_leq Eo) Hshi (low_high HS (Lx b Hb')) (low_high HS (Lx' b Hb')) (lrow_agree Hb' Am Ak)). }
  have [|rd0 [rd0' [Q1 [I0 I0' T0] L0 R0 R0']]] := gen_rand_exact serK HS Hl0 HKl UA HA tA Tok Es0 F2 Ec0 Lr1 Zz1 (dl := dl1) (dn := dn1).
  { by move=> i /Hd0 []. }
  have Ec2' : ProtoIdModel.transform_ids (nth [::] cids 2) (N.of_nat (size tf_out)) = Some c2 by rewrite Tsz.
  have [|rd2 [rd2' [[I2 I2' T2] L2 R2 R2']]] := transform_exact serK HS UA HA tA Tok B1 k1 F1 Ec2' (px := px) (px' := px')
    (pr := gr_ml emb n t l tf_out B1 reps pr1 pz1) (prn := gr_mn emb n t l tf_out B1 reps pr1 pz1).
  { move=> i Hi. have Hi' : (i < size outs)%N by rewrite -Tsz. have [H1 H2] := L0 i Hi.
    split; [exact (low_high HS (Lx i Hi'))|exact (low_high HS (Lx' i Hi'))|exact: H1|exact: H2|exact: Hd0]. }
  (* the input blocks *)
  have L2' b : (b < size outs)%N -> [/\ low reps (po b), low reps (po' b) & agree reps (po b) (po' b)] by rewrite -Tsz; exact: L2.
  pose ps := wi_sel po. pose ps' := wi_sel po'.
  have Hs i : (i < size inps)%N -> high reps (ps i).
  { move=> Hi j Hj. have Hw := mem_nth [::] Hi. apply: (sel_poly_ok HS Hl0 HKl Hwf Hinj K Hw _).1 => b Hb. have [H _ _] := L2' b Hb. exact: H. }
  have Hs' i : (i < size inps)%N -> high reps (ps' i).
  { move=> Hi j Hj. have Hw := mem_nth [::] Hi. apply: (sel_poly_ok HS Hl0 HKl Hwf Hinj K Hw _).1 => b Hb. have [_ H _] := L2' b Hb. exact: H. }
  have Ags i : (i < size inps)%N -> agree reps (ps i) (ps' i).
  { move=> Hi. apply: sel_agree; first exact: mem_nth. by move=> b /L2' []. }
  pose dl2 := wi_dl2 po po'. pose dn2 := wi_dn2 po po'.
  have Hd1 b : (b < size tf_inp)%N ->
     shifts emb n t l A (nth x0 tf_inp b).1.1 (nth x0 tf_inp b).1.2 (nth x0 tf_inp b).2 reps (b %% n)%N (ps b) (ps' b) (dl2 b) (dn2 b).
  { move=> Hb. have Hb' : (b < size inps)%N by rewrite -Tsi.
    have Hx : tf_ok emb n l ((nth x0 tf_inp b).1.1, (nth x0 tf_inp b).1.2, (nth x0 tf_inp b).2) by have := Iok b Hb; rewrite -/x0; case: (nth x0 tf_inp b) => [[]].
    have [Hsz _] := inp_wires Hwf (mem_nth [::] Hb').
    have E1 : size (nth x0 tf_inp b).1.1 = size (sorted_wires (nth [::] inps b)) by rewrite (nth_map [::]) //= wires_posE size_map.
    have E2 : size (nth x0 tf_inp b).1.2 = size (nth [::] inps b) by rewrite (nth_map [::]) //= size_take_pos.
    have Hle : (size (nth x0 tf_inp b).1.1 <= size (nth x0 tf_inp b).1.2)%N by rewrite E1 E2 size_sorted_wires.
    have Hshi : shielded l A (nth x0 tf_inp b).1.1 (nth x0 tf_inp b).1.2 (b %% n)%N by rewrite /shielded E1 E2; exact: Hsh.
    exact: (shifts_ok HS UA HA tA Hx Hle Hshi (Hs b Hb') (Hs' b Hb') (Ags b Hb')). }
  have [|rd1 [rd1' [Q2 [I1 I1' T1] L1 R1 R1']]] := gen_rand_exact serK HS Hl0 HKl UA HA tA Iok Es1 F2 Ec1 Lr2 Zz2 (dl := dl2) (dn := dn2).
  { by move=> i /Hd1 []. }
  have Ec3' : ProtoIdModel.transform_ids (nth [::] cids 3) (N.of_nat (size tf_inp)) = Some c3 by rewrite Tsi.
  have [|rd3 [rd3' [[I3 I3' T3] L3 R3 R3']]] := transform_exact serK HS UA HA tA Iok B2 k2 F1 Ec3' (px := ps) (px' := ps')
    (pr := gr_ml emb n t l tf_inp B2 reps pr2 pz2) (prn := gr_mn emb n t l tf_inp B2 reps pr2 pz2).
  { move=> i Hi. have Hi' : (i < size inps)%N by rewrite -Tsi. have [H1 H2] := L1 i Hi.
    split; [exact: Hs|exact: Hs'|exact: H1|exact: H2|exact: Hd1]. }
  exists (rd1 ++ (rd0 ++ rd2) ++ rd3), (rd1' ++ (rd0' ++ rd2') ++ rd3').
  split=> //.
  - rewrite !ids_cat I0 I1 I2 I3 I0' I1' I2' I3'. split=> //. by do ! apply: twins_cat.
  - rewrite !Tsz !Tsi in R0 R0' R1 R1' R2 R2' R3 R3'. split.
    + by move=> i Hi; apply: L3; rewrite Tsi.
    + exact: (wire_compose Em Ek R0 R1 (R2 (fun me => gk_out (coins me)) Hk1) (R3 (fun me => gk_inp (coins me)) Hk2)).
    + move=> pp' coins' Em' Ek' Hc1 Hc2.
      exact: (wire_compose Em' Ek' R0' R1' (R2' (fun me => gk_out (coins' me)) Hc1) (R3' (fun me => gk_inp (coins' me)) Hc2)).
Qed.
End Twin.

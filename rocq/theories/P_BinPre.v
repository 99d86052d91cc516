(** Property theorem C55: the preprocessing program. *)

From Coq Require Import NArith String List Ascii.
From Verif Require Import CircuitModel CircuitSpec LpnModel LpnSpec.
From mathcomp Require Import all_ssreflect all_algebra zify.
From Verif Require Import MathModel MathProofs MatProofs MatFileModel SharingModel SharingSpec SharingProofs.
From Verif Require Import MachineModel MachineProofs MachineBuild Realize CoreModel CoreSpec CoreProofs.
From Verif Require Import RandTransProofs PreprocModel PreprocSpec PreprocProofs GarbleModel GarbleSpec GarbleRun PipeModel BinModel.
From Verif Require Import GFField GFCodec P_Math P_Sharing P_Core P_Preproc P_Garble P_MatFile P_Phase P_Bin.
From Verif Require ProtoIdModel ProtoIdProofs P_ProtoId IdLength PackWf CircuitEval.
Set Implicit Arguments.
Unset Strict Implicit.
Unset Printing Implicit Defensive.
Import GRing.Theory.
Local Open Scope ring_scope.

(** ** C55: bin/preproc.rs *)

Lemma batch_le x B b : (0 < B)%N -> (x <= B * b < x + B)%N -> (b <= x)%N.
Proof.
  move=> HB /andP [_ H]. case: b H => // b. rewrite mulnS addnC ltn_add2r => H.
  apply: leq_ltn_trans H. by rewrite leq_pmull.
Qed.

Lemma width_le_32 (w : width) n l : (N.of_nat n + N.of_nat l <= 2 ^ w)%num -> (N.of_nat n <= 2 ^ 32)%num.
Proof.
  move=> H. apply: (N.le_trans _ (2 ^ w)%num); first by lia.
  apply: N.pow_le_mono_r => //. by case: (w) => W /= HW; lia.
Qed.

Lemma batches_fit x bR bZ bB e m : (bR <= x.1.1)%N -> (bZ <= x.1.2)%N -> (bB <= x.2)%N -> (e <= x.2)%N ->
  (N.of_nat x.1.1 < 2 ^ 64)%num -> (N.of_nat x.1.2 < 2 ^ 64)%num -> (N.of_nat x.2 < 2 ^ 64)%num ->
  (m <= maxn (maxn bR bZ) (maxn bB e))%N -> len_ok m.
Proof.
  move=> L1 L2 L3 L4 H1 H2 H3 Hm. rewrite /len_ok. move: Hm. rewrite !leq_max => /orP [/orP [A|A]|/orP [A|A]].
  - apply: N.le_lt_trans H1. lia.
  - apply: N.le_lt_trans H2. lia.
  - apply: N.le_lt_trans H3. lia.
  - apply: N.le_lt_trans H3. lia.
Qed.

(** The program is a loop of repetitions of [preproc]. *)
Lemma preproc_loops_in : forall (w : width) (D : eqType) (ser : seq (gf_fieldType w) -> D) de fits (syn : D) text c circ (bs : seq (seq bool)) es C n t l K M d reps
    (r : nat -> nat -> coins (gf_fieldType w)),
  codec_ok ser de fits -> from_bristol_fashion text = Some c -> pack c (N.of_nat l) = Some circ -> describe circ n t l (Lpn K M) = Some d ->
  size bs = n -> size es = n -> ends_ok es -> (0 < C)%N -> all (fun row => size row == C) bs ->
  (0 < l)%N -> (t + l <= n)%N -> (2 * (t + l - 1) <= n - 1)%N -> (N.of_nat n + N.of_nat l <= 2 ^ w)%num ->
  (forall m, (m <= maxn (keys_total d + n_randoms d + 3 * n_errors d) (maxn (n_zeros d + 2 * n_errors d) (n_masks d + 2 * n_errors d)))%N -> fits m) ->
  exists Ms Mb bR bZ bB,
    [/\ super_inv_matrix (gf_of w) n (n - t) = Some Ms,
        forall i j, (i < C)%N -> (j < n)%N -> entry Mb i j = (nth false (nth [::] bs j) i)%:R &
        [/\ size (rows Ms) = (n - t)%N, size (rows Mb) = C,
            (keys_total d + n_randoms d + 3 * n_errors d <= (n - t) * bR < keys_total d + n_randoms d + 3 * n_errors d + (n - t))%N,
            (n_zeros d + 2 * n_errors d <= (n - t) * bZ < n_zeros d + 2 * n_errors d + (n - t))%N &
            (n_masks d + 2 * n_errors d <= C * bB < n_masks d + 2 * n_errors d + C)%N]] /\
  exists pp, (forall q, (q < reps)%N -> preprocessed (gf_of w) n t l Ms Mb d (r q) bR bZ bB (pp q)) /\
    loops_in n (fun x => size x <= 5)%N preproc_bench_id syn reps
      (fun i k => preproc_bin (gf_of w) ser de syn text (matrix_text bs es) i n t l (Lpn K M) reps (fun q => r q i) k) pp.
Proof.
  move=> w D ser de fits syn text c circ bs es C n t l K M d reps r HCd Ht Hp Ed Zb Ze He HC Hrows Hl Htl Hd Hw Hft.
  have Htl' : (0 < t + l <= n)%N by lia.
  have [P [Pn [HS HCx]]] := party_ctxE Htl' Hw.
  have Zbe : size bs = size es by rewrite Zb Ze.
  have Hb0 : bs <> [::] by move=> E; rewrite E /= in Zb; lia.
  have [Mb [EMb N1 N2 N3]] := C52_transpose (gf_fieldType w) Zbe Hb0 He HC Hrows. rewrite Zb in N1 N3.
  have HMbin : binary Mb by exact: C52_only_bits EMb.
  have Hgn : good_nodes (gf_of w) n by apply: C08_field_has_enough_points; apply/ltP; lia.
  have Hnt : (0 < n - t <= n)%N by lia.
  have [Ms [EMs [S1 [S2 _]]]] := C08_super_invertible Hgn Hnt.
  have B0 : (0 < size (rows Ms))%N by lia. have BB0 : (0 < size (rows Mb))%N by lia.
  have [bR [_ LR]] := num_batchesE (keys_total d + n_randoms d + 3 * n_errors d) B0.
  have [bZ [_ LZ]] := num_batchesE (n_zeros d + 2 * n_errors d) B0.
  have [bB [_ LB]] := num_batchesE (n_masks d + 2 * n_errors d) BB0.
  have Hn16 := width_le_32 Hw.
  have Hdeg : (2 * (t + l).-1 <= n.-1)%N by lia.
  have Hfits m : (m <= maxn (maxn bR bZ) (maxn bB (n_errors d)))%N -> fits m.
  { move=> Hm. apply: Hft. apply: leq_trans Hm _. have := batch_le B0 LR. have := batch_le B0 LZ. have := batch_le BB0 LB. lia. }
  exists Ms, Mb, bR, bZ, bB. split; first by split=> //; split=> //; rewrite -?S2 -?N2.
  pose T := (seq ([eqType of seq N] * round D) * (nat -> preproc_data (gf_fieldType w)))%type.
  have [chans [Hids Hu Hsz]] : exists chans, [/\ ProtoIdModel.preproc_ids [::] (N.of_nat n) = Some chans, uniq chans & size chans = (3 + 2 * n)%N].
  { have [rds [pp [chans [[A1 _ A2 A3 _] _]]]] := preproc_rounds [::] (r 0%N) HCd HS Hn16 Hdeg B0 BB0 S1 N1 HMbin (gf_char2 w) LR LZ LB Hfits.
    by exists chans. }
  have [x Hx] : exists x : nat -> T, forall q, (q < reps)%N ->
    [/\ ids (x q).1 = chans, realizes n (x q).1 (fun i k => preproc ser de (Ctx i n t l P Pn) Ms Mb [::] d (r q i) k) (x q).2 &
        preprocessed (gf_of w) n t l Ms Mb d (r q) bR bZ bB (x q).2].
  { apply: (@fin_choice T reps (fun q x =>
    [/\ ids x.1 = chans, realizes n x.1 (fun i k => preproc ser de (Ctx i n t l P Pn) Ms Mb [::] d (r q i) k) x.2 &
        preprocessed (gf_of w) n t l Ms Mb d (r q) bR bZ bB x.2]) ([::], fun _ => PreProc [::] (0, 0, 0)%N [::] [::] [::] [::])).
    move=> q Hq. have [rds [pp [chans' [[A1 A2 _ _ A3] A4]]]] := preproc_rounds [::] (r q) HCd HS Hn16 Hdeg B0 BB0 S1 N1 HMbin (gf_char2 w) LR LZ LB Hfits.
    move: A1. rewrite Hids => -[E]. exists (rds, pp). by rewrite E. }
  have Hshort y : In y chans -> (length y <= 5)%coq_nat.
  { move=> Hy. have B5 : (4 + 2 * N.of_nat n <= 2 ^ (8 * 5))%num.
    { apply: (N.le_trans _ (4 + 2 * 2 ^ 32)%num); [lia|by apply/N.leb_le]. }
    exact: (IdLength.preproc_ids_short _ _ _ _ B5 Hids y Hy). }
  have Hbid : preproc_bench_id \notin chans by exact: (notin_short (m := 5)).
  exists (fun q => (x q).2). split; first by move=> q Hq; have [] := Hx q Hq.
  exists unit, (fun _ _ => Some tt), (fun i q _ k => preproc ser de (Ctx i n t l P Pn) Ms Mb [::] d (r q i) k), (fun _ _ => tt),
    (fun q => (x q).1). split.
  - exact: setting_n HS.
  - by [].
  - move=> q Hq. by have [] := Hx q Hq.
  - move=> q Hq. have [Hi _ _] := Hx q Hq. rewrite Hi. split=> //; first by rewrite -(size_map fst) -/(ids _) Hi Hsz.
    move=> y Hy. apply/leP. by apply: Hshort; exact: In_mem.
  - move=> i k Hi. rewrite /preproc_bin /load_circuit Ht Hp HCx EMb ifT ?EMs ?Ed //; lia.
Qed.

Lemma preproc_loops : forall (w : width) (syn : seq N) text c circ (bs : seq (seq bool)) es C n t l K M d reps
    (r : nat -> nat -> coins (gf_fieldType w)),
  from_bristol_fashion text = Some c -> pack c (N.of_nat l) = Some circ -> describe circ n t l (Lpn K M) = Some d ->
  size bs = n -> size es = n -> ends_ok es -> (0 < C)%N -> all (fun row => size row == C) bs ->
  (0 < l)%N -> (t + l <= n)%N -> (2 * (t + l - 1) <= n - 1)%N -> (N.of_nat n + N.of_nat l <= 2 ^ w)%num ->
  (N.of_nat (keys_total d + n_randoms d + 3 * n_errors d) < 2 ^ 64)%num ->
  (N.of_nat (n_zeros d + 2 * n_errors d) < 2 ^ 64)%num -> (N.of_nat (n_masks d + 2 * n_errors d) < 2 ^ 64)%num ->
  exists Ms Mb bR bZ bB,
    [/\ super_inv_matrix (gf_of w) n (n - t) = Some Ms,
        forall i j, (i < C)%N -> (j < n)%N -> entry Mb i j = (nth false (nth [::] bs j) i)%:R &
        [/\ size (rows Ms) = (n - t)%N, size (rows Mb) = C,
            (keys_total d + n_randoms d + 3 * n_errors d <= (n - t) * bR < keys_total d + n_randoms d + 3 * n_errors d + (n - t))%N,
            (n_zeros d + 2 * n_errors d <= (n - t) * bZ < n_zeros d + 2 * n_errors d + (n - t))%N &
            (n_masks d + 2 * n_errors d <= C * bB < n_masks d + 2 * n_errors d + C)%N]] /\
  exists pp, (forall q, (q < reps)%N -> preprocessed (gf_of w) n t l Ms Mb d (r q) bR bZ bB (pp q)) /\
    loops n preproc_bench_id syn reps
      (fun i k => preproc_bin (gf_of w) (@gser w) (@gde w) syn text (matrix_text bs es) i n t l (Lpn K M) reps (fun q => r q i) k) pp.
Proof.
  move=> w syn text c circ bs es C n t l K M d reps r Ht Hp Ed Zb Ze He HC Hrows Hl Htl Hd Hw HR HZ HB.
  have Hft m : (m <= maxn (keys_total d + n_randoms d + 3 * n_errors d) (maxn (n_zeros d + 2 * n_errors d) (n_masks d + 2 * n_errors d)))%N -> len_ok m.
  { rewrite !leq_max => /orP [|/orP []]; exact: len_ok_upto. }
  have [Ms [Mb [bR [bZ [bB [Hm [pp [Hpp L]]]]]]]] := preproc_loops_in syn reps r (@gserK w) Ht Hp Ed Zb Ze He HC Hrows Hl Htl Hd Hw Hft.
  exists Ms, Mb, bR, bZ, bB. split=> //. exists pp. split=> //. exact: loops_in_loops L.
Qed.

(** From the texts of the circuit file and the matrix file ([n] lines of [C]
    bits) to the end of the last repetition: in every repetition the parties
    obtain the material described for the circuit, made of the polynomials that
    are given by the coins of that repetition and the two matrices. *)
Theorem C55_preproc_program : forall (w : width) (syn : seq N) text c circ (bs : seq (seq bool)) es C n t l K M d reps
    (r : nat -> nat -> coins (gf_fieldType w)),
  from_bristol_fashion text = Some c -> pack c (N.of_nat l) = Some circ -> describe circ n t l (Lpn K M) = Some d ->
  size bs = n -> size es = n -> ends_ok es -> (0 < C)%N -> all (fun row => size row == C) bs ->
  (0 < l)%N -> (t + l <= n)%N -> (2 * (t + l - 1) <= n - 1)%N -> (N.of_nat n + N.of_nat l <= 2 ^ w)%num ->
  (N.of_nat (keys_total d + n_randoms d + 3 * n_errors d) < 2 ^ 64)%num ->
  (N.of_nat (n_zeros d + 2 * n_errors d) < 2 ^ 64)%num -> (N.of_nat (n_masks d + 2 * n_errors d) < 2 ^ 64)%num ->
  exists Ms Mb bR bZ bB,
    [/\ super_inv_matrix (gf_of w) n (n - t) = Some Ms,
        forall i j, (i < C)%N -> (j < n)%N -> entry Mb i j = (nth false (nth [::] bs j) i)%:R &
        [/\ size (rows Ms) = (n - t)%N, size (rows Mb) = C,
            (keys_total d + n_randoms d + 3 * n_errors d <= (n - t) * bR < keys_total d + n_randoms d + 3 * n_errors d + (n - t))%N,
            (n_zeros d + 2 * n_errors d <= (n - t) * bZ < n_zeros d + 2 * n_errors d + (n - t))%N &
            (n_masks d + 2 * n_errors d <= C * bB < n_masks d + 2 * n_errors d + C)%N]] /\
  every_run_ends n
    (start (fun i => preproc_bin (gf_of w) (@gser w) (@gde w) syn text (matrix_text bs es) i n t l (Lpn K M) reps (fun q => r q i)
       (fun ys => Ret (Node [seq pp_val y | y <- ys]))))
    (fun cf => exists pp, all_done n (fun i => Node [seq pp_val (pp q i) | q <- iota 0 reps]) cf /\
      forall q, (q < reps)%N -> preprocessed (gf_of w) n t l Ms Mb d (r q) bR bZ bB (pp q)).
Proof.
  move=> w syn text c circ bs es C n t l K M d reps r Ht Hp Ed Zb Ze He HC Hrows Hl Htl Hd Hw HR HZ HB.
  have [Ms [Mb [bR [bZ [bB [Hm [pp [Hpp L]]]]]]]] := preproc_loops syn reps r Ht Hp Ed Zb Ze He HC Hrows Hl Htl Hd Hw HR HZ HB.
  exists Ms, Mb, bR, bZ, bB. split=> //.
  apply: ends_mono (loops_run (fun ys => Node [seq pp_val y | y <- ys]) L) => cf A. exists pp. split=> //.
  move: A => [A1 A2]. split=> // i Hi. rewrite A1 //. congr (Ret (Node _)). by rewrite -map_comp.
Qed.
Print Assumptions C55_preproc_program.

Example C55_example : exists circ d, let w := w4 in let n := 3%N in let t := 1%N in let l := 1%N in let C := 2%N in
  let bs := [:: [:: true; false]; [:: true; true]; [:: false; true]] in let es := [:: [:: 10]; [:: 13; 10]; [::]]%num in
  [/\ from_bristol_fashion text3 = Some source3, pack source3 (N.of_nat l) = Some circ, describe circ n t l (Lpn 1 2) = Some d,
      [/\ size bs = n, size es = n, ends_ok es, (0 < C)%N & all (fun row => size row == C) bs] &
      [/\ (0 < l)%N, (t + l <= n)%N, (2 * (t + l - 1) <= n - 1)%N & (N.of_nat n + N.of_nat l <= 2 ^ w)%num]] /\
  [/\ (N.of_nat (keys_total d + n_randoms d + 3 * n_errors d) < 2 ^ 64)%num,
      (N.of_nat (n_zeros d + 2 * n_errors d) < 2 ^ 64)%num & (N.of_nat (n_masks d + 2 * n_errors d) < 2 ^ 64)%num].
Proof.
  eexists _, _. split.
  - split; [by vm_compute|by vm_compute|reflexivity|by []|by []].
  - by split; vm_compute.
Qed.

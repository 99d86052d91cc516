(** Property theorem C56: preprocessing and garbling in one run. *)

From Coq Require Import NArith String List Ascii.
From Verif Require Import CircuitModel CircuitSpec LpnModel LpnSpec.
From mathcomp Require Import all_ssreflect all_algebra zify.
From Verif Require Import MathModel MathProofs MatProofs MatFileModel SharingModel SharingSpec SharingProofs.
From Verif Require Import MachineModel MachineProofs MachineBuild Realize CoreModel CoreSpec CoreProofs.
From Verif Require Import RandTransProofs PreprocModel PreprocSpec PreprocProofs GarbleModel GarbleSpec GarbleRun PipeModel BinModel.
From Verif Require Import GFField GFCodec P_Math P_Sharing P_Core P_Preproc P_Garble P_MatFile P_Phase P_Bin P_BinPre.
From Verif Require ProtoIdModel ProtoIdProofs P_ProtoId IdLength PackWf CircuitEval.
Set Implicit Arguments.
Unset Strict Implicit.
Unset Printing Implicit Defensive.
Import GRing.Theory.
Local Open Scope ring_scope.

(** ** C56 *)

Lemma preproc_below id n chans : ProtoIdModel.preproc_ids id n = Some chans -> forall x, x \in chans -> exists s, x = id ++ s.
Proof.
  move=> /ProtoIdProofs.take_ids_spec [_ [_ [H _]]] x Hx. apply: H.
  elim: chans Hx => // a c IH. rewrite inE => /orP [/eqP ->|H]; [by left|right; exact: IH].
Qed.

Lemma garble_below id circ l chans : ProtoIdModel.garble_ids id circ l = Some chans -> forall x, x \in chans -> exists s, x = id ++ s.
Proof.
  move=> /P_ProtoId.C20_garble_ids_distinct [_ H] x Hx.
  have [|s [_ ->]] := H x; last by exists s.
  elim: chans Hx {H} => // a c IH. rewrite inE => /orP [/eqP ->|H]; [by left|right; exact: IH].
Qed.

(** [preproc] on one root id followed by [garble] on the material obtained, on
    another root id, neither root being a prefix of the other.  A party may
    start to garble while others are still preprocessing; all schedules are
    finite, nobody panics, and the parties end up with sharings of tables that
    are garbled with masks, keys and errors which the coins of the
    preprocessing determine. *)
Theorem C56_preproc_then_garble : forall (F : fieldType) (emb : nat -> F) (D : eqType) ser de fits n t l P Pn circ K M
    (H : eqType) (sha : seq N -> H) h0 draws hash (Ms Mb : mat F) (id1 id2 : seq N) d chans (r : nat -> coins F) bR bZ bB,
  @garble_setting F emb D ser de fits n t l P Pn circ K M -> describe circ n t l (Lpn K M) = Some d ->
  (0 < size (rows Ms))%N -> (0 < size (rows Mb))%N -> ncols Ms = n -> ncols Mb = n -> binary Mb ->
  let e := n_errors d in
  let B := size (rows Ms) in let BB := size (rows Mb) in
  (keys_total d + n_randoms d + 3 * e <= B * bR < keys_total d + n_randoms d + 3 * e + B)%N ->
  (n_zeros d + 2 * e <= B * bZ < n_zeros d + 2 * e + B)%N ->
  (n_masks d + 2 * e <= BB * bB < n_masks d + 2 * e + BB)%N ->
  (forall m, (m <= maxn (maxn bR bZ) (maxn bB e))%N -> fits m) ->
  ProtoIdModel.garble_ids id2 circ (N.of_nat l) = Some chans -> (forall u v, id1 ++ u <> id2 ++ v) ->
  exists g, (forall i, (i < n)%N -> gctx_new emb sha h0 draws circ (Ctx i n t l P Pn) (Lpn K M) = Some (g i)) /\
  forall coins, every_run_ends n
    (start (fun i => preproc ser de (Ctx i n t l P Pn) Ms Mb id1 d (r i) (fun pp =>
       garble emb ser de hash (g i) id2 pp (coins i) (fun y => Ret (garble_val y)))))
    (fun c => exists pp mk ks rs es tabs,
      [/\ all_done n (fun i => garble_val ([seq tabs gid i | gid <- iota 0 (size (p_gates circ))],
             Queues (drop (n_randoms d) (pp_randoms (pp i))) (drop (n_zeros d) (pp_zeros (pp i))) [::])) c,
          preprocessed_as emb n t l Ms Mb d r bR bZ bB pp mk ks rs es &
          garbled emb sha draws circ n t l K M mk ks es tabs]).
Proof.
  move=> F emb D ser de fits n t l P Pn circ K M H sha h0 draws hash Ms Mb id1 id2 d chans r bR bZ bB.
  move=> HG Ed B0 BB0 HM HMb Hbin e B BB LR LZ LB Hf Hids Hroots.
  have [[serK HS F2 Hwf Hinj] [Hl0 /andP [HKl Hn16] Hdeg Hu Hfg]] := HG.
  have Hn := setting_n HS. 
  have Hn32 : (N.of_nat n <= 2 ^ 32)%num by clear -Hn16; lia.
  have Hdeg' : (2 * (t + l).-1 <= n.-1)%N by clear -Hdeg; lia.
  have [rds1 [pp [chans1 [[I1 I2 I3 I4 R1] [mk [ks [rs [es Hpp]]]]]]]] :=
    preproc_rounds id1 r serK HS Hn32 Hdeg' B0 BB0 HM HMb Hbin F2 LR LZ LB Hf.
  have Hmat : material emb n t l d pp mk ks rs es by move: Hpp => [? [? [? [? [? [? [_ _ _ _ []]]]]]]].
  have [g [Hg R]] := garble_rounds sha h0 draws hash HG Ed Hmat Hids.
  exists g. split=> // coins. have [rds2 [tabs [U R2 T]]] := R coins.
  have RR := @realizes_seq n [eqType of seq N] D (val F) _ _ rds1 rds2
    (fun i k => preproc ser de (Ctx i n t l P Pn) Ms Mb id1 d (r i) k) pp
    (fun i pp k => garble emb ser de hash (g i) id2 pp (coins i) k) _ R1 R2.
  apply: ends_mono (realizes_runs Hn (ser [::]) (@garble_val F) _ RR) => [c Hc|].
  - by exists pp, mk, ks, rs, es, tabs.
  - rewrite /ids map_cat cat_uniq -!/(ids _) I2 I3 (perm_uniq U) /=. apply/andP; split.
    + apply/hasPn => x. rewrite (perm_mem U) => Hx. apply/negP => Hx'.
      have [s1 E1] := preproc_below I1 Hx'. have [s2 E2] := garble_below Hids Hx.
      apply: (Hroots s1 s2). by rewrite -E1 -E2.
    + apply: NoDup_uniq. exact: (P_ProtoId.C20_garble_ids_distinct _ _ _ _ Hids).1.
Qed.
Print Assumptions C56_preproc_then_garble.

Example C56_example : exists P Pn (Ms Mb : mat (gf_fieldType w4)) d chans bR bZ bB,
  let e := n_errors d in let B := size (rows Ms) in let BB := size (rows Mb) in
  [/\ garble_setting g4 (@gser w4) (@gde w4) len_ok 3 1 1 P Pn circ3 1 2, describe circ3 3 1 1 (Lpn 1 2) = Some d,
      super_inv_matrix g4 3 2 = Some Ms,
      [/\ (0 < B)%N, (0 < BB)%N, ncols Ms = 3%N, ncols Mb = 3%N & binary Mb] &
      ProtoIdModel.garble_ids [:: 7]%num circ3 (N.of_nat 1) = Some chans /\ forall u v : seq N, [:: 5%num] ++ u <> [:: 7%num] ++ v] /\
  [/\ (keys_total d + n_randoms d + 3 * e <= B * bR < keys_total d + n_randoms d + 3 * e + B)%N,
      (n_zeros d + 2 * e <= B * bZ < n_zeros d + 2 * e + B)%N, (n_masks d + 2 * e <= BB * bB < n_masks d + 2 * e + BB)%N &
      forall m, (m <= maxn (maxn bR bZ) (maxn bB e))%N -> len_ok m].
Proof.
  have [P [Pn HS]] := setting4. have [Mb [BB0 H2 H3 _]] := C34_bits_example.
  have [Ms [EMs [S1 [S2 _]]]] : exists Ms, super_inv_matrix g4 3 2 = Some Ms /\ ncols Ms = 3%N /\ size (rows Ms) = 2%N /\ True.
  { by eexists. }
  have B0 : (0 < size (rows Ms))%N by rewrite S2.
  have [d Ed] : exists d, describe circ3 3 1 1 (Lpn 1 2) = Some d by eexists; vm_compute; reflexivity.
  have [bR [_ LR]] := num_batchesE (keys_total d + n_randoms d + 3 * n_errors d) B0.
  have [bZ [_ LZ]] := num_batchesE (n_zeros d + 2 * n_errors d) B0.
  have [bB [_ LB]] := num_batchesE (n_masks d + 2 * n_errors d) BB0.
  exists P, Pn, Ms, Mb, d. eexists. exists bR, bZ, bB. split.
  - split; [exact: setting_16|exact: Ed|exact: EMs|by split|by split; [vm_compute; reflexivity|]].
  - split=> // m. 
    have Hd : [/\ (keys_total d + n_randoms d + 3 * n_errors d <= 999)%N, (n_zeros d + 2 * n_errors d <= 999)%N & (n_masks d + 2 * n_errors d <= 999)%N].
    { by case: Ed => <-. }
    have X k : (k <= 999)%N -> (N.of_nat k < 2 ^ 64)%num.
    { move=> Hk. apply: (N.lt_le_trans _ 1000); [clear -Hk; lia|by apply/N.leb_le]. }
    have [D1 D2 D3] := Hd.
    apply: (@batches_fit (_, _, _) bR bZ bB _ m (batch_le B0 LR) (batch_le B0 LZ) (batch_le BB0 LB) _ (X _ D1) (X _ D2) (X _ D3)).
    apply: leq_trans (leq_addl _ _). by rewrite leq_pmull.
Qed.

(** Property theorems C37, C40-C45 and C48: garbling. *)

From Coq Require Import NArith List.
From Verif Require Import CircuitModel LpnModel LpnSpec.
From mathcomp Require Import all_ssreflect all_algebra zify.
From Verif Require Import MathModel MathProofs MatProofs SharingModel SharingSpec SharingProofs.
From Verif Require Import MachineModel MachineProofs MachineBuild Realize CoreModel CoreSpec CoreProofs.
From Verif Require Import RandTransProofs PreprocModel PreprocSpec PreprocProofs GarbleModel GarbleSpec GarbleGates GarbleTf GarbleWires GarbleRun.
From Verif Require Import GFField GFCodec P_Math P_Sharing P_Core P_Preproc.
From Verif Require ProtoIdModel ProtoIdProofs P_ProtoId.
Set Implicit Arguments.
Unset Strict Implicit.
Unset Printing Implicit Defensive.
Import GRing.Theory.
Local Open Scope ring_scope.

(** What a party ends with: the tables and what is left of the queues. *)
Definition garble_val (F : fieldType) (y : seq (seq (seq F)) * queues F) : val F :=
  Node [:: Leaf [:: q_randoms y.2; q_zeros y.2; q_errors y.2]; Node [seq Leaf tb | tb <- y.1]].

(** The matrix of a gate block: the numbers drawn from the hash of its nonce, in
    the order row, equation, key symbol, slot. *)
Definition public_matrix (F : fieldType) (H : eqType) (sha : seq N -> H) (draws : H -> nat -> F) (circ : pcircuit) (l K M : nat)
    (gid r m k q : nat) : F :=
  draws (sha (nonce_bytes (p_gates circ) l gid)) (((r * M + m) * K + k) * l + q)%N.

(** The tables as the code makes them of the secrets of the preprocessing. *)
Definition garbled (F : fieldType) (emb : nat -> F) (H : eqType) (sha : seq N -> H) (draws : H -> nat -> F) (circ : pcircuit)
    (n t l K M : nat) (mk ks es : nat -> seq F) (tabs : nat -> nat -> seq (seq F)) : Prop :=
  tables_shared emb circ K n t l M (public_matrix sha draws circ l K M) (rs_code emb) (wire_mask circ mk)
    (inp_label circ K ks) (out_label circ K ks) (error_of circ es M) (plaintext K) (@buf_number F) tabs.

(** ** C48 *)

Lemma garble_rounds (F : fieldType) (emb : nat -> F) (D : eqType) ser de fits n t l P Pn circ K M
    (H : eqType) (sha : seq N -> H) h0 draws hash d id chans (pp : nat -> preproc_data F) mk ks rs es :
  @garble_setting F emb D ser de fits n t l P Pn circ K M ->
  describe circ n t l (Lpn K M) = Some d -> material emb n t l d pp mk ks rs es ->
  ProtoIdModel.garble_ids id circ (N.of_nat l) = Some chans ->
  exists g, (forall i, (i < n)%N -> gctx_new emb sha h0 draws circ (Ctx i n t l P Pn) (Lpn K M) = Some (g i)) /\
  forall coins, exists rds tabs, [/\ perm_eq (ids rds) chans,
    realizes n rds (fun i k => garble emb ser de hash (g i) id (pp i) (coins i) k)
      (fun i => ([seq tabs gid i | gid <- iota 0 (size (p_gates circ))],
         Queues (drop (n_randoms d) (pp_randoms (pp i))) (drop (n_zeros d) (pp_zeros (pp i))) [::])) &
    garbled emb sha draws circ n t l K M mk ks es tabs].
Proof.
  move=> [[serK HS F2 Hwf Hinj] [Hl0 /andP [HKl Hn16] Hdeg Hu Hf]] Hd [[Sm _] [Sk Es] [nr [Hnr Sr]] [nz [Hnz Sz]] Se] Hids.
  have Hn := setting_n HS.
  have HKl' : (t + l + l <= n)%N by lia. have Hdeg' : (2 * (t + l).-1 <= n.-1)%N by lia.
  have [B1 [B2 [HB1 HB2 _ _ _]]] := describeE Hd.
  have [g [enc [Eenc Hg]]] := gctx_newE HS Hl0 HKl' Hwf Hinj sha h0 draws K M HB1 HB2.
  have Hg' me : (me < n)%N -> gctx_new emb sha h0 draws circ (Ctx me n t l P Pn) (Lpn K M) = Some (g me).
  { move=> Hm. by have [] := Hg me Hm. }
  exists g. split=> // coins.
  have [rds [tabs [U [R [T _]]]]] := garble_realizes serK HS Hl0 HKl' Hdeg' Hn16 F2 Hwf Hinj hash Hd Hg' Eenc Hf Sm Sk Es Hnr Hnz Sr Sz Se coins Hids.
  exists rds, tabs. split=> // gid Hgid x. have := T gid Hgid. rewrite -/x mul2n -addnn addnA.
  set dd := (t + l + l - 2)%N. set po := take _ _ => T1.
  have [G [EG [_ [SG HG]]]] := C09_reed_solomon_matrix emb M (isT : (0 < K.+1)%N).
  have EE : enc = G by move: Eenc; rewrite addn1 EG => -[].
  rewrite -[po](take_size). apply: (table_shared_take (leqnn _)) T1 => r m q Hr Hm Hq.
  rewrite /the_entry /table_entry. apply: encrypted_ext => // c Hc. by rewrite EE HG.
Qed.

Lemma garble_ends (F : fieldType) (emb : nat -> F) (D : eqType) ser de fits n t l P Pn circ K M
    (H : eqType) (sha : seq N -> H) h0 draws hash d id chans (pp : nat -> preproc_data F) mk ks rs es :
  @garble_setting F emb D ser de fits n t l P Pn circ K M ->
  describe circ n t l (Lpn K M) = Some d -> material emb n t l d pp mk ks rs es ->
  ProtoIdModel.garble_ids id circ (N.of_nat l) = Some chans ->
  exists g, (forall i, (i < n)%N -> gctx_new emb sha h0 draws circ (Ctx i n t l P Pn) (Lpn K M) = Some (g i)) /\
  forall coins, exists tabs,
    every_run_ends n (start (fun i => garble emb ser de hash (g i) id (pp i) (coins i) (fun y => Ret (garble_val y))))
      (all_done n (fun i => garble_val ([seq tabs gid i | gid <- iota 0 (size (p_gates circ))],
         Queues (drop (n_randoms d) (pp_randoms (pp i))) (drop (n_zeros d) (pp_zeros (pp i))) [::]))) /\
    garbled emb sha draws circ n t l K M mk ks es tabs.
Proof.
  move=> HS Hd Hm Hids. have [g [Hg R]] := garble_rounds sha h0 draws hash HS Hd Hm Hids.
  have Hn : (0 < n)%N by case: HS => [[_ HS _ _ _] _]; exact: setting_n HS.
  exists g. split=> // coins. have [rds [tabs [U RR T]]] := R coins. exists tabs. split=> //.
  apply: (realizes_runs Hn (ser [::]) (@garble_val F) _ RR). rewrite (perm_uniq U).
  apply: NoDup_uniq. exact: (P_ProtoId.C20_garble_ids_distinct _ _ _ _ Hids).1.
Qed.

(** For every well-formed packed circuit, with material as described, [garble]
    can be set up at every party, all its schedules are finite, nobody panics,
    and in the end the parties hold sharings of the tables [garbled]. *)
Theorem C48_garble : forall (F : fieldType) (emb : nat -> F) (D : eqType) ser de fits n t l P Pn circ K M
    (H : eqType) (sha : seq N -> H) h0 draws hash d id chans (pp : nat -> preproc_data F) mk ks rs es,
  @garble_setting F emb D ser de fits n t l P Pn circ K M ->
  describe circ n t l (Lpn K M) = Some d -> material emb n t l d pp mk ks rs es ->
  ProtoIdModel.garble_ids id circ (N.of_nat l) = Some chans ->
  exists g, (forall i, (i < n)%N -> gctx_new emb sha h0 draws circ (Ctx i n t l P Pn) (Lpn K M) = Some (g i)) /\
  forall coins,
    every_run_ends n (start (fun i => garble emb ser de hash (g i) id (pp i) (coins i) (fun y => Ret (garble_val y))))
      (fun c => exists tabs rest,
        all_done n (fun i => garble_val ([seq tabs gid i | gid <- iota 0 (size (p_gates circ))], rest i)) c /\
        garbled emb sha draws circ n t l K M mk ks es tabs).
Proof.
  move=> F emb D ser de fits n t l P Pn circ K M H sha h0 draws hash d id chans pp mk ks rs es HS Hd Hm Hids.
  have [g [Hg R]] := garble_ends sha h0 draws hash HS Hd Hm Hids. exists g. split=> // coins.
  have [tabs [E T]] := R coins. apply: ends_mono E => c A. exists tabs. eexists. by split; first exact: A.
Qed.
Print Assumptions C48_garble.

(** ** C37 *)

(** With exactly the described numbers of sharings all queues are empty at the
    end; none was drained past its end, as no party panics. *)
Theorem C37_described_is_consumed : forall (F : fieldType) (emb : nat -> F) (D : eqType) ser de fits n t l P Pn circ K M
    (H : eqType) (sha : seq N -> H) h0 draws hash d id chans (pp : nat -> preproc_data F) mk ks rs es,
  @garble_setting F emb D ser de fits n t l P Pn circ K M ->
  describe circ n t l (Lpn K M) = Some d -> material emb n t l d pp mk ks rs es ->
  (forall i, (i < n)%N -> size (pp_randoms (pp i)) = n_randoms d /\ size (pp_zeros (pp i)) = n_zeros d) ->
  ProtoIdModel.garble_ids id circ (N.of_nat l) = Some chans ->
  exists g, (forall i, (i < n)%N -> gctx_new emb sha h0 draws circ (Ctx i n t l P Pn) (Lpn K M) = Some (g i)) /\
  forall coins,
    every_run_ends n (start (fun i => garble emb ser de hash (g i) id (pp i) (coins i) (fun y => Ret (garble_val y))))
      (fun c => exists tabs, all_done n (fun i => garble_val (tabs i, Queues [::] [::] [::])) c).
Proof.
  move=> F emb D ser de fits n t l P Pn circ K M H sha h0 draws hash d id chans pp mk ks rs es HS Hd Hm Hz Hids.
  have [g [Hg R]] := garble_ends sha h0 draws hash HS Hd Hm Hids. exists g. split=> // coins.
  have [tabs [E T]] := R coins. apply: ends_mono E => c A.
  exists (fun i => [seq tabs gid i | gid <- iota 0 (size (p_gates circ))]).
  move: A. rewrite /all_done. move=> [A1 A2]. split=> // i Hi. rewrite A1 //.
  have [Z1 Z2] := Hz i Hi. by rewrite -Z1 -Z2 !drop_size.
Qed.
Print Assumptions C37_described_is_consumed.

(** *** An instance *)

(** Sharings of any secrets exist. *)
Lemma sharings_exist (F : fieldType) (emb : nat -> F) n dd pos num (sec : nat -> seq F) :
  good_pos emb n pos -> (size pos <= dd.+1)%N -> (forall j, size (sec j) = size pos) ->
  exists v, sharings emb n dd pos num v sec.
Proof.
  move=> U Hs Hz. have Up : uniq pos by move: U; rewrite /good_pos cat_uniq => /andP [].
  have [p Hp] : exists p : nat -> {poly F}, forall j, (j < num)%N -> (size (p j) <= dd.+1)%N /\ evals (p j) pos = sec j.
  { apply: (@fin_choice {poly F} num (fun j p => (size p <= dd.+1)%N /\ evals p pos = sec j) 0) => j Hj.
    have [p H1 H2] := interp_exists Up (Hz j). exists p. split=> //. exact: leq_trans Hs. }
  exists (fun i => [seq (p j).[emb i] | j <- iota 0 num]).
  apply: sharings_ext (@sharings_poly F emb n dd pos num p _) => // j Hj; by have [] := Hp j Hj.
Qed.

(** Material exists for any secrets. *)
Lemma material_exists (F : fieldType) (emb : nat -> F) n t l P Pn d (mk ks rs es : nat -> seq F) :
  setting emb n t l P Pn -> (forall j, size (mk j) = l) -> (forall j, bits (mk j)) -> (forall j, size (ks j) = l) ->
  (forall j, size (rs j) = l) -> (forall j, size (es j) = l) ->
  exists pp, material emb n t l d pp mk ks rs es /\
    forall i, (i < n)%N -> size (pp_randoms (pp i)) = n_randoms d /\ size (pp_zeros (pp i)) = n_zeros d.
Proof.
  move=> HS Zm Hb Zk Zr Ze. have Hn := setting_n HS. have /andP [_ Htn] := tl_le Hn HS. have [Ht _ _ U] := HS.
  have Zp : size (default_pos emb n l) = l by rewrite size_default.
  have L1 : (size (default_pos emb n l) <= (t + l).-1.+1)%N by rewrite Zp; lia.
  have L2 : (size (default_pos emb n l) <= n.-1.+1)%N by rewrite Zp; lia.
  have [v1 S1] := sharings_exist (n_masks d) U L1 (fun j => etrans (Zm j) (esym Zp)).
  have [v2 S2] := sharings_exist (keys_total d) U L1 (fun j => etrans (Zk j) (esym Zp)).
  have [v3 S3] := sharings_exist (n_randoms d) U L1 (fun j => etrans (Zr j) (esym Zp)).
  have [v4 S4] := @sharings_exist _ _ _ _ _ (n_zeros d) (fun _ => nseq l 0) U L2 (fun j => etrans (size_nseq l 0) (esym Zp)).
  have [v5 S5] := sharings_exist (n_errors d) U L1 (fun j => etrans (Ze j) (esym Zp)).
  exists (fun i => PreProc (v1 i) (n_keys d) (v2 i) (v3 i) (v4 i) (v5 i)).
  split; last by move=> i Hi /=; rewrite S3.1 // S4.1.
  split=> //; [by exists (n_randoms d)|by exists (n_zeros d)].
Qed.

(** Three parties, one slot, GF(16); x2 = x0 and x1, x3 = x2 xor x0, x4 = not x3. *)
Definition circ3 : pcircuit :=
  PCircuit [:: PAnd [:: 0] [:: 1] [:: 2]; PXor [:: 2] [:: 0] [:: 3]; PInv [:: 3] [:: 4]]%num
    [:: [:: 0]; [:: 1]]%num [:: [:: 4]]%num 5 1.
(** An inverter after another. *)
Definition circ2 : pcircuit :=
  PCircuit [:: PInv [:: 0] [:: 1]; PInv [:: 1] [:: 2]]%num [:: [:: 0]]%num [:: [:: 2]]%num 3 1.

Lemma setting_16 circ K M : wf_packed circ 1 -> (p_num_wires circ <= 12)%num -> (M <= 15)%N ->
  forall P Pn, setting g4 3 1 1 P Pn -> (K <= 1)%N ->
  garble_setting g4 (@gser w4) (@gde w4) len_ok 3 1 1 P Pn circ K M.
Proof.
  move=> Hwf Hw HM P Pn HS HK. split; split=> //.
  - exact: gserK.
  - exact: gf_char2.
  - rewrite /distinct_positions. have -> : (3 + 1 + N.to_nat (p_num_wires circ) = (3 + N.to_nat (p_num_wires circ)).+1)%N by lia.
    apply: (C08_field_has_enough_points (w := w4) _).1.
    have : (N.to_nat (p_num_wires circ) <= 12)%N by lia. change (N.to_nat (2 ^ w4)%num) with 16%N. lia.
  - apply: (C08_field_has_enough_points (w := w4) _).1. change (N.to_nat (2 ^ w4)%num) with 16%N. lia.
  - move=> m Hm. rewrite /len_ok. apply: (N.lt_le_trans _ 8); [lia|]. by apply/N.leb_le.
Qed.

Example C48_example : exists P Pn pp d chans,
  let mk j := [:: if odd j then 1 else 0] in let ks j := [:: g4 j] in let es j := [:: g4 (j %% 3)] in
  [/\ garble_setting g4 (@gser w4) (@gde w4) len_ok 3 1 1 P Pn circ3 1 2, describe circ3 3 1 1 (Lpn 1 2) = Some d,
      material g4 3 1 1 d pp mk ks (fun _ => [:: 1]) es,
      forall i, (i < 3)%N -> size (pp_randoms (pp i)) = n_randoms d /\ size (pp_zeros (pp i)) = n_zeros d &
      ProtoIdModel.garble_ids [:: 7]%num circ3 (N.of_nat 1) = Some chans /\ size chans = 24%N].
Proof.
  have [P [Pn HS]] := setting4. have [d Hd] : exists d, describe circ3 3 1 1 (Lpn 1 2) = Some d by eexists; vm_compute; reflexivity.
  have [pp [Hm Hz]] := @material_exists _ g4 3 1 1 P Pn d (fun j => [:: if odd j then 1 else 0]) (fun j => [:: g4 j])
     (fun _ => [:: 1]) (fun j => [:: g4 (j %% 3)]) HS (fun _ => erefl)
     (fun j y H => match odd j as b return y \in [:: if b then 1 else 0] -> y = 0 \/ y = 1 with
                   | true => fun H => or_intror (eqP (eq_trans (esym (mem_seq1 y 1)) H))
                   | false => fun H => or_introl (eqP (eq_trans (esym (mem_seq1 y 0)) H)) end H)
     (fun _ => erefl) (fun _ => erefl) (fun _ => erefl).
  exists P, Pn, pp, d. eexists. split=> //; first exact: setting_16.
Qed.

(** ** C42 *)

Section Bits.
Variable F : fieldType.
Hypothesis F2 : 1 + 1 = 0 :> F.
Lemma bool_add (a b : bool) : a%:R + b%:R = (a (+) b)%:R :> F.
Proof. by case: a; case: b; rewrite /= ?addr0 ?add0r. Qed.
Lemma bool_mul (a b : bool) : a%:R * b%:R = (a && b)%:R :> F.
Proof. by case: a; case: b; rewrite /= ?mulr0 ?mul0r ?mulr1. Qed.
Lemma choose_bool (x y : F) (b : bool) : choose x y b%:R = if b then y else x.
Proof. by case: b; rewrite /choose ?mul1r ?mul0r ?addr0 // addrC subrK. Qed.
Lemma plaintext_bool K (lab : nat -> nat -> F) (mask v : bool) c :
  plaintext K lab mask%:R v%:R c = if (c < K)%N then lab v c else (v (+) mask)%:R.
Proof.
  rewrite /plaintext !choose_bool. case: ifP => _; first by case: v.
  by case: v; case: mask; rewrite /= ?add0r ?F2.
Qed.
Lemma row_bit r : (r < 4)%N -> (r %/ 2 = (1 < r))%N /\ (r %% 2 = odd r)%N.
Proof. by move: r => [|[|[|[|]]]]. Qed.
End Bits.

(** The masks of the wires of a circuit are bits. *)
Lemma mask_bits (F : fieldType) (emb : nat -> F) n t l circ K M d pp mk ks rs es w :
  describe circ n t l (Lpn K M) = Some d -> material emb n t l d pp mk ks rs es ->
  w \in flatten (out_blocks circ) -> wire_mask circ mk w = (wire_mask circ mk w != 0)%:R.
Proof.
  move=> Hd [[_ Hb] _ _ _ _] Hw. have [B1 [B2 [_ _ Em _ _]]] := describeE Hd.
  have Hw' : (block_of circ w < n_masks d)%N.
  { rewrite Em /block_of -has_find. move/flattenP: Hw => [b Hb1 Hb2]. by apply/hasP; exists b. }
  rewrite /wire_mask. have B := Hb _ Hw'. set s := slot_of _ _.
  case: (ltnP s (size (mk (block_of circ w)))) => Hs; last by rewrite nth_default // eqxx.
  by have [->|->] := B _ (mem_nth 0 Hs); rewrite ?eqxx ?oner_eq0.
Qed.

Lemma gate_wires (circ : pcircuit) l gid q (b : seq N) : wf_packed circ l -> (gid < size (p_gates circ))%N ->
  let x := nth g0 (p_gates circ) gid in
  b \in gate_out x :: gate_inps x -> (q < size (gate_out x))%N -> nth 0%num b q \in flatten (out_blocks circ).
Proof.
  move=> /and4P [_ _ _ /(all_nthP g0) H] Hg x. rewrite inE => /orP [/eqP ->|Hb] Hq.
  - apply/flattenP. exists (gate_out x); last exact: mem_nth.
    rewrite /out_blocks mem_cat. apply/orP; right. apply/(nthP [::]). exists gid; rewrite ?size_map // (nth_map g0) //.
  - have /allP /(_ b Hb) /andP [/eqP Sb /allP] := H gid Hg. apply. by apply: mem_nth; rewrite Sb.
Qed.

(** Row [r] of an AND or XOR table, in Boolean terms: rows stand for the masked
    bits (0,0), (0,1), (1,0), (1,1) of the two inputs. *)
Definition bool_row (F : fieldType) (circ : pcircuit) K (A E : nat -> F) (mk ks : nat -> seq F) (err : F)
    (op : bool -> bool -> bool) (a b o : N) (r : nat) : F :=
  let bit w := wire_mask circ mk w != 0 in
  let i := (1 < r)%N in let j := odd r in
  let v := op (i (+) bit a) (j (+) bit b) in
  encrypted K A (fun k => inp_label circ K ks a i k + inp_label circ K ks b j k)
    E (fun c => if (c < K)%N then out_label circ K ks o (v (+) bit o) c else v%:R) err.

(** Behind row (i,j) of the table of an AND (XOR) gate is the label of the
    output wire for the masked bit of the conjunction (exclusive or) of the two
    unmasked bits, encrypted under the sum of labels i and j of the inputs; the
    symbol after the label is the unmasked bit itself (see C44). *)
Theorem C42_and_xor_rows : forall (F : fieldType) (emb : nat -> F) (D : eqType) ser de fits n t l P Pn circ K M
    (H : eqType) (sha : seq N -> H) h0 draws hash d id chans (pp : nat -> preproc_data F) mk ks rs es,
  @garble_setting F emb D ser de fits n t l P Pn circ K M ->
  describe circ n t l (Lpn K M) = Some d -> material emb n t l d pp mk ks rs es ->
  ProtoIdModel.garble_ids id circ (N.of_nat l) = Some chans ->
  exists g, (forall i, (i < n)%N -> gctx_new emb sha h0 draws circ (Ctx i n t l P Pn) (Lpn K M) = Some (g i)) /\
  forall coins,
    every_run_ends n (start (fun i => garble emb ser de hash (g i) id (pp i) (coins i) (fun y => Ret (garble_val y))))
      (fun c => exists tabs rest,
        all_done n (fun i => garble_val ([seq tabs gid i | gid <- iota 0 (size (p_gates circ))], rest i)) c /\
        forall gid a b o op, (gid < size (p_gates circ))%N ->
          (nth (PInv [::] [::]) (p_gates circ) gid, op) = (PAnd a b o, andb) \/
          (nth (PInv [::] [::]) (p_gates circ) gid, op) = (PXor a b o, addb) ->
          table_shared emb n (t + 2 * l - 2) (take (size o) (default_pos emb n l)) 4 M (tabs gid)
            (fun r m q => bool_row circ K (fun k => public_matrix sha draws circ l K M gid r m k q) (rs_code emb m) mk ks
               (error_of circ es M gid r m q) op (nth 0%num a q) (nth 0%num b q) (nth 0%num o q) r)).
Proof.
  move=> F emb D ser de fits n t l P Pn circ K M H sha h0 draws hash d id chans pp mk ks rs es HS Hd Hm Hids.
  have [g [Hg R]] := garble_ends sha h0 draws hash HS Hd Hm Hids. exists g. split=> // coins.
  have [tabs [E T]] := R coins. apply: ends_mono E => c A. exists tabs. eexists. split; first exact: A.
  have [[serK HSS F2 Hwf Hinj] [Hl0 _ _ _ _]] := HS. move=> gid a b o op Hgid X.
  have := T gid Hgid. cbv zeta. have W := @gate_wires circ l gid _ _ Hwf Hgid.
  have HB w := @mask_bits F emb n t l circ K M d pp mk ks rs es w Hd Hm.
  have Hl x : x = nth g0 (p_gates circ) gid -> (size (gate_out x) <= size (default_pos emb n l))%N.
  { move=> ->. rewrite size_default. move: Hwf => /and4P [/allP Hw _ _ _]. apply: Hw.
    rewrite /out_blocks mem_cat. apply/orP; right. apply/(nthP [::]). exists gid; rewrite ?size_map // (nth_map g0) //. }
  case: X => -[Ex ->]; rewrite Ex in W; have /(_ _ (esym Ex)) := Hl; rewrite Ex [gate_out _]/=;
    set po := take _ _ => Ho T1; have Zpo : size po = size o by [rewrite size_takel];
    rewrite -[po]take_size; apply: (table_shared_take (leqnn _)) T1 => r m q Hr _ Hq;
    rewrite /table_entry /bool_row; rewrite Zpo in Hq; have [R1 R2] := row_bit Hr;
    (apply: encrypted_ext => // [k _|c' _]; first by rewrite /row_key R1 R2);
    (have Wa : nth 0%num a q \in flatten (out_blocks circ) by apply: W; rewrite ?inE ?eqxx ?orbT);
    (have Wb : nth 0%num b q \in flatten (out_blocks circ) by apply: W; rewrite ?inE ?eqxx ?orbT);
    (have Wo : nth 0%num o q \in flatten (out_blocks circ) by apply: W; rewrite ?inE ?eqxx ?orbT);
    rewrite /row_msg R1 R2; cbv beta zeta; move: (HB _ Wa) (HB _ Wb) (HB _ Wo);
    move: (wire_mask _ _ (nth _ a q) != 0) (wire_mask _ _ (nth _ b q) != 0) (wire_mask _ _ (nth _ o q) != 0) => ba bb bo -> -> ->.
  - rewrite /and_number !bool_add // bool_mul bool_add // plaintext_bool //. have X u : (u (+) bo) (+) bo = u by case: u; case: bo. by rewrite X.
  - rewrite /xor_number !bool_add // plaintext_bool //. have X u : (u (+) bo) (+) bo = u by case: u; case: bo. by rewrite X.
Qed.
Print Assumptions C42_and_xor_rows.

(** The instance of C48_example has an AND and an XOR gate, and masks 0 and 1. *)
Example C42_example :
  nth (PInv [::] [::]) (p_gates circ3) 0 = PAnd [:: 0%num] [:: 1%num] [:: 2%num] /\
  nth (PInv [::] [::]) (p_gates circ3) 1 = PXor [:: 2%num] [:: 0%num] [:: 3%num] /\
  [seq wire_mask circ3 (fun j => [:: if odd j then 1 else 0 : gf w4]) w != 0 | w <- [:: 0; 1; 2; 3]%num] =
    [:: false; true; false; true].
Proof. by vm_compute. Qed.

(** ** C43 *)

(** Row [r] of an INV table is that of a wire: behind the masked bit [r] is the
    label for the same unmasked bit. *)
Theorem C43_inv_rows_are_buffers : forall (F : fieldType) (emb : nat -> F) (D : eqType) ser de fits n t l P Pn circ K M
    (H : eqType) (sha : seq N -> H) h0 draws hash d id chans (pp : nat -> preproc_data F) mk ks rs es,
  @garble_setting F emb D ser de fits n t l P Pn circ K M ->
  describe circ n t l (Lpn K M) = Some d -> material emb n t l d pp mk ks rs es ->
  ProtoIdModel.garble_ids id circ (N.of_nat l) = Some chans ->
  exists g, (forall i, (i < n)%N -> gctx_new emb sha h0 draws circ (Ctx i n t l P Pn) (Lpn K M) = Some (g i)) /\
  forall coins,
    every_run_ends n (start (fun i => garble emb ser de hash (g i) id (pp i) (coins i) (fun y => Ret (garble_val y))))
      (fun c => exists tabs rest,
        all_done n (fun i => garble_val ([seq tabs gid i | gid <- iota 0 (size (p_gates circ))], rest i)) c /\
        forall gid a o, (gid < size (p_gates circ))%N -> nth (PInv [::] [::]) (p_gates circ) gid = PInv a o ->
          let bit w := wire_mask circ mk w != 0 in
          table_shared emb n (t + 2 * l - 2) (take (size o) (default_pos emb n l)) 2 M (tabs gid)
            (fun r m q => let wa := nth 0%num a q in let wo := nth 0%num o q in let v := odd r (+) bit wa in
               encrypted K (fun k => public_matrix sha draws circ l K M gid r m k q) (inp_label circ K ks wa r)
                 (rs_code emb m) (fun c => if (c < K)%N then out_label circ K ks wo (v (+) bit wo) c else v%:R)
                 (error_of circ es M gid r m q))).
Proof.
  move=> F emb D ser de fits n t l P Pn circ K M H sha h0 draws hash d id chans pp mk ks rs es HS Hd Hm Hids.
  have [g [Hg R]] := garble_ends sha h0 draws hash HS Hd Hm Hids. exists g. split=> // coins.
  have [tabs [E T]] := R coins. apply: ends_mono E => c A. exists tabs. eexists. split; first exact: A.
  have [[serK HSS F2 Hwf Hinj] [Hl0 _ _ _ _]] := HS. move=> gid a o Hgid Ex bit.
  have := T gid Hgid. cbv zeta. have W := @gate_wires circ l gid _ _ Hwf Hgid.
  have HB w := @mask_bits F emb n t l circ K M d pp mk ks rs es w Hd Hm.
  have Hl : (size (gate_out (nth g0 (p_gates circ) gid)) <= size (default_pos emb n l))%N.
  { rewrite size_default. move: Hwf => /and4P [/allP Hw _ _ _]. apply: Hw.
    rewrite /out_blocks mem_cat. apply/orP; right. apply/(nthP [::]). exists gid; rewrite ?size_map // (nth_map g0) //. }
  rewrite Ex in W. rewrite Ex [gate_out _]/= in Hl. rewrite Ex [gate_out _]/=.
  set po := take _ _ => T1. have Zpo : size po = size o by rewrite size_takel.
  rewrite -[po]take_size. apply: (table_shared_take (leqnn _)) T1 => r m q Hr _ Hq.
  rewrite Zpo in Hq. apply: encrypted_ext => // c' _.
  have Wa : nth 0%num a q \in flatten (out_blocks circ) by apply: W; rewrite ?inE ?eqxx ?orbT.
  have Wo : nth 0%num o q \in flatten (out_blocks circ) by apply: W; rewrite ?inE ?eqxx ?orbT.
  have Er : (r%:R = (odd r)%:R :> F) by move: Hr; case: r => [|[|r]].
  rewrite /row_msg /bit /buf_number Er; cbv beta zeta; move: (HB _ Wa) (HB _ Wo);
    move: (wire_mask _ _ (nth _ a q) != 0) (wire_mask _ _ (nth _ o q) != 0) => ba bo -> ->.
  rewrite !bool_add // plaintext_bool //. have X u : (u (+) bo) (+) bo = u by case: u; case: bo. by rewrite X.
Qed.
Print Assumptions C43_inv_rows_are_buffers.

(** A packed circuit with an INV gate (it is garbled in C43_inv_refuted). *)
Example C43_example : nth (PInv [::] [::]) (p_gates circ2) 0 = PInv [:: 0%num] [:: 1%num].
Proof. by []. Qed.

(** *** Runs contradicting a claim *)

(** The values of a table are determined by the shares. *)
Lemma table_shared_fun (F : fieldType) (emb : nat -> F) n d pos R M tb v v' :
  good_pos emb n pos -> (d < n)%N -> table_shared emb n d pos R M tb v -> table_shared emb n d pos R M tb v' ->
  forall r m q, (r < R)%N -> (m < M)%N -> (q < size pos)%N -> v r m q = v' r m q.
Proof.
  move=> U Hd [_ T] [_ T'] r m q Hr Hm Hq. have E := is_sharing_fun U Hd (T r m Hr Hm) (T' r m Hr Hm).
  have := congr1 (fun s => nth 0 s q) E. by rewrite /= !(nth_map 0%N) ?size_iota // nth_iota.
Qed.

(** A claim about tables made of masks, keys and errors. *)
Definition table_claim : Type := forall (H : eqType) (sha : seq N -> H) (draws : H -> nat -> gf w4) (mk ks es : nat -> seq (gf w4)),
  (nat -> nat -> seq (seq (gf w4))) -> Prop.

(** There is an instance meeting the hypotheses of C48 all of whose runs end
    with tables that are not as claimed. *)
Definition refutes (circ : pcircuit) (K M : nat) (claim : table_claim) : Prop :=
  exists P Pn d chans (pp : nat -> preproc_data (gf_fieldType w4)) mk ks rs es,
  [/\ garble_setting g4 (@gser w4) (@gde w4) len_ok 3 1 1 P Pn circ K M, describe circ 3 1 1 (Lpn K M) = Some d,
      material g4 3 1 1 d pp mk ks rs es & ProtoIdModel.garble_ids [:: 7]%num circ (N.of_nat 1) = Some chans] /\
  exists (H : eqType) (sha : seq N -> H) (h0 : H) draws, injective sha /\ forall hash,
  exists g, (forall i, (i < 3)%N -> gctx_new g4 sha h0 draws circ (Ctx i 3 1 1 P Pn) (Lpn K M) = Some (g i)) /\
  forall coins,
    every_run_ends 3 (start (fun i => garble g4 (@gser w4) (@gde w4) hash (g i) [:: 7]%num (pp i) (coins i) (fun y => Ret (garble_val y))))
      (fun c => exists tabs rest,
        all_done 3 (fun i => garble_val ([seq tabs gid i | gid <- iota 0 (size (p_gates circ))], rest i)) c /\
        ~ claim H sha draws mk ks es tabs).

Lemma refute (circ : pcircuit) K M (claim : table_claim) (draws : seq N -> nat -> gf w4) (m k : nat -> gf w4) :
  wf_packed circ 1 -> (p_num_wires circ <= 12)%num -> (M <= 15)%N -> (K <= 1)%N ->
  (exists d, describe circ 3 1 1 (Lpn K M) = Some d) ->
  (exists chans, ProtoIdModel.garble_ids [:: 7]%num circ (N.of_nat 1) = Some chans) ->
  (forall j, m j = 0 \/ m j = 1) ->
  (forall tabs, garbled g4 (id : seq N -> seq N) draws circ 3 1 1 K M (fun j => [:: m j]) (fun j => [:: k j]) (fun _ => [:: 0]) tabs ->
     claim [eqType of seq N] id draws (fun j => [:: m j]) (fun j => [:: k j]) (fun _ => [:: 0]) tabs -> False) ->
  refutes circ K M claim.
Proof.
  move=> Hwf Hw HM HK [d Hd] [chans Hc] Hb Hno. have [P [Pn HS]] := setting4.
  have HG := setting_16 Hwf Hw HM HS HK.
  have [|pp [Hm _]] := @material_exists _ g4 3 1 1 P Pn d (fun j => [:: m j]) (fun j => [:: k j])
     (fun _ => [:: 0]) (fun _ => [:: 0]) HS (fun _ => erefl) _ (fun _ => erefl) (fun _ => erefl) (fun _ => erefl).
  { move=> j y. by rewrite inE => /eqP ->. }
  exists P, Pn, d, chans, pp. do 4 eexists. split; first by split; [exact: HG|exact: Hd|exact: Hm|exact: Hc].
  exists [eqType of seq N], id, [::], draws. split=> // hash.
  have [g [Hg R]] := garble_ends (id : seq N -> [eqType of seq N]) [::] draws hash HG Hd Hm Hc.
  exists g. split=> // coins. have [tabs [E T]] := R coins.
  apply: ends_mono E => c A. exists tabs. eexists. split; first exact: A. exact: Hno T.
Qed.

Lemma good_pos_16 : good_pos g4 3 (default_pos g4 3 1).
Proof. by have [P [Pn [_ _ _]]] := setting4. Qed.

(** The claim of C43: row [i] of an INV table has the inverted label. *)
Theorem C43_inv_refuted : refutes circ2 1 2 (fun H sha draws mk ks es tabs =>
  tables_shared g4 circ2 1 3 1 1 2 (public_matrix sha draws circ2 1 1 2) (rs_code g4) (wire_mask circ2 mk)
    (inp_label circ2 1 ks) (out_label circ2 1 ks) (error_of circ2 es 2) (plaintext 1) (@inv_number _) tabs).
Proof.
  apply: (@refute _ _ _ _ (fun _ _ => 0) (fun _ => 0) (fun _ => 0)) => //.
  - by eexists; vm_compute; reflexivity.
  - by eexists; vm_compute; reflexivity.
  - by left.
  move=> tabs /(_ 0%N isT) T /(_ 0%N isT) T'.
  have := table_shared_fun good_pos_16 (isT : (1 + 2 * 1 - 2 < 3)%N) T T' (isT : (0 < 2)%N) (isT : (0 < 2)%N) (isT : (0 < 1)%N).
  rewrite /table_entry /encrypted !big_ord_recl !big_ord0 => E. have := congr1 (@gval w4) E. by vm_compute.
Qed.
Print Assumptions C43_inv_refuted.

(** ** C44 *)

(** The claim of C44: the symbol after a label is the label's number.  (What it
    is instead: the unmasked bit, by C42_and_xor_rows and C43_inv_rows_are_buffers.) *)
Theorem C44_number_refuted : refutes circ2 1 2 (fun H sha draws mk ks es tabs =>
  tables_shared g4 circ2 1 3 1 1 2 (public_matrix sha draws circ2 1 1 2) (rs_code g4) (wire_mask circ2 mk)
    (inp_label circ2 1 ks) (out_label circ2 1 ks) (error_of circ2 es 2) (numbered 1) (@buf_number _) tabs).
Proof.
  apply: (@refute _ _ _ _ (fun _ _ => 0) (fun _ => 1) (fun _ => 0)) => //.
  - by eexists; vm_compute; reflexivity.
  - by eexists; vm_compute; reflexivity.
  - by right.
  move=> tabs /(_ 1%N isT) T /(_ 1%N isT) T'.
  have := table_shared_fun good_pos_16 (isT : (1 + 2 * 1 - 2 < 3)%N) T T' (isT : (0 < 2)%N) (isT : (0 < 2)%N) (isT : (0 < 1)%N).
  rewrite /table_entry /encrypted !big_ord_recl !big_ord0 => E. have := congr1 (@gval w4) E. by vm_compute.
Qed.
Print Assumptions C44_number_refuted.

(** The same holds of AND and XOR gates. *)
Theorem C44_number_and_xor_refuted : refutes circ3 1 2 (fun H sha draws mk ks es tabs => exists gid, (gid < 2)%N /\
  let x := nth (PInv [::] [::]) (p_gates circ3) gid in
  table_shared g4 3 (1 + 2 * 1 - 2) (default_pos g4 3 1) 4 2 (tabs gid)
    (table_entry 1 (public_matrix sha draws circ3 1 1 2 gid) (rs_code g4) (wire_mask circ3 mk)
      (inp_label circ3 1 ks) (out_label circ3 1 ks) (error_of circ3 es 2 gid) (numbered 1) (@buf_number _) x)).
Proof.
  apply: (@refute _ _ _ _ (fun _ _ => 0) (fun _ => 1) (fun _ => 0)) => //.
  - by eexists; vm_compute; reflexivity.
  - by eexists; vm_compute; reflexivity.
  - by right.
  move=> tabs T [[|[|gid]] [//] _] T'.
  - have := table_shared_fun good_pos_16 (isT : (1 + 2 * 1 - 2 < 3)%N) (T 0%N isT) T' (isT : (0 < 4)%N) (isT : (0 < 2)%N) (isT : (0 < 1)%N).
    rewrite /table_entry /encrypted !big_ord_recl !big_ord0 => E. have := congr1 (@gval w4) E. by vm_compute.
  - have := table_shared_fun good_pos_16 (isT : (1 + 2 * 1 - 2 < 3)%N) (T 1%N isT) T' (isT : (0 < 4)%N) (isT : (0 < 2)%N) (isT : (0 < 1)%N).
    rewrite /table_entry /encrypted !big_ord_recl !big_ord0 => E. have := congr1 (@gval w4) E. by vm_compute.
Qed.
Print Assumptions C44_number_and_xor_refuted.

(** ** C41 *)

(** The claim of C41: the label that a gate encrypts for a wire is the label
    that the gates reading the wire take as key.  No labelling of the wires by
    pairs of keys explains the tables. *)
Theorem C41_one_labelling_refuted : refutes circ2 1 2 (fun H sha draws mk ks es tabs => exists lab,
  tables_shared g4 circ2 1 3 1 1 2 (public_matrix sha draws circ2 1 1 2) (rs_code g4) (wire_mask circ2 mk)
    lab lab (error_of circ2 es 2) (plaintext 1) (@buf_number _) tabs).
Proof.
  apply: (@refute _ _ _ _ (fun _ j => if j == 0%N then 0 else 1) (fun _ => 0) (fun j => if j == 2%N then 1 else 0)) => //.
  - by eexists; vm_compute; reflexivity.
  - by eexists; vm_compute; reflexivity.
  - by left.
  move=> tabs T [lab T'].
  have Eq gid m (Hg : (gid < 2)%N) (Hm : (m < 2)%N) :
    table_entry 1 (public_matrix id (fun _ j => if j == 0%N then 0 else 1) circ2 1 1 2 gid) (rs_code g4) (fun _ => 0)
      (inp_label circ2 1 (fun j => [:: if j == 2%N then 1 else 0])) (out_label circ2 1 (fun j => [:: if j == 2%N then 1 else 0]))
      (fun _ _ _ => 0) (plaintext 1) (@buf_number _) (nth g0 (p_gates circ2) gid) 0 m 0 =
    table_entry 1 (public_matrix id (fun _ j => if j == 0%N then 0 else 1) circ2 1 1 2 gid) (rs_code g4) (fun _ => 0) lab lab
      (fun _ _ _ => 0) (plaintext 1) (@buf_number _) (nth g0 (p_gates circ2) gid) 0 m 0.
  { by move: gid Hg => [|[|//]] Hg;
    exact: (table_shared_fun good_pos_16 (isT : (1 + 2 * 1 - 2 < 3)%N) (T _ Hg) (T' _ Hg) (isT : (0 < 2)%N) Hm (isT : (0 < 1)%N)). }
  have PT la c : plaintext 1 la 0 (@buf_number (gf_fieldType w4) 0 0 0) c = if c == 0%N then la 0%N 0%N else 0.
  { rewrite /plaintext /buf_number !add0r /choose !mul0r !addr0. by case: c. }
  have := (Eq 0%N 0%N isT isT, Eq 1%N 0%N isT isT, Eq 1%N 1%N isT isT).
  rewrite /table_entry /encrypted !big_ord_recl !big_ord0. rewrite /row_msg /row_key /=. rewrite !PT /=.
  rewrite /public_matrix /= !mul0r !mulr0 !add0r !addr0 !mul1r.
  move=> [[E0 E1] E2].
  have R0 : rs_code g4 0 0 != 0 by apply/eqP => E; have := congr1 (@gval w4) E; vm_compute.
  have L1 : lab 1%num 0%N 0%N = 0 by apply/eqP; move/esym/eqP: E0; rewrite mulf_eq0 (negPf R0).
  have L2 := mulfI R0 E1. move: E2. rewrite -L2 => /addIr E2. rewrite L1 in E2.
  have := congr1 (@gval w4) E2. by vm_compute.
Qed.
Print Assumptions C41_one_labelling_refuted.

(** For every circuit of two or more blocks and every wire of it: the two reads
    of the key array disagree, whatever the slots and the field. *)
Theorem C41_every_wire_refuted : forall (F : fieldType) (circ : pcircuit) K w,
  w \in flatten (out_blocks circ) -> (1 < size (out_blocks circ))%N -> (0 < K)%N ->
  exists i c, (i < 2)%N /\ (c < K)%N /\ exists ks : nat -> seq F, inp_label circ K ks w i c <> out_label circ K ks w i c.
Proof.
  move=> F circ K w Hw Hb HK.
  pose p := if block_of circ w == 0%N then 1%N else 0%N.
  have Hne : (p * size (out_blocks circ) + block_of circ w != block_of circ w * (2 * K) + p)%N.
  { rewrite /p. case: (block_of circ w =P 0%N) => [->|Hz]; apply/eqP; nia. }
  have Hp : (p %/ K * K + p %% K = p)%N by rewrite -divn_eq.
  exists (p %/ K)%N, (p %% K)%N. split; first by rewrite ltn_divLR // /p; case: ifP; lia.
  split; first by rewrite ltn_mod.
  exists (fun j => nseq (slot_of circ w).+1 (if j == (p * size (out_blocks circ) + block_of circ w)%N then 1 else 0)).
  rewrite /inp_label /out_label Hp !nth_nseq ltnSn eqxx. rewrite eq_sym (negPf Hne). apply/eqP. by rewrite eq_sym oner_eq0.
Qed.
Print Assumptions C41_every_wire_refuted.

Example C41_example : [/\ 2%num \in flatten (out_blocks circ3), (1 < size (out_blocks circ3))%N & (0 < 4)%N].
Proof. by []. Qed.

(** ** C40 *)

(** What is shared for a wire: the [2 * K] elements of its block's row of the
    key array of shape (blocks, 2 * K), and the mask, each at the wire's slot. *)
Definition wire_value (F : fieldType) (circ : pcircuit) (K : nat) (mk ks : nat -> seq F) (w : N) (j : nat) : F :=
  let b := block_of circ w in
  nth 0 (if (j < 2 * K)%N then ks (b * (2 * K) + j)%N else mk b) (slot_of circ w).

(** After the output transform, the selection and the input transform, slot [s]
    of input block [i] carries what is shared for the wire that the circuit has
    there, at the default positions, also when wires repeat in the block and when
    the block has less than [l] wires; for every schedule. *)
Theorem C40_inputs_carry_their_wires : forall (F : fieldType) (emb : nat -> F) (D : eqType) ser de fits n t l P Pn circ K M
    (H : eqType) (sha : seq N -> H) h0 draws id cids chans (pp : nat -> preproc_data F) mk ks B1 B2 r1 R1 z1 r2 R2 z2 g coins,
  @garble_setting F emb D ser de fits n t l P Pn circ K M ->
  (forall i, (i < n)%N -> gctx_new emb sha h0 draws circ (Ctx i n t l P Pn) (Lpn K M) = Some (g i)) ->
  ProtoIdModel.garble_ids id circ (N.of_nat l) = Some chans ->
  let gates := N.of_nat (size (p_gates circ)) in
  ProtoIdModel.take_ids id (4 + gates)%num (4 + size (p_gates circ)) = Some cids ->
  let pos := default_pos emb n l in
  let low := (t + l).-1 in
  let nb := size (out_blocks circ) in
  let zero := fun _ : nat => nseq l 0 in
  (nb <= l * B1 < nb + l)%N -> (size (inp_blocks circ) <= l * B2 < size (inp_blocks circ) + l)%N ->
  sharings emb n low pos nb (fun i => pp_masks (pp i)) mk ->
  sharings emb n low pos (nb * (2 * K)) (fun i => pp_keys (pp i)) ks ->
  sharings emb n low pos (B1 * ((n + t) * (2 * K + 1))) r1 R1 ->
  sharings emb n n.-1 pos (B1 * (2 * n * (2 * K + 1))) z1 zero ->
  sharings emb n low pos (B2 * ((n + t) * (2 * K + 1))) r2 R2 ->
  sharings emb n n.-1 pos (B2 * (2 * n * (2 * K + 1))) z2 zero ->
  every_run_ends n
    (start (fun i => wire_shares emb ser de (g i) cids (pp i) (r1 i, z1 i) (r2 i, z2 i) (coins i) (fun y => Ret (Leaf y))))
    (fun c => exists res, all_done n (fun i => Leaf (res i)) c /\
      (forall i, (i < n)%N -> size (res i) = size (inp_blocks circ)) /\
      forall b, (b < size (inp_blocks circ))%N -> let ws := nth [::] (inp_blocks circ) b in
        sharings emb n low (take (size ws) pos) (2 * K + 1) (fun i => nth [::] (res i) b)
          (fun j => [seq wire_value circ K mk ks w j | w <- ws])).
Proof.
  move=> F emb D ser de fits n t l P Pn circ K M H sha h0 draws id cids chans pp mk ks B1 B2 r1 R1 z1 r2 R2 z2 g coins.
  move=> [[serK HS F2 Hwf Hinj] [Hl0 /andP [HKl Hn16] Hdeg Hu Hf]] Hg Hids gates Et pos low nb zero L1 L2 Sm Sk Sr1 Sz1 Sr2 Sz2.
  have Hn := setting_n HS. have HKl' : (t + l + l <= n)%N by lia.
  have [b1 [Eb1 Hb1]] := num_batchesE (size (out_blocks circ)) Hl0. have E1 : b1 = B1 by rewrite /nb in L1; nia. subst b1.
  have [b2 [Eb2 Hb2]] := num_batchesE (size (inp_blocks circ)) Hl0. have E2 : b2 = B2 by nia. subst b2.
  have [g' [enc [_ Hg']]] := gctx_newE HS Hl0 HKl' Hwf Hinj sha h0 draws K M Eb1 Eb2.
  have G1 me : (me < n)%N -> [/\ g_mpc (g me) = Ctx me n t l P Pn, g_lpn (g me) = Lpn K M, g_circ (g me) = circ &
     [/\ g_lookup (g me) = block_map circ, g_out (g me) = tfs emb n t l (tf_out emb n l circ) B1 me & g_inp (g me) = tfs emb n t l (tf_inp emb n l circ) B2 me]].
  { move=> Hm. have [E X _ _] := Hg' me Hm. move: E. by rewrite Hg // => -[->]. }
  have [cids' [c0 [c1 [c2 [c3 [f [Et' E0 E1 E2 [E3 _ _ Ec]]]]]]]] := garble_idsP Eb1 Eb2 Hids.
  have EE : cids' = cids by move: Et'; rewrite Et => -[]. subst cids'.
  have U : uniq chans by apply: NoDup_uniq; exact: (P_ProtoId.C20_garble_ids_distinct _ _ _ _ Hids).1.
  have Fa : fits (2 * (2 * K + 1))%N by apply: Hf; lia. have Fb : fits (2 * K + 1)%N by apply: Hf; lia.
  have [rds [res [Iw [R [Z [S _]]]]]] := wire_shares_ok serK HS Hl0 HKl' Hwf Hinj Eb1 Eb2 G1 coins Fa Fb E0 E1 E2 E3 Sm Sk Sr1 Sz1 Sr2 Sz2.
  have Hui : uniq (ids rds).
  { rewrite Iw. have -> : uniq (c1 ++ (c0 ++ c2) ++ c3) = uniq (c0 ++ c1 ++ c2 ++ c3).
    { apply: perm_uniq. by rewrite -!catA perm_catCA. }
    move: U. by rewrite Ec !catA cat_uniq => /andP []. }
  apply: ends_mono (realizes_runs Hn (ser [::]) (fun y => Leaf y) Hui R) => c Hc. by exists res.
Qed.
Print Assumptions C40_inputs_carry_their_wires.

(** With two slots: input [::0;0] of gate 0 repeats a wire, that of gate 1 gathers wires of
    two blocks in an order different from theirs, and block [::2] is not full. *)
Definition circ5 : pcircuit :=
  PCircuit [:: PAnd [:: 0; 0] [:: 1; 2] [:: 3; 4]; PXor [:: 4; 1] [:: 2; 0] [:: 5; 6]]%num
    [:: [:: 0; 1]; [:: 2]]%num [:: [:: 5; 6]]%num 7 2.

Example C40_example : exists P Pn chans,
  [/\ garble_setting (gf_of w4) (@gser w4) (@gde w4) len_ok 5 1 2 P Pn circ5 2 3,
      ProtoIdModel.garble_ids [:: 7]%num circ5 (N.of_nat 2) = Some chans,
      (size (out_blocks circ5) <= 2 * 2 < size (out_blocks circ5) + 2)%N &
      [/\ [seq block_of circ5 w | w <- [:: 0; 1; 2; 3; 4; 5; 6]%num] = [:: 0; 0; 1; 2; 2; 3; 3]%N,
          [seq slot_of circ5 w | w <- [:: 0; 1; 2; 3; 4; 5; 6]%num] = [:: 0; 1; 0; 0; 1; 0; 1]%N &
          inp_blocks circ5 = [:: [:: 0; 0]; [:: 1; 2]; [:: 4; 1]; [:: 2; 0]]%num]].
Proof.
  have [P [Pn HS]] : exists P Pn, setting g4 5 1 2 P Pn.
  { do 2 eexists. split; [by []|reflexivity|reflexivity|by vm_compute]. }
  exists P, Pn. eexists. split=> //. split; split=> //.
  - exact: gserK.
  - exact: gf_char2.
  - move=> m Hm. rewrite /len_ok. apply: (N.lt_le_trans _ 12); [lia|]. by apply/N.leb_le.
Qed.

(** ** C45 *)

Lemma rs_code_sum (F : fieldType) (emb : nat -> F) K m (u : nat -> F) :
  \sum_(c < K.+1) rs_code emb m c * u c = emb m.+1 * (\poly_(c < K.+1) u c).[emb m.+1].
Proof.
  rewrite horner_poly mulr_sumr. apply: eq_bigr => c _. by rewrite /rs_code exprS -mulrA [u c * _]mulrC.
Qed.

(** [K + 1] symbols of the codeword determine the message. *)
Lemma rs_unique (F : fieldType) (emb : nat -> F) K M (S : seq nat) (u v : nat -> F) : good_nodes emb M ->
  uniq S -> size S = K.+1 -> all (fun m => m < M)%N S ->
  (forall m, m \in S -> \sum_(c < K.+1) rs_code emb m c * u c = \sum_(c < K.+1) rs_code emb m c * v c) ->
  forall c, (c <= K)%N -> u c = v c.
Proof.
  move=> [U E0] US SS /allP HS E c Hc.
  have Inj i j : (i <= M)%N -> (j <= M)%N -> emb i = emb j -> i = j.
  { move=> Hi Hj Eij. apply/eqP. move: U => /(uniqP 0) /(_ i j). rewrite !inE size_map size_iota !ltnS => /(_ Hi Hj).
    rewrite !(nth_map 0%N) ?size_iota // !nth_iota //= => H. by apply/eqP/H. }
  pose p : {poly F} := \poly_(c < K.+1) u c - \poly_(c < K.+1) v c.
  have Hp : p = 0.
  { apply: (@roots_geq_poly_eq0 F p [seq emb m.+1 | m <- S]).
    - apply/allP => x /mapP [m Hm ->]. have := E m Hm. rewrite !rs_code_sum => Em.
      have Nz : emb m.+1 != 0 by apply/eqP; rewrite -E0 => /Inj; have := HS m Hm; move=> H1 /(_ H1 isT).
      rewrite /root /p hornerD hornerN subr_eq0. apply/eqP. exact: (mulfI Nz).
    - rewrite map_inj_in_uniq // => i j Hi Hj /Inj H. have := H (HS _ Hi) (HS _ Hj). by case.
    - rewrite size_map SS /p. apply: (leq_trans (size_add _ _)). by rewrite size_opp geq_max !size_poly. }
  have : p`_c = 0 by rewrite Hp coef0.
  rewrite /p coefB !coef_poly ltnS Hc => /eqP. by rewrite subr_eq0 => /eqP.
Qed.

(** Let [tabs] be shares of the tables (as at the end of a run of [garble], see
    C48).  All parties' shares of an entry, reconstructed at the default
    positions, minus the row of the public matrix applied to the row's key give
    a word that is the encoded message plus the error.  The message is the only
    one whose code word agrees with that word on [K + 1] places free of error,
    and the only one at a distance that, with the number of errors, is below
    [M - K]. *)
Theorem C45_rows_decrypt : forall (F : fieldType) (emb : nat -> F) n t l circ K M A mask lin lout err pt inv tabs P gid r q,
  wf_packed circ l -> good_nodes emb M -> good_pos emb n (default_pos emb n l) ->
  pss_new emb (t + 2 * l - 2) n (default_pos emb n l) = Some P ->
  @tables_shared F emb circ K n t l M A (rs_code emb) mask lin lout err pt inv tabs ->
  (gid < size (p_gates circ))%N -> let x := nth (PInv [::] [::]) (p_gates circ) gid in
  (r < table_rows x)%N -> (q < size (gate_out x))%N ->
  let msg := row_msg mask lout pt inv x r q in
  let code (u : nat -> F) m := \sum_(c < K.+1) rs_code emb m c * u c in
  exists word : nat -> F, [/\
    forall m, (m < M)%N -> exists secrets,
      pss_recon P [seq nth 0 (nth [::] (tabs gid i) r) m | i <- iota 0 n] = Some (ROk secrets) /\
      word m = nth 0 secrets q - \sum_(k < K) A gid r m k q * row_key lin x r q k,
    forall m, (m < M)%N -> word m = code msg m + err gid r m q,
    forall (S : seq nat) (u : nat -> F), uniq S -> size S = K.+1 -> all (fun m => m < M)%N S ->
      (forall m, m \in S -> err gid r m q = 0) -> (forall m, m \in S -> word m = code u m) ->
      forall c, (c <= K)%N -> u c = msg c &
    forall u : nat -> F, (seq.count (fun m => word m != code u m) (iota 0 M) + seq.count (fun m => err gid r m q != 0%R) (iota 0 M) < M - K)%N ->
      forall c, (c <= K)%N -> u c = msg c].
Proof.
  move=> F emb n t l circ K M A mask lin lout err pt inv tabs P gid r q Hwf HM HU HP HT Hgid x Hr Hq msg code.
  have Hd : (t + 2 * l - 2 < n)%N by move: HP; rewrite /pss_new; case: leqP.
  have Hl : (size (gate_out x) <= l)%N.
  { move: Hwf => /and4P [/allP Hw _ _ _]. apply: Hw. rewrite /out_blocks mem_cat. apply/orP; right.
    apply/(nthP [::]). exists gid; rewrite ?size_map // (nth_map g0) //. }
  have [_ TS] := HT gid Hgid.
  pose word m := code msg m + err gid r m q. exists word.
  have W3 : forall (S : seq nat) (u : nat -> F), uniq S -> size S = K.+1 -> all (fun m => m < M)%N S ->
      (forall m, m \in S -> err gid r m q = 0) -> (forall m, m \in S -> word m = code u m) ->
      forall c, (c <= K)%N -> u c = msg c.
  { move=> S u US SS HS He Hw. apply: (rs_unique HM US SS HS) => m Hm. by rewrite -/(code u m) -Hw // /word He // addr0. }
  split=> // [m Hm|u Hc].
  - have [p [Hp E1 E2]] := TS r m Hr Hm. exists [seq p.[y] | y <- default_pos emb n l]. split.
    { apply/(C12_recon_accepts_exactly_sharings _ HU HP).1. by exists p. }
    rewrite (nth_map 0) ?size_default; last exact: leq_trans Hl.
    have Zt : size (take (size (gate_out x)) (default_pos emb n l)) = size (gate_out x) by rewrite size_takel ?size_default.
    have := congr1 (fun s => nth 0 s q) E2. rewrite /= (nth_map 0%N) ?size_iota ?Zt // (nth_map 0) ?Zt // nth_take // nth_iota ?Zt // add0n.
    move=> <-. rewrite /table_entry /encrypted -/x. rewrite /word /code -/msg.
    set a := \sum_(k < K) _. set b := \sum_(c < K.+1) _. by rewrite -[a + b + _]addrA [RHS]addrC addKr.
  - pose good m := (word m == code u m) && (err gid r m q == 0).
    have Hg : (K < seq.count good (iota 0 M))%N.
    { have := count_predC good (iota 0 M). rewrite size_iota.
      have := count_predUI (fun m => word m != code u m) (fun m => err gid r m q != 0%R) (iota 0 M).
      have -> : seq.count (predC good) (iota 0 M) = seq.count (predU (fun m => word m != code u m) (fun m => err gid r m q != 0%R)) (iota 0 M).
      { apply: eq_count => m. by rewrite /= /good negb_and. }
      move: Hc. move: (seq.count _ _) (seq.count _ _) (seq.count (predU _ _) _) (seq.count (predI _ _) _) (seq.count good _). lia. }
    apply: (W3 (take K.+1 [seq m <- iota 0 M | good m])).
    + apply: take_uniq. by rewrite filter_uniq ?iota_uniq.
    + rewrite size_takel // size_filter. exact: Hg.
    + apply/allP => m /mem_take. by rewrite mem_filter mem_iota => /andP [_ /andP []].
    + move=> m /mem_take. by rewrite mem_filter => /andP [/andP [_ /eqP]].
    + move=> m /mem_take. by rewrite mem_filter => /andP [/andP [/eqP]].
Qed.
Print Assumptions C45_rows_decrypt.

(** The hypotheses hold for the tables of [circ3] (the tables are sharings of
    the entries by polynomials of the degree given; two equations, K = 1). *)
Example C45_example : exists P tabs,
  let A := fun _ _ _ _ _ => 1 in let lab := fun w i c : nat => g4 (w + 5 * i) in
  let err := fun gid r m q : nat => g4 m in
  [/\ wf_packed circ3 1, good_nodes g4 5, good_pos g4 3 (default_pos g4 3 1),
      pss_new g4 (1 + 2 * 1 - 2) 3 (default_pos g4 3 1) = Some P &
      tables_shared g4 circ3 1 3 1 1 5 A (rs_code g4) (fun _ => 1) (fun w => lab (N.to_nat w)) (fun w => lab (N.to_nat w))
        err (plaintext 1) (@buf_number _) tabs].
Proof.
  eexists. pose A := fun _ _ _ _ _ : nat => 1 : gf w4. pose lab := fun w i c : nat => g4 (w + 5 * i).
  pose err := fun gid r m q : nat => g4 m.
  pose ent gid := table_entry 1 (A gid) (rs_code g4) (fun _ => 1) (fun w => lab (N.to_nat w)) (fun w => lab (N.to_nat w))
        (err gid) (plaintext 1) (@buf_number _) (nth g0 (p_gates circ3) gid).
  pose p gid r m : {poly gf w4} := 'X - (g4 3)%:P + (ent gid r m 0%N)%:P.
  exists (fun gid i => [seq [seq (p gid r m).[g4 i] | m <- iota 0 5] | r <- iota 0 (table_rows (nth g0 (p_gates circ3) gid))]).
  split; [by []| |exact: good_pos_16|reflexivity|].
  - by apply: (@C08_field_has_enough_points w4); vm_compute.
  - move=> gid Hgid x. split=> [i Hi|r m Hr Hm].
    { rewrite size_map size_iota. split=> // r Hr. by rewrite (nth_map 0%N) ?size_iota // size_map size_iota. }
    exists (p gid r m). split.
    + rewrite /p. apply: (leq_trans (size_add _ _)). rewrite geq_max size_XsubC /=. by rewrite (leq_trans (size_polyC_leq1 _)).
    + apply/eq_in_map => i. rewrite mem_iota => Hi. by rewrite (nth_map 0%N) ?size_iota // (nth_map 0%N) ?size_iota // !nth_iota.
    + have -> : take (size (gate_out x)) (default_pos g4 3 1) = [:: g4 3] by move: gid Hgid @x Hr => [|[|[|]]].
      by rewrite /= /p hornerD hornerXsubC subrr hornerC add0r.
Qed.

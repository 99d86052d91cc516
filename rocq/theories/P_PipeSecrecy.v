(** Property theorems C63: what a coalition cannot learn from preprocessing and
    garbling together. *)

From Coq Require Import NArith List.
From Verif Require Import CircuitModel LpnModel LpnSpec.
From mathcomp Require Import all_ssreflect all_algebra zify.
From Verif Require Import MathModel MathProofs MatProofs SharingModel SharingSpec SharingProofs.
From Verif Require Import MachineModel MachineProofs MachineBuild Realize CoreModel CoreSpec CoreProofs ViewSpec.
From Verif Require Import RandTransProofs PreprocModel PreprocSpec PreprocProofs GarbleModel GarbleSpec GarbleGates GarbleTf GarbleWires GarbleRun.
From Verif Require Import TwinProofs TwinCore TwinWires TwinRun HideSpec TwinDeal TwinPre.
From Verif Require Import GFField GFCodec P_Math P_Sharing P_Core P_Preproc P_Garble P_View P_Leak P_Secrecy P_BinPre P_Pipeline.
From Verif Require ProtoIdModel P_ProtoId.
Set Implicit Arguments.
Unset Strict Implicit.
Unset Printing Implicit Defensive.
Import GRing.Theory.
Local Open Scope ring_scope.

(** ** C63 *)

(** [preproc] on one root id, then [garble] on another.  Let the rows of the two
    matrices stay independent without the columns of at most [t] parties, and let
    the garbling shield these parties (C62).  Whatever the coins, and for all
    other masks, labels and errors, there are coins of the other parties with
    which preprocessing leads to these and the tables are garbled with them, while
    the [t] parties see the same from beginning to end: they draw the same coins,
    hold the same shares of the material, and are sent the same messages. *)
Theorem C63_pipeline_hides : forall (F : fieldType) (emb : nat -> F) (D : eqType) ser de fits n t l P Pn circ K M
    (H : eqType) (sha : seq N -> H) h0 draws hash (Ms Mb : mat F) (id1 id2 : seq N) d chans bR bZ bB g,
  @garble_setting F emb D ser de fits n t l P Pn circ K M -> describe circ n t l (Lpn K M) = Some d ->
  (0 < size (rows Ms))%N -> (0 < size (rows Mb))%N -> ncols Ms = n -> ncols Mb = n -> binary Mb ->
  let e := n_errors d in
  let B := size (rows Ms) in let BB := size (rows Mb) in
  (keys_total d + n_randoms d + 3 * e <= B * bR < keys_total d + n_randoms d + 3 * e + B)%N ->
  (n_zeros d + 2 * e <= B * bZ < n_zeros d + 2 * e + B)%N ->
  (n_masks d + 2 * e <= BB * bB < n_masks d + 2 * e + BB)%N ->
  (forall m, (m <= maxn (maxn bR bZ) (maxn bB e))%N -> fits m) ->
  ProtoIdModel.garble_ids id2 circ (N.of_nat l) = Some chans -> (forall u v, id1 ++ u <> id2 ++ v) ->
  (forall i, (i < n)%N -> gctx_new emb sha h0 draws circ (Ctx i n t l P Pn) (Lpn K M) = Some (g i)) ->
  let pre r i := preproc ser de (Ctx i n t l P Pn) Ms Mb id1 d (r i) in
  let code r coins i := pre r i (fun pp => garble emb ser de hash (g i) id2 pp (coins i) (fun y => Ret (garble_val y))) in
  forall A, coalition n t A -> shielded n l A circ -> hides n Ms A -> hides_bits n Mb A ->
  forall (r : nat -> coins F) (coins : nat -> gcoins F) mk' ks' es',
  (forall j, size (mk' j) = l /\ bits (mk' j)) -> (forall j, size (ks' j) = l) -> (forall j, size (es' j) = l) ->
  exists r' coins' pp pp' rs' tabs',
    [/\ forall a, a \in A -> r' a = r a /\ coins' a = coins a,
        every_run_ends n (start (fun i => pre r i (fun x => Ret (pp_val x)))) (all_done n (fun i => pp_val (pp i))) /\
        every_run_ends n (start (fun i => pre r' i (fun x => Ret (pp_val x)))) (all_done n (fun i => pp_val (pp' i))),
        material emb n t l d pp' mk' ks' rs' es',
        every_run_ends n (start (code r' coins')) (all_done n (fun i => garble_val ([seq tabs' gid i | gid <- iota 0 (size (p_gates circ))],
             Queues (drop (n_randoms d) (pp_randoms (pp' i))) (drop (n_zeros d) (pp_zeros (pp' i))) [::]))) /\
        garbled emb sha draws circ n t l K M mk' ks' es' tabs' &
        same_view n A pp pp' (code r coins) (code r' coins')].
Proof.
  move=> F emb D ser de fits n t l P Pn circ K M H sha h0 draws hash Ms Mb id1 id2 d chans bR bZ bB g.
  move=> HG Hd B0 BB0 HMs HMb Hbin e B BB LR LZ LB Hfp Hids Hroots Hg pre code A HC Hsh Hh Hhb r coins mk' ks' es' Hmk' Hks' Hes'.
  have [[serK HSS F2 Hwf Hinj] [Hl0 /andP [HKl Hn16] Hdeg _ Hf]] := HG. have Hn := setting_n HSS.
  have HKl' : (t + l + l <= n)%N by clear -HKl; lia.
  have Hn32 : (N.of_nat n <= 2 ^ 32)%num by clear -Hn16; lia.
  rewrite !subn1 in Hdeg.
  have [Ht _ _ Hgp] := HSS. have [UA HA tA] := HC.
  have [B1 [B2 [HB1 HB2 Em Ek [Er Ez Ee]]]] := describeE Hd.
  have [g' [enc [Eenc Hg']]] := gctx_newE HSS Hl0 HKl' Hwf Hinj sha h0 draws K M HB1 HB2.
  have Eg me : (me < n)%N -> g' me = g me by move=> Hm; have [E _ _ _] := Hg' me Hm; move: E; rewrite Hg // => -[].
  have G1 me (Hm : (me < n)%N) : [/\ g_mpc (g me) = Ctx me n t l P Pn, g_lpn (g me) = Lpn K M, g_circ (g me) = circ &
     [/\ g_lookup (g me) = block_map circ, g_out (g me) = tfs emb n t l (tf_out emb n l circ) B1 me & g_inp (g me) = tfs emb n t l (tf_inp emb n l circ) B2 me]].
  { have [_ E _ _] := Hg' me Hm. by rewrite Eg in E. }
  have Ekt : keys_total d = (2 * K * size (out_blocks circ))%N by rewrite /keys_total Ek.
  (* preprocessing *)
  have [b1 [Eb1 Hb1]] := num_batchesE (keys_total d + n_randoms d + 3 * e) B0.
  have E1 : b1 = bR by rewrite -/B in Hb1; clear -Hb1 LR; nia. subst b1.
  have [b2 [Eb2 Hb2]] := num_batchesE (n_zeros d + 2 * e) B0.
  have E2 : b2 = bZ by rewrite -/B in Hb2; clear -Hb2 LZ; nia. subst b2.
  have [b3 [Eb3 Hb3]] := num_batchesE (n_masks d + 2 * e) BB0.
  have E3 : b3 = bB by rewrite -/BB in Hb3; clear -Hb3 LB; nia. subst b3.
  have [chans1 Hids1] := P_ProtoId.C21_preproc_names_subprotocols id1 _ Hn32.
  have [ND Hlen] := P_ProtoId.C20_preproc_ids_distinct _ _ _ Hids1.
  have Hsz : size chans1 = (3 + 2 * n)%N by rewrite -[size chans1]/(length chans1) Hlen Nat2N.id.
  have U1 : uniq chans1 by exact: NoDup_uniq.
  have [/andP [LR1 _] /andP [LZ1 _] /andP [LB1 _]] := And3 LR LZ LB.
  have [rds1 [pm [pk [pr [pz [pe [I1 R1 [Lm Lk Lr Lz Le] Tw1]]]]]]] :=
    preproc_twin serK HSS Hdeg F2 UA HA tA (id := id1) r Eb1 Eb2 Eb3 HMs HMb Hfp Hids1 Hsz LR1 LZ1 LB1 Hh Hhb Hbin.
  pose nr := (B * bR - (3 * e + keys_total d))%N. pose nz := (B * bZ - 2 * e)%N.
  have [pm' [Lm' Am Xm']] := reshare HSS HC Lm (fun j _ => (Hmk' j).1).
  have [pk' [Lk' Ak Xk']] := reshare HSS HC Lk (fun j _ => Hks' j).
  have [pe' [Le' Ae Xe']] := reshare HSS HC Le (fun j _ => Hes' j).
  have Bm' j x : (j < n_masks d)%N -> x \in default_pos emb n l -> is_bit (pm' j).[x].
  { move=> Hj Hx. have [_ Hb] := Hmk' j. apply: Hb. rewrite Xm' //. apply/mapP. by exists x. }
  (* garbling *)
  have Hsh' : blocks_shielded n l A circ by move=> i Hi; cbv zeta; rewrite size_distinct; exact: Hsh.
  pose pp := material_of emb Ms d bR bZ pm pk pr pz pe.
  have Ho : holds emb n circ K M nr nz pp (Polys pm pk pr pz pe).
  { move=> me Hm. split; rewrite /pp /material_of /= ?Em ?Ek ?Ekt //. by rewrite /nr /nz -Ee -Ekt. }
  have Hnr : (n_randoms d <= nr)%N by move: LR1; rewrite /nr -/B -/e; clear; lia.
  have Hnz : (n_zeros d <= nz)%N by move: LZ1; rewrite /nz -/B -/e; clear; lia.
  have Hnr' : (B1 * ((n + t) * (2 * K + 1)) + B2 * ((n + t) * (2 * K + 1)) + offs (gate_mults (Lpn K M)) (p_gates circ) (size (p_gates circ)) <= nr)%N.
  { apply: leq_trans Hnr. rewrite Er leq_add2r. clear. nia. }
  have Hnz' : (B1 * (2 * n * (2 * K + 1)) + B2 * (2 * n * (2 * K + 1)) + offs (gate_mults (Lpn K M)) (p_gates circ) (size (p_gates circ)) <= nz)%N.
  { apply: leq_trans Hnz. rewrite Ez leq_add2r. clear. nia. }
  have Xm2 : low t l (size (out_blocks circ)) pm by rewrite -Em.
  have Xk2 : low t l (2 * K * size (out_blocks circ)) pk by rewrite -Ekt.
  have Xm2' : low t l (size (out_blocks circ)) pm' by rewrite -Em.
  have Xk2' : low t l (2 * K * size (out_blocks circ)) pk' by rewrite -Ekt.
  have Am2 : agree emb A (size (out_blocks circ)) pm pm' by rewrite -Em.
  have Ak2 : agree emb A (2 * K * size (out_blocks circ)) pk pk' by rewrite -Ekt.
  have [pr' [pz' [coins' [rds2 [rds2' [[Lr' Lz' Ar Az] Hco [Hper Htw] [res R2] R3]]]]]] :=
    garble_twin serK HSS Hl0 HKl' Hdeg Hn16 UA HA tA Hwf Hinj HB1 HB2 hash G1 Hf pe' coins Hsh' Hids Ho Hnr' Hnz'
      Xm2 Xk2 Lr Lz Xm2' Xk2' Am2 Ak2.
  have [r' [rds1' [Hr' Tw R1']]] := Tw1 pm' pk' pr' pz' pe' (And5 Lm' Lk' Lr' Lz' Le') (And5 Am Ak Ar Az Ae) Bm'.
  pose pp' := material_of emb Ms d bR bZ pm' pk' pr' pz' pe'.
  have Ho' : holds emb n circ K M nr nz pp' (Polys pm' pk' pr' pz' pe').
  { move=> me Hm. split; rewrite /pp' /material_of /= ?Em ?Ek ?Ekt //. by rewrite /nr /nz -Ee -Ekt. }
  have [res' R2'] := R3 pp' Ho'.
  have Epp a : a \in A -> pp a = pp' a.
  { move=> Ha. rewrite /pp /pp' /material_of. by rewrite (agree_held Am Ha) (agree_held Ak Ha) (agree_held Ar Ha) (agree_held Az Ha) (agree_held Ae Ha). }
  have HM' : material emb n t l d pp' mk' ks' (fun j => [seq (pr' j).[x] | x <- default_pos emb n l]) es'.
  { split.
    + split; last by move=> j _; exact: (Hmk' j).2.
      apply: sharings_ext (sh_low HSS Lm') => [i Hi|j Hj] //. by rewrite Xm'.
    + split=> //. apply: sharings_ext (sh_low HSS Lk') => [i Hi|j Hj] //. by rewrite Xk'.
    + exists nr. split=> //. exact: (sh_low HSS Lr').
    + exists nz. split=> //. exact: (sh_zero HSS Lz').
    + apply: sharings_ext (sh_low HSS Le') => [i Hi|j Hj] //. by rewrite Xe'. }
  have [g2 [Hg2 RG]] := garble_rounds sha h0 draws hash HG Hd HM' Hids. have [rds3 [tabs' [I3 R4 T]]] := RG coins'.
  have Eg2 me : (me < n)%N -> g2 me = g me by move=> Hm; have := Hg2 me Hm; rewrite Hg // => -[].
  have {}R4 := realizes_eq (fun i k (Hi : (i < n)%N) => congr1 (fun x => garble emb ser de hash x id2 (pp' i) (coins' i) k) (Eg2 i Hi)) (fun i Hi => erefl) R4.
  have U (c2 : seq (seq N)) : perm_eq c2 chans -> uniq (chans1 ++ c2).
  { move=> Hp. rewrite cat_uniq U1 (perm_uniq Hp) /=. apply/andP; split.
    + apply/hasPn => x. rewrite (perm_mem Hp) => Hx. apply/negP => Hx'.
      have [s1 Q1] := preproc_below Hids1 Hx'. have [s2 Q2] := garble_below Hids Hx.
      apply: (Hroots s1 s2). by rewrite -Q1 -Q2.
    + apply: NoDup_uniq. exact: (P_ProtoId.C20_garble_ids_distinct _ _ _ _ Hids).1. }
  have I1' : ids rds1' = chans1 by rewrite -(twins_ids Tw).
  pose G i (x : preproc_data F) k := garble emb ser de hash (g i) id2 x (coins i) k.
  pose G' i (x : preproc_data F) k := garble emb ser de hash (g i) id2 x (coins' i) k.
  have RR := @realizes_seq n [eqType of seq N] D (val F) _ _ rds1 rds2 (fun i k => pre r i k) pp G _ R1 R2.
  have RR' := @realizes_seq n [eqType of seq N] D (val F) _ _ rds1' rds2' (fun i k => pre r' i k) pp' G' _ R1' R2'.
  have RT := @realizes_seq n [eqType of seq N] D (val F) _ _ rds1' rds3 (fun i k => pre r' i k) pp' G' _ R1' R4.
  exists r', coins', pp, pp', (fun j => [seq (pr' j).[x] | x <- default_pos emb n l]), tabs'. split.
  - move=> a Ha. by rewrite Hr' // Hco.
  - split.
    + apply: (realizes_runs Hn (ser [::]) (@pp_val F) _ R1). by rewrite I1.
    + apply: (realizes_runs Hn (ser [::]) (@pp_val F) _ R1'). by rewrite I1'.
  - exact: HM'.
  - split=> //. apply: (realizes_runs Hn (ser [::]) (@garble_val F) _ RT). by rewrite /ids map_cat -!/(ids _) I1' U.
  - split; first exact: Epp. move=> s q c x Hs Hq.
    have UU : uniq (ids (rds1 ++ rds2)) by rewrite /ids map_cat -!/(ids _) I1 U.
    exact: (@twin_view n _ D A Hn HA (val F) _ _ (rds1 ++ rds2) (rds1' ++ rds2') (fun i k => pre r i (fun x => G i x k)) res (@garble_val F)
       (fun i k => pre r' i (fun x => G' i x k)) res' (@garble_val F) (ser [::]) s q c x UU RR RR' (twins_cat Tw Htw) Hq).
Qed.
Print Assumptions C63_pipeline_hides.

(** The condition on the first matrix holds for the one the library builds: with
    [B] rows, it hides from any [n - B] parties. *)
Theorem C63_super_inv_hides : forall (F : fieldType) (emb : nat -> F) n B M A,
  good_nodes emb n -> (0 < B)%N -> super_inv_matrix emb n B = Some M ->
  uniq A -> all (fun i => (i < n)%N) A -> (size A + B <= n)%N -> hides n M A.
Proof.
  move=> F emb n B M A Hg HB HM UA HA HAB c Hc r0.
  have HBn : (0 < B <= n)%N by rewrite HB; clear -HAB; lia.
  have [M' []] := C08_super_invertible Hg HBn.
  rewrite HM => -[<-] [Ec [Er [_ Hx]]] Hr0. rewrite Er in Hr0.
  pose hs := [seq s <- iota 0 n | s \notin A]. pose cs := take B hs.
  have Shs : (B <= size hs)%N.
  { have E : (seq.count (mem A) (iota 0 n) + size hs = n)%N by rewrite size_filter seq.count_predC size_iota.
    have : (seq.count (mem A) (iota 0 n) <= size A)%N.
    { rewrite -size_filter. apply: uniq_leq_size; first by rewrite filter_uniq // iota_uniq.
      by move=> x; rewrite mem_filter => /andP []. }
    move: E HAB. clear. lia. }
  have Scs : size cs = B by rewrite size_takel.
  have Ucs : uniq cs by rewrite take_uniq // filter_uniq // iota_uniq.
  have Mcs s : s \in cs -> (s < n)%N /\ s \notin A.
  { move=> /mem_take. rewrite mem_filter mem_iota /= => /andP [H1 H2]. by split. }
  have Acs : all (fun j => (j < n)%N) cs by apply/allP => s /Mcs [].
  have [|x [[Sx [Zx Ex]] _]] := Hx cs [::] [seq (r == r0)%:R | r <- iota 0 B] Ucs Scs Acs; first by rewrite size_map size_iota.
  have Ey r : (r < B)%N -> \sum_(s < n) entry M r s * x`_s = (r == r0)%:R.
  { move=> Hr. have := congr1 (fun v => v`_r) Ex. rewrite /mat_apply (nth_map [::]) ?Er // (nth_map 0%N) ?size_iota // nth_iota // add0n Sx => <-. by []. }
  have -> : c r0 = \sum_(r < size (rows M)) c r * (r == r0 :> nat)%:R.
  { rewrite Er (bigD1 (Ordinal Hr0)) //= eqxx mulr1 big1 ?addr0 // => r Hr. case: eqP => E; last by rewrite mulr0.
    by case/eqP: Hr; apply: val_inj. }
  rewrite (eq_bigr (fun r : 'I_(size (rows M)) => \sum_(s < n) c r * entry M r s * x`_s)); last first.
  { move=> r _. rewrite -Ey; last by have := ltn_ord r; rewrite {2}Er. rewrite mulr_sumr. apply: eq_bigr => s _. by rewrite mulrA. }
  rewrite exchange_big big1 //= => s _. rewrite -mulr_suml.
  case Hs: (nat_of_ord s \in cs).
  - have [Hsn HsA] := Mcs _ Hs. by rewrite Hc // mul0r.
  - by rewrite Zx ?ltn_ord ?Hs // nth_nil mulr0.
Qed.
Print Assumptions C63_super_inv_hides.

(** Seven parties over GF(32) with the circuit of C61 and the matrices of the
    library for the sharings and of a code with distance two for the bits: each
    party but the first is shielded. *)
Example C63_example : exists P Pn (Ms Mb : mat (gf_fieldType w5)) d chans bR bZ bB,
  let e := n_errors d in let B := size (rows Ms) in let BB := size (rows Mb) in
  [/\ garble_setting g5 (@gser w5) (@gde w5) len_ok 7 1 3 P Pn circ7 1 2, describe circ7 7 1 3 (Lpn 1 2) = Some d,
      super_inv_matrix g5 7 6 = Some Ms,
      [/\ (0 < B)%N, (0 < BB)%N, ncols Ms = 7%N, ncols Mb = 7%N & binary Mb] &
      ProtoIdModel.garble_ids [:: 7]%num circ7 (N.of_nat 3) = Some chans /\ forall u v : seq N, [:: 5%num] ++ u <> [:: 7%num] ++ v] /\
  [/\ (keys_total d + n_randoms d + 3 * e <= B * bR < keys_total d + n_randoms d + 3 * e + B)%N,
      (n_zeros d + 2 * e <= B * bZ < n_zeros d + 2 * e + B)%N, (n_masks d + 2 * e <= BB * bB < n_masks d + 2 * e + BB)%N,
      forall m, (m <= maxn (maxn bR bZ) (maxn bB e))%N -> len_ok m &
      forall a, (0 < a < 7)%N -> [/\ coalition 7 1 [:: a], shielded 7 3 [:: a] circ7, hides 7 Ms [:: a] & hides_bits 7 Mb [:: a]]].
Proof.
  have [P [Pn [d [chans [HG Ed Hids [_ Hsh _]]]]]] := C62_example.
  have Hg : good_nodes g5 7 by apply: C08_field_has_enough_points.
  have [Ms [EMs [S1 [S2 _]]]] := C08_super_invertible Hg (isT : (0 < 6 <= 7)%N).
  pose Mb := Mat 7 [:: [:: 1; 1; 0; 0; 0; 0; 0]; [:: 0; 1; 1; 0; 0; 0; 0]] : mat (gf_fieldType w5).
  have B0 : (0 < size (rows Ms))%N by rewrite S2.
  have BB0 : (0 < size (rows Mb))%N by [].
  have [bR [_ LR]] := num_batchesE (keys_total d + n_randoms d + 3 * n_errors d) B0.
  have [bZ [_ LZ]] := num_batchesE (n_zeros d + 2 * n_errors d) B0.
  have [bB [_ LB]] := num_batchesE (n_masks d + 2 * n_errors d) BB0.
  exists P, Pn, Ms, Mb, d, chans, bR, bZ, bB. split.
  - split=> //. split=> // r. rewrite !inE => /orP [] /eqP -> y; rewrite !inE => H; repeat (move: H => /orP [/eqP ->|H]; [by auto|]); by move/eqP: H => ->; auto.
  - split=> //.
    + move=> m.
      have [D1 D2 D3] : [/\ (keys_total d + n_randoms d + 3 * n_errors d <= 999)%N, (n_zeros d + 2 * n_errors d <= 999)%N & (n_masks d + 2 * n_errors d <= 999)%N] by case: Ed => <-.
      have X k : (k <= 999)%N -> (N.of_nat k < 2 ^ 64)%num.
      { move=> Hk. apply: (N.lt_le_trans _ 1000); [clear -Hk; lia|by apply/N.leb_le]. }
      apply: (@batches_fit (_, _, _) bR bZ bB _ m (batch_le B0 LR) (batch_le B0 LZ) (batch_le BB0 LB) _ (X _ D1) (X _ D2) (X _ D3)).
      apply: leq_trans (leq_addl _ _). by rewrite leq_pmull.
    + move=> a Ha. have [C1 C2] := Hsh a Ha. split=> //.
      * apply: C63_super_inv_hides EMs _ _ _ => //=; by case/andP: Ha => _ ->.
      * move=> c Hc. rewrite [size _]/= => r Hr.
        have Hs s : (s < 7)%N -> s != a -> (if c 0%N then entry Mb 0 s else 0) + (if c 1%N then entry Mb 1 s else 0) = 0.
        { move=> Hs Ha'. have := Hc s Hs. rewrite inE Ha' => /(_ isT). by rewrite !big_ord_recl big_ord0 addr0. }
        have N1 : (1 : gf_fieldType w5) <> 0 by apply/eqP; exact: oner_neq0.
        have E0 : 0%N != a -> c 0%N = false by move=> /(Hs 0%N isT); rewrite /entry /=; case: (c 0%N) => //; case: (c 1%N); rewrite addr0.
        have E2 : 2%N != a -> c 1%N = false by move=> /(Hs 2%N isT); rewrite /entry /=; case: (c 1%N) => //; case: (c 0%N); rewrite add0r.
        have E1 : 1%N != a -> c 0%N = c 1%N.
        { move=> /(Hs 1%N isT). rewrite /entry /=. case: (c 0%N); case: (c 1%N) => //; by rewrite ?addr0 ?add0r. }
        have [C0 C1'] : c 0%N = false /\ c 1%N = false.
        { case: (0%N =P a) => [Ea|/eqP Ea]; last case: (2%N =P a) => [Eb|/eqP Eb].
          - by subst a.
          - subst a. by rewrite -E1 // E0.
          - by rewrite E0 // E2. }
        by case: r Hr => [|[|r]] // _.
Qed.

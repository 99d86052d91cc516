(** Property theorems C61: shares that the messages of garbling disclose. *)

From Coq Require Import NArith List.
From Verif Require Import CircuitModel LpnModel LpnSpec.
From mathcomp Require Import all_ssreflect all_algebra zify.
From Verif Require Import MathModel MathProofs SharingModel SharingSpec SharingProofs.
From Verif Require Import MachineModel MachineProofs MachineBuild Realize CoreModel CoreSpec CoreProofs ViewSpec.
From Verif Require Import RandTransProofs PreprocModel PreprocSpec GarbleModel GarbleSpec GarbleGates GarbleTf GarbleWires.
From Verif Require Import GFField GFCodec P_Math P_Core P_Preproc P_Garble P_View LeakProofs.
From Verif Require ProtoIdModel.
Set Implicit Arguments.
Unset Strict Implicit.
Unset Printing Implicit Defensive.
Import GRing.Theory.
Local Open Scope ring_scope.

(** ** C61 *)

(** Shares of the two masks of a transformation coincide: if it leads from [o]
    to [p] < l positions, what party [m] has of the mask at the new positions is
    what party [m + p - o] has of the mask at the old ones, for every
    [m < l - p]. *)
Theorem C61_mask_shares_repeat : forall (F : fieldType) (emb : nat -> F) (I D : eqType) ser de fits n t l P Pn
    (id : I) num (tf : seq (seq F * seq F * seq nat)) randoms zeros R,
  @codec_ok F D ser de fits -> setting emb n t l P Pn -> fits (2 * num)%N ->
  (t + 2 * l <= n)%N -> (size tf <= l)%N ->
  let none := ([::], [::], [::]) in
  (forall k, (k < size tf)%N -> transform_ok emb n l (nth none tf k)) ->
  let pos := default_pos emb n l in
  sharings emb n (t + l).-1 pos ((n + t) * num) randoms R ->
  sharings emb n n.-1 pos (2 * n * num) zeros (fun _ => nseq l 0) ->
  exists rt, (forall i, (i < n)%N -> rt_new emb (Ctx i n t l P Pn) tf = Some (rt i)) /\
  every_run_ends n
    (start (fun i => randtrans ser de (Ctx i n t l P Pn) id (randoms i) (zeros i) (rt i)
                       (fun y => Ret (Node [:: Leaf y.1; Leaf y.2]))))
    (fun c => exists out, all_done n (fun i => Node [:: Leaf (out i).1; Leaf (out i).2]) c /\
       forall k j m m', (k < size tf)%N -> (j < num)%N ->
         let: (opos, npos, f) := nth none tf k in
         (size npos + m < l)%N -> (size npos + m = size opos + m')%N ->
         nth 0 (nth [::] (out m).1 k) j = nth 0 (nth [::] (out m').2 k) j).
Proof.
  move=> F emb I D ser de fits n t l P Pn id num tf randoms zeros R serK HS Hf Htl Hm none Htf pos Sr Sz.
  have Hn := setting_n HS. have [Ht HP HPn Hg] := HS.
  have HKl : (t + l + l <= n)%N by lia.
  have Htf' : forall k, (k < size tf)%N -> tf_ok emb n l (nth ([::], [::], [::]) tf k).
  { move=> k Hk. have := Htf k Hk. rewrite /transform_ok /tf_ok /none. by case: (nth _ tf k) => [[o p] f]. }
  exists (rts emb n t l tf). split.
  { move=> i Hi. exact: (@rt_newE _ emb n t l P Pn Hn Ht HKl tf Hm Htf' i Hi). }
  have R1 := @randtrans_realizes _ emb _ D ser de fits serK n t l P Pn Hn HPn Ht HKl tf Hm num randoms zeros R Hf Sr Sz id.
  apply: ends_mono (one_round (ser [::]) (fun y => Node [:: Leaf y.1; Leaf y.2]) Hn R1) => c Hc.
  eexists. split; first exact: Hc. move=> k j m m' Hk Hj.
  have := @rt_repeat _ emb n t l Hn Hg Ht HKl tf Hm Htf' num randoms zeros R Sr Sz k m m' j Hk Hj.
  rewrite /none. by case: (nth _ tf k) => [[o p] f].
Qed.
Print Assumptions C61_mask_shares_repeat.

(** What [t] parties see of two runs is the same: what they start with and the
    messages that are sent to them. *)
Definition same_view (n : nat) (F : fieldType) (D : eqType) (A : seq nat) (pp pp' : nat -> preproc_data F)
    (C C' : nat -> proc [eqType of seq N] D (val F)) : Prop :=
  (forall a, a \in A -> pp a = pp' a) /\
  forall s r c x, (s < n)%N -> r \in A -> sent_in n C s r c x <-> sent_in n C' s r c x.

(** Let all gates of a gate block that is not full have the same wire [w] as an
    input, and let the party that leads the transformation for this input block
    and a party [m], one of the first, be among [t] parties [A] who compare notes;
    [w] is in a full block.  If they see the same in two runs of [garble], then what
    is shared for the wires of that block (masks or any symbol of the labels)
    does not differ in exactly one wire: they know a linear relation of these
    secrets, all of whose coefficients are non-zero. *)
Theorem C61_one_changed_wire_is_seen : forall (F : fieldType) (emb : nat -> F) (D : eqType) ser de fits n t l P Pn circ K M
    (H : eqType) (sha : seq N -> H) h0 draws hash d id chans g,
  @garble_setting F emb D ser de fits n t l P Pn circ K M ->
  describe circ n t l (Lpn K M) = Some d ->
  ProtoIdModel.garble_ids id circ (N.of_nat l) = Some chans ->
  (forall i, (i < n)%N -> gctx_new emb sha h0 draws circ (Ctx i n t l P Pn) (Lpn K M) = Some (g i)) ->
  let code pp coins := fun i => garble emb ser de hash (g i) id (pp i) (coins i) (fun y => Ret (garble_val y)) in
  forall A i m k w, coalition n t A -> size A = t ->
  (i < size (inp_blocks circ))%N -> nth [::] (inp_blocks circ) i = nseq k w ->
  let block := nth [::] (out_blocks circ) (block_of circ w) in size block = l ->
  m \in A -> (i %% n)%N \in A -> (0 < k)%N -> (k + m < l)%N -> (k + m).-1 \notin A ->
  forall pp mk ks rs es coins pp' mk' ks' rs' es' coins',
  material emb n t l d pp mk ks rs es -> material emb n t l d pp' mk' ks' rs' es' ->
  same_view n A pp pp' (code pp coins) (code pp' coins') ->
  forall j v, (j < 2 * K + 1)%N -> v \in block ->
  (forall u, u \in block -> u != v -> wire_value circ K mk ks u j = wire_value circ K mk' ks' u j) ->
  wire_value circ K mk ks v j = wire_value circ K mk' ks' v j.
Proof.
  move=> F emb D ser de fits n t l P Pn circ K M H sha h0 draws hash d id chans g HS Hd Hids Hg code A i m k w [UA /allP An _] ZA
    Hi Ews block Zb Hm HL Hk Hkm Hm' pp mk ks rs es coins pp' mk' ks' rs' es' coins' HM HM' [Epp V] j v Hj Hv Hsame.
  have [[serK HSS F2 Hwf Hinj] [Hl0 /andP [HKl Hn16] Hdeg _ Hf]] := HS.
  have HKl' : (t + l + l <= n)%N by clear -HKl; lia.
  have [_ Hsub] := inp_wires Hwf (mem_nth [::] Hi).
  have Hw : w \in flatten (out_blocks circ) by apply: Hsub; rewrite Ews mem_nseq Hk eqxx.
  have HA a : a \in A -> (a < n)%N /\ pp a = pp' a by move=> Ha; split; [exact: An|exact: Epp].
  have [Hb _] := block_ofP Hw. have [Ub Hbsub] := out_uniq Hwf (block_of circ w). rewrite -/block in Ub Hbsub.
  have Ebl u : u \in block -> block_of circ u = block_of circ w by move=> Hx; exact: (block_of_uniq Hwf Hb Hx).
  have [p [p' X]] : exists p p' : nat -> {poly F}, forall j, (j < 2 * K + 1)%N ->
    [/\ (size (p j) <= t + l)%N, (size (p' j) <= t + l)%N,
        forall v, v \in flatten (out_blocks circ) -> block_of circ v = block_of circ w ->
          (p j).[wpos emb n l v] = wire_value circ K mk ks v j /\ (p' j).[wpos emb n l v] = wire_value circ K mk' ks' v j &
        forall a, a \in (k + m).-1 :: A -> (p j).[emb a] = (p' j).[emb a]].
  { have := shares_fixed HS Hd Hids Hg HA HM HM' V (w := w) (m := m) Hi. cbv zeta. rewrite !Ews !size_nseq.
    by move/(_ Hk erefl Hw Hm HL Hkm Hm'). }
  have [S1 S2 X1 X2] := X j Hj.
  have [Y1 Y2] := X1 v (Hbsub v Hv) (Ebl v Hv). rewrite -Y1 -Y2.
  apply/eqP. rewrite -subr_eq0 -hornerN -hornerD. set q := p j - p' j.
  pose idx := ((k + m).-1 :: A) ++ [seq (N.to_nat u + (n + l))%N | u <- rem v block].
  suff -> : q = 0 by rewrite horner0.
  apply: (@roots_geq_poly_eq0 _ _ [seq emb a | a <- idx]).
  - apply/allP => _ /mapP [a Ha ->]. rewrite /root /q hornerD hornerN subr_eq0.
    move: Ha. rewrite mem_cat => /orP [Ha|/mapP [u Hu ->]]; first by rewrite X2.
    have Hub := mem_rem Hu. have [Z1 Z2] := X1 u (Hbsub u Hub) (Ebl u Hub). rewrite -/(wpos emb n l u) Z1 Z2 Hsame //.
    by move: Hu; rewrite mem_rem_uniq // inE => /andP [].
  - have Hlt a : a \in idx -> (a < n + l + N.to_nat (p_num_wires circ))%N.
    { rewrite mem_cat => /orP [|/mapP [u Hu ->]].
      - rewrite inE => /orP [/eqP ->|/An Ha]; [clear -Hkm HKl; lia|clear -Ha; lia].
      - have := wires_lt Hl0 HKl' Hwf Hinj (Hbsub u (mem_rem Hu)). move: (N.to_nat u) (N.to_nat (p_num_wires circ)) => x y Hx. rewrite addnC ltn_add2l //. }
    rewrite map_inj_in_uniq => [|a a' Ha Ha']; last by apply: (emb_inj Hinj); exact: Hlt.
    rewrite /idx cat_uniq. apply/and3P. split; first by rewrite /= Hm' UA.
    + apply/hasPn => _ /mapP [u Hu ->]. apply/negP. rewrite /= inE => /orP [/eqP E|/An E]; [clear -E Hkm HKl; lia|clear -E; lia].
    + rewrite map_inj_uniq ?rem_uniq // => a a' E. apply: Nnat.N2Nat.inj. by move/eqP: E; rewrite eqn_add2r => /eqP.
  - rewrite size_map size_cat size_map size_rem // Zb /= ZA.
    apply: leq_trans (size_add _ _) _. rewrite size_opp geq_max. have -> : (t.+1 + l.-1 = t + l)%N by clear -Hl0; lia. by rewrite S1.
Qed.
Print Assumptions C61_one_changed_wire_is_seen.

(** Privacy of the masks, asking little: for all bits as masks there are some
    sharings and coins with which at most [t] parties see the same. *)
Definition garble_hides_masks : Prop :=
  forall (F : fieldType) (emb : nat -> F) (D : eqType) ser de fits n t l P Pn circ K M
    (H : eqType) (sha : seq N -> H) h0 draws hash d id chans g,
  @garble_setting F emb D ser de fits n t l P Pn circ K M ->
  describe circ n t l (Lpn K M) = Some d ->
  ProtoIdModel.garble_ids id circ (N.of_nat l) = Some chans ->
  (forall i, (i < n)%N -> gctx_new emb sha h0 draws circ (Ctx i n t l P Pn) (Lpn K M) = Some (g i)) ->
  let code pp coins := fun i => garble emb ser de hash (g i) id (pp i) (coins i) (fun y => Ret (garble_val y)) in
  forall A mk mk', coalition n t A ->
  (forall j, size (mk j) = l /\ bits (mk j)) -> (forall j, size (mk' j) = l /\ bits (mk' j)) ->
  exists pp ks rs es coins pp' ks' rs' es' coins',
    [/\ material emb n t l d pp mk ks rs es, material emb n t l d pp' mk' ks' rs' es' &
        same_view n A pp pp' (code pp coins) (code pp' coins')].

(** GF(32); x3 = x0 and x1, x4 = x0 and x2, x5 = x3 xor x4, x6 = not x5, in
    blocks of three. *)
Definition w5 : width := @Width 5%num isT.
Notation g5 := (gf_of w5).
Definition circ7 : pcircuit :=
  PCircuit [:: PAnd [:: 0; 0] [:: 1; 2] [:: 3; 4]; PXor [:: 3] [:: 4] [:: 5]; PInv [:: 5] [:: 6]]%num
    [:: [:: 0; 1; 2]]%num [:: [:: 6]]%num 7 3.

Lemma setting7 : exists P Pn, garble_setting g5 (@gser w5) (@gde w5) len_ok 7 1 3 P Pn circ7 1 2.
Proof.
  have [P [Pn HS]] : exists P Pn, setting g5 7 1 3 P Pn.
  { do 2 eexists. split; [by []|reflexivity|reflexivity|by vm_compute]. }
  exists P, Pn. split; split=> //.
  - exact: gserK.
  - exact: gf_char2.
  - move=> m Hm. rewrite /len_ok. apply: (N.lt_le_trans _ 12); [lia|]. by apply/N.leb_le.
Qed.

(** Seven parties, one of them corrupted: party 0 alone can tell the masks
    (0,0,0) of the input wires from (1,0,0). *)
Theorem C61_garble_hides_masks_refuted : ~ garble_hides_masks.
Proof.
  move=> X. have [P [Pn HS]] := setting7.
  have [[_ HSS _ Hwf Hinj] _] := HS.
  have [d Hd] : exists d, describe circ7 7 1 3 (Lpn 1 2) = Some d by eexists; vm_compute; reflexivity.
  have [chans Hids] : exists chans, ProtoIdModel.garble_ids [:: 7]%num circ7 (N.of_nat 3) = Some chans by eexists; vm_compute; reflexivity.
  have [B1 [B2 [HB1 HB2 _ _ _]]] := GarbleRun.describeE Hd.
  pose draws (_ : [eqType of seq N]) (_ : nat) : gf w5 := 0.
  have [g [enc [_ Hg]]] := GarbleRun.gctx_newE HSS (isT : (0 < 3)%N) (isT : (1 + 3 + 3 <= 7)%N) Hwf Hinj (id : seq N -> [eqType of seq N]) [::] draws 1 2 HB1 HB2.
  have Hg' i : (i < 7)%N -> gctx_new g5 (id : seq N -> [eqType of seq N]) [::] draws circ7 (Ctx i 7 1 3 P Pn) (Lpn 1 2) = Some (g i) by move=> /Hg [].
  pose mk (b : bool) (j : nat) : seq (gf w5) := [:: b%:R; 0; 0].
  have Hmk b j : size (mk b j) = 3%N /\ bits (mk b j).
  { split=> // y. rewrite !inE. case: b => /or3P [] /eqP ->; by [left|right]. }
  have [|||pp [ks [rs [es [coins [pp' [ks' [rs' [es' [coins' [HM HM' V]]]]]]]]]]] := X _ _ _ _ _ _ _ _ _ _ _ _ _ _ _ _ _ _ (fun _ => 0%num) _ _ _ _ HS Hd Hids Hg' [:: 0%N] (mk false) (mk true).
  - by split.
  - exact: Hmk.
  - exact: Hmk.
  have HC : coalition 7 1 [:: 0%N] by split.
  have := @C61_one_changed_wire_is_seen _ _ _ _ _ _ _ _ _ _ _ _ _ _ _ _ _ _ _ _ _ _ _ HS Hd Hids Hg' [:: 0%N] 0%N 0%N 2%N 0%num HC erefl isT erefl erefl isT isT isT isT isT
    _ _ _ _ _ _ _ _ _ _ _ _ HM HM' V 2%N 0%num isT isT.
  have E (b : bool) ks0 u : u \in [:: 0; 1; 2]%num -> wire_value circ7 1 (mk b) ks0 u 2 = if u == 0%num then b%:R else 0.
  { by rewrite !inE => /or3P [] /eqP ->. }
  rewrite !E // => Y. have : (0 : gf w5) = 1.
  { apply: Y => u Hu Hne. by rewrite !E // (negbTE Hne). }
  by move/eqP; rewrite eq_sym oner_eq0.
Qed.
Print Assumptions C61_garble_hides_masks_refuted.

(** The circuit is what [pack] makes of a circuit of two AND gates, and material
    for it exists for all masks. *)
Example C61_example :
  pack (Circuit [:: And 0 1 3; And 0 2 4; Xor 3 4 5; CircuitModel.Inv 5 6]%num [:: [:: 0; 1; 2]]%num [:: [:: 6]]%num 7) 3 = Some circ7 /\
  exists P Pn d, [/\ garble_setting g5 (@gser w5) (@gde w5) len_ok 7 1 3 P Pn circ7 1 2, describe circ7 7 1 3 (Lpn 1 2) = Some d &
    forall mk, (forall j, size (mk j) = 3%N /\ bits (mk j)) ->
      exists pp ks rs es, material g5 7 1 3 d pp mk ks rs es].
Proof.
  split; first by vm_compute.
  have [P [Pn HS]] := setting7. have [[_ HSS _ Hwf Hinj] _] := HS.
  have [d Hd] : exists d, describe circ7 7 1 3 (Lpn 1 2) = Some d by eexists; vm_compute; reflexivity.
  exists P, Pn, d. split=> // mk Hmk.
  have [pp [Hm _]] := @material_exists _ g5 7 1 3 P Pn d mk (fun j => nseq 3 (g5 j)) (fun _ => nseq 3 1) (fun _ => nseq 3 0) HSS
    (fun j => (Hmk j).1) (fun j => (Hmk j).2) (fun _ => erefl) (fun _ => erefl) (fun _ => erefl).
  by exists pp, (fun j => nseq 3 (g5 j)), (fun _ => nseq 3 1), (fun _ => nseq 3 0).
Qed.

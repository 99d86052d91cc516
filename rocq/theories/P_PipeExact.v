(** Property theorems C69: what a coalition sees of preprocessing and garbling is
    independent of the masks, the labels and the errors. *)

From Coq Require Import NArith List.
From Verif Require Import CircuitModel LpnModel LpnSpec.
From mathcomp Require Import all_ssreflect all_algebra zify.
From Verif Require Import MathModel MathProofs MatProofs SharingModel SharingSpec SharingProofs.
From Verif Require Import MachineModel MachineProofs MachineBuild Realize CoreModel CoreSpec CoreProofs ViewSpec.
From Verif Require Import RandTransProofs PreprocModel PreprocSpec PreprocProofs PreprocRun GarbleModel GarbleSpec GarbleGates GarbleTf GarbleWires GarbleRun.
From Verif Require Import TwinProofs TwinCore TwinWires TwinRun HideSpec HideProofs TwinDeal TwinPre ExactErr ExactPre DiceSpec DiceProofs PipeDiceSpec PipeDice.
From Verif Require Import GFField GFCodec P_Math P_Sharing P_Core P_Preproc P_Garble P_View P_Leak P_Secrecy P_BinPre P_Pipeline P_PipeSecrecy P_Exact.
From Verif Require ProtoIdModel P_ProtoId.
Set Implicit Arguments.
Unset Strict Implicit.
Unset Printing Implicit Defensive.
Import GRing.Theory.
Local Open Scope ring_scope.

(** ** C69 *)

(** Shares have the secrets of their polynomials. *)
Lemma sharings_held (F : fieldType) (emb : nat -> F) n t l P Pn (HS : setting emb n t l P Pn) num (p : nat -> {poly F}) (v : nat -> seq F) (sec : nat -> seq F) :
  low t l num p -> (forall i, (i < n)%N -> v i = held emb p num i) ->
  sharings emb n (t + l).-1 (default_pos emb n l) num v sec <-> forall j, (j < num)%N -> sec j = [seq (p j).[x] | x <- default_pos emb n l].
Proof.
  move=> Lp Hv. have [Ht Hnew _ Hgp] := HS. have Htl := TwinCore.Kn HS. have Hn := setting_n HS.
  split=> [S j Hj|H]; last first.
  { apply: sharings_ext (sh_low HS Lp) => [i Hi|j Hj]; [by rewrite Hv|by rewrite H]. }
  have [q [Hq Eq]] := sharings_polys S. have [Sq ->] := Hq j Hj.
  rewrite (prednK Ht) in Sq. have -> // : q j = p j.
  have Hx i : (i < t + l)%N -> (q j).[emb i] = (p j).[emb i]; last by apply: (TwinDeal.same_poly HS (m := t + l) (gp0 HS) Sq (Lp j Hj)).
  move=> Hi.
  have Hin : (i < n)%N by exact: leq_trans Hi Htl.
  have := congr1 (fun s => nth 0 s j) (etrans (esym (Eq i Hin)) (Hv i Hin)). by rewrite !(nth_map 0%N) ?size_iota // !nth_iota.
Qed.

(** The dice can be renamed, one to one, such that mask bits, labels and the bits
    and the scalars of the errors change by given amounts, and the coalition sees
    the same. *)
Lemma renaming (F : fieldType) (emb : nat -> F) (D : eqType) ser de fits n t l P Pn circ K M
    (H : eqType) (sha : seq N -> H) h0 draws hash (Ms Mb : mat F) (id1 id2 : seq N) d chans bR bZ bB g :
  @garble_setting F emb D ser de fits n t l P Pn circ K M -> describe circ n t l (Lpn K M) = Some d ->
  (0 < size (rows Ms))%N -> (0 < size (rows Mb))%N -> ncols Ms = n -> ncols Mb = n -> binary Mb ->
  let e := n_errors d in
  let R := size (rows Ms) in let Rb := size (rows Mb) in
  (keys_total d + n_randoms d + 3 * e <= R * bR < keys_total d + n_randoms d + 3 * e + R)%N ->
  (n_zeros d + 2 * e <= R * bZ < n_zeros d + 2 * e + R)%N ->
  (n_masks d + 2 * e <= Rb * bB < n_masks d + 2 * e + Rb)%N ->
  (forall m, (m <= maxn (maxn bR bZ) (maxn bB e))%N -> fits m) ->
  ProtoIdModel.garble_ids id2 circ (N.of_nat l) = Some chans -> (forall u v, id1 ++ u <> id2 ++ v) ->
  (forall i, (i < n)%N -> gctx_new emb sha h0 draws circ (Ctx i n t l P Pn) (Lpn K M) = Some (g i)) ->
  let pre r i := preproc ser de (Ctx i n t l P Pn) Ms Mb id1 d (r i) in
  let code r coins i := pre r i (fun pp => garble emb ser de hash (g i) id2 pp (coins i) (fun y => Ret (garble_val y))) in
  forall A, coalition n t A -> shielded n l A circ -> hides n Ms A -> hides_bits n Mb A ->
  forall B, enough_dice B n circ (Lpn K M) d bR bZ bB ->
  exists (pp : pipe_dice F B -> nat -> preproc_data F) (bit : pipe_dice F B -> nat -> nat -> bool) (key sca : pipe_dice F B -> nat -> nat -> F) (i0 i1 : nat -> nat),
  [/\ forall w, every_run_ends n (start (fun i => pre (cast_pre w) i (fun x => Ret (pp_val x)))) (all_done n (fun i => pp_val (pp w i))),
      forall w mk ks rs es, material emb n t l d (pp w) mk ks rs es -> every_run_ends n (start (code (cast_pre w) (cast_garble w)))
        (fun c => exists tabs rest, all_done n (fun i => garble_val ([seq tabs gid i | gid <- iota 0 (size (p_gates circ))], rest i)) c /\
           garbled emb sha draws circ n t l K M mk ks es tabs),
      forall j, (j < e)%N -> [/\ (i0 j < 2 * e)%N, (i1 j < 2 * e)%N &
        forall j', (j' < e)%N -> [/\ (i0 j == i0 j') = (j == j'), (i1 j == i1 j') = (j == j') & (i0 j == i1 j') = false]],
      forall w mk ks es, (exists rs, material emb n t l d (pp w) mk ks rs es) <->
        [/\ forall j, (j < n_masks d)%N -> mk j = [seq (bit w (2 * e + j)%N q)%:R | q <- iota 0 l],
            forall j, (j < keys_total d)%N -> ks j = [seq key w j q | q <- iota 0 l] &
            forall j, (j < e)%N -> es j = [seq (bit w (i0 j) q)%:R * (bit w (i1 j) q)%:R * sca w j q | q <- iota 0 l]] &
      forall (sB : nat -> nat -> bool) (sK sS : nat -> nat -> F), exists phi : pipe_dice F B -> pipe_dice F B, bijective phi /\ forall w,
        [/\ forall i q, (i < 2 * e + n_masks d)%N -> (q < l)%N -> bit (phi w) i q = bit w i q (+) sB i q,
            forall j q, (j < keys_total d)%N -> (q < l)%N -> key (phi w) j q = key w j q + sK j q,
            forall j q, (j < e)%N -> (q < l)%N -> sca (phi w) j q = sca w j q + sS j q,
            forall a, a \in A -> same_pre (cast_pre w a) (cast_pre (phi w) a) /\ same_coins (cast_garble w a) (cast_garble (phi w) a) &
            same_view n A (pp w) (pp (phi w)) (code (cast_pre w) (cast_garble w)) (code (cast_pre (phi w)) (cast_garble (phi w)))]].
Proof.
  move=> HG Hd B0 BB0 HMs HMb Hbin e R Rb LR LZ LB Hfp Hids Hroots Hg pre code A HC Hsh Hh Hhb B Hen.
  have [[serK HSS F2 Hwf Hinj] [Hl0 /andP [HKl Hn16] Hdeg _ Hf]] := HG. have Hn := setting_n HSS.
  have HKl' : (t + l + l <= n)%N by clear -HKl; lia.
  have Hn32 : (N.of_nat n <= 2 ^ 32)%num by clear -Hn16; lia.
  rewrite !subn1 in Hdeg.
  have [Ht _ _ Hgp] := HSS. have [UA HA tA] := HC.
  have [B1 [B2 [HB1 HB2 Em Ek [Er Ez Ee]]]] := describeE Hd.
  have [g' [enc [Eenc Hg']]] := gctx_newE HSS Hl0 HKl' Hwf Hinj sha h0 draws K M HB1 HB2.
  have Eg me : (me < n)%N -> g' me = g me by move=> Hm; have [E _ _ _] := Hg' me Hm; move: E; rewrite Hg // => -[].
  have G1 me (Hm : (me < n)%N) : [/\ g_mpc (g me) = Ctx me n t l P Pn, g_lpn (g me) = Lpn K M, g_circ (g me) = circ &
     [/\ g_lookup (g me) = block_map circ, g_out (g me) = tfs emb n t l (tf_out emb n l circ) B1 me & g_inp (g me) = tfs emb n t l (tf_inp emb n l circ) B2 me]].
  { have [_ E _ _] := Hg' me Hm. by rewrite Eg in E. }
  have Ekt : keys_total d = (2 * K * size (out_blocks circ))%N by rewrite /keys_total Ek.
  have [b1 [Eb1 Hb1]] := num_batchesE (keys_total d + n_randoms d + 3 * e) B0.
  have E1 : b1 = bR by rewrite -/R in Hb1; clear -Hb1 LR; nia. subst b1.
  have [b2 [Eb2 Hb2]] := num_batchesE (n_zeros d + 2 * e) B0.
  have E2 : b2 = bZ by rewrite -/R in Hb2; clear -Hb2 LZ; nia. subst b2.
  have [b3 [Eb3 Hb3]] := num_batchesE (n_masks d + 2 * e) BB0.
  have E3 : b3 = bB by rewrite -/Rb in Hb3; clear -Hb3 LB; nia. subst b3.
  have [chans1 Hids1] := P_ProtoId.C21_preproc_names_subprotocols id1 _ Hn32.
  have [ND Hlen] := P_ProtoId.C20_preproc_ids_distinct _ _ _ Hids1.
  have Hsz : size chans1 = (3 + 2 * n)%N by rewrite -[size chans1]/(length chans1) Hlen Nat2N.id.
  have U1 : uniq chans1 by exact: NoDup_uniq.
  have [/andP [LR1 _] /andP [LZ1 _] /andP [LB1 _]] := And3 LR LZ LB.
  have Hsh' : blocks_shielded n l A circ by move=> i Hi; cbv zeta; rewrite size_distinct; exact: Hsh.
  have Hnr' : (B1 * ((n + t) * (2 * K + 1)) + B2 * ((n + t) * (2 * K + 1)) + offs (gate_mults (Lpn K M)) (p_gates circ) (size (p_gates circ)) <= n_randoms d)%N.
  { rewrite Er leq_add2r. clear. nia. }
  have Hnz' : (B1 * (2 * n * (2 * K + 1)) + B2 * (2 * n * (2 * K + 1)) + offs (gate_mults (Lpn K M)) (p_gates circ) (size (p_gates circ)) <= n_zeros d)%N.
  { rewrite Ez leq_add2r. clear. nia. }
  have [cids [c0 [c1 [c2 [c3 [f [Et _ _ _ _]]]]]]] := garble_idsP HB1 HB2 Hids.
  have [X [XA XM]] := right_inverse Hh. have [Xb [XbA XbM]] := right_inverse_bits F2 (binary_entry Hbin) Hhb.
  have [nB [RB ZB BB _] _] := Hen.
  pose ex sB sK sS w := pipe_exact HSS nB RB ZB BB UA HA tA hash sB sK sS XA XM XbA XbM F2 serK Hl0 HKl' Hdeg Hn16 Hwf Hinj HB1 HB2 G1 Hf Em Ek Ee Hsh' Eb1 Eb2 Eb3 HMs HMb Hfp
    LR1 LZ1 LB1 Hnr' Hnz' Hen w Hids1 Hsz Hids Et.
  have Sbs : size (err_sizes e n) = n by exact: size_err_sizes Hn.
  have Ebs : sumn (err_sizes e n) = e by exact: sumn_err_sizes Hn.
  pose pos := default_pos emb n l. have Sp : size pos = l by exact: size_dp.
  pose bs := err_sizes e n. pose bq q := nth 0%N bs q. pose oq q := sumn (take q bs).
  have Bq q : (oq q + bq q <= e)%N by have := nth_le_sumn bs q; rewrite /bs Ebs.
  pose QB (w : pipe_dice F B) := mixed n Mb bB (pbp emb n t l w.1.2.1 w.2).
  pose QR (w : pipe_dice F B) := mixed n Ms bR (prp emb n t l w.1.1).
  pose pp (w : pipe_dice F B) := held_by emb n t l Ms Mb d bR bZ bB w.
  pose pe (w : pipe_dice F B) := pre_err emb n t l d (QB w) (QR w) (fun q => die w.1.2.2 0 q q) (fun q => die w.1.2.2 1 q q).
  pose bit w i q := (QB w i).[nth 0 pos q] == 1.
  pose key w j q := (QR w (3 * e + j)%N).[nth 0 pos q].
  pose isc w q o := (QR w (3 * oq q + (bq q + o))%N).
  pose sca w j q := (isc w (blk bs 1 j) (off bs 1 j)).[nth 0 pos q].
  pose i0 j := (2 * oq (blk bs 1 j) + off bs 1 j)%N. pose i1 j := (2 * oq (blk bs 1 j) + bq (blk bs 1 j) + off bs 1 j)%N.
  have spl j : (j < e)%N -> exists q o, [/\ (q < n)%N, (o < bq q)%N, j = (oq q + o)%N, blk bs 1 j = q & off bs 1 j = o].
  { move=> Hj. have [q [o [Hq Ho E]]] := @blk_split bs 1 j ltac:(by rewrite mul1n /bs Ebs). exists q, o. rewrite /bs Sbs in Hq. rewrite mul1n in Ho.
    rewrite [in blk _ _ _]E [in off _ _ _]E blkE ?offE ?mul1n //. split=> //. by rewrite E mul1n. }
  have bitE w i x : x \in pos -> is_bit (QB w i).[x].
  { move=> Hx. rewrite mixed_eval. apply: is_bit_sum => // s. apply: is_bit_mul; first exact: binary_entry.
    have [_ + _] := pbp_ok HSS w.1.2.1 w.2 s (i %% bB)%N. move=> /(_ (index x pos)). rewrite index_mem nth_index // => -> //. by case: (bdie _ _ _ _); [right|left]. }
  have bitR w i q : (q < l)%N -> (QB w i).[nth 0 pos q] = (bit w i q)%:R.
  { move=> Hq. rewrite /bit. have [|->|->] := bitE w i (nth 0 pos q); first (by rewrite mem_nth // Sp); by rewrite ?eqxx // eq_sym oner_eq0. }
  have mapP' (p : {poly F}) (v : nat -> F) : (forall q, (q < l)%N -> p.[nth 0 pos q] = v q) -> [seq p.[x] | x <- pos] = [seq v q | q <- iota 0 l].
  { move=> Hv. apply: (@eq_from_nth _ 0); rewrite !size_map !size_iota // => q Hq. by rewrite (nth_map 0) ?Sp // Hv // (nth_map 0%N) ?size_iota // nth_iota. }
  have Lpe w : low t l e (pe w) by have [_ _ [_ H1] _] := ex (fun _ _ => false) (fun _ _ => 0) (fun _ _ => 0) w.
  have U (cc : seq (seq N)) : perm_eq cc chans -> uniq (chans1 ++ cc).
  { move=> Hp. rewrite cat_uniq U1 (perm_uniq Hp) /=. apply/andP; split.
    + apply/hasPn => x. rewrite (perm_mem Hp) => Hx. apply/negP => Hx'.
      have [s1 Q1] := preproc_below Hids1 Hx'. have [s2 Q2] := garble_below Hids Hx.
      apply: (Hroots s1 s2). by rewrite -Q1 -Q2.
    + apply: NoDup_uniq. exact: (P_ProtoId.C20_garble_ids_distinct _ _ _ _ Hids).1. }
  exists pp, bit, key, sca, i0, i1. split.
  - move=> w. have [_ _ _ [rds1 [_ [_ [_ [[I1 _] _ [R1 _] _ _]]]]]] := ex (fun _ _ => false) (fun _ _ => 0) (fun _ _ => 0) w.
    apply: (realizes_runs Hn (ser [::]) (@pp_val F) _ R1). by rewrite I1.
  - move=> w mk ks rs es Hmat. have [_ _ _ [rds1 [_ [_ [_ [[I1 _] _ [R1 _] _ _]]]]]] := ex (fun _ _ => false) (fun _ _ => 0) (fun _ _ => 0) w.
    have [g2 [Hg2 Rg]] := garble_rounds sha h0 draws hash HG Hd Hmat Hids. have [rds2 [tabs [Hp2 R2 T2]]] := Rg (cast_garble w).
    have R2' : realizes n rds2 (fun i k => garble emb ser de hash (g i) id2 (pp w i) (cast_garble w i) k)
      (fun i => ([seq tabs gid i | gid <- iota 0 (size (p_gates circ))], Queues (drop (n_randoms d) (pp_randoms (pp w i))) (drop (n_zeros d) (pp_zeros (pp w i))) [::])).
    { move=> plan ph Ha me k js v Hm Hk. have Eg2 : g me = g2 me by have := Hg2 me Hm; rewrite Hg // => -[]. rewrite Eg2. exact: (R2 plan ph Ha me k js v Hm Hk). }
    have RR := @realizes_seq n [eqType of seq N] D (val F) _ _ rds1 rds2 (fun i k => pre (cast_pre w) i k) (pp w) (fun i x k => garble emb ser de hash (g i) id2 x (cast_garble w i) k) _ R1 R2'.
    apply: ends_mono (realizes_runs Hn (ser [::]) (@garble_val F) _ RR) => [c Hc|].
    + exists tabs. eexists. split; [exact: Hc|exact: T2].
    + by rewrite /ids map_cat -!/(ids _) I1 U.
  - move=> j Hj. have [q [o [Hq Ho Ej E1' E2']]] := spl j Hj. rewrite /i0 /i1 E1' E2'. split; [by have := Bq q; move: Ho; clear; lia|by have := Bq q; move: Ho; clear; lia|].
    move=> j' Hj'. have [q' [o' [Hq' Ho' Ej' E1'' E2'']]] := spl j' Hj'. rewrite E1'' E2'' Ej Ej'.
    have mono a b : (a < b)%N -> (oq a + bq a <= oq b)%N.
    { clear. move=> Hab. have Hs : (oq a.+1 <= oq b)%N.
      { rewrite /oq -(subnKC Hab) takeD sumn_cat. exact: leq_addr. }
      apply: leq_trans Hs. rewrite /oq /bq. case: (ltnP a (size bs)) => Ha; first by rewrite (take_nth 0%N) // sumn_rcons.
      by rewrite nth_default // addn0 !take_oversize // (leq_trans Ha). }
    clear -mono Ho Ho'. case: (ltngtP q q') => [Hlt|Hlt|E]; [have := mono _ _ Hlt|have := mono _ _ Hlt|subst q']; split; apply/eqP/eqP => //; lia.
  - move=> w mk ks es.
    have Em' : low t l (n_masks d) (fun j => QB w (2 * e + j)%N) by move=> j _; exact: (mB_low HSS Mb bB w.1.2.1 w.2).
    have Ek' : low t l (keys_total d) (fun j => QR w (3 * e + j)%N) by move=> j _; exact: (mR_low HSS Ms bR w.1.1).
    have M1 := sharings_held HSS (v := fun i => pp_masks (pp w i)) mk Em' (fun i _ => erefl).
    have M2 := sharings_held HSS (v := fun i => pp_keys (pp w i)) ks Ek' (fun i _ => erefl).
    have M3 := sharings_held HSS (v := fun i => pp_errors (pp w i)) es (Lpe w) (fun i _ => erefl).
    have V1 j : [seq (QB w (2 * e + j)%N).[x] | x <- pos] = [seq (bit w (2 * e + j)%N q)%:R | q <- iota 0 l] by apply: mapP' => q Hq; rewrite bitR.
    have V2 j : [seq (QR w (3 * e + j)%N).[x] | x <- pos] = [seq key w j q | q <- iota 0 l] by apply: mapP'.
    have V3 j : (j < e)%N -> [seq (pe w j).[x] | x <- pos] = [seq (bit w (i0 j) q)%:R * (bit w (i1 j) q)%:R * sca w j q | q <- iota 0 l].
    { move=> Hj. apply: mapP' => q Hq. rewrite -!bitR // /pe /pre_err (err_w2_sec HSS) //. by rewrite mem_nth // Sp. }
    split=> [[rs [[N1 _] [N2 _] _ _ N3]]|[N1 N2 N3]].
    + split=> j Hj; [by rewrite -V1; exact: M1.1|by rewrite -V2; exact: M2.1|by rewrite -V3 //; exact: M3.1].
    + exists (fun j => [seq (QR w (3 * e + keys_total d + j)%N).[x] | x <- pos]). split.
      * split; first by apply: M1.2 => j Hj; rewrite V1 N1. move=> j Hj y. rewrite N1 // => /mapP [q _ ->]. by case: (bit _ _ _); [right|left].
      * by split=> //; apply: M2.2 => j Hj; rewrite V2 N2.
      * exists (R * bR - (3 * e + keys_total d))%N. split; first by have := LR1; rewrite -/R -/e; clear; lia.
        have L : low t l (R * bR - (3 * e + keys_total d)) (fun j => QR w (3 * e + keys_total d + j)%N) by move=> j _; exact: (mR_low HSS Ms bR w.1.1). exact: (sh_low HSS L).
      * exists (R * bZ - 2 * e)%N. split; first by have := LZ1; rewrite -/R -/e; clear; lia.
        have L : zero_at emb n l (R * bZ - 2 * e) (fun j => mixed n Ms bZ (pzp emb n l w.1.1) (2 * e + j)%N) by move=> j _; exact: (mZ_ok HSS Ms bZ w.1.1). exact: (sh_zero HSS L).
      * by apply: M3.2 => j Hj; rewrite V3 // N3.
  - move=> sB sK sS. pose ph := phi emb n t l (B := B) Ms Mb d bR bZ bB A circ B1 B2 hash K M cids sB sK sS X Xb. exists ph. split.
    { exists (unphi emb n t l (B := B) Ms Mb d bR bZ bB A circ B1 B2 hash K M cids sB sK sS X Xb) => w; [exact: phiK|exact: unphiK]. }
    move=> w. have [H1 [H2 H3 H4] [H5 _] [rds1 [rds1' [rds2 [rds2' [[I1 Hper] [T1 T2] [R1 R1'] [res R2] [res' R2']]]]]]] := ex sB sK sS w.
    rewrite -/(ph w) in H1 H2 H3 H4 H5 R1' R2'.
    have hv v q : (q < l)%N -> (hidep emb A pos v).[nth 0 pos q] = v q by move=> Hq; have [_ E _] := hide_ok HSS UA HA tA v; exact: E.
    split.
    + move=> i q Hi Hq. have Hi' : (i < Rb * bB)%N by apply: (leq_trans _ LB1); move: Hi; rewrite -/e; clear; lia.
      have E : (QB (ph w) i).[nth 0 pos q] = (QB w i).[nth 0 pos q] + (sB i q)%:R by rewrite {1}/QB (H2 i Hi') hornerD hv.
      rewrite !bitR // in E.
      have inj (u v : bool) : u%:R = v%:R :> F -> u = v by move/eqP; case: u; case: v => //; rewrite ?oner_eq0 // eq_sym oner_eq0.
      apply: inj. rewrite E. case: (bit w i q); case: (sB i q); by rewrite ?addr0 ?add0r ?F2.
    + move=> j q Hj Hq. by rewrite /key /QR H3 // hornerD hv.
    + move=> j q Hj Hq. have [q' [o [Hq' Ho E1' E2' E3']]] := spl j Hj. rewrite /sca E2' E3' /isc /QR H4 // hornerD /hS hv //. by rewrite -/bs -/(oq q') -E1'.
    + exact: H1.
    + split; first exact: H5. move=> s q c x Hs Hq.
      have UU : uniq (ids (rds1 ++ rds2)) by rewrite /ids map_cat -!/(ids _) I1 U.
      pose G (v : pipe_dice F B) i (x : preproc_data F) k := garble emb ser de hash (g i) id2 x (cast_garble v i : gcoins F) k.
      have RR := @realizes_seq n [eqType of seq N] D (val F) _ _ rds1 rds2 (fun i k => pre (cast_pre w) i k) (pp w) (G w) _ R1 R2.
      have RR' := @realizes_seq n [eqType of seq N] D (val F) _ _ rds1' rds2' (fun i k => pre (cast_pre (ph w)) i k) (pp (ph w)) (G (ph w)) _ R1' R2'.
      exact: (@twin_view n _ D A Hn HA (val F) _ _ (rds1 ++ rds2) (rds1' ++ rds2') (fun i k => pre (cast_pre w) i (fun x => G w i x k)) res (@garble_val F)
        (fun i k => pre (cast_pre (ph w)) i (fun x => G (ph w) i x k)) res' (@garble_val F) (ser [::]) s q c x UU RR RR' (twins_cat T1 T2) Hq).
Qed.

(** Counting by what is kept secret. *)
Lemma count_secrets (W S : finType) (sec : W -> S) (b : pred W) :
  (forall f f', exists phi : W -> W, bijective phi /\ forall w, b (phi w) = b w /\ (sec (phi w) == f') = (sec w == f)) ->
  forall f0 (Q : pred S), #|[pred w | b w && Q (sec w)]| = (#|Q| * #|[pred w | b w && (sec w == f0)]|)%N.
Proof.
  move=> Hm f0 Q.
  have Hf f : #|[pred w | b w && (sec w == f)]| = #|[pred w | b w && (sec w == f0)]|.
  { have [phi [[psi K1 K2] Hp]] := Hm f f0. rewrite -(card_imset [pred w | b w && (sec w == f)] (can_inj K1)). apply: eq_card => v. apply/imsetP/idP => [[w Hw ->]|Hv].
    - move: Hw. rewrite !inE. by have [-> ->] := Hp w.
    - exists (psi v); last by rewrite K2. move: Hv. rewrite -{1}(K2 v) !inE. by have [-> ->] := Hp (psi v). }
  rewrite -[LHS]sum1_card (@partition_big _ _ _ _ _ _ _ sec Q); last by move=> w /andP [].
  rewrite -sum_nat_const. apply: eq_bigr => f HQ. rewrite -(Hf f) -sum1_card. apply: eq_bigl => w. rewrite !inE.
  case: eqP => [->|_]; by rewrite ?HQ ?andbT ?andbF.
Qed.

(** The outcomes of all dice over a finite field. *)
Definition pipe_outcomes (F : finFieldType) (B : nat) : finType :=
  [finType of {ffun slot B 3 -> F} * ({ffun slot B 0 -> F} * {ffun slot B 3 -> F}) * {ffun slot B 0 -> bool}].

(** An event the coalition can observe depends on its shares of the material, its
    coins in preprocessing and garbling, and the messages sent to it. *)
Definition observable_pipe (F : fieldType) (D : Type) (n : nat) (A : seq nat)
    (E : (nat -> preproc_data F) -> (nat -> coins F) -> (nat -> gcoins F) -> (nat -> nat -> seq N -> D -> Prop) -> Prop) : Prop :=
  forall pp pp' r r' co co' (S S' : nat -> nat -> seq N -> D -> Prop),
    (forall a, a \in A -> pp a = pp' a) -> (forall a, a \in A -> same_pre (r a) (r' a)) -> (forall a, a \in A -> same_coins (co a) (co' a)) ->
    (forall s r c x, (s < n)%N -> r \in A -> S s r c x <-> S' s r c x) -> E pp r co S <-> E pp' r' co' S'.

(** [preproc] on one root id, then [garble] on another, as in C63, over a finite
    field as the code's, with all coins random.  Let the rows of the two matrices
    stay independent without the columns of at most [t] parties, and let the
    garbling shield these parties.  Then what they see is independent of the
    masks, the labels and the errors; masks and labels are uniform even given all
    this and the errors; and no masks, labels and errors are impossible. *)
Theorem C69_view_independent : forall (F : finFieldType) (emb : nat -> F) (D : eqType) ser de fits n t l P Pn circ K M
    (H : eqType) (sha : seq N -> H) h0 draws hash (Ms Mb : mat F) (id1 id2 : seq N) d chans bR bZ bB g,
  @garble_setting F emb D ser de fits n t l P Pn circ K M -> describe circ n t l (Lpn K M) = Some d ->
  (0 < size (rows Ms))%N -> (0 < size (rows Mb))%N -> ncols Ms = n -> ncols Mb = n -> binary Mb ->
  let e := n_errors d in
  let R := size (rows Ms) in let Rb := size (rows Mb) in
  (keys_total d + n_randoms d + 3 * e <= R * bR < keys_total d + n_randoms d + 3 * e + R)%N ->
  (n_zeros d + 2 * e <= R * bZ < n_zeros d + 2 * e + R)%N ->
  (n_masks d + 2 * e <= Rb * bB < n_masks d + 2 * e + Rb)%N ->
  (forall m, (m <= maxn (maxn bR bZ) (maxn bB e))%N -> fits m) ->
  ProtoIdModel.garble_ids id2 circ (N.of_nat l) = Some chans -> (forall u v, id1 ++ u <> id2 ++ v) ->
  (forall i, (i < n)%N -> gctx_new emb sha h0 draws circ (Ctx i n t l P Pn) (Lpn K M) = Some (g i)) ->
  let pre r i := preproc ser de (Ctx i n t l P Pn) Ms Mb id1 d (r i) in
  let code r coins i := pre r i (fun pp => garble emb ser de hash (g i) id2 pp (coins i) (fun y => Ret (garble_val y))) in
  forall A, coalition n t A -> shielded n l A circ -> hides n Ms A -> hides_bits n Mb A ->
  forall B, enough_dice B n circ (Lpn K M) d bR bZ bB ->
  exists pp : pipe_dice F B -> nat -> preproc_data F,
  let has mk ks es w := exists rs, material emb n t l d (pp w) mk ks rs es in
  let happens E w := E (pp w) (cast_pre w) (cast_garble w) (sent_in n (code (cast_pre w) (cast_garble w))) in
  [/\ forall w, every_run_ends n (start (fun i => pre (cast_pre w) i (fun x => Ret (pp_val x)))) (all_done n (fun i => pp_val (pp w i))),
      forall E, @observable_pipe F D n A E -> forall mk ks es mk' ks' es' (b s s' : pred (pipe_outcomes F B)),
        (forall w, b w <-> happens E w) -> (forall w, s w <-> has mk ks es w) -> (forall w, s' w <-> has mk' ks' es' w) ->
        (#|[predI b & s]| * #|s'| = #|[predI b & s']| * #|s|)%N,
      forall E, @observable_pipe F D n A E -> forall mk ks mk' ks' es (b s s' : pred (pipe_outcomes F B)),
        (forall j, [/\ size (mk j) = l, bits (mk j) & size (ks j) = l]) -> (forall j, [/\ size (mk' j) = l, bits (mk' j) & size (ks' j) = l]) ->
        (forall w, b w <-> happens E w) -> (forall w, s w <-> has mk ks es w) -> (forall w, s' w <-> has mk' ks' es w) ->
        #|[predI b & s]| = #|[predI b & s']| &
      forall mk ks es, (forall j, [/\ size (mk j) = l, bits (mk j), size (ks j) = l & size (es j) = l]) -> exists w, has mk ks es w].
Proof.
  move=> F emb D ser de fits n t l P Pn circ K M H sha h0 draws hash Ms Mb id1 id2 d chans bR bZ bB g.
  move=> HG Hd B0 BB0 HMs HMb Hbin e R Rb LR LZ LB Hfp Hids Hroots Hg pre code A HC Hsh Hh Hhb B Hen.
  have [pp [bit [key [sca [i0 [i1 [Hruns _ Hi01 Hmat Hren]]]]]]] := renaming hash HG Hd B0 BB0 HMs HMb Hbin LR LZ LB Hfp Hids Hroots Hg HC Hsh Hh Hhb Hen.
  exists pp. move=> has happens.
  have seqE (x : seq F) (v : nat -> F) : size x = l -> (x = [seq v q | q <- iota 0 l]) <-> forall q, (q < l)%N -> v q = nth 0 x q.
  { move=> Hx. split=> [-> q Hq|Hv]; first by rewrite (nth_map 0%N) ?size_iota // nth_iota.
    apply: (@eq_from_nth _ 0); rewrite ?size_map ?size_iota // Hx => q Hq. by rewrite (nth_map 0%N) ?size_iota // nth_iota // Hv. }
  have maskE (x : seq F) (v : nat -> bool) : size x = l -> bits x -> (x = [seq (v q)%:R | q <- iota 0 l]) <-> forall q, (q < l)%N -> v q = (nth 0 x q == 1).
  { move=> Hx Hbx. apply: (iff_trans (@seqE x (fun q => (v q)%:R) Hx)). split=> Hv q Hq.
    - rewrite -Hv //. by case: (v q); rewrite ?eqxx // eq_sym oner_eq0.
    - rewrite Hv //. have [|->|->] := Hbx (nth 0 x q); by rewrite ?mem_nth ?Hx // ?eqxx // eq_sym oner_eq0. }
  have shiftE (x y z : F) : x + (z - y) = z -> x = y by move=> /(canRL (addrK _)) ->; rewrite opprB addrCA subrr addr0.
  (* events do not change *)
  have Hobs E (b : pred (pipe_outcomes F B)) (phi : pipe_dice F B -> pipe_dice F B) : @observable_pipe F D n A E -> (forall w, b w <-> happens E w) ->
     (forall w, (forall a, a \in A -> same_pre (cast_pre w a) (cast_pre (phi w) a) /\ same_coins (cast_garble w a) (cast_garble (phi w) a)) /\
        same_view n A (pp w) (pp (phi w)) (code (cast_pre w) (cast_garble w)) (code (cast_pre (phi w)) (cast_garble (phi w)))) -> forall w, b (phi w) = b w.
  { move=> HE Hb Hv w. have [V1 [V2 V3]] := Hv w.
    have X := HE _ _ _ _ _ _ _ _ V2 (fun a Ha => proj1 (V1 a Ha)) (fun a Ha => proj2 (V1 a Ha)) V3. rewrite -/(happens E w) -/(happens E (phi w)) in X.
    move: (Hb w) (Hb (phi w)) X. move: (happens E w) (happens E (phi w)) => Q Q'. case: (b w); case: (b _) => -[H1 H2] [H3 H4] [H5 H6] //.
    - by have := H4 (H5 (H1 isT)).
    - by have := H2 (H6 (H3 isT)). }
  split; first exact: Hruns.
  - move=> E HE mk ks es mk' ks' es' b s s' Hb Hs Hs'. pose nb := (2 * e + n_masks d)%N. pose nk := keys_total d.
    pose S := [finType of {ffun 'I_nb * 'I_l -> bool} * {ffun 'I_nk * 'I_l -> F} * {ffun 'I_e * 'I_l -> F}].
    pose sec (w : pipe_outcomes F B) : S := ([ffun x : 'I_nb * 'I_l => bit w x.1 x.2], [ffun x : 'I_nk * 'I_l => key w x.1 x.2], [ffun x : 'I_e * 'I_l => sca w x.1 x.2]).
    have secP w w' : sec w = sec w' -> [/\ forall i q, (i < nb)%N -> (q < l)%N -> bit w i q = bit w' i q,
        forall j q, (j < nk)%N -> (q < l)%N -> key w j q = key w' j q & forall j q, (j < e)%N -> (q < l)%N -> sca w j q = sca w' j q].
    { move=> [/ffunP X1 /ffunP X2 /ffunP X3]. split=> i q Hi Hq.
      - have := X1 (Ordinal Hi, Ordinal Hq). by rewrite !ffunE.
      - have := X2 (Ordinal Hi, Ordinal Hq). by rewrite !ffunE.
      - have := X3 (Ordinal Hi, Ordinal Hq). by rewrite !ffunE. }
    have hasP mk0 ks0 es0 w w' : sec w = sec w' -> has mk0 ks0 es0 w -> has mk0 ks0 es0 w'.
    { move=> /secP [X1 X2 X3] /Hmat [N1 N2 N3]. apply/Hmat. split=> j Hj.
      - rewrite N1 //. apply/eq_in_map => q. rewrite mem_iota add0n => Hq. rewrite X1 //. by rewrite /nb ltn_add2l.
      - rewrite N2 //. apply/eq_in_map => q. rewrite mem_iota add0n => Hq. by rewrite X2.
      - rewrite N3 //. have [J0 J1 _] := Hi01 j Hj. apply/eq_in_map => q. rewrite mem_iota add0n => Hq. rewrite X3 // !X1 //; apply: leq_trans (leq_addr _ _); [exact: J1|exact: J0]. }
    have fibre (s0 : pred (pipe_outcomes F B)) mk0 ks0 es0 : (forall w, s0 w <-> has mk0 ks0 es0 w) -> exists Q : pred S, forall w, s0 w = Q (sec w).
    { move=> H0. exists (fun f => [exists w, s0 w && (sec w == f)]) => w. apply/idP/existsP => [Hw|[w' /andP [Hw' /eqP Ew]]]; first by exists w; rewrite Hw eqxx.
      apply/H0. apply: hasP Ew _. by apply/H0. }
    have move f f' : exists phi : pipe_dice F B -> pipe_dice F B, bijective phi /\ forall w, (sec (phi w) == f') = (sec w == f) /\
        ((forall a, a \in A -> same_pre (cast_pre w a) (cast_pre (phi w) a) /\ same_coins (cast_garble w a) (cast_garble (phi w) a)) /\
        same_view n A (pp w) (pp (phi w)) (code (cast_pre w) (cast_garble w)) (code (cast_pre (phi w)) (cast_garble (phi w)))).
    { pose ix (T : Type) m (z : T) (G : 'I_m * 'I_l -> T) (i q : nat) := if (insub i, insub q) is (Some i', Some q') then G (i', q') else z.
      have ixE (T : Type) m (z : T) (G : 'I_m * 'I_l -> T) (i : 'I_m) (q : 'I_l) : ix T m z G i q = G (i, q) by rewrite /ix !valK.
      have [phi [Hbij Hp]] := Hren (ix bool nb false (fun x => f.1.1 x (+) f'.1.1 x)) (ix F nk 0 (fun x => f'.1.2 x - f.1.2 x)) (ix F e 0 (fun x => f'.2 x - f.2 x)).
      exists phi. split; first exact: Hbij. move=> w. have [P1 P2 P3 P4 P5] := Hp w. split; last by split; [exact: P4|exact: P5].
      move: f f' P1 P2 P3 {Hp} => [[f1 f2] f3] [[f1' f2'] f3'] P1 P2 P3. rewrite /sec !xpair_eqE. congr (_ && _ && _).
      - apply/eqP/eqP => /ffunP X; apply/ffunP => -[i q]; have := X (i, q); rewrite !ffunE /= P1 ?ltn_ord // ixE /=.
        + by case: (bit _ _ _) (f1 _) (f1' _) => -[] [].
        + by case: (bit _ _ _) (f1 _) (f1' _) => -[] [].
      - apply/eqP/eqP => /ffunP X; apply/ffunP => -[i q]; have := X (i, q); rewrite !ffunE /= P2 ?ltn_ord // ixE /=.
        + exact: shiftE.
        + by move=> ->; rewrite addrCA subrr addr0.
      - apply/eqP/eqP => /ffunP X; apply/ffunP => -[i q]; have := X (i, q); rewrite !ffunE /= P3 ?ltn_ord // ixE /=.
        + exact: shiftE.
        + by move=> ->; rewrite addrCA subrr addr0. }
    have [Q HQ] := fibre s mk ks es Hs. have [Q' HQ'] := fibre s' mk' ks' es' Hs'.
    have count (b0 : pred (pipe_outcomes F B)) : (forall phi : pipe_dice F B -> pipe_dice F B, (forall w, (forall a, a \in A -> same_pre (cast_pre w a) (cast_pre (phi w) a) /\ same_coins (cast_garble w a) (cast_garble (phi w) a)) /\
        same_view n A (pp w) (pp (phi w)) (code (cast_pre w) (cast_garble w)) (code (cast_pre (phi w)) (cast_garble (phi w)))) -> forall w, b0 (phi w) = b0 w) ->
      forall f0 (Q0 : pred S), #|[pred w | b0 w && Q0 (sec w)]| = (#|Q0| * #|[pred w | b0 w && (sec w == f0)]|)%N.
    { move=> H0. apply: count_secrets => f f'. have [phi [Hbij Hp]] := move f f'. exists phi. split; first exact: Hbij. move=> w. split; last by have [] := Hp w.
      apply: H0 => w'. by have [] := Hp w'. }
    pose f0 : S := ([ffun=> false], [ffun=> 0], [ffun=> 0]).
    have C1 := count b (fun phi => @Hobs E b phi HE Hb) f0. have C2 := count predT (fun phi _ w => erefl) f0.
    have E1 (s0 : pred (pipe_outcomes F B)) (Q0 : pred S) : (forall w, s0 w = Q0 (sec w)) -> #|[predI b & s0]| = #|[pred w | b w && Q0 (sec w)]| /\ #|s0| = #|[pred w | predT w && Q0 (sec w)]|.
    { move=> H0. split; apply: eq_card => w; last by rewrite !inE -H0. rewrite !inE -H0. reflexivity. }
    have [-> ->] := E1 s Q HQ. have [-> ->] := E1 s' Q' HQ'. rewrite !C1 !C2. move: #|Q| #|Q'| #|_| #|_| => a1 a2 a3 a4. clear. nia.
  - move=> E HE mk ks mk' ks' es b s s' Hz Hz' Hb Hs Hs'.
    pose sB i q := if (2 * e <= i)%N then (nth 0 (mk (i - 2 * e)%N) q == 1) (+) (nth 0 (mk' (i - 2 * e)%N) q == 1) else false.
    have [phi [Hbij Hp]] := Hren sB (fun j q => nth 0 (ks' j) q - nth 0 (ks j) q) (fun _ _ => 0).
    have Eb := @Hobs E b phi HE Hb (fun w => let: And5 _ _ _ P4 P5 := Hp w in conj P4 P5).
    have Es w : s w = s' (phi w).
    { have [P1 P2 P3 _ _] := Hp w.
      have X : has mk ks es w <-> has mk' ks' es (phi w).
      { apply: (iff_trans (Hmat w mk ks es)). apply: iff_sym. apply: (iff_trans (Hmat (phi w) mk' ks' es)).
        have Xm j : (j < n_masks d)%N -> (mk' j = [seq (bit (phi w) (2 * e + j)%N q)%:R | q <- iota 0 l]) <-> (mk j = [seq (bit w (2 * e + j)%N q)%:R | q <- iota 0 l]).
        { move=> Hj. have [Z1 Z2 _] := Hz j. have [Z1' Z2' _] := Hz' j. apply: (iff_trans (@maskE _ _ Z1' Z2')). apply: iff_sym. apply: (iff_trans (@maskE _ _ Z1 Z2)).
          have X q : (q < l)%N -> bit (phi w) (2 * e + j)%N q = bit w (2 * e + j)%N q (+) ((nth 0 (mk j) q == 1) (+) (nth 0 (mk' j) q == 1)).
          { move=> Hq. rewrite P1 //; last by rewrite ltn_add2l. by rewrite /sB leq_addr addKn. }
          split=> Y q Hq; have := Y q Hq; rewrite X //; by case: (bit w _ q) (nth 0 (mk j) q == 1) (nth 0 (mk' j) q == 1) => -[] []. }
        have Xk j : (j < keys_total d)%N -> (ks' j = [seq key (phi w) j q | q <- iota 0 l]) <-> (ks j = [seq key w j q | q <- iota 0 l]).
        { move=> Hj. have [_ _ Z1] := Hz j. have [_ _ Z1'] := Hz' j. apply: (iff_trans (@seqE _ _ Z1')). apply: iff_sym. apply: (iff_trans (@seqE _ _ Z1)).
          split=> Y q Hq; have := Y q Hq; rewrite P2 //; first by move=> ->; rewrite addrCA subrr addr0. exact: shiftE. }
        have Xe j : (j < e)%N -> [seq (bit (phi w) (i0 j) q)%:R * (bit (phi w) (i1 j) q)%:R * sca (phi w) j q | q <- iota 0 l] =
            [seq (bit w (i0 j) q)%:R * (bit w (i1 j) q)%:R * sca w j q | q <- iota 0 l].
        { move=> Hj. have [J0 J1 _] := Hi01 j Hj. apply/eq_in_map => q. rewrite mem_iota add0n => Hq. rewrite P3 // addr0 !P1 //; try by apply: leq_trans (leq_addr _ _).
          by rewrite /sB [(2 * e <= i0 j)%N]leqNgt J0 [(2 * e <= i1 j)%N]leqNgt J1 /= !addbF. }
        split=> -[N1 N2 N3]; split=> j Hj; by [apply/Xm => //; exact: N1|apply/Xk => //; exact: N2|rewrite N3 // Xe|]. }
      move: (Hs w) (Hs' (phi w)) X. move: (has mk ks es w) (has mk' ks' es (phi w)) => Q Q'. case: (s w); case: (s' _) => -[H1 H2] [H3 H4] [H5 H6] //.
      - by have := H4 (H5 (H1 isT)).
      - by have := H2 (H6 (H3 isT)). }
    have [psi K1 K2] := Hbij. rewrite -(card_imset [predI b & s] (can_inj K1)). apply: eq_card => v. apply/imsetP/idP => [[w Hw ->]|Hv'].
    + move: Hw. by rewrite !inE !unfold_in Eb Es.
    + exists (psi v); last by rewrite K2. move: Hv'. by rewrite !inE !unfold_in -(Eb (psi v)) Es K2.
  - move=> mk ks es Hz. pose w0 : pipe_dice F B := ([ffun=> 0], ([ffun=> 0], [ffun=> 0]), [ffun=> false]).
    pose tB i q := if (2 * e <= i)%N then nth 0 (mk (i - 2 * e)%N) q == 1 else true.
    have [phi [_ Hp]] := Hren (fun i q => bit w0 i q (+) tB i q) (fun j q => nth 0 (ks j) q - key w0 j q) (fun j q => nth 0 (es j) q - sca w0 j q).
    have [P1 P2 P3 _ _] := Hp w0. exists (phi w0). apply/Hmat. split=> j Hj; have [Z1 Z2 Z3 Z4] := Hz j.
    + apply/(@maskE _ _ Z1 Z2) => q Hq. rewrite P1 //; last by rewrite ltn_add2l. by rewrite addKb /tB leq_addr addKn.
    + apply/(@seqE _ _ Z3) => q Hq. by rewrite P2 // addrCA subrr addr0.
    + apply/(@seqE _ _ Z4) => q Hq. have [J0 J1 _] := Hi01 j Hj. rewrite P3 // addrCA subrr addr0 !P1 //; try by apply: leq_trans (leq_addr _ _).
      by rewrite !addKb /tB [(2 * e <= i0 j)%N]leqNgt J0 [(2 * e <= i1 j)%N]leqNgt J1 /= !mul1r.
Qed.
Print Assumptions C69_view_independent.

(** A message to one of them and a die of one of them can be observed. *)
Lemma observable_pipe_message (F : fieldType) (D : Type) n A s a c x : a \in A -> (s < n)%N -> @observable_pipe F D n A (fun _ _ _ S => S s a c x).
Proof. move=> Ha Hs pp pp' r r' co co' S S' _ _ _ H. exact: H. Qed.
Lemma observable_pipe_bit (F : fieldType) (D : Type) n A a j q : a \in A -> @observable_pipe F D n A (fun _ r _ _ => k_bit (r a) j q).
Proof. move=> Ha pp pp' r r' co co' S S' _ H _ _. have [_ _ X _ _] := H a Ha. by rewrite X. Qed.

(** The circuit of C61 with seven parties and the matrices of C63: for each party
    but the first, and for the masks (0,0,0) and (1,0,0). *)
Example C69_example : exists P Pn (Ms Mb : mat (gf_fieldType w5)) d chans bR bZ bB g B,
  let F := [finFieldType of gf w5] in let sha := (id : seq N -> [eqType of seq N]) in let draws (_ : [eqType of seq N]) (_ : nat) : F := 0 in
  let e := n_errors d in let R := size (rows Ms) in let Rb := size (rows Mb) in
  let mk (b : bool) (j : nat) : seq F := [:: b%:R; 0; 0] in
  [/\ @garble_setting F g5 _ (@gser w5) (@gde w5) len_ok 7 1 3 P Pn circ7 1 2, describe circ7 7 1 3 (Lpn 1 2) = Some d,
      [/\ (0 < R)%N, (0 < Rb)%N, ncols Ms = 7%N, ncols Mb = 7%N & binary Mb],
      ProtoIdModel.garble_ids [:: 7]%num circ7 (N.of_nat 3) = Some chans /\ (forall u v : seq N, [:: 5%num] ++ u <> [:: 7%num] ++ v) &
      forall i, (i < 7)%N -> gctx_new g5 sha [::] draws circ7 (Ctx i 7 1 3 P Pn) (Lpn 1 2) = Some (g i)] /\
  [/\ [/\ (keys_total d + n_randoms d + 3 * e <= R * bR < keys_total d + n_randoms d + 3 * e + R)%N,
      (n_zeros d + 2 * e <= R * bZ < n_zeros d + 2 * e + R)%N, (n_masks d + 2 * e <= Rb * bB < n_masks d + 2 * e + Rb)%N &
      forall m, (m <= maxn (maxn bR bZ) (maxn bB e))%N -> len_ok m],
      forall a, (0 < a < 7)%N -> [/\ coalition 7 1 [:: a], shielded 7 3 [:: a] circ7, hides 7 Ms [:: a] & hides_bits 7 Mb [:: a]],
      enough_dice B 7 circ7 (Lpn 1 2) d bR bZ bB,
      (0 < e)%N && (0 < n_masks d)%N && (0 < keys_total d)%N &
      (forall b j, size (mk b j) = 3%N /\ bits (mk b j)) /\ mk false 0%N <> mk true 0%N].
Proof.
  have [P [Pn [Ms [Mb [d [chans [bR [bZ [bB [[HG Hd _ HM [Hids Hroots]] [LR LZ LB Hfp Hsh]]]]]]]]]]] := C63_example.
  have [[_ HSS _ Hwf Hinj] _] := HG. have [B1 [B2 [HB1 HB2 _ _ _]]] := GarbleRun.describeE Hd.
  pose draws (_ : [eqType of seq N]) (_ : nat) : gf w5 := 0.
  have [g [enc [_ Hg]]] := GarbleRun.gctx_newE HSS (isT : (0 < 3)%N) (isT : (1 + 3 + 3 <= 7)%N) Hwf Hinj (id : seq N -> [eqType of seq N]) [::] draws 1 2 HB1 HB2.
  exists P, Pn, Ms, Mb, d, chans, bR, bZ, bB, g, (bR + bZ + bB + n_errors d + 10)%N. move=> F sha dr e R Rb mk. split; first split.
  - exact: HG.
  - exact: Hd.
  - exact: HM.
  - by split; [exact: Hids|exact: Hroots].
  - by move=> i /Hg [].
  - split.
    + by split; [exact: LR|exact: LZ|exact: LB|exact: Hfp].
    + exact: Hsh.
    + rewrite /enough_dice. have -> : size (out_blocks circ7) = 4%N by []. have -> : size (inp_blocks circ7) = 5%N by [].
      rewrite [size _]/= [lpn_key_len _]/=. clear. split; [lia|split; lia|split; lia].
    + rewrite /e. by case: Hd => <-.
    + split; first by move=> b j; split=> // y; rewrite !inE; case: b => /or3P [] /eqP ->; by [left|right].
      move=> /(congr1 (fun s => nth 0 s 0)) /eqP /=. by rewrite eq_sym oner_eq0.
Qed.

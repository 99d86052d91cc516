(** Proofs about what the messages of [garble] tell about the shares of others. *)

From Coq Require Import NArith List.
From Verif Require Import CircuitModel LpnModel LpnSpec.
From mathcomp Require Import all_ssreflect all_algebra zify.
From Verif Require Import MathModel MathProofs MatProofs SharingModel SharingSpec SharingProofs.
From Verif Require Import MachineModel MachineProofs MachineBuild Realize CoreModel CoreSpec CoreProofs ViewSpec SentProofs.
From Verif Require Import RandTransProofs PreprocModel PreprocSpec PreprocProofs GarbleModel GarbleSpec GarbleGates GarbleTf GarbleWires GarbleRun.
From Verif Require Import P_Core P_Garble.
From Verif Require ProtoIdModel ProtoIdProofs P_ProtoId.
Set Implicit Arguments.
Unset Strict Implicit.
Unset Printing Implicit Defensive.
Import GRing.Theory.
Local Open Scope ring_scope.

Lemma sorted_nseq k (w : N) : (0 < k)%N -> sorted_wires (nseq k w) = [:: w].
Proof.
  case: k => // k _. have U := uniq_sorted_wires (nseq k.+1 w).
  have M v : (v \in sorted_wires (nseq k.+1 w)) = (v == w) by rewrite mem_sorted_wires mem_nseq.
  apply: perm_small_eq => //. apply: uniq_perm => // v. by rewrite M inE.
Qed.

Lemma lb_single (F : fieldType) (x : F) : lb [:: x] x = 1.
Proof.
  have U : uniq [:: x] by []. have S : (size (lb [:: x] x) <= 1)%N := interp_size _ U.
  have E : (lb [:: x] x).[x] = 1 by rewrite interp_eval ?inE ?eqxx.
  move: E. rewrite (size1_polyC S) hornerC => ->. by [].
Qed.

Section Traced.
Variables (F : fieldType) (emb : nat -> F) (D : eqType) (ser : seq F -> D) (de : D -> option (seq F)) (fits : nat -> Prop).
Variables (n t l : nat) (P Pn : pss F) (circ : pcircuit) (K M : nat) (H : eqType) (sha : seq N -> H) (h0 : H) (draws : H -> nat -> F) (hash : seq N -> N).
Variables (d : count) (id : seq N) (chans : seq (seq N)) (g : nat -> gctx F).
Hypothesis HS : garble_setting emb ser de fits n t l P Pn circ K M.
Hypothesis Hd : describe circ n t l (Lpn K M) = Some d.
Hypothesis Hids : ProtoIdModel.garble_ids id circ (N.of_nat l) = Some chans.
Hypothesis Hg : forall i, (i < n)%N -> gctx_new emb sha h0 draws circ (Ctx i n t l P Pn) (Lpn K M) = Some (g i).
Notation outs := (out_blocks circ).
Notation inps := (inp_blocks circ).
Notation reps := (2 * K + 1)%N.
Notation held := (held emb).
Notation wpos := (wpos emb n l).
Notation pid := [eqType of seq N].
Notation code pp coins := (fun i => garble emb ser de hash (g i) id (pp i) (coins i) (fun y => Ret (garble_val y))).
Notation rd dd me := (rt_read emb de n l reps [seq dd s me | s <- iota 0 n]).

(** The messages of the steps before the gates, under the names of their ids. *)
Lemma garble_traced : exists B1 B2, let ch0 b := nth [::] chans (b %/ l)%N in let ch1 i := nth [::] chans (B1 + i %/ l)%N in
  let ch2 b := nth [::] chans (B1 + B2 + b)%N in let ch3 i := nth [::] chans (B1 + B2 + size outs + i)%N in
  forall (pp : nat -> preproc_data F) mk ks rs es (coins : nat -> gcoins F), material emb n t l d pp mk ks rs es ->
  exists (rds : seq (pid * round D)) res (po : nat -> nat -> {poly F}) (inp : nat -> seq (seq F)),
  [/\ uniq (ids rds), realizes n rds (fun i k => garble emb ser de hash (g i) id (pp i) (coins i) k) res,
      forall w, w \in flatten outs -> forall j, (j < reps)%N -> (size (po (block_of circ w) j) <= t + l)%N /\
        (po (block_of circ w) j).[wpos w] = wire_value circ K mk ks w j,
      forall me, (me < n)%N -> label_rows (size outs) K (pp_keys (pp me)) (pp_masks (pp me)) = Some (inp me) &
  (forall b, (b < size outs)%N -> exists dd (up dn : nat -> seq F),
        [/\ List.In (ch0 b, Exch dd) rds,
            List.In (ch2 b, Lead (b %% n)%N (fun me => ser (up me)) (fun me => ser (dn me))) rds,
            forall me, size (dn me) = reps &
            forall me, (me < n)%N -> up me = zipw +%R (nth [::] (rd dd me).2 (b %% l)%N) (nth [::] (inp me) b) /\
              held (po b) reps me = zipw (fun a b => a - b) (dn me) (nth [::] (rd dd me).1 (b %% l)%N)]) /\
  forall i, (i < size inps)%N -> exists dd (up dn : nat -> seq F), let ws := nth [::] inps i in
        [/\ List.In (ch1 i, Exch dd) rds,
            List.In (ch3 i, Lead (i %% n)%N (fun me => ser (up me)) (fun me => ser (dn me))) rds,
            forall me, (me < n)%N -> size (up me) = reps &
            forall m m', (m < n)%N -> (m' < n)%N -> (size ws + m < l)%N -> (size ws + m = size (sorted_wires ws) + m')%N ->
              zipw (fun a b => a - b) (up m') (nth [::] (rd dd m).1 (i %% l)%N) = held (sel_poly emb n l circ po ws) reps m']].
Proof.
  have [[serK HSS F2 Hwf Hinj] [Hl0 /andP [HKl Hn16] Hdeg Hu Hf]] := HS. have Hn := setting_n HSS.
  have HKl' : (t + l + l <= n)%N by lia. have Hdeg' : (2 * (t + l).-1 <= n.-1)%N by lia.
  have [B1 [B2 [HB1 HB2 _ _ _]]] := describeE Hd.
  have [g' [enc [Eenc _]]] := gctx_newE HSS Hl0 HKl' Hwf Hinj sha h0 draws K M HB1 HB2.
  exists B1, B2. cbv zeta. move=> pp mk ks rs es coins [[Sm _] [Sk Es] [nr [Hnr Sr]] [nz [Hnz Sz]] Se].
  have [rds [tabs [U [R [_ [b1 [b2 [c0 [c1 [c2 [c3 [f [X1 X2 Ec [Z0 Z1 Z2 Z3] [po [inp [T1 T2 T3 T4]]]]]]]]]]]]]]]] :=
    garble_realizes serK HSS Hl0 HKl' Hdeg' Hn16 F2 Hwf Hinj hash Hd Hg Eenc Hf Sm Sk Es Hnr Hnz Sr Sz Se coins Hids.
  move: X1 X2 Z0 Z1. rewrite HB1 HB2 => -[<-] [<-] Z0 Z1 {b1 b2}.
  have [x1 [Ex1 Hx1]] := num_batchesE (size outs) Hl0. have [x2 [Ex2 Hx2]] := num_batchesE (size inps) Hl0.
  move: Ex1 Ex2. rewrite HB1 HB2 => -[E1] [E2]. subst x1 x2.
  exists rds. eexists. exists po, inp. split; [|exact: R| |exact: T2|split].
  - rewrite (perm_uniq U). apply: NoDup_uniq. exact: (P_ProtoId.C20_garble_ids_distinct _ _ _ _ Hids).1.
  - move=> w Hw j Hj. have [Hb _] := block_ofP Hw. have [Hs Ew] := slot_ofP Hw. have [Sz' /(_ _ Hs)] := T1 _ Hb j Hj. by rewrite Ew.
  - move=> b Hb. have -> : nth [::] chans (b %/ l) = nth [::] c0 (b %/ l).
    { rewrite Ec nth_cat Z0 ifT // ltn_divLR //. lia. }
    have -> : nth [::] chans (B1 + B2 + b) = nth [::] c2 b.
    { by rewrite Ec -addnA nth_cat Z0 ltnNge leq_addr /= addKn nth_cat Z1 ltnNge leq_addr /= addKn nth_cat Z2 Hb. }
    exact: T3.
  - move=> i Hi. have -> : nth [::] chans (B1 + i %/ l) = nth [::] c1 (i %/ l).
    { rewrite Ec nth_cat Z0 ltnNge leq_addr /= addKn nth_cat Z1 ifT // ltn_divLR //. lia. }
    have -> : nth [::] chans (B1 + B2 + size outs + i) = nth [::] c3 i.
    { by rewrite Ec -!addnA nth_cat Z0 ltnNge leq_addr /= addKn nth_cat Z1 ltnNge leq_addr /= addKn nth_cat Z2 ltnNge leq_addr /= addKn nth_cat Z3 Hi. }
    exact: T4.
Qed.

(** Two runs alike for the parties in [A]. *)
Section TwoWorlds.
Variables (A : seq nat) (pp pp' : nat -> preproc_data F) (mk ks rs es mk' ks' rs' es' : nat -> seq F) (coins coins' : nat -> gcoins F).
Hypothesis HA : forall a, a \in A -> (a < n)%N /\ pp a = pp' a.
Hypothesis HM : material emb n t l d pp mk ks rs es.
Hypothesis HM' : material emb n t l d pp' mk' ks' rs' es'.
Hypothesis V : forall s r c x, (s < n)%N -> r \in A -> sent_in n (code pp coins) s r c x <-> sent_in n (code pp' coins') s r c x.

Lemma shares_fixed i m w :
  (i < size inps)%N -> let ws := nth [::] inps i in (0 < size ws)%N -> ws = nseq (size ws) w -> w \in flatten outs ->
  m \in A -> (i %% n)%N \in A -> (size ws + m < l)%N -> let m' := (size ws + m).-1 in m' \notin A ->
  exists p p' : nat -> {poly F}, forall j, (j < reps)%N ->
    [/\ (size (p j) <= t + l)%N, (size (p' j) <= t + l)%N,
        forall v, v \in flatten outs -> block_of circ v = block_of circ w ->
          (p j).[wpos v] = wire_value circ K mk ks v j /\ (p' j).[wpos v] = wire_value circ K mk' ks' v j &
        forall a, a \in m' :: A -> (p j).[emb a] = (p' j).[emb a]].
Proof.
  have [[serK HSS F2 Hwf Hinj] [Hl0 /andP [HKl Hn16] Hdeg Hu Hf]] := HS. have Hn := setting_n HSS.
  have Fr : fits reps by apply: Hf; lia.
  have inj_ser x y : size x = reps -> size y = reps -> ser x = ser y -> x = y.
  { move=> Zx Zy E. have := serK x. rewrite Zx => /(_ Fr). rewrite E serK ?Zy // => -[]. by []. }
  move=> Hi ws Hz Ews Hw Hm HL Hlt m' Hm'.
  have Hm'n : (m' < n)%N by rewrite /m'; lia.
  have [B1 [B2 T]] := garble_traced.
  have [rds [res [po [inp [U R Hpo Hinp [Hout Hin]]]]]] := T pp mk ks rs es coins HM.
  have [rds' [res' [po' [inp' [U' R' Hpo' Hinp' [Hout' Hin']]]]]] := T pp' mk' ks' rs' es' coins' HM'.
  have [Hb _] := block_ofP Hw. set b := block_of circ w in Hb *.
  exists (po b), (po' b) => j Hj. have [Sp _] := Hpo w Hw j Hj. have [Sp' _] := Hpo' w Hw j Hj.
  split=> //.
  { move=> v Hv Ev. have [_ X1] := Hpo v Hv j Hj. have [_ X2] := Hpo' v Hv j Hj. by rewrite Ev -/b in X1 X2. }
  have ex (c : pid) dd dd' a : List.In (c, Exch dd) rds -> List.In (c, Exch dd') rds' -> a \in A ->
     [seq dd s a | s <- iota 0 n] = [seq dd' s a | s <- iota 0 n].
  { move=> I1 I2 Ha. have [Han _] := HA Ha. apply/eq_in_map => s. rewrite mem_iota /= => Hs.
    apply/(exch_sent Hn (@garble_val F) (ser [::]) U' R' _ I2 Hs Han). apply/(V _ _ Hs Ha).
    by apply/(exch_sent Hn (@garble_val F) (ser [::]) U R _ I1 Hs Han). }
  have own a : a \in A -> held (po b) reps a = held (po' b) reps a.
  { move=> Ha. have [Han Epp] := HA Ha.
    have [dd [up [dn [I1 I2 Zd X]]]] := Hout b Hb. have [dd' [up' [dn' [I1' I2' Zd' X']]]] := Hout' b Hb.
    have [Eu Eh] := X a Han. have [Eu' Eh'] := X' a Han. have Edd := ex _ _ _ a I1 I1' Ha.
    have Ein : inp a = inp' a by have := Hinp a Han; rewrite Epp Hinp' // => -[].
    have Eup : up a = up' a by rewrite Eu Eu' Edd Ein.
    suff : dn a = dn' a by move=> Edn; rewrite Eh Eh' Edd Edn.
    apply: inj_ser => //. have HLn : (b %% n < n)%N by rewrite ltn_mod.
    have S1 := fun x => down_sent Hn (@garble_val F) (ser [::]) U R x I2 HLn Han.
    have S2 := fun x => down_sent Hn (@garble_val F) (ser [::]) U' R' x I2' HLn Han.
    have S3 := fun x => V (nth [::] chans (B1 + B2 + b)) x HLn Ha.
    have := (S2 _).1 ((S3 _).1 ((S1 _).2 (or_introl erefl))). case=> // -[Ea E1].
    have := (S1 _).1 ((S3 _).2 ((S2 _).2 (or_introl erefl))). case=> [-> //|[_ E2]].
    by rewrite E1 E2 -Ea Eup. }
  have heldE p a k : (k < reps)%N -> (p k).[emb a] = nth 0 (held p reps a) k by move=> Hk; rewrite nth_held.
  move=> a. rewrite inE => /orP [/eqP -> {a}|Ha]; last by rewrite !(heldE _ _ j) // own.
  have [dd [up [dn [I1 I2 Zu X]]]] := Hin i Hi. have [dd' [up' [dn' [I1' I2' Zu' X']]]] := Hin' i Hi.
  have [Hmn _] := HA Hm. have [HLn _] := HA HL.
  have Ez : size (sorted_wires ws) = 1%N by rewrite Ews sorted_nseq.
  have Es : (size ws + m = size (sorted_wires ws) + m')%N by rewrite Ez /m' add1n prednK // addn_gt0 Hz.
  have E1 := X m m' Hmn Hm'n Hlt Es. have E2 := X' m m' Hmn Hm'n Hlt Es.
  have Edd := ex _ _ _ m I1 I1' Hm.
  have Hne : m' != (i %% n)%N by apply: contra Hm' => /eqP ->.
  have Eu : up m' = up' m'.
  { apply: inj_ser; [exact: Zu|exact: Zu'|].
    apply/(up_sent Hn (@garble_val F) (ser [::]) U' R' _ I2' HLn Hm'n Hne). apply/(V _ _ Hm'n HL).
    by apply/(up_sent Hn (@garble_val F) (ser [::]) U R _ I2 HLn Hm'n Hne). }
  have Esel q : sel_poly emb n l circ q ws j = q b j.
  { by rewrite /sel_poly Ews sorted_nseq // /weave wires_posE big_ord_recl big_ord0 addr0 /= lb_single mul1r. }
  rewrite -!Esel !(heldE (sel_poly emb n l circ _ ws)) // -E1 -E2 Edd Eu //.
Qed.
End TwoWorlds.
End Traced.

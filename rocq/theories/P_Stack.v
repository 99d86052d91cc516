(** Property theorems C65: protocol code on the whole network stack. *)

From Coq Require Import NArith String List Ascii.
From Verif Require Import CircuitModel CircuitSpec LpnModel LpnSpec.
From mathcomp Require Import all_ssreflect all_algebra zify.
From Verif Require Import MathModel MathProofs MatProofs MatFileModel SharingModel SharingSpec SharingProofs.
From Verif Require Import MachineModel MachineProofs MachineBuild Realize CoreModel CoreSpec CoreProofs.
From Verif Require Import RandTransProofs PreprocModel PreprocSpec PreprocProofs GarbleModel GarbleSpec GarbleRun PipeModel BinModel.
From Verif Require Import GFField GFCodec P_Math P_Sharing P_Core P_Preproc P_Garble P_MatFile P_Phase P_Bin P_BinPre P_Pipeline.
From Verif Require Import RouterModel RouterSpec RouteModel RouteSpec RouteProofs P_Route.
From Verif Require Import StackModel StackSpec StackProofs StackRun StackRounds StackNets.
From Verif Require ProtoIdModel ProtoIdProofs P_ProtoId IdLength PackWf.
Set Implicit Arguments.
Unset Strict Implicit.
Unset Printing Implicit Defensive.

Notation pid := [eqType of seq N].

(** ** Any code *)

(** Suppose that on the machine of MachineModel (a mailbox at each party, messages
    delivered in any order) every schedule of the code ends with the results
    [res], that it sends to existing parties only, and that no party ever awaits
    messages on one id twice at the same time.  Then on the stack - the tasks with
    their oneshot channels, the router of each party with its two pools and its
    statistics, the routing tasks of the network, frames and bytes on TCP streams,
    in any interleaving - every execution is finite and, when nothing can happen
    any more, all parties have returned the same results, no message and no
    request is left anywhere, and the statistics count all messages received. *)
Theorem C65_local_network : forall n (D : eqType) (enc : D -> seq N) V (P : nat -> proc pid D V) res, injective enc ->
  every_run_ends n (start P) (all_done n res) ->
  (forall k c i to id d p, gsteps n k (start P) c -> i < n -> lstep (procs c i) (ASend to id d) p -> recipient_ok n (to, (id, enc d))) ->
  (forall k c i, gsteps n k (start P) c -> i < n -> uniq (listens (procs c i))) ->
  ends_in (sstep n enc (lnstep n) l_out) (stack_done n l_out res) (stack_start n linit P).
Proof.
move=> n D enc V P res enc_inj He Hs Hc; have [N1 N2 N3 N4 N5] := local_network n.
apply: (stack_ends enc_inj N1 N2 N3 N4 N5 _ Hc He) => k c i to id d p S Hi L.
have R := Hs k c i to id d p S Hi L; split=> //; exact: (recipient_range R).
Qed.
Print Assumptions C65_local_network.

Theorem C65_tcp_network : forall n (D : eqType) (enc : D -> seq N) V (P : nat -> proc pid D V) res, injective enc ->
  every_run_ends n (start P) (all_done n res) ->
  (forall k c i to id d p, gsteps n k (start P) c -> i < n -> lstep (procs c i) (ASend to id d) p ->
     recipient_ok n (to, (id, enc d)) /\ sizes_ok (to, (id, enc d))) ->
  (forall k c i, gsteps n k (start P) c -> i < n -> uniq (listens (procs c i))) ->
  ends_in (sstep n enc (tnstep n) t_out) (stack_done n t_out res) (stack_start n tinit P).
Proof.
move=> n D enc V P res enc_inj He Hs Hc; have [N1 N2 N3 N4 N5] := tcp_network n.
apply: (stack_ends enc_inj N1 N2 N3 N4 N5 _ Hc He) => k c i to id d p S Hi L.
have R := Hs k c i to id d p S Hi L; split=> //; exact: (recipient_range R.1).
Qed.
Print Assumptions C65_tcp_network.

(** ** Twice the same id *)

(** The condition on ids is needed.  One party sends itself two messages with one
    id and awaits both concurrently. *)
Definition tw_id : pid := [:: 1%num].
Definition tw_d : pid := [:: 7%num].
Notation tproc := (proc pid pid nat).
Definition tw_recv : tproc := Recv tw_id (fun _ _ => Ret 0).
Definition tw_fork (p q : tproc) : tproc := Fork p q (fun _ _ => Ret 0).
Definition tw_prog : tproc := Send (One 0) tw_id tw_d (Send (One 0) tw_id tw_d (tw_fork tw_recv tw_recv)).

(** How far the party is: its code, what it has sent, what it has received, and
    what remains to do. *)
Definition tw_stage (p : tproc) (sent got rank : nat) : Prop :=
  [\/ p = tw_prog /\ (sent = 0 /\ got = 0 /\ rank = 7),
      p = Send (One 0) tw_id tw_d (tw_fork tw_recv tw_recv) /\ (sent = 1 /\ got = 0 /\ rank = 4),
      (exists x y : bool, p = tw_fork (if x then Ret 0 else tw_recv) (if y then Ret 0 else tw_recv) /\ (sent = 2 /\ got = x + y /\ rank = 1)) |
      p = Ret 0 /\ (sent = 2 /\ got = 2 /\ rank = 0)].

Definition tw_inv (c : cfg pid pid nat) (m : nat) : Prop := exists a b sent got rank,
  [/\ net c = nseq a (0, (tw_id, (0, tw_d))), mbox c 0 = nseq b (tw_id, (0, tw_d)), tw_stage (procs c 0) sent got rank,
      a + b + got = sent & m = rank + 2 * a + b].

Lemma nseq_mid (T : eqType) (z : T) k a x b : nseq k z = a ++ x :: b -> x = z /\ a ++ b = nseq k.-1 z /\ 0 < k.
Proof.
move=> E; have Hx : x = z.
  by have := mem_nth x (_ : 0 < size (x :: b)) => /(_ isT) /=; have : x \in nseq k z by [rewrite E mem_cat in_cons eqxx orbT]; rewrite mem_nseq => /andP[_ /eqP].
have Hall : all (pred1 z) (a ++ x :: b) by rewrite -E all_nseq /= eqxx orbT.
have Es : k = size (a ++ x :: b) by rewrite -E size_nseq.
split=> //; split; last by rewrite Es size_cat /=; lia.
have -> : k.-1 = size (a ++ b) by rewrite Es !size_cat /=; lia.
by apply/all_pred1P; move: Hall; rewrite !all_cat /= => /and3P[-> _ ->].
Qed.

Lemma nseq_snoc T (z : T) k : nseq k z ++ [:: z] = z :: nseq k z.
Proof. by elim: k => //= k ->. Qed.

Lemma tw_lstep_fork (x y : bool) act p : lstep (tw_fork (if x then Ret 0 else tw_recv) (if y then Ret 0 else tw_recv)) act p ->
  (exists s d, act = ARecv tw_id s d /\ exists x' y' : bool, x' + y' = (x + y).+1 /\ p = tw_fork (if x' then Ret 0 else tw_recv) (if y' then Ret 0 else tw_recv)) \/
  (act = @ATau _ _ /\ x /\ y /\ p = Ret 0).
Proof.
rewrite /tw_fork; case: x; case: y => L; inversion L; subst;
  try match goal with H : lstep (Ret _) _ _ |- _ => inversion H | H : lstep tw_recv _ _ |- _ => inversion H; subst end;
  try (by right); left; exists s, d; split=> //.
- by exists true, true.
- by exists true, true.
- by exists true, false.
- by exists false, true.
Qed.

Lemma tw_step c c' m : tw_inv c m -> gstep 1 c c' -> exists m', tw_inv c' m' /\ m' < m.
Proof.
case=> a [b [sent [got [rank [En Em Hs Ha ->]]]]] S; case: S => {c'}.
- move=> [|i] p // _ L; rewrite /tw_inv /= /upd /=.
  case: Hs L => [[-> [? [? ?]]]|[-> [? [? ?]]]|[x [y [-> [? [? ?]]]]]|[-> [? [? ?]]]] L; try by inversion L.
  case: (tw_lstep_fork L) => [[s [d [//]]]|[_ [Hx [Hy ->]]]].
  exists (0 + 2 * a + b); split; last by lia.
  exists a, b, 2, 2, 0; split=> //; last by lia.
  by apply: Or44.
- move=> [|i] to id d p // _ L; rewrite /tw_inv /= /upd /=.
  case: Hs L => [[-> [? [? ?]]]|[-> [? [? ?]]]|[x [y [-> [? [? ?]]]]]|[-> [? [? ?]]]] L; last by inversion L.
  + inversion L; subst; exists (4 + 2 * a.+1 + b); split; last by lia.
    exists a.+1, b, 1, 0, 4; split=> //; last by lia.
      by rewrite En /= nseq_snoc.
    by apply: Or42.
  + inversion L; subst; exists (1 + 2 * a.+1 + b); split; last by lia.
    exists a.+1, b, 2, 0, 1; split=> //; [|by apply: Or43; exists false, false|by lia].
    by rewrite En /= nseq_snoc.
  + by case: (tw_lstep_fork L) => [[s [d' [//]]]|[//]].
- move=> [|i] id s d p a' b' // _ Eb _ L; rewrite /tw_inv /= /upd /=.
  have [[? ? ?] [Eb' Hb]] := nseq_mid (esym (etrans (esym Eb) Em)); subst id s d.
  case: Hs L => [[-> [? [? ?]]]|[-> [? [? ?]]]|[x [y [-> [? [? ?]]]]]|[-> [? [? ?]]]] L; try by inversion L.
  case: (tw_lstep_fork L) => [[s [d [_ [x' [y' [Exy ->]]]]]]|[//]].
  exists (1 + 2 * a + b.-1); split; last by lia.
  exists a, b.-1, 2, (x' + y'), 1; split=> //; [by apply: Or43; exists x', y'|by lia].
- move=> [|to] pl a' b' // _ Ea; rewrite /tw_inv /= /upd /=.
  have [[? ] [Ea' Hp]] := nseq_mid (esym (etrans (esym Ea) En)); subst pl.
  exists (rank + 2 * a.-1 + b.+1); split; last by lia.
  exists a.-1, b.+1, sent, got, rank; split=> //; last by lia.
  by rewrite Em -cats1 nseq_snoc.
Qed.

Lemma tw_progress c m : tw_inv c m -> (exists c', gstep 1 c c') \/ all_done 1 (fun _ => 0) c.
Proof.
case=> a [b [sent [got [rank [En Em Hs Ha _]]]]].
case: a En Ha => [|a] En Ha; last first.
  by left; eexists; apply: (@GDeliver _ _ _ _ c 0 _ [::] (nseq a _)) => //; rewrite En.
case: Hs => [[Ep _]|[Ep _]|[x [y [Ep [? [? ?]]]]]|[Ep [? [? ?]]]].
- by left; eexists; apply: (@GSend _ _ _ _ c 0) => //; rewrite Ep; exact: LSend.
- by left; eexists; apply: (@GSend _ _ _ _ c 0) => //; rewrite Ep; exact: LSend.
- case: b Em Ha => [|b] Em Ha.
    left; eexists; apply: (@GTau _ _ _ _ c 0) => //; rewrite Ep.
    have [-> ->] : x /\ y by subst; move: Ha; clear; case: x; case: y => //=; lia.
    exact: LJoin.
  have [p L] : exists p, lstep (procs c 0) (ARecv tw_id 0 tw_d) p.
    rewrite Ep /tw_fork; subst; clear Ep; case: x y Ha => [] [] Ha; first by exfalso; move: Ha; clear => /=; lia.
    - by eexists; apply: LForkR; exact: LRecv.
    - by eexists; apply: LForkL; exact: LRecv.
    - by eexists; apply: LForkL; exact: LRecv.
  by left; eexists; apply: (@GRecv _ _ _ _ c 0 tw_id 0 tw_d p [::] (nseq b _)); rewrite // Em.
- right; split; first by case.
  by split=> //; case=> // _; rewrite Em; move: Ha; subst; case: (b) => //= b'; lia.
Qed.

(** On the machine all is well; on the stack the first call of [recv] may panic
    because the second one replaces its handle. *)
Theorem C65_one_id_twice_refuted :
  every_run_ends 1 (start (fun _ => tw_prog)) (all_done 1 (fun _ => 0)) /\
  ~ ends_in (sstep 1 id (lnstep 1) l_out) (stack_done 1 l_out (fun _ => 0)) (stack_start 1 linit (fun _ => tw_prog)).
Proof.
split.
  have H0 : tw_inv (start (fun _ => tw_prog)) 7.
    by exists 0, 0, 0, 0, 7; split=> //; apply: Or41.
  exists 7 => k c S; suff : exists m, tw_inv c m /\ k + m <= 7.
    by case=> m [Hm Hk]; split; [lia|exact: tw_progress Hm].
  elim: S (7) H0 => [c0|k0 c0 c1 c2 S1 _ IH] m0 H0; first by exists m0.
  have [m1 [H1 L1]] := tw_step H0 S1; have [m2 [H2 L2]] := IH _ H1.
  by exists m2; split=> //; lia.
move=> E.
pose at_ t h ch pl ls (s : stack pid nat lnet) := s_party s 0 = Party t h ch (RState [::] pl (stats_new 1)) 0 [::] ls.
pose E' t h ch pl ls := exists s, ends_in (sstep 1 id (lnstep 1) l_out) (stack_done 1 l_out (fun _ => 0)) s /\ at_ t h ch pl ls s.
have {}E : E' (TRun tw_prog) 0 [::] [::] [::] by eexists; split; first exact: E.
have tau t t' h ch pl ls : tstep t (@TTau _) t' -> E' t h ch pl ls -> E' t' h ch pl ls.
  move=> S [s [Es Ea]]; have S' := @StTau 1 _ id _ _ (lnstep 1) l_out s 0 t' isT; rewrite Ea /= in S'.
  by exact: (ex_intro _ _ (conj (ends_in_step (S' S) Es) erefl)).
have snd t to i d t' h ch pl ls : tstep t (TSend to i d) t' -> E' t h ch pl ls -> E' t' h ch pl ls.
  move=> S [s [Es Ea]]; have S' := @StSend 1 _ id _ _ (lnstep 1) l_out s 0 to i d t' _ isT; rewrite Ea /= in S'.
  by exact: (ex_intro _ _ (conj (ends_in_step (S' _ S (@LnCall 1 (s_net s) 0 (to, (i, d)) isT)) Es) erefl)).
have ask t i t' h ch pl ls : tstep t (TReq _ i h) t' -> E' t h ch pl ls -> E' t' h.+1 (rcons ch (i, h)) pl ls.
  move=> S [s [Es Ea]]; have S' := @StReq 1 _ id _ _ (lnstep 1) l_out s 0 i t' isT; rewrite Ea /= in S'.
  by exact: (ex_intro _ _ (conj (ends_in_step (S' S) Es) erefl)).
have req t i g h ch pl ls : E' t h ((i, g) :: ch) pl ls ->
    E' t h ch (insert i g pl) (ls ++ if get i pl is Some old then [:: old] else [::]).
  move=> [s [Es Ea]]; have S' := @StRequest 1 _ id _ _ (lnstep 1) l_out s 0 i g ch; rewrite Ea /= in S'.
  by exact: (ex_intro _ _ (conj (ends_in_step (S' _ _ _ isT erefl erefl) Es) erefl)).
have lost t g t' h ch pl ls : g \in ls -> tstep t (TLost _ g) t' -> E' t h ch pl ls -> E' t' h ch pl ls.
  move=> Hg S [s [Es Ea]]; have S' := @StLost 1 _ id _ _ (lnstep 1) l_out s 0 g t' isT; rewrite Ea /= in S'.
  by exact: (ex_intro _ _ (conj (ends_in_step (S' Hg S) Es) erefl)).
have [s [{}E Ep]] : E' (TRun Panic) 2 [::] [:: (tw_id, 1)] [:: 0].
  have E1 := snd _ _ _ _ _ _ _ _ _ (TsSend _ _ _ _) E.
  have E2 := snd _ _ _ _ _ _ _ _ _ (TsSend _ _ _ _) E1.
  have E3 := tau _ _ _ _ _ _ (TsFork _ _ _) E2.
  have E4 := ask _ _ _ _ _ _ _ (TsL _ _ (@TsReq _ _ tw_recv tw_id _ erefl)) E3.
  have E5 := ask _ _ _ _ _ _ _ (TsR _ _ (@TsReq _ _ tw_recv tw_id _ erefl)) E4.
  have E6 := req _ _ _ _ _ _ _ E5.
  have E7 := req _ _ _ _ _ _ _ E6.
  have E8 := lost _ 0 _ _ _ _ [:: 0] isT (TsL _ _ (TsLost _ _ _)) E7.
  exact: tau (TsPanicL _ _) E8.
have no (t : task pid nat) x t' : t = TRun Panic -> ~ tstep t x t' by move=> -> S; inversion S; subst.
move: E; apply: (@ends_in_not _ _ _ (fun s => p_task (s_party s 0) = TRun Panic)); last by rewrite Ep.
- move=> a b Ea S; case: S => //=.
  + by move=> [|i] t _ S //=; case: (no _ _ _ Ea S).
  + by move=> [|i] to id d t x _ S //=; case: (no _ _ _ Ea S).
  + by move=> [|i] id t _ S //=; case: (no _ _ _ Ea S).
  + by move=> [|i] h id f d t a' b' _ _ S //=; case: (no _ _ _ Ea S).
  + by move=> [|i] h t _ _ S //=; case: (no _ _ _ Ea S).
  + by move=> [|i].
  + by move=> [|i].
- by move=> a Ea /(_ 0 isT) []; rewrite Ea.
Qed.
Print Assumptions C65_one_id_twice_refuted.

(** ** The protocols *)

Local Open Scope ring_scope.
Import GRing.Theory.

Lemma In_mem_ids (x : seq N) (s : seq (seq N)) m : (forall y, In y s -> (length y <= m)%coq_nat) -> x \in (s : seq pid) -> (size x <= m)%N.
Proof. by move=> H Hx; apply/leP; apply: H; exact: In_mem. Qed.

(** Preprocessing followed by garbling (C56), for all networks of StackRounds. *)
Lemma pipeline_on_stack : forall (F : fieldType) (emb : nat -> F) (D : eqType) (enc : D -> seq N) ser de fits n t l P Pn circ K M
    (H : eqType) (sha : seq N -> H) h0 draws hash (Ms Mb : mat F) (id1 id2 : seq N) d chans (r : nat -> coins F) bR bZ bB
    (X : Type) (nstep : X -> label -> X -> Prop) out x0 ok,
  network n nstep out x0 ok -> injective enc ->
  @garble_setting F emb D ser de fits n t l P Pn circ K M -> describe circ n t l (Lpn K M) = Some d ->
  (0 < size (rows Ms))%N -> (0 < size (rows Mb))%N -> ncols Ms = n -> ncols Mb = n -> binary Mb ->
  let e := n_errors d in
  let B := size (rows Ms) in let BB := size (rows Mb) in
  (keys_total d + n_randoms d + 3 * e <= B * bR < keys_total d + n_randoms d + 3 * e + B)%N ->
  (n_zeros d + 2 * e <= B * bZ < n_zeros d + 2 * e + B)%N ->
  (n_masks d + 2 * e <= BB * bB < n_masks d + 2 * e + BB)%N ->
  (forall m, (m <= maxn (maxn bR bZ) (maxn bB e))%N -> fits m) ->
  ProtoIdModel.garble_ids id2 circ (N.of_nat l) = Some chans -> (forall u v, id1 ++ u <> id2 ++ v) ->
  (forall chans1 id to y, ProtoIdModel.preproc_ids id1 (N.of_nat n) = Some chans1 -> id \in (chans1 ++ chans : seq pid) -> in_range n to ->
     ok (to, (id, enc y))) ->
  exists g, (forall i, (i < n)%N -> gctx_new emb sha h0 draws circ (Ctx i n t l P Pn) (Lpn K M) = Some (g i)) /\
  forall coins, ends_in (sstep n enc nstep out)
    (fun s => exists pp mk ks rs es tabs,
      [/\ stack_done n out (fun i => garble_val ([seq tabs gid i | gid <- iota 0 (size (p_gates circ))],
             Queues (drop (n_randoms d) (pp_randoms (pp i))) (drop (n_zeros d) (pp_zeros (pp i))) [::])) s,
          preprocessed_as emb n t l Ms Mb d r bR bZ bB pp mk ks rs es &
          garbled emb sha draws circ n t l K M mk ks es tabs])
    (stack_start n x0 (fun i => preproc ser de (Ctx i n t l P Pn) Ms Mb id1 d (r i) (fun pp =>
       garble emb ser de hash (g i) id2 pp (coins i) (fun y => Ret (garble_val y))))).
Proof.
  move=> F emb D enc ser de fits n t l P Pn circ K M H sha h0 draws hash Ms Mb id1 id2 d chans r bR bZ bB X nstep out x0 ok NX enc_inj.
  move=> HG Ed B0 BB0 HM HMb Hbin e B BB LR LZ LB Hf Hids Hroots Hok.
  have [[serK HS F2 Hwf Hinj] [Hl0 /andP [HKl Hn16] Hdeg Hu Hfg]] := HG.
  have Hn := setting_n HS. 
  have Hn32 : (N.of_nat n <= 2 ^ 32)%num by clear -Hn16; lia.
  have Hdeg' : (2 * (t + l).-1 <= n.-1)%N by clear -Hdeg; lia.
  have [rds1 [pp [chans1 [[I1 I2 I3 I4 R1] [mk [ks [rs [es Hpp]]]]]]]] :=
    preproc_rounds id1 r serK HS Hn32 Hdeg' B0 BB0 HM HMb Hbin F2 LR LZ LB Hf.
  have Hmat : material emb n t l d pp mk ks rs es by move: Hpp => [? [? [? [? [? [? [_ _ _ _ []]]]]]]].
  have [g [Hg R]] := garble_rounds sha h0 draws hash HG Ed Hmat Hids.
  exists g. split; first exact: Hg. move=> coins. have [rds2 [tabs [U R2 T]]] := R coins.
  have RR := @realizes_seq n [eqType of seq N] D (val F) _ _ rds1 rds2
    (fun i k => preproc ser de (Ctx i n t l P Pn) Ms Mb id1 d (r i) k) pp
    (fun i pp k => garble emb ser de hash (g i) id2 pp (coins i) k) _ R1 R2.
  apply: ends_in_mono (realizes_on_stack Hn enc_inj NX (ser [::]) (@garble_val F) _ RR _) => [s Hs||id to y].
  - by exists pp, mk, ks, rs, es, tabs.
  - rewrite /ids map_cat cat_uniq -!/(ids _) I2 I3 (perm_uniq U) /=. apply/andP; split.
    + apply/hasPn => x. rewrite (perm_mem U) => Hx. apply/negP => Hx'.
      have [s1 E1] := preproc_below I1 Hx'. have [s2 E2] := garble_below Hids Hx.
      apply: (Hroots s1 s2). by rewrite -E1 -E2.
    + apply: NoDup_uniq. exact: (P_ProtoId.C20_garble_ids_distinct _ _ _ _ Hids).1.
  - rewrite /ids map_cat -!/(ids _) I2 mem_cat (perm_mem U) -mem_cat. exact: (Hok chans1).
Qed.

(** Over TCP: the parties really exchange the bytes of the frames.  Ids have at
    most 255 bytes, which holds for root ids of up to 200 bytes unless a circuit
    has 2^56 blocks of gates. *)
Theorem C65_pipeline_tcp : forall (F : fieldType) (emb : nat -> F) (D : eqType) (enc : D -> seq N) ser de fits n t l P Pn circ K M
    (H : eqType) (sha : seq N -> H) h0 draws hash (Ms Mb : mat F) (id1 id2 : seq N) d chans (r : nat -> coins F) bR bZ bB,
  injective enc -> (forall y, (N.of_nat (size (enc y)) < 2 ^ 62)%num) ->
  @garble_setting F emb D ser de fits n t l P Pn circ K M -> describe circ n t l (Lpn K M) = Some d ->
  (0 < size (rows Ms))%N -> (0 < size (rows Mb))%N -> ncols Ms = n -> ncols Mb = n -> binary Mb ->
  let e := n_errors d in
  let B := size (rows Ms) in let BB := size (rows Mb) in
  (keys_total d + n_randoms d + 3 * e <= B * bR < keys_total d + n_randoms d + 3 * e + B)%N ->
  (n_zeros d + 2 * e <= B * bZ < n_zeros d + 2 * e + B)%N ->
  (n_masks d + 2 * e <= BB * bB < n_masks d + 2 * e + BB)%N ->
  (forall m, (m <= maxn (maxn bR bZ) (maxn bB e))%N -> fits m) ->
  ProtoIdModel.garble_ids id2 circ (N.of_nat l) = Some chans -> (forall u v, id1 ++ u <> id2 ++ v) ->
  (size id1 <= 200)%N -> (size id2 <= 200)%N ->
  (N.of_nat (length (p_inputs circ)) + N.of_nat (length (p_gates circ)) + 4 <= 2 ^ 56)%num ->
  (ProtoIdModel.num_inp_blocks (p_gates circ) <= 2 ^ 56)%num ->
  exists g, (forall i, (i < n)%N -> gctx_new emb sha h0 draws circ (Ctx i n t l P Pn) (Lpn K M) = Some (g i)) /\
  forall coins, ends_in (sstep n enc (tnstep n) t_out)
    (fun s => exists pp mk ks rs es tabs,
      [/\ stack_done n t_out (fun i => garble_val ([seq tabs gid i | gid <- iota 0 (size (p_gates circ))],
             Queues (drop (n_randoms d) (pp_randoms (pp i))) (drop (n_zeros d) (pp_zeros (pp i))) [::])) s,
          preprocessed_as emb n t l Ms Mb d r bR bZ bB pp mk ks rs es &
          garbled emb sha draws circ n t l K M mk ks es tabs])
    (stack_start n tinit (fun i => preproc ser de (Ctx i n t l P Pn) Ms Mb id1 d (r i) (fun pp =>
       garble emb ser de hash (g i) id2 pp (coins i) (fun y => Ret (garble_val y))))).
Proof.
  move=> F emb D enc ser de fits n t l P Pn circ K M H sha h0 draws hash Ms Mb id1 id2 d chans r bR bZ bB enc_inj enc_short.
  move=> HG Ed B0 BB0 HM HMb Hbin e B BB LR LZ LB Hf Hids Hroots Hid1 Hid2 Hb Hni.
  apply: (pipeline_on_stack sha h0 draws hash r (tcp_network n) enc_inj HG Ed B0 BB0 HM HMb Hbin LR LZ LB Hf Hids Hroots).
  move=> chans1 id to y Hc1 Hid Hto.
  have [_ [Hl0 /andP [_ Hn16] _ _ _]] := HG.
  suff Hs : (size id <= 255)%N.
  { split; first exact: range_recipient. split; first exact: Hs. rewrite -[_.2.1]/id -[_.2.2]/(enc y). have := enc_short y. have : (2 ^ 62 + 256 < 2 ^ 63)%num by apply/N.ltb_lt.
    move: Hs (size (enc y)). move: (size id) (2 ^ 62)%num (2 ^ 63)%num => a b c. clear => ? m ? ?. lia. }
  move: Hid. rewrite mem_cat => /orP [Hx|Hx].
  - have B5 : (4 + 2 * N.of_nat n <= 2 ^ (8 * 5))%num.
    { apply: (N.le_trans _ (4 + 2 * 2 ^ 32)%num); [|by apply/N.leb_le].
      have : (N.of_nat n <= 2 ^ 32)%num by clear -Hn16; lia.
      move: (2 ^ 32)%num (N.of_nat n) => a b. clear. lia. }
    have := In_mem_ids (IdLength.preproc_ids_short _ _ _ _ B5 Hc1) Hx. rewrite -[length id1]/(size id1) -[N.to_nat 5]/5%N. move: (size id) (size id1) Hid1 => a b. clear => ? ?. lia.
  - have Hl' : (0 < N.of_nat l)%num by clear -Hl0; lia.
    have [_ Hsh] := IdLength.garble_ids_short id2 circ (N.of_nat l) chans 7 Hl' (erefl _) Hb Hni Hids.
    have := In_mem_ids Hsh Hx. rewrite -[length id2]/(size id2) -[N.to_nat 7]/7%N. move: (size id) (size id2) Hid2 => a b. clear => ? ?. lia.
Qed.
Print Assumptions C65_pipeline_tcp.

(** On the local network of the tests: no conditions on sizes. *)
Theorem C65_pipeline_local : forall (F : fieldType) (emb : nat -> F) (D : eqType) (enc : D -> seq N) ser de fits n t l P Pn circ K M
    (H : eqType) (sha : seq N -> H) h0 draws hash (Ms Mb : mat F) (id1 id2 : seq N) d chans (r : nat -> coins F) bR bZ bB,
  injective enc ->
  @garble_setting F emb D ser de fits n t l P Pn circ K M -> describe circ n t l (Lpn K M) = Some d ->
  (0 < size (rows Ms))%N -> (0 < size (rows Mb))%N -> ncols Ms = n -> ncols Mb = n -> binary Mb ->
  let e := n_errors d in
  let B := size (rows Ms) in let BB := size (rows Mb) in
  (keys_total d + n_randoms d + 3 * e <= B * bR < keys_total d + n_randoms d + 3 * e + B)%N ->
  (n_zeros d + 2 * e <= B * bZ < n_zeros d + 2 * e + B)%N ->
  (n_masks d + 2 * e <= BB * bB < n_masks d + 2 * e + BB)%N ->
  (forall m, (m <= maxn (maxn bR bZ) (maxn bB e))%N -> fits m) ->
  ProtoIdModel.garble_ids id2 circ (N.of_nat l) = Some chans -> (forall u v, id1 ++ u <> id2 ++ v) ->
  exists g, (forall i, (i < n)%N -> gctx_new emb sha h0 draws circ (Ctx i n t l P Pn) (Lpn K M) = Some (g i)) /\
  forall coins, ends_in (sstep n enc (lnstep n) l_out)
    (fun s => exists pp mk ks rs es tabs,
      [/\ stack_done n l_out (fun i => garble_val ([seq tabs gid i | gid <- iota 0 (size (p_gates circ))],
             Queues (drop (n_randoms d) (pp_randoms (pp i))) (drop (n_zeros d) (pp_zeros (pp i))) [::])) s,
          preprocessed_as emb n t l Ms Mb d r bR bZ bB pp mk ks rs es &
          garbled emb sha draws circ n t l K M mk ks es tabs])
    (stack_start n linit (fun i => preproc ser de (Ctx i n t l P Pn) Ms Mb id1 d (r i) (fun pp =>
       garble emb ser de hash (g i) id2 pp (coins i) (fun y => Ret (garble_val y))))).
Proof.
  move=> F emb D enc ser de fits n t l P Pn circ K M H sha h0 draws hash Ms Mb id1 id2 d chans r bR bZ bB enc_inj.
  move=> HG Ed B0 BB0 HM HMb Hbin e B BB LR LZ LB Hf Hids Hroots.
  apply: (pipeline_on_stack sha h0 draws hash r (local_network n) enc_inj HG Ed B0 BB0 HM HMb Hbin LR LZ LB Hf Hids Hroots).
  move=> chans1 id to y _ _ Hto. exact: range_recipient.
Qed.
Print Assumptions C65_pipeline_local.

(** ** The programs *)

(** bin/garble.rs on the TCP network, up to its final report (C59).  [bser] is
    [gser] on buffers of less than 2^62 bytes; it does not truncate under the
    condition on [K]. *)
Theorem C65_garble_program : forall (w : width) (H : eqType) (sha : seq N -> H) h0 draws hash
    (G : Type) (seed_from : N -> G) gf_rand gen_bool (syn : bytes) text c circ n t l K M reps coins,
  from_bristol_fashion text = Some c -> well_formed c -> pack c (N.of_nat l) = Some circ ->
  (0 < l)%N -> (t + 2 * l <= n <= 2 ^ 16)%N -> (2 * (t + l - 1) <= n - 1)%N ->
  (N.of_nat n + N.of_nat l + c_num_wires c <= 2 ^ w)%num -> (N.of_nat M < 2 ^ w)%num ->
  (8 + N.of_nat (4 * K + 3) * ((w + 7) / 8) < 2 ^ 62)%num ->
  let ng := N.of_nat (length (p_gates circ)) in
  let nb := (N.of_nat (length (p_inputs circ)) + ng)%num in
  let ni := ProtoIdModel.num_inp_blocks (p_gates circ) in
  (0 < nb <= 2 ^ 48)%num -> (ni <= 2 ^ 48)%num ->
  (forall x, In x [:: 4 + ng; nb; ni; (nb + N.of_nat l - 1) / N.of_nat l; (ni + N.of_nat l - 1) / N.of_nat l]%num ->
     ~ exists k, x = (256 ^ k)%num) ->
  ends_in (sstep n raw (tnstep n) t_out)
    (fun s => exists d (pp : nat -> nat -> preproc_data (gf_fieldType w)) mk ks rs es tabs rest,
      [/\ stack_done n t_out (fun i => Node [seq garble_val ([seq tabs r gid i | gid <- iota 0 (size (p_gates circ))], rest r i)
                                    | r <- iota 0 reps]) s,
          describe circ n t l (Lpn K M) = Some d &
          forall r, (r < reps)%N ->
            [/\ forall i, (i < n)%N -> dummy (gf_of w) seed_from gf_rand gen_bool i n t l (200 + N.of_nat r) d = Some (pp r i),
                material (gf_of w) n t l d (pp r) (mk r) (ks r) (rs r) (es r) &
                garbled (gf_of w) sha draws circ n t l K M (mk r) (ks r) (es r) (tabs r)]])
    (stack_start n tinit (fun i => garble_bin (gf_of w) (@bser w) (@bde w) syn sha h0 draws hash seed_from gf_rand gen_bool
       text i n t l (Lpn K M) reps (fun r => coins r i) (fun ys => Ret (Node [seq garble_val y | y <- ys])))).
Proof.
  move=> w H sha h0 draws hash G seed_from gf_rand gen_bool syn text c circ n t l K M reps coins.
  move=> Ht Hwf Hp Hl Hn Hd Hw HM HK ng nb ni Hb Hni Hpow.
  have [d [pp [mk [ks [rs [es [tabs [rest [Ed Hr L]]]]]]]]] := garble_loops_in sha h0 draws hash seed_from gf_rand gen_bool syn reps coins
    (@bserK w) Ht Hwf Hp Hl Hn Hd Hw HM (fun m Hm => bfits_le Hm HK) Hb Hni Hpow.
  apply: ends_in_mono (loops_on_stack raw_inj (tcp_network n) (fun ys => Node [seq garble_val y | y <- ys]) L _) => [s A|id to y Hid Hto].
  - exists d, pp, mk, ks, rs, es, tabs, rest. split=> //. move=> i Hi. have := A i Hi. by rewrite -map_comp.
  - apply: tcp_sizes => //. by case: Hid => [->|/leq_trans ->].
Qed.
Print Assumptions C65_garble_program.

(** bin/preproc.rs. *)
Theorem C65_preproc_program : forall (w : width) (syn : bytes) text c circ (bs : seq (seq bool)) es C n t l K M d reps
    (r : nat -> nat -> coins (gf_fieldType w)),
  from_bristol_fashion text = Some c -> pack c (N.of_nat l) = Some circ -> describe circ n t l (Lpn K M) = Some d ->
  size bs = n -> size es = n -> ends_ok es -> (0 < C)%N -> all (fun row => size row == C) bs ->
  (0 < l)%N -> (t + l <= n)%N -> (2 * (t + l - 1) <= n - 1)%N -> (N.of_nat n + N.of_nat l <= 2 ^ w)%num ->
  let most := maxn (keys_total d + n_randoms d + 3 * n_errors d) (maxn (n_zeros d + 2 * n_errors d) (n_masks d + 2 * n_errors d)) in
  (8 + N.of_nat most * ((w + 7) / 8) < 2 ^ 62)%num ->
  exists Ms Mb bR bZ bB,
    [/\ super_inv_matrix (gf_of w) n (n - t) = Some Ms,
        forall i j, (i < C)%N -> (j < n)%N -> entry Mb i j = (nth false (nth [::] bs j) i)%:R &
        [/\ size (rows Ms) = (n - t)%N, size (rows Mb) = C,
            (keys_total d + n_randoms d + 3 * n_errors d <= (n - t) * bR < keys_total d + n_randoms d + 3 * n_errors d + (n - t))%N,
            (n_zeros d + 2 * n_errors d <= (n - t) * bZ < n_zeros d + 2 * n_errors d + (n - t))%N &
            (n_masks d + 2 * n_errors d <= C * bB < n_masks d + 2 * n_errors d + C)%N]] /\
  ends_in (sstep n raw (tnstep n) t_out)
    (fun s => exists pp, stack_done n t_out (fun i => Node [seq pp_val (pp q i) | q <- iota 0 reps]) s /\
      forall q, (q < reps)%N -> preprocessed (gf_of w) n t l Ms Mb d (r q) bR bZ bB (pp q))
    (stack_start n tinit (fun i => preproc_bin (gf_of w) (@bser w) (@bde w) syn text (matrix_text bs es) i n t l (Lpn K M) reps (fun q => r q i)
       (fun ys => Ret (Node [seq pp_val y | y <- ys])))).
Proof.
  move=> w syn text c circ bs es C n t l K M d reps r Ht Hp Ed Zb Ze He HC Hrows Hl Htl Hd Hw most Hft.
  have [Ms [Mb [bR [bZ [bB [Hm [pp [Hpp L]]]]]]]] := preproc_loops_in syn reps r (@bserK w) Ht Hp Ed Zb Ze He HC Hrows Hl Htl Hd Hw
    (fun m Hm => bfits_le Hm Hft).
  exists Ms, Mb, bR, bZ, bB. split; first exact: Hm.
  apply: ends_in_mono (loops_on_stack raw_inj (tcp_network n) (fun ys => Node [seq pp_val y | y <- ys]) L _) => [s A|id to y Hid Hto].
  - exists pp. split; last exact: Hpp. move=> i Hi. have := A i Hi. by rewrite -map_comp.
  - apply: tcp_sizes => //. by case: Hid => [->|/leq_trans ->].
Qed.
Print Assumptions C65_preproc_program.

(** The hypotheses of the pipeline are those of [C56_example] with buffers of
    less than 2^62 bytes. *)
Example C65_pipeline_example : exists P Pn (Ms Mb : mat (gf_fieldType w4)) d chans bR bZ bB,
  let e := n_errors d in let B := size (rows Ms) in let BB := size (rows Mb) in let id1 := [:: 5]%num in let id2 := [:: 7]%num in
  [/\ injective raw, forall y, (N.of_nat (size (raw y)) < 2 ^ 62)%num &
      garble_setting g4 (@bser w4) (@bde w4) (bfits w4) 3 1 1 P Pn circ3 1 2 /\ describe circ3 3 1 1 (Lpn 1 2) = Some d] /\
  [/\ (0 < B)%N, (0 < BB)%N, ncols Ms = 3%N, ncols Mb = 3%N & binary Mb] /\
  [/\ (keys_total d + n_randoms d + 3 * e <= B * bR < keys_total d + n_randoms d + 3 * e + B)%N,
      (n_zeros d + 2 * e <= B * bZ < n_zeros d + 2 * e + B)%N, (n_masks d + 2 * e <= BB * bB < n_masks d + 2 * e + BB)%N &
      forall m, (m <= maxn (maxn bR bZ) (maxn bB e))%N -> bfits w4 m] /\
  [/\ ProtoIdModel.garble_ids id2 circ3 (N.of_nat 1) = Some chans, forall u v : seq N, id1 ++ u <> id2 ++ v &
      [/\ (size id1 <= 200)%N, (size id2 <= 200)%N,
          (N.of_nat (length (p_inputs circ3)) + N.of_nat (length (p_gates circ3)) + 4 <= 2 ^ 56)%num &
          (ProtoIdModel.num_inp_blocks (p_gates circ3) <= 2 ^ 56)%num]].
Proof.
  have [P [Pn [Ms [Mb [d [chans [bR [bZ [bB [[HG Ed EMs HB [Hc Hr]] [LR LZ LB _]]]]]]]]]]] := C56_example.
  have Hsmall m : (m <= 999)%N -> bfits w4 m.
  { move=> Hm. apply: (@bfits_le w4 m 999%N Hm). rewrite /bfits. by apply/N.ltb_lt. }
  exists P, Pn, Ms, Mb, d, chans, bR, bZ, bB. split; [|split; [exact: HB|split]].
  - split; [exact: raw_inj|exact: raw_short|split; last exact: Ed].
    have [[_ HS F2 Hwf Hinj] [Hl0 Hn Hdeg Hu _]] := HG.
    split; split=> //; first exact: bserK. move=> m Hm. apply: Hsmall. exact: leq_trans Hm _.
  - have Hd : [/\ (keys_total d + n_randoms d + 3 * n_errors d <= 999)%N, (n_zeros d + 2 * n_errors d <= 999)%N & (n_masks d + 2 * n_errors d <= 999)%N].
    { by case: Ed => <-. }
    have [D1 D2 D3] := Hd. have [B0 BB0 _ _ _] := HB.
    split=> // m Hm. apply: Hsmall. apply: leq_trans Hm _. rewrite !geq_max.
    rewrite (leq_trans (batch_le B0 LR) D1) (leq_trans (batch_le B0 LZ) D2) (leq_trans (batch_le BB0 LB) D3) /=.
    apply: leq_trans D3. apply: leq_trans (leq_addl _ _). by rewrite leq_pmull.
  - split; [exact: Hc|exact: Hr|split=> //]; by apply/N.leb_le.
Qed.

(** The programs: the hypotheses are those of [C54_example] and [C55_example] and
    the bounds on the buffers. *)
Example C65_programs_example :
  (8 + N.of_nat (4 * 1 + 3) * ((w4 + 7) / 8) < 2 ^ 62)%num /\
  exists circ d, [/\ from_bristol_fashion text3 = Some source3, pack source3 (N.of_nat 1) = Some circ, describe circ 3 1 1 (Lpn 1 2) = Some d &
    let most := maxn (keys_total d + n_randoms d + 3 * n_errors d) (maxn (n_zeros d + 2 * n_errors d) (n_masks d + 2 * n_errors d)) in
    (8 + N.of_nat most * ((w4 + 7) / 8) < 2 ^ 62)%num].
Proof. split; first by apply/N.ltb_lt. eexists _, _. split; [by vm_compute|by vm_compute|reflexivity|by apply/N.ltb_lt]. Qed.

(** The whole stack follows the machine: simulation, termination, end. *)

From Coq Require Import NArith.
From mathcomp Require Import all_ssreflect zify.
From Verif Require Import MachineModel RouterModel RouterSpec RouteModel RouteSpec RouteProofs StackModel StackSpec StackProofs.
Set Implicit Arguments.
Unset Strict Implicit.
Unset Printing Implicit Defensive.

Section Runs.
Variables (S : Type) (step : S -> label -> S -> Prop).

Lemma runs_tau s cs k s' s'' : runs step s cs k s' -> step s' Tau s'' -> runs step s cs k.+1 s''.
Proof.
elim=> [s0|s0 i m s1 cs0 k0 s2 H _ IH|s0 s1 cs0 k0 s2 H _ IH] H'.
- exact: RunTau H' (RunNil _ _).
- exact: RunCall H (IH H').
- exact: RunTau H (IH H').
Qed.

Lemma runs_call s cs k s' i m s'' : runs step s cs k s' -> step s' (Call i m) s'' -> runs step s (rcons cs (i, m)) k s''.
Proof.
elim=> [s0|s0 i0 m0 s1 cs0 k0 s2 H _ IH|s0 s1 cs0 k0 s2 H _ IH] H' /=.
- exact: RunCall H' (RunNil _ _).
- exact: RunCall H (IH H').
- exact: RunTau H (IH H').
Qed.

End Runs.

Section Ends.
Variables (n : nat) (I D : eqType) (V : Type).
Notation cfg := (cfg I D V).

Lemma gsteps_snoc k (c c1 c2 : cfg) : gsteps n k c c1 -> gstep n c1 c2 -> gsteps n k.+1 c c2.
Proof. by elim=> [c0 S|k0 c0 c3 c4 S1 _ IH S2]; [exact: GSS S (GS0 _ _)|exact: GSS S1 (IH S2)]. Qed.

Lemma ends_reach k (c0 c : cfg) Q : every_run_ends n c0 Q -> gsteps n k c0 c ->
  exists k' c', [/\ gsteps n k' c c' & Q c'].
Proof.
case=> B HB; elim: {k}(B.+1 - k) {-2}k (leqnn (B.+1 - k)) c => [|b IH] k Hk c S.
  by have [Hb _] := HB k c S; lia.
have [Hb [[c' S']|H]] := HB k c S; last by exists 0, c; split=> //; exact: GS0.
have [|k' [c'' [S'' H]]] := IH k.+1 _ c' (gsteps_snoc S S'); first lia.
by exists k'.+1, c''; split=> //; exact: GSS S' S''.
Qed.

End Ends.

Section Global.
Variables (n : nat) (D : eqType) (enc : D -> seq N) (V : Type).
Notation I := [eqType of seq N].
Notation proc := (proc I D V).
Notation cfg := (cfg I D V).
Hypothesis enc_inj : injective enc.

Lemma gstep_panics (c c' : cfg) i : gstep n c c' -> panics (procs c i) -> panics (procs c' i).
Proof.
case=> [j p Hj L|j to id d p Hj L|j id s d p a b Hj _ _ L|to m a b _ _] //=; rewrite /upd; case: eqP => [->|] // H;
  exact: lstep_panics L H.
Qed.

Lemma gsteps_panics k (c c' : cfg) i : gsteps n k c c' -> panics (procs c i) -> panics (procs c' i).
Proof. by elim=> [c0|k0 c0 c1 c2 S _ IH] // H; apply: IH; exact: gstep_panics S H. Qed.

Variables (X : Type) (nstep : X -> label -> X -> Prop) (out : X -> nat -> seq (nat * payload)) (x0 : X) (ok : smsg -> Prop).
Hypothesis NX : delivers nstep n x0 out ok.
Hypothesis out0 : forall j, out x0 j = [::].
Hypothesis out_call : forall x i m x', nstep x (Call i m) x' -> forall j, out x' j = out x j.
Hypothesis out_tau : forall x x', nstep x Tau x' -> (forall j, out x' j = out x j) \/
  exists j y, j < n /\ forall j', out x' j' = if j' == j then rcons (out x j) y else out x j'.
Hypothesis can_call : forall x i m, i < n -> exists x', nstep x (Call i m) x'.

Variables (P : nat -> proc) (res : nat -> V) (left : nat -> seq (I * (nat * D))).
Hypothesis P_sends : forall k c i to id d p, gsteps n k (start P) c -> i < n -> lstep (procs c i) (ASend to id d) p ->
  in_range n to /\ ok (to, (id, enc d)).
Hypothesis P_clear : forall k c i, gsteps n k (start P) c -> i < n -> uniq (listens (procs c i)).
Definition left_done (c : cfg) : Prop :=
  [/\ forall i, i < n -> procs c i = Ret (res i), net c = [::] & forall i, i < n -> mbox c i = left i].
Hypothesis P_ends : every_run_ends n (start P) left_done.

Notation stack := (stack D V X).
Notation sstep := (@sstep n D enc V X nstep out).
Notation pl_eq := ([eqType of seq N * seq N]).

Definition pend (c : cfg) (i r : nat) : seq pl_eq :=
  [seq (m.2.1, enc m.2.2.2) | m <- net c & (m.1 == r) && (m.2.2.1 == i)].

Record sim (k : nat) (calls : seq (nat * smsg)) (s : stack) (c : cfg) : Prop := Sim {
  sim_reach : gsteps n k (start P) c;
  sim_calls : s_calls s = calls;
  sim_runs : exists kk, runs nstep x0 calls kk (s_net s);
  sim_ok : forall i m, List.In (i, m) calls -> ok m;
  sim_proc : forall i, i < n -> erase (p_task (s_party s i)) = procs c i;
  sim_range : all (fun m => (m.1 < n) && (m.2.2.1 < n)) (net c);
  sim_pend : forall i r, i < n -> r < n -> perm_eq (pend c i r ++ (got_from (out (s_net s) r) i : seq pl_eq)) (expected calls i r);
  sim_party : forall i, i < n -> pinv n enc (s_party s i) (out (s_net s) i) (mbox c i) }.

Lemma no_panic k c i : gsteps n k (start P) c -> i < n -> ~~ panics (procs c i).
Proof.
move=> S Hi; apply/negP => Hp; have [k' [c' [S' [Hd _ _]]]] := ends_reach P_ends S.
by have := gsteps_panics S' Hp; rewrite Hd.
Qed.

Lemma sim_clear k calls s c i : sim k calls s c -> i < n -> clear_ids (s_party s i).
Proof.
move=> H Hi; apply: subseq_uniq (waits_sub (pi_wf (sim_party H Hi))) _.
by rewrite (sim_proc H Hi); exact: P_clear (sim_reach H) Hi.
Qed.

Lemma slot_split (l : seq (handle * msg)) h id : (h, id) \in [seq (x.1, m_id x.2) | x <- l] ->
  exists a m b, l = a ++ (h, m) :: b /\ m_id m = id.
Proof.
elim: l => //= -[h0 m0] l IH; rewrite in_cons => /orP[/eqP [-> ->]|/IH [a [m [b [-> E]]]]].
  by exists [::], m0, l.
by exists ((h0, m0) :: a), m, b.
Qed.

(** What remains to do inside a state of the machine, without the network. *)
Definition load (s : stack) (i : nat) : nat :=
  2 * tm (p_task (s_party s i)) + size (p_chan (s_party s i)) + (size (out (s_net s) i) - p_read (s_party s i)).
Definition inner (s : stack) : nat := \sum_(i < n) load s i.

Lemma inner_upd s i p : i < n -> (forall s' : stack, s_net s' = s_net s -> s_party s' = upd (s_party s) i p -> load s' i < load s i) ->
  inner (set_party s i p) < inner s.
Proof.
move=> Hi H; rewrite /inner (bigD1 (Ordinal Hi)) //= [X in _ < X](bigD1 (Ordinal Hi)) //=.
rewrite (eq_bigr (fun j : 'I_n => load s j)) => [|j Hj].
  by have := H (set_party s i p) erefl erefl; set Y := \sum_(_ < _ | _) _; lia.
by rewrite /load /= /upd; case: eqP => // E; case/eqP: Hj; apply: val_inj.
Qed.

(** A step of a party that the machine does not see. *)
Lemma sim_inner k calls s c i p : sim k calls s c -> i < n -> erase (p_task p) = erase (p_task (s_party s i)) ->
  pinv n enc p (out (s_net s) i) (mbox c i) -> sim k calls (set_party s i p) c.
Proof.
move=> H Hi Ee Hp; split; try by case: H.
- by move=> j Hj /=; rewrite /upd; case: eqP => [->|_]; rewrite ?Ee; exact: (sim_proc H).
- by move=> j Hj /=; rewrite /upd; case: eqP => [->|_] //; exact: (sim_party H).
Qed.

(** A step of the code of one party. *)
Lemma sim_local k calls s c i p c' : sim k calls s c -> i < n -> gstep n c c' ->
  procs c' = upd (procs c) i (erase (p_task p)) -> net c' = net c -> (forall j, j != i -> mbox c' j = mbox c j) ->
  pinv n enc p (out (s_net s) i) (mbox c' i) -> sim k.+1 calls (set_party s i p) c'.
Proof.
move=> H Hi G Ep En Em Hp; split.
- exact: gsteps_snoc (sim_reach H) G.
- exact: sim_calls H.
- exact: sim_runs H.
- exact: sim_ok H.
- by move=> j Hj /=; rewrite Ep /upd; case: eqP => [_|_] //; exact: (sim_proc H).
- by rewrite En; exact: sim_range H.
- by move=> j r Hj Hr; rewrite /pend En; exact: (sim_pend H Hj Hr).
- by move=> j Hj /=; rewrite /upd; case: eqP => [->|/eqP Hne] //; rewrite Em //; exact: (sim_party H).
Qed.

Lemma pend_cat (c : cfg) l i r : pend (Cfg (procs c) (net c ++ l) (mbox c)) i r = 
  pend c i r ++ [seq (m.2.1, enc m.2.2.2) | m <- l & (m.1 == r) && (m.2.2.1 == i)].
Proof. by rewrite /pend /= filter_cat map_cat. Qed.

Lemma pend_out i0 to id d i r : in_range n to -> r < n ->
  [seq (m.2.1, enc m.2.2.2) | m <- outgoing n i0 to id d & (m.1 == r) && (m.2.2.1 == i)] =
  (if (i0 == i) && addressed to r then [:: (id, enc d)] else [::]) :> seq pl_eq.
Proof.
case: to => [q|] /= Hq Hr; first by case: (q == r); case: (i0 == i).
rewrite filter_map -map_comp.
rewrite (@eq_filter _ _ (fun q => (q == r) && (i0 == i))) //.
case: (i0 == i); last by rewrite (@eq_filter _ _ pred0) ?filter_pred0 // => q; rewrite /= andbF.
rewrite (@eq_filter _ _ (fun q => q == r)) => [|q]; last by rewrite andbT.
by rewrite filter_iota.
Qed.

(** The network delivers. *)
Lemma sim_deliver k calls s c x j y : sim k calls s c -> nstep (s_net s) Tau x -> j < n ->
  (forall j', out x j' = if j' == j then rcons (out (s_net s) j) y else out (s_net s) j') ->
  exists c', sim k.+1 calls (Stack x (s_party s) (s_calls s)) c'.
Proof.
move=> H Hx Hj Ho; have [kk Hr] := sim_runs H; have Hr' := runs_tau Hr Hx.
have [D1 D2 _ _] := NX Hr' (sim_ok H).
have Hy : y.1 < n by have [] := D2 j y => //; rewrite Ho eqxx; apply/List.in_rev; rewrite -cats1 List.rev_app_distr; left.
have [rest Er] := D1 y.1 j Hy Hj; rewrite Ho eqxx got_rcons eqxx -catA in Er.
have Hp := sim_pend H Hy Hj.
have Hin : y.2 \in pend c y.1 j.
  have : perm_eq (pend c y.1 j ++ got_from (out (s_net s) j) y.1) (([:: y.2] ++ rest) ++ (got_from (out (s_net s) j) y.1 : seq pl_eq)).
    by apply: perm_trans Hp _; rewrite Er perm_catC.
  by rewrite perm_cat2r => /perm_mem ->; rewrite mem_head.
case/mapP: Hin => -[to [id [i d]]]; rewrite mem_filter /= => /andP[/andP[/eqP Et /eqP Ei] Hm] Ey; subst to i.
have [a [b En]] : exists a b, net c = a ++ (j, (id, (y.1, d))) :: b.
  by case/splitPr: Hm => a b; exists a, b.
have G := GDeliver Hj En; eexists; split.
- exact: gsteps_snoc (sim_reach H) G.
- exact: sim_calls H.
- by exists kk.+1.
- exact: sim_ok H.
- exact: sim_proc H.
- by have := sim_range H; rewrite En /= !all_cat /= => /and3P[-> _ ->].
- move=> i r Hi Hr0 /=; rewrite Ho; have := sim_pend H Hi Hr0.
  rewrite /pend /= En !filter_cat !map_cat /= [r == j]eq_sym; case: (eqVneq j r) => [<-|_] //=.
  rewrite got_rcons; case: (eqVneq y.1 i) => [_|_] /=; last by rewrite cats0.
  move=> /permP Hq; apply/permP => q; move: (Hq q); rewrite !count_cat /= -Ey !addn0; move: (q y.2) => qq <-.
  by clear; lia.
- move=> i Hi /=; rewrite Ho /upd; case: eqP => [->|_]; last exact: (sim_party H).
  have -> : y = (y.1, (id, enc d)) by rewrite -Ey; case: (y).
  by apply: pinv_deliver; exact: (sim_party H).
Qed.

Lemma sim_quiet k calls s c x : sim k calls s c -> nstep (s_net s) Tau x -> (forall j, out x j = out (s_net s) j) ->
  sim k calls (Stack x (s_party s) (s_calls s)) c.
Proof.
move=> H Hx Ho; have [kk Hr] := sim_runs H; split=> /=; try by case: H.
- by exists kk.+1; exact: runs_tau Hr Hx.
- by move=> i r Hi Hr0; rewrite Ho; exact: (sim_pend H Hi Hr0).
- by move=> i Hi; rewrite Ho; exact: (sim_party H Hi).
Qed.

Lemma sim_send k calls s c i to id d t x : sim k calls s c -> i < n -> tstep (p_task (s_party s i)) (TSend to id d) t ->
  nstep (s_net s) (Call i (to, (id, enc d))) x ->
  exists c', sim k.+1 (rcons calls (i, (to, (id, enc d)))) (Stack x (upd (s_party s) i (with_task (s_party s i) t)) (rcons (s_calls s) (i, (to, (id, enc d))))) c'.
Proof.
move=> H Hi Ht Hx; have [Ew L] := send_sim Ht; rewrite (sim_proc H Hi) in L.
have [Hto Hok] := P_sends (sim_reach H) Hi L.
have G := GSend Hi L; have Ho := out_call Hx; have [kk Hr] := sim_runs H; eexists; split.
- exact: gsteps_snoc (sim_reach H) G.
- by rewrite /= (sim_calls H).
- by exists kk; exact: runs_call Hr Hx.
- move=> i' m' Hin; case: (In_rcons Hin) => [Q|[_ ->]] //; exact: (sim_ok H Q).
- by move=> j Hj /=; rewrite /upd; case: eqP => // _; exact: (sim_proc H).
- rewrite /= all_cat (sim_range H); case: (to) Hto => [q|] /=; first by move=> ->; rewrite Hi.
  by move=> _; rewrite all_map; apply/allP => q; rewrite mem_iota /= Hi andbT.
- move=> i' r Hi' Hr0; rewrite expected_rcons /= Ho.
  have := sim_pend H Hi' Hr0; rewrite /pend /= filter_cat map_cat (pend_out _ _ _ _ Hto Hr0).
  move=> /permP Hq; apply/permP => q; move: (Hq q); rewrite !count_cat => <-.
  by rewrite -addnA [X in _ + X]addnC addnA.
- move=> j Hj /=; rewrite Ho /upd; case: eqP => [->|_]; last exact: (sim_party H).
  by apply: pinv_task => //; [exact: (sim_party H)|exact: tstep_wf Ht (pi_wf (sim_party H Hi))].
Qed.

Lemma sim_step k calls s c s' : sim k calls s c -> sstep s s' ->
  [\/ exists calls' c', sim k.+1 calls' s' c',
      [/\ sim k calls s' c, s_net s' = s_net s & inner s' < inner s] |
      [/\ sim k calls s' c, nstep (s_net s) Tau (s_net s') & inner s' = inner s]].
Proof.
move=> H; case=> {s'}.
- move=> i t Hi Ht; have HP := sim_party H Hi.
  have [|Ew [[Ee Hm]|L]] := tau_sim Ht.
  + by rewrite (sim_proc H Hi); exact: no_panic (sim_reach H) Hi.
  + constructor 2; split=> //.
    * by apply: sim_inner => //; apply: pinv_task => //; exact: tstep_wf Ht (pi_wf HP).
    * by apply: inner_upd => // s' En Es; rewrite /load En Es /upd eqxx /=; lia.
  + rewrite (sim_proc H Hi) in L; constructor 1; exists calls; have G := GTau Hi L; eexists.
    apply: (sim_local H Hi G) => //=.
    by apply: pinv_task => //; exact: tstep_wf Ht (pi_wf HP).
- by move=> i to id d t x Hi Ht Hx; constructor 1; exists (rcons calls (i, (to, (id, enc d)))); exact: sim_send H Hi Ht Hx.
- move=> i id t Hi p Ht; constructor 2; have HP := sim_party H Hi; have [_ Ee Hm] := req_sim Ht; split=> //.
  + by apply: sim_inner => //; exact: pinv_req.
  + by apply: inner_upd => // s' En Es; rewrite /load En Es /upd eqxx /= size_rcons; rewrite /p in Hm *; lia.
- move=> i h id f d t a b Hi p Es Ht; constructor 1; exists calls; have HP := sim_party H Hi.
  have [u [v [Emb Hn L HP']]] := pinv_got enc_inj HP (sim_clear H Hi) Es Ht.
  rewrite (sim_proc H Hi) in L; have G := GRecv Hi Emb Hn L; eexists.
  apply: (sim_local H Hi G) => //=; first by move=> j Hj; rewrite /upd (negbTE Hj).
  by rewrite /upd eqxx.
- by move=> i h t Hi p; rewrite /p (pi_lost (sim_party H Hi)).
- move=> i x rest r hand gone Hi p Ed Er; constructor 2; have HP := sim_party H Hi.
  have [kk Hr] := sim_runs H; have [_ D2 _ _] := NX Hr (sim_ok H).
  have Hx : x.1 < n.
    have [] := D2 i x => //; rewrite -(cat_take_drop (p_read p) (out (s_net s) i)) Ed.
    by apply: List.in_or_app; right; left.
  have [r' [hand' [Er' HP']]] := pinv_arrive HP (sim_clear H Hi) Ed Hx.
  move: Er; rewrite Er' => -[<- <- <-]; rewrite /p (pi_lost HP) cats0; rewrite /p (pi_lost HP) in HP'; split=> //.
  + by apply: sim_inner => //.
  + apply: inner_upd => // s' En Es; rewrite /load En Es /upd eqxx /=.
    by have [Hlt _ _] := drop_step Ed; rewrite /p in Hlt; lia.
- move=> i id h rest r hand gone Hi p Ec Er; constructor 2; have HP := sim_party H Hi.
  have [r' [hand' [Er' HP']]] := pinv_request HP (sim_clear H Hi) Ec.
  move: Er; rewrite Er' => -[<- <- <-]; rewrite /p (pi_lost HP) cats0; rewrite /p (pi_lost HP) in HP'; split=> //.
  + by apply: sim_inner => //.
  + by apply: inner_upd => // s' En Es; rewrite /load En Es /upd eqxx /= -/p Ec /=; lia.
- move=> x Hx; case: (out_tau Hx) => [Ho|[j [y [Hj Ho]]]].
  + constructor 3; split=> //; first exact: sim_quiet.
    by apply: eq_bigr => i _; rewrite /load /= Ho.
  + by constructor 1; exists calls; exact: sim_deliver H Hx Hj Ho.
Qed.

Lemma sim_read k calls s c i : sim k calls s c -> (forall s', ~ sstep s s') -> i < n ->
  drop (p_read (s_party s i)) (out (s_net s) i) = [::].
Proof.
move=> H St Hi; have HP := sim_party H Hi; have HC := sim_clear H Hi.
case Ed: (drop _ _) => [|x rest] //; have [kk Hr] := sim_runs H; have [_ D2 _ _] := NX Hr (sim_ok H).
have Hx : x.1 < n.
  have [] := D2 i x => //; rewrite -(cat_take_drop (p_read (s_party s i)) (out (s_net s) i)) Ed.
  by apply: List.in_or_app; right; left.
have [r' [hand' [Er' _]]] := pinv_arrive HP HC Ed Hx.
by case: (St _ (StArrive _ _ Hi Ed Er')).
Qed.

(** When nothing moves the machine does not either. *)
Lemma sim_stuck k calls s c : sim k calls s c -> (forall s', ~ sstep s s') -> stack_left n enc out res left s.
Proof.
move=> H St; have [B HB] := P_ends; have [_ [[c' G]|Hd]] := HB k c (sim_reach H).
- exfalso; case: G => [i p Hi L|i to id d p Hi L|i id f d p a b Hi Em Hn L|to m a b Hto En].
  + rewrite -(sim_proc H Hi) in L; have [t Ht] := can_tau (pi_wf (sim_party H Hi)) L.
    exact: (St _ (StTau _ _ _ Hi Ht)).
  + rewrite -(sim_proc H Hi) in L; have [t [Ht|Ht]] := can_send (pi_wf (sim_party H Hi)) L.
      have [x Hx] := can_call (s_net s) (to, (id, enc d)) Hi; exact: (St _ (StSend _ Hi Ht Hx)).
    exact: (St _ (StTau _ _ _ Hi Ht)).
  + have HP := sim_party H Hi; have HC := sim_clear H Hi; rewrite -(sim_proc H Hi) in L.
    have [[h [Hw Hg]]|[t [Ht|Ht]]] := can_recv (p_next (s_party s i)) (pi_wf HP) L; last 2 first.
    * exact: (St _ (StReq _ _ _ Hi Ht)).
    * exact: (St _ (StTau _ _ _ Hi Ht)).
    have Nc : p_chan (s_party s i) = [::].
      case Ec: (p_chan _) => [|[id' h'] rest] //; have [r' [hand' [Er' _]]] := pinv_request HP HC Ec.
      by case: (St _ (StRequest _ _ _ Hi Ec Er')).
    have Nu : drop (p_read (s_party s i)) (out (s_net s) i) = [::] by exact: sim_read H St Hi.
    move: Hw; rewrite (perm_mem (pi_waits HP)) /asked Nc /= mem_cat => /orP[/mapP[[id' h'] Hin [? ?]]|/slot_split [a' [m [b' [Es Em']]]]]; subst.
    * have Hm := pi_mail HP id'; rewrite Nu Em mailv_cat mailv_cons /= eqxx /= in Hm.
      have [h0 Eh] : exists h0, get id' (handle_pool (p_router (s_party s i))) = Some h0.
        case E: (get _ _) => [h0|]; first by exists h0.
        by move/get_none: E => /negP []; apply/mapP; exists (id', h').
      move: Hm; rewrite /poolv (pi_excl HP Eh) /= cats0.
      rewrite slotv_none; first by case: (mailv enc a id').
      have := asked_uniq HP HC; rewrite /asked Nc /= map_cat cat_uniq => /and3P[_ /hasPn Hq _].
      by apply/negP => /Hq /negP []; apply/mapP; exists (h', id') => //; apply/mapP; exists (id', h').
    * have : mv m \in mailv enc (mbox c i) (m_id m).
        by rewrite (pi_mail HP) Es slotv_cat slotv_cons /= eqxx !mem_cat in_cons eqxx /= orbT.
      case/mapP => -[id0 [f0 d0]] _ /= Emv.
      have [t Ht] := Hg f0 d0.
      have Em'' : m = Msg (m_id m) f0 (enc d0) by case: (m) Emv => ? ? ? [-> ->].
      rewrite Em'' in Es; exact: (St _ (StGot _ _ Hi Es Ht)).
  + have [kk Hr] := sim_runs H; have [_ _ _ D4] := NX Hr (sim_ok H).
    have Hq : quiescent nstep (s_net s) by move=> x Hx; exact: (St _ (StNet _ _ _ Hx)).
    have := sim_range H; rewrite En all_cat /= => /and3P[_ /andP[_ Hf] _].
    have /perm_size := sim_pend H Hf Hto; rewrite (D4 Hq _ _ Hf Hto) size_cat.
    by rewrite /pend En filter_cat /= !eqxx map_cat size_cat /=; lia.
- move=> i Hi; have HP := sim_party H Hi; have HC := sim_clear H Hi; have [Hd1 Hd2 Hd3] := Hd.
  have Et : p_task (s_party s i) = TRun (Ret (res i)).
    by apply: erase_ret (pi_wf HP) _; rewrite (sim_proc H Hi) Hd1.
  have := pi_waits HP; rewrite Et /= perm_sym => /perm_nilP; rewrite /asked.
  case Ec: (p_chan _) => [|? ?] //=; case Eh: (handle_pool _) => [|? ?] //=; case Es: (p_slots _) => [|? ?] //= _.
  have Er : drop (p_read (s_party s i)) (out (s_net s) i) = [::] by exact: sim_read H St Hi.
  have Hm id : poolv (mssg_pool (p_router (s_party s i))) id = mailv enc (left i) id.
    by have := pi_mail HP id; rewrite (Hd3 i Hi) Es Er /= cats0.
  have Es' : p_read (s_party s i) = size (out (s_net s) i).
    by apply/eqP; rewrite eqn_leq (pi_read HP) /= -subn_eq0 -size_drop Er.
  split=> // [id|j Hj].
  + split=> //; have := Hm id; rewrite /poolv /mailv; case E: (get _ _) => [b|] /=; last by case: (filter _ _).
    have [Hne Hb] := pi_pool HP E => Eb.
    have Eb' : b = [seq Msg m.1 m.2.1 (enc m.2.2) | m <- left i & m.1 == id].
      elim: b [seq m <- left i | m.1 == id] (filter_all (fun m => m.1 == id) (left i)) Hb Eb {E Hne} => [|m b IH] [|x l] //=.
      case/andP=> /eqP Ex Hx /andP[/eqP Em Hb] [E1 E2 E3]; rewrite (IH l Hx Hb E3); congr cons.
      by case: m Em E1 E2 => ? ? ? /= -> -> ->; rewrite Ex.
    by rewrite -Eb'; case: (b) Hne.
  + split; last by rewrite (pi_stats HP Hj) Es' take_size.
    have [kk Hr] := sim_runs H; have [_ _ _ D4] := NX Hr (sim_ok H).
    by rewrite (sim_calls H) D4 // => x Hx; exact: (St _ (StNet _ _ _ Hx)).
Qed.

Lemma sim_ends k calls s c : sim k calls s c -> ends_in sstep (stack_left n enc out res left) s.
Proof.
have [B HB] := P_ends.
elim: {k}(B.+1 - k) {-2}k (leqnn (B.+1 - k)) calls s c => [|b IHb] k Hk calls s c H.
  by have [Hb _] := HB k c (sim_reach H); lia.
have [kk Hr] := sim_runs H; have [_ _ [nb Hnb] _] := NX Hr (sim_ok H).
move: {2}(nb + inner s).+1 (ltnSn (nb + inner s)) => m; clear Hr; elim: m nb s Hnb H => [|m IHm] nb s Hnb H Hlt; first by [].
constructor; last exact: sim_stuck H.
move=> s' S; case: (sim_step H S) => [[calls' [c' H']]|[H' En Hi]|[H' Hx Ei]].
- by apply: (IHb k.+1 _ calls' s' c' H'); lia.
- by apply: (IHm nb) => //; rewrite ?En //; lia.
- have Hb1 : 0 < nb by have := Hnb 1 _ (RunTau Hx (RunNil _ _)); lia.
  apply: (IHm nb.-1) => //; last by lia.
  by move=> k' x' R; have := Hnb _ _ (RunTau Hx R); lia.
Qed.

Lemma sim_start : sim 0 [::] (stack_start n x0 P) (start P).
Proof.
split=> //=.
- exact: GS0.
- by exists 0; exact: RunNil.
- by move=> i r _ _; rewrite out0.
- by move=> i _; rewrite out0; exact: pinv_start.
Qed.

Theorem stack_ends_left : ends_in sstep (stack_left n enc out res left) (stack_start n x0 P).
Proof. exact: sim_ends sim_start. Qed.

End Global.

Section NothingLeft.
Variables (n : nat) (D : eqType) (enc : D -> seq N) (V : Type).
Notation I := [eqType of seq N].
Notation proc := (proc I D V).
Hypothesis enc_inj : injective enc.
Variables (X : Type) (nstep : X -> label -> X -> Prop) (out : X -> nat -> seq (nat * payload)) (x0 : X) (ok : smsg -> Prop).
Hypothesis NX : delivers nstep n x0 out ok.
Hypothesis out0 : forall j, out x0 j = [::].
Hypothesis out_call : forall x i m x', nstep x (Call i m) x' -> forall j, out x' j = out x j.
Hypothesis out_tau : forall x x', nstep x Tau x' -> (forall j, out x' j = out x j) \/
  exists j y, j < n /\ forall j', out x' j' = if j' == j then rcons (out x j) y else out x j'.
Hypothesis can_call : forall x i m, i < n -> exists x', nstep x (Call i m) x'.
Variables (P : nat -> proc) (res : nat -> V).
Hypothesis P_sends : forall k c i to id d p, gsteps n k (start P) c -> i < n -> lstep (procs c i) (ASend to id d) p ->
  in_range n to /\ ok (to, (id, enc d)).
Hypothesis P_clear : forall k c i, gsteps n k (start P) c -> i < n -> uniq (listens (procs c i)).
Hypothesis P_ends : every_run_ends n (start P) (all_done n res).

Theorem stack_ends : ends_in (@sstep n D enc V X nstep out) (stack_done n out res) (stack_start n x0 P).
Proof.
have He : every_run_ends n (start P) (left_done n res (fun _ => [::])).
  have [B HB] := P_ends; exists B => k c S; have [Hk [Hs|[H1 [H2 H3]]]] := HB k c S; split=> //; first by left.
  by right.
elim: (stack_ends_left enc_inj NX out0 out_call out_tau can_call P_sends P_clear He) => s _ IH HQ; by constructor.
Qed.

End NothingLeft.

(** For property C82: the messages that arrive at a party between two points of
    a program. *)

From mathcomp Require Import all_ssreflect zify.
From Verif Require Import MachineModel MachineProofs MachineBuild Realize PipeModel P_Phase.
Set Implicit Arguments.
Unset Strict Implicit.
Unset Printing Implicit Defensive.

(** What has been sent to party [i] and not been taken by its code: it lies in
    its mailbox or is on its way. *)
Definition pending (I D : eqType) (V : Type) (c : cfg I D V) (i : nat) (m : I * (nat * D)) : Prop :=
  m \in mbox c i \/ (i, m) \in net c.

(** ** Messages and rounds *)

Section At.

Variables (n : nat) (I D : eqType) (V : Type).
Notation J := (prod_eqType nat_eqType I).
Variables (plan : J -> round D) (Oi : seq (J * lst)).

Lemma at_gath i id got k z0 (v : V) : foll n plan i (Gath id got k) Oi z0 v ->
  exists (j : J) O', j.2 = id /\
   ([/\ exists dd, plan j = Exch dd, Oi = (j, XGath [seq isSome x | x <- got]) :: O' & size got = n] \/
    exists L up dn g, plan j = Lead L up dn /\ Oi = (j, LGath g) :: O').
Proof.
  move=> F. inversion F; subst.
  - eexists id0, _. split=> //. left. split=> //. by exists dd.
  - eexists id0, _. split=> //. right. by exists i, up, dn, [seq isSome x | x <- got].
Qed.

Lemma at_all i id d k z0 (v : V) : foll n plan i (Send All id d k) Oi z0 v ->
  exists (j : J) O', j.2 = id /\
   ((exists dd, plan j = Exch dd) /\ Oi = (j, XSend 0) :: O' \/
    exists L up dn, plan j = Lead L up dn /\ Oi = (j, LDown 0) :: O').
Proof.
  move=> F. inversion F; subst.
  - eexists id0, _. split=> //. left. split=> //. by exists dd.
  - eexists id0, _. split=> //. right. by exists i, up, dn.
Qed.

Lemma at_ret i z0 (v v' : V) : foll n plan i (Ret v) Oi z0 v' -> Oi = [::].
Proof. move=> F. by inversion F. Qed.

End At.

Section Pending.

Variables (n : nat) (I D : eqType) (V : Type).
Hypothesis n_pos : 0 < n.
Notation J := (prod_eqType nat_eqType I).
Variables (plan : J -> round D) (js : seq J) (res : nat -> V).
Hypothesis js_ok : phased js.
Variables (c : cfg I D V) (gn : seq (nat * (J * (nat * D)))) (gm : nat -> seq (J * (nat * D))).
Variables (O : nat -> seq (J * lst)) (z : nat -> nat).
Hypothesis HI : inv n plan js res c gn gm O z.

(** A message that is pending belongs to a round its receiver has not finished. *)
Lemma ghost_round i (j : J) x : i < n -> x \in msgs gn gm i j ->
  exists t y, [/\ j \in js, sto O j i = Some y, t \in toks n &
    [/\ tsent (plan j) (sto O j) i t, ~~ tcons (plan j) (sto O j) i t & x = payload (plan j) i t]].
Proof.
  move=> Hi. rewrite (perm_mem (iM HI j Hi)) => /mapP [t]. rewrite mem_filter => /andP [/andP [St Ct] Ht] Em.
  have [y Sy] : exists y, sto O j i = Some y.
  { case E: (sto O j i) => [y|]; first by exists y.
    by move: St Ct; case: (plan j) t {Ht Em} => [dd|L up dn] [s|] //=; rewrite E //= andbT; case: (_ == _). }
  have Hj : j \in js by apply: (mem_subseq (iU HI Hi)); exact: st_some_in Sy.
  by exists t, y.
Qed.

Lemma pending_round i m : i < n -> pending c i m ->
  exists (j : J) t x, [/\ j \in js, j.2 = m.1, sto O j i = Some x, t \in toks n &
    [/\ tsent (plan j) (sto O j) i t, ~~ tcons (plan j) (sto O j) i t & m.2 = payload (plan j) i t]].
Proof.
  move=> Hi Hm.
  have [j Ej Hin] : exists2 j : J, j.2 = m.1 & m.2 \in msgs gn gm i j.
  { case: Hm => [|]; rewrite ?(iB HI Hi) ?(iG HI) => /mapP [g Hg E].
    - exists g.1; first by rewrite E. rewrite /msgs mem_cat. apply/orP; left. rewrite E. apply: (map_f (fun g => g.2)).
      by rewrite mem_filter eqxx.
    - case: E => E1 ->. exists g.2.1 => //. rewrite /msgs mem_cat. apply/orP; right. apply: (map_f (fun g => g.2.2)).
      by rewrite mem_filter -E1 !eqxx. }
  have [t [y [H1 H2 H3 H4]]] := ghost_round Hi Hin. by exists j, t, y.
Qed.

(** Nobody is two phases ahead. *)
Lemma pending_near i a x j t : i < n -> sto O a i = Some x -> a \in js -> j \in js -> t \in toks n ->
  tsent (plan j) (sto O j) i t -> j.1 <= a.1.+1.
Proof.
  move=> Hi Sa Ha Hj Ht St. rewrite leqNgt. apply/negP => Hlt.
  have [k Hk Ek] := ph_full js_ok Ha Hj (ph := a.1.+1) (introT andP (conj (ltnSn _) Hlt)).
  have [s Hs Bs] := sent_begun n_pos HI Hj Ht St.
  have Ns : sto O k s = None.
  { case E: (sto O k s) => [u|] //. case: Bs. apply: (iP HI Hs Hk Hj _ E). by rewrite Ek. }
  case: (finished_begun n_pos HI Hk Hs Ns Hi). apply: (iP HI Hi Ha Hk _ Sa). by rewrite Ek.
Qed.

(** Nobody is in a later phase than a party that is at the start of a round. *)
Lemma pending_same i a j t : i < n -> sto O a i = Some (st0 n plan a) -> a \in js -> j \in js -> t \in toks n ->
  tsent (plan j) (sto O j) i t -> j.1 <= a.1.
Proof.
  move=> Hi Sa Ha Hj Ht St. rewrite leqNgt. apply/negP => Hlt.
  have [s Hs Bs] := sent_begun n_pos HI Hj Ht St.
  have Ns : sto O a s = None.
  { case E: (sto O a s) => [u|] //. case: Bs. exact: (iP HI Hs Ha Hj _ E). }
  by case: (finished_begun n_pos HI Ha Hs Ns Hi).
Qed.

Lemma head_phase i a x O' j y : i < n -> O i = (a, x) :: O' -> sto O j i = Some y ->
  [/\ sto O a i = Some x, a \in js & a.1 <= j.1].
Proof.
  move=> Hi E Sy. have SU := iU HI Hi. rewrite E in SU. split.
  - by rewrite /sto E /= eqxx.
  - apply: (mem_subseq SU). by rewrite /= mem_head.
  - apply: (phase_ge js_ok (A := [::]) _ SU) => //. move: Sy. by rewrite /sto E => /st_some_in.
Qed.

Lemma head_in i a x O' : i < n -> O i = (a, x) :: O' -> a \in js.
Proof. move=> Hi E. apply: (mem_subseq (iU HI Hi)). by rewrite E mem_head. Qed.

End Pending.

(** ** What has arrived *)

(** A run in which the messages [l], in this order, arrive at party [i]. *)
Inductive hears (n : nat) (I D : eqType) (V : Type) (i : nat) (c : cfg I D V) : seq (I * (nat * D)) -> cfg I D V -> Prop :=
| HStart : hears n i c [::] c
| HArrive l c1 m a b : hears n i c l c1 -> i < n -> net c1 = a ++ (i, m) :: b ->
    hears n i c (rcons l m) (Cfg (procs c1) (a ++ b) (upd (mbox c1) i (rcons (mbox c1 i) m)))
| HOther l c1 c2 : hears n i c l c1 -> gstep n c1 c2 -> size (mbox c2 i) <= size (mbox c1 i) -> hears n i c l c2.

Section Runs.

Variables (n : nat) (I D : eqType) (V : Type).

Lemma gsteps_snoc k (c c1 c2 : cfg I D V) : gsteps n k c c1 -> gstep n c1 c2 -> gsteps n k.+1 c c2.
Proof.
  move=> S. elim: S c2 => [c0|k0 c0 c' c'' S1 S2 IH] c2 H; first by apply: GSS H (GS0 _ _).
  exact: GSS S1 (IH _ H).
Qed.

Lemma hears_steps i (c : cfg I D V) l c' : hears n i c l c' -> exists k, gsteps n k c c'.
Proof.
  elim=> [|l0 c1 m a b _ [k S] Hi E|l0 c1 c2 _ [k S] H _].
  - exists 0. exact: GS0.
  - exists k.+1. apply: gsteps_snoc S _. exact: GDeliver Hi E.
  - exists k.+1. exact: gsteps_snoc S H.
Qed.

Lemma hears_cat i (c : cfg I D V) l c1 l' c2 : hears n i c l c1 -> hears n i c1 l' c2 -> hears n i c (l ++ l') c2.
Proof.
  move=> H. elim=> [|l0 c3 m a b _ IH Hi E|l0 c3 c4 _ IH S Hm].
  - by rewrite cats0.
  - rewrite -rcons_cat. exact: HArrive IH Hi E.
  - exact: HOther IH S Hm.
Qed.

(** Every run is such a run. *)
Lemma steps_hears i k (c c' : cfg I D V) : gsteps n k c c' -> exists l, hears n i c l c'.
Proof.
  elim=> [c0|k0 c0 c1 c2 S _ [l H]]; first by exists [::]; exact: HStart.
  have [l1 H1] : exists l1, hears n i c0 l1 c1.
  { have H0 : hears n i c0 [::] c0 by exact: HStart.
    case: (leqP (size (mbox c1 i)) (size (mbox c0 i))) => Hm; first by exists [::]; exact: HOther H0 S Hm.
    case: S Hm => [j p Hj S|j to id d p Hj S|j id s d p a b Hj Eb Ha S|to m a b Hto En]; rewrite /= ?ltnn //.
    - rewrite /upd. case: eqP => [->|_]; rewrite ?ltnn // Eb !size_cat /=. lia.
    - rewrite /upd. case: eqP => [E|_]; rewrite ?ltnn // => _. subst to. exists [:: m]. exact: (HArrive H0 Hto En). }
  exists (l1 ++ l). exact: hears_cat H1 H.
Qed.

End Runs.

Section Account.

Variables (n : nat) (I D : eqType) (V : Type).
Hypothesis n_pos : 0 < n.
Notation J := (prod_eqType nat_eqType I).
Variables (plan : J -> round D) (js : seq J) (res : nat -> V).
Hypothesis js_ok : phased js.

Lemma st0_tcons (O : nat -> seq (J * lst)) j i t : sto O j i = Some (st0 n plan j) -> tcons (plan j) (sto O j) i t = false.
Proof.
  rewrite /st0 /tcons. case: (plan j) t => [dd|L up dn] [s|] //= ->; rewrite ?andbF //=.
  rewrite /xs. by case: eqP => [E|_] //=; move: n_pos; rewrite -E.
Qed.

(** What has arrived is what has been taken and what lies in the mailbox. *)
Lemma hears_taken (P : nat -> proc I D V) i l c : i < n ->
  (forall j, j < n -> follows n plan j (P j) js (res j)) -> hears n i (start P) l c ->
  exists gn gm O z, inv n plan js res c gn gm O z /\ perm_eq l (mbox c i ++ taken n plan js O i).
Proof.
  move=> Hi HP. elim=> [|l0 c1 m a b _ [gn [gm [O [z [HI Hl]]]]] _ E|l0 c1 c2 _ [gn [gm [O [z [HI Hl]]]]] S Hm].
  - have [z Hz] := follows_z HP. have HI := start_inv n_pos Hz. do 4 eexists. split; first exact: HI.
    rewrite /=. set O := fun _ : nat => _. suff -> : taken n plan js O i = [::] by [].
    rewrite /taken. have Ej j : j \in js -> [seq (j.2, payload (plan j) i t) | t <- toks n & tcons (plan j) (sto O j) i t] = [::].
    { move=> Hj. rewrite (eq_filter (a2 := pred0)) ?filter_pred0 // => t. apply: st0_tcons. rewrite /sto /O.
      elim: (js) Hj => [|a s IH] //=. rewrite in_cons eq_sym. by case: eqP => [->|_ /= /IH]. }
    elim: (js) Ej => [|a s IH] //= Ej. rewrite Ej ?mem_head // IH // => j Hj. apply: Ej. by rewrite in_cons Hj orbT.
  - have S : gstep n c1 (Cfg (procs c1) (a ++ b) (upd (mbox c1) i (rcons (mbox c1 i) m))) by exact: GDeliver Hi E.
    have [gn' [gm' [O' [z' [HI' _ _ T]]]]] := inv_takes n_pos js_ok HI S. exists gn', gm', O', z'. split=> //.
    have [rem [Ht Hm]] := T i Hi. move: Hm. rewrite /= upd_eq => -[|[Er _]].
    { move/perm_size. rewrite size_cat size_rcons. lia. }
    move: Ht. rewrite Er cats0 => Ht. rewrite cat_rcons perm_rcons perm_sym -[m :: taken _ _ _ _ _]cat1s perm_catCA /= perm_cons perm_sym.
    apply: perm_trans Hl _. by rewrite perm_cat2l perm_sym.
  - have [gn' [gm' [O' [z' [HI' _ _ T]]]]] := inv_takes n_pos js_ok HI S. exists gn', gm', O', z'. split=> //.
    have [rem [Ht Hb]] := T i Hi. case: Hb => [Hb|[_ [m Em]]]; last by move: Hm; rewrite Em size_rcons ltnn.
    apply: perm_trans Hl _. rewrite perm_sym. apply: perm_trans (_ : perm_eq _ (mbox c2 i ++ (taken n plan js O i ++ rem))) _.
    { by rewrite perm_cat2l. }
    rewrite perm_sym. apply: perm_trans (_ : perm_eq _ ((mbox c2 i ++ rem) ++ taken n plan js O i)) _.
    { by rewrite perm_cat2r. }
    by rewrite -catA perm_cat2l perm_catC.
Qed.

(** All messages of a round to party [i]. *)
Definition round_msgs (x : I * round D) (i : nat) : seq (I * (nat * D)) :=
  match x.2 with
  | Exch dd => [seq (x.1, (s, dd s i)) | s <- iota 0 n]
  | Lead L up dn => (x.1, (L, dn i)) :: if i == L then [seq (x.1, (s, up s)) | s <- iota 0 n] else [::]
  end.

Lemma taken_done (O : nat -> seq (J * lst)) j i : sto O j i = None ->
  [seq (j.2, payload (plan j) i t) | t <- toks n & tcons (plan j) (sto O j) i t] = round_msgs (j.2, plan j) i.
Proof.
  rewrite /round_msgs /toks /=. case: (plan j) => [dd|L up dn] E /=; rewrite E /=.
  - by rewrite (eq_in_filter (a2 := predT)) ?filter_predT -?map_comp // => t /mapP [s _ ->] /=; rewrite ?E.
  - congr cons. case: eqP => Hi.
    + by rewrite (eq_in_filter (a2 := predT)) ?filter_predT -?map_comp // => t /mapP [s _ ->].
    + by rewrite (eq_in_filter (a2 := pred0)) ?filter_pred0 // => t /mapP [s _ ->].
Qed.

Lemma taken_full (O : nat -> seq (J * lst)) j i dd g : plan j = Exch dd -> sto O j i = Some (XGath g) -> all id g -> size g = n ->
  [seq (j.2, payload (plan j) i t) | t <- toks n & tcons (plan j) (sto O j) i t] = round_msgs (j.2, plan j) i.
Proof.
  rewrite /round_msgs /toks /= => -> E /allP Hg Sg /=.
  rewrite (eq_in_filter (a2 := predT)) ?filter_predT -?map_comp // => t /mapP [s Hs ->] /=. rewrite E /=.
  move: Hs. rewrite mem_iota add0n => /andP [_ Hs]. apply: Hg. by rewrite mem_nth ?Sg.
Qed.

Lemma taken_start (O : nat -> seq (J * lst)) j i : sto O j i = Some (st0 n plan j) ->
  [seq (j.2, payload (plan j) i t) | t <- toks n & tcons (plan j) (sto O j) i t] = [::].
Proof. move=> E. by rewrite (eq_filter (a2 := pred0)) ?filter_pred0 // => t; apply: st0_tcons. Qed.

(** Of the first [K] phases everything, of the others nothing. *)
Lemma flatten_phases (F : J -> seq (I * (nat * D))) i K rdss ph : agrees_all plan ph rdss ->
  (forall j, j \in tagged ph rdss -> F j = if j.1 < K then round_msgs (j.2, plan j) i else [::]) ->
  flatten [seq F j | j <- tagged ph rdss] = flatten [seq flatten [seq round_msgs x i | x <- rds] | rds <- take (K - ph) rdss].
Proof.
  elim: rdss ph => [|rds rdss IH] ph //= [A1 A2] HF.
  rewrite map_cat flatten_cat IH //; last by move=> j Hj; apply: HF; rewrite mem_cat Hj orbT.
  have H1 j : j \in jds ph rds -> F j = if ph < K then round_msgs (j.2, plan j) i else [::].
  { move=> Hj. rewrite HF ?mem_cat ?Hj //. by move/mapP: Hj => [id _ ->]. }
  have -> : flatten [seq F j | j <- jds ph rds] = if ph < K then flatten [seq round_msgs x i | x <- rds] else [::].
  { elim: rds A1 H1 {IH A2 HF} => [|x rds IHr] /=; first by case: ifP.
    move=> [E A1] H1. rewrite H1 ?mem_head //= E IHr //; last by move=> j Hj; apply: H1; rewrite in_cons Hj orbT.
    by rewrite -surjective_pairing; case: ifP. }
  case: (ltnP ph K) => HK.
  { by have -> : K - ph = (K - ph.+1).+1 by lia. }
  have -> : K - ph = 0 by lia.
  have -> : K - ph.+1 = 0 by lia.
  by rewrite take0.
Qed.

End Account.

(** ** Some schedules *)

Section Schedules.

Variables (n : nat) (I D : eqType) (V : Type).
Hypothesis n_pos : 0 < n.
Notation J := (prod_eqType nat_eqType I).
Notation cfg := (cfg I D V).

Lemma gsteps_trans k1 k2 (c1 c2 c3 : cfg) : gsteps n k1 c1 c2 -> gsteps n k2 c2 c3 -> gsteps n (k1 + k2) c1 c3.
Proof. move=> S. elim: S c3 => [c|k c c' c'' S1 S2 IH] c3 H //=. exact: GSS S1 (IH _ H). Qed.

(** Everything on its way arrives. *)
Lemma deliver_all (c : cfg) : all (fun x => x.1 < n) (net c) ->
  exists k c', [/\ gsteps n k c c', forall i, procs c' i = procs c i, net c' = [::] &
    forall i, mbox c' i = mbox c i ++ [seq x.2 | x <- net c & x.1 == i]].
Proof.
  move E : (net c) => l. elim: l c E => [|[to m] l IH] c E /=.
  - move=> _. exists 0, c. split=> // [|i]; [exact: GS0|by rewrite cats0].
  - move=> /andP [Hto Hl].
    have S : gstep n c (Cfg (procs c) ([::] ++ l) (upd (mbox c) to (rcons (mbox c to) m))) by exact: (GDeliver Hto (a := [::]) E).
    have [k [c' [S' Hp Hn Hm]]] := IH (Cfg (procs c) ([::] ++ l) (upd (mbox c) to (rcons (mbox c to) m))) erefl Hl.
    exists k.+1, c'. split=> // [|i]; first exact: GSS S S'.
    rewrite Hm /= /upd (eq_sym to). case: eqP => [->|_] //=. by rewrite cat_rcons.
Qed.

(** A party takes all messages of a [sync]. *)
Lemma take_all (c : cfg) i b (d : D) m got kk rest : i < n -> m <= n -> size got = n ->
  (forall q, q < n -> nth None got q = if q < m then Some d else None) -> procs c i = Gath b got kk ->
  mbox c i = [seq (b, (q, d)) | q <- iota m (n - m)] ++ rest ->
  exists k c' got', [/\ gsteps n k c c', procs c' i = Gath b got' kk /\ all isSome got', mbox c' i = rest, net c' = net c &
    forall j, j != i -> procs c' j = procs c j /\ mbox c' j = mbox c j].
Proof.
  move=> Hi. move Ew : (n - m) => w. elim: w c m got Ew => [|w IH] c m got Ew Hm Sg Hg Ep Eb.
  - exists 0, c, got. split=> //; first exact: GS0. split=> //. apply/(all_nthP None) => q. rewrite Sg => Hq. rewrite Hg //.
    by rewrite ifT //; lia.
  - have Hmn : m < n by lia.
    have Ng : ~~ all isSome got.
    { apply/negP => /(all_nthP None) /(_ m). rewrite Sg => /(_ Hmn). by rewrite Hg // ltnn. }
    have S : gstep n c (Cfg (upd (procs c) i (gath_step b got kk m d)) (net c) (upd (mbox c) i ([::] ++ ([seq (b, (q, d)) | q <- iota m.+1 w] ++ rest)))).
    { apply: (@GRecv n I D V c i b m d _ [::]) => //. rewrite Ep. exact: LGathMsg. }
    have [] := IH (Cfg (upd (procs c) i (gath_step b got kk m d)) (net c) (upd (mbox c) i ([::] ++ ([seq (b, (q, d)) | q <- iota m.+1 w] ++ rest))))
      m.+1 (set_nth None got m (Some d)).
    + lia.
    + by [].
    + by rewrite size_set_nth Sg; lia.
    + move=> q Hq. rewrite nth_set_nth /= ltnS leq_eqVlt. case: eqP => //= _. exact: Hg.
    + by rewrite /= upd_eq /gath_step Sg Hmn Hg // ltnn.
    + by rewrite /= upd_eq.
    + move=> k [c' [got' [S' Hp Hb Hn Ho]]]. exists k.+1, c', got'. split=> //; first exact: GSS S S'.
      move=> j Hj. have [-> ->] := Ho j Hj. by rewrite /= !upd_ne.
Qed.

(** A party goes on until it has sent the first message of its next round. *)
Variables (plan : J -> round D).

Lemma phased_nil : phased ([::] : seq J).
Proof. by constructor. Qed.

Lemma st0_cases (j : J) : st0 n plan j = XSend 0 \/ st0 n plan j = LUp.
Proof.
  rewrite /st0. case: (plan j) => [dd|L up dn]; last by right. left. rewrite /xs. by case: eqP n_pos => [<-|].
Qed.

Definition target (rd : round D) : nat := if rd is Lead L _ _ then L else 0.

Lemma local_send s (j : J) w : s < n -> forall (c : cfg) O z v, foll n plan s (procs c s) ((j, st0 n plan j) :: O) z v ->
  z + ww n ((j, st0 n plan j) :: O) <= w -> all (fun x => x.1 < n) (net c) ->
  exists k c' d, [/\ gsteps n k c c', forall i, i != s -> procs c' i = procs c i, forall i, mbox c' i = mbox c i,
    all (fun x => x.1 < n) (net c') & target (plan j) < n /\ (target (plan j), (j.2, (s, d))) \in net c'].
Proof.
  move=> Hs. elim: w => [|w IH] c O z v F Hw Hn.
  { exfalso. move: Hw. rewrite ww_cons /=. rewrite /st0 /xs. case: (plan j) => [dd|L up dn] /=; last lia.
    case: eqP => [E|_] /=; [by move: n_pos; rewrite -E|lia]. }
  case: (foll_next F) => [[_ [E _]]|[p S]|[to [id [d [p S]]]]|[id [x [O' [E W _]]]]].
  - by [].
  - have [O1 [z1 [Ez F1 Tt]]] := foll_tau n_pos F S.
    have Ew := w_tau n_pos phased_nil Tt.
    have [O2 E2] : exists O2, O1 = (j, st0 n plan j) :: O2.
    { move: Tt. move E0 : ((j, st0 n plan j) :: O) => O0 Tt. case: Tt E0 => [Oa|dd id g A B _ Hp _ _|up dn id g A B _ Hp _ _].
      - move=> <-. by exists O.
      - case: A => [|e A] [E1 E3] //=; last by rewrite -E1; eexists.
        by case: (st0_cases j); rewrite E3.
      - case: A => [|e A] [E1 E3] //=; last by rewrite -E1; eexists.
        by case: (st0_cases j); rewrite E3. }
    subst O1. have St : gstep n c (Cfg (upd (procs c) s p) (net c) (mbox c)) by exact: GTau Hs S.
    have [] := IH (Cfg (upd (procs c) s p) (net c) (mbox c)) O2 z1 v => //.
    + by rewrite /= upd_eq.
    + move: Ew Hw. rewrite Ez. lia.
    + move=> k [c' [d [S' Hp Hm Hn' Ht]]]. exists k.+1, c', d. split=> //; first exact: GSS St S'.
      move=> i Hi. by rewrite Hp // /= upd_ne.
  - have [j' [A [x [y [B [[Ej _] EO F1 Ts]]]]]] := foll_send F S.
    have St : gstep n c (Cfg (upd (procs c) s p) (net c ++ outgoing n s to id d) (mbox c)) by exact: GSend Hs S.
    have Hn' : all (fun x => x.1 < n) (net c ++ outgoing n s to id d).
    { rewrite all_cat Hn /=. case: Ts => [dd r _ Hr|dd d0 _ _|L up dn _ HL|up dn r _ Hr|up dn d0 _ _] /=; rewrite ?Hr ?HL //;
      by apply/allP => m /mapP [r0]; rewrite mem_iota /= => H ->. }
    case: A EO F1 => [|e A] [E1 E2] F1.
    + exists 1, (Cfg (upd (procs c) s p) (net c ++ outgoing n s to id d) (mbox c)), d. split=> //=.
      * by apply: GSS St (GS0 _ _).
      * by move=> i Hi; rewrite upd_ne.
      subst j' x. rewrite -Ej mem_cat. case: (st0_cases j) Ts => Ex; rewrite Ex => Ts; inversion Ts; subst;
        match goal with E : plan j = _ |- _ => rewrite E /= end; split=> //; apply/orP; right.
      * by rewrite mem_head.
      * apply/mapP. exists 0 => //. by rewrite mem_iota.
      * by rewrite mem_head.
    + have Ew := w_send n_pos phased_nil Ts. subst e. have [] := IH (Cfg (upd (procs c) s p) (net c ++ outgoing n s to id d) (mbox c)) (A ++ (j', y) :: B) z v => //.
      * by rewrite /= upd_eq.
      * move: Ew Hw. rewrite E2 !ww_cons !ww_cat !ww_cons /=. move: (size _) => q. lia.
      * move=> k [c' [d1 [S' Hp Hm Hn1 Ht]]]. exists k.+1, c', d1. split=> //; first exact: GSS St S'.
        move=> i Hi. by rewrite Hp // /= upd_ne.
  - case: E => E1 E2. subst id x. by case: (st0_cases j) W => ->.
Qed.

End Schedules.

(** ** The repetitions of a program *)

Section Figure.

Variables (n : nat) (I D : eqType) (V T : Type) (b : I) (d : D) (R : nat).
Variables (Q : nat -> (seq T -> proc I D V) -> proc I D V) (res : nat -> nat -> T) (out : seq T -> V).
Variables (S : Type) (prep : nat -> nat -> option S) (body : nat -> nat -> S -> (T -> proc I D V) -> proc I D V).
Variables (mat : nat -> nat -> S) (rds : nat -> seq (I * round D)).
Hypothesis n_pos : 0 < n.
Hypothesis Hprep : forall i r, i < n -> r < R -> prep i r = Some (mat i r).
Hypothesis Hbody : forall r, r < R -> realizes n (rds r) (fun i k => body i r (mat i r) k) (res r).
Hypothesis Hrds : forall r, r < R -> [/\ uniq (ids (rds r)), 0 < size (rds r) & b \notin ids (rds r)].
Hypothesis HQ : forall i k, i < n -> Q i k = bench_loop n b d (prep i) (body i) (iota 0 R) k.
Notation J := (prod_eqType nat_eqType I).

Let rdss := loop_rounds b d rds (iota 0 R).
Let plan := plan_of d rdss.
Let js : seq J := tagged 0 rdss.
Let P i := Q i (fun ys => Ret (out ys)).

Lemma rdss_alternating : alternating rdss.
Proof. apply: loop_alternating => r. rewrite mem_iota => Hi. exact: Hrds. Qed.

Lemma js_phased : phased js.
Proof. exact: (tagged_phased n_pos rdss_alternating). Qed.

Lemma plan_agrees : agrees_all plan 0 rdss.
Proof. exact: (plan_of_agrees_all n_pos d (alt_uniq rdss_alternating)). Qed.

Lemma P_follows i : i < n -> follows n plan i (P i) js (out [seq res r i | r <- iota 0 R]).
Proof.
  move=> Hi. rewrite /P HQ // -[js]cats0.
  have U : unfolds n rdss (fun me k => bench_loop n b d (prep me) (body me) (iota 0 R) k) (fun me => [seq res r me | r <- iota 0 R]).
  { by apply: (loop_unfolds n_pos (mat := mat)) => [me r Hm|r]; rewrite mem_iota => H; [exact: Hprep|exact: Hbody]. }
  apply: (U plan 0 plan_agrees i) => //. exact: follows_ret.
Qed.

(** The two kinds of phases. *)
Lemma js_even (j : J) : j \in js -> ~~ odd j.1 -> [/\ j.2 = b, plan j = Exch (fun _ _ => d) & j.1./2 < R].
Proof.
  move=> /mem_tagged [k [Hk /= Ej]]. rewrite (nth_loop_rounds 0 Hk) Ej. move: (Hk). rewrite size_loop_rounds size_iota => HR Hb Ho.
  move: Hb. rewrite (negbTE Ho) inE => /eqP Eb. split=> //; last by lia.
  by rewrite /plan /plan_of Ej (nth_loop_rounds 0 Hk) (negbTE Ho) /= Eb eqxx.
Qed.

Lemma js_odd (j : J) : j \in js -> odd j.1 -> j.2 <> b.
Proof.
  move=> /mem_tagged [k [Hk /= Ej]]. rewrite (nth_loop_rounds 0 Hk) Ej. move: (Hk). rewrite size_loop_rounds size_iota => HR Hb Ho.
  move: Hb. rewrite Ho nth_iota; last by lia. move=> Hin Eb.
  have Hh : 0 + k./2 < R by lia. by case: (Hrds Hh) => _ _; rewrite -Eb Hin.
Qed.

Lemma js_sync (j : J) : j \in js -> j.2 = b -> ~~ odd j.1.
Proof. move=> Hj E. apply/negP => Ho. exact: js_odd Hj Ho E. Qed.

Lemma js_eq (a j : J) : a \in js -> j \in js -> a.2 = b -> a.1 = j.1 -> a = j.
Proof.
  move=> Ha Hj Eb E1. have Ho := js_sync Ha Eb. rewrite E1 in Ho. have [E2 _ _] := js_even Hj Ho.
  rewrite [a]surjective_pairing [j]surjective_pairing. by rewrite E1 Eb E2.
Qed.

(** *** The two readings *)

Section State.

Variables (c : cfg I D V) (gn : seq (nat * (J * (nat * D)))) (gm : nat -> seq (J * (nat * D))).
Variables (O : nat -> seq (J * lst)) (z : nat -> nat).
Hypothesis HI : inv n plan js (fun i => out [seq res r i | r <- iota 0 R]) c gn gm O z.

(** A party about to leave the [sync] has that round, with everything received. *)
Lemma leaving_round i got k : i < n -> procs c i = Gath b got k -> all isSome got ->
  exists (a : J) O' g, [/\ a \in js, a.2 = b, O i = (a, XGath g) :: O', all id g & size g = n].
Proof.
  move=> Hi Ep Ha. have F := iF HI Hi. rewrite Ep in F. have [j [O' [Ej [[_ EO Sg]|[L [up [dn [g [Hp EO]]]]]]]]] := at_gath F.
  - exists j, O', [seq isSome x | x <- got]. split=> //; [exact: (head_in HI Hi EO)|by rewrite all_map (eq_all (a2 := isSome))|by rewrite size_map].
  - have Hj := head_in HI Hi EO. by have [_ E _] := js_even Hj (js_sync Hj Ej); rewrite E in Hp.
Qed.

(** A party about to send the messages of a [sync] is at the start of that round. *)
Lemma entering_round i d' k : i < n -> procs c i = Send All b d' k ->
  exists (a : J) O', [/\ a \in js, a.2 = b & O i = (a, XSend 0) :: O'].
Proof.
  move=> Hi Ep. have F := iF HI Hi. rewrite Ep in F. have [j [O' [Ej [[_ EO]|[L [up [dn [Hp EO]]]]]]]] := at_all F.
  - exists j, O'. split=> //. exact: (head_in HI Hi EO).
  - have Hj := head_in HI Hi EO. by have [_ E _] := js_even Hj (js_sync Hj Ej); rewrite E in Hp.
Qed.

(** What is left of the rounds is known from the first one. *)
Lemma rounds_before i a x O' j : i < n -> O i = (a, x) :: O' -> a \in js -> a.2 = b -> j \in js ->
  sto O j i = if j.1 < a.1 then None else if j.1 == a.1 then Some x else Some (st0 n plan j).
Proof.
  move=> Hi EO Ha Eb Hj. have Sa : sto O a i = Some x by rewrite /sto EO /= eqxx.
  case: ltnP => Hlt.
  - case E : (sto O j i) => [y|] //. have [_ _] := head_phase js_phased HI Hi EO E. by rewrite leqNgt Hlt.
  - case: eqP => E1; first by rewrite -(js_eq Ha Hj Eb (esym E1)).
    apply: (iP HI Hi Ha Hj _ Sa). by rewrite ltn_neqAle Hlt andbT; apply/eqP => E; rewrite E in E1.
Qed.

(** Leaving the [sync], a party has received all messages of it, and nobody has
    sent a message of the next one. *)
Lemma first_pending i got k m : i < n -> procs c i = Gath b got k -> all isSome got -> pending c i m -> m.1 <> b.
Proof.
  move=> Hi Ep Hg Hm Eb. have [a [O' [g [Ha Ea EO Ag Sg]]]] := leaving_round Hi Ep Hg.
  have [j [t [x [Hj Ej Sj Ht [St Ct _]]]]] := pending_round HI Hi Hm. rewrite Eb in Ej.
  have [Sa _ H1] := head_phase js_phased HI Hi EO Sj.
  have H2 := pending_near n_pos js_phased HI Hi Sa Ha Hj Ht St.
  have Oa := js_sync Ha Ea. have Oj := js_sync Hj Ej.
  have E : a.1 = j.1 by clear -H1 H2 Oa Oj; lia.
  have Eaj := js_eq Ha Hj Ea E. subst j. have [_ Hp _] := js_even Ha Oa.
  move: St Ct. rewrite Hp. case: t Ht => [s|] //=. rewrite toks_some => Hs _.
  rewrite Sa /=. move/allP: Ag => /(_ (nth false g s)). by rewrite mem_nth ?Sg // => /(_ isT) /= ->.
Qed.

(** Entering a [sync], a party has received all messages of the protocol in front
    of it. *)
Lemma second_round i d' k m : i < n -> procs c i = Send All b d' k -> pending c i m -> m.1 = b /\ m.2.2 = d.
Proof.
  move=> Hi Ep Hm. have [a [O' [Ha Ea EO]]] := entering_round Hi Ep.
  have [j [t [x [Hj Ej Sj Ht [St Ct Pm]]]]] := pending_round HI Hi Hm.
  have [Sa _ H1] := head_phase js_phased HI Hi EO Sj. have [_ Hp _] := js_even Ha (js_sync Ha Ea).
  have H2 : j.1 <= a.1.
  { apply: (pending_same n_pos HI Hi _ Ha Hj Ht St). by rewrite Sa (st0_exch n_pos Hp). }
  have E : a.1 = j.1 by clear -H1 H2; lia.
  have Eaj := js_eq Ha Hj Ea E. subst j. split; first by rewrite -Ej.
  move: St Pm. rewrite Hp. by case: t {Ht Ct} => [s|] //= _ ->.
Qed.

(** ... and at most one message of each party of the [sync] itself. *)
Lemma second_uniq i d' k : i < n -> procs c i = Send All b d' k ->
  uniq ([seq m.2.1 | m <- mbox c i] ++ [seq x.2.2.1 | x <- net c & x.1 == i]).
Proof.
  move=> Hi Ep. have [a [O' [Ha Ea EO]]] := entering_round Hi Ep. have [_ Hp _] := js_even Ha (js_sync Ha Ea).
  have Hj (j : J) x : x \in msgs gn gm i j -> j = a.
  { move=> Hx. have [t [y [Hj Sj Ht [St Ct _]]]] := ghost_round HI Hi Hx.
    have [Sa _ H1] := head_phase js_phased HI Hi EO Sj.
    have H2 : j.1 <= a.1.
    { apply: (pending_same n_pos HI Hi _ Ha Hj Ht St). by rewrite Sa (st0_exch n_pos Hp). }
    apply/esym/(js_eq Ha Hj Ea). clear -H1 H2; lia. }
  have E : [seq m.2.1 | m <- mbox c i] ++ [seq x.2.2.1 | x <- net c & x.1 == i] = [seq x.1 | x <- msgs gn gm i a].
  { rewrite (iB HI Hi) (iG HI) /msgs map_cat filter_map -!map_comp. congr (_ ++ _).
    - rewrite (eq_in_filter (a2 := predT)) ?filter_predT // => g Hg /=. apply/eqP. apply: (Hj _ g.2).
      rewrite /msgs mem_cat. apply/orP; left. apply: (map_f (fun g => g.2)). by rewrite mem_filter eqxx.
    - congr map. apply: eq_in_filter => g Hg /=. case: eqP => //= Ei. apply/esym/eqP. apply: (Hj _ g.2.2).
      rewrite /msgs mem_cat. apply/orP; right. apply: (map_f (fun g => g.2.2)). by rewrite mem_filter Ei !eqxx. }
  rewrite E (perm_uniq (perm_map _ (iM HI a Hi))) /expected -map_comp map_inj_in_uniq ?filter_uniq ?toks_uniq // => t1 t2.
  rewrite !mem_filter Hp. by case: t1 => [s1|] //; case: t2 => [s2|] //= _ _ ->.
Qed.

(** At the end nothing is left. *)
Lemma last_pending i v m : i < n -> procs c i = Ret v -> ~ pending c i m.
Proof.
  move=> Hi Ep Hm. have [j [t [x [_ _]]]] := pending_round HI Hi Hm. have F := iF HI Hi. rewrite Ep in F.
  by rewrite /sto (at_ret F).
Qed.

End State.

(** *** Accounting *)

(** The messages of a [sync], and those of the protocol of repetition [q], to
    party [i]. *)
Definition sync_msgs : seq (I * (nat * D)) := [seq (b, (s, d)) | s <- iota 0 n].
Definition rep_msgs (q i : nat) : seq (I * (nat * D)) := flatten [seq round_msgs n x i | x <- rds q].
Definition prior (r i : nat) : seq (I * (nat * D)) := flatten [seq sync_msgs ++ rep_msgs q i | q <- iota 0 r].

Lemma rep_msgs_ids q i m : q < R -> m \in rep_msgs q i -> m.1 <> b.
Proof.
  move=> Hq Hm E. have [_ _ /negP Nb] := Hrds Hq. apply: Nb. rewrite -E {E}. move: Hm. rewrite /rep_msgs /ids.
  elim: (rds q) => [|x l IH] //=. rewrite mem_cat in_cons => /orP [|/IH ->]; last by rewrite orbT.
  rewrite /round_msgs. case: x.2 => [dd /mapP [s _ ->]|L up dn]; first by rewrite eqxx.
  rewrite in_cons => /orP [/eqP ->|]; first by rewrite eqxx.
  by case: (i == L) => // /mapP [s _ ->]; rewrite eqxx.
Qed.

Lemma flat_loop i rs :
  flatten [seq flatten [seq round_msgs n x i | x <- p] | p <- loop_rounds b d rds rs] = flatten [seq sync_msgs ++ rep_msgs q i | q <- rs].
Proof. elim: rs => [|r rs IH] //=. by rewrite cats0 -catA -IH. Qed.

Lemma rdss_split r : r <= R -> rdss = loop_rounds b d rds (iota 0 r) ++ loop_rounds b d rds (iota r (R - r)).
Proof.
  move=> Hr. rewrite /rdss. have {1}-> : R = r + (R - r) by lia.
  by rewrite iotaD /loop_rounds map_cat flatten_cat add0n.
Qed.

Lemma take_even r : r <= R -> take r.*2 rdss = loop_rounds b d rds (iota 0 r).
Proof. move=> Hr. by rewrite (rdss_split Hr) take_size_cat // size_loop_rounds size_iota. Qed.

Lemma take_odd r : r < R -> take r.*2.+1 rdss = loop_rounds b d rds (iota 0 r) ++ [:: [:: (b, Exch (fun _ _ => d))]].
Proof.
  move=> Hr. rewrite (rdss_split (ltnW Hr)). have -> : R - r = (R - r.+1).+1 by lia.
  rewrite take_cat size_loop_rounds size_iota ltnNge leqnSn /= -[r.*2.+1]addn1 addKn. congr cat.
Qed.

Section Taken.

Variables (c : cfg I D V) (gn : seq (nat * (J * (nat * D)))) (gm : nat -> seq (J * (nat * D))).
Variables (O : nat -> seq (J * lst)) (z : nat -> nat).
Hypothesis HI : inv n plan js (fun i => out [seq res r i | r <- iota 0 R]) c gn gm O z.

Lemma first_taken i got k : i < n -> procs c i = Gath b got k -> all isSome got ->
  exists2 r, r < R & taken n plan js O i = prior r i ++ sync_msgs.
Proof.
  move=> Hi Ep Hg. have [a [O' [g [Ha Ea EO Ag Sg]]]] := leaving_round HI Hi Ep Hg.
  have [_ Hp Hr] := js_even Ha (js_sync Ha Ea). exists a.1./2 => //.
  rewrite /taken /js (flatten_phases n_pos (i := i) (K := a.1.+1) plan_agrees) => [|j Hj].
  - have {1}-> : a.1 = a.1./2.*2 by have := js_sync Ha Ea; lia.
    by rewrite subn0 take_odd // map_cat flatten_cat flat_loop /= !cats0.
  - have Es := rounds_before HI Hi EO Ha Ea Hj. rewrite ltnS leq_eqVlt. case: eqP Es => [E Es|_] /=.
    + have Eaj := js_eq Ha Hj Ea (esym E). subst j. rewrite ltnn in Es. exact: taken_full Hp Es Ag Sg.
    + case: (j.1 < a.1); [exact: taken_done|exact: (taken_start n_pos)].
Qed.

Lemma second_taken i d' k : i < n -> procs c i = Send All b d' k -> exists2 r, r < R & taken n plan js O i = prior r i.
Proof.
  move=> Hi Ep. have [a [O' [Ha Ea EO]]] := entering_round HI Hi Ep.
  have [_ Hp Hr] := js_even Ha (js_sync Ha Ea). exists a.1./2 => //.
  rewrite /taken /js (flatten_phases n_pos (i := i) (K := a.1) plan_agrees) => [|j Hj].
  - have {1}-> : a.1 = a.1./2.*2 by have := js_sync Ha Ea; lia.
    by rewrite subn0 take_even ?flat_loop // ltnW.
  - have Es := rounds_before HI Hi EO Ha Ea Hj. move: Es. case: (j.1 < a.1); first exact: taken_done.
    case: eqP => [E|_] Es; last exact: (taken_start n_pos).
    have Eaj := js_eq Ha Hj Ea (esym E). subst j. apply: (taken_start n_pos). by rewrite Es (st0_exch n_pos Hp).
Qed.

Lemma last_taken i v : i < n -> procs c i = Ret v -> taken n plan js O i = prior R i.
Proof.
  move=> Hi Ep. rewrite /taken /js (flatten_phases n_pos (i := i) (K := R.*2) plan_agrees) => [|j Hj].
  - by rewrite subn0 take_even ?flat_loop.
  - have F := iF HI Hi. rewrite Ep in F. rewrite taken_done ?ifT //; last by rewrite /sto (at_ret F).
    move/mem_tagged: Hj => [k [Hk -> _]]. by rewrite size_loop_rounds size_iota in Hk.
Qed.

End Taken.

(** *** The figure of a repetition *)

Lemma prior_S r i : prior r.+1 i = prior r i ++ sync_msgs ++ rep_msgs r i.
Proof. by rewrite /prior -addn1 iotaD map_cat flatten_cat /= cats0 add0n. Qed.

Notation is_sync := (fun m : I * (nat * D) => m.1 == b).

Lemma count_prior r i : r <= R -> count is_sync (prior r i) = n * r.
Proof.
  elim: r => [|r IH] Hr; first by rewrite muln0.
  rewrite prior_S !count_cat IH ?(ltnW Hr) //.
  have -> : count is_sync sync_msgs = n.
  { rewrite /sync_msgs count_map (eq_count (a2 := predT)) ?count_predT ?size_iota // => q /=. by rewrite eqxx. }
  have -> : count is_sync (rep_msgs r i) = 0.
  { apply/eqP. rewrite -leqn0 leqNgt -has_count. apply/hasP => -[m Hm /eqP]. exact: rep_msgs_ids Hm. }
  by rewrite mulnS; lia.
Qed.

(** Every message that arrives at a party: what it has in its mailbox, the
    messages of the repetitions before, and those of the [sync] it leaves. *)
Lemma account i l c : i < n -> hears n i (start P) l c ->
  [/\ forall got k, procs c i = Gath b got k -> all isSome got ->
        (forall m, pending c i m -> m.1 <> b) /\ exists2 r, r < R & perm_eq l (mbox c i ++ prior r i ++ sync_msgs),
      forall d' k, procs c i = Send All b d' k ->
        [/\ forall m, pending c i m -> m.1 = b /\ m.2.2 = d,
            uniq ([seq m.2.1 | m <- mbox c i] ++ [seq x.2.2.1 | x <- net c & x.1 == i]) &
            exists2 r, r < R & perm_eq l (mbox c i ++ prior r i)] &
      forall v, procs c i = Ret v -> (forall m, ~ pending c i m) /\ perm_eq l (prior R i)].
Proof.
  move=> Hi H. have [gn [gm [O [z [HI Hl]]]]] := hears_taken n_pos js_phased Hi P_follows H. split.
  - move=> got k Ep Hg. split; first by move=> m; exact: (first_pending HI Hi Ep Hg).
    have [r Hr E] := first_taken HI Hi Ep Hg. exists r => //. by rewrite -E.
  - move=> d' k Ep. split; [by move=> m; exact: (second_round HI Hi Ep)|exact: (second_uniq HI Hi Ep)|].
    have [r Hr E] := second_taken HI Hi Ep. exists r => //. by rewrite -E.
  - move=> v Ep. split; first by move=> m; exact: (last_pending HI Hi Ep).
    rewrite -(last_taken HI Hi Ep). suff Em : mbox c i = [::] by rewrite Em in Hl.
    case E : (mbox c i) => [|m l'] //. exfalso. apply: (@last_pending _ _ _ _ _ HI i v m Hi Ep). left. by rewrite E mem_head.
Qed.

(** What arrives between the two readings of a repetition. *)
Lemma figure i l1 c1 got k l c2 : i < n -> hears n i (start P) l1 c1 -> procs c1 i = Gath b got k -> all isSome got ->
  hears n i c1 l c2 -> (exists d' k', procs c2 i = Send All b d' k') \/ (exists v, procs c2 i = Ret v) ->
  count is_sync l = count is_sync (mbox c2 i) ->
  exists r, [/\ r < R, count is_sync l1 = n * r.+1 & perm_eq (mbox c1 i ++ l) (rep_msgs r i ++ mbox c2 i)].
Proof.
  move=> Hi H1 Ep Hg H2 E2 Hc. have [A1 _ _] := account Hi H1. have [Hm [r1 Hr1 P1]] := A1 _ _ Ep Hg.
  have [r2 Hr2 P2] : exists2 r2, r2 <= R & perm_eq (l1 ++ l) (mbox c2 i ++ prior r2 i).
  { have [_ A2 A3] := account Hi (hears_cat H1 H2). case: E2 => [[d' [k' E]]|[v E]].
    - have [_ _ [r Hr HP]] := A2 _ _ E. exists r => //. exact: ltnW.
    - have [Np HP] := A3 _ E. exists R => //. suff -> : mbox c2 i = [::] by [].
      case Eb : (mbox c2 i) => [|m l'] //. exfalso. apply: (Np m). left. by rewrite Eb mem_head. }
  have C0 : count is_sync (mbox c1 i) = 0.
  { apply/eqP. rewrite -leqn0 leqNgt -has_count. apply/hasP => -[m Hin /eqP]. apply: Hm. by left. }
  have Cs : count is_sync sync_msgs = n.
  { rewrite /sync_msgs count_map (eq_count (a2 := predT)) ?count_predT ?size_iota // => q /=. by rewrite eqxx. }
  have C1 : count is_sync l1 = n * r1.+1.
  { rewrite (permP P1) !count_cat C0 count_prior ?(ltnW Hr1) // Cs mulnS. lia. }
  have C2 : n * r1.+1 = n * r2.
  { have := permP P2 is_sync. rewrite !count_cat C1 Hc count_prior // addnC. exact: addnI. }
  have Er : r2 = r1.+1.
  { apply/esym/eqP. by rewrite -(eqn_pmul2l n_pos) C2. }
  exists r1. split=> //. move: P2. rewrite Er prior_S => P2.
  rewrite -(perm_cat2l (prior r1 i ++ sync_msgs)).
  apply: perm_trans (_ : perm_eq _ (l1 ++ l)) _.
  { rewrite perm_sym catA. apply: perm_trans (_ : perm_eq _ ((mbox c1 i ++ prior r1 i ++ sync_msgs) ++ l)) _.
    - by rewrite perm_cat2r.
    - by rewrite perm_cat2r perm_catC. }
  apply: perm_trans P2 _. rewrite perm_catC -!catA. by [].
Qed.

(** *** A schedule in which messages of the protocol arrive before the first reading *)

Lemma net_to i l : i < n ->
  [seq x.2 | x : nat * (I * (nat * D)) <- flatten [seq [seq (r, (b, (q, d))) | r <- iota 0 n] | q <- l] & x.1 == i] = [seq (b, (q, d)) | q <- l].
Proof.
  move=> Hi. elim: l => [|q l IH] //=. rewrite filter_cat map_cat IH filter_map -map_comp.
  rewrite (_ : [seq x <- iota 0 n | preim (fun r => (r, (b, (q, d)))) (fun x : nat * (I * (nat * D)) => x.1 == i) x] = [:: i]) //.
  rewrite (eq_filter (a2 := pred1 i)) //; apply: filter_pred1_uniq; [exact: iota_uniq|by rewrite mem_iota].
Qed.

Let B i : proc I D V := body i 0 (mat i 0) (fun y => bench_loop n b d (prep i) (body i) (iota 1 R.-1) (fun ys => Ret (out (y :: ys)))).

Lemma P_start i : 0 < R -> i < n -> P i = sync n b d (B i).
Proof.
  move=> HR Hi. rewrite /P HQ // /B. have E := Hprep Hi HR. have {1}-> : R = R.-1.+1 by lia.
  by rewrite /= E.
Qed.

Lemma B_follows i : 0 < R -> i < n -> exists js', follows n plan i (B i) (jds 1 (rds 0) ++ js') (out [seq res r i | r <- iota 0 R]).
Proof.
  move=> HR Hi. have ER : R = R.-1.+1 by lia.
  have := plan_agrees. rewrite /rdss {1}ER /= => -[_ [A1 A2]]. exists (tagged 2 (loop_rounds b d rds (iota 1 R.-1))).
  have Ho : out [seq res r i | r <- iota 0 R] = out (res 0 i :: [seq res r i | r <- iota 1 R.-1]) by rewrite {1}ER.
  apply: (Hbody HR A1 Hi). rewrite -[X in follows _ _ _ _ X _]cats0 Ho.
  have U : unfolds n (loop_rounds b d rds (iota 1 R.-1)) (fun me k => bench_loop n b d (prep me) (body me) (iota 1 R.-1) k)
     (fun me => [seq res r me | r <- iota 1 R.-1]).
  { by apply: (loop_unfolds n_pos (mat := mat)) => [me r Hm|r]; rewrite mem_iota => H; [apply: Hprep|apply: Hbody] => //; lia. }
  apply: (U plan 2 A2 i (fun ys => Ret (out (res 0 i :: ys)))) => //. exact: follows_ret.
Qed.

Lemma all_sent m : 0 < R -> m <= n -> exists k c, [/\ gsteps n k (start P) c,
  forall i, i < m -> procs c i = gather n b (fun _ => B i), forall i, m <= i < n -> procs c i = P i,
  forall i, mbox c i = [::] & net c = flatten [seq [seq (r, (b, (q, d))) | r <- iota 0 n] | q <- iota 0 m]].
Proof.
  move=> HR. elim: m => [|m IH] Hm.
  - exists 0, (start P). split=> //. exact: GS0.
  - have [k [c [S0 H1 H2 H3 H4]]] := IH (ltnW Hm).
    have Ep : procs c m = Send All b d (gather n b (fun _ => B m)) by rewrite H2 ?leqnn // P_start.
    have St : gstep n c (Cfg (upd (procs c) m (gather n b (fun _ => B m))) (net c ++ outgoing n m All b d) (mbox c)).
    { apply: (GSend Hm). rewrite Ep. exact: LSend. }
    exists k.+1. eexists. split; first exact: gsteps_snoc S0 St.
    + move=> i Hi /=. rewrite /upd. case: eqP => [->|Ne] //. apply: H1. lia.
    + move=> i /andP [H5 H6] /=. rewrite upd_ne; last by lia. apply: H2. lia.
    + exact: H3.
    + by rewrite -[m.+1]addn1 iotaD map_cat flatten_cat [net _]/= H4 /= cats0 add0n.
Qed.

Lemma early : 1 < n -> 0 < R -> exists k c i got kk m, [/\ gsteps n k (start P) c, i < n,
  procs c i = Gath b got kk /\ all isSome got, m \in mbox c i & m.1 <> b /\ m.2.1 <> i].
Proof.
  move=> Hn HR. have [k1 [c1 [S1 H1 _ H3 H4]]] := all_sent HR (leqnn n).
  have An : all (fun x => x.1 < n) (net c1).
  { rewrite H4. apply/allP => x /flatten_mapP [q _ /mapP [r]]. rewrite mem_iota => Hr ->. exact: Hr. }
  have [k2 [c2 [S2 P2 N2 M2]]] := deliver_all An.
  have M2' i : i < n -> mbox c2 i = [seq (b, (q, d)) | q <- iota 0 (n - 0)] ++ [::].
  { move=> Hi. by rewrite M2 H3 H4 net_to // subn0 cats0. }
  have [_ Sz Nb] := Hrds HR. case Er : (rds 0) Sz Nb => [|x rs] // _ Nb.
  pose j : J := (1, x.1).
  have Hj : plan j = x.2.
  { have ER : R = R.-1.+1 by lia. have := plan_agrees. rewrite /rdss {1}ER /= Er /= => -[_ [[E _] _]]. exact: E. }
  pose t := target (plan j). pose s := if t == 0 then 1 else 0.
  have Hs : s < n by rewrite /s; case: eqP; lia.
  have Hts : t != s by rewrite /s; case: (t =P 0) => [->|/eqP].
  have ng q : q < n -> nth None (nseq n (None : option D)) q = if q < 0 then Some d else None by rewrite nth_nseq if_same.
  have [js' [z F]] := B_follows HR Hs.
  rewrite Er /= in F.
  (* the sender takes the messages of the sync and goes on *)
  have [k3 [c3 [g3 [S3 [P3 A3] M3 N3 O3]]]] := take_all n_pos Hs (leq0n n) (size_nseq n None) ng (etrans (P2 s) (H1 s Hs)) (M2' s Hs).
  have S4 : gstep n c3 (Cfg (upd (procs c3) s (B s)) (net c3) (mbox c3)).
  { apply: (GTau Hs). rewrite P3. exact: (LGathDone b (fun _ => B s) A3). }
  have F4 : foll n plan s (procs (Cfg (upd (procs c3) s (B s)) (net c3) (mbox c3)) s) ((j, st0 n plan j) :: [seq (id, st0 n plan id) | id <- jds 1 rs ++ js']) z (out [seq res r s | r <- iota 0 R]).
  { by rewrite /= upd_eq. }
  have [] := local_send n_pos Hs F4 (leqnn _); first by rewrite /= N3 N2.
  move=> k5 [c5 [d5 [S5 P5 M5 A5 [Ht Hin]]]]. rewrite -/t in Ht Hin.
  (* the message arrives *)
  have [k6 [c6 [S6 P6 N6 M6]]] := deliver_all A5.
  (* the receiver takes the messages of the sync *)
  have Pt : procs c6 t = gather n b (fun _ => B t).
  { rewrite P6 P5 //= upd_ne //. have [-> _] := O3 t Hts. by rewrite P2 H1. }
  have Mt : mbox c6 t = [seq (b, (q, d)) | q <- iota 0 (n - 0)] ++ [seq x.2 | x <- net c5 & x.1 == t].
  { rewrite M6 M5 /=. have [_ ->] := O3 t Hts. by rewrite M2' // cats0. }
  have [k7 [c7 [g7 [S7 [P7 A7] M7 N7 O7]]]] := take_all n_pos Ht (leq0n n) (size_nseq n None) ng Pt Mt.
  exists (k1 + (k2 + (k3 + (k5 + (k6 + k7)).+1))), c7, t, g7, (fun _ => B t), (j.2, (s, d5)). split=> //.
  - do 3 (apply: gsteps_trans; first eassumption). apply: GSS; first exact: S4. do 2 (apply: gsteps_trans; first eassumption). exact: S7.
  - rewrite M7. apply/mapP. exists (t, (j.2, (s, d5))) => //. by rewrite mem_filter eqxx.
  - split=> /= [E|E]; last by rewrite E eqxx in Hts.
    move/negP: Nb. apply. by rewrite -E mem_head.
Qed.

End Figure.

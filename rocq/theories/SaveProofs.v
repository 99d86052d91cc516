(** Proofs about the last step of the programs (SaveModel). *)

From mathcomp Require Import all_ssreflect zify.
From Verif Require Import MachineModel MachineProofs MachineBuild Realize PipeModel P_Phase SaveModel.
Set Implicit Arguments.
Unset Strict Implicit.
Unset Printing Implicit Defensive.

(** ** Codes with corresponding ends *)

Section Lift.

Variables (I D : eqType) (V : Type).
Notation proc := (proc I D V).

(** Codes that do the same until they come to codes related by [R]. *)
Inductive lift (R : proc -> proc -> Prop) : proc -> proc -> Prop :=
| LiftBase p q : R p q -> lift R p q
| LiftPanic : lift R Panic Panic
| LiftSend to id d p q : lift R p q -> lift R (Send to id d p) (Send to id d q)
| LiftRecv id k k' : (forall s d, lift R (k s d) (k' s d)) -> lift R (Recv id k) (Recv id k')
| LiftGath id got k k' : (forall ds, lift R (k ds) (k' ds)) -> lift R (Gath id got k) (Gath id got k')
| LiftFork p q k k' : (forall a b, lift R (k a b) (k' a b)) -> lift R (Fork p q k) (Fork p q k').

(** Code in continuation-passing style does nothing else with its continuation. *)
Definition natural (T : Type) (P : (T -> proc) -> proc) : Prop :=
  forall R k k', (forall x, lift R (k x) (k' x)) -> lift R (P k) (P k').

Lemma natural_sync n (b : I) (d : D) : natural (fun k : unit -> proc => sync n b d (k tt)).
Proof. move=> R k k' H. apply: LiftSend. apply: LiftGath => _. exact: H. Qed.

Lemma natural_bench_loop n (S T : Type) (b : I) (d : D) (prep : nat -> option S) (body : nat -> S -> (T -> proc) -> proc) rs :
  (forall r s, natural (body r s)) -> natural (bench_loop n b d prep body rs).
Proof.
  move=> Hb. elim: rs => [|r rs IH] R k k' H /=; first exact: H.
  case: (prep r) => [s|]; last exact: LiftPanic.
  apply: LiftSend. apply: LiftGath => _. apply: Hb => y. apply: IH => ys. exact: H.
Qed.

End Lift.

(** ** The end of party 0 *)

Section Ends.

Variables (n : nat) (I D : eqType) (V : Type) (b : I) (fin : D).
Notation proc := (proc I D V).
Notation cfg := (cfg I D V).

(** A receive of the message party 0 has sent to itself. *)
Definition own (v : V) : proc := Recv b (fun s d => if (s == 0) && (d == fin) then Ret v else Panic).

(** With and without that receive. *)
Definition last_send (p q : proc) : Prop := exists v, p = Send All b fin (Ret v) /\ q = Send All b fin (own v).

Definition lag (p q : proc) : Prop := lift last_send p q \/ exists v, p = Ret v /\ q = own v.

Lemma lift_not_ret p q : lift last_send p q -> (forall v, p <> Ret v) /\ forall v, q <> Ret v.
Proof. by case=> [{}p {}q [v [-> ->]]|||||]. Qed.

Lemma gath_lift R id got (k k' : seq D -> proc) s d : (forall ds, lift R (k ds) (k' ds)) ->
  lift R (gath_step id got k s d) (gath_step id got k' s d).
Proof.
  move=> H. rewrite /gath_step. case: ifP => _; last exact: LiftPanic.
  by case: (nth _ _ _) => [_|]; apply: LiftGath.
Qed.

Lemma lag_step p q a p' : lag p q -> lstep p a p' -> exists2 q', lstep q a q' & lag p' q'.
Proof.
  case=> [L|[v [-> _]] S]; last by inversion S.
  case: L => [{}p {}q [v [-> ->]]||to id d {}p {}q L|id k k' L|id got k k' L|p1 p2 k k' L] S.
  - inversion S; subst. exists (own v); [exact: LSend|right; by exists v].
  - inversion S.
  - inversion S; subst. exists q; [exact: LSend|by left].
  - inversion S; subst. eexists; [exact: LRecv|left; exact: L].
  - inversion S; subst.
    + eexists; [exact: LGathMsg|left; exact: gath_lift].
    + eexists; [exact: LGathDone|left; exact: L].
  - inversion S; subst.
    + eexists; [apply: LForkL; eassumption|left; exact: LiftFork].
    + eexists; [apply: LForkR; eassumption|left; exact: LiftFork].
    + eexists; [exact: LJoin|left; exact: L].
    + eexists; [exact: LPanicL|left; exact: LiftPanic].
    + eexists; [exact: LPanicR|left; exact: LiftPanic].
Qed.

(** Backwards, except for the receive at the end. *)
Lemma lag_back p q a q' : lag p q -> lstep q a q' ->
  (exists2 p', lstep p a p' & lag p' q') \/
  exists v s d, [/\ p = Ret v, q = own v, a = ARecv b s d & q' = if (s == 0) && (d == fin) then Ret v else Panic].
Proof.
  case=> [L S|[v [-> ->]] S]; last by inversion S; subst; right; exists v, s, d.
  left. case: L S => [{}p {}q [v [-> ->]]||to id d {}p {}q L|id k k' L|id got k k' L|p1 p2 k k' L] S.
  - inversion S; subst. exists (Ret v); [exact: LSend|right; by exists v].
  - inversion S.
  - inversion S; subst. exists p; [exact: LSend|by left].
  - inversion S; subst. eexists; [exact: LRecv|left; exact: L].
  - inversion S; subst.
    + eexists; [exact: LGathMsg|left; exact: gath_lift].
    + eexists; [exact: LGathDone|left; exact: L].
  - inversion S; subst.
    + eexists; [apply: LForkL; eassumption|left; exact: LiftFork].
    + eexists; [apply: LForkR; eassumption|left; exact: LiftFork].
    + eexists; [exact: LJoin|left; exact: L].
    + eexists; [exact: LPanicL|left; exact: LiftPanic].
    + eexists; [exact: LPanicR|left; exact: LiftPanic].
Qed.

Definition lag_cfg (c e : cfg) : Prop :=
  [/\ lag (procs c 0) (procs e 0), forall i, i != 0 -> procs c i = procs e i, net c = net e & forall i, mbox c i = mbox e i].

Lemma lag_upd (c e : cfg) i p q : lag_cfg c e -> (i = 0 -> lag p q) -> (i <> 0 -> p = q) ->
  lag (upd (procs c) i p 0) (upd (procs e) i q 0) /\ forall j, j != 0 -> upd (procs c) i p j = upd (procs e) i q j.
Proof.
  move=> [L0 L1 _ _] H0 H1. split.
  - rewrite /upd. by case: (0 =P i) => [E|//]; apply: H0.
  - move=> j Hj. rewrite /upd. case: (j =P i) => [E|_]; last exact: L1. apply: H1 => Hi. by rewrite E Hi in Hj.
Qed.

(** A step of a party, matched. *)
Lemma lag_local (c e : cfg) i a p : lag_cfg c e -> lstep (procs c i) a p ->
  exists2 q, lstep (procs e i) a q & (i = 0 -> lag p q) /\ (i <> 0 -> p = q).
Proof.
  move=> [L0 L1 _ _] S. case: (i =P 0) => [E|/eqP Hi].
  - rewrite E in S. have [q S' L] := lag_step L0 S. exists q; first by rewrite E. by split.
  - exists p; first by rewrite -L1. split=> // E. by rewrite E in Hi.
Qed.

Lemma lag_gstep (c c1 e : cfg) : lag_cfg c e -> gstep n c c1 -> exists2 e1, gstep n e e1 & lag_cfg c1 e1.
Proof.
  move=> L S. case: (L) => L0 L1 L2 L3.
  case: S => [i p Hi S|i to id d p Hi S|i id s d p x y Hi Em Hn S|to m x y Ht En].
  - have [q S' [E0 E1]] := lag_local L S. eexists; first exact: GTau Hi S'.
    have [H0 H1] := lag_upd L E0 E1. by split.
  - have [q S' [E0 E1]] := lag_local L S. eexists; first exact: GSend Hi S'.
    have [H0 H1] := lag_upd L E0 E1. split=> //=. by rewrite L2.
  - have [q S' [E0 E1]] := lag_local L S. rewrite L3 in Em. eexists; first exact: GRecv Hi Em Hn S'.
    have [H0 H1] := lag_upd L E0 E1. split=> //= j. rewrite /upd. by case: (j == i).
  - rewrite L2 in En. eexists; first exact: GDeliver Ht En. split=> //= j. by rewrite /upd !L3.
Qed.

Lemma lag_gsteps k (c c1 : cfg) : gsteps n k c c1 -> forall e, lag_cfg c e -> exists2 e1, gsteps n k e e1 & lag_cfg c1 e1.
Proof.
  elim=> [{}c|{}k {}c c' c'' S _ IH] e L; first by exists e; [exact: GS0|].
  have [e1 S1 L1] := lag_gstep L S. have [e2 S2 L2] := IH _ L1. exists e2; [exact: GSS S1 S2|by []].
Qed.

Lemma gsteps_snoc k (c c1 c2 : cfg) : gsteps n k c c1 -> gstep n c1 c2 -> gsteps n k.+1 c c2.
Proof. elim=> [{}c T|{}k c0 c0' c1' S _ IH T]; [exact: GSS T (GS0 _ _)|exact: GSS S (IH T)]. Qed.

(** Backwards: a step of [e] is one of [c], or party 0 takes its own message. *)
Lemma lag_gback (c e e1 : cfg) : lag_cfg c e -> gstep n e e1 ->
  (exists c1, gstep n c c1) \/
  exists v s d x y, [/\ procs c 0 = Ret v, mbox e 0 = x ++ (b, (s, d)) :: y &
    e1 = Cfg (upd (procs e) 0 (if (s == 0) && (d == fin) then Ret v else Panic)) (net e) (upd (mbox e) 0 (x ++ y))].
Proof.
  move=> L S. case: (L) => L0 L1 L2 L3.
  have B i a q : lstep (procs e i) a q -> (exists p, lstep (procs c i) a p) \/
    exists v s d, [/\ i = 0, procs c 0 = Ret v, a = ARecv b s d & q = if (s == 0) && (d == fin) then Ret v else Panic].
  { move=> {}S. case: (i =P 0) => [E|/eqP Hi].
    - rewrite E in S. have [[p S' _]|[v [s [d [E1 _ E2 E3]]]]] := lag_back L0 S; first by left; exists p; rewrite E.
      right. by exists v, s, d.
    - left. exists q. by rewrite L1. }
  case: S => [i p Hi S|i to id d p Hi S|i id s d p x y Hi Em Hn S|to m x y Ht En].
  - case: (B _ _ _ S) => [[q S']|[v [s [d [_ _ //]]]]]. left. eexists. exact: GTau Hi S'.
  - case: (B _ _ _ S) => [[q S']|[v [s [d' [_ _ //]]]]]. left. eexists. exact: GSend Hi S'.
  - case: (B _ _ _ S) => [[q S']|[v [s' [d' [Ei Ev [E1 E2 E3] Eq]]]]].
    + left. rewrite -L3 in Em. eexists. exact: GRecv Hi Em Hn S'.
    + right. subst id s' d' i p. by exists v, s, d, x, y.
  - left. rewrite -L2 in En. eexists. exact: GDeliver Ht En.
Qed.

(** Everybody has returned; only the message of party 0 to itself is left. *)
Definition saved_done (res : nat -> V) (c : cfg) : Prop :=
  [/\ forall i, i < n -> procs c i = Ret (res i), net c = [::], mbox c 0 = [:: (b, (0, fin))] &
      forall i, 0 < i < n -> mbox c i = [::]].

Lemma lag_ends (P Q : nat -> proc) res : 0 < n -> lift last_send (P 0) (Q 0) -> (forall i, i != 0 -> P i = Q i) ->
  every_run_ends n (start Q) (all_done n res) -> every_run_ends n (start P) (saved_done res).
Proof.
  move=> Hn H0 H1 [B HB]. exists B => k c S.
  have L : lag_cfg (start P) (start Q) by split=> //; left.
  have [e Se Le] := lag_gsteps S L. have [Hk He] := HB _ _ Se. split=> //.
  case: (Le) => L0 L1 L2 L3.
  case: He => [[e1 S1]|[Hp _]].
  - case: (lag_gback Le S1) => [|[v [s [d [x [y [Ev Em E1]]]]]]]; first by left.
    have Se1 : gsteps n k.+1 (start Q) e1.
    { exact: gsteps_snoc Se S1. }
    have [_ He1] := HB _ _ Se1. subst e1.
    case: He1 => [[e2 S2]|[D1 [D2 D3]]].
    + (* a step of the other codes is one here *)
      left. case: S2 => [i p Hi T|i to id d' p Hi T|i id s' d' p x' y' Hi Em' Hn' T|to m x' y' Ht En].
      * move: T. rewrite /= /upd. case: (i =P 0) => [_ T|/eqP Hi0 T]; first by case: ifP T => _ T; inversion T.
        rewrite -L1 // in T. eexists. exact: GTau Hi T.
      * move: T. rewrite /= /upd. case: (i =P 0) => [_ T|/eqP Hi0 T]; first by case: ifP T => _ T; inversion T.
        rewrite -L1 // in T. eexists. exact: GSend Hi T.
      * move: T Em'. rewrite /= /upd. case: (i =P 0) => [_ T|/eqP Hi0 T Em']; first by case: ifP T => _ T; inversion T.
        rewrite -L1 // in T. rewrite -L3 in Em'. eexists. exact: GRecv Hi Em' Hn' T.
      * rewrite /= -L2 in En. eexists. exact: GDeliver Ht En.
    + right. have := D1 0 Hn. rewrite /= /upd /=. case: ifP => // /andP[/eqP Es /eqP Ed] [Er].
      have /= := D3 0 Hn. rewrite /upd /= => Exy. have [Ex Ey] : x = [::] /\ y = [::] by clear -Exy; case: x Exy => //=; case: y.
      split.
      * move=> i Hi. case: (i =P 0) => [->|/eqP Hi0]; first by rewrite Ev Er.
        have := D1 i Hi. rewrite /= /upd (negbTE Hi0) => <-. exact: L1.
      * by rewrite L2.
      * by rewrite L3 Em Ex Ey Es Ed.
      * move=> i /andP[Hi0 Hi]. have := D3 i Hi. rewrite /= /upd L3. by case: (i =P 0) Hi0 => [->|].
  - (* the other codes cannot have ended without party 0 taking its message *)
    have := Hp 0 Hn. case: L0 => [L0|[v [_ ->]] //]. by case: (lift_not_ret L0) => _ H /H.
Qed.


(** ** Processes that end *)

Notation xcfg := (xcfg I D V).
Notation mess := (prod_eqType nat_eqType (prod_eqType I (prod_eqType nat_eqType D))).

(** The messages waiting in the queue of party [i]. *)
Definition queued (c : xcfg) (i : nat) : seq mess := flatten [seq outgoing n i m.1 m.2.1 m.2.2 | m <- xqueue c i].
Definition queued_all (c : xcfg) : seq mess := flatten [seq queued c i | i <- iota 0 n].

(** The state of the network that never loses a message. *)
Definition sim (x : xcfg) (c : cfg) : Prop :=
  [/\ forall i, xprocs x i = procs c i, forall i, xmbox x i = mbox c i & perm_eq (net c) (xnet x ++ queued_all x)].

Lemma queued_upd (x : xcfg) (f : nat -> seq mess) i q : i < n -> (forall j, j != i -> f j = queued x j) ->
  perm_eq (f i) q -> forall r, perm_eq (q ++ r) (queued x i) -> 
  perm_eq (flatten [seq f j | j <- iota 0 n] ++ r) (queued_all x).
Proof.
  move=> Hi Hf Hq r Hr. rewrite /queued_all.
  have E : iota 0 n = iota 0 i ++ i :: iota i.+1 (n - i.+1).
  { have {1}-> : n = i + (1 + (n - i.+1)) by lia. by rewrite iotaD iotaD /= add0n addn1. }
  rewrite E !map_cat /= !flatten_cat /=.
  have -> : [seq f j | j <- iota 0 i] = [seq queued x j | j <- iota 0 i].
  { apply/eq_in_map => j. rewrite mem_iota => Hj. apply: Hf. lia. }
  have -> : [seq f j | j <- iota i.+1 (n - i.+1)] = [seq queued x j | j <- iota i.+1 (n - i.+1)].
  { apply/eq_in_map => j. rewrite mem_iota => Hj. apply: Hf. lia. }
  rewrite -!catA perm_cat2l -(permPr (perm_cat Hr (perm_refl _))) -catA.
  apply: perm_cat => //. by rewrite perm_catC.
Qed.

Lemma perm_split (s : seq mess) x y m : perm_eq s (x ++ m :: y) -> exists x' y', s = x' ++ m :: y' /\ perm_eq (x' ++ y') (x ++ y).
Proof.
  move=> H. have Hm : m \in s by rewrite (perm_mem H) mem_cat mem_head orbT.
  case/splitPr: Hm H => x' y' H. exists x', y'. split=> //.
  rewrite -(perm_cons m). apply: perm_trans (perm_trans H _); last by rewrite perm_sym -cat1s perm_catCA.
  by rewrite -cat1s perm_catCA.
Qed.

(** The number of messages in queues. *)
Definition qsize (x : xcfg) : nat := sumn [seq size (xqueue x i) | i <- iota 0 n].

Lemma sumn_off (f g : nat -> nat) i : i < n -> (forall j, j != i -> f j = g j) ->
  sumn [seq f j | j <- iota 0 n] + g i = sumn [seq g j | j <- iota 0 n] + f i.
Proof.
  move=> Hi Hf.
  have E : iota 0 n = iota 0 i ++ i :: iota i.+1 (n - i.+1).
  { have {1}-> : n = i + (1 + (n - i.+1)) by lia. by rewrite iotaD iotaD /= add0n addn1. }
  rewrite E !map_cat /= !sumn_cat /=.
  have -> : [seq f j | j <- iota 0 i] = [seq g j | j <- iota 0 i].
  { apply/eq_in_map => j. rewrite mem_iota => Hj. apply: Hf. lia. }
  have -> : [seq f j | j <- iota i.+1 (n - i.+1)] = [seq g j | j <- iota i.+1 (n - i.+1)].
  { apply/eq_in_map => j. rewrite mem_iota => Hj. apply: Hf. lia. }
  lia.
Qed.

(** A step is one step of that network, or the routing of a message. *)
Lemma sim_step (x x1 : xcfg) (c : cfg) : sim x c -> xstep n x x1 ->
  exists g c1, [/\ gsteps n g c c1, sim x1 c1 & 1 + qsize x1 <= 2 * g + qsize x].
Proof.
  move=> [E1 E2 E3] S.
  have U i p j : upd (xprocs x) i p j = upd (procs c) i p j by rewrite /upd E1.
  case: S => [i p Hi S|i to id d p Hi S|i to id d q Hi Ha Eq|i id s d p u v Hi Em Hn S|to m u v Ht En].
  - rewrite E1 in S. eexists 1, _. split; [exact: GSS (GTau Hi S) (GS0 _ _)|by split=> //=; exact: U|rewrite /qsize /=; lia].
  - rewrite E1 in S. eexists 1, _. split; first exact: GSS (GSend Hi S) (GS0 _ _).
    + split=> //=.
      set y1 := XCfg _ _ _ _.
      have : perm_eq (queued_all x ++ outgoing n i to id d) (queued_all y1).
      { apply: (queued_upd (x := y1) (f := queued x) (i := i) (q := queued x i)) => //.
        - move=> j Hj. by rewrite /queued /= /upd (negbTE Hj).
        - by rewrite /queued /= /upd eqxx map_rcons -cats1 flatten_cat /= cats0. }
      move=> H. rewrite (permPl (perm_cat E3 (perm_refl _))) -catA. exact: perm_cat.
    + rewrite /qsize /=. set f := fun j => size (upd _ _ _ j).
      have := @sumn_off f (fun j => size (xqueue x j)) i Hi. rewrite /f /upd eqxx size_rcons => H.
      have {}H := H (fun j Hj => ltac:(by rewrite (negbTE Hj))). lia.
  - eexists 0, c. split; first exact: GS0.
    + split=> //=. apply: perm_trans E3 _. rewrite -catA perm_cat2l. set y1 := XCfg _ _ _ _.
      have : perm_eq (queued_all y1 ++ outgoing n i to id d) (queued_all x).
      { apply: (queued_upd (x := x) (f := queued y1) (i := i) (q := queued y1 i)) => //.
        - move=> j Hj. by rewrite /queued /= /upd (negbTE Hj).
        - rewrite /queued /= /upd eqxx Eq /=. by rewrite perm_catC. }
      move=> H. rewrite perm_sym. apply: perm_trans H. by rewrite perm_catC.
    + rewrite /qsize /=. set f := fun j => size (upd _ _ _ j).
      have := @sumn_off f (fun j => size (xqueue x j)) i Hi. rewrite /f /upd eqxx Eq /= => H.
      have {}H := H (fun j Hj => ltac:(by rewrite (negbTE Hj))). lia.
  - rewrite E1 in S. rewrite E2 in Em. eexists 1, _. split; first exact: GSS (GRecv Hi Em Hn S) (GS0 _ _).
    + split=> //= j. by rewrite /upd E2.
    + rewrite /qsize /=. lia.
  - move: E3. rewrite En -catA /= => H. have [u' [v' [En' Hp]]] := perm_split H.
    eexists 1, _. split; first exact: GSS (GDeliver Ht En') (GS0 _ _).
    + split=> //= [j|]; first by rewrite /upd !E2. by rewrite -catA.
    + rewrite /qsize /=. lia.
Qed.

Lemma gsteps_cat k1 k2 (c c1 c2 : cfg) : gsteps n k1 c c1 -> gsteps n k2 c1 c2 -> gsteps n (k1 + k2) c c2.
Proof. elim=> // {}k1 d d1 d2 S _ IH H. rewrite addSn. exact: GSS S (IH H). Qed.

Lemma sim_steps k (x x1 : xcfg) (c : cfg) : sim x c -> xsteps n k x x1 ->
  exists g c1, [/\ gsteps n g c c1, sim x1 c1 & k + qsize x1 <= 2 * g + qsize x].
Proof.
  move=> H S. elim: S c H => [{}x|{}k y y1 y2 S _ IH] c H; first by exists 0, c; split=> //; exact: GS0.
  have [g [c1 [G1 H1 L1]]] := sim_step H S. have [g2 [c2 [G2 H2 L2]]] := IH c1 H1.
  exists (g + g2), c2. split=> //; [exact: gsteps_cat G1 G2|lia].
Qed.

(** Codes whose last action is to send [fin] to everybody. *)
Definition ends_sending (p q : proc) : Prop := exists v, p = Send All b fin (Ret v) /\ q = p.
Definition closing (p : proc) : Prop := lift ends_sending p p.

Lemma ends_not_ret p q v : lift ends_sending p q -> p <> Ret v.
Proof. by case=> [{}p {}q [w [-> _]]|||||]. Qed.

Lemma closing_not_ret p v : closing p -> p <> Ret v.
Proof. exact: ends_not_ret. Qed.

Lemma ends_step p q a p' : lift ends_sending p q -> p = q -> lstep p a p' ->
  closing p' \/ exists v, p' = Ret v /\ a = ASend All b fin.
Proof.
  case=> [p0 q0 [v [-> _]]||to id d p0 q0 L|id k k' L|id got k k' L|p1 p2 k k' L] E S.
  - inversion S; subst. right. by exists v.
  - inversion S.
  - case: E => E. subst q0. inversion S; subst. by left.
  - case: E => E. subst k'. inversion S; subst. left. exact: L.
  - case: E => E. subst k'. left. inversion S; subst; [exact: gath_lift|exact: L].
  - case: E => E. subst k'. left. inversion S; subst; first [exact: LiftPanic | exact: L | exact: LiftFork].
Qed.

Lemma closing_step p a p' : closing p -> lstep p a p' -> closing p' \/ exists v, p' = Ret v /\ a = ASend All b fin.
Proof. move=> H. exact: ends_step H erefl. Qed.

Lemma dead_step (p : proc) a q : ~~ alive p -> ~ lstep p a q.
Proof. by case: p => // [v|] _ S; inversion S. Qed.

(** Every run can be continued to its end. *)
Lemma run_to_end c0 (Q : cfg -> Prop) k c : every_run_ends n c0 Q -> gsteps n k c0 c -> exists k' c', gsteps n k' c c' /\ Q c'.
Proof.
  move=> [B HB] S. have [m Hm] : exists m, B - k < m by exists (B - k).+1.
  elim: m k c S Hm => // m IH k c S Hm.
  have [Hk [[c1 S1]|HQ]] := HB _ _ S; last by exists 0, c; split=> //; exact: GS0.
  have S' := gsteps_snoc S S1. have [Hk' _] := HB _ _ S'.
  have [k' [c' [T HQ]]] := IH _ _ S' (ltac:(lia)). exists k'.+1, c'. split=> //. exact: GSS S1 T.
Qed.

(** A message of party 0 for party [i] is still to come. *)
Definition pending (c : cfg) (i : nat) : Prop :=
  [\/ closing (procs c 0), (i, (b, (0, fin))) \in net c | (b, (0, fin)) \in mbox c i].

Lemma dead_pending (c c1 : cfg) i : 0 < i < n -> ~~ alive (procs c i) -> pending c i -> gstep n c c1 ->
  ~~ alive (procs c1 i) /\ pending c1 i.
Proof.
  move=> Hi Ha Hp S.
  have Hu j p a : lstep (procs c j) a p -> ~~ alive (upd (procs c) j p i).
  { rewrite /upd. by case: (i =P j) => [E|//]; subst j => /(dead_step Ha). }
  have Hc j p a : lstep (procs c j) a p -> (forall to id d, a <> ASend to id d) -> closing (procs c 0) -> closing (upd (procs c) j p 0).
  { move=> T Hna. rewrite /upd. case: (0 =P j) => // E H. subst j.
    case: (closing_step H T) => // [[v [_ E]]]. by case: (Hna _ _ _ E). }
  case: S => [j p Hj S|j to id d p Hj S|j id s d p u v Hj Em Hn S|to m u v Ht En].
  - split; first exact: Hu S. case: Hp => H; [constructor 1|by constructor 2|by constructor 3].
    exact: Hc S _ H.
  - split; first exact: Hu S. case: Hp => H; [|by constructor 2; rewrite mem_cat H|by constructor 3].
    rewrite /pending /= /upd. case: (0 =P j) => [Ej|_]; last by constructor 1.
    subst j. case: (closing_step H S) => [Hp|[v [_ [E1 E2 E3]]]]; first by constructor 1.
    constructor 2. subst to id d. rewrite mem_cat; apply/orP; right. apply/mapP. exists i => //. rewrite mem_iota. lia.
  - split; first exact: Hu S. case: Hp => H; [constructor 1|by constructor 2|constructor 3].
    + exact: Hc S _ H.
    + rewrite /= /upd. case: (i =P j) => [E|//]. subst j. by case: (dead_step Ha S).
  - split=> //. case: Hp => H; [by constructor 1| |constructor 3].
    + move: H. rewrite En mem_cat inE => /or3P [H|/eqP H|H].
      * constructor 2. by rewrite /= mem_cat H.
      * constructor 3. case: H => <- <-. by rewrite /= /upd eqxx mem_rcons mem_head.
      * constructor 2. by rewrite /= mem_cat H orbT.
    + rewrite /= /upd. case: (i =P to) => [<-|//]. by rewrite mem_rcons inE H orbT.
Qed.

Lemma dead_pendings k (c c1 : cfg) i : 0 < i < n -> gsteps n k c c1 -> ~~ alive (procs c i) -> pending c i ->
  ~~ alive (procs c1 i) /\ pending c1 i.
Proof.
  move=> Hi S. elim: S => // {}k d d1 d2 S _ IH Ha Hp. have [Ha1 Hp1] := dead_pending Hi Ha Hp S. exact: IH.
Qed.

(** Nobody else has returned while the message is to come. *)
Lemma pending_alive (P : nat -> proc) res k c i : 0 < n -> every_run_ends n (start P) (saved_done res) ->
  gsteps n k (start P) c -> 0 < i < n -> pending c i -> alive (procs c i).
Proof.
  move=> Hn HE S Hi Hp. case Ha : (alive _) => //. have {}Ha := negbT Ha.
  have [k' [c' [T [D1 D2 D3 D4]]]] := run_to_end HE S.
  have [_ []] := dead_pendings Hi T Ha Hp.
  - rewrite D1 // => H. by have := closing_not_ret (v := res 0) H.
  - by rewrite D2.
  - by rewrite D4.
Qed.

(** Party 0 is before its last action, or has ended and left its message behind. *)
Definition xinv (x : xcfg) : Prop :=
  closing (xprocs x 0) \/ (exists v, xprocs x 0 = Ret v) /\ exists u w, xqueue x 0 = u ++ (All, (b, fin)) :: w.

Lemma xinv_step (x x1 : xcfg) : xinv x -> xstep n x x1 -> xinv x1.
Proof.
  move=> H S.
  case: H => [H|[[v Ev] [u0 [w0 Eq0]]]].
  - have L j p a : lstep (xprocs x j) a p -> (forall to id d, a <> ASend to id d) -> closing (upd (xprocs x) j p 0).
    { move=> T Hna. rewrite /upd. case: (0 =P j) => // E. subst j.
      case: (closing_step H T) => // [[v [_ E]]]. by case: (Hna _ _ _ E). }
    case: S => [j p Hj S|j to id d p Hj S|j to id d q Hj Ha Eq|j id s d p u v Hj Em Hn S|to m u v Ht En].
    + left. exact: L S _.
    + rewrite /xinv /= /upd. case: (0 =P j) => [E|_]; last by left. subst j.
      case: (closing_step H S) => [Hp|[v [-> [-> -> ->]]]]; first by left.
      right. split; first by exists v. exists (xqueue x 0), [::]. by rewrite -cats1.
    + by left.
    + left. exact: L S _.
    + by left.
  - right. have Dn a p : ~ lstep (xprocs x 0) a p by rewrite Ev => T; inversion T.
    case: S => [j p Hj S|j to id d p Hj S|j to id d q Hj Ha Eq|j id s d p u w Hj Em Hn S|to m u w Ht En] /=.
    + rewrite /upd. case: (0 =P j) => [E|_]; first by subst j; case: (Dn _ _ S). split; [by exists v|by exists u0, w0].
    + rewrite /upd. case: (0 =P j) => [E|_]; first by subst j; case: (Dn _ _ S). split; [by exists v|by exists u0, w0].
    + rewrite /upd. case: (0 =P j) => [E|_]; first by subst j; rewrite Ev in Ha. split; [by exists v|by exists u0, w0].
    + rewrite /upd. case: (0 =P j) => [E|_]; first by subst j; case: (Dn _ _ S). split; [by exists v|by exists u0, w0].
    + split; [by exists v|by exists u0, w0].
Qed.

Lemma xinv_pending (x : xcfg) c i : sim x c -> xinv x -> i < n -> pending c i.
Proof.
  move=> [E1 E2 E3] [H|[_ [u [w Eq]]]] Hi; first by constructor 1; rewrite -E1.
  constructor 2. rewrite (perm_mem E3) mem_cat. apply/orP; right.
  apply/flattenP. exists (queued x 0); first by apply/mapP; exists 0 => //; rewrite mem_iota; lia.
  rewrite /queued Eq map_cat flatten_cat mem_cat /= mem_cat. apply/orP; right. apply/orP; left.
  apply/mapP. exists i => //. by rewrite mem_iota.
Qed.

(** If party 0 has not ended and nothing is queued, the networks can do the same. *)
Lemma sim_back (x : xcfg) (c c1 : cfg) : sim x c -> (forall i, i < n -> xqueue x i = [::]) -> gstep n c c1 -> exists x1, xstep n x x1.
Proof.
  move=> [E1 E2 E3] Hq S.
  have Eq : queued_all x = [::].
  { rewrite /queued_all. have : all (fun i => i < n) (iota 0 n) by apply/allP => i; rewrite mem_iota.
    elim: (iota 0 n) => //= i r IH /andP[Hi Hr]. by rewrite /queued Hq //= IH. }
  case: S => [i p Hi S|i to id d p Hi S|i id s d p u v Hi Em Hn S|to m u v Ht En].
  - rewrite -E1 in S. eexists. exact: XTau Hi S.
  - rewrite -E1 in S. eexists. exact: XSend Hi S.
  - rewrite -E1 in S. rewrite -E2 in Em. eexists. exact: XRecv Hi Em Hn S.
  - move: E3. rewrite En Eq cats0 perm_sym => H. have [u' [v' [En' _]]] := perm_split H. eexists. exact: XDeliver Ht En'.
Qed.

(** ** What becomes of the program *)

Lemma exit_ends (P : nat -> proc) res : 0 < n -> closing (P 0) -> every_run_ends n (start P) (saved_done res) ->
  exists B, forall k x, xsteps n k (xstart P) x ->
    [/\ k <= B, forall i, 0 < i < n -> alive (xprocs x i) & (exists x', xstep n x x') \/ xprocs x 0 = Ret (res 0)].
Proof.
  move=> Hn H0 HE. have [B HB] := HE. exists (2 * B) => k x S.
  have S0 : sim (xstart P) (start P).
  { split=> //=. rewrite /queued_all (_ : flatten _ = [::]) //. by elim: (iota 0 n) => //= i r ->. }
  have Q0 : qsize (xstart P) = 0 by rewrite /qsize; elim: (iota 0 n).
  have [g [c [G H L]]] := sim_steps S0 S. have [Hg Hc] := HB _ _ G.
  have X : xinv x.
  { have : xinv (xstart P) by left. elim: S {S0 Q0 H L} => // {}k y y1 y2 T _ IH Hy. apply: IH. exact: xinv_step Hy T. }
  have [E1 E2 E3] := H.
  have A i : 0 < i < n -> alive (xprocs x i).
  { move=> Hi. rewrite E1. apply: (pending_alive Hn HE G Hi). by apply: (xinv_pending H X); lia. }
  split=> //; first by lia.
  case: (X) => [C|[[v Ev] _]].
  - (* everybody still runs *)
    left. case Eq : (all (fun i => nilp (xqueue x i)) (iota 0 n)).
    + have Hq i : i < n -> xqueue x i = [::].
      { move=> Hi. apply/nilP. move/allP: Eq. apply. by rewrite mem_iota. }
      case: Hc => [[c1 S1]|[D1 _ _ _]]; first exact: sim_back H Hq S1.
      case: (closing_not_ret (v := res 0) C). by rewrite E1 D1.
    + move/negbT: Eq. rewrite -has_predC => /hasP [i]. rewrite mem_iota => Hi /=. case Eq : (xqueue x i) => [|[to [id d]] q] // _.
      have Ha : alive (xprocs x i).
      { case: (i =P 0) => [->|/eqP]; last by move=> Hi0; apply: A; lia.
        case E0 : (xprocs x 0) => [v|||||] //; first by case: (closing_not_ret (v := v) C).
        (* a panic would stay *)
        exfalso. have [k' [c' [T [D1 _ _ _]]]] := run_to_end HE G.
        have : procs c' 0 = Panic.
        { elim: T {S0 Q0 H L G Hc E2 E3 D1} (etrans (esym (E1 0)) E0) => // {}k' y y1 y2 T _ IH Hy. apply: IH.
          have Dn a p : ~ lstep (procs y 0) a p by rewrite Hy => T'; inversion T'.
          case: T => [j p Hj T'|j to' id' d' p Hj T'|j id' s' d' p u v Hj Em Hn' T'|to' m u v Ht En] //=; rewrite /upd;
            case: (0 =P j) => // E; subst j; by case: (Dn _ _ T'). }
        by rewrite D1. }
      eexists. apply: (XRoute (i := i)) Ha Eq. lia.
  - right. rewrite Ev. congr Ret. have [k' [c' [T [D1 _ _ _]]]] := run_to_end HE G.
    have : procs c' 0 = Ret v.
    { elim: T {S0 Q0 H L G Hc E2 E3 D1} (etrans (esym (E1 0)) Ev) => // {}k' y y1 y2 T _ IH Hy. apply: IH.
      have Dn a p : ~ lstep (procs y 0) a p by rewrite Hy => T'; inversion T'.
      case: T => [j p Hj T'|j to' id' d' p Hj T'|j id' s' d' p u w Hj Em Hn' T'|to' m u w Ht En] //=; rewrite /upd;
        case: (0 =P j) => // E; subst j; by case: (Dn _ _ T'). }
    rewrite D1 //. by case.
Qed.

End Ends.

(** Every execution of a protocol made of message rounds follows its plan:
    same data in every schedule, no deadlock, no leftover message. *)

From mathcomp Require Import all_ssreflect zify.
From Verif Require Import MachineModel.
Set Implicit Arguments.
Unset Strict Implicit.
Unset Printing Implicit Defensive.

Section Plan.

Variables (n : nat) (I D : eqType) (V : Type).
Hypothesis n_pos : 0 < n.
Notation proc := (proc I D V).
(** The rounds of an execution are named by a phase and the id used on the
    network; one id may be used in several phases. *)
Notation J := (prod_eqType nat_eqType I).

(** The two kinds of rounds in the code: everybody sends to everybody and
    gathers; everybody sends to a leader, who gathers and answers everybody. *)
Inductive round :=
| Exch of (nat -> nat -> D)
| Lead of nat & (nat -> D) & (nat -> D).

Variable plan : J -> round.

(** Progress of one party in one round. *)
Inductive lst :=
| XSend of nat | XGath of seq bool
| LUp | LGath of seq bool | LDown of nat | LWait.

Definition none : seq bool := nseq n false.
Definition xs (j : nat) : lst := if j == n then XGath none else XSend j.
Definition ls (j : nat) : lst := if j == n then LWait else LDown j.
Definition st0 (id : J) : lst := if plan id is Exch _ then xs 0 else LUp.

(** [foll me p O z v]: party [me]'s code [p] follows the plan through the
    rounds [O] (in order, with its progress in each), takes [z] silent steps
    and ends with [v].  Concurrent tasks stay within one phase. *)
Definition in_phase (ph : nat) (O : seq (J * lst)) : bool := all (fun e : J * lst => e.1.1 == ph) O.

Inductive foll (me : nat) : proc -> seq (J * lst) -> nat -> V -> Prop :=
| FRet v : foll me (Ret v) [::] 0 v
| FXSend id dd j k O z v : plan id = Exch dd -> j < n ->
    foll me k ((id, xs j.+1) :: O) z v ->
    foll me (Send (One j) id.2 (dd me j) k) ((id, XSend j) :: O) z v
| FXAll id dd d k O z v : plan id = Exch dd -> (forall r, r < n -> dd me r = d) ->
    foll me k ((id, XGath none) :: O) z v ->
    foll me (Send All id.2 d k) ((id, XSend 0) :: O) z v
| FXGath id dd got k O z v : plan id = Exch dd -> size got = n ->
    (forall s x, s < n -> nth None got s = Some x -> x = dd s me) ->
    foll me (k [seq dd s me | s <- iota 0 n]) O z v ->
    foll me (Gath id.2 got k) ((id, XGath [seq isSome x | x <- got]) :: O) z.+1 v
| FLUp id L up dn k O z v : plan id = Lead L up dn -> L < n ->
    foll me k ((id, if me == L then LGath none else LWait) :: O) z v ->
    foll me (Send (One L) id.2 (up me) k) ((id, LUp) :: O) z v
| FLGath id up dn got k O z v : plan id = Lead me up dn -> size got = n ->
    (forall s x, s < n -> nth None got s = Some x -> x = up s) ->
    foll me (k [seq up s | s <- iota 0 n]) ((id, ls 0) :: O) z v ->
    foll me (Gath id.2 got k) ((id, LGath [seq isSome x | x <- got]) :: O) z.+1 v
| FLDown id up dn j k O z v : plan id = Lead me up dn -> j < n ->
    foll me k ((id, ls j.+1) :: O) z v ->
    foll me (Send (One j) id.2 (dn j) k) ((id, LDown j) :: O) z v
| FLAll id up dn d k O z v : plan id = Lead me up dn -> (forall r, r < n -> dn r = d) ->
    foll me k ((id, LWait) :: O) z v ->
    foll me (Send All id.2 d k) ((id, LDown 0) :: O) z v
| FLWait id L up dn k O z v : plan id = Lead L up dn -> L < n ->
    foll me (k L (dn me)) O z v ->
    foll me (Recv id.2 k) ((id, LWait) :: O) z v
| FFork p q k ph O1 O2 O3 z1 z2 z3 v1 v2 v : in_phase ph O1 -> in_phase ph O2 ->
    foll me p O1 z1 v1 -> foll me q O2 z2 v2 -> foll me (k v1 v2) O3 z3 v ->
    foll me (Fork p q k) (O1 ++ O2 ++ O3) (z1 + z2 + z3).+1 v.

Lemma fork_inv me p q k O z v : foll me (Fork p q k) O z v ->
  exists ph O1 O2 O3 z1 z2 z3 v1 v2, [/\ O = O1 ++ O2 ++ O3 /\ z = (z1 + z2 + z3).+1,
    in_phase ph O1 /\ in_phase ph O2, foll me p O1 z1 v1, foll me q O2 z2 v2 & foll me (k v1 v2) O3 z3 v].
Proof. move=> F; inversion F; subst; by exists ph, O1, O2, O3, z1, z2, z3, v1, v2; split. Qed.

(** ** Local steps *)

Inductive sendT (me : nat) (id : J) : lst -> recipient -> D -> lst -> Prop :=
| SX dd j : plan id = Exch dd -> j < n -> sendT me id (XSend j) (One j) (dd me j) (xs j.+1)
| SXA dd d : plan id = Exch dd -> (forall r, r < n -> dd me r = d) -> sendT me id (XSend 0) All d (XGath none)
| SLU L up dn : plan id = Lead L up dn -> L < n ->
    sendT me id LUp (One L) (up me) (if me == L then LGath none else LWait)
| SLD up dn j : plan id = Lead me up dn -> j < n -> sendT me id (LDown j) (One j) (dn j) (ls j.+1)
| SLA up dn d : plan id = Lead me up dn -> (forall r, r < n -> dn r = d) -> sendT me id (LDown 0) All d LWait.

Lemma in_phase_cat ph A B : in_phase ph (A ++ B) = in_phase ph A && in_phase ph B.
Proof. exact: all_cat. Qed.

Lemma in_phase_cons ph (e : J * lst) A : in_phase ph (e :: A) = (e.1.1 == ph) && in_phase ph A.
Proof. by []. Qed.

Lemma in_phase_mid ph x y A (j : J) B : in_phase ph (A ++ (j, y) :: B) = in_phase ph (A ++ (j, x) :: B).
Proof. by rewrite !in_phase_cat. Qed.

Lemma in_phase_pre ph O1 A (j : J) x B : in_phase ph O1 -> in_phase ph (A ++ (j, x) :: B) -> in_phase j.1 (O1 ++ A).
Proof. by move=> P1; rewrite !in_phase_cat /= => /and3P[P2 /eqP -> _]; rewrite P1 P2. Qed.

Lemma foll_send me p O z v to id d p' : foll me p O z v -> lstep p (ASend to id d) p' ->
  exists (j : J) A x y B, [/\ j.2 = id /\ in_phase j.1 A, O = A ++ (j, x) :: B,
    foll me p' (A ++ (j, y) :: B) z v & sendT me j x to d y].
Proof.
move=> F S; move: O z v F; remember (ASend to id d) as a eqn:Ea.
elim: S Ea => //.
- move=> to' id' d' k [-> -> ->] O z v F; inversion F; subst.
  + by exists id0, [::], (XSend j), (xs j.+1), O0; split=> //; constructor.
  + by exists id0, [::], (XSend 0), (XGath none), O0; split=> //; econstructor; eauto.
  + by exists id0, [::], LUp, (if me == L then LGath none else LWait), O0; split=> //; econstructor; eauto.
  + by exists id0, [::], (LDown j), (ls j.+1), O0; split=> //; econstructor; eauto.
  + by exists id0, [::], (LDown 0), LWait, O0; split=> //; econstructor; eauto.
- move=> p0 a0 p1 q k S IH Ea O z v /fork_inv [ph [O1 [O2 [O3 [z1 [z2 [z3 [v1 [v2 [[-> ->] [P1 P2] F1 F2 F3]]]]]]]]]]; subst a0.
  have [j [A [x [y [B [[Ej PA] EO F' T]]]]]] := IH erefl _ _ _ F1; subst O1.
  exists j, A, x, y, (B ++ O2 ++ O3); rewrite -catA /=; split=> //.
  have P1' : in_phase ph (A ++ (j, y) :: B) by rewrite (in_phase_mid _ x).
  by have := FFork P1' P2 F' F2 F3; rewrite -catA.
- move=> p0 q a0 q1 k S IH Ea O z v /fork_inv [ph [O1 [O2 [O3 [z1 [z2 [z3 [v1 [v2 [[-> ->] [P1 P2] F1 F2 F3]]]]]]]]]]; subst a0.
  have [j [A [x [y [B [[Ej PA] EO F' T]]]]]] := IH erefl _ _ _ F2; subst O2.
  exists j, (O1 ++ A), x, y, (B ++ O3); rewrite -!catA /=; split=> //.
    by split=> //; exact: in_phase_pre P1 P2.
  have P2' : in_phase ph (A ++ (j, y) :: B) by rewrite (in_phase_mid _ x).
  by have := FFork P1 P2' F1 F' F3; rewrite -!catA.
Qed.

(** Stages waiting for a message. *)
Definition waiting (me : nat) (id : J) (x : lst) : Prop :=
  match x with
  | XGath g => (exists dd, plan id = Exch dd) /\ size g = n /\ ~~ all (fun b => b) g
  | LGath g => (exists up dn, plan id = Lead me up dn) /\ size g = n /\ ~~ all (fun b => b) g
  | LWait => exists L up dn, plan id = Lead L up dn /\ L < n
  | _ => False
  end.

(** What a receiving stage may get. *)
Inductive recvT (me : nat) (id : J) : lst -> nat -> D -> seq (J * lst) -> Prop :=
| RX dd g s : plan id = Exch dd -> s < n -> ~~ nth false g s ->
    recvT me id (XGath g) s (dd s me) [:: (id, XGath (set_nth false g s true))]
| RLG up dn g s : plan id = Lead me up dn -> s < n -> ~~ nth false g s ->
    recvT me id (LGath g) s (up s) [:: (id, LGath (set_nth false g s true))]
| RLW L up dn : plan id = Lead L up dn -> recvT me id LWait L (dn me) [::].

Lemma in_phase_recv me (j : J) x s d y ph A B : recvT me j x s d y ->
  in_phase ph (A ++ (j, x) :: B) -> in_phase ph (A ++ y ++ B).
Proof.
move=> T; rewrite !in_phase_cat in_phase_cons => /and3P[-> E ->]; rewrite /= in E.
by case: T => *; rewrite ?in_phase_cons //= E.
Qed.

Lemma isSome_set (got : seq (option D)) s d : s < size got ->
  [seq isSome x | x <- set_nth None got s (Some d)] = set_nth false [seq isSome x | x <- got] s true.
Proof.
move=> Hs; apply: (@eq_from_nth _ false).
  by rewrite !(size_map, size_set_nth).
move=> i; rewrite size_map size_set_nth => Hi; rewrite (nth_map None) ?size_set_nth // !nth_set_nth /=.
case: eqP => // _; rewrite (nth_map None) //; move: Hi; lia.
Qed.

Lemma foll_recv me p O z v id s d p' : foll me p O z v -> lstep p (ARecv id s d) p' ->
  exists (j : J) A x B, [/\ j.2 = id /\ in_phase j.1 A, O = A ++ (j, x) :: B, waiting me j x &
    forall y, recvT me j x s d y -> foll me p' (A ++ y ++ B) z v].
Proof.
move=> F S; move: O z v F; remember (ARecv id s d) as a eqn:Ea.
elim: S Ea => //.
- move=> id' k s' d' [-> -> ->] O z v F; inversion F; subst.
  exists id0, [::], LWait, O0; split=> //; first by exists L, up, dn.
  move=> y T; inversion T; subst.
  by match goal with E1 : plan _ = Lead _ _ _, E2 : plan _ = Lead _ _ _ |- _ =>
    rewrite E1 in E2; injection E2; intros; subst; assumption end.
- move=> id' got k s' d' Hn [-> -> ->] O z v F; inversion F; subst.
  + exists id0, [::], (XGath [seq isSome x | x <- got]), O0; split=> //.
      by split; [exists dd|rewrite size_map all_map].
    move=> y T; inversion T; subst.
    match goal with E1 : plan _ = Exch _, E2 : plan _ = Exch _ |- _ =>
      rewrite E1 in E2; injection E2; intros; subst; have {}E2 := E1 end.
    match goal with E1 : size got = n, E2 : is_true (s < n), E3 : is_true (~~ _), E4 : forall s x, _ |- _ =>
      move: E1 E2 E3 E4 => Hsz Hs Hnn Hg end.
    rewrite /gath_step Hsz Hs; move: Hnn; rewrite (nth_map None) ?Hsz //.
    case E: (nth None got s) => // _.
    match goal with |- foll _ (Gath _ (set_nth _ _ _ (Some ?x)) _) _ _ _ => rewrite /= -(isSome_set x) ?Hsz // end.
    econstructor; eauto.
      by rewrite size_set_nth Hsz; apply/maxn_idPr.
    move=> s0 x Hs0; rewrite nth_set_nth /=; case: eqP => [->|_]; [by case=> <-|exact: Hg].
  + exists id0, [::], (LGath [seq isSome x | x <- got]), O0; split=> //.
      by split; [exists up, dn|rewrite size_map all_map].
    move=> y T; inversion T; subst.
    match goal with E1 : plan _ = Lead _ _ _, E2 : plan _ = Lead _ _ _ |- _ =>
      rewrite E1 in E2; injection E2; intros; subst; have {}E2 := E1 end.
    match goal with E1 : size got = n, E2 : is_true (s < n), E3 : is_true (~~ _), E4 : forall s x, _ |- _ =>
      move: E1 E2 E3 E4 => Hsz Hs Hnn Hg end.
    rewrite /gath_step Hsz Hs; move: Hnn; rewrite (nth_map None) ?Hsz //.
    case E: (nth None got s) => // _.
    match goal with |- foll _ (Gath _ (set_nth _ _ _ (Some ?x)) _) _ _ _ => rewrite /= -(isSome_set x) ?Hsz // end.
    econstructor; eauto.
      by rewrite size_set_nth Hsz; apply/maxn_idPr.
    move=> s0 x Hs0; rewrite nth_set_nth /=; case: eqP => [->|_]; [by case=> <-|exact: Hg].
- move=> p0 a0 p1 q k S IH Ea O z v /fork_inv [ph [O1 [O2 [O3 [z1 [z2 [z3 [v1 [v2 [[-> ->] [P1 P2] F1 F2 F3]]]]]]]]]]; subst a0.
  have [j [A [x [B [[Ej PA] EO W F']]]]] := IH erefl _ _ _ F1; subst O1.
  exists j, A, x, (B ++ O2 ++ O3); rewrite -catA /=; split=> // y T.
  by have := FFork (in_phase_recv T P1) P2 (F' y T) F2 F3; rewrite -!catA.
- move=> p0 q a0 q1 k S IH Ea O z v /fork_inv [ph [O1 [O2 [O3 [z1 [z2 [z3 [v1 [v2 [[-> ->] [P1 P2] F1 F2 F3]]]]]]]]]]; subst a0.
  have [j [A [x [B [[Ej PA] EO W F']]]]] := IH erefl _ _ _ F2; subst O2.
  exists j, (O1 ++ A), x, (B ++ O3); rewrite -!catA /=; split=> // [|y T].
    by split=> //; exact: in_phase_pre P1 P2.
  by have := FFork P1 (in_phase_recv T P2) F1 (F' y T) F3; rewrite -!catA.
Qed.

Inductive tauT (me : nat) : seq (J * lst) -> seq (J * lst) -> Prop :=
| TNone O : tauT me O O
| TX dd id g A B : in_phase id.1 A -> plan id = Exch dd -> all (fun x => x) g -> size g = n -> tauT me (A ++ (id, XGath g) :: B) (A ++ B)
| TL up dn id g A B : in_phase id.1 A -> plan id = Lead me up dn -> all (fun x => x) g -> size g = n ->
    tauT me (A ++ (id, LGath g) :: B) (A ++ (id, ls 0) :: B).

Lemma tauT_cat me O O' ph A B : in_phase ph A -> in_phase ph O -> tauT me O O' -> tauT me (A ++ O ++ B) (A ++ O' ++ B).
Proof.
move=> PA PO T; case: T PO => [O0|dd id g A0 B0 P0 H1 H2 H3|up dn id g A0 B0 P0 H1 H2 H3] PO; first exact: TNone.
- rewrite -!catA /= !(catA A A0); apply: TX H1 H2 H3; exact: in_phase_pre PA PO.
- rewrite -!catA /= !(catA A A0); apply: TL H1 H2 H3; exact: in_phase_pre PA PO.
Qed.

Lemma in_phase_tau me O O' ph : tauT me O O' -> in_phase ph O -> in_phase ph O'.
Proof.
case=> // [dd id g A B _ _ _ _|up dn id g A B _ _ _ _]; rewrite !in_phase_cat !in_phase_cons => /and3P[-> /= E ->] //.
by rewrite E.
Qed.

Lemma pmap_full (got : seq (option D)) (f : nat -> D) m : all isSome got ->
  (forall s x, s < size got -> nth None got s = Some x -> x = f (m + s)) ->
  pmap (fun x => x) got = [seq f s | s <- iota m (size got)].
Proof.
elim: got m => [|[x|] got IH] m //= Ha Hf.
have -> : x = f m by rewrite (Hf 0 x) ?addn0.
congr (_ :: _); apply: IH => // s y Hs E; rewrite addSnnS; exact: Hf.
Qed.

Lemma foll_tau me p O z v p' : foll me p O z v -> lstep p (@ATau I D) p' ->
  exists O' z', [/\ z = z'.+1, foll me p' O' z' v & tauT me O O'].
Proof.
move=> F S; move: O z v F; remember (@ATau I D) as a eqn:Ea.
elim: S Ea => //.
- move=> id got k Ha _ O z v F; inversion F; subst.
  + exists O0, z0; split=> //.
      match goal with E1 : size got = n, E4 : forall s x, _ |- _ => rewrite (@pmap_full got (fun s => dd s me) 0) // E1 // => s x; exact: E4 end.
    apply: (@TX me dd id0 _ [::]) => //; [by rewrite all_map|by rewrite size_map].
  + exists ((id0, ls 0) :: O0), z0; split=> //.
      match goal with E1 : size got = n, E4 : forall s x, _ |- _ => rewrite (@pmap_full got up 0) // E1 // => s x; exact: E4 end.
    apply: (@TL me up dn id0 _ [::]) => //; [by rewrite all_map|by rewrite size_map].
- move=> p0 a0 p1 q k S IH Ea O z v /fork_inv [ph [O1 [O2 [O3 [z1 [z2 [z3 [v1 [v2 [[-> ->] [P1 P2] F1 F2 F3]]]]]]]]]]; subst a0.
  have [O' [z' [-> F' T]]] := IH erefl _ _ _ F1.
  exists (O' ++ O2 ++ O3), (z' + z2 + z3).+1; split; first lia.
    exact: FFork (in_phase_tau T P1) P2 F' F2 F3.
  exact: (@tauT_cat me O1 O' ph [::]).
- move=> p0 q a0 q1 k S IH Ea O z v /fork_inv [ph [O1 [O2 [O3 [z1 [z2 [z3 [v1 [v2 [[-> ->] [P1 P2] F1 F2 F3]]]]]]]]]]; subst a0.
  have [O' [z' [-> F' T]]] := IH erefl _ _ _ F2.
  exists (O1 ++ O' ++ O3), (z1 + z' + z3).+1; split; first lia.
    exact: FFork P1 (in_phase_tau T P2) F1 F' F3.
  exact: tauT_cat P1 P2 T.
- move=> a0 b0 k _ O z v /fork_inv [ph [O1 [O2 [O3 [z1 [z2 [z3 [v1 [v2 [[-> ->] [P1 P2] F1 F2 F3]]]]]]]]]]; inversion F1; inversion F2; subst.
  by exists O3, z3; split=> //; exact: TNone.
- move=> q k _ O z v /fork_inv [ph [O1 [O2 [O3 [z1 [z2 [z3 [v1 [v2 [[-> ->] [P1 P2] F1 F2 F3]]]]]]]]]]; inversion F1.
- move=> p0 k _ O z v /fork_inv [ph [O1 [O2 [O3 [z1 [z2 [z3 [v1 [v2 [[-> ->] [P1 P2] F1 F2 F3]]]]]]]]]]; inversion F2.
Qed.

(** What the code can do next. *)
Lemma foll_next me p O z v : foll me p O z v ->
  [\/ p = Ret v /\ O = [::] /\ z = 0,
      exists p', lstep p (@ATau I D) p',
      exists to id d p', lstep p (ASend to id d) p' |
      exists (id : J) x O', [/\ O = (id, x) :: O', waiting me id x & forall s d, exists p', lstep p (ARecv id.2 s d) p']].
Proof.
elim=> {p O z v}.
- by move=> v; constructor 1.
- move=> *; constructor 3; do 4 eexists; constructor.
- move=> *; constructor 3; do 4 eexists; constructor.
- move=> id dd got k O z v Hp Hs Hg F _; case Ha: (all isSome got).
    by constructor 2; eexists; apply: LGathDone.
  constructor 4; exists id, (XGath [seq isSome x | x <- got]), O; split=> //.
    by split; [exists dd|split; rewrite ?size_map ?all_map // -?Ha; apply/negbT].
  by move=> s d; eexists; apply: LGathMsg; rewrite Ha.
- move=> *; constructor 3; do 4 eexists; constructor.
- move=> id up dn got k O z v Hp Hs Hg F _; case Ha: (all isSome got).
    by constructor 2; eexists; apply: LGathDone.
  constructor 4; exists id, (LGath [seq isSome x | x <- got]), O; split=> //.
    by split; [exists up, dn|split; rewrite ?size_map ?all_map // -?Ha; apply/negbT].
  by move=> s d; eexists; apply: LGathMsg; rewrite Ha.
- move=> *; constructor 3; do 4 eexists; constructor.
- move=> *; constructor 3; do 4 eexists; constructor.
- move=> id L up dn k O z v Hp HL F _; constructor 4; exists id, LWait, O; split=> //; first by exists L, up, dn.
  by move=> s d; eexists; constructor.
- move=> p q k ph O1 O2 O3 z1 z2 z3 v1 v2 v P1 P2 F1 IH1 F2 IH2 F3 _.
  case: IH1 => [[E1 [E2 E3]]|[p' S]|[to [id [d [p' S]]]]|[id [x [O' [E W S]]]]].
  + case: IH2 => [[E4 [E5 E6]]|[p' S]|[to [id [d [p' S]]]]|[id [x [O' [E W S]]]]].
    * by constructor 2; rewrite E1 E4; eexists; constructor.
    * by constructor 2; eexists; apply: LForkR S.
    * by constructor 3; do 4 eexists; apply: LForkR S.
    * constructor 4; exists id, x, (O' ++ O3); rewrite E2 E; split=> // s d.
      by have [p' S'] := S s d; eexists; apply: LForkR S'.
  + by constructor 2; eexists; apply: LForkL S.
  + by constructor 3; do 4 eexists; apply: LForkL S.
  + constructor 4; exists id, x, (O' ++ O2 ++ O3); rewrite E; split=> // s d.
    by have [p' S'] := S s d; eexists; apply: LForkL S'.
Qed.

(** ** The messages that exist *)

Fixpoint st (O : seq (J * lst)) (id : J) : option lst :=
  if O is e :: O' then if e.1 == id then Some e.2 else st O' id else None.

Lemma st_mid A id x B : id \notin [seq e.1 | e <- A] -> st (A ++ (id, x) :: B) id = Some x.
Proof. by elim: A => [|e A IH] /=; rewrite ?eqxx // in_cons negb_or eq_sym => /andP[/negbTE -> /IH]. Qed.

Lemma st_other A id x B id' : id' != id -> st (A ++ (id, x) :: B) id' = st (A ++ B) id'.
Proof. by move=> H; elim: A => [|e A IH] /=; [rewrite eq_sym (negbTE H)|rewrite IH]. Qed.

Lemma st_none O id : id \notin [seq e.1 | e <- O] -> st O id = None.
Proof. by elim: O => [|e O IH] //=; rewrite in_cons negb_or eq_sym => /andP[/negbTE -> /IH]. Qed.

Lemma st_in O id : id \in [seq e.1 | e <- O] -> exists x, st O id = Some x.
Proof.
elim: O => [|e O IH] //=; rewrite in_cons eq_sym; case: eqP => [_ _|_ /= /IH //]; by exists e.2.
Qed.

(** Tokens: [Some s] is the message of [s] in the first half of a round,
    [None] the leader's answer. *)
Definition toks : seq (option nat) := None :: [seq Some s | s <- iota 0 n].

Definition xsent (so : option lst) (r : nat) : bool := if so is Some (XSend j) then r < j else true.
Definition xcons (so : option lst) (s : nat) : bool :=
  match so with Some (XSend _) => false | Some (XGath g) => nth false g s | _ => true end.
Definition usent (so : option lst) : bool := if so is Some LUp then false else true.
Definition ucons (so : option lst) (s : nat) : bool :=
  match so with Some LUp => false | Some (LGath g) => nth false g s | _ => true end.
Definition dsent (so : option lst) (r : nat) : bool :=
  match so with Some LUp | Some (LGath _) => false | Some (LDown j) => r < j | _ => true end.
Definition dcons (so : option lst) : bool := if so is None then true else false.

Definition tsent (rd : round) (S : nat -> option lst) (r : nat) (t : option nat) : bool :=
  match rd, t with
  | Exch _, Some s => xsent (S s) r
  | Exch _, None => false
  | Lead L _ _, Some s => (r == L) && usent (S s)
  | Lead L _ _, None => dsent (S L) r
  end.
Definition tcons (rd : round) (S : nat -> option lst) (r : nat) (t : option nat) : bool :=
  match rd, t with
  | Exch _, Some s => xcons (S r) s
  | Exch _, None => false
  | Lead L _ _, Some s => (r == L) && ucons (S r) s
  | Lead L _ _, None => dcons (S r)
  end.
Definition payload (rd : round) (r : nat) (t : option nat) : nat * D :=
  match rd, t with
  | Exch dd, Some s => (s, dd s r)
  | Exch dd, None => (0, dd 0 0)
  | Lead L up dn, Some s => (s, up s)
  | Lead L up dn, None => (L, dn r)
  end.
Definition expected (rd : round) (S : nat -> option lst) (r : nat) : seq (nat * D) :=
  [seq payload rd r t | t <- toks & tsent rd S r t && ~~ tcons rd S r t].

Lemma toks_uniq : uniq toks.
Proof.
rewrite /toks /= map_inj_uniq ?iota_uniq ?andbT; last by move=> x y [].
by apply/mapP => -[].
Qed.

Lemma toks_some s : (Some s \in toks) = (s < n).
Proof. by rewrite /toks in_cons /= mem_map ?mem_iota //; move=> x y []. Qed.

Lemma filter_flip (T : eqType) (l : seq T) (p p' : pred T) t0 : uniq l -> t0 \in l ->
  ~~ p t0 -> p' t0 -> (forall t, t \in l -> t != t0 -> p' t = p t) ->
  perm_eq (filter p' l) (t0 :: filter p l).
Proof.
move=> U Hin Hp Hp' E; apply: uniq_perm.
- exact: filter_uniq.
- by rewrite /= filter_uniq // andbT mem_filter (negbTE Hp).
- move=> t; rewrite in_cons !mem_filter; case: eqP => [->|/eqP Ht] /=; first by rewrite Hp' Hin.
  by case Ht': (t \in l); rewrite ?andbF // !andbT E.
Qed.

(** A party moves without sending or receiving. *)
Definition quiet rd (S S' : nat -> option lst) : Prop :=
  forall r t, r < n -> t \in toks -> tsent rd S' r t = tsent rd S r t /\ tcons rd S' r t = tcons rd S r t.

Lemma quiet_expected rd S S' r : quiet rd S S' -> r < n -> expected rd S' r = expected rd S r.
Proof.
by move=> Q Hr; rewrite /expected; congr map; apply: eq_in_filter => t Ht; have [-> ->] := Q r t Hr Ht.
Qed.

Lemma nth_none s : nth false none s = false.
Proof. by rewrite /none nth_nseq if_same. Qed.

Lemma send_tokens i id x to d y S S' : sendT i id x to d y -> i < n -> S i = Some x ->
  (forall s, S' s = if s == i then Some y else S s) ->
  forall r, r < n ->
    (forall t, t \in toks -> tcons (plan id) S' r t = tcons (plan id) S r t) /\
    ([seq m.2.2 | m <- outgoing n i to id d & m.1 == r] = [::] /\
       (forall t, t \in toks -> tsent (plan id) S' r t = tsent (plan id) S r t) \/
     exists t0, [/\ t0 \in toks, ~~ tsent (plan id) S r t0, tsent (plan id) S' r t0,
       forall t, t \in toks -> t != t0 -> tsent (plan id) S' r t = tsent (plan id) S r t &
       [seq m.2.2 | m <- outgoing n i to id d & m.1 == r] = [:: payload (plan id) r t0]]).
Proof.
move=> T Hi Hx HS r Hr.
have xsE j r' : r' < n -> j < n -> xsent (Some (xs j.+1)) r' = (r' < j.+1).
  move=> H H'; rewrite /xs; case: eqP => //= E; apply/esym; lia.
have xcE j s : xcons (Some (xs j.+1)) s = false by rewrite /xs; case: eqP => //= _; exact: nth_none.
case: T Hx HS => [dd j Hp Hj|dd d' Hp Hd|L up dn Hp HL|up dn j Hp Hj|up dn d' Hp Hd] Hx HS; rewrite Hp /=.
- split.
    by move=> [s|] //= _; rewrite HS; case: eqP => [->|] //; rewrite Hx xcE.
  case: (eqVneq j r) => [<-|Hne] /=; [right|left].
    exists (Some i); rewrite toks_some /tsent HS eqxx Hx xsE // [xsent (Some (XSend j)) j]/= ltnn leqnn; split=> //.
    by move=> [s|] //= _ Hs; rewrite HS; case: eqP => // E; rewrite E eqxx in Hs.
  split=> // -[s|] //= _; rewrite HS; case: eqP => // ->; rewrite Hx xsE // ltnS leq_eqVlt.
  by rewrite eq_sym (negbTE Hne).
- split.
    by move=> [s|] //= _; rewrite HS; case: eqP => [->|] //; rewrite Hx /= nth_none.
  right; exists (Some i); rewrite toks_some HS eqxx Hx /= Hd //; split=> //.
    by move=> [s|] //= _ Hs; rewrite HS; case: eqP => // E; rewrite E eqxx in Hs.
  rewrite filter_map -map_comp /=.
  have -> : [seq x <- iota 0 n | preim (fun r0 => (r0, (id, (i, d')))) (fun m => m.1 == r) x] = [:: r].
    rewrite (eq_filter (a2 := pred1 r)) //; apply: filter_pred1_uniq; [exact: iota_uniq|by rewrite mem_iota].
  by [].
- split.
    case=> [s|] //= _; rewrite HS; case: (eqVneq r i) => [->|] //=; rewrite Hx //=.
      by case: (eqVneq i L) => //= _; rewrite nth_none.
  case: (eqVneq L r) => [E|Hne] /=; [right|left].
    exists (Some i); rewrite toks_some /tsent HS !eqxx Hx E /= ?andbF; split=> //.
    + by case: (i == r).
    + case=> [s|] /= _ Hs; rewrite HS; case: eqP => // Ei; first by rewrite Ei eqxx in Hs.
      by rewrite Ei Hx E Ei eqxx.
  split=> // -[s|] //= _; rewrite HS.
  by case: eqP => // ->; rewrite Hx eqxx.
- have lsU : usent (Some (ls j.+1)) by rewrite /ls; case: eqP.
  have lsC s : ucons (Some (ls j.+1)) s by rewrite /ls; case: eqP.
  have lsD r' : r' < n -> dsent (Some (ls j.+1)) r' = (r' < j.+1).
    by move=> H; rewrite /ls; case: eqP => //= E; apply/esym; lia.
  have uE s : usent (S' s) = usent (S s) by rewrite HS; case: eqP => // ->; rewrite Hx lsU.
  split.
    case=> [s|] //= _; rewrite HS; case: (eqVneq r i) => [->|] //=; rewrite Hx //=; exact: lsC.
  case: (eqVneq j r) => [<-|Hne] /=; [right|left].
    exists None; rewrite in_cons eqxx /tsent HS eqxx Hx lsD // [dsent (Some (LDown j)) j]/= ltnn leqnn; split=> //.
    by move=> [s|] //= _ _; rewrite uE.
  split=> // -[s|] /= _; first by rewrite uE.
  by rewrite HS eqxx Hx lsD // ltnS leq_eqVlt eq_sym (negbTE Hne).
- have uE s : usent (S' s) = usent (S s) by rewrite HS; case: eqP => // ->; rewrite Hx.
  split.
    by case=> [s|] //= _; rewrite HS; case: (eqVneq r i) => [->|] //=; rewrite Hx.
  right; exists None; rewrite in_cons eqxx HS eqxx Hx /= Hd //; split=> //.
    by move=> [s|] //= _ _; rewrite uE.
  rewrite filter_map -map_comp /=.
  have -> : [seq x <- iota 0 n | preim (fun r0 => (r0, (id, (i, d')))) (fun m => m.1 == r) x] = [:: r].
    rewrite (eq_filter (a2 := pred1 r)) //; apply: filter_pred1_uniq; [exact: iota_uniq|by rewrite mem_iota].
  by [].
Qed.

Definition st1 (y : seq (J * lst)) : option lst := ohead [seq e.2 | e <- y].

Lemma recv_tokens i id x S s d : waiting i id x -> S i = Some x -> i < n ->
  (s, d) \in expected (plan id) S i ->
  exists y t0, [/\ recvT i id x s d y, t0 \in toks, tsent (plan id) S i t0 && ~~ tcons (plan id) S i t0,
    payload (plan id) i t0 = (s, d) &
    forall S', (forall s', S' s' = if s' == i then st1 y else S s') ->
    [/\ forall r t, r < n -> t \in toks -> tsent (plan id) S' r t = tsent (plan id) S r t,
        tcons (plan id) S' i t0 &
        forall r t, r < n -> t \in toks -> (r, t) != (i, t0) ->
          tcons (plan id) S' r t = tcons (plan id) S r t]].
Proof.
move=> W Hx Hi /mapP [t]; rewrite mem_filter => /andP[/andP[Hs Hc] Ht] E.
case: x W Hx => //=.
- move=> g [[dd Hp] [Hg Hn]] Hx; rewrite Hp in Hs Hc E *; case: t Ht Hs Hc E => // s' Ht Hs Hc [? ?]; subst s' d.
  rewrite toks_some in Ht; move: Hc; rewrite /= Hx /= => Hc.
  exists [:: (id, XGath (set_nth false g s true))], (Some s); split=> //.
  + exact: RX.
  + by rewrite toks_some.
  + by apply/andP; split.
  move=> S' HS; split.
  + move=> r [s'|] //= Hr _; rewrite HS; case: eqP => // ->; by rewrite Hx.
  + by rewrite HS eqxx /= nth_set_nth /= eqxx.
  + move=> r [s'|] //= Hr _; rewrite HS; case: (eqVneq r i) => [->|] //= Hne; rewrite Hx /= nth_set_nth /=.
    by case: eqP => // E; rewrite E eqxx in Hne.
- move=> g [[up [dn Hp]] [Hg Hn]] Hx; rewrite Hp in Hs Hc E *; case: t Ht Hs Hc E => [s'|] Ht Hs Hc; last first.
    by move: Hs; rewrite /= Hx.
  case=> ? ?; subst s' d; rewrite toks_some in Ht; move: Hc; rewrite /= Hx /= eqxx /= => Hc.
  exists [:: (id, LGath (set_nth false g s true))], (Some s); split=> //.
  + exact: RLG Hp _ _.
  + by rewrite toks_some.
  + by move: Hs; rewrite /= eqxx /= => ->.
  move=> S' HS; split.
  + move=> r [s'|] /= Hr _; rewrite HS; first by case: (eqVneq s' i) => // ->; rewrite Hx.
    by rewrite eqxx.
  + by rewrite HS eqxx /= nth_set_nth /= eqxx.
  + move=> r [s'|] /= Hr _; rewrite HS; case: (eqVneq r i) => [->|] //= Hne; rewrite Hx //= nth_set_nth /=.
    by case: eqP => // E; rewrite E eqxx in Hne.
- move=> [L [up [dn [Hp HL]]]] Hx; rewrite Hp in Hs Hc E *; case: t Ht Hs Hc E => [s'|] Ht Hs Hc.
    by move: Hs Hc; rewrite /= Hx /= andbT; case: (i == L).
  case=> ? ?; subst s d.
  exists [::], None; split=> //; first exact: RLW Hp; first by apply/andP.
  move=> S' HS; split.
  + move=> r [s'|] /= Hr _; rewrite HS.
      by case: (eqVneq s' i) => // ->; rewrite Hx.
    by case: (eqVneq L i) => // ->; rewrite Hx.
  + by rewrite /= HS eqxx.
  + move=> r [s'|] /= Hr _; rewrite HS; case: (eqVneq r i) => [->|] //= Hne; last by rewrite eqxx in Hne.
    by rewrite Hx.
Qed.

Lemma tau_tokens i O O' id S S' : tauT i O O' -> uniq [seq e.1 | e <- O] ->
  S i = st O id -> (forall s, S' s = if s == i then st O' id else S s) -> quiet (plan id) S S'.
Proof.
case=> [O0|dd id' g A B _ Hp Hg Hsz|up dn id' g A B _ Hp Hg Hsz] U Hi HS r t Hr Ht.
- have E : forall s, S' s = S s by move=> s; rewrite HS; case: eqP => // ->.
  by case: (plan id) t Ht => [dd|L up dn] [s|] _ //=; rewrite !E.
- have gt s : Some s \in toks -> nth false g s.
    rewrite toks_some => Hs; move/all_nthP: Hg => Hg; apply: Hg; by rewrite Hsz.
  have N : id' \notin [seq e.1 | e <- A] /\ id' \notin [seq e.1 | e <- B].
    by move: U; rewrite map_cat cat_uniq /= negb_or => /and3P[_ /andP[-> _] /andP[-> _]].
  case: (eqVneq id id') => [E|Hne]; last first.
    have E : forall s, S' s = S s by move=> s; rewrite HS; case: eqP => // ->; rewrite Hi st_other.
    by case: (plan id) t Ht => [dd0|L up dn] [s|] _ //=; rewrite !E.
  subst id'; have [N1 N2] := N.
  rewrite st_mid // in Hi; have HN : st (A ++ B) id = None by rewrite st_none // map_cat mem_cat negb_or N1.
  rewrite Hp; case: t Ht => [s|] Ht //=; rewrite !HS HN; split.
    by case: eqP => // ->; rewrite Hi.
  by case: eqP => // ->; rewrite Hi /= gt.
- have gt s : Some s \in toks -> nth false g s.
    rewrite toks_some => Hs; move/all_nthP: Hg => Hg; apply: Hg; by rewrite Hsz.
  have N : id' \notin [seq e.1 | e <- A].
    by move: U; rewrite map_cat cat_uniq /= negb_or => /and3P[_ /andP[-> _] _].
  case: (eqVneq id id') => [E|Hne]; last first.
    have E : forall s, S' s = S s by move=> s; rewrite HS; case: eqP => // ->; rewrite Hi !st_other.
    by case: (plan id) t Ht => [dd0|L up0 dn0] [s|] _ //=; rewrite !E.
  subst id'; rewrite st_mid // in Hi; rewrite st_mid // in HS.
  have l0 : ls 0 = LDown 0 by rewrite /ls; case: eqP => // E; move: (n_pos); rewrite -E.
  rewrite l0 in HS.
  rewrite Hp; case: t Ht => [s|] Ht /=; rewrite !HS; split=> //.
  + by case: (eqVneq s i) => // ->; rewrite Hi.
  + by case: (eqVneq r i) => //= ->; rewrite Hi /= gt.
  + by rewrite eqxx Hi.
  + by case: (eqVneq r i) => //= ->; rewrite Hi.
Qed.

(** ** The invariant *)

Variables (ids : seq J) (res : nat -> V).

(** Phases come in order, none is left out, and an id is used again after one
    other phase at the earliest. *)
Record phased (js : seq J) : Prop := Phased {
  ph_uniq : uniq js;
  ph_sorted : sorted leq [seq j.1 | j <- js];
  ph_apart : forall a b, a \in js -> b \in js -> a.2 = b.2 -> a.1 < b.1 -> a.1.+1 < b.1;
  ph_full : forall a b ph, a \in js -> b \in js -> a.1 < ph < b.1 -> exists2 j, j \in js & j.1 = ph }.

Hypothesis ids_ok : phased ids.
Let ids_uniq := ph_uniq ids_ok.

(** The messages with the round they belong to. *)
Notation gnet := (seq (nat * (J * (nat * D)))).
Notation gbox := (nat -> seq (J * (nat * D))).
Definition bare (m : J * (nat * D)) : I * (nat * D) := (m.1.2, m.2).
Definition bare_net (m : nat * (J * (nat * D))) : nat * (I * (nat * D)) := (m.1, bare m.2).

Definition msgs (gn : gnet) (gm : gbox) (r : nat) (id : J) : seq (nat * D) :=
  [seq m.2 | m <- gm r & m.1 == id] ++
  [seq m.2.2 | m <- gn & (m.1 == r) && (m.2.1 == id)].

Definition sto (O : nat -> seq (J * lst)) (id : J) (s : nat) : option lst := st (O s) id.

(** While a party has a round of one phase to finish, it has not started the
    rounds of later phases. *)
Definition later (O : seq (J * lst)) : Prop :=
  forall (a b : J) x, a \in ids -> b \in ids -> a.1 < b.1 -> st O a = Some x -> st O b = Some (st0 b).

Record inv (c : cfg I D V) (gn : gnet) (gm : gbox) (O : nat -> seq (J * lst)) (z : nat -> nat) : Prop := Inv {
  iF : forall i, i < n -> foll i (procs c i) (O i) (z i) (res i);
  iU : forall i, i < n -> subseq [seq e.1 | e <- O i] ids;
  iC : forall id r t, r < n -> t \in toks -> tcons (plan id) (sto O id) r t -> tsent (plan id) (sto O id) r t;
  iM : forall id r, r < n -> perm_eq (msgs gn gm r id) (expected (plan id) (sto O id) r);
  iN : all (fun m : nat * (J * (nat * D)) => m.1 < n) gn;
  iP : forall i, i < n -> later (O i);
  iX : forall i id, n <= i -> id \in ids -> sto O id i = Some (st0 id);
  iG : net c = [seq bare_net m | m <- gn];
  iB : forall i, i < n -> mbox c i = [seq bare m | m <- gm i] }.

(** Steps remaining. *)
Definition w (x : lst) : nat :=
  match x with
  | XSend j => 2 * (n - j) + n
  | XGath g => count (fun b => ~~ b) g
  | LUp => 3 * n + 3
  | LGath g => count (fun b => ~~ b) g + 2 * n + 1
  | LDown j => 2 * (n - j) + 1
  | LWait => 1
  end.
Definition ww (O : seq (J * lst)) : nat := sumn [seq w e.2 | e <- O].
Definition measure (c : cfg I D V) (O : nat -> seq (J * lst)) (z : nat -> nat) : nat :=
  \sum_(i < n) (z i + ww (O i)) + size (net c).

Lemma ww_cat A B : ww (A ++ B) = ww A + ww B.
Proof. by rewrite /ww map_cat sumn_cat. Qed.
Lemma ww_cons e A : ww (e :: A) = w e.2 + ww A.
Proof. by []. Qed.

Lemma count_none : count (fun b => ~~ b) none = n.
Proof. by rewrite count_nseq /= mul1n. Qed.

Lemma w_xs j : j <= n -> w (xs j) = 2 * (n - j) + n.
Proof. by move=> Hj; rewrite /xs; case: eqP => [->|] //=; rewrite count_none subnn. Qed.
Lemma w_ls j : j <= n -> w (ls j) = 2 * (n - j) + 1.
Proof. by move=> Hj; rewrite /ls; case: eqP => [->|] //=; rewrite subnn. Qed.

Lemma w_send i id x to d y : sendT i id x to d y -> w y + size (outgoing n i to id d) < w x.
Proof.
case=> [dd j _ Hj|dd d' _ _|L up dn _ _|up dn j _ Hj|up dn d' _ _] /=.
- rewrite w_xs //; lia.
- rewrite count_none size_map size_iota; move: n_pos; lia.
- case: eqP => _ /=; rewrite ?count_none; move: n_pos; lia.
- rewrite w_ls //; lia.
- rewrite size_map size_iota; move: n_pos; lia.
Qed.

Lemma count_set g s : s < size g -> ~~ nth false g s ->
  count (fun b => ~~ b) (set_nth false g s true) < count (fun b => ~~ b) g.
Proof. by elim: g s => [|b g IH] [|s] //=; [case: b|move=> H1 H2; have := IH s H1 H2; lia]. Qed.

Lemma w_recv i id x s d y : waiting i id x -> recvT i id x s d y -> ww y < w x.
Proof.
move=> W T; case: T W => [dd g s' Hp Hs Hg|up dn g s' Hp Hs Hg|L up dn Hp] W; rewrite /ww /= ?addn0 //.
- apply: count_set => //; by case: W => _ [-> _].
- have := @count_set g s' _ Hg; case: W => _ [-> _] /(_ Hs); lia.
Qed.

Lemma w_tau i O O' : tauT i O O' -> ww O' <= ww O.
Proof.
case=> [O0|dd id g A B _ _ _|up dn id g A B _ _ _] //; rewrite !ww_cat !ww_cons /=; first lia.
by rewrite w_ls //; lia.
Qed.

Lemma sum_upd (F F' : nat -> nat) i a : i < n -> (forall j, j != i -> F' j = F j) ->
  F' i + a <= F i -> \sum_(j < n) F' j + a <= \sum_(j < n) F j.
Proof.
move=> Hi E H; rewrite (bigD1 (Ordinal Hi)) //= [X in _ <= X](bigD1 (Ordinal Hi)) //=.
rewrite (eq_bigr (fun j : 'I_n => F j)); last by move=> j Hj; rewrite E.
by move: H; set X := \sum_(_ < _ | _) _; lia.
Qed.

Lemma upd_eq T (f : nat -> T) i x : upd f i x i = x.
Proof. by rewrite /upd eqxx. Qed.
Lemma upd_ne T (f : nat -> T) i x j : j != i -> upd f i x j = f j.
Proof. by rewrite /upd => /negbTE ->. Qed.

Lemma meas_upd O z z' i O' a : i < n -> (forall j, j != i -> z' j = z j) ->
  z' i + ww O' + a <= z i + ww (O i) ->
  \sum_(j < n) (z' j + ww (upd O i O' j)) + a <= \sum_(j < n) (z j + ww (O j)).
Proof.
move=> Hi Hz H; apply: (@sum_upd (fun j => z j + ww (O j)) (fun j => z' j + ww (upd O i O' j)) i) => //.
  by move=> j Hj; rewrite upd_ne // Hz.
by rewrite upd_eq.
Qed.


(** ** Phases *)

Lemma st_some_in O id x : st O id = Some x -> id \in [seq e.1 | e <- O].
Proof. by case E: (id \in _) => //; rewrite st_none // E. Qed.

Lemma ids_sorted (O : seq (J * lst)) : subseq [seq e.1 | e <- O] ids -> sorted leq [seq j.1 | j <- [seq e.1 | e <- O]].
Proof.
move=> S; have {}S := map_subseq (fun j : J => j.1) S.
by apply: (subseq_sorted leq_trans S); exact: (ph_sorted ids_ok).
Qed.

(** The current phase is the first one on the list. *)
Lemma phase_ge A (j : J) y B (a : J) : in_phase j.1 A ->
  subseq [seq e.1 | e <- A ++ (j, y) :: B] ids -> a \in [seq e.1 | e <- A ++ (j, y) :: B] -> j.1 <= a.1.
Proof.
move=> PA /ids_sorted S; have {}PA : all (fun a : J => a.1 == j.1) [seq e.1 | e <- A] by rewrite all_map.
rewrite map_cat mem_cat in_cons /= => /or3P[Ha|/eqP ->|Ha] //.
- by move/allP: PA => /(_ a Ha) /eqP ->.
- move: S; rewrite !map_cat /= => /cat_sorted2 [_]; rewrite /= (path_sortedE leq_trans) => /andP[/allP Hall _].
  by apply: Hall; apply: map_f.
Qed.

(** A party works on rounds of its current phase only. *)
Lemma later_step A (j : J) x y B : in_phase j.1 A -> subseq [seq e.1 | e <- A ++ (j, x) :: B] ids ->
  y = [::] \/ (exists x', y = [:: (j, x')]) -> later (A ++ (j, x) :: B) -> later (A ++ y ++ B).
Proof.
move=> PA SU Hy L a b v Ha Hb Hab Sa.
have U := subseq_uniq SU ids_uniq.
have Ina : a \in [seq e.1 | e <- A ++ (j, x) :: B].
  have := st_some_in Sa; rewrite !map_cat !mem_cat /= in_cons.
  by case: Hy => [->|[x' ->]] //=; rewrite ?in_cons ?in_nil ?orbF => /orP[->|/= ->]; rewrite ?orbT.
have [v' Sa'] := st_in Ina.
have Hb' : b != j by apply/eqP => E; have := phase_ge PA SU Ina; rewrite -E leqNgt Hab.
have := L a b v' Ha Hb Hab Sa'; rewrite st_other // => <-.
by case: Hy => [->|[x' ->]] //=; rewrite st_other.
Qed.

(** A party that has started a round has finished those of earlier phases. *)
Definition begun (so : option lst) (j : J) : Prop := so <> Some (st0 j).

Lemma st0_exch (j : J) dd : plan j = Exch dd -> st0 j = XSend 0.
Proof. by move=> Hp; rewrite /st0 Hp /xs ifF //; apply/eqP => E; move: n_pos; rewrite -E. Qed.
Lemma st0_lead (j : J) L up dn : plan j = Lead L up dn -> st0 j = LUp.
Proof. by move=> Hp; rewrite /st0 Hp. Qed.

Lemma sent_begun c gn gm O z (j : J) r t : inv c gn gm O z -> j \in ids -> t \in toks ->
  tsent (plan j) (sto O j) r t -> exists2 s, s < n & begun (sto O j s) j.
Proof.
move=> HI Hj Ht; rewrite /begun; case Hp: (plan j) t Ht => [dd|L up dn] [s|] //; rewrite ?toks_some => Hs /= St.
- by exists s => //; rewrite (st0_exch Hp) => E; rewrite E in St.
- by exists s => //; rewrite (st0_lead Hp) => E; rewrite E andbF in St.
- case: (ltnP L n) => HL; last by rewrite (iX HI HL Hj) (st0_lead Hp) in St.
  by exists L => //; rewrite (st0_lead Hp) => E; rewrite E in St.
Qed.

Lemma finished_begun c gn gm O z (j : J) s : inv c gn gm O z -> j \in ids -> s < n -> sto O j s = None ->
  forall i, i < n -> begun (sto O j i) j.
Proof.
move=> HI Hj Hs E i Hi; rewrite /begun; case Hp: (plan j) => [dd|L up dn].
- have := @iC _ _ _ _ _ HI j s (Some i) Hs; rewrite toks_some Hp /= E /= => /(_ Hi isT).
  by rewrite (st0_exch Hp) => H E'; rewrite E' in H.
- have := @iC _ _ _ _ _ HI j s None Hs; rewrite in_cons Hp /= E /= => /(_ isT isT) H.
  case: (ltnP L n) => HL; last by rewrite (iX HI HL Hj) (st0_lead Hp) in H.
  have := @iC _ _ _ _ _ HI j L (Some i) HL; rewrite toks_some Hp /= eqxx /= => /(_ Hi) H'.
  rewrite (st0_lead Hp) => E'; rewrite E' in H'; apply: notF; apply: H'.
  by case: (sto O j L) H => [[]|].
Qed.

(** What a party receives on an id belongs to the round it is in. *)
Lemma coherent c gn gm O z i A (j : J) x B m : inv c gn gm O z -> i < n ->
  O i = A ++ (j, x) :: B -> in_phase j.1 A -> m \in gm i -> m.1.2 = j.2 -> m.1 = j.
Proof.
move=> HI Hi EO PA Hm Em; set j' := m.1 in Em *.
have : m.2 \in expected (plan j') (sto O j') i.
  rewrite -(perm_mem (iM HI j' Hi)) /msgs mem_cat; apply/orP; left; apply: map_f; by rewrite mem_filter eqxx.
case/mapP => t; rewrite mem_filter => /andP[/andP[St Ct] Ht] _.
have [y Sy] : exists y, sto O j' i = Some y.
  case E: (sto O j' i) => [y|]; first by exists y.
  by move: St Ct; case: (plan j') t {Ht} => [dd|L up dn] [s|] //=; rewrite E //= andbT; case: (_ == _).
have Hj' : j' \in ids by apply: (mem_subseq (iU HI Hi)); exact: st_some_in Sy.
have SU := iU HI Hi; rewrite EO in SU.
have Hj : j \in ids by apply: (mem_subseq SU); rewrite map_cat mem_cat /= in_cons eqxx orbT.
have U := subseq_uniq SU ids_uniq.
have Sj : sto O j i = Some x.
  rewrite /sto EO st_mid //; by move: U; rewrite map_cat cat_uniq /= negb_or => /and3P[_ /andP[-> _] _].
have : j.1 <= j'.1.
  by apply: (phase_ge PA SU); move: Sy; rewrite /sto EO => /st_some_in.
rewrite leq_eqVlt => /orP[/eqP E1|Hlt].
  by case: (j) (j') E1 Em => [a b] [a' b'] /= -> ->.
have Hap := ph_apart ids_ok Hj Hj' (esym Em) Hlt.
have [k Hk Ek] := ph_full ids_ok Hj Hj' (ph := j.1.+1) (introT andP (conj (ltnSn _) Hap)).
have [s Hs Bs] := sent_begun HI Hj' Ht St.
have Ns : sto O k s = None.
  case E: (sto O k s) => [u|] //; case: Bs; apply: (iP HI Hs Hk Hj' _ E); by rewrite Ek.
case: (finished_begun HI Hk Hs Ns Hi); apply: (iP HI Hi Hj Hk _ Sj); by rewrite Ek.
Qed.

Lemma drop_arith a b c d e : a < d -> b + (c + (a + e)) < b + (c + (d + e)).
Proof. lia. Qed.

Lemma ge_ne j i : n <= j -> i < n -> j != i.
Proof. move=> Hj Hi; apply/eqP => E; move: Hj; by rewrite E leqNgt Hi. Qed.

Lemma map_mid (S T : Type) (f : S -> T) l a y b : [seq f x | x <- l] = a ++ y :: b ->
  exists a' x b', [/\ l = a' ++ x :: b', map f a' = a, f x = y & map f b' = b].
Proof.
elim: l a => [|u l IH] [|v a] //= [<- E].
  by exists [::], u, l.
by have [a' [x [b' [-> <- <- <-]]]] := IH _ E; exists (u :: a'), x, b'.
Qed.

Lemma bare_out i to (j : J) (d : D) : [seq bare_net m | m <- outgoing n i to j d] = outgoing n i to j.2 d.
Proof. by case: to => [r|] //=; rewrite -map_comp. Qed.

(** What a step sends is on the network afterwards. *)
Definition arises (gn : gnet) (O O' : nat -> seq (J * lst)) : Prop :=
  forall id r t, r < n -> t \in toks -> tsent (plan id) (sto O' id) r t ->
    tsent (plan id) (sto O id) r t \/ (r, (id, payload (plan id) r t)) \in gn.

(** The messages a party has taken from its mailbox, round by round. *)
Definition taken (O : nat -> seq (J * lst)) (r : nat) : seq (I * (nat * D)) :=
  flatten [seq [seq (id.2, payload (plan id) r t) | t <- toks & tcons (plan id) (sto O id) r t] | id <- ids].

Lemma taken_same O O' r :
  (forall id t, id \in ids -> t \in toks -> tcons (plan id) (sto O' id) r t = tcons (plan id) (sto O id) r t) ->
  taken O' r = taken O r.
Proof.
move=> H; rewrite /taken; congr flatten; apply/eq_in_map => id Hid; congr map.
by apply: eq_in_filter => t Ht; apply: H.
Qed.

Lemma taken_one O O' r id t0 : id \in ids -> t0 \in toks ->
  ~~ tcons (plan id) (sto O id) r t0 -> tcons (plan id) (sto O' id) r t0 ->
  (forall t, t \in toks -> t != t0 -> tcons (plan id) (sto O' id) r t = tcons (plan id) (sto O id) r t) ->
  (forall id' t, id' != id -> t \in toks -> tcons (plan id') (sto O' id') r t = tcons (plan id') (sto O id') r t) ->
  perm_eq (taken O' r) (taken O r ++ [:: (id.2, payload (plan id) r t0)]).
Proof.
move=> Hid Ht0 N0 N1 E1 E2.
pose f (O : nat -> seq (J * lst)) (i : J) := [seq (i.2, payload (plan i) r t) | t <- toks & tcons (plan i) (sto O i) r t].
have Ef l : id \notin l -> [seq f O' i | i <- l] = [seq f O i | i <- l].
  move=> Nl; apply/eq_in_map => i Hi; rewrite /f; congr map; apply: eq_in_filter => t Ht; apply: E2 => //.
  by apply: contraNneq Nl => <-.
have P1 : perm_eq (f O' id) ((id.2, payload (plan id) r t0) :: f O id).
  rewrite /f -(map_cons (fun t => (id.2, payload (plan id) r t))); apply: perm_map; apply: filter_flip => //; exact: toks_uniq.
have := ids_uniq; rewrite /taken -/(f O) -/(f O'); case/splitPr: Hid => p1 p2.
rewrite cat_uniq /= negb_or => /and3P[_ /andP[N1' _] /andP[N2' _]].
rewrite !map_cat !flatten_cat /= (Ef p1) // (Ef p2) // perm_sym cats1 perm_rcons perm_sym.
apply: (@perm_trans _ (flatten [seq f O i | i <- p1] ++ ((id.2, payload (plan id) r t0) :: f O id) ++ flatten [seq f O i | i <- p2])).
  by rewrite perm_cat2l perm_cat2r.
by rewrite /= perm_sym -cat_cons -cat1s; exact/permPl/(perm_catCA [:: (id.2, payload (plan id) r t0)]).
Qed.

(** What a step takes from a mailbox; or a message is put there. *)
Definition takes (c c' : cfg I D V) (O O' : nat -> seq (J * lst)) : Prop :=
  forall r, r < n -> exists rem, perm_eq (taken O' r) (taken O r ++ rem) /\
    (perm_eq (mbox c r) (mbox c' r ++ rem) \/ rem = [::] /\ exists m, mbox c' r = rcons (mbox c r) m).

Lemma takes_none (c c' : cfg I D V) O O' r : taken O' r = taken O r -> mbox c' r = mbox c r ->
  exists rem, perm_eq (taken O' r) (taken O r ++ rem) /\
    (perm_eq (mbox c r) (mbox c' r ++ rem) \/ rem = [::] /\ exists m, mbox c' r = rcons (mbox c r) m).
Proof. by move=> -> ->; exists [::]; rewrite !cats0; split=> //; left. Qed.

Lemma inv_takes c gn gm O z c' : inv c gn gm O z -> gstep n c c' ->
  exists gn' gm' O' z', [/\ inv c' gn' gm' O' z', measure c' O' z' < measure c O z, arises gn' O O' & takes c c' O O'].
Proof.
move=> HI; have [HF HU HC HM HN HP HX HG HB] := HI.
have HUn i : i < n -> uniq [seq e.1 | e <- O i] by move=> Hi; apply: subseq_uniq (HU i Hi) ids_uniq.
case=> [i p Hi S|i to id d p Hi S|i id s d p a b Hi Eb Ha S|to m a b Hto En].
- (* silent *)
  have [O' [z' [Ez F' T]]] := foll_tau (HF i Hi) S.
  exists gn, gm, (upd O i O'), (upd z i z').
  have Q id : quiet (plan id) (sto O id) (sto (upd O i O') id).
    apply: (tau_tokens T (HUn i Hi)) => // s; rewrite /sto /upd; by case: eqP.
  split; last 3 first.
  - rewrite /measure /= ltn_add2r -addn1; apply: meas_upd => // [j Hj|]; first by rewrite upd_ne.
    by rewrite upd_eq Ez; have := w_tau T; lia.
  - by move=> id r t Hr Ht; have [-> _] := Q id r t Hr Ht; left.
  - move=> r Hr; apply: takes_none => //; apply: taken_same => id t _ Ht; by have [_ ->] := Q id r t Hr Ht.
  split=> //=.
  + move=> j Hj; rewrite /upd; case: eqP => [->|_] //; exact: HF.
  + move=> j Hj; rewrite /upd; case: eqP => [_|_]; last exact: HU.
    apply: subseq_trans (HU i Hi); case: T => [O0|dd id g A B _ _ _ _|up dn id g A B _ _ _ _] //.
      by rewrite !map_cat /=; apply: cat_subseq => //; apply: subseq_cons.
    by rewrite !map_cat.
  + by move=> id r t Hr Ht; have [-> ->] := Q id r t Hr Ht; apply: HC.
  + by move=> id r Hr; rewrite (quiet_expected (Q id)) //; apply: HM.
  + move=> j Hj; rewrite /upd; case: eqP => [_|_]; last exact: HP.
    have := HP i Hi; have := HU i Hi; case: T => [O0|dd id g A B PA _ _ _|up dn id g A B PA _ _ _] // SU.
      by apply: (@later_step _ id _ [::] B PA SU); left.
    by apply: (@later_step _ id _ [:: (id, ls 0)] B PA SU); right; eexists.
  + move=> j id Hj Hin; rewrite /sto upd_ne; [exact: HX|exact: ge_ne Hj Hi].
- (* send *)
  have [j0 [A [x [y [B [[Eid PA] EO F' T]]]]]] := foll_send (HF i Hi) S; subst id; rename j0 into id.
  have NA : id \notin [seq e.1 | e <- A].
    by have := HUn i Hi; rewrite EO map_cat cat_uniq /= negb_or => /and3P[_ /andP[-> _] _].
  exists (gn ++ outgoing n i to id d), gm, (upd O i (A ++ (id, y) :: B)), z.
  have Hx : sto O id i = Some x by rewrite /sto EO st_mid.
  have HS s : sto (upd O i (A ++ (id, y) :: B)) id s = if s == i then Some y else sto O id s.
    by rewrite /sto /upd; case: eqP => // _; rewrite st_mid.
  have HS' id' s : id' != id -> sto (upd O i (A ++ (id, y) :: B)) id' s = sto O id' s.
    by move=> Hne; rewrite /sto /upd; case: eqP => // ->; rewrite EO !st_other.
  have Q id' : id' != id -> quiet (plan id') (sto O id') (sto (upd O i (A ++ (id, y) :: B)) id').
    by move=> Hne r t _ _; case: (plan id') t => [dd|L up dn] [s|] //=; rewrite !HS'.
  have TK := send_tokens T Hi Hx HS.
  split; last 3 first.
  - rewrite /measure /= size_cat.
    have -> : size (outgoing n i to id.2 d) = size (outgoing n i to id d) by rewrite -bare_out size_map.
    have H : \sum_(j < n) (z j + ww (upd O i (A ++ (id, y) :: B) j)) + (size (outgoing n i to id d)).+1
       <= \sum_(j < n) (z j + ww (O j)); last first.
      by rewrite [size (net c) + _]addnC addnA ltn_add2r -addnS.
    apply: meas_upd => //; rewrite EO !ww_cat !ww_cons /=; move: (size _) (w_send T : w y + size (outgoing n i to id d) < w x) => q; lia.
  - move=> id' r t Hr Ht; case: (eqVneq id' id) => [->|Hne]; last by have [-> _] := Q id' Hne r t Hr Ht; left.
    have [_ [[_ ->]|[t0 [Ht0 N0 N1 E Eo]]]] := TK r Hr => //; first by left.
    case: (eqVneq t t0) => [->|Hne] St; last by left; rewrite -E.
    right; rewrite mem_cat; apply/orP; right.
    have : payload (plan id) r t0 \in [seq m.2.2 | m <- outgoing n i to id d & m.1 == r] by rewrite Eo mem_head.
    case/mapP => m; rewrite mem_filter => /andP[/eqP Em Hm] ->.
    have Em2 : m.2.1 = id by case: to Hm {S T TK Eo} => [r0|] /=; rewrite ?inE; [move/eqP ->|case/mapP=> ? _ ->].
    by move: Em Em2 Hm; case: (m) => a [b e] /= -> ->.
  - move=> r Hr; apply: takes_none => //; apply: taken_same => id' t _ Ht; case: (eqVneq id' id) => [->|Hne].
      by have [H _] := TK r Hr; exact: H.
    by have [_ ->] := Q id' Hne r t Hr Ht.
  split=> //=.
  + move=> j Hj; rewrite /upd; case: eqP => [->|_] //; exact: HF.
  + move=> j Hj; rewrite /upd; case: eqP => [_|_]; last exact: HU.
    by have := HU i Hi; rewrite EO !map_cat.
  + move=> id' r t Hr Ht; case: (eqVneq id' id) => [->|Hne]; last first.
      by have [-> ->] := Q id' Hne r t Hr Ht; apply: HC.
    have [Hc Hs] := TK r Hr; rewrite Hc // => Ct; have St := HC id r t Hr Ht Ct.
    case: Hs => [[_ ->]|[t0 [Ht0 N0 N1 E _]]] //.
    by case: (eqVneq t t0) => [->|Hne] //; rewrite E.
  + move=> id' r Hr; rewrite /msgs /= filter_cat map_cat catA.
    case: (eqVneq id' id) => [->|Hne]; last first.
      rewrite (quiet_expected (Q id' Hne)) // (_ : [seq m <- outgoing n i to id d | _] = [::]) ?cats0; first exact: HM.
      rewrite -(filter_pred0 (outgoing n i to id d)); apply: eq_in_filter => m Hm /=.
      have -> : m.2.1 = id by case: to Hm {S T TK} => [r0|] /=; rewrite ?inE; [move/eqP ->|case/mapP=> ? _ ->].
      by rewrite (eq_sym id) (negbTE Hne) andbF.
    have -> : [seq m <- outgoing n i to id d | (m.1 == r) && (m.2.1 == id)] = [seq m <- outgoing n i to id d | m.1 == r].
      apply: eq_in_filter => m Hm.
      have -> : m.2.1 = id by case: to Hm {S T TK} => [r0|] /=; rewrite ?inE; [move/eqP ->|case/mapP=> ? _ ->].
      by rewrite eqxx andbT.
    have := HM id r Hr; rewrite /msgs => PM.
    have [Hc Hs] := TK r Hr; case: Hs => [[-> Hs]|[t0 [Ht0 N0 N1 E ->]]].
      rewrite cats0; apply: (perm_trans PM); rewrite /expected.
      rewrite [X in perm_eq _ (map _ X)](@eq_in_filter _ _ (fun t => tsent (plan id) (sto O id) r t && ~~ tcons (plan id) (sto O id) r t)) // => t Ht.
      by rewrite Hs // Hc.
    apply: (@perm_trans _ (expected (plan id) (sto O id) r ++ [:: payload (plan id) r t0])).
      by rewrite perm_cat2r.
    rewrite perm_sym cats1 /expected.
    have NC : tcons (plan id) (sto O id) r t0 = false.
      by apply/negbTE/negP => /(HC id r t0 Hr Ht0); apply/negP.
    apply: (@perm_trans _ (payload (plan id) r t0 :: [seq payload (plan id) r t | t <- toks & tsent (plan id) (sto O id) r t && ~~ tcons (plan id) (sto O id) r t])).
      rewrite -map_cons; apply: perm_map; apply: filter_flip => //.
      * exact: toks_uniq.
      * by rewrite (negbTE N0).
      * by rewrite N1 Hc // NC.
      * by move=> t Ht Hne; rewrite E // Hc.
    by rewrite perm_sym perm_rcons.
  + rewrite all_cat HN /=; case: T {S TK} => [dd j _ Hj|dd d' _ _|L up dn _ HL|up dn j _ Hj|up dn d' _ _] /=; rewrite ?Hj ?HL //;
    by apply/allP => m /mapP [r0]; rewrite mem_iota /= => H ->.
  + move=> j Hj; rewrite /upd; case: eqP => [_|_]; last exact: HP.
    have := HP i Hi; have := HU i Hi; rewrite EO => SU.
    by apply: (@later_step _ id _ [:: (id, y)] B PA SU); right; eexists.
  + move=> j id' Hj Hin; rewrite /sto upd_ne; [exact: HX|exact: ge_ne Hj Hi].
  + by rewrite map_cat bare_out HG.
- (* receive *)
  have [j0 [A [x [B [[Eid PA] EO W F']]]]] := foll_recv (HF i Hi) S; subst id; rename j0 into id.
  have [ga [[gid gsd] [gb [Eg Ea Em Ebb]]]] := map_mid (esym (etrans (esym Eb) (HB i Hi))).
  case: Em => E1 ?; subst gsd.
  have Hm : (gid, (s, d)) \in gm i by rewrite Eg mem_cat in_cons eqxx orbT.
  have E0 : gid = id := coherent HI Hi EO PA Hm E1; subst gid.
  have NA : id \notin [seq e.1 | e <- A].
    by have := HUn i Hi; rewrite EO map_cat cat_uniq /= negb_or => /and3P[_ /andP[-> _] _].
  have NB : id \notin [seq e.1 | e <- B].
    by have := HUn i Hi; rewrite EO map_cat cat_uniq /= => /and3P[_ _ /andP[-> _]].
  have Hx : sto O id i = Some x by rewrite /sto EO st_mid.
  have Hin : (s, d) \in expected (plan id) (sto O id) i.
    rewrite -(perm_mem (HM id i Hi)) /msgs mem_cat Eg filter_cat /= eqxx map_cat /=.
    by rewrite mem_cat in_cons eqxx orbT.
  have [y [t0 [RT Ht0 /andP[S0 C0] P0 TK]]] := recv_tokens W Hx Hi Hin.
  have Hy : y = [::] \/ exists x', y = [:: (id, x')].
    by case: RT; [right; eexists|right; eexists|left].
  exists gn, (upd gm i (ga ++ gb)), (upd O i (A ++ y ++ B)), z.
  have HS s' : sto (upd O i (A ++ y ++ B)) id s' = if s' == i then st1 y else sto O id s'.
    rewrite /sto /upd; case: eqP => // _; case: Hy => [->|[x' ->]] /=; last by rewrite st_mid.
    by rewrite st_none // map_cat mem_cat negb_or NA.
  have HS' id' s' : id' != id -> sto (upd O i (A ++ y ++ B)) id' s' = sto O id' s'.
    move=> Hne; rewrite /sto /upd; case: eqP => // ->; rewrite EO st_other //.
    by case: Hy => [->|[x' ->]] //=; rewrite st_other.
  have Q id' : id' != id -> quiet (plan id') (sto O id') (sto (upd O i (A ++ y ++ B)) id').
    by move=> Hne r t _ _; case: (plan id') t => [dd|L up dn] [s'|] //=; rewrite !HS'.
  have [TS T0 TO] := TK _ HS.
  split; last 3 first.
  - rewrite /measure /= ltn_add2r -addn1; apply: meas_upd => //.
    rewrite EO !ww_cat !ww_cons /= addn1; exact: drop_arith (w_recv W RT).
  - move=> id' r t Hr Ht; case: (eqVneq id' id) => [->|Hne]; last by have [-> _] := Q id' Hne r t Hr Ht; left.
    by rewrite TS //; left.
  - move=> r Hr; case: (eqVneq r i) => [->|Hri]; last first.
      apply: takes_none; last by rewrite /= upd_ne.
      apply: taken_same => id' t _ Ht; case: (eqVneq id' id) => [->|Hne]; last by have [_ ->] := Q id' Hne r t Hr Ht.
      by rewrite TO // xpair_eqE negb_and Hri.
    exists [:: (id.2, (s, d))]; split; last first.
      left; rewrite Eb /= upd_eq perm_sym cats1 perm_rcons perm_sym; exact/permPl/(perm_catCA a [:: (id.2, (s, d))]).
    rewrite -P0; apply: taken_one => //.
    + by apply: (mem_subseq (HU i Hi)); rewrite EO map_cat mem_cat /= in_cons eqxx orbT.
    + by move=> t Ht Hne; rewrite TO // xpair_eqE negb_and Hne orbT.
    + by move=> id' t Hne Ht; have [_ ->] := Q id' Hne i t Hi Ht.
  split=> //=.
  + move=> j Hj; rewrite /upd; case: eqP => [->|_]; [exact: F'|exact: HF].
  + move=> j Hj; rewrite /upd; case: eqP => [_|_]; last exact: HU.
    apply: subseq_trans (HU i Hi); rewrite EO !map_cat; apply: cat_subseq => //.
    by case: Hy => [->|[x' ->]] //=; [exact: subseq_cons|rewrite eqxx].
  + move=> id' r t Hr Ht; case: (eqVneq id' id) => [->|Hne]; last first.
      by have [-> ->] := Q id' Hne r t Hr Ht; apply: HC.
    rewrite TS //; case: (eqVneq (r, t) (i, t0)) => [[-> ->]|Hne] //; rewrite TO //; exact: HC.
  + move=> id' r Hr; rewrite /msgs /=.
    case: (eqVneq id' id) => [->|Hne]; last first.
      rewrite (quiet_expected (Q id' Hne)) //; apply: perm_trans (HM id' r Hr); rewrite /msgs /upd.
      by case: eqP => // ->; rewrite Eg !filter_cat /= eq_sym (negbTE Hne).
    case: (eqVneq r i) => [->|Hri]; last first.
      rewrite upd_ne //; apply: (perm_trans (HM id r Hr)); rewrite /expected.
      rewrite (@eq_in_filter _ (fun t => tsent (plan id) (sto (upd O i (A ++ y ++ B)) id) r t && ~~ tcons (plan id) (sto (upd O i (A ++ y ++ B)) id) r t)
         (fun t => tsent (plan id) (sto O id) r t && ~~ tcons (plan id) (sto O id) r t)) // => t Ht.
      by rewrite TS // TO // xpair_eqE negb_and Hri.
    rewrite upd_eq.
    have PE : perm_eq (expected (plan id) (sto O id) i) ((s, d) :: expected (plan id) (sto (upd O i (A ++ y ++ B)) id) i).
      rewrite /expected -P0 -map_cons; apply: perm_map; apply: filter_flip => //.
      * exact: toks_uniq.
      * by rewrite T0 andbF.
      * by rewrite S0.
      * by move=> t Ht Hne; rewrite TS // TO // xpair_eqE negb_and Hne orbT.
    rewrite -(perm_cons (s, d)); apply: perm_trans PE; apply: perm_trans (HM id i Hi).
    rewrite /msgs Eg !filter_cat /= eqxx !map_cat /= -!catA.
    exact/permPl/(perm_catCA [:: (s, d)]).
  + move=> j Hj; rewrite /upd; case: eqP => [_|_]; last exact: HP.
    have := HP i Hi; have := HU i Hi; rewrite EO => SU.
    exact: (later_step PA SU Hy).
  + move=> j id' Hj Hin0; rewrite /sto upd_ne; [exact: HX|exact: ge_ne Hj Hi].
  + move=> j Hj; rewrite /upd; case: eqP => [_|_]; last exact: HB.
    by rewrite map_cat Ea Ebb.
- (* delivery *)
  have [ga [[to' gm0] [gb [Eg Ea Em Ebb]]]] := map_mid (esym (etrans (esym En) HG)).
  case: Em => ? Em; subst to'.
  exists (ga ++ gb), (upd gm to (rcons (gm to) gm0)), O, z; split; last 3 first.
  - by rewrite /measure /= En !size_cat /= addnS ltn_add2l; lia.
  - by move=> id r t _ _; left.
  - move=> r Hr; case: (eqVneq r to) => [->|Hne]; last by apply: takes_none; rewrite //= upd_ne.
    by exists [::]; rewrite cats0; split=> //; right; split=> //; exists m; rewrite /= upd_eq.
  move: HN; rewrite Eg all_cat /= => /and3P[HN1 _ HN2].
  split=> //=.
  + move=> id r Hr; apply: perm_trans (HM id r Hr); rewrite /msgs /= Eg /upd.
    case: (eqVneq r to) => [->|Hne] /=; last first.
      by rewrite !filter_cat /= eq_sym (negbTE Hne).
    rewrite -cats1 !filter_cat !map_cat /= eqxx /=; case: (gm0.1 == id) => //=; last by rewrite cats0.
    rewrite -catA perm_cat2l; exact/permPl/(perm_catCA [:: gm0.2]).
  + by rewrite all_cat HN1.
  + by rewrite map_cat Ea Ebb.
  + move=> j Hj; rewrite /upd; case: eqP => [_|_]; last exact: HB.
    by rewrite map_rcons Em HB.
Qed.

Lemma inv_step c gn gm O z c' : inv c gn gm O z -> gstep n c c' ->
  exists gn' gm' O' z', [/\ inv c' gn' gm' O' z', measure c' O' z' < measure c O z & arises gn' O O'].
Proof. by move=> HI S; have [gn' [gm' [O' [z' []]]]] := inv_takes HI S; exists gn', gm', O', z'. Qed.

(** ** No deadlock *)

Lemma index_head (l : seq J) a b (L : seq J) : uniq L -> subseq (a :: l) L -> b \in l -> index a L < index b L.
Proof.
elim: L => [|c L IH] // /andP[Hc U]; rewrite /= (eq_sym a); case: (eqVneq c a) => [_|Hca] S Hb.
  case: eqP => // E; move/negP: Hc; case; rewrite E; exact: (mem_subseq S).
case: (eqVneq c b) => [E|_]; last exact: IH.
by move/negP: Hc; case; rewrite E; apply: (mem_subseq S); rewrite in_cons Hb orbT.
Qed.

Lemma first_id (mb : seq (I * (nat * D))) (id : I) m : m \in mb -> m.1 = id ->
  exists a s d b, mb = a ++ (id, (s, d)) :: b /\ id \notin [seq m.1 | m <- a].
Proof.
elim: mb => [|[id' [s d]] mb IH] // Hin E; case: (eqVneq id' id) => [->|Hne].
  by exists [::], s, d, mb.
move: Hin; rewrite in_cons => /orP[/eqP Em|Hin].
  by move: E; rewrite Em /= => E; rewrite E eqxx in Hne.
have [a [s' [d' [b [-> N]]]]] := IH Hin E.
by exists ((id', (s, d)) :: a), s', d', b; split=> //=; rewrite in_cons negb_or eq_sym Hne.
Qed.

Lemma enabled c gn gm O z i (id : J) t : inv c gn gm O z -> net c = [::] -> i < n -> t \in toks ->
  tsent (plan id) (sto O id) i t -> ~~ tcons (plan id) (sto O id) i t ->
  (forall s d, exists p', lstep (procs c i) (ARecv id.2 s d) p') -> exists c', gstep n c c'.
Proof.
move=> HI En Hi Ht St Ct Hl; have [HF HU HC HM HN HP HX HG HB] := HI.
have : payload (plan id) i t \in msgs gn gm i id.
  by rewrite (perm_mem (HM id i Hi)); apply: map_f; rewrite mem_filter St Ct Ht.
have -> : gn = [::] by case: (gn) HG => //; rewrite En.
rewrite /msgs /= cats0 => /mapP[m]; rewrite mem_filter => /andP[/eqP E Hm] _.
have {}Hm : bare m \in mbox c i by rewrite HB //; apply: map_f.
have {}E : (bare m).1 = id.2 by rewrite /bare E.
have [a [s [d [b [Eb Ha]]]]] := first_id Hm E.
have [p' S] := Hl s d; eexists; exact: GRecv Hi Eb Ha S.
Qed.

Lemma progress c gn gm O z : inv c gn gm O z -> (exists c', gstep n c c') \/ all_done n res c.
Proof.
move=> HI; have [HF HU HC HM HN HP HX HG HB] := HI.
case En: (net c) => [|[to m] ms]; last first.
  left; eexists; apply: (@GDeliver _ _ _ _ _ to m [::] ms) => //.
  by move: HN; case: (gn) HG => [|m' gn']; rewrite En //= => -[-> _ _] /= /andP[].
have ready k : forall i, i < n -> forall id x l, O i = (id, x) :: l -> index id ids <= k -> exists c', gstep n c c'.
  elim/ltn_ind: k => k IH i Hi id x l EO Hk.
  case: (foll_next (HF i Hi)) => [[_ [E _]]|[p S]|[to [id' [d [p S]]]]|].
  - by rewrite E in EO.
  - by eexists; apply: GTau Hi S.
  - by eexists; apply: GSend Hi S.
  move=> [id' [x' [O' [EO' W Hl]]]]; rewrite EO in EO'; case: EO' => ? ? ?; subst id' x' O'.
  (* the other parties *)
  have oth j : j < n -> [\/ exists c', gstep n c c', sto O id j = None |
      exists y l', [/\ O j = (id, y) :: l', waiting j id y, sto O id j = Some y &
        forall s d, exists p', lstep (procs c j) (ARecv id.2 s d) p']].
    move=> Hj; case: (foll_next (HF j Hj)) => [[_ [E _]]|[p S]|[to [id' [d [p S]]]]|].
    - by constructor 2; rewrite /sto E.
    - by constructor 1; eexists; apply: GTau Hj S.
    - by constructor 1; eexists; apply: GSend Hj S.
    move=> [id' [x' [O' [EO' W' Hl']]]]; case: (eqVneq id' id) => [E|Hne].
      subst id'; constructor 3; exists x', O'; split=> //; by rewrite /sto EO' /= eqxx.
    case Hin: (id \in [seq e.1 | e <- O']); last first.
      by constructor 2; rewrite /sto EO' /= (negbTE Hne) st_none // Hin.
    constructor 1; apply: (IH (index id' ids) _ j Hj _ _ _ EO') => //.
    apply: leq_trans Hk; apply: (index_head ids_uniq _ Hin); by have := HU j Hj; rewrite EO'.
  have Si : sto O id i = Some x by rewrite /sto EO /= eqxx.
  have lead j g : j < n -> sto O id j = Some (LGath g) -> waiting j id (LGath g) ->
      (forall s d, exists p', lstep (procs c j) (ARecv id.2 s d) p') -> exists c', gstep n c c'.
    move=> Hj Sj [[up [dn Hp]] [Hg /allPn[b /(nthP false)[s Hs Eb] Hb]]] Hl'; rewrite Hg in Hs.
    case: (oth s Hs) => [//|E|[y [l' [_ Wy E _]]]].
    - apply: (@enabled c gn gm O z j id (Some s)) => //; rewrite ?toks_some ?Hp //= ?eqxx ?E ?Sj //=.
      by rewrite Eb.
    - apply: (@enabled c gn gm O z j id (Some s)) => //; rewrite ?toks_some ?Hp //= ?eqxx ?E ?Sj //=.
        by case: y Wy {E}.
      by rewrite Eb.
  case: x W EO Si => //.
  - move=> g [[dd Hp] [Hg /allPn[b /(nthP false)[s Hs Eb] Hb]]] EO Si; rewrite Hg in Hs.
    case: (oth s Hs) => [//|E|[y [l' [_ Wy E _]]]].
    - apply: (@enabled c gn gm O z i id (Some s)) => //; rewrite ?toks_some ?Hp //= ?E ?Si //=.
      by rewrite Eb.
    - apply: (@enabled c gn gm O z i id (Some s)) => //; rewrite ?toks_some ?Hp //= ?E ?Si //=.
        by case: y Wy {E}.
      by rewrite Eb.
  - by move=> g W EO Si; exact: (lead i g).
  - move=> [L [up [dn [Hp HL]]]] EO Si.
    case: (oth L HL) => [//|E|[y [l' [_ Wy E Hl']]]].
    - by apply: (@enabled c gn gm O z i id None) => //; rewrite ?in_cons ?Hp //= ?E ?Si.
    - case: y Wy E => // [g Wy E|g Wy E|Wy E]; last 1 first.
      + by apply: (@enabled c gn gm O z i id None) => //; rewrite ?in_cons ?Hp //= ?E ?Si.
      + by apply: (@enabled c gn gm O z i id None) => //; rewrite ?in_cons ?Hp //= ?E ?Si.
      + exact: (lead L g).
have each i : i < n -> (exists c', gstep n c c') \/ procs c i = Ret (res i) /\ O i = [::].
  move=> Hi; case: (foll_next (HF i Hi)) => [[-> [-> _]]|[p S]|[to [id' [d [p S]]]]|[id [x [O' [E _ _]]]]].
  - by right.
  - by left; eexists; apply: GTau Hi S.
  - by left; eexists; apply: GSend Hi S.
  - by left; apply: (ready (index id ids) i Hi id x O' E).
have : (exists c', gstep n c c') \/ forall i, i < n -> procs c i = Ret (res i) /\ O i = [::].
  move: each; elim: {1 4}n => [|k IH] each; first by right.
  case: IH => [i Hi|H|H]; [by apply: each; rewrite ltnS ltnW|by left|].
  case: (each k) => [//|H'|H']; [by left|right=> i].
  by rewrite ltnS leq_eqVlt => /orP[/eqP ->|/H].
case=> [H|H]; [by left|right]; split; last split=> //; first by move=> i /H [].
move=> i Hi; rewrite HB //; case Em: (gm i) => [|[id m] l] //.
have := HM id i Hi; have -> : gn = [::] by case: (gn) HG => //; rewrite En.
rewrite /msgs Em /= eqxx /= cats0.
have -> : expected (plan id) (sto O id) i = [::].
  rewrite /expected (_ : filter _ _ = [::]) // -(filter_pred0 toks); apply: eq_in_filter => t Ht /=.
  have E0 s : s < n -> sto O id s = None by move=> Hs; rewrite /sto; have [_ ->] := H s Hs.
  case: (plan id) t Ht => [dd|L up dn] [s|] //=; rewrite ?toks_some => Ht; rewrite (E0 i) //= ?andbF ?andbT //.
  by case: (_ == _); rewrite ?andbF.
by move/perm_size.
Qed.

(** ** The theorem *)

Lemma steps_inv k c gn gm O z c' : inv c gn gm O z -> gsteps n k c c' ->
  exists gn' gm' O' z', inv c' gn' gm' O' z' /\ k + measure c' O' z' <= measure c O z.
Proof.
move=> HI S; elim: S gn gm O z HI => [c0|k0 c0 c1 c2 S1 S2 IH] gn gm O z HI; first by exists gn, gm, O, z.
have [gn1 [gm1 [O1 [z1 [H1 M1 _]]]]] := inv_step HI S1.
have [gn2 [gm2 [O2 [z2 [H2 M2]]]]] := IH _ _ _ _ H1.
exists gn2, gm2, O2, z2; split=> //; lia.
Qed.

Lemma start_inv (P : nat -> proc) (z : nat -> nat) :
  (forall i, i < n -> foll i (P i) [seq (id, st0 id) | id <- ids] (z i) (res i)) ->
  inv (start P) [::] (fun _ => [::]) (fun _ : nat => [seq (id, st0 id) | id <- ids]) z.
Proof.
move=> H; set O := fun _ : nat => [seq (id, st0 id) | id <- ids].
have idsE : [seq e.1 | e <- [seq (id, st0 id) | id <- ids]] = ids by rewrite -map_comp map_id.
have stE id s : sto O id s = if id \in ids then Some (st0 id) else None.
  rewrite /sto /O; elim: (ids) => [|a l IH] //=; rewrite in_cons eq_sym; by case: eqP => [->|].
have tS id r t : r < n -> t \in toks -> id \in ids -> tsent (plan id) (sto O id) r t = false.
  move=> Hr Ht Hin; rewrite /tsent; case Hp: (plan id) t Ht => [dd|L up dn] [s|] // _; rewrite stE Hin /st0 Hp ?andbF //.
  by rewrite /xs; case: eqP => // E0; move: (n_pos); rewrite -E0.
have tC id r t : r < n -> t \in toks -> id \in ids -> tcons (plan id) (sto O id) r t = false.
  move=> Hr Ht Hin; rewrite /tcons; case Hp: (plan id) t Ht => [dd|L up dn] [s|] // _; rewrite stE Hin /st0 Hp ?andbF //.
  by rewrite /xs; case: eqP => // E0; rewrite /= nth_none.
have tN id r t : r < n -> t \in toks -> id \notin ids ->
    tsent (plan id) (sto O id) r t = tcons (plan id) (sto O id) r t.
  move=> Hr Ht Hin; rewrite /tsent /tcons; case Hp: (plan id) t Ht => [dd|L up dn] [s|] // _; by rewrite !stE (negbTE Hin).
split=> //=.
- by move=> i Hi; rewrite idsE.
- move=> id r t Hr Ht; case Hin: (id \in ids); first by rewrite tC.
  by rewrite tN // Hin.
- move=> id r Hr; rewrite /msgs /= /expected (_ : filter _ _ = [::]) // -(filter_pred0 toks); apply: eq_in_filter => t Ht /=.
  case Hin: (id \in ids); first by rewrite tS.
  by rewrite tN ?Hin //; case: tcons.
- by move=> i _ a b x _ Hb _ _; have := stE b i; rewrite Hb.
- by move=> i id _ Hin; rewrite stE Hin.
Qed.

Theorem plan_runs (P : nat -> proc) (z : nat -> nat) :
  (forall i, i < n -> foll i (P i) [seq (id, st0 id) | id <- ids] (z i) (res i)) ->
  every_run_ends n (start P) (all_done n res).
Proof.
move=> H; have HI := start_inv H; exists (measure (start P) (fun _ : nat => [seq (id, st0 id) | id <- ids]) z) => k c' S.
have [gn' [gm' [O' [z' [HI' M]]]]] := steps_inv HI S.
split; [lia|exact: progress HI'].
Qed.

(** ** What is sent *)

(** Every message to a party belongs to a round and is what the plan says. *)
Lemma net_payload c gn gm O z r (id : I) s d : inv c gn gm O z -> r < n -> (r, (id, (s, d))) \in net c ->
  exists (j : J) t, [/\ j \in ids, j.2 = id, t \in toks, tsent (plan j) (sto O j) r t & payload (plan j) r t = (s, d)].
Proof.
move=> HI Hr; rewrite (iG HI) => /mapP[[r' [j sd]] Hm [? ? ?]]; subst r' id sd.
have : (s, d) \in expected (plan j) (sto O j) r.
  rewrite -(perm_mem (iM HI j Hr)) /msgs mem_cat; apply/orP; right.
  by apply/mapP; exists (r, (j, (s, d))) => //; rewrite mem_filter /= !eqxx.
case/mapP => t; rewrite mem_filter => /andP[/andP[St Ct] Ht] E; exists j, t; split=> //.
have [y Sy] : exists y, sto O j r = Some y.
  case E': (sto O j r) => [y|]; first by exists y.
  by move: St Ct; case: (plan j) t {Ht E} => [dd|L up dn] [s'|] //=; rewrite E' //= andbT; case: (_ == _).
by apply: (mem_subseq (iU HI Hr)); exact: st_some_in Sy.
Qed.

(** A message that has been sent at the end was on the network at some point. *)
Lemma sent_between k c gn gm O z c' (j : J) r t : inv c gn gm O z -> gsteps n k c c' -> all_done n res c' ->
  r < n -> t \in toks -> (forall O', (forall i, i < n -> O' i = [::]) -> tsent (plan j) (sto O' j) r t) ->
  ~~ tsent (plan j) (sto O j) r t ->
  exists k' c'', gsteps n k' c c'' /\ (r, (j.2, payload (plan j) r t)) \in net c''.
Proof.
move=> HI S [Hd _] Hr Ht He; elim: S gn gm O z HI Hd => [c0|k0 c0 c1 c2 S1 S2 IH] gn gm O z HI Hd Nt.
  have HO i : i < n -> O i = [::].
    by move=> Hi; have := iF HI Hi; rewrite Hd // => F; inversion F.
  by rewrite He in Nt.
have [gn1 [gm1 [O1 [z1 [H1 _ A1]]]]] := inv_step HI S1.
case E: (tsent (plan j) (sto O1 j) r t); last first.
  have [k' [c'' [S' M']]] := IH _ _ _ _ H1 Hd (negbT E); exists k'.+1, c''; split=> //; exact: GSS S1 S'.
case: (A1 j r t Hr Ht E) => [E'|Hin]; first by rewrite E' in Nt.
exists 1, c1; split; first exact: GSS S1 (GS0 _ _).
by rewrite (iG H1); apply/mapP; exists (r, (j, payload (plan j) r t)).
Qed.

End Plan.

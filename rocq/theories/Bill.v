(** What code sends, whatever it receives: a bill for the messages that a piece
    of code still has to pay when it does not panic. *)

From Coq Require Import NArith.
From mathcomp Require Import all_ssreflect zify.
From Verif Require Import MachineModel RouteModel RouteSpec RouteProofs StackModel StackSpec.
Set Implicit Arguments.
Unset Strict Implicit.
Unset Printing Implicit Defensive.

Section Bill.
Variables (n : nat) (I D : eqType) (V : Type).
Notation proc := (proc I D V).

(** The price of data sent to a party. *)
Variable price : nat -> D -> nat.

Definition toll (to : recipient) (d : D) : nat := \sum_(r <- targets n to) price r d.

(** [bill Q p b]: every way of [p] to its end that is not a panic costs [b] and
    returns a value with [Q]. *)
Fixpoint bill (Q : V -> Prop) (p : proc) (b : nat) : Prop :=
  match p with
  | Ret v => Q v /\ b = 0
  | Panic => True
  | Send to _ d k => in_range n to /\ exists b', b = toll to d + b' /\ bill Q k b'
  | Recv _ k => forall s d, bill Q (k s d) b
  | Gath _ _ k => forall ds, bill Q (k ds) b
  | Fork p q k => exists Q1 Q2 b1 b2 b3,
      [/\ b = b1 + b2 + b3, bill Q1 p b1, bill Q2 q b2 & forall x y, Q1 x -> Q2 y -> bill Q (k x y) b3]
  end.

Lemma bill_eq Q p b b' : b = b' -> bill Q p b' -> bill Q p b.
Proof. by move=> ->. Qed.

Lemma bill_sub (Q Q' : V -> Prop) p b : (forall v, Q v -> Q' v) -> bill Q p b -> bill Q' p b.
Proof.
elim: p Q Q' b => [v|//|to id d k IH|id k IH|id got k IH|p _ q _ k IHk] Q Q' b H /=.
- by move=> [Hv ->]; split=> //; exact: H.
- by move=> [R [b' [-> Hk]]]; split=> //; exists b'; split=> //; exact: IH H Hk.
- by move=> Hk s d; exact: IH H (Hk s d).
- by move=> Hk ds; exact: IH H (Hk ds).
- by move=> [Q1 [Q2 [b1 [b2 [b3 [-> H1 H2 H3]]]]]]; exists Q1, Q2, b1, b2, b3; split=> // x y Hx Hy; exact: IHk H (H3 x y Hx Hy).
Qed.

Lemma bill_each Q id (d : nat -> D) k b : bill Q k b -> bill Q (send_each n id d k) ((\sum_(r < n) price r (d r)) + b).
Proof.
move=> H; rewrite /send_each.
have {H} : forall s, (forall r, r \in s -> r < n) ->
    bill Q (foldr (fun i q => Send (One i) id (d i) q) k s) ((\sum_(r <- s) price r (d r)) + b).
  elim=> [|r s IH] Hs /=; first by rewrite big_nil.
  split; first exact: (Hs r (mem_head _ _)).
  exists ((\sum_(r <- s) price r (d r)) + b); split; first by rewrite big_cons /toll big_seq1 addnA.
  by apply: IH => r' Hr'; apply: Hs; rewrite in_cons Hr' orbT.
move=> /(_ (iota 0 n)) H; apply: bill_eq (H _) => [|r]; last by rewrite mem_iota.
by rewrite -(big_mkord xpredT (fun r => price r (d r))) /index_iota subn0.
Qed.

Lemma bill_gather Q id k b : (forall ds, bill Q (k ds) b) -> bill Q (gather n id k) b.
Proof. by []. Qed.

End Bill.

(** ** Bills are paid on the stack *)

Section OnStack.
Variables (n : nat) (D : eqType) (enc : D -> seq N) (V : Type).
Notation I := [eqType of seq N].
Notation proc := (proc I D V).
Notation task := (task D V).
(** A price for the bytes that travel. *)
Variable W : nat -> seq N -> nat.
Notation price := (fun r d => W r (enc d)).
Notation bill := (bill n price).

Fixpoint tbill (Q : V -> Prop) (t : task) (b : nat) : Prop :=
  match t with
  | TRun p => bill Q p b
  | TWait _ _ p => bill Q p b
  | TFork x y k => exists Q1 Q2 b1 b2 b3,
      [/\ b = b1 + b2 + b3, tbill Q1 x b1, tbill Q2 y b2 & forall u v, Q1 u -> Q2 v -> bill Q (k u v) b3]
  end.

Definition fee (a : tact D) : nat := if a is TSend to _ d then toll n price to d else 0.

Lemma tbill_step t a t' Q b : tstep t a t' -> tbill Q t b -> exists b', b = fee a + b' /\ tbill Q t' b'.
Proof.
move=> S; elim: S Q b => {t a t'}.
- by move=> to id d k Q b /= [_ [b' [-> H]]]; exists b'.
- by move=> p id h _ Q b H; exists b.
- move=> p id h s d Q b /= H; exists b; split=> //; case: p H => //= id' got k H.
  by rewrite /gath_step; case: ifP => // _; case: (nth _ _ _).
- by move=> p id h Q b _; exists b.
- by move=> id got k _ Q b /= H; exists b; split=> //; exact: H.
- by move=> p q k Q b /= H; exists b.
- move=> x a x' y k _ IH Q b /= [Q1 [Q2 [b1 [b2 [b3 [-> H1 H2 H3]]]]]].
  have [b1' [-> H1']] := IH _ _ H1; exists (b1' + b2 + b3); split; first by rewrite !addnA.
  by exists Q1, Q2, b1', b2, b3.
- move=> x y a y' k _ IH Q b /= [Q1 [Q2 [b1 [b2 [b3 [-> H1 H2 H3]]]]]].
  have [b2' [-> H2']] := IH _ _ H2; exists (b1 + b2' + b3); split; first by clear; lia.
  by exists Q1, Q2, b1, b2', b3.
- move=> x y k Q b /= [Q1 [Q2 [b1 [b2 [b3 [-> [H1 ->] [H2 ->] H3]]]]]].
  by exists b3; split=> //; exact: H3.
- by move=> y k Q b _; exists b.
- by move=> x k Q b _; exists b.
Qed.

(** What a party has paid. *)
Definition paid (calls : seq (nat * smsg)) (j : nat) : nat :=
  \sum_(c <- calls | c.1 == j) \sum_(r <- targets n c.2.1) W r c.2.2.2.

Lemma paid_rcons calls c j : paid (rcons calls c) j = paid calls j + (if c.1 == j then \sum_(r <- targets n c.2.1) W r c.2.2.2 else 0).
Proof. by rewrite /paid -cats1 big_cat big_cons big_nil; case: ifP; rewrite /= ?addn0. Qed.

Variables (X : Type) (nstep : X -> label -> X -> Prop) (out : X -> nat -> seq (nat * payload)).
Notation sstep := (@sstep n D enc V X nstep out).

Definition balanced (B : nat -> nat) (s : stack D V X) : Prop :=
  forall j, j < n -> exists b, tbill (fun _ => True) (p_task (s_party s j)) b /\ paid (s_calls s) j + b = B j.

Lemma sent_in_range t to id d t' Q b : tstep t (TSend to id d) t' -> tbill Q t b -> in_range n to.
Proof.
move E: (TSend to id d) => a S; elim: S E Q b => {t a t'} //.
- by move=> to' id' d' k [-> _ _] Q b /= [].
- by move=> x a x' y k _ IH E Q b /= [Q1 [Q2 [b1 [b2 [b3 [_ H1 _ _]]]]]]; exact: IH E _ _ H1.
- by move=> x y a y' k _ IH E Q b /= [Q1 [Q2 [b1 [b2 [b3 [_ _ H2 _]]]]]]; exact: IH E _ _ H2.
Qed.

Definition in_books (s : stack D V X) : Prop := forall c, List.In c (s_calls s) -> in_range n c.2.1.

Lemma balanced_step B s s' : balanced B s -> in_books s -> sstep s s' -> balanced B s' /\ in_books s'.
Proof.
move=> H K S; case: S => {s'} /=.
- move=> i t Hi Ht; split=> // j Hj; rewrite /= /upd; case: eqP => [Ej|_]; last exact: H.
  subst j; have [b [Hb Eb]] := H i Hi; have [b' [Eb' Hb']] := tbill_step Ht Hb.
  by exists b'; rewrite /= -Eb Eb'.
- move=> i to id d t x Hi Ht _; split.
    move=> j Hj; rewrite /= /upd paid_rcons /= eq_sym; case: eqP => [Ej|_]; last by rewrite addn0; exact: H.
    subst j; have [b [Hb Eb]] := H i Hi; have [b' [Eb' Hb']] := tbill_step Ht Hb.
    by exists b'; rewrite /= -Eb Eb' addnA.
  have [b [Hb _]] := H i Hi; have R := sent_in_range Ht Hb.
  by move=> c Hc; case: (In_rcons Hc) => [/K|->].
- move=> i id t Hi Ht; split=> // j Hj; rewrite /= /upd; case: eqP => [Ej|_]; last exact: H.
  subst j; have [b [Hb Eb]] := H i Hi; have [b' [Eb' Hb']] := tbill_step Ht Hb.
  by exists b'; rewrite /= -Eb Eb'.
- move=> i h id f d t u v Hi _ Ht; split=> // j Hj; rewrite /= /upd; case: eqP => [Ej|_]; last exact: H.
  subst j; have [b [Hb Eb]] := H i Hi; have [b' [Eb' Hb']] := tbill_step Ht Hb.
  by exists b'; rewrite /= -Eb Eb'.
- move=> i h t Hi _ Ht; split=> // j Hj; rewrite /= /upd; case: eqP => [Ej|_]; last exact: H.
  subst j; have [b [Hb Eb]] := H i Hi; have [b' [Eb' Hb']] := tbill_step Ht Hb.
  by exists b'; rewrite /= -Eb Eb'.
- move=> i x rest r hand gone Hi _ _; split=> // j Hj; rewrite /= /upd; case: eqP => [Ej|_]; last exact: H.
  by subst j; exact: H.
- move=> i id h rest r hand gone Hi _ _; split=> // j Hj; rewrite /= /upd; case: eqP => [Ej|_]; last exact: H.
  by subst j; exact: H.
- by [].
Qed.

Lemma paid_received calls j : (forall c, List.In c calls -> in_range n c.2.1) ->
  paid calls j = \sum_(r < n) \sum_(x <- expected calls j r) W r x.2.
Proof.
elim: calls => [|c calls IH] R.
  by rewrite /paid big_nil big1 // => r _; rewrite /expected /= big_nil.
rewrite /paid big_cons -/(paid calls j) IH => [|c' Hc']; last by apply: R; right.
have Rc := R c (or_introl erefl).
transitivity ((if c.1 == j then \sum_(r < n | addressed c.2.1 r) W r c.2.2.2 else 0) + \sum_(r < n) \sum_(x <- expected calls j r) W r x.2).
  case: (c.1 == j) => //=; congr (_ + _); case: c.2.1 Rc => [p|] /= Rc.
    rewrite big_seq1 (bigD1 (Ordinal Rc)) //= big1 ?addn0 // => r /andP[/eqP Er /eqP []]; by apply: val_inj; rewrite /= Er.
  have -> : iota 0 n = index_iota 0 n by rewrite /index_iota subn0.
  by rewrite big_mkord.
have -> : (if c.1 == j then \sum_(r < n | addressed c.2.1 r) W r c.2.2.2 else 0) =
          \sum_(r < n) (if (c.1 == j) && addressed c.2.1 r then W r c.2.2.2 else 0).
  by case: (c.1 == j) => /=; [rewrite big_mkcond|rewrite big1].
rewrite -big_split /=; apply: eq_bigr => r _; rewrite /expected /=.
by case: ifP => _ //=; rewrite big_cons.
Qed.

(** When the execution is over, each party has received from each other what
    it was to pay. *)
Theorem bill_settled (P : nat -> proc) (B : nat -> nat) x0 (Q : stack D V X -> Prop) :
  (forall j, j < n -> bill (fun _ => True) (P j) (B j)) ->
  (forall s, Q s -> exists res, stack_done n out res s) ->
  ends_in sstep Q (stack_start n x0 P) ->
  ends_in sstep (fun s => Q s /\ forall j, j < n ->
    \sum_(r < n) \sum_(x <- got_from (out (s_net s) r) j) W r x.2 = B j) (stack_start n x0 P).
Proof.
move=> HB HQ E.
have H0 : balanced B (stack_start n x0 P).
  by move=> j Hj; exists (B j); rewrite /= /paid big_nil; split=> //; exact: HB.
have K0 : in_books (stack_start n x0 P) by [].
elim: E H0 K0 => s _ IH Hs H K; constructor.
  by move=> s' S; have [H' K'] := balanced_step H K S; exact: IH.
move=> T; have Qs := Hs T; split=> // j Hj; have [res D1] := HQ s Qs.
have [b [Hb <-]] := H j Hj; have [Et _ _ _ _] := D1 j Hj; move: Hb; rewrite Et /= => -[_ ->].
rewrite addn0 paid_received //; apply: eq_bigr => r _; have [_ _ _ _ D5] := D1 r (ltn_ord r).
by have [-> _] := D5 j Hj.
Qed.

End OnStack.

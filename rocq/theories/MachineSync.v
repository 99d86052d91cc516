(** Traces of the machine, and what a completed gather implies. *)

From mathcomp Require Import all_ssreflect zify.
From Verif Require Import MachineModel MachineProofs MachineBuild.
Set Implicit Arguments.
Unset Strict Implicit.
Unset Printing Implicit Defensive.

Section Trace.

Variables (n : nat) (I D : eqType) (V : Type).
Notation proc := (proc I D V).
Notation cfg := (cfg I D V).

(** One step of the machine; the label tells which party did what (none for a
    delivery). *)
Inductive glstep (c : cfg) : seq (nat * act I D) -> cfg -> Prop :=
| TTau i p : i < n -> lstep (procs c i) (@ATau I D) p ->
    glstep c [:: (i, @ATau I D)] (Cfg (upd (procs c) i p) (net c) (mbox c))
| TSend i to id d p : i < n -> lstep (procs c i) (ASend to id d) p ->
    glstep c [:: (i, ASend to id d)] (Cfg (upd (procs c) i p) (net c ++ outgoing n i to id d) (mbox c))
| TRecv i id s d p a b : i < n -> mbox c i = a ++ (id, (s, d)) :: b -> id \notin [seq m.1 | m <- a] ->
    lstep (procs c i) (ARecv id s d) p ->
    glstep c [:: (i, ARecv id s d)] (Cfg (upd (procs c) i p) (net c) (upd (mbox c) i (a ++ b)))
| TDeliver to m a b : to < n -> net c = a ++ (to, m) :: b ->
    glstep c [::] (Cfg (procs c) (a ++ b) (upd (mbox c) to (rcons (mbox c to) m))).

(** The history of a run, oldest event first. *)
Inductive gtrace (c : cfg) : seq (nat * act I D) -> cfg -> Prop :=
| GT0 : gtrace c [::] c
| GTS tr c' l c'' : gtrace c tr c' -> glstep c' l c'' -> gtrace c (tr ++ l) c''.

(** Labels only record the steps of the machine. *)
Lemma glstep_gstep (c c' : cfg) : gstep n c c' <-> exists l, glstep c l c'.
Proof.
split.
- by case=> *; eexists; econstructor; eauto.
- by move=> [l []] *; econstructor; eauto.
Qed.

Lemma gsteps_rcons k (c c' c'' : cfg) : gsteps n k c c' -> gstep n c' c'' -> gsteps n k.+1 c c''.
Proof.
move=> S; elim: S c'' => [c0 c''|k0 c0 c1 c2 S1 S2 IH c''] S; first by econstructor; eauto; constructor.
by econstructor; eauto.
Qed.

Lemma gtrace_gsteps (c c' : cfg) : (exists k, gsteps n k c c') <-> exists tr, gtrace c tr c'.
Proof.
split.
- move=> [k S]; have [m Em] : exists m, m = k by exists k.
  have cons c0 c1 tr c2 l : glstep c0 l c1 -> gtrace c1 tr c2 -> exists tr', gtrace c0 tr' c2.
    move=> L T; elim: T => [|tr0 c3 l0 c4 _ [tr' IH] L0].
      by exists ([::] ++ l); econstructor; eauto; constructor.
    by exists (tr' ++ l0); econstructor; eauto.
  elim: S {m Em} => [c0|k0 c0 c1 c2 S1 S2 [tr IH]]; first by exists [::]; constructor.
  by have [l L] := (glstep_gstep c0 c1).1 S1; apply: cons L IH.
- move=> [tr T]; elim: T => [|tr0 c1 l c2 _ [k IH] L]; first by exists 0; constructor.
  by exists k.+1; apply: gsteps_rcons IH _; apply/glstep_gstep; exists l.
Qed.

(** Gathers of [p] hold only messages satisfying [R]; those of later code are
    fresh. *)
Inductive holds (R : I -> nat -> Prop) : proc -> Prop :=
| HRet v : holds R (Ret v)
| HPanic : holds R Panic
| HSend to id d k : holds R k -> holds R (Send to id d k)
| HRecv id k : (forall s d, holds R (k s d)) -> holds R (Recv id k)
| HGath id got k : size got = n -> (forall s d, nth None got s = Some d -> R id s) ->
    (forall ds, holds R (k ds)) -> holds R (Gath id got k)
| HFork p q k : holds R p -> holds R q -> (forall a b, holds R (k a b)) -> holds R (Fork p q k).

(** Code before it starts: nothing received. *)
Definition fresh (p : proc) : Prop := holds (fun _ _ => False) p.

Lemma holds_mono (R R' : I -> nat -> Prop) p : (forall id s, R id s -> R' id s) -> holds R p -> holds R' p.
Proof.
move=> HR; elim=> *; constructor; auto.
by move=> s x E; apply: HR; match goal with H : forall s d, _ -> R _ s |- _ => apply: (H s x) end.
Qed.

Lemma holds_step R p a p' : holds R p -> lstep p a p' ->
  (forall id s d, a = ARecv id s d -> R id s) -> holds R p'.
Proof.
move=> HP S; elim: S HP => {p a p'}.
- by move=> to id d k HP _; inversion HP.
- by move=> id k s d HP _; inversion HP.
- move=> id got k s d _ HP HR; inversion HP; subst; rewrite /gath_step.
  case: ltnP => Hs; last by constructor.
  case E: (nth None got s) => [x|] //; apply: HGath => //.
    by rewrite size_set_nth; match goal with H : size got = n |- _ => rewrite -H end; apply/maxn_idPr.
  move=> s0 d0; rewrite nth_set_nth /=; case: eqP => [-> _|_]; first by apply: HR.
  by match goal with H : forall s d, _ -> R _ s |- _ => apply: H end.
- by move=> id got k _ HP _; inversion HP.
- move=> p a p' q k _ IH HP HR; inversion HP; subst; constructor=> //; exact: IH.
- move=> p q a q' k _ IH HP HR; inversion HP; subst; constructor=> //; exact: IH.
- by move=> a b k HP _; inversion HP.
- by move=> *; constructor.
- by move=> *; constructor.
Qed.

(** Some task of [p] is in a gather on [id] that has all its messages and can
    return. *)
Fixpoint gather_ready (id : I) (p : proc) : bool :=
  match p with
  | Gath id' got _ => (id' == id) && all isSome got
  | Fork p q _ => gather_ready id p || gather_ready id q
  | _ => false
  end.

(** [j] has sent something on [id]. *)
Definition has_sent (tr : seq (nat * act I D)) (id : I) (j : nat) : Prop :=
  exists to d, List.In (j, ASend to id d) tr.

Lemma has_sent_cat tr tr' id j : has_sent tr id j -> has_sent (tr ++ tr') id j.
Proof. by move=> [to [d H]]; exists to, d; apply: (List.in_or_app tr tr' _ (or_introl H)). Qed.

Lemma outgoing_from i to (id : I) (d : D) m : List.In m (outgoing n i to id d) -> m.2.1 = id /\ m.2.2.1 = i.
Proof.
case: to => [r0|] /=; first by case=> // <-.
by elim: (iota 0 n) => [|x l IH] //= [<-|/IH].
Qed.

(** Whatever exists was sent. *)
Lemma trace_inv P tr c : (forall i, i < n -> fresh (P i)) -> gtrace (start P) tr c ->
  [/\ forall i, i < n -> holds (has_sent tr) (procs c i),
      forall m, List.In m (net c) -> has_sent tr m.2.1 m.2.2.1 &
      forall i m, i < n -> List.In m (mbox c i) -> has_sent tr m.1 m.2.1].
Proof.
move=> HP T; elim: T => [|tr0 c1 l c2 _ [H1 H2 H3] L].
  by split=> // i Hi; apply: holds_mono (HP i Hi).
have mono i l' : i < n -> holds (has_sent (tr0 ++ l')) (procs c1 i).
  by move=> Hi; apply: holds_mono (H1 i Hi) => id s; apply: has_sent_cat.
case: L => [i p Hi S|i to id d p Hi S|i id s d p a b Hi Eb Ha S|to m a b Hto En] /=.
- split.
  + move=> j Hj; rewrite /upd; case: eqP => // _; [apply: holds_step (mono i _ Hi) S _ => //|exact: mono].
  + by move=> m /H2; apply: has_sent_cat.
  + by move=> j m Hj /(H3 j m Hj); apply: has_sent_cat.
- split.
  + move=> j Hj; rewrite /upd; case: eqP => // _; [apply: holds_step (mono i _ Hi) S _ => //|exact: mono].
  + move=> m /(List.in_app_or (net c1) _ m) [/H2|]; first exact: has_sent_cat.
    move=> /outgoing_from [-> ->].
    by exists to, d; apply: List.in_or_app; right; left.
  + by move=> j m Hj /(H3 j m Hj); apply: has_sent_cat.
- have Hs : has_sent tr0 id s.
    by apply: (H3 i (id, (s, d)) Hi); rewrite Eb; apply: List.in_or_app; right; left.
  split.
  + move=> j Hj; rewrite /upd; case: eqP => // _; [apply: holds_step (mono i _ Hi) S _|exact: mono].
    by move=> ? ? ? [<- <- _]; apply: has_sent_cat.
  + by move=> m /H2; apply: has_sent_cat.
  + move=> j m Hj; rewrite /upd; case: eqP => [_|_] Hm; apply: has_sent_cat; last exact: (H3 j m).
    apply: (H3 i m Hi); rewrite Eb; case: (List.in_app_or _ _ _ Hm) => H; apply: List.in_or_app; [by left|by right; right].
- rewrite cats0; split=> //.
  + move=> m' Hm; apply: H2; rewrite En; case: (List.in_app_or _ _ _ Hm) => H; apply: List.in_or_app; [by left|by right; right].
  + move=> j m' Hj; rewrite /upd; case: eqP => [_|_]; last exact: H3.
    rewrite -cats1 => Hm; case: (List.in_app_or _ _ _ Hm); first exact: H3.
    by case=> // <-; apply: (H2 (to, m)); rewrite En; apply: List.in_or_app; right; left.
Qed.

Lemma sent_range c0 tr c id j : gtrace c0 tr c -> has_sent tr id j -> j < n.
Proof.
move=> T [to [d]]; elim: T => [|tr0 c1 l c2 _ IH L] //= H; case: (List.in_app_or _ _ _ H) => //.
by case: L => [i p Hi S|i to' id' d' p Hi S|i id' s d' p a b Hi Eb Ha S|to' m a b Hto En] //= [] // [] // <-.
Qed.

Lemma ready_holds R id p : holds R p -> gather_ready id p -> forall s, s < n -> R id s.
Proof.
elim=> //=.
- move=> id' got k Hsz HR _ _ /andP[/eqP <- /allP Ha] s Hs.
  have : isSome (nth None got s) by apply: Ha; rewrite mem_nth ?Hsz.
  by case E: (nth None got s) => [x|] // _; apply: HR E.
- by move=> p0 q k _ IH1 _ IH2 _ _ /orP[/IH1|/IH2].
Qed.

(** Ids on which the tasks of a party wait for a message. *)
Fixpoint pending (p : proc) : seq I :=
  match p with
  | Recv id _ => [:: id]
  | Gath id got _ => if all isSome got then [::] else [:: id]
  | Fork p q _ => pending p ++ pending q
  | _ => [::]
  end.

Lemma phase_subseq ph1 ph (l : seq I) (O : seq (nat * I * lst)) : in_phase ph O ->
  subseq [seq (ph1, i) | i <- l] [seq e.1 | e <- O] -> subseq [seq (ph, i) | i <- l] [seq e.1 | e <- O].
Proof.
move=> P S; have {}P : all (fun a : nat * I => a.1 == ph) [seq e.1 | e <- O] by rewrite all_map.
rewrite (_ : [seq (ph, i) | i <- l] = [seq (ph1, i) | i <- l]) //.
apply/eq_in_map => i Hi; congr pair.
move/allP: P => /(_ (ph1, i)) /= P; apply/esym/eqP/P; apply: (mem_subseq S); exact: map_f.
Qed.

Lemma foll_pending plan me p O z v : foll n plan me p O z v ->
  exists ph, subseq [seq (ph, i) | i <- pending p] [seq e.1 | e <- O].
Proof.
elim=> //=; try by move=> *; exists 0; rewrite sub0seq.
- move=> id *; exists id.1; case: ifP => _; rewrite ?sub1seq ?in_cons ?sub0seq //.
  by rewrite /= -surjective_pairing eqxx sub0seq.
- move=> id *; exists id.1; case: ifP => _; rewrite ?sub1seq ?in_cons ?sub0seq //.
  by rewrite /= -surjective_pairing eqxx sub0seq.
- by move=> id *; exists id.1; rewrite -surjective_pairing eqxx sub0seq.
- move=> p0 q k ph O1 O2 O3 z1 z2 z3 v1 v2 v3 P1 P2 _ [ph1 IH1] _ [ph2 IH2] _ _; exists ph; rewrite !map_cat catA.
  exact: subseq_trans (cat_subseq (phase_subseq P1 IH1) (phase_subseq P2 IH2)) (prefix_subseq _ _).
Qed.

End Trace.

(** Codes following a plan never have two receives on one id outstanding. *)
Lemma follows_pending n (I D : eqType) V (plan : nat * I -> round D) (P : nat -> proc I D V) (ids : seq (nat * I)) (res : nat -> V) k c :
  0 < n -> phased ids -> (forall i, i < n -> follows n plan i (P i) ids (res i)) ->
  gsteps n k (start P) c -> forall i, i < n -> uniq (pending (procs c i)).
Proof.
move=> n_pos U H S i Hi.
have [z Hz] := follows_z H.
have [gn [gm [O' [z' [HI _]]]]] := steps_inv n_pos U (start_inv n_pos Hz) S.
have [ph Sq] := foll_pending (iF HI Hi).
have := subseq_uniq (subseq_trans Sq (iU HI Hi)) (ph_uniq U); exact: map_uniq.
Qed.

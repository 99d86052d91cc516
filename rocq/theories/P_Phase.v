(** Property C53: using the same protocol ids again. *)

From mathcomp Require Import all_ssreflect zify.
From Verif Require Import MachineModel MachineProofs MachineBuild Realize PipeModel.
Set Implicit Arguments.
Unset Strict Implicit.
Unset Printing Implicit Defensive.

Section Loop.

Variables (n : nat) (I D : eqType) (V : Type).
Hypothesis n_pos : 0 < n.
Notation proc := (proc I D V).

Lemma realizes_sync (b : I) (d : D) :
  @realizes n I D V unit [:: (b, Exch (fun _ _ => d))] (fun _ k => sync n b d (k tt)) (fun _ => tt).
Proof.
  move=> plan ph /= [E _] me k js v Hm F. rewrite /jds /=.
  exact: (@follows_all n I D V n_pos plan me (ph, b) _ _ _ _ _ E).
Qed.

Variables (S T : Type) (b : I) (d : D) (prep : nat -> nat -> option S).
Variable body : nat -> nat -> S -> (T -> proc) -> proc.
Variables (mat : nat -> nat -> S) (rds : nat -> seq (I * round D)) (res : nat -> nat -> T).

(** The phases of the repetitions. *)
Definition loop_rounds (rs : seq nat) : seq (seq (I * round D)) :=
  flatten [seq [:: [:: (b, Exch (fun _ _ => d))]; rds r] | r <- rs].

Lemma loop_unfolds rs :
  (forall me r, me < n -> r \in rs -> prep me r = Some (mat me r)) ->
  (forall r, r \in rs -> realizes n (rds r) (fun me k => body me r (mat me r) k) (res r)) ->
  unfolds n (loop_rounds rs) (fun me k => bench_loop n b d (prep me) (body me) rs k)
    (fun me => [seq res r me | r <- rs]).
Proof.
  elim: rs => [|r rs IH] Hp Hb; first exact: (unfolds_ret (res := fun _ => [::])).
  have Rb := Hb r (mem_head _ _).
  have {}IH := IH (fun me r' Hm Hr => Hp me r' Hm (@mem_behead _ (r :: rs) _ Hr)) (fun r' Hr => Hb r' (@mem_behead _ (r :: rs) _ Hr)).
  pose Q2 me y (k : seq T -> proc) := bench_loop n b d (prep me) (body me) rs (fun ys => k (y :: ys)).
  pose Q1 me (_ : unit) (k : seq T -> proc) := body me r (mat me r) (fun y => Q2 me y k).
  have U2 : unfolds n (loop_rounds rs) (fun me => Q2 me (res r me)) (fun me => [seq res r me | r <- r :: rs]).
  { move=> plan ph A me k js v Hm F. exact: (IH plan ph A me (fun ys => k (res r me :: ys))). }
  have U1 := unfolds_seq (unfolds_one Rb) U2.
  have U := @unfolds_seq n I D V unit (seq T) _ _ _ _ Q1 _ (unfolds_one (@realizes_sync b d)) U1.
  apply: unfolds_eq U => // i k Hi /=. by rewrite Hp // mem_head.
Qed.

Lemma nth_loop_rounds rs k r0 : k < size (loop_rounds rs) ->
  nth [::] (loop_rounds rs) k = if odd k then rds (nth r0 rs k./2) else [:: (b, Exch (fun _ _ => d))].
Proof.
  elim: rs k => [|r rs IH] [|[|k]] //= Hk. rewrite IH // negbK. by [].
Qed.

Lemma size_loop_rounds rs : size (loop_rounds rs) = (size rs).*2.
Proof. elim: rs => //= r rs ->. by rewrite doubleS. Qed.

Lemma loop_alternating rs :
  (forall r, r \in rs -> [/\ uniq (ids (rds r)), 0 < size (rds r) & b \notin ids (rds r)]) ->
  alternating (loop_rounds rs).
Proof.
  move=> H.
  have Hr k : k < size (loop_rounds rs) -> nth 0 rs k./2 \in rs.
  { rewrite size_loop_rounds => Hk. apply: mem_nth. by rewrite -divn2 ltn_divLR // muln2. }
  split=> [k Hk|k Hk|k id Hk].
  - rewrite (nth_loop_rounds 0 Hk). case: ifP => // _. by case: (H _ (Hr _ Hk)).
  - rewrite (nth_loop_rounds 0 Hk). case: ifP => // _. by case: (H _ (Hr _ Hk)).
  - rewrite (nth_loop_rounds 0 Hk) (nth_loop_rounds 0 (ltnW Hk)) /=. case: ifP => /= Ho.
    + move=> Hi. rewrite inE. apply: contraTneq Hi => ->. by case: (H _ (Hr _ (ltnW Hk))).
    + rewrite inE => /eqP ->. by case: (H _ (Hr _ Hk)).
Qed.

End Loop.

(** Codes that are such a loop at the parties. *)
Lemma loop_runs n (I D : eqType) (V S T : Type) (b : I) (d : D) (prep : nat -> nat -> option S)
    (body : nat -> nat -> S -> (T -> proc I D V) -> proc I D V) (mat : nat -> nat -> S) (rds : nat -> seq (I * round D))
    (res : nat -> nat -> T) (out : seq T -> V) R (Q : nat -> (seq T -> proc I D V) -> proc I D V) :
  0 < n -> (forall i r, i < n -> r < R -> prep i r = Some (mat i r)) ->
  (forall r, r < R -> realizes n (rds r) (fun i k => body i r (mat i r) k) (res r)) ->
  (forall r, r < R -> [/\ uniq (ids (rds r)), 0 < size (rds r) & b \notin ids (rds r)]) ->
  (forall i k, i < n -> Q i k = bench_loop n b d (prep i) (body i) (iota 0 R) k) ->
  every_run_ends n (start (fun i => Q i (fun ys => Ret (out ys)))) (all_done n (fun i => out [seq res r i | r <- iota 0 R])).
Proof.
  move=> Hn Hp Hb Hr HQ.
  have A : alternating (loop_rounds b d rds (iota 0 R)).
  { apply: loop_alternating => r. rewrite mem_iota => Hi. exact: Hr. }
  have U : unfolds n (loop_rounds b d rds (iota 0 R)) (fun me k => bench_loop n b d (prep me) (body me) (iota 0 R) k)
    (fun me => [seq res r me | r <- iota 0 R]).
  { by apply: (loop_unfolds Hn (mat := mat)) => [me r Hm|r]; rewrite mem_iota => Hi; [exact: Hp|exact: Hb]. }
  have U' : unfolds n (loop_rounds b d rds (iota 0 R)) Q (fun me => [seq res r me | r <- iota 0 R]).
  { by apply: unfolds_eq U => // i k Hi; rewrite HQ. }
  exact: (unfolds_runs Hn d out A U').
Qed.

(** That a family of codes is such a loop. *)
Definition loops n (I D : eqType) (V T : Type) (b : I) (d : D) R (Q : nat -> (seq T -> proc I D V) -> proc I D V)
    (res : nat -> nat -> T) : Prop :=
  exists (S : Type) (prep : nat -> nat -> option S) (body : nat -> nat -> S -> (T -> proc I D V) -> proc I D V)
      (mat : nat -> nat -> S) (rds : nat -> seq (I * round D)),
  [/\ 0 < n, forall i r, i < n -> r < R -> prep i r = Some (mat i r),
      forall r, r < R -> realizes n (rds r) (fun i k => body i r (mat i r) k) (res r),
      forall r, r < R -> [/\ uniq (ids (rds r)), 0 < size (rds r) & b \notin ids (rds r)] &
      forall i k, i < n -> Q i k = bench_loop n b d (prep i) (body i) (iota 0 R) k].

(** The same, with a predicate that holds of all ids of the rounds. *)
Definition loops_in n (I D : eqType) (V T : Type) (named : I -> Prop) (b : I) (d : D) R
    (Q : nat -> (seq T -> proc I D V) -> proc I D V) (res : nat -> nat -> T) : Prop :=
  exists (S : Type) (prep : nat -> nat -> option S) (body : nat -> nat -> S -> (T -> proc I D V) -> proc I D V)
      (mat : nat -> nat -> S) (rds : nat -> seq (I * round D)),
  [/\ 0 < n, forall i r, i < n -> r < R -> prep i r = Some (mat i r),
      forall r, r < R -> realizes n (rds r) (fun i k => body i r (mat i r) k) (res r),
      forall r, r < R -> [/\ uniq (ids (rds r)), 0 < size (rds r), b \notin ids (rds r) & forall id, id \in ids (rds r) -> named id] &
      forall i k, i < n -> Q i k = bench_loop n b d (prep i) (body i) (iota 0 R) k].

Lemma loops_in_loops n (I D : eqType) (V T : Type) (named : I -> Prop) (b : I) (d : D) R
    (Q : nat -> (seq T -> proc I D V) -> proc I D V) res : loops_in n named b d R Q res -> loops n b d R Q res.
Proof.
  move=> [S [prep [body [mat [rds [H1 H2 H3 H4 H5]]]]]]. exists S, prep, body, mat, rds. split=> // r Hr. by have [] := H4 r Hr.
Qed.

Lemma loops_run n (I D : eqType) (V T : Type) (b : I) (d : D) R (Q : nat -> (seq T -> proc I D V) -> proc I D V) res out :
  loops n b d R Q res ->
  every_run_ends n (start (fun i => Q i (fun ys => Ret (out ys)))) (all_done n (fun i => out [seq res r i | r <- iota 0 R])).
Proof. move=> [S [prep [body [mat [rds [H1 H2 H3 H4 H5]]]]]]. exact: (loop_runs out H1 H2 H3 H4 H5). Qed.

(** ** C53 *)

(** [R] repetitions of protocols whose ids are used once inside a repetition,
    at least one of them, and none of them the id [b] of the [sync] in front: in
    every schedule all parties finish all repetitions, each with the result the
    protocol has when run alone, although the same ids occur in all of them. *)
Theorem C53_separated_reuse : forall n (I D : eqType) (V S T : Type) (b : I) (d : D)
    (prep : nat -> nat -> option S) (body : nat -> nat -> S -> (T -> proc I D V) -> proc I D V)
    (mat : nat -> nat -> S) (rds : nat -> seq (I * round D)) (res : nat -> nat -> T) (out : seq T -> V) R,
  0 < n -> (forall i r, i < n -> r < R -> prep i r = Some (mat i r)) ->
  (forall r, r < R -> realizes n (rds r) (fun i k => body i r (mat i r) k) (res r)) ->
  (forall r, r < R -> [/\ uniq (ids (rds r)), 0 < size (rds r) & b \notin ids (rds r)]) ->
  every_run_ends n (start (fun i => bench_loop n b d (prep i) (body i) (iota 0 R) (fun ys => Ret (out ys))))
    (all_done n (fun i => out [seq res r i | r <- iota 0 R])).
Proof.
  move=> n I D V S T b d prep body mat rds res out R Hn Hp Hb Hr.
  exact: (loop_runs (Q := fun i k => bench_loop n b d (prep i) (body i) (iota 0 R) k) out Hn Hp Hb Hr).
Qed.
Print Assumptions C53_separated_reuse.

(** The hypotheses hold of repetitions of another [sync]. *)
Example C53_example : forall R,
  let body (i r : nat) (s : unit) (k : unit -> proc nat_eqType nat_eqType nat) := sync 3 8 1 (k tt) in
  every_run_ends 3 (start (fun i => bench_loop 3 7 1 (fun _ => Some tt) (body i) (iota 0 R) (fun ys => Ret (size ys))))
    (all_done 3 (fun _ => R)).
Proof.
  move=> R body.
  have := @C53_separated_reuse 3 nat_eqType nat_eqType nat unit unit 7 1 (fun _ _ => Some tt) body (fun _ _ => tt)
    (fun _ => [:: (8, Exch (fun _ _ => 1))]) (fun _ _ => tt) size R isT.
  rewrite size_map size_iota. apply=> // r Hr. exact: realizes_sync.
Qed.

(** *** Without something in between *)

(** Two [sync]s on the same id.  Party 1 is done with the first and has sent its
    message for the second while party 0 still waits for party 2; party 0 takes
    the second message of party 1 for a duplicate and drops it.  (The messages
    between two parties arrive in the order in which they are sent.) *)
Section Twice.

Notation P2 := (sync 3 7 1 (Ret 0) : proc nat_eqType nat_eqType nat).
Notation twice := (fun _ : nat => sync 3 7 1 P2).
Notation cfg3 := (cfg nat_eqType nat_eqType nat).

(** Party 0 will never again get a message of party 1, and lacks one. *)
Definition lost (c : cfg3) : Prop :=
  [/\ [\/ exists g, size g = 3 /\ procs c 0 = Gath 7 g (fun _ => P2), procs c 0 = P2 |
          exists g, [/\ size g = 3, nth None g 1 = None & procs c 0 = Gath 7 g (fun _ => Ret 0)]],
      (exists g, size g = 3 /\ procs c 1 = Gath 7 g (fun _ => Ret 0)) \/ procs c 1 = Ret 0,
      all (fun m : nat * (nat * (nat * nat)) => (m.2.2.1 < 3) && ~~ ((m.1 == 0) && (m.2.2.1 == 1))) (net c) &
      forall i, all (fun m : nat * (nat * nat) => (m.2.1 < 3) && ~~ ((i == 0) && (m.2.1 == 1))) (mbox c i)].

Lemma all_outgoing i to id (d : nat) : i < 3 -> i != 1 ->
  all (fun m : nat * (nat * (nat * nat)) => (m.2.2.1 < 3) && ~~ ((m.1 == 0) && (m.2.2.1 == 1))) (@outgoing 3 nat_eqType nat_eqType i to id d).
Proof.
  move=> Hi Hn. case: to => [r|] /=; rewrite ?(negbTE Hn) ?andbF ?Hi //.
Qed.

Lemma gath_some (g : seq (option nat)) (k : seq nat -> proc nat_eqType nat_eqType nat) s d : size g = 3 -> s < 3 ->
  exists g', [/\ size g' = 3, gath_step 7 g k s d = Gath 7 g' k & s != 1 -> nth None g 1 = None -> nth None g' 1 = None].
Proof.
  move=> Sg Hs. rewrite /gath_step Sg Hs. case E : (nth None g s) => [x|]; first by exists g.
  exists (set_nth None g s (Some d)). split=> // [|Hn]; first by rewrite size_set_nth Sg; lia.
  by rewrite nth_set_nth /= eq_sym (negbTE Hn).
Qed.

Lemma gath_tau (g : seq (option nat)) (k : seq nat -> proc nat_eqType nat_eqType nat) p :
  lstep (Gath 7 g k) (@ATau _ _) p -> all isSome g /\ p = k (pmap (fun x => x) g).
Proof. move=> S. by inversion S. Qed.

Lemma lost_step c c' : lost c -> gstep 3 c c' -> lost c'.
Proof.
  move=> [L0 L1 Ln Lm] H. case: H => [i p Hi S|i to id d p Hi S|i id s d p a b Hi Em _ S|to m a b Ht En].
  - (* a local step *)
    case: i Hi S => [|[|[|//]]] _ S; split=> //=; rewrite /upd /=; try by [].
    + case: L0 => [[g [Sg E]]|E|[g [Sg E1 E]]]; rewrite E in S.
      * have [_ ->] := gath_tau S. by constructor 2.
      * inversion S.
      * have [A _] := gath_tau S. move: A E1 => /(all_nthP None) /(_ 1). rewrite Sg => /(_ isT). by case: (nth _ _ _).
    + case: L1 => [[g [Sg E]]|E]; rewrite E in S; inversion S; subst. by right.
  - (* a message is sent *)
    have Hn : i != 1.
    { apply/eqP => Ei. rewrite Ei in S. case: L1 => [[g [Sg E]]|E]; rewrite E in S; inversion S. }
    split=> //=; rewrite /upd /=; last by rewrite all_cat Ln all_outgoing.
    + case: i Hi S Hn => [|[|[|//]]] // _ S _ /=.
      case: L0 => [[g [Sg E]]|E|[g [Sg E1 E]]]; rewrite E in S; inversion S; subst.
      constructor 3. by exists (nseq 3 None).
    + by case: i Hi S Hn => [|[|[|//]]].
  - (* a message is received *)
    have /andP[Hs Hs1] : (s < 3) && ~~ ((i == 0) && (s == 1)).
    { have := Lm i. rewrite Em all_cat /= => /and3P [_ ? _]. by []. }
    have Lm' j : all (fun m : nat * (nat * nat) => (m.2.1 < 3) && ~~ ((j == 0) && (m.2.1 == 1))) (upd (mbox c) i (a ++ b) j).
    { rewrite /upd. case: (j =P i) => [->|_]; last exact: Lm. have := Lm i. rewrite Em !all_cat /=. by move=> /and3P [-> _ ->]. }
    case: i Hi S Em Hs1 Lm' => [|[|[|//]]] _ S Em Hs1 Lm'; split=> //=; rewrite /upd /=; try by [].
    + case: L0 => [[g [Sg E]]|E|[g [Sg E1 E]]]; rewrite E in S; inversion S; subst.
      * have [g' [S1 E1 _]] := gath_some (fun _ => P2) d Sg Hs. constructor 1. by exists g'.
      * have [g' [S1 E2 N1]] := gath_some (fun _ => Ret 0) d Sg Hs. constructor 3. exists g'. split=> //. exact: N1.
    + case: L1 => [[g [Sg E]]|E]; rewrite E in S; inversion S; subst.
      have [g' [S1 E1 _]] := gath_some (fun _ => Ret 0) d Sg Hs. left. by exists g'.
  - (* a message is delivered *)
    move: Ln. rewrite En all_cat /= => /and3P [La Hm Lb]. split=> //=; first by rewrite all_cat La.
    move=> i. rewrite /upd. case: (i =P to) => [->|_]; last exact: Lm. by rewrite all_rcons Lm andbT.
Qed.

Lemma lost_steps k c c' : lost c -> gsteps 3 k c c' -> lost c'.
Proof. move=> L H. elim: H L => // {}k x y z S _ IH L. apply: IH. exact: lost_step L S. Qed.

(** Steps of a run. *)
Lemma run_send i k (c c' : cfg3) p : i < 3 -> procs c i = Send All 7 1 p ->
  gsteps 3 k (Cfg (upd (procs c) i p) (net c ++ @outgoing 3 nat_eqType nat_eqType i All 7 1) (mbox c)) c' -> gsteps 3 k.+1 c c'.
Proof. move=> Hi E. apply: GSS. apply: GSend => //. rewrite E. exact: LSend. Qed.

Lemma run_deliver j k (c c' : cfg3) : j < size (net c) -> (nth (0, (0, (0, 0))) (net c) j).1 < 3 ->
  gsteps 3 k (let m := nth (0, (0, (0, 0))) (net c) j in
    Cfg (procs c) (take j (net c) ++ drop j.+1 (net c)) (upd (mbox c) m.1 (rcons (mbox c m.1) m.2))) c' -> gsteps 3 k.+1 c c'.
Proof.
  move=> Hj Ht. apply: GSS. apply: GDeliver => //. rewrite -[LHS](cat_take_drop j) (drop_nth (0, (0, (0, 0)))) //.
  by case: (nth _ _ j).
Qed.

Lemma run_recv i k (c c' : cfg3) g q s d b : i < 3 -> procs c i = Gath 7 g q -> ~~ all isSome g -> mbox c i = (7, (s, d)) :: b ->
  gsteps 3 k (Cfg (upd (procs c) i (gath_step 7 g q s d)) (net c) (upd (mbox c) i b)) c' -> gsteps 3 k.+1 c c'.
Proof. move=> Hi E Hg Em. apply: GSS. apply: (@GRecv 3 _ _ _ c i 7 s d _ [::] b) => //. rewrite E. exact: LGathMsg. Qed.

Lemma run_tau i k (c c' : cfg3) g q : i < 3 -> procs c i = Gath 7 g q -> all isSome g ->
  gsteps 3 k (Cfg (upd (procs c) i (q (pmap (fun x => x) g))) (net c) (mbox c)) c' -> gsteps 3 k.+1 c c'.
Proof. move=> Hi E Hg. apply: GSS. apply: GTau => //. rewrite E. exact: LGathDone. Qed.

End Twice.

(** Two [sync]s on one id, one after the other: there is a run after which party
    0 cannot return any more, whatever happens. *)
Theorem C53_back_to_back_refuted : exists k c,
  gsteps 3 k (start (fun _ => sync 3 7 1 (sync 3 7 1 (Ret 0) : proc nat_eqType nat_eqType nat))) c /\
  forall k' c', gsteps 3 k' c c' -> forall v, procs c' 0 <> Ret v.
Proof.
  suff [k [c [S L]]] : exists k c, gsteps 3 k (start (fun _ => sync 3 7 1 (sync 3 7 1 (Ret 0) : proc nat_eqType nat_eqType nat))) c /\ lost c.
  { exists k, c. split=> // k' c' S' v E. have [H _ _ _] := lost_steps L S'.
    by case: H => [[g [_ H]]|H|[g [_ _ H]]]; rewrite E in H. }
  eexists _, _. split.
  { (* everybody sends; the messages to party 1 arrive, and it goes on to the second sync *)
    apply: (run_send (i := 0)); [by []|reflexivity|]. apply: (run_send (i := 1)); [by []|reflexivity|].
    apply: (run_send (i := 2)); [by []|reflexivity|]. cbn.
    apply: (run_deliver (j := 1)); [by []|by []|]. apply: (run_deliver (j := 3)); [by []|by []|].
    apply: (run_deliver (j := 5)); [by []|by []|]. cbn.
    do 3 (apply: (run_recv (i := 1)); [by []|reflexivity|by []|reflexivity|]; cbn).
    apply: (run_tau (i := 1)); [by []|reflexivity|by []|]. cbn.
    apply: (run_send (i := 1)); [by []|reflexivity|]. cbn.
    (* both messages of party 1 reach party 0, which takes the second for a duplicate *)
    apply: (run_deliver (j := 2)); [by []|by []|]. apply: (run_deliver (j := 5)); [by []|by []|]. cbn.
    do 2 (apply: (run_recv (i := 0)); [by []|reflexivity|by []|reflexivity|]; cbn).
    exact: GS0. }
  split=> /=; rewrite /upd /=.
  - constructor 1. by eexists; split; last reflexivity.
  - left. by eexists; split; last reflexivity.
  - by [].
  - by case=> [|[|[|i]]].
Qed.
Print Assumptions C53_back_to_back_refuted.

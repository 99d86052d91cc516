(** Distributed computations: what a family of codes, one per party, computes
    together in a list of rounds. *)

From mathcomp Require Import all_ssreflect zify.
From Verif Require Import MachineModel MachineProofs MachineBuild.
Set Implicit Arguments.
Unset Strict Implicit.
Unset Printing Implicit Defensive.

Section Realize.

Variables (n : nat) (I D : eqType) (V : Type).
Hypothesis n_pos : 0 < n.
Notation proc := (proc I D V).
Notation rounds := (seq (I * round D)).

Notation J := (prod_eqType nat_eqType I).

(** In phase [ph] the plan is [rds]. *)
Fixpoint agrees (plan : J -> round D) (ph : nat) (rds : rounds) : Prop :=
  if rds is x :: r then plan (ph, x.1) = x.2 /\ agrees plan ph r else True.

Lemma agrees_cat plan ph r1 r2 : agrees plan ph (r1 ++ r2) <-> agrees plan ph r1 /\ agrees plan ph r2.
Proof. by elim: r1 => [|x r IH] //=; first tauto; rewrite IH; tauto. Qed.

Definition ids (rds : rounds) : seq I := [seq x.1 | x <- rds].
Definition jds (ph : nat) (rds : rounds) : seq J := [seq (ph, id) | id <- ids rds].

Lemma ids_cat r1 r2 : ids (r1 ++ r2) = ids r1 ++ ids r2.
Proof. exact: map_cat. Qed.
Lemma jds_cat ph r1 r2 : jds ph (r1 ++ r2) = jds ph r1 ++ jds ph r2.
Proof. by rewrite /jds ids_cat map_cat. Qed.

(** The codes [P], given continuations, go through the rounds [rds] and party
    [i] continues with [res i]; all in one phase. *)
Definition realizes (T : Type) (rds : rounds) (P : nat -> (T -> proc) -> proc) (res : nat -> T) : Prop :=
  forall plan ph, agrees plan ph rds -> forall me k js v, me < n ->
    follows n plan me (k (res me)) js v -> follows n plan me (P me k) (jds ph rds ++ js) v.

Lemma realizes_ret T (res : nat -> T) : realizes [::] (fun me k => k (res me)) res.
Proof. by move=> plan ph _ me k js v _. Qed.

Lemma realizes_seq T U r1 r2 (P : nat -> (T -> proc) -> proc) res1 (Q : nat -> T -> (U -> proc) -> proc) res2 :
  realizes r1 P res1 -> realizes r2 (fun me => Q me (res1 me)) res2 ->
  realizes (r1 ++ r2) (fun me k => P me (fun x => Q me x k)) res2.
Proof.
move=> H1 H2 plan ph /agrees_cat [A1 A2] me k js v Hm F.
rewrite jds_cat -catA; apply: (H1 plan ph A1 me) => //; exact: H2.
Qed.

(** Codes that agree at the parties. *)
Lemma realizes_eq T rds (P Q : nat -> (T -> proc) -> proc) res res' :
  (forall i k, i < n -> P i k = Q i k) -> (forall i, i < n -> res i = res' i) ->
  realizes rds P res -> realizes rds Q res'.
Proof.
move=> E1 E2 H plan ph A me k js v Hm F; rewrite -E1 //; apply: H => //; by rewrite E2.
Qed.

Lemma realizes_map T U rds (P : nat -> (T -> proc) -> proc) res (f : nat -> T -> U) :
  realizes rds P res -> realizes rds (fun me k => P me (fun x => k (f me x))) (fun me => f me (res me)).
Proof. by move=> H plan ph A me k js v Hm F; apply: H. Qed.

(** A spawned task. *)
Lemma realizes_fork T U W r1 r2 r3 (inj1 : T -> V) (inj2 : U -> V)
    (P : nat -> (T -> proc) -> proc) res1 (Q : nat -> (U -> proc) -> proc) res2
    (R : nat -> V -> V -> (W -> proc) -> proc) res3 :
  realizes r1 P res1 -> realizes r2 Q res2 ->
  realizes r3 (fun me => R me (inj1 (res1 me)) (inj2 (res2 me))) res3 ->
  realizes (r1 ++ r2 ++ r3)
    (fun me k => Fork (P me (fun x => Ret (inj1 x))) (Q me (fun y => Ret (inj2 y))) (fun a b => R me a b k)) res3.
Proof.
move=> H1 H2 H3 plan ph /agrees_cat [A1 /agrees_cat [A2 A3]] me k js v Hm F.
rewrite !jds_cat -!catA.
have F1 : follows n plan me (P me (fun x => Ret (inj1 x))) (jds ph r1) (inj1 (res1 me)).
  by rewrite -[jds ph r1]cats0; apply: H1 => //; apply: follows_ret.
have F2 : follows n plan me (Q me (fun x => Ret (inj2 x))) (jds ph r2) (inj2 (res2 me)).
  by rewrite -[jds ph r2]cats0; apply: H2 => //; apply: follows_ret.
apply: (follows_fork F1 F2); exact: (H3 plan ph A3).
Qed.

(** ** From rounds to runs *)

(** Several phases, one after the other. *)
Fixpoint agrees_all (plan : J -> round D) (ph : nat) (rdss : seq rounds) : Prop :=
  if rdss is rds :: t then agrees plan ph rds /\ agrees_all plan ph.+1 t else True.

Fixpoint tagged (ph : nat) (rdss : seq rounds) : seq J :=
  if rdss is rds :: t then jds ph rds ++ tagged ph.+1 t else [::].

Lemma agrees_all_cat plan ph r1 r2 : agrees_all plan ph (r1 ++ r2) <->
  agrees_all plan ph r1 /\ agrees_all plan (ph + size r1) r2.
Proof.
elim: r1 ph => [|x r IH] ph /=; first by rewrite addn0; tauto.
by rewrite IH addSnnS; tauto.
Qed.

Lemma tagged_cat ph r1 r2 : tagged ph (r1 ++ r2) = tagged ph r1 ++ tagged (ph + size r1) r2.
Proof. by elim: r1 ph => [|x r IH] ph /=; rewrite ?addn0 // IH catA addSnnS. Qed.

(** The codes [P], given continuations, go through the phases [rdss]. *)
Definition unfolds (T : Type) (rdss : seq rounds) (P : nat -> (T -> proc) -> proc) (res : nat -> T) : Prop :=
  forall plan ph, agrees_all plan ph rdss -> forall me k js v, me < n ->
    follows n plan me (k (res me)) js v -> follows n plan me (P me k) (tagged ph rdss ++ js) v.

Lemma unfolds_ret T (res : nat -> T) : unfolds [::] (fun me k => k (res me)) res.
Proof. by move=> plan ph _ me k js v _. Qed.

Lemma unfolds_one T rds (P : nat -> (T -> proc) -> proc) res : realizes rds P res -> unfolds [:: rds] P res.
Proof. by move=> H plan ph /= [A _] me k js v Hm F; rewrite cats0; apply: H. Qed.

Lemma unfolds_seq T U r1 r2 (P : nat -> (T -> proc) -> proc) res1 (Q : nat -> T -> (U -> proc) -> proc) res2 :
  unfolds r1 P res1 -> unfolds r2 (fun me => Q me (res1 me)) res2 ->
  unfolds (r1 ++ r2) (fun me k => P me (fun x => Q me x k)) res2.
Proof.
move=> H1 H2 plan ph /agrees_all_cat [A1 A2] me k js v Hm F.
rewrite tagged_cat -catA; apply: (H1 plan ph A1 me) => //; exact: H2.
Qed.

Lemma unfolds_eq T rdss (P Q : nat -> (T -> proc) -> proc) res res' :
  (forall i k, i < n -> P i k = Q i k) -> (forall i, i < n -> res i = res' i) ->
  unfolds rdss P res -> unfolds rdss Q res'.
Proof.
move=> E1 E2 H plan ph A me k js v Hm F; rewrite -E1 //; apply: H => //; by rewrite E2.
Qed.

(** Every id once in a phase, no empty phase, and neighbouring phases use
    different ids. *)
Record alternating (rdss : seq rounds) : Prop := Alternating {
  alt_uniq : forall k, k < size rdss -> uniq (ids (nth [::] rdss k));
  alt_full : forall k, k < size rdss -> 0 < size (nth [::] rdss k);
  alt_apart : forall k id, k.+1 < size rdss -> id \in ids (nth [::] rdss k) -> id \notin ids (nth [::] rdss k.+1) }.

Lemma mem_tagged ph rdss (j : J) : reflect (exists k, [/\ k < size rdss, j.1 = ph + k & j.2 \in ids (nth [::] rdss k)])
  (j \in tagged ph rdss).
Proof.
apply: (iffP idP).
- elim: rdss ph => [|r t IH] ph //=; rewrite mem_cat => /orP[/mapP[id Hid ->]|/IH [k [Hk E Hj]]].
    by exists 0; rewrite addn0.
  by exists k.+1; rewrite addnS -addSn.
- case=> k [Hk E Hj]; elim: rdss ph k Hk E Hj => [|r t IH] ph [|k] //= Hk E Hj; rewrite mem_cat; apply/orP.
    by left; apply/mapP; exists j.2 => //; rewrite addn0 in E; rewrite -E; case: (j).
  by right; apply: (IH ph.+1 k) => //; rewrite addSnnS.
Qed.

Lemma tagged_phased rdss : alternating rdss -> phased (tagged 0 rdss).
Proof.
move=> [AU AF AA]; split.
- move: AU; elim: rdss 0 {AF AA} => [|r t IH] ph //= AU.
  rewrite cat_uniq map_inj_uniq ?(AU 0) //=; last by move=> x y [].
  rewrite IH ?andbT; last by move=> k Hk; exact: (AU k.+1).
  apply/negP => /hasP[j /mem_tagged [k [_ E _]] /mapP[id _ Ej]].
  by move: E; rewrite Ej /=; lia.
- elim: rdss 0 {AU AF AA} => [|r t IH] ph //=.
  rewrite (sorted_pairwise leq_trans) map_cat pairwise_cat -!(sorted_pairwise leq_trans) IH andbT.
  apply/andP; split.
    apply/allrelP => x y /mapP[a /mapP[id _ ->] ->] /mapP[b /mem_tagged [k [_ E _]] ->].
    by rewrite E /=; lia.
  by rewrite -map_comp; elim: (ids r) => [|x [|y l]] //= IH'; rewrite leqnn.
- move=> a b /mem_tagged [k [Hk Ea Ia]] /mem_tagged [k' [Hk' Eb Ib]] E Hlt.
  rewrite ltn_neqAle Hlt andbT; apply/eqP => E'; rewrite !add0n in Ea Eb.
  have E2 : k' = k.+1 by rewrite -Ea -Eb -E'.
  by move: (AA k a.2); rewrite -E2 => /(_ Hk' Ia); rewrite E Ib.
- move=> a b ph /mem_tagged [k [Hk Ea Ia]] /mem_tagged [k' [Hk' Eb Ib]] /andP[H1 H2].
  have Hp : ph < size rdss by rewrite add0n in Eb; rewrite Eb in H2; exact: ltn_trans H2 Hk'.
  move: (AF ph Hp); case E: (nth [::] rdss ph) => [|x r] // _.
  by exists (ph, x.1) => //; apply/mem_tagged; exists ph; rewrite Hp E /= mem_head.
Qed.

Definition plan_of (d0 : D) (rdss : seq rounds) (j : J) : round D :=
  let rds := nth [::] rdss j.1 in
  nth (Exch (fun _ _ => d0)) [seq x.2 | x <- rds] (index j.2 (ids rds)).

Lemma plan_of_agrees d0 rdss k : uniq (ids (nth [::] rdss k)) -> agrees (plan_of d0 rdss) k (nth [::] rdss k).
Proof.
suff H : forall r1 r2, nth [::] rdss k = r1 ++ r2 -> uniq (ids (r1 ++ r2)) -> agrees (plan_of d0 rdss) k r2.
  by move=> U; apply: (H [::]).
move=> r1 r2; elim: r2 r1 => [|x r2 IH] r1 //= E U; split; last first.
  by apply: (IH (rcons r1 x)); rewrite cat_rcons.
move: U; rewrite /plan_of /= E ids_cat cat_uniq /= => /and3P [_ U _].
have Hx : (x.1 \in ids r1) = false by apply/negbTE; move: U; rewrite negb_or => /andP [].
by rewrite index_cat Hx /= eqxx addn0 map_cat nth_cat !size_map ltnn subnn.
Qed.

Lemma plan_of_agrees_all d0 rdss : (forall k, k < size rdss -> uniq (ids (nth [::] rdss k))) ->
  agrees_all (plan_of d0 rdss) 0 rdss.
Proof.
move=> U.
suff H : forall m k, m + k = size rdss -> agrees_all (plan_of d0 rdss) k (drop k rdss).
  by rewrite -[X in agrees_all _ _ X]drop0; apply: (H (size rdss)); rewrite addn0.
elim=> [|m IH] k E; first by rewrite drop_oversize //; lia.
have Hk : k < size rdss by lia.
rewrite (drop_nth [::]) //=; split; last by apply: IH; lia.
by apply: plan_of_agrees; apply: U.
Qed.

Theorem unfolds_runs T (d0 : D) rdss (P : nat -> (T -> proc) -> proc) res (inj : T -> V) :
  alternating rdss -> unfolds rdss P res ->
  every_run_ends n (start (fun i => P i (fun x => Ret (inj x)))) (all_done n (fun i => inj (res i))).
Proof.
move=> A H; apply: (follows_runs n_pos (plan := plan_of d0 rdss) (tagged_phased A)) => i Hi.
rewrite -[tagged 0 rdss]cats0; apply: H => //; [apply: plan_of_agrees_all; exact: alt_uniq A|apply: follows_ret].
Qed.

(** One phase, which may be empty. *)
Lemma jds_phased rds : uniq (ids rds) -> phased (jds 0 rds).
Proof.
case: rds => [|x r] U; first by split=> //.
have -> : jds 0 (x :: r) = tagged 0 [:: x :: r] by rewrite /= cats0.
by apply: tagged_phased; split=> [[|k]|[|k]|k id].
Qed.

Theorem realizes_runs T (d0 : D) rds (P : nat -> (T -> proc) -> proc) res (inj : T -> V) :
  uniq (ids rds) -> realizes rds P res ->
  every_run_ends n (start (fun i => P i (fun x => Ret (inj x)))) (all_done n (fun i => inj (res i))).
Proof.
move=> U H; apply: (follows_runs n_pos (plan := plan_of d0 [:: rds]) (jds_phased U)) => i Hi.
rewrite -[jds 0 rds]cats0; apply: H => //; last exact: follows_ret.
exact: (@plan_of_agrees d0 [:: rds] 0).
Qed.

End Realize.

(** Protocols made of rounds (MachineProofs, Realize) on the network stack. *)

From Coq Require Import NArith.
From mathcomp Require Import all_ssreflect zify.
From Verif Require Import MachineModel MachineProofs MachineBuild Realize RouterModel RouteModel RouteSpec RouteProofs.
From Verif Require Import StackModel StackSpec StackProofs StackRun.
Set Implicit Arguments.
Unset Strict Implicit.
Unset Printing Implicit Defensive.

Section Listen.
Variables (n : nat) (D : eqType) (V : Type).
Notation I := [eqType of seq N].
Notation proc := (proc I D V).
Notation J := (prod_eqType nat_eqType I).
Variable plan : J -> round D.

(** Code that follows a plan listens to rounds of one phase. *)
Lemma foll_listens me (p : proc) O z v : foll n plan me p O z v ->
  exists js ph, [/\ listens p = [seq j.2 | j <- js], subseq js [seq e.1 | e <- O] & all (fun j : J => j.1 == ph) js].
Proof.
elim=> {p O z v}; try (by move=> *; exists [::], 0; rewrite sub0seq).
- move=> id dd got k O z v _ _ _ _ _ /=; case: (all _ _); first by exists [::], 0.
  by exists [:: id], id.1; rewrite /= !eqxx sub0seq.
- move=> id up dn got k O z v _ _ _ _ _ /=; case: (all _ _); first by exists [::], 0.
  by exists [:: id], id.1; rewrite /= !eqxx sub0seq.
- by move=> id L up dn k O *; exists [:: id], id.1; rewrite /= !eqxx sub0seq.
move=> p q k ph O1 O2 O3 z1 z2 z3 v1 v2 v P1 P2 _ [js1 [ph1 [E1 S1 _]]] _ [js2 [ph2 [E2 S2 _]]] _ _.
have in_ph O js : in_phase ph O -> subseq js [seq e.1 | e <- O] -> all (fun j : J => j.1 == ph) js.
  move=> PO S; have : all (fun j : J => j.1 == ph) [seq e.1 | e <- O] by rewrite all_map.
  by move=> /allP A; apply/allP => j /(mem_subseq S); exact: A.
exists (js1 ++ js2), ph; rewrite /= E1 E2 map_cat all_cat (in_ph O1) // (in_ph O2) //; split=> //.
by rewrite !map_cat catA; apply: subseq_trans (prefix_subseq _ _); rewrite cat_subseq.
Qed.

Lemma foll_clear me (p : proc) O z v : foll n plan me p O z v -> uniq [seq e.1 | e <- O] -> uniq (listens p).
Proof.
move=> /foll_listens [js [ph [-> S /allP Hph]]] U; rewrite map_inj_in_uniq; first exact: subseq_uniq S U.
by move=> [a1 a2] [b1 b2] /Hph /= /eqP -> /Hph /= /eqP -> ->.
Qed.

Lemma sendT_range me id x to d y : sendT n plan me id x to d y -> in_range n to.
Proof. by case. Qed.

End Listen.

Section OnStack.
Variables (n : nat) (D : eqType) (enc : D -> seq N) (V : Type).
Hypothesis n_pos : 0 < n.
Hypothesis enc_inj : injective enc.
Notation I := [eqType of seq N].
Notation proc := (proc I D V).
Notation J := (prod_eqType nat_eqType I).

(** What is asked of a network (satisfied by both, below). *)
Record network (X : Type) (nstep : X -> label -> X -> Prop) (out : X -> nat -> seq (nat * payload)) (x0 : X)
    (ok : smsg -> Prop) : Prop := Network {
  nw_delivers : delivers nstep n x0 out ok;
  nw_out0 : forall j, out x0 j = [::];
  nw_call : forall x i m x', nstep x (Call i m) x' -> forall j, out x' j = out x j;
  nw_tau : forall x x', nstep x Tau x' -> (forall j, out x' j = out x j) \/
    exists j y, j < n /\ forall j', out x' j' = if j' == j then rcons (out x j) y else out x j';
  nw_can_call : forall x i m, i < n -> exists x', nstep x (Call i m) x' }.

Variables (X : Type) (nstep : X -> label -> X -> Prop) (out : X -> nat -> seq (nat * payload)) (x0 : X) (ok : smsg -> Prop).
Hypothesis NX : network nstep out x0 ok.

(** In every reachable state of code that follows a plan. *)
Lemma follows_reach (plan : J -> round D) (P : nat -> proc) (js : seq J) (res : nat -> V) : phased js ->
  (forall j to d, j \in js -> in_range n to -> ok (to, (j.2, enc d))) ->
  (forall i, i < n -> follows n plan i (P i) js (res i)) ->
  (forall k c i to id d p, gsteps n k (start P) c -> i < n -> lstep (procs c i) (ASend to id d) p ->
     in_range n to /\ ok (to, (id, enc d))) /\
  (forall k c i, gsteps n k (start P) c -> i < n -> uniq (listens (procs c i))).
Proof.
move=> U Hok H; have [z Hz] := follows_z H; have HI := start_inv n_pos Hz.
split=> [k c i to id d p S Hi L|k c i S Hi].
- have [gn [gm [O [z' [HI' _]]]]] := steps_inv n_pos U HI S.
  have [j [A [x [y [B [[<- _] EO _ T]]]]]] := foll_send (iF HI' Hi) L.
  have R := sendT_range T; split=> //; apply: Hok => //.
  by apply: (mem_subseq (iU HI' Hi)); rewrite EO map_cat mem_cat /= in_cons eqxx orbT.
- have [gn [gm [O [z' [HI' _]]]]] := steps_inv n_pos U HI S.
  exact: foll_clear (iF HI' Hi) (subseq_uniq (iU HI' Hi) (ph_uniq U)).
Qed.

Theorem follows_on_stack (plan : J -> round D) (P : nat -> proc) (js : seq J) (res : nat -> V) : phased js ->
  (forall j to d, j \in js -> in_range n to -> ok (to, (j.2, enc d))) ->
  (forall i, i < n -> follows n plan i (P i) js (res i)) ->
  ends_in (sstep n enc nstep out) (stack_done n out res) (stack_start n x0 P).
Proof.
move=> U Hok H; have [Hs Hc] := follows_reach U Hok H; case: NX => N1 N2 N3 N4 N5.
exact: (stack_ends enc_inj N1 N2 N3 N4 N5 Hs Hc (follows_runs n_pos U H)).
Qed.

(** Code made of phases. *)
Lemma unfolds_reach T (d0 : D) rdss (P : nat -> (T -> proc) -> proc) res (inj : T -> V) :
  alternating rdss -> unfolds n rdss P res ->
  (forall k id to d, k < size rdss -> id \in ids (nth [::] rdss k) -> in_range n to -> ok (to, (id, enc d))) ->
  let Q i := P i (fun x => Ret (inj x)) in
  (forall k c i to id d p, gsteps n k (start Q) c -> i < n -> lstep (procs c i) (ASend to id d) p ->
     in_range n to /\ ok (to, (id, enc d))) /\
  (forall k c i, gsteps n k (start Q) c -> i < n -> uniq (listens (procs c i))).
Proof.
move=> A H Hok Q; apply: (@follows_reach (plan_of d0 rdss) Q (tagged 0 rdss) (fun i => inj (res i)) (tagged_phased n_pos A)) => [j to d /mem_tagged [k [Hk _ Hj]]|i Hi].
  exact: Hok Hk Hj.
rewrite -[tagged 0 rdss]cats0; apply: H => //; [exact: (plan_of_agrees_all n_pos d0 (alt_uniq A))|apply: follows_ret].
Qed.

Theorem unfolds_on_stack T (d0 : D) rdss (P : nat -> (T -> proc) -> proc) res (inj : T -> V) :
  alternating rdss -> unfolds n rdss P res ->
  (forall k id to d, k < size rdss -> id \in ids (nth [::] rdss k) -> in_range n to -> ok (to, (id, enc d))) ->
  ends_in (sstep n enc nstep out) (stack_done n out (fun i => inj (res i))) (stack_start n x0 (fun i => P i (fun x => Ret (inj x)))).
Proof.
move=> A H Hok; apply: (@follows_on_stack (plan_of d0 rdss) (fun i => P i (fun x => Ret (inj x))) (tagged 0 rdss) (fun i => inj (res i)) (tagged_phased n_pos A)) => [j to d /mem_tagged [k [Hk _ Hj]]|i Hi].
  exact: Hok Hk Hj.
rewrite -[tagged 0 rdss]cats0; apply: H => //; [exact: (plan_of_agrees_all n_pos d0 (alt_uniq A))|apply: follows_ret].
Qed.

Theorem realizes_on_stack T (d0 : D) rds (P : nat -> (T -> proc) -> proc) res (inj : T -> V) :
  uniq (ids rds) -> realizes n rds P res ->
  (forall id to d, id \in ids rds -> in_range n to -> ok (to, (id, enc d))) ->
  ends_in (sstep n enc nstep out) (stack_done n out (fun i => inj (res i))) (stack_start n x0 (fun i => P i (fun x => Ret (inj x)))).
Proof.
move=> U H Hok; apply: (@follows_on_stack (plan_of d0 [:: rds]) (fun i => P i (fun x => Ret (inj x))) (jds 0 rds) (fun i => inj (res i)) (jds_phased n_pos U)) => [j to d /mapP[id Hid ->]|i Hi].
  exact: Hok.
rewrite -[jds 0 rds]cats0; apply: H => //; last exact: follows_ret.
exact: (@plan_of_agrees _ _ d0 [:: rds] 0).
Qed.

End OnStack.

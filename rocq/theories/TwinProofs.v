(** Two executions that look the same to a set of parties. *)

From Coq Require List.
From mathcomp Require Import all_ssreflect zify.
From Verif Require Import MachineModel MachineProofs MachineBuild Realize ViewSpec SentProofs.
Set Implicit Arguments.
Unset Strict Implicit.
Unset Printing Implicit Defensive.

Section Twins.
Variables (n : nat) (I D : eqType) (A : seq nat).
Notation rounds := (seq (I * round D)).

(** The parties in [A] receive the same in both rounds. *)
Definition alike (rd rd' : round D) : Prop :=
  match rd, rd' with
  | Exch dd, Exch dd' => forall s a, s < n -> a \in A -> dd s a = dd' s a
  | Lead L up dn, Lead L' up' dn' =>
      [/\ L = L', L < n, L \in A -> forall s, s < n -> up s = up' s & forall a, a \in A -> dn a = dn' a]
  | _, _ => False
  end.

Fixpoint twins (r r' : rounds) : Prop :=
  match r, r' with
  | [::], [::] => True
  | x :: r, x' :: r' => [/\ x.1 = x'.1, alike x.2 x'.2 & twins r r']
  | _, _ => False
  end.

Lemma alike_lead L up dn : L < n -> alike (Lead L up dn) (Lead L up dn).
Proof. by []. Qed.

Lemma alike_sym rd rd' : alike rd rd' -> alike rd' rd.
Proof.
case: rd rd' => [dd|L up dn] [dd'|L' up' dn'] //=; first by move=> H s a Hs Ha; rewrite H.
case=> E HL H1 H2; rewrite -E; split=> // [Ha s Hs|a Ha]; by rewrite ?H1 ?H2.
Qed.

Lemma twins_sym r r' : twins r r' -> twins r' r.
Proof. by elim: r r' => [|x r IH] [|x' r'] //= [-> H1 /IH H2]; split=> //; apply: alike_sym. Qed.

Lemma twins_ids r r' : twins r r' -> ids r = ids r'.
Proof. by elim: r r' => [|x r IH] [|x' r'] //= [-> _ /IH ->]. Qed.

Lemma twins_cat r1 r1' r2 r2' : twins r1 r1' -> twins r2 r2' -> twins (r1 ++ r2) (r1' ++ r2').
Proof. by elim: r1 r1' => [|x r IH] [|x' r'] //= [-> H1 H2] H; split=> //; apply: IH. Qed.

Lemma twins_flat (T : Type) (f f' : T -> rounds) s : (forall x, List.In x s -> twins (f x) (f' x)) -> twins (flatten (map f s)) (flatten (map f' s)).
Proof. elim: s => //= x s IH H; apply: twins_cat; [by apply: H; left|by apply: IH => y Hy; apply: H; right]. Qed.

Lemma twins_in r r' id rd : twins r r' -> List.In (id, rd) r -> exists2 rd', List.In (id, rd') r' & alike rd rd'.
Proof.
elim: r r' => [|x r IH] [|[id' rd'] r'] //= [E H1 H2] [Ex|Hin]; last by have [y] := IH _ H2 Hin; exists y => //; right.
by move: E H1; rewrite Ex /= => <- H1; exists rd' => //; left.
Qed.

Hypothesis n_pos : 0 < n.
Hypothesis HA : all (fun i => i < n) A.
Variable V : Type.

Lemma sent_some (T : Type) (rds : rounds) (P : nat -> (T -> proc I D V) -> proc I D V) res inj (d0 : D) s r id d :
  uniq (ids rds) -> realizes n rds P res -> r < n -> sent_in n (fun i => P i (fun x => Ret (inj x))) s r id d ->
  exists rd, List.In (id, rd) rds.
Proof.
move=> U HR Hr [k [c [S Hm]]]; have [z Hz] := code_follows inj d0 U HR.
have HI := start_inv n_pos Hz.
have [gn [gm [O [z' [HI' _]]]]] := steps_inv n_pos (jds_phased n_pos U) HI S.
have [j [t [Hj Ej _ _ _]]] := net_payload HI' Hr Hm.
move: Hj Ej => /mapP[id' Hid ->] /= <-; elim: (rds) Hid => //= x q IH; rewrite in_cons => /orP[/eqP ->|/IH [y Hy]].
- by exists x.2; left; case: (x).
- by exists y; right.
Qed.

Lemma twin_sent T T' (rds rds' : rounds) (P : nat -> (T -> proc I D V) -> proc I D V) res inj
    (P' : nat -> (T' -> proc I D V) -> proc I D V) res' inj' (d0 : D) s r id d :
  uniq (ids rds) -> realizes n rds P res -> realizes n rds' P' res' -> twins rds rds' -> r \in A ->
  sent_in n (fun i => P i (fun x => Ret (inj x))) s r id d -> sent_in n (fun i => P' i (fun x => Ret (inj' x))) s r id d.
Proof.
move=> U HR HR' HT Hr S; have Hrn := allP HA r Hr.
have U' : uniq (ids rds') by rewrite -(twins_ids HT).
have [rd Hin] := sent_some d0 U HR Hrn S; have [rd' Hin' Hal] := twins_in HT Hin.
have [t [Ht Ho Ep]] := sent_plan n_pos d0 U HR Hin Hrn S.
have := @plan_sent n I D V n_pos _ rds' P' res' inj' d0 U' HR' r id rd' t Hin' Hrn Ht.
case: rd rd' {Hin Hin'} Hal Ho Ep => [dd|L up dn] [dd'|L' up' dn'] //=.
- by case: t Ht => [s'|] //; rewrite toks_some => Hs' Hal _ [<- <-] /=; rewrite -Hal // => H; apply: H.
- case: t Ht => [s'|]; rewrite ?toks_some => Hs' [<- HL H1 H2] Ho /=.
  + have EL := eqP Ho; rewrite EL in Hr * => -[<- <-] /=; rewrite H1 //; by apply.
  + by case=> <- <- /=; rewrite H2 // => H; apply: H.
Qed.

Lemma twin_view T T' (rds rds' : rounds) (P : nat -> (T -> proc I D V) -> proc I D V) res inj
    (P' : nat -> (T' -> proc I D V) -> proc I D V) res' inj' (d0 : D) s r id d :
  uniq (ids rds) -> realizes n rds P res -> realizes n rds' P' res' -> twins rds rds' -> r \in A ->
  sent_in n (fun i => P i (fun x => Ret (inj x))) s r id d <-> sent_in n (fun i => P' i (fun x => Ret (inj' x))) s r id d.
Proof.
move=> U HR HR' HT Hr; have U' : uniq (ids rds') by rewrite -(twins_ids HT).
split; [by move=> S; apply: (@twin_sent T T' rds rds' P res inj P' res' inj' d0 s r id d U HR HR' HT Hr S)|by move=> S; apply: (@twin_sent T' T rds' rds P' res' inj' P res inj d0 s r id d U' HR' HR (twins_sym HT) Hr S)].
Qed.
End Twins.

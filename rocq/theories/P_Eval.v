(** Property theorem C18, continued: [Circuit::eval] on arbitrary circuits. *)

From Coq Require Import Arith NArith List Bool Lia.
From Verif Require Import CircuitModel CircuitSpec CircuitEval.
Import ListNotations.
Local Open Scope N_scope.

(** The wires an evaluation of a circuit touches: the input wires for which there
    is a value, the wires of the gates and the output wires. *)
Definition assigned (c : circuit) (vals : list (list bool)) : list (N * bool) :=
  flat_map (fun x => combine (fst x) (snd x)) (combine (c_inputs c) vals).
Definition gate_wires (g : gate) : list N :=
  match g with Xor a b o | And a b o => [a; b; o] | Inv a o => [a; o] end.
Definition touched (c : circuit) (vals : list (list bool)) : list N :=
  map fst (assigned c vals) ++ flat_map gate_wires (c_gates c) ++ concat (c_outputs c).

(** Executing assignments and gates one after the other, on wires 0, 1, ... that are false at first. *)
Definition set (s : N -> bool) (w : N) (v : bool) : N -> bool := fun u => if u =? w then v else s u.
Definition exec_gate (s : N -> bool) (g : gate) : N -> bool :=
  match g with
  | Xor a b o => set s o (xorb (s a) (s b))
  | And a b o => set s o (s a && s b)
  | Inv a o => set s o (negb (s a))
  end.
Definition exec (c : circuit) (vals : list (list bool)) : N -> bool :=
  fold_left exec_gate (c_gates c) (fold_left (fun s x => set s (fst x) (snd x)) (assigned c vals) (fun _ => false)).

Definition agrees (n : N) (ws : list bool) (s : N -> bool) : Prop := len ws = n /\ forall w, w < n -> val ws w = s w.

Lemma upd_none (A : Type) (l : list A) i v : (length l <= i)%nat -> upd l i v = None.
Proof.
  revert i. induction l as [|x l IH]; intros [|i] H; simpl in *; try reflexivity; try lia.
  now rewrite IH by lia.
Qed.

Lemma wget_none ws w : len ws <= w -> wget ws w = None.
Proof. unfold len, wget. intro H. apply nth_error_None. lia. Qed.

Lemma wset_none ws w v : len ws <= w -> wset ws w v = None.
Proof. unfold len, wset. intro H. apply upd_none. lia. Qed.

Lemma agrees_set n ws s w v : agrees n ws s -> w < n -> exists ws', wset ws w v = Some ws' /\ agrees n ws' (set s w v).
Proof.
  intros [L V] H. destruct (wset_ok ws w v) as (ws' & E & L' & V'); [lia|]. exists ws'. split; [exact E|].
  split; [lia|]. intros u Hu. rewrite V'. unfold set. now destruct (u =? w); [|apply V].
Qed.

Definition inr (n : N) (l : list N) : bool := forallb (fun w => w <? n) l.

Lemma inr_app n a b : inr n (a ++ b) = inr n a && inr n b.
Proof. apply forallb_app. Qed.

Definition matches (n : N) (r : option (list bool)) (ok : bool) (s : N -> bool) : Prop :=
  if ok then exists ws, r = Some ws /\ agrees n ws s else r = None.

Lemma set_group_matches n l : forall ws s, agrees n ws s ->
  matches n (set_group ws l) (inr n (map fst l)) (fold_left (fun s x => set s (fst x) (snd x)) l s).
Proof.
  induction l as [|[w v] l IH]; intros ws s H; simpl.
  - exists ws. auto.
  - destruct (N.ltb_spec w n) as [Hw|Hw]; simpl.
    + destruct (agrees_set n ws s w v H Hw) as (ws' & E & H'). rewrite E. simpl. now apply IH.
    + rewrite wset_none by (destruct H; lia). reflexivity.
Qed.

Lemma set_inputs_matches n l : forall ws s, agrees n ws s ->
  let a := flat_map (fun x => combine (fst x) (snd x)) l in
  matches n (set_inputs ws l) (inr n (map fst a)) (fold_left (fun s x => set s (fst x) (snd x)) a s).
Proof.
  induction l as [|[g v] l IH]; intros ws s H; cbn [flat_map set_inputs fst snd].
  - exists ws. auto.
  - rewrite map_app, inr_app, fold_left_app. pose proof (set_group_matches n (combine g v) ws s H) as M.
    unfold matches in M. destruct (inr n (map fst (combine g v))); cbn [andb].
    + destruct M as (ws' & -> & H'). cbn [obind]. now apply IH.
    + now rewrite M.
Qed.

Lemma eval_gate_matches n g ws s : agrees n ws s -> matches n (eval_gate ws g) (inr n (gate_wires g)) (exec_gate s g).
Proof.
  intros H. pose proof H as [L V].
  assert (G : forall w, wget ws w = if w <? n then Some (s w) else None).
  { intro w. destruct (N.ltb_spec w n); [rewrite wget_ok, V by lia; reflexivity|apply wget_none; lia]. }
  assert (S : forall w v, matches n (wset ws w v) (w <? n) (set s w v)).
  { intros w v. unfold matches. destruct (N.ltb_spec w n); [now apply agrees_set|apply wset_none; lia]. }
  destruct g as [a b o|a b o|a o]; cbn [eval_gate gate_wires exec_gate inr forallb]; rewrite !G.
  - destruct (a <? n); [|reflexivity]. cbn [obind andb]. destruct (b <? n); [|reflexivity]. cbn [obind andb].
    rewrite andb_true_r. replace (negb (Bool.eqb (s a) (s b))) with (xorb (s a) (s b)) by now destruct (s a), (s b). apply S.
  - destruct (a <? n); [|reflexivity]. cbn [obind andb]. destruct (b <? n); [|reflexivity]. cbn [obind andb].
    rewrite andb_true_r. apply S.
  - destruct (a <? n); [|reflexivity]. cbn [obind andb]. rewrite andb_true_r. apply S.
Qed.

Lemma eval_gates_matches n l : forall ws s, agrees n ws s ->
  matches n (eval_gates ws l) (inr n (flat_map gate_wires l)) (fold_left exec_gate l s).
Proof.
  induction l as [|g l IH]; intros ws s H; cbn [flat_map eval_gates fold_left].
  - exists ws. auto.
  - rewrite inr_app. pose proof (eval_gate_matches n g ws s H) as M. unfold matches in M.
    destruct (inr n (gate_wires g)); cbn [andb].
    + destruct M as (ws' & -> & H'). cbn [obind]. now apply IH.
    + now rewrite M.
Qed.

Lemma get_matches n ws s l : agrees n ws s -> omapM (wget ws) l = if inr n l then Some (map s l) else None.
Proof.
  intros [L V]. induction l as [|w l IH]; [reflexivity|]. simpl. rewrite IH.
  destruct (N.ltb_spec w n); simpl.
  - rewrite wget_ok, V by lia. simpl. unfold inr. now destruct (forallb _ l).
  - now rewrite wget_none by lia.
Qed.

Lemma gets_matches n ws s l : agrees n ws s ->
  omapM (omapM (wget ws)) l = if inr n (concat l) then Some (map (map s) l) else None.
Proof.
  intro H. induction l as [|g l IH]; [reflexivity|]. simpl. rewrite (get_matches n ws s g H), inr_app, IH.
  destruct (inr n g); [|reflexivity]. simpl. now destruct (inr n (concat l)).
Qed.

(** [eval] panics exactly if a wire it touches does not exist; otherwise it returns
    what executing the gates in the order of the file yields. *)
Theorem C18_eval_exact : forall c vals, eval c vals =
  if forallb (fun w => w <? c_num_wires c) (touched c vals) then Some (map (map (exec c vals)) (c_outputs c)) else None.
Proof.
  intros c vals. fold (inr (c_num_wires c) (touched c vals)). unfold touched, eval, exec, assigned. rewrite !inr_app.
  set (n := c_num_wires c).
  assert (H0 : agrees n (repeat false (N.to_nat n)) (fun _ => false)).
  { split; [unfold len; rewrite repeat_length; lia|]. intros w _. unfold val. apply nth_repeat. }
  pose proof (set_inputs_matches n (combine (c_inputs c) vals) _ _ H0) as M. cbv zeta in M. unfold matches in M.
  destruct (inr n (map fst _)); cbn [andb]; [|now rewrite M].
  destruct M as (ws & -> & H1). cbn [obind]. pose proof (eval_gates_matches n (c_gates c) _ _ H1) as M. unfold matches in M.
  destruct (inr n (flat_map gate_wires _)); cbn [andb]; [|now rewrite M].
  destruct M as (ws' & -> & H2). cbn [obind]. now apply gets_matches.
Qed.
Print Assumptions C18_eval_exact.

(** A circuit that is not well formed: wire 2 is read before it is written and written twice. *)
Example C18_eval_exact_example :
  eval (Circuit [Xor 2 0 3; Inv 0 2; And 2 1 2] [[0]; [1]] [[3; 2]] 4) [[true]; [true]] = Some [[true; false]] /\
  eval (Circuit [Xor 0 4 3] [[0]; [1]] [[3]] 4) [[true]; [true]] = None.
Proof. split; reflexivity. Qed.

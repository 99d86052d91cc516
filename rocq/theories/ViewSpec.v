(** When a set of parties cannot tell two executions apart. *)

From mathcomp Require Import all_ssreflect.
From Verif Require Import MachineModel.
Set Implicit Arguments.
Unset Strict Implicit.
Unset Printing Implicit Defensive.

Section View.
Variables (n : nat) (I D : eqType) (V : Type).

(** The parties in [A] run the code [Q], the others [P]. *)
Definition with_code (A : seq nat) (Q P : nat -> proc I D V) : nat -> proc I D V :=
  fun i => if i \in A then Q i else P i.

(** Whatever happens in the first system can happen in the second, step by
    step, with the same messages in flight and in all mailboxes, and with the
    parties in [A] in the same local states.  [same] relates the results of
    the other parties. *)
Definition simulated (A : seq nat) (same : nat -> V -> V -> Prop) (P P' : nat -> proc I D V) : Prop :=
  forall k c, gsteps n k (start P) c -> exists c',
    [/\ gsteps n k (start P') c', net c' = net c, forall i, mbox c' i = mbox c i,
        forall i, i < n -> i \in A -> procs c' i = procs c i &
        forall i v, i < n -> i \notin A -> procs c i = Ret v -> exists2 v', procs c' i = Ret v' & same i v v'].

Definition indistinguishable (A : seq nat) (same : nat -> V -> V -> Prop) (P P' : nat -> proc I D V) : Prop :=
  simulated A same P P' /\ simulated A (fun i v v' => same i v' v) P' P.

(** In some execution [s] sends [r] the data [d] on the id [id]. *)
Definition sent_in (P : nat -> proc I D V) (s r : nat) (id : I) (d : D) : Prop :=
  exists k c, gsteps n k (start P) c /\ (r, (id, (s, d))) \in net c.

End View.

(** Model of the benchmark programs: the loop of repetitions of bin/garble.rs
    and bin/preproc.rs. *)

From mathcomp Require Import all_ssreflect.
From Verif Require Import MachineModel.
Set Implicit Arguments.
Unset Strict Implicit.
Unset Printing Implicit Defensive.

Section Loop.

Variables (n : nat) (I D : eqType) (V : Type).
Notation proc := (proc I D V).

(** bin/garble.rs:114-141 and bin/preproc.rs:114-145, [for i in 0..opts.reps]:
    prepare the material of the repetition (in preproc.rs there is none),
    [sync] on the id [b], run the protocol.  The programs drop the protocol's
    result and keep only times and numbers of bytes; here the results are
    collected, for theorems to speak of.  [Stats] and printing are left out. *)
Fixpoint bench_loop (S T : Type) (b : I) (d : D) (prep : nat -> option S) (body : nat -> S -> (T -> proc) -> proc)
    (rs : seq nat) (k : seq T -> proc) : proc :=
  if rs is r :: rs' then
    if prep r is Some s then
      sync n b d (body r s (fun y => bench_loop b d prep body rs' (fun ys => k (y :: ys))))
    else Panic
  else k [::].

End Loop.

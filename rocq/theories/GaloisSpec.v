(** Specification vocabulary for the field properties: call histories of one
    process and the defining polynomials. *)

From Coq Require Import ZArith NArith List Bool.
From Verif Require Import GaloisModel.
Import ListNotations.

(** Polynomial of degree [w] defining GF(2^w): the library's table entry,
    except that the width-1 entry omits the leading coefficient. *)
Definition field_poly (w : N) : N := if (w =? 1)%N then 3%N else prim_poly w.

(** Calls a program can make before doing arithmetic. *)
Inductive gcall :=
| CallInit (m1 m2 : bool) (w : N)   (* GF::<w>::init(), with malloc outcomes *)
| CallRand (w : N) (coin : N -> N). (* GF::<w>::rand(rng) *)

Inductive gout :=
| OutInit (ok : bool)
| OutRand (v : N).

Fixpoint run_calls (cs : list gcall) (g : gstate) : cres (gstate * list gout) :=
  match cs with
  | [] => Done (g, [])
  | CallInit m1 m2 w :: cs' =>
      cbind (gf_init m1 m2 w g) (fun r =>
      cbind (run_calls cs' (fst r)) (fun q => Done (fst q, OutInit (snd r) :: snd q)))
  | CallRand w coin :: cs' =>
      let r := gf_rand w coin g in
      cbind (run_calls cs' (snd r)) (fun q => Done (fst q, OutRand (fst r) :: snd q))
  end.

(** A call of width [w] made in a process with enough memory and with a
    generator that samples below its bound. *)
Definition good_call (w : N) (c : gcall) : Prop :=
  match c with
  | CallInit m1 m2 v => m1 = true /\ m2 = true /\ v = w
  | CallRand v coin => v = w /\ forall b, (0 < b)%N -> (coin b < b)%N
  end.

Definition is_init (c : gcall) : Prop :=
  match c with CallInit _ _ _ => True | CallRand _ _ => False end.

(** A single-width history that has initialised the field. *)
Definition initialised (w : N) (g : gstate) : Prop :=
  exists cs outs, Forall (good_call w) cs /\ Exists is_init cs /\
                  run_calls cs g_start = Done (g, outs).

(** Model of math/mod.rs:79-105, the loader of the binary super-invertible
    matrix.  The file is the list of its bytes; opening it and I/O errors are not
    modelled.  A panic is [None].  Invalid UTF-8 (also a panic) has a byte of at
    least 128 and is hence refused like any other token. *)

From Coq Require Import NArith.
From mathcomp Require Import all_ssreflect all_algebra.
From Verif Require Import MathModel.
Set Implicit Arguments.
Unset Strict Implicit.
Unset Printing Implicit Defensive.
Import GRing.Theory.
Local Open Scope ring_scope.

(** [str::split] by a character: the pieces between its occurrences.
    math/mod.rs:90. *)
Fixpoint split_on (c : N) (t : seq N) : seq (seq N) :=
  if t is x :: t' then
    let r := split_on c t' in
    if x == c then [::] :: r else (x :: head [::] r) :: behead r
  else [:: [::]].

(** One carriage return before the line feed is dropped, too.  math/mod.rs:87. *)
Definition strip_cr (l : seq N) : seq N := if last 0%num l == 13%num then take (size l).-1 l else l.

(** [BufRead::lines]: what precedes each line feed, and what follows the last one
    unless it is empty.  math/mod.rs:87. *)
Fixpoint lines_of (ps : seq (seq N)) : seq (seq N) :=
  match ps with
  | [::] => [::]
  | [:: l] => if l is [::] then [::] else [:: l]
  | l :: ps' => strip_cr l :: lines_of ps'
  end.
(** math/mod.rs:87. *)
Definition file_lines (t : seq N) : seq (seq N) := lines_of (split_on 10 t).

Section Load.
Variable F : fieldType.

(** math/mod.rs:91-95; the characters are 48 and 49. *)
Definition bin_token (t : seq N) : option F :=
  if t == [:: 48%num] then Some 0 else if t == [:: 49%num] then Some 1 else None.

(** math/mod.rs:90-96: one line. *)
Definition bin_line (l : seq N) : option (seq F) := all_some [seq bin_token w | w <- split_on 32 l].

(** [Array::from_shape_vec]: an error unless the sizes agree.  math/mod.rs:102. *)
Definition from_shape_vec (r c : nat) (v : seq F) : option (mat F) :=
  if size v == (r * c)%N then Some (Mat c [seq take c (drop (i * c)%N v) | i <- iota 0 r]) else None.

(** math/mod.rs:79-105 [binary_super_inv_matrix]; dividing by zero rows panics. *)
Definition binary_super_inv_matrix (t : seq N) : option (mat F) :=
  obind (fun rs =>
    let matrix := flatten rs in
    let num_rows := size rs in
    if num_rows == 0%N then None
    else omap (@reversed_axes F) (from_shape_vec num_rows (size matrix %/ num_rows)%N matrix))
    (all_some [seq bin_line l | l <- file_lines t]).
End Load.

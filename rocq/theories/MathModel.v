(** Model of src/math/mod.rs over an arbitrary field.  [emb] stands for
    [GF::from] restricted to in-range integers. *)

From mathcomp Require Import all_ssreflect all_algebra.
Set Implicit Arguments.
Unset Strict Implicit.
Unset Printing Implicit Defensive.
Import GRing.Theory.
Local Open Scope ring_scope.

Section Math.
Variable F : fieldType.
Variable emb : nat -> F.

(** [ndarray::Array2]: the number of columns is kept separately because a matrix may
    have no rows. Rows are in row-major order.  math/mod.rs:15, 73, 79, 108. *)
Record mat := Mat { ncols : nat; rows : seq (seq F) }.

(** Sums and products of sequences.  The code uses rayon reductions
    (math/mod.rs:35-38, 54-57); the result does not depend on how the
    reduction is bracketed because the operation is associative. *)
Definition prodl (s : seq F) : F := foldr *%R 1 s.
Definition suml (s : seq F) : F := foldr +%R 0 s.
Definition dotv (r v : seq F) : F := suml [seq x.1 * x.2 | x <- zip r v].

(** [ndarray::dot] of a matrix and a vector, on operands of matching size.
    sharing.rs:61, 83, 137, 146, 157. *)
Definition mdot (m : mat) (v : seq F) : seq F := [seq dotv r v | r <- rows m].

(** [ndarray::dot] including its panic on mismatching sizes.  sharing.rs:61, 83, 137,
    146, 157. *)
Definition mdot_chk (m : mat) (v : seq F) : option (seq F) :=
  if size v == ncols m then Some (mdot m v) else None.

(** math/mod.rs:30-39.  [x - x] is replaced by one. *)
Definition lagrange_denom (cpos : seq F) : seq F :=
  [seq prodl [seq if v == x then 1 else v - x | x <- cpos] | v <- cpos].

(** math/mod.rs:44-66.  [position_any] is modelled by the first position,
    which is the only one when [cpos] has no repetitions (asserted by the
    code in debug builds).  Division by zero is never reached:
    [lagrange_no_div0]. *)
Definition lagrange_row (cpos denom : seq F) (v : F) : seq F :=
  if v \in cpos then set_nth 0 (nseq (size cpos) 0) (index v cpos) 1
  else let num := prodl [seq v - x | x <- cpos] in
       [seq num / ((v - xd.1) * xd.2) | xd <- zip cpos denom].

(** math/mod.rs:15-70. *)
Definition lagrange_coeffs (cpos npos : seq F) : mat :=
  Mat (size cpos) [seq lagrange_row cpos (lagrange_denom cpos) v | v <- npos].

(** [ndarray]'s [reversed_axes].  math/mod.rs:75, 104. *)
Definition reversed_axes (m : mat) : mat :=
  Mat (size (rows m)) [seq [seq nth 0 r j | r <- rows m] | j <- iota 0 (ncols m)].

(** math/mod.rs:118-121: the loop pushing one column after another; [cols] is
    the matrix so far as a list of columns. *)
Fixpoint rs_loop (col : seq F) (k i : nat) (cols : seq (seq F)) : seq (seq F) :=
  if k is k'.+1 then
    rs_loop col k' i.+1
      (rcons cols [seq x.1 * x.2 | x <- zip col (nth [::] cols i)])
  else cols.

(** math/mod.rs:108-124.  [None]: [mssg_len - 1] underflows for
    [mssg_len = 0]. *)
Definition rs_gen_mat (mssg_len code_len : nat) : option mat :=
  if mssg_len is k.+1 then
    let col := [seq emb i | i <- iota 1 code_len] in
    let cols := rs_loop col k 0 [:: col] in
    Some (Mat (size cols) [seq [seq nth 0 c j | c <- cols] | j <- iota 0 code_len])
  else None.

(** math/mod.rs:73-76. *)
Definition super_inv_matrix (num_inp num_out : nat) : option mat :=
  omap reversed_axes (rs_gen_mat num_out num_inp).

End Math.

(** math/mod.rs:126-160: selections.  The lookup map is built by inserting
    every index in order, so the last occurrence wins. *)
Section Comb.
Variables (T : eqType) (U : Type).

(** math/mod.rs:143-146 together with [HashMap::get]: index of the last
    occurrence. *)
Fixpoint last_index_from (i : nat) (v : T) (inp : seq T) : option nat :=
  if inp is x :: inp' then
    if last_index_from i.+1 v inp' is Some j then Some j
    else if x == v then Some i else None
  else None.

(** [collect] into a vector of results of [unwrap]: panics (None) if any element is
    missing.  math/mod.rs:44-67 and wherever a panic inside a loop ends the whole. *)
Fixpoint all_some (A : Type) (s : seq (option A)) : option (seq A) :=
  if s is x :: s' then
    if x is Some a then omap (cons a) (all_some s') else None
  else Some [::].

(** math/mod.rs:142-149. *)
Definition from_instance (inp out : seq T) : option (seq nat) :=
  all_some [seq last_index_from 0 v inp | v <- out].

(** math/mod.rs:157-159; indexing out of range panics. *)
Definition comb_apply (c : seq nat) (v : seq U) : option (seq U) :=
  all_some [seq (if drop i v is x :: _ then Some x else None) | i <- c].
End Comb.

(** Model of scripts/gen_binary_supmat.py, which makes the files of
    data/binsup_mat.  The [galois] package is not modelled: a field with its
    vectors of bits and the generator matrix of the BCH code are arguments. *)

From Coq Require Import NArith.
From mathcomp Require Import all_ssreflect all_algebra.
Set Implicit Arguments.
Unset Strict Implicit.
Unset Printing Implicit Defensive.
Import GRing.Theory.

(** ** The search for parameters *)

Section Search.
Local Open Scope N_scope.

(** Lines 7-18 [check_rs].  (The ratio [T] is at least 1: dividing by zero raises
    an exception.) *)
Definition check_rs (np T n_bin k_bin d_bin : N) : option (N * N * N) :=
  let n_rs := (np + n_bin - 1) / n_bin in
  if 2 ^ k_bin <? n_rs then None else
  let d_rs := (n_rs * n_bin + T * d_bin - 1) / (T * d_bin) in
  if n_rs <? d_rs then None else Some (n_rs, n_rs - d_rs + 1, d_rs).

(** The parameters of the outer and of the inner code.  gen_binary_supmat.py:43. *)
Record codes := Codes { c_nrs : N; c_krs : N; c_drs : N; c_nbin : N; c_kbin : N; c_dbin : N }.

(** Lines 36-43, the body of the loops: [best_params] and [best_k]. *)
Definition try_code (np T n_bin k_bin d_bin : N) (best : option codes * N) : option codes * N :=
  if check_rs np T (n_bin + 1) k_bin (d_bin + 1) is Some (n_rs, k_rs, d_rs) then
    let k := k_rs * k_bin in
    if best.2 <? k then (Some (Codes n_rs k_rs d_rs (n_bin + 1) k_bin (d_bin + 1)), k) else best
  else best.

(** Lines 28-43: [t] runs down. *)
Fixpoint loop_t (np T m n_bin : N) (t : nat) (best : option codes * N) : option codes * N :=
  if t is t'.+1 then
    let tn := N.of_nat t in
    let k_bin := n_bin - m * tn in
    if k_bin <=? 1 then loop_t np T m n_bin t' best else
    let d_bin := 2 * tn + 1 in
    if d_bin <? n_bin / T then best else
    loop_t np T m n_bin t' (try_code np T n_bin k_bin d_bin best)
  else best.

(** Lines 21-45 [find_bch_rs]. *)
Definition find_bch_rs (np T : N) : option codes :=
  (foldl (fun best m => let n_bin := 2 ^ m - 1 in loop_t np T m n_bin (N.to_nat (n_bin / m)) best) (None, 0)
     [:: 1; 2; 3; 4; 5; 6; 7; 8; 9; 10]).1.
End Search.

(** ** The matrices *)

Section Gen.
Local Open Scope ring_scope.
Variables (L : fieldType) (k : nat).
(** [GF.Vector] and [.vector()]: an element from its bits, the highest first, and
    back. *)
Variables (el : seq bool -> L) (vec : L -> seq bool).

(** The element with a given integer representation.  gen_binary_supmat.py:52-53. *)
Definition num (i : nat) : L := el [seq odd (i %/ 2 ^ (k.-1 - j)) | j <- iota 0 k].

(** Lines 48-59 [gen_mat_rs]; [None] is the failed assertion. *)
Definition gen_mat_rs (n_rs k_rs : nat) : option (seq (seq L)) :=
  if (n_rs < 2 ^ k)%N then Some [seq [seq num p.+1 ^+ i | p <- iota 0 n_rs] | i <- iota 0 k_rs] else None.

(** Lines 62-66 [gen_mat_bch]: a one at the end of every row of the generator. *)
Definition gen_mat_bch (G : seq (seq bool)) : seq (seq bool) := [seq rcons row true | row <- G].

(** The product of a vector and a matrix over GF(2).  gen_binary_supmat.py:77, 80. *)
Definition vecmat (v : seq bool) (G : seq (seq bool)) : seq bool :=
  [seq foldr addb false [seq x.1 && nth false x.2 b | x <- zip v G] | b <- iota 0 (size (head [::] G))].

(** Lines 69-82 [encode_concat]; symbol [i] is [inp[i::k_rs]]. *)
Definition symbol (k_rs : nat) (inp : seq bool) (i : nat) : L := el [seq nth false inp (i + j * k_rs)%N | j <- iota 0 k].
Definition encode_concat (n_rs k_rs : nat) (g_rs : seq (seq L)) (g_bch : seq (seq bool)) (inp : seq bool) : seq bool :=
  flatten [seq vecmat (vec (\sum_(i < k_rs) symbol k_rs inp i * nth 0 (nth [::] g_rs i) p)) g_bch | p <- iota 0 n_rs].

(** Lines 85-97 [gen_mat_concat]. *)
Definition unit_inp (len i : nat) : seq bool := [seq j == i | j <- iota 0 len].
Definition gen_mat_concat (n_rs k_rs : nat) (g_rs : seq (seq L)) (g_bch : seq (seq bool)) : seq (seq bool) :=
  [seq encode_concat n_rs k_rs g_rs g_bch (unit_inp (k_rs * k) i) | i <- iota 0 (k_rs * k)].

(** Lines 138-145: the matrix that is saved, transposed. *)
Definition file_with (n_rs k_rs : nat) (g_bch : seq (seq bool)) : option (seq (seq bool)) :=
  omap (fun g_rs => let g_cc := gen_mat_concat n_rs k_rs g_rs g_bch in
    [seq [seq nth false row s | row <- g_cc] | s <- iota 0 (n_rs * size (head [::] g_bch))])
    (gen_mat_rs n_rs k_rs).
Definition gen_file (n_rs k_rs : nat) (G : seq (seq bool)) : option (seq (seq bool)) := file_with n_rs k_rs (gen_mat_bch G).
End Gen.

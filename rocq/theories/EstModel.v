(** Model of scripts/communication_estimates.py: the estimate of the semi-honest
    protocol.

    Simplified: Python computes [math.ceil(num / batch)] with floating point
    division; here the quotient is exact (they agree below 2^53, P_Float).  The numbers are
    those passed to [print_stat], which divides by [n] and formats them.  The
    malicious protocol of the script is in EstFullModel. *)

From mathcomp Require Import all_ssreflect.
Set Implicit Arguments.
Unset Strict Implicit.
Unset Printing Implicit Defensive.

(** communication_estimates.py:5-29 [Params]. *)
Record params := Params {
  e_field_bits : nat; e_n : nat; e_t : nat; e_l : nat; e_binsup_dim : nat;
  e_key_len : nat; e_ctx_len : nat; e_noise : nat }.

Definition e_fcomm (p : params) : nat := (e_field_bits p + 7) %/ 8.

(** [int(math.ceil(a / b))]. *)
Definition ceil (a b : nat) : nat := if a %% b == 0 then a %/ b else (a %/ b).+1.

(** communication_estimates.py:32-41 [ProtoCtr.counts], the three protocols in use. *)
Record ctr := Ctr { n_rand : nat; n_zero : nat; n_bitrand : nat }.

(** A method of [ProtoCtr]: returns communication and updates the counts.
    communication_estimates.py:32-133. *)
Definition meth : Type := ctr -> nat * ctr.

(** communication_estimates.py:32-133: one call after another, results added. *)
Definition both (a b : meth) : meth := fun c => let (x, c1) := a c in let (y, c2) := b c1 in (x + y, c2).
Notation "a ;+ b" := (both a b) (at level 52, left associativity).
(** communication_estimates.py:32-133: a result without a change of the counts. *)
Definition comm (x : nat) : meth := fun c => (x, c).

Section Script.
Variable p : params.

(** communication_estimates.py:43-49. *)
Definition allrecon (num : nat) : nat := e_n p * num * e_n p * e_fcomm p.
Definition allshare (num : nat) : nat := e_n p * num * e_n p * e_fcomm p.

(** communication_estimates.py:51-71: [rand], [zero], [bitrand]. *)
Definition rand (num : nat) : meth := fun c => (0, Ctr (n_rand c + num) (n_zero c) (n_bitrand c)).
Definition zero (num : nat) : meth := fun c => (0, Ctr (n_rand c) (n_zero c + num) (n_bitrand c)).
Definition bitrand (num : nat) : meth := fun c => (0, Ctr (n_rand c) (n_zero c) (n_bitrand c + num)).

(** communication_estimates.py:78-79. *)
Definition degreduce (num : nat) : nat := num * 2 * e_n p * e_fcomm p.

(** communication_estimates.py:81-92. *)
Definition randshare (num : nat) : meth :=
  let batches := ceil num (e_l p) in
  zero (batches * 2 * e_n p) ;+ rand (batches * (e_n p + e_t p)) ;+ comm (allrecon (2 * batches)).

(** communication_estimates.py:112-119: [mult] and [trans]. *)
Definition mult (num : nat) : meth := rand num ;+ zero num ;+ comm (degreduce num).
Definition trans (num : nat) : meth := randshare num ;+ comm (degreduce num).

(** communication_estimates.py:127-133. *)
Definition error (num : nat) : meth :=
  bitrand (num * e_noise p) ;+ mult (num * (e_noise p - 1)) ;+ rand num ;+ mult num.

(** What the script prints (times [n]): the two lines and the total of the
    garbling phase; generation of keys, masks and errors, the three lines of
    [get_circ_ind_preproc] (lines 55-76 and 165-181) and the total of the preprocessing. *)
Record report := Report {
  r_transform : nat; r_plaintexts : nat; r_garbling : nat;
  r_keys : nat; r_masks : nat; r_errors : nat; r_rand : nat; r_zero : nat; r_bitrand : nat; r_preproc : nat }.

(** communication_estimates.py:270-321 [semihon_protocol]. *)
Definition semihon_protocol (num_inp num_and num_xor : nat) : report :=
  let num_and_blocks := ceil num_and (e_l p) in
  let num_xor_blocks := ceil num_xor (e_l p) in
  let num_wire_blocks := ceil num_inp (e_l p) + num_and_blocks + num_xor_blocks in
  let num_gate_blocks := num_and_blocks + num_xor_blocks in
  let (keys, c1) := rand (num_wire_blocks * 2 * e_key_len p) (Ctr 0 0 0) in
  let (masks, c2) := bitrand num_wire_blocks c1 in
  let (errors, c3) := error (num_gate_blocks * 4 * e_ctx_len p) c2 in
  let (tr, c4) := (trans (num_wire_blocks + num_wire_blocks * 2 * e_key_len p) ;+
                   trans (2 * num_gate_blocks + 2 * num_gate_blocks * 2 * e_key_len p)) c3 in
  let num_plaintext_selection_mult :=
    num_and_blocks * (3 * (e_key_len p + 1) + 1) + num_xor_blocks * (e_key_len p + 1) in
  let (pl, c5) := mult num_plaintext_selection_mult c4 in
  let r := allshare (ceil (n_rand c5) (e_n p - e_t p)) in
  let z := allshare (ceil (n_zero c5) (e_n p - e_t p)) in
  let b := allshare (ceil (n_bitrand c5) (e_binsup_dim p)) in
  Report tr pl (tr + pl) keys masks errors r z b (keys + masks + errors + r + z + b).

End Script.

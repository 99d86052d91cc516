(** Model of [LPNMatrix] (src/protocol/garble.rs:788-917): which gates share a
    public matrix.  A [HashMap] is a function or an association list. *)

From Coq Require Import NArith List.
From Verif Require Import CircuitModel CodecModel MathModel.
From mathcomp Require Import all_ssreflect.
Set Implicit Arguments.
Unset Strict Implicit.
Unset Printing Implicit Defensive.

(** The input lists and the output list of a packed gate (circuit.rs:29-49). *)
Definition gate_inps (g : pgate) : seq (seq N) :=
  match g with PXor a b _ => [:: a; b] | PAnd a b _ => [:: a; b] | PInv a _ => [:: a] end.
Definition gate_out (g : pgate) : seq N := match g with PXor _ _ o => o | PAnd _ _ o => o | PInv _ o => o end.

(** [HashMap<(usize, u32), usize>]; a missing entry is 0 (entries in the map are
    positive).  garble.rs:840, 879, 883. *)
Definition counts_map : Type := nat -> N -> nat.

(** garble.rs:883 [*counts.entry(w).or_insert(0) += 1]. *)
Definition bump_count (cts : counts_map) (q : nat) (w : N) : counts_map :=
  fun q' w' => if (q' == q) && (N.eqb w' w) then (cts q' w').+1 else cts q' w'.

(** garble.rs:877-886 [update_counts]; [q] is the slot reached by [enumerate]. *)
Fixpoint bump_list (q : nat) (ws : seq N) (cts : counts_map) : counts_map :=
  if ws is w :: ws' then bump_list q.+1 ws' (bump_count cts q w) else cts.
Definition update_counts (inps : seq (seq N)) (cts : counts_map) : counts_map :=
  foldl (fun c ws => bump_list 0 ws c) cts inps.

(** [usize::to_be_bytes] (64 bit).  garble.rs:909. *)
Definition be_bytes8 (v : nat) : seq N := rev (le_bytes 8 (N.of_nat v)).

(** garble.rs:906-908 [counts.get(&w).unwrap() - 1]. *)
Fixpoint count_list (q : nat) (ws : seq N) (cts : counts_map) : option (seq nat) :=
  if ws is w :: ws' then
    if cts q w is c.+1 then omap (cons c) (count_list q.+1 ws' cts) else None
  else Some [::].

(** garble.rs:896-912: one of the two blocks of hashed bytes. *)
Definition inp_bytes (ws : seq N) (cts : counts_map) (l : nat) : option (seq N) :=
  omap (fun cs => flatten [seq be_bytes8 v | v <- take l (cs ++ nseq l 0)]) (count_list 0 ws cts).

Section Lookup.
Variable H : eqType.
(** SHA-256, and the all-zero nonce. *)
Variable sha : seq N -> H.
Variable h0 : H.

(** garble.rs:888-916 [hash_inp_wires]; [Sha256::update] concatenates. *)
Definition hash_inp_wires (inps : seq (seq N)) (cts : counts_map) (l : nat) : option H :=
  omap (fun bs => sha (flatten bs))
    (all_some [seq inp_bytes (if i < size inps then nth [::] inps i else [::]) cts l | i <- iota 0 2]).

(** The [HashMap] from nonces to indices, oldest entry first.  garble.rs:841, 861. *)
Fixpoint find_nonce (h : H) (tbl : seq (H * nat)) : option nat :=
  if tbl is (h', i) :: tbl' then if h' == h then Some i else find_nonce h tbl' else None.

(** garble.rs:844-864: the loop over the gates; the nonce index and the table
    so far are threaded through, the result is the table and the indices. *)
Fixpoint lookup_loop (gs : seq pgate) (cts : counts_map) (l : nat) (tbl : seq (H * nat)) (nonce_idx : nat)
    : option (seq (H * nat) * seq nat) :=
  if gs is g :: gs' then
    let cts' := update_counts (gate_inps g) cts in
    if hash_inp_wires (gate_inps g) cts' l is Some nonce then
      let: (i, tbl') := if find_nonce nonce tbl is Some i then (i, tbl) else (nonce_idx, rcons tbl (nonce, nonce_idx)) in
      omap (fun r => (r.1, i :: r.2)) (lookup_loop gs' cts' l tbl' (maxn nonce_idx i.+1))
    else None
  else Some (tbl, [::]).

(** garble.rs:866-873: [nonces[i] = n] for every entry; an index out of range
    panics. *)
Fixpoint fill_nonces (tbl : seq (H * nat)) (v : seq H) : option (seq H) :=
  if tbl is (h, i) :: tbl' then if i < size v then fill_nonces tbl' (set_nth h0 v i h) else None else Some v.

(** garble.rs:836-875 [compute_lookup]. *)
Definition compute_lookup (gs : seq pgate) (l : nat) : option (seq H * seq nat) :=
  obind (fun r => omap (fun ns => (ns, r.2)) (fill_nonces r.1 (nseq (size r.1) h0)))
    (lookup_loop gs (fun _ _ => 0) l [::] 0).

End Lookup.

(** Model of [ProtocolIDBuilder] (src/protocol/mod.rs:27-71).  A byte is an
    [N] below 256, an id a list of bytes. *)

From Coq Require Import NArith List Bool.
From Verif Require Import CircuitModel.
Import ListNotations.
Local Open Scope N_scope.

Definition pid : Type := list N.

(** protocol/mod.rs:27-30. *)
Record builder := Builder { b_id : pid; b_suffix : list N }.

(** protocol/mod.rs:34-40 [new].  [next_power_of_two] is [2^(log2_up num)]
    (1 for 0 and 1); above 2^63 it overflows (panic, [None]). *)
Definition num_bytes (num : N) : N := (N.log2_up num + 7) / 8.
Definition builder_new (parent : pid) (num : N) : option builder :=
  if num <=? 2 ^ 63 then Some (Builder parent (repeat 0 (N.to_nat (num_bytes num)))) else None.

(** protocol/mod.rs:42-54 [increment_bytes(0)]: the new suffix and whether the
    result is [Ok].  The recursion on the index is recursion on the rest of
    the suffix. *)
Fixpoint increment_bytes (s : list N) : list N * bool :=
  match s with
  | [] => ([], false)
  | b :: r =>
      if b =? 255 then let '(r', ok) := increment_bytes r in (0 :: r', ok)
      else (b + 1 :: r, true)
  end.

(** protocol/mod.rs:62-70 [next]. *)
Definition builder_next (b : builder) : option pid * builder :=
  let child := b_id b ++ b_suffix b in
  let '(s', ok) := increment_bytes (b_suffix b) in
  (if ok then Some child else None, Builder (b_id b) s').

(** The results of [k] successive calls of [next].  protocol/mod.rs:62-70. *)
Fixpoint builder_run (k : nat) (b : builder) : list (option pid) :=
  match k with
  | O => []
  | S k' => let '(r, b') := builder_next b in r :: builder_run k' b'
  end.

(** ** The ids one protocol invocation uses as message channels *)

(** [new] followed by [k] times [next().unwrap()]; [None] is a panic.
    preproc.rs:347-352, garble.rs:152-156, 370-372, 714, 760. *)
Definition take_ids (parent : pid) (num : N) (k : nat) : option (list pid) :=
  obind (builder_new parent num) (fun b => omapM (fun x => x) (builder_run k b)).

(** preproc.rs:17-19 [num_batches]; also the number of [par_chunks(l)] of
    [num] items (garble.rs:683-685).  A zero batch size panics. *)
Definition num_batches (num batch_size : N) : option N :=
  if batch_size =? 0 then None else Some ((num + batch_size - 1) / batch_size).

(** garble.rs:712-725 [gen_rand_shares]: one child per random transformation,
    used by [randtrans] for its messages. *)
Definition gen_rand_ids (id : pid) (num_rtrans : N) : option (list pid) :=
  take_ids id num_rtrans (N.to_nat num_rtrans).

(** garble.rs:758-778 [transform]: one child per transformation. *)
Definition transform_ids (id : pid) (num : N) : option (list pid) :=
  take_ids id num (N.to_nat num).

(** garble.rs:355-466 [garble_and] multiplies on the first child of its id
    and then on its id itself; [garble_xor] (468-549) and [garble_inv]
    (551-628) multiply once, on their id. *)
Definition gate_ids (g : pgate) (id : pid) : option (list pid) :=
  match g with
  | PAnd _ _ _ => obind (take_ids id 2 1) (fun c => Some (c ++ [id]))
  | _ => Some [id]
  end.

(** garble.rs:60-62: one input transformation per input list of a gate. *)
Definition num_gate_inputs (g : pgate) : N := match g with PInv _ _ => 1 | _ => 2 end.
Definition num_inp_blocks (gs : list pgate) : N := fold_right N.add 0 (map num_gate_inputs gs).

(** garble.rs:132-353 [garble]: the four ids for the wire transformations,
    then one per gate block, in this order (153, 157, 190, 222, 232).
    [l] is the packing parameter. *)
Definition garble_ids (id : pid) (c : pcircuit) (l : N) : option (list pid) :=
  let ng := N.of_nat (length (p_gates c)) in
  let nb := N.of_nat (length (p_inputs c)) + ng in
  let ni := num_inp_blocks (p_gates c) in
  obind (num_batches nb l) (fun rt_out =>
  obind (num_batches ni l) (fun rt_inp =>
  obind (take_ids id (4 + ng) (4 + length (p_gates c))) (fun ids =>
  match ids with
  | i0 :: i1 :: i2 :: i3 :: gids =>
      obind (gen_rand_ids i0 rt_out) (fun a =>
      obind (gen_rand_ids i1 rt_inp) (fun b =>
      obind (transform_ids i2 nb) (fun d =>
      obind (transform_ids i3 ni) (fun e =>
      obind (omapM (fun x => gate_ids (fst x) (snd x)) (combine (p_gates c) gids)) (fun f =>
      Some (a ++ b ++ d ++ e ++ concat f))))))
  | _ => None
  end))).

(** preproc.rs:347-408 [preproc]: [rand], [zero], [randbit] and two
    multiplications per party. *)
Definition preproc_ids (id : pid) (n : N) : option (list pid) :=
  take_ids id (4 + 2 * n) (3 + 2 * N.to_nat n).

(** What the garbled tables are to contain. *)

From Coq Require Import NArith List.
From Verif Require Import CircuitModel LpnModel.
From mathcomp Require Import all_ssreflect all_algebra.
From Verif Require Import MathModel SharingModel SharingSpec CoreSpec.
Set Implicit Arguments.
Unset Strict Implicit.
Unset Printing Implicit Defensive.
Import GRing.Theory.
Local Open Scope ring_scope.

(** ** Packed circuits *)

(** The blocks of wires, each wire being an input or the output of a gate. *)
Definition out_blocks (circ : pcircuit) : seq (seq N) := p_inputs circ ++ [seq gate_out g | g <- p_gates circ].
Definition inp_blocks (circ : pcircuit) : seq (seq N) := flatten [seq gate_inps g | g <- p_gates circ].

(** The block of a wire and its slot in the block. *)
Definition block_of (circ : pcircuit) (w : N) : nat := find (fun b => w \in b) (out_blocks circ).
Definition slot_of (circ : pcircuit) (w : N) : nat := index w (nth [::] (out_blocks circ) (block_of circ w)).

(** Blocks hold at most [l] wires, no wire is in two places, wire numbers are
    below the number of wires, and the inputs of a gate are as long as its
    output and name wires of the circuit.  Gates may be in any order. *)
Definition wf_packed (circ : pcircuit) (l : nat) : bool :=
  [&& all (fun b => size b <= l)%N (out_blocks circ), uniq (flatten (out_blocks circ)),
      all (fun w => N.ltb w (p_num_wires circ)) (flatten (out_blocks circ)) &
      all (fun g => all (fun ws => (size ws == size (gate_out g)) && all (fun w => w \in flatten (out_blocks circ)) ws) (gate_inps g))
        (p_gates circ)].

Section Spec.
Variable F : fieldType.
Variable emb : nat -> F.

(** The parties hold shares [tb i] of an [R] by [M] table; entry (r,m) is a
    sharing of the values [val r m q] at the positions [pos]. *)
Definition table_shared (n d : nat) (pos : seq F) (R M : nat) (tb : nat -> seq (seq F)) (val : nat -> nat -> nat -> F) : Prop :=
  (forall i, (i < n)%N -> size (tb i) = R /\ forall r, (r < R)%N -> size (nth [::] (tb i) r) = M) /\
  forall r m, (r < R)%N -> (m < M)%N ->
    is_sharing emb n d pos [seq val r m q | q <- iota 0 (size pos)] [seq nth 0 (nth [::] (tb i) r) m | i <- iota 0 n].

(** One entry of an encrypted row: a row [A] of the public matrix applied to the
    key, a row [E] of the code applied to the message, and the error. *)
Definition encrypted (K : nat) (A key E msg : nat -> F) (err : F) : F :=
  \sum_(k < K) A k * key k + \sum_(c < K.+1) E c * msg c + err.

(** The label number [v] of the two labels, for a bit [v]. *)
Definition choose (k0 k1 v : F) : F := k0 + v * (k1 - k0).

(** The plaintext of the code: a label followed by a symbol that is the output
    mask for label 0 and the output mask plus one for label 1. *)
Definition plaintext (K : nat) (lab : nat -> nat -> F) (mask v : F) (c : nat) : F :=
  if (c < K)%N then choose (lab 0%N c) (lab 1%N c) v else choose mask (mask + 1) v.

(** The plaintext with the label's number as its last symbol. *)
Definition numbered (K : nat) (lab : nat -> nat -> F) (mask v : F) (c : nat) : F :=
  if (c < K)%N then choose (lab 0%N c) (lab 1%N c) v else v.

(** The number of the label to be found behind the masked input bits [i], [j]
    of an AND gate and of an XOR gate whose wires have the masks [la], [lb], [lc]. *)
Definition and_number (i j : nat) (la lb lc : F) : F := (i%:R + la) * (j%:R + lb) + lc.
Definition xor_number (i j : nat) (la lb lc : F) : F := (i%:R + la) + (j%:R + lb) + lc.
(** The same for an INV gate, and what the code has instead: a wire. *)
Definition inv_number (i : nat) (la lc : F) : F := 1 + (i%:R + la) + lc.
Definition buf_number (i : nat) (la lc : F) : F := (i%:R + la) + lc.

(** The share positions, the default positions and the positions of the wires
    are different field elements. *)
Definition distinct_positions (n l : nat) (circ : pcircuit) : bool :=
  uniq [seq emb i | i <- iota 0 (n + l + N.to_nat (p_num_wires circ))%N].

(** ** The tables of a circuit *)
Section Tables.
Variables (circ : pcircuit) (K : nat).

(** The mask of a wire, [mk b] being the secrets of block [b]. *)
Definition wire_mask (mk : nat -> seq F) (w : N) : F := nth 0 (mk (block_of circ w)) (slot_of circ w).

(** The sharing of symbol [c] of label [i] of a wire among the sharings [ks] of
    the keys, an array of shape (2, K, blocks) in row-major order (what the
    preprocessing delivers); this is what a gate's output labels are read from. *)
Definition out_label (ks : nat -> seq F) (w : N) (i c : nat) : F :=
  nth 0 (ks ((i * K + c) * size (out_blocks circ) + block_of circ w)%N) (slot_of circ w).

(** The sharing a gate's input labels are read from: that of shape
    (blocks, 2, K) on the same elements. *)
Definition inp_label (ks : nat -> seq F) (w : N) (i c : nat) : F :=
  nth 0 (ks (block_of circ w * (2 * K) + (i * K + c))%N) (slot_of circ w).

Definition table_rows (x : pgate) : nat := if x is PInv _ _ then 2 else 4.
Definition rows_before (gid : nat) : nat := sumn [seq table_rows x | x <- take gid (p_gates circ)].

(** The key of row [r] for the gate in slot [q] of a gate block, made of the
    labels [lin]: the label for the row's bit of each input wire. *)
Definition row_key (lin : N -> nat -> nat -> F) (x : pgate) (r q k : nat) : F :=
  let wire (b : seq N) := nth 0%num b q in
  match x with
  | PAnd a b _ | PXor a b _ => lin (wire a) (r %/ 2)%N k + lin (wire b) (r %% 2)%N k
  | PInv a _ => lin (wire a) r k
  end.

(** The plaintext of the row: [lout] are the labels encrypted, [pt] makes the
    plaintext of the two labels of a wire, its mask and a label number, [inv]
    is the number of the label behind row [i] of an INV gate. *)
Definition row_msg (mask : N -> F) (lout : N -> nat -> nat -> F)
    (pt : (nat -> nat -> F) -> F -> F -> nat -> F) (inv : nat -> F -> F -> F) (x : pgate) (r q : nat) : nat -> F :=
  let wire (b : seq N) := nth 0%num b q in
  match x with
  | PAnd a b o => pt (lout (wire o)) (mask (wire o))
      (and_number (r %/ 2)%N (r %% 2)%N (mask (wire a)) (mask (wire b)) (mask (wire o)))
  | PXor a b o => pt (lout (wire o)) (mask (wire o))
      (xor_number (r %/ 2)%N (r %% 2)%N (mask (wire a)) (mask (wire b)) (mask (wire o)))
  | PInv a o => pt (lout (wire o)) (mask (wire o)) (inv r (mask (wire a)) (mask (wire o)))
  end.

(** Entry (r,m) of the table of a gate block for the gate in slot [q]: [A] is the
    public matrix, [E] the code. *)
Definition table_entry (A : nat -> nat -> nat -> nat -> F) (E : nat -> nat -> F) (mask : N -> F)
    (lin lout : N -> nat -> nat -> F) (err : nat -> nat -> nat -> F)
    (pt : (nat -> nat -> F) -> F -> F -> nat -> F) (inv : nat -> F -> F -> F)
    (x : pgate) (r m q : nat) : F :=
  encrypted K (fun k => A r m k q) (row_key lin x r q) (E m) (row_msg mask lout pt inv x r q) (err r m q).

(** The tables of all gate blocks, [A gid] and [err gid] being the matrix and
    the errors of a gate block. *)
Definition tables_shared (n t l M : nat) (A : nat -> nat -> nat -> nat -> nat -> F) (E : nat -> nat -> F) (mask : N -> F)
    (lin lout : N -> nat -> nat -> F) (err : nat -> nat -> nat -> nat -> F)
    (pt : (nat -> nat -> F) -> F -> F -> nat -> F) (inv : nat -> F -> F -> F)
    (tabs : nat -> nat -> seq (seq F)) : Prop :=
  forall gid, (gid < size (p_gates circ))%N -> let x := nth (PInv [::] [::]) (p_gates circ) gid in
    table_shared n (t + 2 * l - 2) (take (size (gate_out x)) (default_pos emb n l)) (table_rows x) M (tabs gid)
      (table_entry (A gid) E mask lin lout (err gid) pt inv x).

(** The errors of the preprocessing in the order they are used. *)
Definition error_of (es : nat -> seq F) (M gid r m q : nat) : F :=
  nth 0 (es ((rows_before gid + r) * M + m)%N) q.
End Tables.

(** The code: point [m + 1] to the power [c + 1]. *)
Definition rs_code (m c : nat) : F := emb m.+1 ^+ c.+1.

(** What garbling needs of the parties, the circuit and the parameters. *)
Definition garble_setting (D : Type) (ser : seq F -> D) (de : D -> option (seq F)) (fits : nat -> Prop)
    (n t l : nat) (P Pn : pss F) (circ : pcircuit) (K M : nat) : Prop :=
  [/\ codec_ok ser de fits, setting emb n t l P Pn, 1 + 1 = 0 :> F, wf_packed circ l & distinct_positions n l circ] /\
  [/\ (0 < l)%N, (t + 2 * l <= n <= 2 ^ 16)%N, (2 * (t + l - 1) <= n - 1)%N, uniq [seq emb i | i <- iota 0 M.+1] &
      forall m, (m <= 4 * K + 3)%N -> fits m].

End Spec.

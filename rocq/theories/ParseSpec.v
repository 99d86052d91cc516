(** Which texts the reader of circuits accepts, stated without the reader. *)

From Coq Require Import NArith List Bool Ascii String.
From Verif Require Import CircuitModel CircuitSpec.
Import ListNotations.
Local Open Scope N_scope.

(** The first [k] lines of a text, without their newlines, and what follows.
    The last line may lack its newline; lines behind the end are empty. *)
Inductive first_lines : nat -> list ascii -> list (list ascii) -> list ascii -> Prop :=
| fl_none t : first_lines 0 t [] t
| fl_line k l t ls r : ~ In newline l -> first_lines k t ls r -> first_lines (S k) (l ++ newline :: t) (l :: ls) r
| fl_end k l ls r : ~ In newline l -> first_lines k [] ls r -> first_lines (S k) l (l :: ls) r.

(** A 32 bit number, with or without a plus sign. *)
Definition u32_tok (v : N) (t : list ascii) : Prop :=
  v < 2 ^ 32 /\ (num_tok v t \/ exists t', t = "+"%char :: t' /\ num_tok v t').

(** The same between white space (inside a token this can only be vertical tabs). *)
Definition white (c : ascii) : Prop := In c (map ascii_of_nat [9; 10; 11; 12; 13; 32])%nat.
Definition meta_tok (v : N) (t : list ascii) : Prop :=
  exists a m b, t = a ++ m ++ b /\ Forall white a /\ Forall white b /\ u32_tok v m.

(** The wires a gate takes from the list of inputs on its line: the first two or one. *)
Definition takes (g : gate) (inps : list N) : Prop :=
  match g with
  | And a b _ | Xor a b _ => exists more, inps = a :: b :: more
  | Inv a _ => exists more, inps = a :: more
  end.

(** A gate line as the reader sees it: the number of inputs, some number, that
    many inputs, the output, anything at all, and the kind of the gate. *)
Definition loose_line (g : gate) (l : list ascii) : Prop :=
  exists fan_out inps toks extra,
    Forall2 u32_tok ([N.of_nat (List.length inps); fan_out] ++ inps ++ [gate_output g]) toks /\
    takes g inps /\ layout (toks ++ extra ++ [gate_kind g]) l.

(** A file as the reader sees it. *)
Definition loose_file (text : list ascii) (c : circuit) : Prop :=
  exists inp_lens out_lens hls htoks toks extra body gls rest,
    first_lines 4 text hls body /\ Forall2 layout htoks hls /\ List.concat htoks = toks ++ extra /\
    Forall2 meta_tok
      ([N.of_nat (List.length (c_gates c)); c_num_wires c; N.of_nat (List.length inp_lens)] ++ inp_lens ++
       [N.of_nat (List.length out_lens)] ++ out_lens) toks /\
    total inp_lens < 2 ^ 32 /\ total out_lens <= c_num_wires c /\
    c_inputs c = groups 0 inp_lens /\
    c_outputs c = rev (groups (c_num_wires c - total out_lens) out_lens) /\
    first_lines (List.length (c_gates c)) body gls rest /\ Forall2 loose_line (c_gates c) gls.

(** What circuits, their textual form and their packed form mean. *)

From Coq Require Import NArith List Bool Ascii String.
From Verif Require Import CircuitModel.
Import ListNotations.
Local Open Scope N_scope.

(** ** Text *)

(** Decimal numerals, most significant digit first. *)
Fixpoint dec_value (ds : list N) : N :=
  match ds with [] => 0 | d :: r => d * 10 ^ N.of_nat (List.length r) + dec_value r end.

(** [t] is a decimal numeral of [v] (leading zeros allowed). *)
Definition num_tok (v : N) (t : list ascii) : Prop :=
  exists ds, ds <> [] /\ Forall (fun d => d < 10) ds /\ dec_value ds = v /\
             t = map (fun d => ascii_of_N (48 + d)) ds.

Definition blank (c : ascii) : Prop := In c (map ascii_of_nat [9; 12; 13; 32])%nat.
Definition newline : ascii := ascii_of_nat 10.
Definition token (t : list ascii) : Prop :=
  t <> [] /\ Forall (fun c => ~ blank c /\ c <> newline) t.

(** [layout toks l]: the line [l] (without newline) consists of the tokens
    [toks] separated by blanks. *)
Inductive layout : list (list ascii) -> list ascii -> Prop :=
| lay_nil ws : Forall blank ws -> layout [] ws
| lay_last ws t : Forall blank ws -> token t -> layout [t] (ws ++ t)
| lay_cons ws t b toks rest : Forall blank ws -> token t -> blank b -> layout toks rest ->
    layout (t :: toks) (ws ++ t ++ b :: rest).

(** Lines of a file; the last one may lack its newline, and anything may follow. *)
Inductive lines_of : list (list ascii) -> list ascii -> Prop :=
| lines_nil rest : lines_of [] rest
| lines_last l : lines_of [l] l
| lines_cons l ls rest : lines_of ls rest -> lines_of (l :: ls) (l ++ newline :: rest).

(** Tokens of a gate line: fan-in, fan-out, input wires, output wire, kind. *)
Definition gate_numbers (g : gate) : list N :=
  match g with
  | And a b o | Xor a b o => [2; 1; a; b; o]
  | Inv a o => [1; 1; a; o]
  end.
Definition gate_kind (g : gate) : list ascii :=
  match g with And _ _ _ => str "AND" | Xor _ _ _ => str "XOR" | Inv _ _ => str "INV" end.
Definition gate_line (g : gate) (l : list ascii) : Prop :=
  exists toks, Forall2 num_tok (gate_numbers g) toks /\ layout (toks ++ [gate_kind g]) l.

(** [text] is a Bristol-fashion file: four header lines holding the numbers of
    gates and wires, the input lengths and the output lengths, each list
    preceded by its length, and then one line per gate. *)
Definition bristol (gates : list gate) (num_wires : N) (inp_lens out_lens : list N)
                   (text : list ascii) : Prop :=
  exists t1 t2 t3 t4 h1 h2 h3 h4 body gls,
    layout t1 h1 /\ layout t2 h2 /\ layout t3 h3 /\ layout t4 h4 /\
    Forall2 num_tok
      ([N.of_nat (List.length gates); num_wires; N.of_nat (List.length inp_lens)] ++ inp_lens ++
       [N.of_nat (List.length out_lens)] ++ out_lens) (t1 ++ t2 ++ t3 ++ t4) /\
    Forall2 gate_line gates gls /\ lines_of gls body /\
    text = h1 ++ newline :: h2 ++ newline :: h3 ++ newline :: h4 ++ newline :: body.

(** Consecutive groups of wires starting at [start]. *)
Fixpoint groups (start : N) (lens : list N) : list (list N) :=
  match lens with
  | [] => []
  | v :: r => map (fun i => start + N.of_nat i) (seq 0 (N.to_nat v)) :: groups (start + v) r
  end.
Definition total (lens : list N) : N := fold_right N.add 0 lens.

(** ** Semantics *)

Definition gate_inputs (g : gate) : list N :=
  match g with Xor a b _ | And a b _ => [a; b] | Inv a _ => [a] end.
Definition gate_output (g : gate) : N :=
  match g with Xor _ _ o | And _ _ o | Inv _ o => o end.

(** A wire assignment satisfies a gate. *)
Definition sat (a : N -> bool) (g : gate) : Prop :=
  match g with
  | Xor x y o => a o = xorb (a x) (a y)
  | And x y o => a o = a x && a y
  | Inv x o => a o = negb (a x)
  end.

Definition sat_inputs (a : N -> bool) (c : circuit) (vals : list (list bool)) : Prop :=
  map (map a) (c_inputs c) = vals.

(** Inputs and gate outputs are distinct wires in range, every gate reads
    inputs or outputs of earlier gates, circuit outputs are defined. *)
Definition well_formed (c : circuit) : Prop :=
  NoDup (List.concat (c_inputs c) ++ map gate_output (c_gates c)) /\
  Forall (fun w => w < c_num_wires c) (List.concat (c_inputs c) ++ map gate_output (c_gates c)) /\
  (forall pre g post, c_gates c = pre ++ g :: post ->
     incl (gate_inputs g) (List.concat (c_inputs c) ++ map gate_output pre)) /\
  incl (List.concat (c_outputs c)) (List.concat (c_inputs c) ++ map gate_output (c_gates c)).

(** ** Packed circuits *)

(** The gates of a block, position by position. *)
Fixpoint zip3 (l r o : list N) (f : N -> N -> N -> gate) : list gate :=
  match l, r, o with x :: l', y :: r', z :: o' => f x y z :: zip3 l' r' o' f | _, _, _ => [] end.
Definition block_gates (b : pgate) : list gate :=
  match b with
  | PXor l r o => zip3 l r o Xor
  | PAnd l r o => zip3 l r o And
  | PInv a o => map (fun x => Inv (fst x) (snd x)) (combine a o)
  end.

(** All lists of a block have the same length, the block's size. *)
Definition block_size (b : pgate) : nat :=
  match b with PXor _ _ o | PAnd _ _ o => List.length o | PInv _ o => List.length o end.
Definition block_wf (b : pgate) : Prop :=
  match b with
  | PXor l r o | PAnd l r o => List.length l = List.length o /\ List.length r = List.length o
  | PInv a o => List.length a = List.length o
  end.

(** Sizes of consecutive blocks: all [k] except the last, which is in 1..k. *)
Definition full_blocks (k : nat) (sizes : list nat) : Prop :=
  sizes = [] \/ exists m last, sizes = repeat k m ++ [last] /\ (1 <= last <= k)%nat.

(** A wire assignment satisfies a block: the gate equation holds in each slot. *)
Definition sat_block (a : N -> bool) (b : pgate) : Prop :=
  match b with
  | PXor l r o => forall i, (i < List.length o)%nat -> a (nth i o 0) = xorb (a (nth i l 0)) (a (nth i r 0))
  | PAnd l r o => forall i, (i < List.length o)%nat -> a (nth i o 0) = a (nth i l 0) && a (nth i r 0)
  | PInv x o => forall i, (i < List.length o)%nat -> a (nth i o 0) = negb (a (nth i x 0))
  end.

(** Number of times wire [w] is read by the gates [gs]. *)
Definition uses (gs : list gate) (w : N) : nat := count_occ N.eq_dec (flat_map gate_inputs gs) w.

(** [g1] may come before [g2]: some input of [g2] is at least as often used
    among [gs] as every input of [g1], ties broken by wire id. *)
Definition no_heavier (gs : list gate) (g1 g2 : gate) : Prop :=
  exists i2, In i2 (gate_inputs g2) /\ forall i1, In i1 (gate_inputs g1) ->
    (uses gs i1 < uses gs i2)%nat \/ (uses gs i1 = uses gs i2 /\ i1 <= i2).

Definition is_and (g : gate) : bool := match g with And _ _ _ => true | _ => false end.
Definition is_xor (g : gate) : bool := match g with Xor _ _ _ => true | _ => false end.
Definition is_inv (g : gate) : bool := match g with Inv _ _ => true | _ => false end.
Definition is_pand (b : pgate) : bool := match b with PAnd _ _ _ => true | _ => false end.
Definition is_pxor (b : pgate) : bool := match b with PXor _ _ _ => true | _ => false end.
Definition is_pinv (b : pgate) : bool := match b with PInv _ _ => true | _ => false end.

(** Model of src/circuit.rs.  Wire ids are [N] (u32 in the code, bounds
    checked where the code parses or adds them); a panic is [None].  A file is
    a list of characters ([Ascii]); UTF-8 decoding and I/O errors are not
    modelled. *)

From Coq Require Import NArith List Bool Ascii String.
Import ListNotations.
Local Open Scope N_scope.

Definition obind {A B} (x : option A) (f : A -> option B) : option B :=
  match x with Some a => f a | None => None end.

(** [map f] over a list stopping at the first panic.  Used for the panics of
    circuit.rs:88-89, 125-131, 236, 283. *)
Fixpoint omapM {A B} (f : A -> option B) (l : list A) : option (list B) :=
  match l with
  | [] => Some []
  | a :: l' => obind (f a) (fun b => obind (omapM f l') (fun bs => Some (b :: bs)))
  end.

(** ** Data types *)

(** circuit.rs:8-19 [GateInfo]/[Gate]. *)
Inductive gate :=
| Xor (l r out : N)
| And (l r out : N)
| Inv (a out : N).

(** circuit.rs:21-27 [Circuit]. *)
Record circuit := Circuit {
  c_gates : list gate; c_inputs : list (list N); c_outputs : list (list N); c_num_wires : N }.

(** circuit.rs:29-49 [PackedGateInfo]/[PackedGate]: input lists and output list. *)
Inductive pgate :=
| PXor (l r out : list N)
| PAnd (l r out : list N)
| PInv (a out : list N).

(** circuit.rs:51-59 [PackedCircuit]. *)
Record pcircuit := PCircuit {
  p_gates : list pgate; p_inputs : list (list N); p_outputs : list (list N);
  p_num_wires : N; p_gates_per_block : N }.

(** ** Text level *)

(** circuit.rs:84, 120: the line terminator of [read_line]. *)
Definition nl : ascii := ascii_of_nat 10.

(** [char::is_ascii_whitespace]: tab, line feed, form feed, carriage return, space.
    circuit.rs:86, 121. *)
Definition is_ws (c : ascii) : bool :=
  match nat_of_ascii c with 9 | 10 | 12 | 13 | 32 => true | _ => false end%nat.

(** [BufRead::read_line]: the line including its terminator, and the rest.
    circuit.rs:84, 120. *)
Fixpoint read_line (t : list ascii) : list ascii * list ascii :=
  match t with
  | [] => ([], [])
  | c :: t' => if Ascii.eqb c nl then ([c], t') else let '(l, r) := read_line t' in (c :: l, r)
  end.

(** [str::split_ascii_whitespace]: the maximal runs of other characters. [cur] is the
    current run, reversed.  circuit.rs:86, 121. *)
Fixpoint split_ws_aux (cur : list ascii) (t : list ascii) : list (list ascii) :=
  match t with
  | [] => match cur with [] => [] | _ => [rev cur] end
  | c :: t' =>
      if is_ws c then match cur with [] => split_ws_aux [] t' | _ => rev cur :: split_ws_aux [] t' end
      else split_ws_aux (c :: cur) t'
  end.
(** circuit.rs:86, 121. *)
Definition split_ws : list ascii -> list (list ascii) := split_ws_aux [].

(** circuit.rs:89, 125: the range of [parse::<u32>]. *)
Definition u32_bound : N := 4294967296.

(** circuit.rs:89, 125: one digit of [parse::<u32>]. *)
Definition digit_val (c : ascii) : option N :=
  let v := N_of_ascii c in if (48 <=? v) && (v <=? 57) then Some (v - 48) else None.

(** Digit loop of [str::parse::<u32>], with its overflow check.  circuit.rs:89,
    125. *)
Fixpoint parse_digits (acc : N) (t : list ascii) : option N :=
  match t with
  | [] => Some acc
  | c :: t' =>
      obind (digit_val c) (fun d =>
      let v := acc * 10 + d in if v <? u32_bound then parse_digits v t' else None)
  end.

(** [str::parse::<u32>().unwrap()]: an optional plus sign and at least one digit.
    circuit.rs:89, 125. *)
Definition parse_u32 (t : list ascii) : option N :=
  match t with
  | [] => None
  | c :: t' =>
      if Ascii.eqb c "+"%char then match t' with [] => None | _ => parse_digits 0 t' end
      else parse_digits 0 t
  end.

(** [str::trim] on ASCII text: [char::is_whitespace] is also true of the vertical tab,
    which [split_ascii_whitespace] does not split at. (Beyond ASCII it also removes
    blanks such as U+00A0; not modelled.)  circuit.rs:89. *)
Definition is_white (c : ascii) : bool :=
  match nat_of_ascii c with 9 | 10 | 11 | 12 | 13 | 32 => true | _ => false end%nat.
(** circuit.rs:89. *)
Fixpoint trim_start (t : list ascii) : list ascii :=
  match t with [] => [] | c :: t' => if is_white c then trim_start t' else t end.
(** circuit.rs:89. *)
Definition trim (t : list ascii) : list ascii := rev (trim_start (rev (trim_start t))).

(** [next_meta_number] (circuit.rs:87-90, on trimmed tokens) and
    [iter.next().unwrap()] (circuit.rs:123-131): the next token as a number. *)
Definition next_num (toks : list (list ascii)) : option (N * list (list ascii)) :=
  match toks with [] => None | t :: r => obind (parse_u32 t) (fun v => Some (v, r)) end.

Fixpoint next_nums (k : nat) (toks : list (list ascii)) : option (list N * list (list ascii)) :=
  match k with
  | O => Some ([], toks)
  | S k' =>
      obind (next_num toks) (fun '(v, r) =>
      obind (next_nums k' r) (fun '(vs, r') => Some (v :: vs, r')))
  end.

(** Rust range [a..b].  circuit.rs:101, 112. *)
Definition nrange (a len : N) : list N := map (fun i => a + N.of_nat i) (seq 0 (N.to_nat len)).

(** circuit.rs:97-103: [scan] over the input lengths; [*state += v] panics on
    u32 overflow (debug build). *)
Fixpoint scan_inputs (st : N) (lens : list N) : option (list (list N)) :=
  match lens with
  | [] => Some []
  | v :: r =>
      if st + v <? u32_bound then
        obind (scan_inputs (st + v) r) (fun x => Some (nrange st v :: x))
      else None
  end.

(** circuit.rs:107-114: [scan] over the reversed output lengths; [*state -= v]
    panics on underflow (debug build). *)
Fixpoint scan_outputs (st : N) (lens : list N) : option (list (list N)) :=
  match lens with
  | [] => Some []
  | v :: r =>
      if v <=? st then
        obind (scan_outputs (st - v) r) (fun x => Some (nrange (st - v) v :: x))
      else None
  end.

Definition str (s : string) : list ascii := list_ascii_of_string s.

Definition chars_eqb (a b : list ascii) : bool :=
  if list_eq_dec ascii_dec a b then true else false.

(** [inputs[i]] on the vector of gate inputs.  circuit.rs:135, 139, 143. *)
Definition idx {A} (l : list A) (i : nat) : option A := nth_error l i.

(** circuit.rs:118-147: one gate line. *)
Definition parse_gate_toks (line : list (list ascii)) : option gate :=
  match rev line with
  | [] => None
  | ty :: rbody =>
      obind (next_num (rev rbody)) (fun '(fan_in, r1) =>
      obind (next_num r1) (fun '(_, r2) =>
      obind (next_nums (N.to_nat fan_in) r2) (fun '(inps, r3) =>
      obind (next_num r3) (fun '(out, _) =>
      if chars_eqb ty (str "AND") then
        obind (idx inps 0) (fun a => obind (idx inps 1) (fun b => Some (And a b out)))
      else if chars_eqb ty (str "XOR") then
        obind (idx inps 0) (fun a => obind (idx inps 1) (fun b => Some (Xor a b out)))
      else if chars_eqb ty (str "INV") then
        obind (idx inps 0) (fun a => Some (Inv a out))
      else None))))
  end.

(** circuit.rs:116-148. *)
Fixpoint parse_gates (k : nat) (t : list ascii) : option (list gate) :=
  match k with
  | O => Some []
  | S k' =>
      let '(line, r) := read_line t in
      obind (parse_gate_toks (split_ws line)) (fun g =>
      obind (parse_gates k' r) (fun gs => Some (g :: gs)))
  end.

(** circuit.rs:82-85: [read_line] appends, so the header is the
    concatenation of the first four lines. *)
Fixpoint read_lines (k : nat) (t : list ascii) : list ascii * list ascii :=
  match k with
  | O => ([], t)
  | S k' => let '(l, r) := read_line t in let '(ls, r') := read_lines k' r in (l ++ ls, r')
  end.

(** circuit.rs:78-156 [Circuit::from_bristol_fashion] on the file's content. *)
Definition from_bristol_fashion (t : list ascii) : option circuit :=
  let '(meta, body) := read_lines 4 t in
  obind (next_num (map trim (split_ws meta))) (fun '(num_gates, m1) =>
  obind (next_num m1) (fun '(num_wires, m2) =>
  obind (next_num m2) (fun '(num_inputs, m3) =>
  obind (next_nums (N.to_nat num_inputs) m3) (fun '(inp_lens, m4) =>
  obind (scan_inputs 0 inp_lens) (fun inputs =>
  obind (next_num m4) (fun '(num_outputs, m5) =>
  obind (next_nums (N.to_nat num_outputs) m5) (fun '(out_lens, _) =>
  obind (scan_outputs num_wires (rev out_lens)) (fun outputs =>
  obind (parse_gates (N.to_nat num_gates) body) (fun gates =>
  Some (Circuit gates inputs outputs num_wires)))))))))).

(** ** Evaluation *)

(** [wires[i]] and [wires[i] = v]; out of range panics.  circuit.rs:170-171, 175-176,
    180, 190. *)
Definition wget (ws : list bool) (i : N) : option bool := nth_error ws (N.to_nat i).
(** circuit.rs:163, 172, 177, 181: the write without its range check. *)
Fixpoint upd {A} (ws : list A) (i : nat) (v : A) : option (list A) :=
  match ws, i with
  | [], _ => None
  | _ :: r, O => Some (v :: r)
  | x :: r, S j => obind (upd r j v) (fun r' => Some (x :: r'))
  end.
(** circuit.rs:163, 172, 177, 181. *)
Definition wset (ws : list bool) (i : N) (v : bool) : option (list bool) := upd ws (N.to_nat i) v.

(** circuit.rs:162-164: one input group. *)
Fixpoint set_group (ws : list bool) (l : list (N * bool)) : option (list bool) :=
  match l with
  | [] => Some ws
  | (w, v) :: r => obind (wset ws w v) (fun ws' => set_group ws' r)
  end.

(** circuit.rs:161-165. *)
Fixpoint set_inputs (ws : list bool) (l : list (list N * list bool)) : option (list bool) :=
  match l with
  | [] => Some ws
  | (g, v) :: r => obind (set_group ws (combine g v)) (fun ws' => set_inputs ws' r)
  end.

(** circuit.rs:168-183: one gate. *)
Definition eval_gate (ws : list bool) (g : gate) : option (list bool) :=
  match g with
  | Xor a b o => obind (wget ws a) (fun x => obind (wget ws b) (fun y => wset ws o (negb (Bool.eqb x y))))
  | And a b o => obind (wget ws a) (fun x => obind (wget ws b) (fun y => wset ws o (andb x y)))
  | Inv a o => obind (wget ws a) (fun x => wset ws o (negb x))
  end.

Fixpoint eval_gates (ws : list bool) (l : list gate) : option (list bool) :=
  match l with
  | [] => Some ws
  | g :: r => obind (eval_gate ws g) (fun ws' => eval_gates ws' r)
  end.

(** circuit.rs:158-197 [Circuit::eval]. *)
Definition eval (c : circuit) (inputs : list (list bool)) : option (list (list bool)) :=
  obind (set_inputs (repeat false (N.to_nat (c_num_wires c))) (combine (c_inputs c) inputs)) (fun ws =>
  obind (eval_gates ws (c_gates c)) (fun ws' =>
  omapM (omapM (wget ws')) (c_outputs c))).

(** ** Packing *)

(** [slice::chunks] with chunk size [k] on a list of length at most [fuel].
    circuit.rs:236, 283. *)
Fixpoint chunks_aux {A} (fuel k : nat) (l : list A) : list (list A) :=
  match fuel with
  | O => []
  | S f => match l with [] => [] | _ => firstn k l :: chunks_aux f k (skipn k l) end
  end.
(** [chunks(0)] panics.  circuit.rs:236, 283. *)
Definition chunks {A} (k : N) (l : list A) : option (list (list A)) :=
  if k =? 0 then None else Some (chunks_aux (List.length l) (N.to_nat k) l).

(** [GateInfo<N>]: input wires (N = 1 or 2) and the output wire.  circuit.rs:9-12. *)
Definition ginfo : Type := list N * N.

(** circuit.rs:257-263: the HashMap of fan-outs, read back with [get]. *)
Definition fan_out (gs : list ginfo) (w : N) : N :=
  N.of_nat (count_occ N.eq_dec (flat_map fst gs) w).

(** Lexicographic order on (fan-out, wire id).  circuit.rs:266-279. *)
Definition wt_leb (a b : N * N) : bool :=
  (fst a <? fst b) || ((fst a =? fst b) && (snd a <=? snd b)).

(** circuit.rs:266-277: the heaviest input of a gate ([max] of a non-empty iterator). *)
Definition weight (gs : list ginfo) (g : ginfo) : N * N :=
  fold_left (fun m i => if wt_leb m (fan_out gs i, i) then (fan_out gs i, i) else m)
            (fst g) (0, 0).

(** Stable sort ([slice::sort_by]): insertion sort; equal keys keep their order. *)
Section Sort.
Context {A : Type} (leb : A -> A -> bool).
(** circuit.rs:265. *)
Fixpoint insert (x : A) (l : list A) : list A :=
  match l with
  | [] => [x]
  | y :: r => if leb x y then x :: l else y :: insert x r
  end.
(** circuit.rs:265. *)
Fixpoint isort (l : list A) : list A :=
  match l with [] => [] | x :: r => insert x (isort r) end.
End Sort.

(** circuit.rs:253-286 [pack_gate_info], without the final conversion. *)
Definition pack_gate_info (k : N) (gs : list ginfo) : option (list (list ginfo)) :=
  chunks k (isort (fun g1 g2 => wt_leb (weight gs g1) (weight gs g2)) gs).

(** circuit.rs:200-215: splitting the gates by kind. *)
Definition and_infos (gs : list gate) : list ginfo :=
  flat_map (fun g => match g with And a b o => [([a; b], o)] | _ => [] end) gs.
Definition xor_infos (gs : list gate) : list ginfo :=
  flat_map (fun g => match g with Xor a b o => [([a; b], o)] | _ => [] end) gs.
Definition inv_infos (gs : list gate) : list ginfo :=
  flat_map (fun g => match g with Inv a o => [([a], o)] | _ => [] end) gs.

(** circuit.rs:35-42 [PackedGateInfo::from]: [gates.map(|g| g.inp[i])]. *)
Definition inp_col (i : nat) (b : list ginfo) : list N := map (fun g => nth i (fst g) 0) b.
Definition out_col (b : list ginfo) : list N := map snd b.

(** circuit.rs:199-251 [Circuit::pack]. *)
Definition pack (c : circuit) (k : N) : option pcircuit :=
  obind (pack_gate_info k (and_infos (c_gates c))) (fun a =>
  obind (pack_gate_info k (xor_infos (c_gates c))) (fun x =>
  obind (pack_gate_info k (inv_infos (c_gates c))) (fun n =>
  let gates :=
    map (fun b => PAnd (inp_col 0 b) (inp_col 1 b) (out_col b)) a ++
    map (fun b => PXor (inp_col 0 b) (inp_col 1 b) (out_col b)) x ++
    map (fun b => PInv (inp_col 0 b) (out_col b)) n in
  obind (chunks k (List.concat (c_inputs c))) (fun inputs =>
  obind (chunks k (List.concat (c_outputs c))) (fun outputs =>
  Some (PCircuit gates inputs outputs (c_num_wires c) k)))))).

(** circuit.rs:310-324 [get_gate_counts]: (and, xor, inv). *)
Fixpoint get_gate_counts (gs : list pgate) : nat * nat * nat :=
  match gs with
  | [] => (0, 0, 0)%nat
  | g :: r =>
      let '(a, x, n) := get_gate_counts r in
      match g with PAnd _ _ _ => (S a, x, n) | PXor _ _ _ => (a, S x, n) | PInv _ _ => (a, x, S n) end
  end.

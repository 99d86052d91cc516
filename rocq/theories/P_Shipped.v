(** C74: the circuit shipped with the repository. *)

From Coq Require Import Arith NArith List Bool Ascii String Lia.
From Verif Require Import CircuitModel CircuitSpec CircuitEval CircuitProofs ProtoIdModel Shipped Sub64File P_Circuit.
Import ListNotations.
Local Open Scope N_scope.

(** The bits of a 64-bit number, least significant first, as the test in
    /repo/tests/circuit.rs:9 makes them. *)
Definition bits64 (x : N) : list bool := map (fun i => N.testbit x (N.of_nat i)) (seq 0 64).

Definition gate_eqb (g h : gate) : bool :=
  match g, h with
  | Xor a b o, Xor a' b' o' | And a b o, And a' b' o' => (a =? a') && (b =? b') && (o =? o')
  | Inv a o, Inv a' o' => (a =? a') && (o =? o')
  | _, _ => false
  end.
Lemma gate_eqbP g h : gate_eqb g h = true -> g = h.
Proof.
  destruct g, h; simpl; try discriminate; rewrite ?andb_true_iff, ?N.eqb_eq; intuition congruence.
Qed.

(** Position [i] of the chain in the file. *)
Definition cell0 : list gate := [Xor 0 64 503; Inv 0 314; And 314 64 440].
Definition cell (i : N) : list gate :=
  [Xor i (64 + i) (376 + i); Xor (376 + i) (439 + i) (503 + i); Inv i (314 + i);
   Xor (314 + i) (439 + i) (125 + 3 * i); Xor (64 + i) (439 + i) (126 + 3 * i);
   And (125 + 3 * i) (126 + 3 * i) (127 + 3 * i); Xor (127 + 3 * i) (439 + i) (440 + i)].
Definition cell_last : list gate := [Xor 63 127 439; Xor 439 502 566].

Definition sub64_check (c : circuit) : bool :=
  wf_check c && (kind_count is_and (c_gates c) =? 63) && (kind_count is_xor (c_gates c) =? 313) && (kind_count is_inv (c_gates c) =? 63) &&
  (c_num_wires c =? 567) &&
  (if list_eq_dec (list_eq_dec N.eq_dec) (c_inputs c) [nrange 0 64; nrange 64 64] then true else false) &&
  (if list_eq_dec (list_eq_dec N.eq_dec) (c_outputs c) [nrange 503 64] then true else false) &&
  forallb (fun g => existsb (gate_eqb g) (c_gates c))
    (cell0 ++ flat_map cell (nrange 1 62) ++ cell_last).

Lemma sub64_checked : match from_bristol_fashion (str sub64_txt) with Some c => sub64_check c | None => false end = true.
Proof. vm_compute. reflexivity. Qed.

Definition sub64_facts (c : circuit) : Prop :=
  well_formed c /\ (kind_count is_and (c_gates c) = 63 /\ kind_count is_xor (c_gates c) = 313 /\ kind_count is_inv (c_gates c) = 63) /\
  c_num_wires c = 567 /\
  c_inputs c = [nrange 0 64; nrange 64 64] /\ c_outputs c = [nrange 503 64] /\
  incl cell0 (c_gates c) /\ (forall i, 1 <= i -> i <= 62 -> incl (cell i) (c_gates c)) /\ incl cell_last (c_gates c).

Lemma sub64_read : exists c, from_bristol_fashion (str sub64_txt) = Some c /\ sub64_facts c.
Proof.
  generalize sub64_checked. destruct (from_bristol_fashion (str sub64_txt)) as [c|]; [|discriminate].
  intros H. exists c. split; [reflexivity|]. unfold sub64_check in H.
  rewrite !andb_true_iff in H. destruct H as [[[[[[[H1 Ka] Kx] Ki] H3] H4] H5] H6].
  split; [exact (wf_checkP _ H1)|]. apply N.eqb_eq in Ka, Kx, Ki, H3.
  split; [auto|]. split; [exact H3|].
  destruct (list_eq_dec _ (c_inputs c) _) as [E4|]; [|discriminate]. split; [exact E4|].
  destruct (list_eq_dec _ (c_outputs c) _) as [E5|]; [|discriminate]. split; [exact E5|].
  assert (I : incl (cell0 ++ flat_map cell (nrange 1 62) ++ cell_last) (c_gates c)).
  { intros g Hg. rewrite forallb_forall in H6. specialize (H6 g Hg).
    apply existsb_exists in H6. destruct H6 as (h & Hh & E). now rewrite (gate_eqbP _ _ E). }
  clear H1 Ka Kx Ki H3 H4 H5 H6 E4 E5. split; [|split].
  - intros g Hg. apply I. apply in_or_app. now left.
  - intros i L1 L2 g Hg. apply I. apply in_or_app. right. apply in_or_app. left.
    apply in_flat_map. exists i. split; [|exact Hg]. unfold nrange. apply in_map_iff.
    exists (N.to_nat (i - 1)). split; [lia|]. apply in_seq. lia.
  - intros g Hg. apply I. apply in_or_app. right. apply in_or_app. now right.
Qed.

(** What the inverters do, as a parameter: with [neg] the meaning of an inverter. *)
Definition sat_with (neg : bool -> bool) (a : N -> bool) (g : gate) : Prop :=
  match g with Inv x o => a o = neg (a x) | _ => sat a g end.

Lemma sub64_chain c neg a : sub64_facts c -> Forall (sat_with neg a) (c_gates c) ->
  let x i := a (N.of_nat i) in let y i := a (64 + N.of_nat i) in let z i := a (503 + N.of_nat i) in
  let k i := match i with O => false | S _ => a (439 + N.of_nat i) end in
  (forall i, (i < 64)%nat -> z i = xorb (xorb (x i) (y i)) (k i)) /\
  (forall i, (i < 63)%nat -> k (S i) = xorb (xorb (neg (x i)) (k i) && xorb (y i) (k i)) (k i)).
Proof.
  intros (_ & _ & _ & _ & _ & I0 & I1 & I2) S x y z k. rewrite Forall_forall in S.
  assert (S0 : forall g, In g cell0 -> sat_with neg a g) by auto.
  assert (S1 : forall i g, 1 <= i -> i <= 62 -> In g (cell i) -> sat_with neg a g).
  { intros i g L1 L2 Hg. apply S. exact (I1 i L1 L2 g Hg). }
  assert (S2 : forall g, In g cell_last -> sat_with neg a g) by auto.
  clear S I0 I1 I2.
  assert (A0 := S0 (Xor 0 64 503) (or_introl eq_refl)).
  assert (A1 := S0 (Inv 0 314) (or_intror (or_introl eq_refl))).
  assert (A2 := S0 (And 314 64 440) (or_intror (or_intror (or_introl eq_refl)))).
  assert (A3 := S2 (Xor 63 127 439) (or_introl eq_refl)).
  assert (A4 := S2 (Xor 439 502 566) (or_intror (or_introl eq_refl))). clear S0 S2.
  simpl in A0, A1, A2, A3, A4.
  assert (Inner : forall i : nat, (1 <= i <= 62)%nat -> let j := N.of_nat i in
    a (503 + j) = xorb (xorb (a j) (a (64 + j))) (a (439 + j)) /\
    a (440 + j) = xorb (xorb (neg (a j)) (a (439 + j)) && xorb (a (64 + j)) (a (439 + j))) (a (439 + j))).
  { intros i Hi j. assert (L1 : 1 <= j) by (unfold j; lia). assert (L2 : j <= 62) by (unfold j; lia).
    specialize (S1 j). unfold cell in S1.
    assert (B1 := S1 _ L1 L2 (or_introl eq_refl)).
    assert (B2 := S1 _ L1 L2 (or_intror (or_introl eq_refl))).
    assert (B3 := S1 _ L1 L2 (or_intror (or_intror (or_introl eq_refl)))).
    assert (B4 := S1 _ L1 L2 (or_intror (or_intror (or_intror (or_introl eq_refl))))).
    assert (B5 := S1 _ L1 L2 (or_intror (or_intror (or_intror (or_intror (or_introl eq_refl)))))).
    assert (B6 := S1 _ L1 L2 (or_intror (or_intror (or_intror (or_intror (or_intror (or_introl eq_refl))))))).
    assert (B7 := S1 _ L1 L2 (or_intror (or_intror (or_intror (or_intror (or_intror (or_intror (or_introl eq_refl)))))))).
    cbn [sat_with sat] in B1, B2, B3, B4, B5, B6, B7. clear S1 A0 A1 A2 A3 A4.
    rewrite B2, B1, B7, B6, B5, B4, B3. split; reflexivity. }
  split.
  - intros i Hi. unfold z, x, y, k. destruct i as [|i].
    + cbn [N.of_nat]. rewrite !N.add_0_r, A0. now rewrite xorb_false_r.
    + destruct (Nat.eq_dec (S i) 63) as [E|E].
      * rewrite E. cbn [N.of_nat]. change (N.pos (Pos.of_succ_nat 62)) with 63.
        change (503 + 63) with 566. change (64 + 63) with 127. change (439 + 63) with 502. now rewrite A4, A3.
      * exact (proj1 (Inner (S i) (ltac:(lia)))).
  - intros i Hi. unfold x, y, k. destruct i as [|i].
    + change (439 + N.of_nat 1) with 440. change (N.of_nat 0) with 0. rewrite A2, A1, N.add_0_r, !xorb_false_r. reflexivity.
    + replace (439 + N.of_nat (S (S i))) with (440 + N.of_nat (S i)) by lia.
      exact (proj2 (Inner (S i) (ltac:(lia)))).
Qed.

Lemma map_nrange {A} (f : N -> A) s n : map f (nrange s (N.of_nat n)) = map (fun i => f (s + N.of_nat i)) (seq 0 n).
Proof. unfold nrange. now rewrite map_map, Nat2N.id. Qed.

Lemma map_seq_eq {A} (f g : nat -> A) n : map f (seq 0 n) = map g (seq 0 n) -> forall i, (i < n)%nat -> f i = g i.
Proof.
  intros E i Hi. assert (H : nth i (map f (seq 0 n)) (f 0%nat) = nth i (map g (seq 0 n)) (f 0%nat)) by now rewrite E.
  rewrite (map_nth f), (nth_indep _ _ (g 0%nat)), (map_nth g), seq_nth in H; [exact H|exact Hi|].
  now rewrite map_length, seq_length.
Qed.

(** Inputs and outputs of an assignment as numbers. *)
Lemma sub64_inputs c a x y : sub64_facts c -> x < 2 ^ 64 -> y < 2 ^ 64 -> sat_inputs a c [bits64 x; bits64 y] ->
  value 64 (fun i => a (N.of_nat i)) = x /\ value 64 (fun i => a (64 + N.of_nat i)) = y.
Proof.
  intros (_ & _ & _ & E & _) Lx Ly H. unfold sat_inputs in H. rewrite E in H.
  assert (two : forall (A : Type) (p q p' q' : A), [p; q] = [p'; q'] -> p = p' /\ q = q')
    by (intros A p q p' q' Eq; injection Eq; auto).
  cbn [map] in H. apply two in H. destruct H as [H1 H2].
  assert (ext : forall f g k, (forall i, (i < k)%nat -> f i = g i) -> value k f = value k g).
  { intros f g k. induction k as [|k IH]; intros X; [reflexivity|]. simpl. rewrite IH, X; auto. }
  change (nrange 0 64) with (nrange 0 (N.of_nat 64)) in H1. change (nrange 64 64) with (nrange 64 (N.of_nat 64)) in H2.
  rewrite map_nrange in H1, H2. split.
  - rewrite (ext _ (fun i => N.testbit x (N.of_nat i)) _).
    + rewrite value_testbit. now apply N.mod_small.
    + intros i Hi. exact (map_seq_eq _ _ _ H1 i Hi).
  - rewrite (ext _ (fun i => N.testbit y (N.of_nat i)) _).
    + rewrite value_testbit. now apply N.mod_small.
    + intros i Hi. exact (map_seq_eq _ _ _ H2 i Hi).
Qed.

Lemma sub64_outputs c a v : sub64_facts c -> value 64 (fun i => a (503 + N.of_nat i)) = v ->
  map (map a) (c_outputs c) = [bits64 v].
Proof.
  intros (_ & _ & _ & _ & E & _) <-. rewrite E. cbn [map].
  change (nrange 503 64) with (nrange 503 (N.of_nat 64)). rewrite map_nrange. f_equal.
  apply map_ext_in. intros i Hi. apply in_seq in Hi.
  rewrite (testbit_value (fun i => a (503 + N.of_nat i))) by lia. reflexivity.
Qed.

(** The file shipped as sub64.txt is read, is a well-formed circuit, and computes
    the difference of every two 64-bit numbers modulo 2^64. *)
Theorem C74_sub64_subtracts : exists c, from_bristol_fashion (str sub64_txt) = Some c /\ well_formed c /\
  forall x y, x < 2 ^ 64 -> y < 2 ^ 64 ->
    eval c [bits64 x; bits64 y] = Some [bits64 ((x + 2 ^ 64 - y) mod 2 ^ 64)].
Proof.
  destruct sub64_read as (c & E & F). exists c. split; [exact E|]. split; [exact (proj1 F)|].
  intros x y Lx Ly.
  destruct (C18_eval_computes_the_circuit c [bits64 x; bits64 y]) as (outs & Eo & (a & Ha & Sa & ->) & _).
  { exact (proj1 F). }
  { rewrite (proj1 (proj2 (proj2 (proj2 F)))). repeat constructor. }
  rewrite Eo. f_equal. apply sub64_outputs; [exact F|].
  destruct (sub64_inputs c a x y F Lx Ly Ha) as [Vx Vy].
  destruct (sub64_chain c negb a F) as [Hz Hk]; [revert Sa; apply Forall_impl; now intros []|].
  cbv zeta in Hz, Hk.
  set (X := fun i => a (N.of_nat i)) in *. set (Y := fun i => a (64 + N.of_nat i)) in *.
  set (Z := fun i => a (503 + N.of_nat i)) in *.
  set (K := fun i => match i with O => false | S _ => a (439 + N.of_nat i) end) in *.
  pose (K' := fun i : nat => if (i =? 64)%nat then xorb (xorb (negb (X 63%nat)) (K 63%nat) && xorb (Y 63%nat) (K 63%nat)) (K 63%nat) else K i).
  assert (B := borrow_chain X Y Z K' eq_refl 64%nat).
  rewrite Vx, Vy in B. assert (L := value_lt 64 Z).
  change (N.of_nat 64) with 64 in *.
  assert (B' : value 64 Z + y = x + (if K' 64%nat then 2 ^ 64 else 0)).
  { apply B.
    - intros i Hi. unfold K'. destruct (Nat.eqb_spec i 64); [lia|]. exact (Hz i Hi).
    - intros i Hi. unfold K'. destruct (Nat.eqb_spec i 64); [lia|]. destruct (Nat.eqb_spec (S i) 64) as [Ei|Ei].
      + now injection Ei as ->.
      + apply Hk. lia. }
  clear - B' Lx Ly L. destruct (K' 64%nat).
  - replace (x + 2 ^ 64 - y) with (value 64 Z) by lia. symmetry. now apply N.mod_small.
  - replace (x + 2 ^ 64 - y) with (value 64 Z + 1 * 2 ^ 64) by lia.
    rewrite N.mod_add by discriminate. symmetry. now apply N.mod_small.
Qed.
Print Assumptions C74_sub64_subtracts.

(** The numbers of tests/circuit.rs. *)
Example C74_test : exists c, from_bristol_fashion (str sub64_txt) = Some c /\
  eval c [bits64 23948; bits64 48] = Some [bits64 23900] /\
  eval c [bits64 48; bits64 23948] = Some [bits64 18446744073709527716].
Proof.
  destruct C74_sub64_subtracts as (c & E & _ & H). exists c. split; [exact E|].
  rewrite !H by reflexivity. split; reflexivity.
Qed.

(** ** With inverters that do not invert *)

(** The meaning of the gates behind the tables [garble] makes: AND and XOR (C42),
    but the table of an INV gate hands the bit on (C43). *)
Definition sat_buffer (a : N -> bool) (g : gate) : Prop :=
  match g with
  | Xor x y o => a o = xorb (a x) (a y)
  | And x y o => a o = a x && a y
  | Inv x o => a o = a x
  end.

(** So garbled, sub64.txt is a circuit for addition. *)
Theorem C74_garbled_sub64_adds : exists c, from_bristol_fashion (str sub64_txt) = Some c /\
  forall x y, x < 2 ^ 64 -> y < 2 ^ 64 ->
    (exists a, sat_inputs a c [bits64 x; bits64 y] /\ Forall (sat_buffer a) (c_gates c)) /\
    forall a, sat_inputs a c [bits64 x; bits64 y] -> Forall (sat_buffer a) (c_gates c) ->
      map (map a) (c_outputs c) = [bits64 ((x + y) mod 2 ^ 64)].
Proof.
  destruct sub64_read as (c & E & F). exists c. split; [exact E|]. intros x y Lx Ly. split.
  - pose (buf := fun g => match g with Inv x o => And x x o | _ => g end).
    pose (c' := Circuit (map buf (c_gates c)) (c_inputs c) (c_outputs c) (c_num_wires c)).
    destruct (C18_eval_computes_the_circuit c' [bits64 x; bits64 y]) as (outs & _ & (a & Ha & Sa & _) & _).
    { destruct (proj1 F) as (W1 & W2 & W3 & W4). unfold c'. 
      assert (O : forall gs, map gate_output (map buf gs) = map gate_output gs).
      { intros gs. rewrite map_map. apply map_ext. now intros []. }
      split; [|split; [|split]]; cbn [c_inputs c_gates c_outputs c_num_wires]; rewrite ?O; try assumption.
      intros pre g post Eg. apply map_eq_app in Eg. destruct Eg as (pre' & post1 & Eg & <- & E1).
      apply map_eq_cons in E1. destruct E1 as (g' & post' & -> & <- & _). rewrite O.
      specialize (W3 pre' g' post' Eg). intros w Hw. apply W3. clear - Hw. destruct g'; simpl in *; tauto. }
    { unfold c'. cbn [c_inputs]. rewrite (proj1 (proj2 (proj2 (proj2 F)))). repeat constructor. }
    exists a. split; [exact Ha|]. unfold c' in Sa. cbn [c_gates] in Sa. rewrite Forall_map in Sa.
    revert Sa. apply Forall_impl. intros []; simpl; auto. intros ->. apply andb_diag.
  - intros a Ha Sa. apply sub64_outputs; [exact F|].
    destruct (sub64_inputs c a x y F Lx Ly Ha) as [Vx Vy].
    destruct (sub64_chain c (fun b => b) a F) as [Hz Hk]; [revert Sa; apply Forall_impl; now intros []|].
    cbv zeta in Hz, Hk.
    set (X := fun i => a (N.of_nat i)) in *. set (Y := fun i => a (64 + N.of_nat i)) in *.
    set (Z := fun i => a (503 + N.of_nat i)) in *.
    set (K := fun i => match i with O => false | S _ => a (439 + N.of_nat i) end) in *.
    pose (K' := fun i : nat => if (i =? 64)%nat then xorb (xorb (X 63%nat) (K 63%nat) && xorb (Y 63%nat) (K 63%nat)) (K 63%nat) else K i).
    assert (B := carry_chain X Y Z K' eq_refl 64%nat).
    rewrite Vx, Vy in B. assert (L := value_lt 64 Z).
    change (N.of_nat 64) with 64 in *.
    assert (B' : value 64 Z + (if K' 64%nat then 2 ^ 64 else 0) = x + y).
    { apply B.
      - intros i Hi. unfold K'. destruct (Nat.eqb_spec i 64); [lia|]. exact (Hz i Hi).
      - intros i Hi. unfold K'. destruct (Nat.eqb_spec i 64); [lia|]. destruct (Nat.eqb_spec (S i) 64) as [Ei|Ei].
        + now injection Ei as ->.
        + apply Hk. lia. }
    rewrite <- B'. clear - L. destruct (K' 64%nat).
    + replace (value 64 Z + 2 ^ 64) with (value 64 Z + 1 * 2 ^ 64) by lia.
      rewrite N.mod_add by discriminate. symmetry. now apply N.mod_small.
    + rewrite N.add_0_r. symmetry. now apply N.mod_small.
Qed.
Print Assumptions C74_garbled_sub64_adds.

(** ** Blocks *)

(** The packed circuit: 63 AND, 313 XOR and 63 INV gates and 128 inputs in
    blocks of [k]; for [k = 4] the numbers of tests/circuit.rs. *)
Theorem C74_sub64_blocks : exists c, from_bristol_fashion (str sub64_txt) = Some c /\
  forall k pc, pack c k = Some pc ->
    N.of_nat (List.length (p_gates pc)) = cdiv 63 k + cdiv 313 k + cdiv 63 k /\
    N.of_nat (List.length (p_inputs pc)) = cdiv 128 k /\
    num_inp_blocks (p_gates pc) = 2 * cdiv 63 k + 2 * cdiv 313 k + cdiv 63 k.
Proof.
  destruct sub64_read as (c & E & F). exists c. split; [exact E|]. intros k pc P.
  destruct (pack_counts c k pc P) as (_ & H1 & H2 & H3). destruct F as (_ & (Ka & Kx & Ki) & _ & Ei & _).
  rewrite Ka, Kx, Ki in *. unfold input_wires in H1. rewrite Ei in H1. auto.
Qed.
Print Assumptions C74_sub64_blocks.

Example C74_blocks_example : cdiv 63 4 + cdiv 313 4 + cdiv 63 4 = 111 /\ cdiv 128 4 = 32.
Proof. split; reflexivity. Qed.

(** Property theorems C76: which texts are circuits to the reader (src/circuit.rs). *)

From Coq Require Import Arith NArith List Bool Ascii String Lia.
From Verif Require Import CircuitModel CircuitSpec CircuitProofs ParseSpec Parse.
Import ListNotations.
Local Open Scope N_scope.

(** The reader returns a circuit exactly if the text is a file of that circuit
    in the sense of [loose_file]; on every other text it panics. *)
Theorem C76_accepts_iff : forall text c, from_bristol_fashion text = Some c <-> loose_file text c.
Proof. exact reader_iff. Qed.
Print Assumptions C76_accepts_iff.

(** The grammar is not ambiguous. *)
Theorem C76_unambiguous : forall text c c', loose_file text c -> loose_file text c' -> c = c'.
Proof. intros text c c' H H'. apply reader_iff in H, H'. congruence. Qed.
Print Assumptions C76_unambiguous.

(** All wires of a circuit that was read are 32 bit numbers; the input groups
    are consecutive from wire 0, and outputs are below the number of wires. *)
Theorem C76_wires : forall text c, from_bristol_fashion text = Some c ->
  c_num_wires c < 2 ^ 32 /\
  Forall (fun g => Forall (fun w => w < 2 ^ 32) (gate_output g :: gate_inputs g)) (c_gates c) /\
  (exists m, List.concat (c_inputs c) = map N.of_nat (seq 0 m) /\ N.of_nat m < 2 ^ 32) /\
  Forall (fun w => w < c_num_wires c) (List.concat (c_outputs c)).
Proof.
  intros text c H. apply reader_iff in H as (il & ol & hls & ht & toks & ex & body & gls & rest & _ & _ & _ & HN & BI & BO & EI & EO & _ & GG).
  assert (U : forall v t, u32_tok v t -> v < 2 ^ 32) by (intros v t [B _]; exact B).
  split; [|split; [|split]].
  - inversion HN as [|? ? ? ? _ H1]; subst. inversion H1 as [|? ? ? ? (a & m & b & _ & _ & _ & HU) _]; subst. now apply U in HU.
  - clear - GG U. induction GG as [|g l gs gls (fo & inps & toks & ex & HF & HT & _) _ IH]; constructor; [|assumption].
    assert (HB : Forall (fun w => w < 2 ^ 32) ([N.of_nat (List.length inps); fo] ++ inps ++ [gate_output g])).
    { clear - HF U. induction HF; constructor; [now apply (U _ y)|assumption]. }
    apply Forall_app in HB as [_ HB]. apply Forall_app in HB as [HI HO]. inversion HO; subst.
    constructor; [assumption|].
    destruct g; cbn [takes gate_inputs] in *; destruct HT as (more & ->);
      repeat match goal with H : Forall _ (_ :: _) |- _ => inversion H; clear H; subst end; repeat constructor; assumption.
  - rewrite EI. exists (N.to_nat (total il)). split; [|rewrite N2Nat.id; exact BI]. clear.
    assert (P : forall il st, List.concat (groups (N.of_nat st) il) = map N.of_nat (seq st (N.to_nat (total il)))).
    { clear. induction il as [|v il IH]; intro st; [reflexivity|]. cbn [groups List.concat].
      change (total (v :: il)) with (v + total il). rewrite N2Nat.inj_add, seq_app, map_app.
      replace (N.of_nat st + v) with (N.of_nat (st + N.to_nat v)) by lia. rewrite IH. f_equal.
      generalize (N.to_nat v). clear. intro k. enough (Q : forall z, map (fun i => N.of_nat st + N.of_nat i) (seq z k) =
        map N.of_nat (seq (st + z) k)) by (rewrite Q; now rewrite Nat.add_0_r).
      induction k as [|k IHk]; intro z; [reflexivity|]. cbn [seq map]. f_equal; [lia|].
      rewrite plus_n_Sm. apply IHk. }
    apply (P il 0%nat).
  - rewrite EO. apply Forall_concat, Forall_rev. clear - BO.
    assert (P : forall ol st, st + total ol <= c_num_wires c -> Forall (Forall (fun w => w < c_num_wires c)) (groups st ol)).
    { induction ol0 as [|v ol0 IH]; intros st B; [constructor|]. change (total (v :: ol0)) with (v + total ol0) in B. cbn [groups].
      constructor; [|apply IH; lia]. apply Forall_map, Forall_forall. intros i Hi. apply in_seq in Hi. lia. }
    apply P. lia.
Qed.
Print Assumptions C76_wires.

(** A gate line may be longer than the gate: three inputs of an XOR. *)
Definition xor3 : list ascii := str "1 4
1 3
1 1

3 1 0 1 2 3 XOR
".

Lemma lines_of_first gls body : lines_of gls body -> Forall (fun l => ~ In newline l) gls ->
  exists r, first_lines (List.length gls) body gls r.
Proof.
  induction 1 as [rest|l|l ls rest H IH]; intro F.
  - exists rest. constructor.
  - inversion F; subst. exists []. now repeat constructor.
  - inversion F; subst. destruct (IH H3) as (r & Hr). exists r. now constructor.
Qed.

(** It is read as the XOR of the first two, though the text is no file of any
    circuit in the format: the third input is dropped without notice. *)
Theorem C76_arity_refuted : exists text c, from_bristol_fashion text = Some c /\
  c_gates c = [Xor 0 1 3] /\ split_ws (str "3 1 0 1 2 3 XOR") = map str ["3"; "1"; "0"; "1"; "2"; "3"; "XOR"]%string /\
  forall gates nw il ol, ~ bristol gates nw il ol text.
Proof.
  exists xor3. eexists. split; [vm_compute; reflexivity|]. split; [reflexivity|]. split; [reflexivity|].
  intros gates nw il ol (t1 & t2 & t3 & t4 & h1 & h2 & h3 & h4 & body & gls & L1 & L2 & L3 & L4 & HN & HG & HL & E).
  assert (NG : Forall (fun l => ~ In newline l) gls).
  { clear - HG. induction HG as [|g l gates gls (toks & _ & L) _ IH]; constructor; [now apply layout_no_nl in L|assumption]. }
  assert (F : first_lines 4 xor3 [h1; h2; h3; h4] body).
  { rewrite E. repeat (constructor; [eapply layout_no_nl; eassumption|]). constructor. }
  assert (F' : first_lines 4 xor3 [str "1 4"; str "1 3"; str "1 1"; []] (str "3 1 0 1 2 3 XOR" ++ [newline])).
  { unfold xor3. cbn. apply (fl_line _ (str "1 4")); [cbn; intuition discriminate|].
    apply (fl_line _ (str "1 3")); [cbn; intuition discriminate|].
    apply (fl_line _ (str "1 1")); [cbn; intuition discriminate|].
    apply (fl_line _ []); [cbn; tauto|]. constructor. }
  destruct (first_lines_fun _ _ _ _ _ _ F F') as [[= -> -> -> ->] ->]. clear F F' E.
  assert (LG : List.length gates = 1%nat).
  { apply layout_iff in L1 as [_ L1]. vm_compute in L1. subst t1. inversion HN as [|? ? ? ? H1 _]; subst. clear - H1.
    destruct (N.lt_ge_cases (N.of_nat (List.length gates)) u32_bound) as [B|B].
    - assert (P : Some 1 = Some (N.of_nat (List.length gates))) by exact (parse_num _ _ H1 B). injection P as P. lia.
    - exfalso. destruct H1 as (ds & _ & Hd & Hv & Ht). destruct ds as [|d [|d' ds]]; try discriminate.
      inversion Hd; subst. simpl in Hv. unfold u32_bound in B. lia. }
  destruct gates as [|g [|g' gates]]; try discriminate. inversion HG as [|? l ? ? (toks & HT & LL) HG']; subst.
  inversion HG'; subst.
  destruct (lines_of_first _ _ HL NG) as (r & FL).
  assert (FL' : first_lines 1 (str "3 1 0 1 2 3 XOR" ++ [newline]) [str "3 1 0 1 2 3 XOR"] []).
  { apply (fl_line 0 (str "3 1 0 1 2 3 XOR") []); [cbn; intuition discriminate|]. constructor. }
  destruct (first_lines_fun _ _ _ _ _ _ FL FL') as [[= ->] _].
  apply layout_iff in LL as [_ LL]. apply (f_equal (@List.length _)) in LL.
  assert (LT : List.length (gate_numbers g) = List.length toks).
  { clear - HT. induction HT; simpl; congruence. }
  rewrite app_length, <- LT in LL. destruct g; vm_compute in LL; discriminate.
Qed.
Print Assumptions C76_arity_refuted.

(** Reading does not check that wires exist: evaluation then panics on every input. *)
Theorem C76_wires_checked_refuted : exists text c, from_bristol_fashion text = Some c /\
  forall a b, eval c [[a; b]] = None.
Proof.
  exists (str "1 3
1 2
1 1

2 1 0 9 2 AND
"). eexists. split; [vm_compute; reflexivity|]. intros [|] [|]; reflexivity.
Qed.
Print Assumptions C76_wires_checked_refuted.

(** Two files met by the grammar, with signs, extra tokens, a vertical tab, a
    missing last newline; and texts that are not. *)
Example C76_example :
  (exists c, loose_file (str "+1 3
1 2 1 1 and more


2 77 0 1 +02 what AND") c /\ c_gates c = [And 0 1 2]) /\
  (exists c, loose_file (str "1 " ++ ascii_of_nat 11 :: str "3
1 2
1 1

2 1 0 1 2 AND") c) /\
  (forall c, ~ loose_file (str "1 3
1 2
1 1

2 1 0 + 2 AND") c) /\
  (forall c, ~ loose_file (str "1 3
1 2
1 1

2 1 0 4294967296 2 AND") c) /\
  (forall c, ~ loose_file (str "2 3
1 2
1 1

2 1 0 1 2 AND") c) /\
  (forall c, ~ loose_file (str "1 3
1 2
1 1

2 1 0 1 2 NAND") c).
Proof.
  split; [|split; [|split; [|split; [|split]]]].
  - eexists. split; [apply reader_iff; vm_compute; reflexivity|reflexivity].
  - eexists. apply reader_iff. vm_compute. reflexivity.
  - intros c H. apply reader_iff in H. vm_compute in H. discriminate.
  - intros c H. apply reader_iff in H. vm_compute in H. discriminate.
  - intros c H. apply reader_iff in H. vm_compute in H. discriminate.
  - intros c H. apply reader_iff in H. vm_compute in H. discriminate.
Qed.

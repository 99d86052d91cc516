(** A check of circuits read from a file, and borrow and carry chains. *)

From Coq Require Import Arith NArith List Bool Ascii String Lia Permutation.
From Verif Require Import CircuitModel CircuitSpec CircuitEval ProtoIdModel.
Import ListNotations.
Local Open Scope N_scope.

(** ** Checking that a circuit is well formed *)

Fixpoint memb (w : N) (l : list N) : bool :=
  match l with [] => false | x :: r => if x =? w then true else memb w r end.
Lemma membP w l : memb w l = true -> In w l.
Proof.
  induction l as [|x l IH]; simpl; [discriminate|].
  destruct (N.eqb_spec x w) as [->|_]; auto.
Qed.
Lemma membN w l : memb w l = false -> ~ In w l.
Proof.
  induction l as [|x l IH]; simpl; [auto|].
  destruct (N.eqb_spec x w); [discriminate|]. intros H [E|E]; [auto|exact (IH H E)].
Qed.

(** Gates one by one, with the list of wires that have a value. *)
Fixpoint run_check (nw : N) (D : list N) (gs : list gate) : option (list N) :=
  match gs with
  | [] => Some D
  | g :: r =>
      if forallb (fun w => memb w D) (gate_inputs g) then
        if memb (gate_output g) D then None
        else if gate_output g <? nw then run_check nw (gate_output g :: D) r else None
      else None
  end.

Fixpoint nodupb (l : list N) : bool :=
  match l with [] => true | x :: r => negb (memb x r) && nodupb r end.
Lemma nodupbP l : nodupb l = true -> NoDup l.
Proof.
  induction l as [|x l IH]; simpl; [constructor|].
  intros [H1 H2]%andb_true_iff. apply negb_true_iff in H1. constructor; [exact (membN _ _ H1)|auto].
Qed.

Definition wf_check (c : circuit) : bool :=
  let I := List.concat (c_inputs c) in
  nodupb I && forallb (fun w => w <? c_num_wires c) I &&
  match run_check (c_num_wires c) I (c_gates c) with
  | Some D => forallb (fun w => memb w D) (List.concat (c_outputs c))
  | None => false
  end.

Lemma topo_equiv gs : forall D D', incl D D' -> topo D gs -> topo D' gs.
Proof.
  induction gs as [|g gs IH]; simpl; [auto|]. intros D D' H [H1 H2]. split.
  - intros x Hx. auto.
  - apply (IH (D ++ [gate_output g])); [|exact H2].
    intros x [Hx|Hx]%in_app_or; apply in_or_app; auto.
Qed.

Lemma run_checkP nw gs : forall D D', run_check nw D gs = Some D' -> NoDup D ->
  topo D gs /\ NoDup (D ++ map gate_output gs) /\ Forall (fun w => w < nw) (map gate_output gs) /\
  incl D' (D ++ map gate_output gs).
Proof.
  induction gs as [|g gs IH]; simpl; intros D D' H ND.
  - injection H as <-. rewrite app_nil_r. repeat split; auto. apply incl_refl.
  - destruct (forallb _ _) eqn:E1; [|discriminate]. destruct (memb (gate_output g) D) eqn:E2; [discriminate|].
    destruct (N.ltb_spec (gate_output g) nw) as [E3|]; [|discriminate].
    destruct (IH _ _ H) as (H1 & H2 & H3 & H4); [constructor; [exact (membN _ _ E2)|exact ND]|].
    repeat split.
    + intros w Hw. rewrite forallb_forall in E1. exact (membP _ _ (E1 w Hw)).
    + apply (topo_equiv gs (gate_output g :: D)); [|exact H1].
      intros x [<-|Hx]; apply in_or_app; simpl; auto.
    + apply NoDup_cons_iff in H2. destruct H2 as [Ha Hb].
      apply NoDup_Add with (a := gate_output g) (l := D ++ map gate_output gs); [apply Add_app|].
      split; assumption.
    + constructor; assumption.
    + intros x Hx. apply H4 in Hx. simpl in Hx. destruct Hx as [<-|Hx]; [apply in_elt|].
      apply in_app_or in Hx. destruct Hx; apply in_or_app; simpl; auto.
Qed.

Lemma wf_checkP c : wf_check c = true -> well_formed c.
Proof.
  unfold wf_check. intros [[H1 H2]%andb_true_iff H3]%andb_true_iff.
  destruct (run_check _ _ _) as [D|] eqn:E; [|discriminate].
  destruct (run_checkP _ _ _ _ E (nodupbP _ H1)) as (T & ND & B & I).
  split; [exact ND|]. split; [|split].
  - apply Forall_app. split; [|exact B]. apply Forall_forall. intros w Hw.
    rewrite forallb_forall in H2. exact (proj1 (N.ltb_lt _ _) (H2 w Hw)).
  - exact (topo_ok _ _ T).
  - intros w Hw. apply I. rewrite forallb_forall in H3. exact (membP _ _ (H3 w Hw)).
Qed.

(** ** Chains of borrows and carries *)

(** The first [k] bits of a sequence as a number, least significant first. *)
Fixpoint value (k : nat) (b : nat -> bool) : N :=
  match k with O => 0 | S k' => value k' b + (if b k' then 2 ^ N.of_nat k' else 0) end.

Lemma value_lt k b : value k b < 2 ^ N.of_nat k.
Proof.
  induction k as [|k IH]; [reflexivity|]. rewrite Nat2N.inj_succ, N.pow_succ_r'. simpl value.
  destruct (b k); lia.
Qed.

Lemma value_testbit a : forall k, value k (fun i => N.testbit a (N.of_nat i)) = a mod 2 ^ N.of_nat k.
Proof.
  induction k as [|k IH]; [now rewrite N.mod_1_r|]. cbn [value]. rewrite IH, Nat2N.inj_succ.
  rewrite N.pow_succ_r', (N.mul_comm 2), N.mod_mul_r by (try discriminate; apply N.pow_nonzero; discriminate).
  rewrite (N.testbit_odd a), N.shiftr_div_pow2, <- N.bit0_mod, N.bit0_odd. 
  destruct (N.odd _); simpl N.b2n; lia.
Qed.

Lemma testbit_value b : forall k i, (i < k)%nat -> N.testbit (value k b) (N.of_nat i) = b i.
Proof.
  induction k as [|k IH]; [lia|]. intros i Hi. cbn [value].
  assert (L := value_lt k b).
  assert (X : value k b + (if b k then 2 ^ N.of_nat k else 0) = value k b + N.b2n (b k) * 2 ^ N.of_nat k)
    by (destruct (b k); simpl N.b2n; lia).
  rewrite X. destruct (Nat.eq_dec i k) as [->|Hn].
  - rewrite N.testbit_eqb, N.div_add, N.div_small by (try assumption; apply N.pow_nonzero; discriminate).
    now destruct (b k).
  - rewrite <- (IH i) by lia.
    rewrite <- (N.mod_pow2_bits_low (value k b + _) (N.of_nat k)) by lia.
    rewrite N.mod_add, N.mod_small by (try assumption; apply N.pow_nonzero; discriminate). reflexivity.
Qed.

(** A chain of borrows subtracts, a chain of carries adds. *)
Lemma borrow_chain (x y z c : nat -> bool) : c 0%nat = false ->
  forall k, (forall i, (i < k)%nat -> z i = xorb (xorb (x i) (y i)) (c i)) ->
  (forall i, (i < k)%nat -> c (S i) = xorb (xorb (negb (x i)) (c i) && xorb (y i) (c i)) (c i)) ->
  value k z + value k y = value k x + (if c k then 2 ^ N.of_nat k else 0).
Proof.
  intros C0 k. induction k as [|k IH]; intros Hz Hc; [now rewrite C0|].
  specialize (IH (fun i Hi => Hz i (Nat.lt_lt_succ_r _ _ Hi)) (fun i Hi => Hc i (Nat.lt_lt_succ_r _ _ Hi))).
  rewrite (Hc k), Nat2N.inj_succ, N.pow_succ_r' by lia. cbn [value]. rewrite (Hz k) by lia.
  destruct (x k), (y k), (c k); simpl xorb; simpl andb; cbv iota in *; lia.
Qed.

Lemma carry_chain (x y z c : nat -> bool) : c 0%nat = false ->
  forall k, (forall i, (i < k)%nat -> z i = xorb (xorb (x i) (y i)) (c i)) ->
  (forall i, (i < k)%nat -> c (S i) = xorb (xorb (x i) (c i) && xorb (y i) (c i)) (c i)) ->
  value k z + (if c k then 2 ^ N.of_nat k else 0) = value k x + value k y.
Proof.
  intros C0 k. induction k as [|k IH]; intros Hz Hc; [now rewrite C0|].
  specialize (IH (fun i Hi => Hz i (Nat.lt_lt_succ_r _ _ Hi)) (fun i Hi => Hc i (Nat.lt_lt_succ_r _ _ Hi))).
  rewrite (Hc k), Nat2N.inj_succ, N.pow_succ_r' by lia. cbn [value]. rewrite (Hz k) by lia.
  destruct (x k), (y k), (c k); simpl xorb; simpl andb; cbv iota in *; lia.
Qed.

(** ** Numbers of blocks *)

Definition cdiv (a k : N) : N := (a + k - 1) / k.

Lemma cdiv_unique a k q : 0 < k -> a <= q * k -> q * k < a + k -> cdiv a k = q.
Proof. intros Hk H1 H2. unfold cdiv. symmetry. apply N.div_unique with (a + k - 1 - k * q); lia. Qed.

Lemma cdiv_le a k q : 0 < k -> a <= q * k -> cdiv a k <= q.
Proof.
  intros Hk H. unfold cdiv. apply N.lt_succ_r. apply N.div_lt_upper_bound; lia.
Qed.

Lemma repeat_sum k m : fold_right Nat.add 0%nat (repeat k m) = (m * k)%nat.
Proof. induction m as [|m IH]; simpl; [reflexivity|]. now rewrite IH. Qed.

Lemma concat_length {A} (bs : list (list A)) : List.length (List.concat bs) = fold_right Nat.add 0%nat (map (@List.length A) bs).
Proof. induction bs as [|b bs IH]; simpl; [reflexivity|]. now rewrite app_length, IH. Qed.

Lemma blocks_number {A} (bs : list (list A)) k : 1 <= k -> full_blocks (N.to_nat k) (map (@List.length A) bs) ->
  N.of_nat (List.length bs) = cdiv (N.of_nat (List.length (List.concat bs))) k.
Proof.
  intros Hk F. symmetry. apply cdiv_unique; [lia| |]; rewrite concat_length;
    (assert (L : List.length bs = List.length (map (@List.length A) bs)) by now rewrite map_length); rewrite L;
    destruct F as [->|(m & last & -> & Hl)]; simpl; try lia;
    rewrite app_length, repeat_length, fold_right_app; simpl; rewrite Nat.add_0_r;
    (assert (S : forall s, fold_right Nat.add s (repeat (N.to_nat k) m) = (m * N.to_nat k + s)%nat)
      by (intros s; clear; induction m as [|m IH]; simpl; [reflexivity|]; rewrite IH; lia)); rewrite S; nia.
Qed.

(** Numbers of gates of each kind and of input wires. *)
Definition kind_count (f : gate -> bool) (gs : list gate) : N := N.of_nat (List.length (filter f gs)).
Definition input_wires (c : circuit) : N := N.of_nat (List.length (List.concat (c_inputs c))).

Lemma infos_counts gs :
  N.of_nat (List.length (and_infos gs)) = kind_count is_and gs /\ N.of_nat (List.length (xor_infos gs)) = kind_count is_xor gs /\
  N.of_nat (List.length (inv_infos gs)) = kind_count is_inv gs.
Proof.
  unfold kind_count. induction gs as [|g gs IH]; [auto|]. destruct IH as (H1 & H2 & H3).
  destruct g; simpl; rewrite ?H1, ?H2, ?H3; repeat split; lia.
Qed.

Lemma pack_counts c k pc : pack c k = Some pc ->
  let A := cdiv (kind_count is_and (c_gates c)) k in let X := cdiv (kind_count is_xor (c_gates c)) k in
  let I := cdiv (kind_count is_inv (c_gates c)) k in
  0 < k /\ N.of_nat (List.length (p_inputs pc)) = cdiv (input_wires c) k /\
  N.of_nat (List.length (p_gates pc)) = A + X + I /\
  num_inp_blocks (p_gates pc) = 2 * A + 2 * X + I.
Proof.
  intros E A X I. assert (Hk : 1 <= k) by (destruct (N.eq_dec k 0) as [->|]; [discriminate|lia]).
  destruct (pack_ok c k Hk) as (a & x & n & inp & out & E2 & Ea & Ex & En & C1 & F1 & _).
  rewrite E in E2. injection E2 as ->. cbn [p_inputs p_gates].
  destruct (infos_counts (c_gates c)) as (Ka & Kx & Ki).
  assert (N1 : forall gs bs, pack_gate_info k gs = Some bs -> N.of_nat (List.length bs) = cdiv (N.of_nat (List.length gs)) k).
  { intros gs bs Eb. destruct (pack_info_ok k gs Hk) as (bs' & E' & P & F & _). rewrite Eb in E'. injection E' as <-.
    rewrite (blocks_number bs k Hk F). now rewrite (Permutation_length P). }
  apply N1 in Ea, Ex, En. rewrite Ka in Ea. rewrite Kx in Ex. rewrite Ki in En. fold A in Ea. fold X in Ex. fold I in En.
  split; [lia|]. split; [unfold input_wires; rewrite <- C1; exact (blocks_number inp k Hk F1)|].
  split.
  - rewrite !app_length, !map_length. lia.
  - unfold num_inp_blocks. rewrite !map_app, !fold_right_app, !map_map. cbn [num_gate_inputs].
    assert (S : forall (B : Type) (l : list B) v s, fold_right N.add s (map (fun _ => v) l) = N.of_nat (List.length l) * v + s).
    { intros B l v s. induction l as [|b l IH]; [reflexivity|].
      cbn [map fold_right List.length]. rewrite IH, Nat2N.inj_succ, N.mul_succ_l. lia. }
    rewrite !S. lia.
Qed.

(** ** Powers of 256 *)

Definition pow256b (v : N) : bool := (v =? 1) || (v =? 256) || (v =? 65536).
Lemma pow256P v : v < 16777216 -> (exists k, v = 256 ^ k) <-> pow256b v = true.
Proof.
  intros L. unfold pow256b. rewrite !orb_true_iff, !N.eqb_eq. split.
  - intros [k ->]. destruct (N.lt_ge_cases k 3) as [H|H].
    + assert (k = 0 \/ k = 1 \/ k = 2) as [->|[->| ->]] by lia; auto.
    + exfalso. assert (256 ^ 3 <= 256 ^ k) by (apply N.pow_le_mono_r; lia). change (256 ^ 3) with 16777216 in *. lia.
  - intros [[->| ->]| ->]; [exists 0|exists 1|exists 2]; reflexivity.
Qed.

(** The numbers of ids [garble] asks for, given the numbers of gates and inputs. *)
Definition id_counts (a x i p k : N) : list N :=
  let A := cdiv a k in let X := cdiv x k in let I := cdiv i k in
  let ng := A + X + I in let nb := cdiv p k + ng in let ni := 2 * A + 2 * X + I in
  [4 + ng; nb; ni; cdiv nb k; cdiv ni k].

Lemma cdiv_mono a b k : 0 < k -> a <= b -> cdiv a k <= cdiv b k.
Proof. intros Hk H. unfold cdiv. apply N.div_le_mono; lia. Qed.

Lemma cdiv_self a k : 0 < k -> cdiv a k <= a.
Proof. intros Hk. apply cdiv_le; [exact Hk|]. nia. Qed.

Lemma id_counts_bound a x i p k v : 0 < k -> In v (id_counts a x i p k) -> v <= 4 + 2 * a + 2 * x + i + p.
Proof.
  intros Hk. unfold id_counts. cbv zeta.
  assert (H1 := cdiv_self a k Hk). assert (H2 := cdiv_self x k Hk). assert (H3 := cdiv_self i k Hk).
  assert (H4 := cdiv_self p k Hk).
  set (A := cdiv a k) in *. set (X := cdiv x k) in *. set (I := cdiv i k) in *. set (P := cdiv p k) in *.
  assert (H5 := cdiv_self (P + (A + X + I)) k Hk). assert (H6 := cdiv_self (2 * A + 2 * X + I) k Hk).
  cbn [In]. intros [<-|[<-|[<-|[<-|[<-|[]]]]]]; lia.
Qed.

Definition run_out (a x i p k : N) : Prop := exists v, In v (id_counts a x i p k) /\ exists e, v = 256 ^ e.
Definition run_outb (a x i p k : N) : bool := existsb pow256b (id_counts a x i p k).

Lemma run_outP a x i p k : 0 < k -> 4 + 2 * a + 2 * x + i + p < 16777216 ->
  run_out a x i p k <-> run_outb a x i p k = true.
Proof.
  intros Hk L. unfold run_outb. rewrite existsb_exists. unfold run_out. split; intros (v & Hv & E); exists v; split; try exact Hv.
  - apply pow256P; [|exact E]. assert (B := id_counts_bound _ _ _ _ _ _ Hk Hv). lia.
  - apply pow256P; [|exact E]. assert (B := id_counts_bound _ _ _ _ _ _ Hk Hv). lia.
Qed.

(** From a packing parameter on at which all blocks fit into one batch. *)
Lemma run_out_from a x i p k0 k : 0 < k0 -> 0 < p -> cdiv p k0 + (cdiv a k0 + cdiv x k0 + cdiv i k0) <= k0 -> k0 <= k ->
  run_out a x i p k.
Proof.
  intros H0 Hp H L. assert (Hk : 0 < k) by lia.
  assert (D : forall b, cdiv b k <= cdiv b k0).
  { intros b. apply cdiv_le; [exact Hk|].
    assert (B : b <= cdiv b k0 * k0).
    { unfold cdiv. assert (M := N.div_mod (b + k0 - 1) k0). assert (M2 := N.mod_lt (b + k0 - 1) k0). nia. }
    nia. }
  assert (D1 := D a). assert (D2 := D x). assert (D3 := D i). assert (D4 := D p).
  assert (P1 : 1 <= cdiv p k).
  { unfold cdiv. apply N.div_le_lower_bound; lia. }
  exists 1. split; [|exists 0; reflexivity]. unfold id_counts. cbv zeta. right. right. right. left.
  apply cdiv_unique; lia.
Qed.

(** Deciding for all packing parameters. *)
Lemma run_out_iff a x i p k0 bad : 0 < k0 -> 0 < p -> cdiv p k0 + (cdiv a k0 + cdiv x k0 + cdiv i k0) <= k0 ->
  4 + 2 * a + 2 * x + i + p < 16777216 ->
  forallb (fun k => Bool.eqb (run_outb a x i p k) (memb k bad)) (nrange 1 (k0 - 1)) = true ->
  forallb (fun k => k <? k0) bad = true ->
  forall k, 0 < k -> run_out a x i p k <-> In k bad \/ k0 <= k.
Proof.
  intros H0 Hp H1 L C B k Hk. destruct (N.lt_ge_cases k k0) as [Hl|Hl].
  - rewrite forallb_forall in C. specialize (C k).
    assert (I : In k (nrange 1 (k0 - 1))).
    { unfold nrange. apply in_map_iff. exists (N.to_nat (k - 1)). split; [lia|]. apply in_seq. lia. }
    apply C in I. apply eqb_prop in I. rewrite run_outP by assumption. rewrite I. split.
    + intros M. left. exact (membP _ _ M).
    + intros [M|M]; [|lia]. destruct (memb k bad) eqn:E; [reflexivity|]. destruct (membN _ _ E M).
  - split; [auto|]. intros _. exact (run_out_from a x i p k0 k H0 Hp H1 Hl).
Qed.

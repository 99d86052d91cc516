(** Property theorems C17-C19: circuits (src/circuit.rs). *)

From Coq Require Import Arith NArith List Bool Ascii String Lia Permutation Sorted.
From Verif Require Import CircuitModel CircuitSpec CircuitProofs CircuitEval.
Import ListNotations.
Local Open Scope N_scope.

(** ** C17 *)

(** Gates, wire count and inputs are parsed faithfully from every layout of
    every circuit.  Missing from the full property: output groups come back in
    reverse order (see the refutation below). *)
Theorem C17_parse_partial : forall gates num_wires inp_lens out_lens text,
  bristol gates num_wires inp_lens out_lens text ->
  N.of_nat (List.length gates) < 2 ^ 32 -> num_wires < 2 ^ 32 ->
  N.of_nat (List.length inp_lens) < 2 ^ 32 -> N.of_nat (List.length out_lens) < 2 ^ 32 ->
  total inp_lens < 2 ^ 32 -> total out_lens <= num_wires ->
  Forall (fun g => Forall (fun w => w < 2 ^ 32) (gate_inputs g ++ [gate_output g])) gates ->
  exists c, from_bristol_fashion text = Some c /\
    c_gates c = gates /\ c_num_wires c = num_wires /\
    c_inputs c = groups 0 inp_lens /\
    c_outputs c = rev (groups (num_wires - total out_lens) out_lens).
Proof.
  intros gates nw il ol text H B1 B2 B3 B4 B5 B6 BG. eexists. split.
  - apply (parse_ok gates nw il ol text); try assumption.
    eapply Forall_impl; [|exact BG]. intros g Hg. unfold gate_bounded, u32_bound.
    change (2 ^ 32) with 4294967296 in Hg.
    destruct g; simpl in *; repeat match goal with H : Forall _ (_ :: _) |- _ => inversion H; clear H; subst end;
      repeat constructor; try assumption; lia.
  - repeat split.
Qed.
Print Assumptions C17_parse_partial.

(** With at most one output group the order is right. *)
Theorem C17_single_output : forall gates num_wires inp_lens out_lens text,
  bristol gates num_wires inp_lens out_lens text ->
  N.of_nat (List.length gates) < 2 ^ 32 -> num_wires < 2 ^ 32 ->
  N.of_nat (List.length inp_lens) < 2 ^ 32 -> (List.length out_lens <= 1)%nat ->
  total inp_lens < 2 ^ 32 -> total out_lens <= num_wires ->
  Forall (fun g => Forall (fun w => w < 2 ^ 32) (gate_inputs g ++ [gate_output g])) gates ->
  from_bristol_fashion text =
    Some (Circuit gates (groups 0 inp_lens) (groups (num_wires - total out_lens) out_lens) num_wires).
Proof.
  intros gates nw il ol text H B1 B2 B3 B4 B5 B6 BG.
  destruct (C17_parse_partial gates nw il ol text) as ([g i o n] & E & E1 & E2 & E3 & E4); try assumption.
  { change (2 ^ 32) with 4294967296. lia. }
  simpl in *. subst. rewrite E. do 2 f_equal. destruct ol as [|x [|y ol]]; simpl in *; [reflexivity|reflexivity|lia].
Qed.
Print Assumptions C17_single_output.

(** A one-gate file with two output groups, wires 1 and 2. *)
Definition two_outputs : list ascii := str "1 3
2 1 1
2 1 1

2 1 0 1 2 AND
".

Ltac ln := match goal with
  | |- layout [] _ => apply lay_nil; repeat constructor
  end.

(** The file is a valid rendering, and its output groups come back swapped. *)
Theorem C17_output_order_refuted :
  exists text c, bristol [And 0 1 2] 3 [1; 1] [1; 1] text /\
    from_bristol_fashion text = Some c /\
    c_outputs c <> groups 1 [1; 1] /\ c_outputs c = [[2]; [1]].
Proof.
  exists two_outputs.
  assert (NT : forall v, v < 10 -> num_tok v [ascii_of_N (48 + v)]).
  { intros v Hv. exists [v]. repeat split; [discriminate|now constructor|]. simpl. lia. }
  assert (TK : forall c, In c (list_ascii_of_string "0123456789") -> token [c]).
  { intros c Hc. split; [discriminate|]. constructor; [|constructor].
    unfold blank, newline. simpl in Hc.
    repeat (destruct Hc as [<-|Hc]; [split; [intro HH; simpl in HH; repeat (destruct HH as [HH|HH]; [discriminate|]); exact HH|discriminate]|]).
    contradiction. }
  assert (BL : blank " "%char) by (unfold blank; simpl; tauto).
  eexists. split; [|split; [vm_compute; reflexivity|split; [discriminate|reflexivity]]].
  exists [str "1"; str "3"], [str "2"; str "1"; str "1"], [str "2"; str "1"; str "1"], [],
    (str "1 3"), (str "2 1 1"), (str "2 1 1"), [], (str "2 1 0 1 2 AND" ++ [newline]), [str "2 1 0 1 2 AND"].
  assert (L3 : forall a b c, In a (list_ascii_of_string "0123456789") -> In b (list_ascii_of_string "0123456789") ->
      In c (list_ascii_of_string "0123456789") -> layout [[a]; [b]; [c]] [a; " "%char; b; " "%char; c]).
  { intros a b c Ha Hb Hc.
    apply (lay_cons [] [a] " "%char [[b]; [c]] [b; " "%char; c]); auto.
    apply (lay_cons [] [b] " "%char [[c]] [c]); auto.
    apply (lay_last [] [c]); auto. }
  repeat match goal with |- _ /\ _ => split end.
  - apply (lay_cons [] (str "1") " "%char [str "3"] (str "3")); auto; [apply TK; simpl; tauto|].
    apply (lay_last [] (str "3")); auto. apply TK; simpl; tauto.
  - apply L3; simpl; tauto.
  - apply L3; simpl; tauto.
  - apply lay_nil. constructor.
  - simpl. repeat (constructor; [apply NT; reflexivity|]). constructor.
  - constructor; [|constructor]. exists [str "2"; str "1"; str "0"; str "1"; str "2"]. split.
    + simpl. repeat (constructor; [apply NT; reflexivity|]). constructor.
    + simpl.
      repeat (match goal with |- layout (?t :: ?u :: ?ts) (?c :: " "%char :: ?r) =>
        apply (lay_cons [] t " "%char (u :: ts) r); auto; [apply TK; simpl; tauto|] end).
      apply (lay_last [] (str "AND")); auto. split; [discriminate|].
      repeat constructor; try discriminate;
        intro HH; unfold blank in HH; simpl in HH; repeat (destruct HH as [HH|HH]; [discriminate|]); exact HH.
  - apply (lines_cons (str "2 1 0 1 2 AND") [] []). constructor.
  - reflexivity.
Qed.
Print Assumptions C17_output_order_refuted.

(** Non-vacuity of the parsing theorems on a file with odd spacing. *)
Example C17_example : from_bristol_fashion (str "2   4
1 02
1 1

2 1 0 1 2 AND
 1 1 2 3   INV
trailing") = Some (Circuit [And 0 1 2; Inv 2 3] [[0; 1]] [[3]] 4).
Proof. vm_compute. reflexivity. Qed.

(** ** C18 *)

Theorem C18_eval_computes_the_circuit : forall c vals,
  well_formed c ->
  Forall2 (fun (wires : list N) (v : list bool) => List.length wires = List.length v) (c_inputs c) vals ->
  exists outs, eval c vals = Some outs /\
    (exists a, sat_inputs a c vals /\ Forall (sat a) (c_gates c) /\ outs = map (map a) (c_outputs c)) /\
    (forall a, sat_inputs a c vals -> Forall (sat a) (c_gates c) -> outs = map (map a) (c_outputs c)).
Proof.
  intros c vals W S. destruct (eval_ok c vals W S) as (outs & f & E & H1 & H2 & H3 & H4).
  exists outs. repeat split; [assumption|exists f; auto|assumption].
Qed.
Print Assumptions C18_eval_computes_the_circuit.

Definition adder : circuit :=
  Circuit [Xor 0 1 3; Xor 3 2 7; And 0 1 4; And 3 2 5; Xor 4 5 6; Inv 6 8] [[0; 1]; [2]] [[7; 8]] 9.

Example C18_example : well_formed adder /\
  eval adder [[true; true]; [true]] = Some [[true; false]] /\
  eval adder [[true; false]; [false]] = Some [[true; true]].
Proof.
  split; [|split; reflexivity]. split; [|split; [|split]].
  - simpl. repeat (constructor; [simpl; intuition discriminate|]). constructor.
  - simpl. repeat constructor.
  - apply (topo_ok (c_gates adder) [0; 1; 2]). repeat split; intros w Hw; simpl in *; intuition.
  - intros w Hw. simpl in *. intuition.
Qed.

(** ** C19 *)

Theorem C19_pack_preserves_the_circuit : forall c k, 1 <= k ->
  exists pc, pack c k = Some pc /\
    (* blocks are well shaped, and kind by kind all full but the last *)
    Forall block_wf (p_gates pc) /\
    full_blocks (N.to_nat k) (map block_size (filter is_pand (p_gates pc))) /\
    full_blocks (N.to_nat k) (map block_size (filter is_pxor (p_gates pc))) /\
    full_blocks (N.to_nat k) (map block_size (filter is_pinv (p_gates pc))) /\
    (* exactly the gates of the circuit *)
    Permutation (flat_map block_gates (p_gates pc)) (c_gates c) /\
    (* inputs and outputs in order *)
    List.concat (p_inputs pc) = List.concat (c_inputs c) /\
    full_blocks (N.to_nat k) (map (@List.length N) (p_inputs pc)) /\
    List.concat (p_outputs pc) = List.concat (c_outputs c) /\
    full_blocks (N.to_nat k) (map (@List.length N) (p_outputs pc)) /\
    p_num_wires pc = c_num_wires c /\ p_gates_per_block pc = k /\
    (* same meaning *)
    (forall a, Forall (sat_block a) (p_gates pc) <-> Forall (sat a) (c_gates c)).
Proof.
  intros c k Hk. destruct (pack_ok c k Hk) as (a & x & n & inp & out & E & Ea & Ex & En & C1 & F1 & C2 & F2).
  destruct (pack_info_ok k (and_infos (c_gates c)) Hk) as (a' & Ea' & Pa & Fa & _). rewrite Ea in Ea'. injection Ea' as <-.
  destruct (pack_info_ok k (xor_infos (c_gates c)) Hk) as (x' & Ex' & Px & Fx & _). rewrite Ex in Ex'. injection Ex' as <-.
  destruct (pack_info_ok k (inv_infos (c_gates c)) Hk) as (n' & En' & Pn & Fn & _). rewrite En in En'. injection En' as <-.
  eexists. split; [exact E|]. cbn [p_gates p_inputs p_outputs p_num_wires p_gates_per_block].
  set (fa := fun b => PAnd _ _ _). set (fx := fun b => PXor _ _ _). set (fn := fun b => PInv _ _).
  assert (WF : Forall block_wf (map fa a ++ map fx x ++ map fn n)).
  { rewrite !Forall_app. repeat split; apply Forall_map, Forall_forall; intros b _; simpl;
      unfold inp_col, out_col; rewrite !map_length; auto. }
  assert (FK : forall p b, (forall y, p (fa y) = b) -> filter p (map fa a) = if b then map fa a else []).
  { intros p b H. induction a as [|y a IH]; simpl; [now destruct b|]. clear -H.
    assert (G : forall l, filter p (map fa l) = if b then map fa l else []).
    { induction l as [|z l IH]; simpl; [now destruct b|]. rewrite H, IH. now destruct b. }
    rewrite H, G. now destruct b. }
  assert (FK2 : forall p b, (forall y, p (fx y) = b) -> filter p (map fx x) = if b then map fx x else []).
  { intros p b H. clear -H. induction x as [|y l IH]; simpl; [now destruct b|]. rewrite H, IH. now destruct b. }
  assert (FK3 : forall p b, (forall y, p (fn y) = b) -> filter p (map fn n) = if b then map fn n else []).
  { intros p b H. clear -H. induction n as [|y l IH]; simpl; [now destruct b|]. rewrite H, IH. now destruct b. }
  assert (PERM : Permutation (flat_map block_gates (map fa a ++ map fx x ++ map fn n)) (c_gates c)).
  { rewrite !flat_map_app.
    assert (G1 : flat_map block_gates (map fa a) = map (to2 And) (List.concat a)).
    { rewrite flat_map_concat_map, map_map, concat_map. f_equal. apply map_ext. intro b. apply zip3_cols. }
    assert (G2 : flat_map block_gates (map fx x) = map (to2 Xor) (List.concat x)).
    { rewrite flat_map_concat_map, map_map, concat_map. f_equal. apply map_ext. intro b. apply zip3_cols. }
    assert (G3 : flat_map block_gates (map fn n) = map to1 (List.concat n)).
    { rewrite flat_map_concat_map, map_map, concat_map. f_equal. apply map_ext. intro b. apply combine_cols. }
    rewrite G1, G2, G3, Pa, Px, Pn. apply kinds_perm. }
  repeat match goal with |- _ /\ _ => split end; try assumption; try reflexivity.
  - rewrite !filter_app, (FK _ true), (FK2 _ false), (FK3 _ false) by reflexivity. rewrite app_nil_r, map_map.
    erewrite map_ext; [exact Fa|]. intro b. simpl. apply map_length.
  - rewrite !filter_app, (FK _ false), (FK2 _ true), (FK3 _ false) by reflexivity. rewrite app_nil_r. simpl. rewrite map_map.
    erewrite map_ext; [exact Fx|]. intro b. simpl. apply map_length.
  - rewrite !filter_app, (FK _ false), (FK2 _ false), (FK3 _ true) by reflexivity. simpl. rewrite map_map.
    erewrite map_ext; [exact Fn|]. intro b. simpl. apply map_length.
  - intro f.
    assert (G : forall bs, Forall block_wf bs -> (Forall (sat_block f) bs <-> Forall (sat f) (flat_map block_gates bs))).
    { induction 1 as [|b bs Hb _ IH]; simpl; [split; constructor|]. rewrite Forall_app, <- IH, <- sat_block_iff by assumption.
      split; [intro H; inversion H; auto|intros []; now constructor]. }
    rewrite (G _ WF). split; intro H; rewrite Forall_forall in *; intros g Hg; apply H.
    + eapply Permutation_in; [apply Permutation_sym, PERM|exact Hg].
    + eapply Permutation_in; [exact PERM|exact Hg].
Qed.
Print Assumptions C19_pack_preserves_the_circuit.

(** AND blocks first, then XOR, then INV; [get_gate_counts] counts them. *)
Theorem C19_block_order_and_counts : forall c k pc, pack c k = Some pc ->
  p_gates pc = filter is_pand (p_gates pc) ++ filter is_pxor (p_gates pc) ++ filter is_pinv (p_gates pc) /\
  get_gate_counts (p_gates pc) =
    (List.length (filter is_pand (p_gates pc)), List.length (filter is_pxor (p_gates pc)),
     List.length (filter is_pinv (p_gates pc))) /\
  Permutation (flat_map block_gates (filter is_pand (p_gates pc))) (filter is_and (c_gates c)) /\
  Permutation (flat_map block_gates (filter is_pxor (p_gates pc))) (filter is_xor (c_gates c)) /\
  Permutation (flat_map block_gates (filter is_pinv (p_gates pc))) (filter is_inv (c_gates c)).
Proof.
  intros c k pc E.
  assert (Hk : 1 <= k).
  { destruct (N.eq_dec k 0) as [->|]; [discriminate|lia]. }
  destruct (C19_pack_preserves_the_circuit c k Hk) as (pc' & E' & _ & _ & _ & _ & PERM & _).
  rewrite E in E'. injection E' as <-.
  destruct (pack_ok c k Hk) as (a & x & n & inp & out & E2 & _). rewrite E in E2. injection E2 as ->.
  cbn [p_gates] in *.
  set (fa := fun b => PAnd _ _ _) in *. set (fx := fun b => PXor _ _ _) in *. set (fn := fun b => PInv _ _) in *.
  assert (FK : forall (f : list ginfo -> pgate) p b l, (forall y, p (f y) = b) -> filter p (map f l) = if b then map f l else []).
  { intros f p b l H. induction l as [|z l IH]; simpl; [now destruct b|]. rewrite H, IH. now destruct b. }
  assert (KP : forall (p : pgate -> bool) (q : gate -> bool), (forall b g, In g (block_gates b) -> q g = p b) ->
     forall bs, filter q (flat_map block_gates bs) = flat_map block_gates (filter p bs)).
  { intros p q H. induction bs as [|b bs IH]; simpl; [reflexivity|]. rewrite filter_app, IH.
    assert (X : filter q (block_gates b) = if p b then block_gates b else []).
    { specialize (H b). induction (block_gates b) as [|g l IHl]; simpl; [now destruct (p b)|].
      rewrite (H g) by now left. rewrite IHl by (intros; apply H; now right). now destruct (p b). }
    rewrite X. now destruct (p b). }
  assert (PF : forall q, Permutation (filter q (flat_map block_gates (map fa a ++ map fx x ++ map fn n))) (filter q (c_gates c))).
  { intro q. clear - PERM. induction PERM as [|y l1 l2 H IH|y z l|l1 l2 l3 H1 IH1 H2 IH2]; simpl.
    - reflexivity.
    - destruct (q y); [now apply perm_skip|assumption].
    - destruct (q y), (q z); try reflexivity. apply perm_swap.
    - now rewrite IH1. }
  assert (ZP : forall l r o f g, In g (zip3 l r o f) -> exists u v w, g = f u v w).
  { induction l as [|u l IH]; intros [|v r] [|w o] f g HI; simpl in HI; try contradiction.
    destruct HI as [<-|HI]; [eauto|eapply IH; eassumption]. }
  repeat match goal with |- _ /\ _ => split end.
  - rewrite !filter_app, !(FK fa is_pand true), !(FK fx is_pand false), !(FK fn is_pand false), !(FK fa is_pxor false),
      !(FK fx is_pxor true), !(FK fn is_pxor false), !(FK fa is_pinv false), !(FK fx is_pinv false), !(FK fn is_pinv true) by reflexivity.
    now rewrite !app_nil_r.
  - rewrite !counts_app.
    assert (G1 : forall l, get_gate_counts (map fa l) = (List.length l, 0, 0)%nat) by (induction l as [|y l IH]; simpl; [reflexivity|now rewrite IH]).
    assert (G2 : forall l, get_gate_counts (map fx l) = (0, List.length l, 0)%nat) by (induction l as [|y l IH]; simpl; [reflexivity|now rewrite IH]).
    assert (G3 : forall l, get_gate_counts (map fn l) = (0, 0, List.length l)%nat) by (induction l as [|y l IH]; simpl; [reflexivity|now rewrite IH]).
    rewrite G1, G2, G3.
    rewrite !filter_app, !(FK fa is_pand true), !(FK fx is_pand false), !(FK fn is_pand false), !(FK fa is_pxor false),
      !(FK fx is_pxor true), !(FK fn is_pxor false), !(FK fa is_pinv false), !(FK fx is_pinv false), !(FK fn is_pinv true) by reflexivity.
    rewrite !app_length, !map_length. cbn [Nat.add]. now rewrite !Nat.add_0_r.
  - rewrite <- (KP is_pand is_and); [apply PF|]. intros [l r o|l r o|y o] g Hg; simpl in Hg.
    + apply ZP in Hg as (? & ? & ? & ->). reflexivity.
    + apply ZP in Hg as (? & ? & ? & ->). reflexivity.
    + apply in_map_iff in Hg as (? & <- & _). reflexivity.
  - rewrite <- (KP is_pxor is_xor); [apply PF|]. intros [l r o|l r o|y o] g Hg; simpl in Hg.
    + apply ZP in Hg as (? & ? & ? & ->). reflexivity.
    + apply ZP in Hg as (? & ? & ? & ->). reflexivity.
    + apply in_map_iff in Hg as (? & <- & _). reflexivity.
  - rewrite <- (KP is_pinv is_inv); [apply PF|]. intros [l r o|l r o|y o] g Hg; simpl in Hg.
    + apply ZP in Hg as (? & ? & ? & ->). reflexivity.
    + apply ZP in Hg as (? & ? & ? & ->). reflexivity.
    + apply in_map_iff in Hg as (? & <- & _). reflexivity.
Qed.
Print Assumptions C19_block_order_and_counts.

(** Within a kind, gates come in order of their most used input wire. *)
Theorem C19_sorted_by_use : forall c k pc, pack c k = Some pc ->
  StronglySorted (no_heavier (filter is_and (c_gates c))) (flat_map block_gates (filter is_pand (p_gates pc))) /\
  StronglySorted (no_heavier (filter is_xor (c_gates c))) (flat_map block_gates (filter is_pxor (p_gates pc))) /\
  StronglySorted (no_heavier (filter is_inv (c_gates c))) (flat_map block_gates (filter is_pinv (p_gates pc))).
Proof.
  intros c k pc E.
  assert (Hk : 1 <= k).
  { destruct (N.eq_dec k 0) as [->|]; [discriminate|lia]. }
  destruct (pack_ok c k Hk) as (a & x & n & inp & out & E2 & Ea & Ex & En & _). rewrite E in E2. injection E2 as ->.
  destruct (pack_info_ok k (and_infos (c_gates c)) Hk) as (a' & Ea' & Pa & _ & Sa). rewrite Ea in Ea'. injection Ea' as <-.
  destruct (pack_info_ok k (xor_infos (c_gates c)) Hk) as (x' & Ex' & Px & _ & Sx). rewrite Ex in Ex'. injection Ex' as <-.
  destruct (pack_info_ok k (inv_infos (c_gates c)) Hk) as (n' & En' & Pn & _ & Sn). rewrite En in En'. injection En' as <-.
  cbn [p_gates] in *.
  set (fa := fun b => PAnd _ _ _) in *. set (fx := fun b => PXor _ _ _) in *. set (fn := fun b => PInv _ _) in *.
  assert (FK : forall (f : list ginfo -> pgate) p b l, (forall y, p (f y) = b) -> filter p (map f l) = if b then map f l else []).
  { intros f p b l H. induction l as [|z l IH]; simpl; [now destruct b|]. rewrite H, IH. now destruct b. }
  (* transfer of sortedness along the conversion to gates *)
  assert (TR : forall (infos : list ginfo) (to : ginfo -> gate) (gs : list gate) (ar : ginfo -> Prop) l,
     Permutation l infos -> Forall ar infos ->
     (forall g, ar g -> fst g <> [] /\ gate_inputs (to g) = fst g) -> flat_map fst infos = flat_map gate_inputs gs ->
     StronglySorted (fun y z => wt_leb (weight infos y) (weight infos z) = true) l ->
     StronglySorted (no_heavier gs) (map to l)).
  { intros infos to gs ar l HP HA Har HF HS.
    assert (HL : Forall ar l).
    { rewrite Forall_forall in *. intros g Hg. apply HA. eapply Permutation_in; eassumption. }
    clear HP HA. induction HS as [|y l HS IH HY]; simpl; [constructor|]. inversion HL; subst.
    constructor; [now apply IH|]. apply Forall_map. rewrite Forall_forall in *. intros z Hz.
    specialize (HY z Hz). destruct (Har y) as [Ny Iy]; [assumption|].
    destruct (Har z) as [Nz Iz]; [now apply H2|].
    destruct (weight_max infos z Nz) as ((i2 & Hi2 & W2) & _).
    destruct (weight_max infos y Ny) as (_ & M1).
    exists i2. rewrite Iy, Iz. split; [assumption|]. intros i1 Hi1.
    specialize (M1 i1 Hi1). assert (T := wt_leb_trans _ _ _ M1 HY). rewrite W2 in T.
    unfold wt_leb, fan_out in T. rewrite HF in T. simpl in T. fold (uses gs i1) (uses gs i2) in T.
    apply orb_true_iff in T as [T|T]; [left; apply N.ltb_lt in T; lia|].
    apply andb_true_iff in T as [T1 T2]. apply N.eqb_eq in T1. apply N.leb_le in T2. right. split; [lia|assumption]. }
  rewrite !filter_app, !(FK fa is_pand true), !(FK fx is_pand false), !(FK fn is_pand false), !(FK fa is_pxor false),
      !(FK fx is_pxor true), !(FK fn is_pxor false), !(FK fa is_pinv false), !(FK fx is_pinv false), !(FK fn is_pinv true) by reflexivity.
  cbn [app]. rewrite !app_nil_r.
  assert (G1 : flat_map block_gates (map fa a) = map (to2 And) (List.concat a)).
  { rewrite flat_map_concat_map, map_map, concat_map. f_equal. apply map_ext. intro b. apply zip3_cols. }
  assert (G2 : flat_map block_gates (map fx x) = map (to2 Xor) (List.concat x)).
  { rewrite flat_map_concat_map, map_map, concat_map. f_equal. apply map_ext. intro b. apply zip3_cols. }
  assert (G3 : flat_map block_gates (map fn n) = map to1 (List.concat n)).
  { rewrite flat_map_concat_map, map_map, concat_map. f_equal. apply map_ext. intro b. apply combine_cols. }
  rewrite G1, G2, G3. repeat split.
  - apply (TR (and_infos (c_gates c)) (to2 And) _ arity2); try assumption; [apply and_arity| |].
    + intros g (u & v & o & ->). split; [discriminate|reflexivity].
    + clear. induction (c_gates c) as [|[] gs IH]; simpl; try assumption; [reflexivity|]. now rewrite IH.
  - apply (TR (xor_infos (c_gates c)) (to2 Xor) _ arity2); try assumption; [apply xor_arity| |].
    + intros g (u & v & o & ->). split; [discriminate|reflexivity].
    + clear. induction (c_gates c) as [|[] gs IH]; simpl; try assumption; [reflexivity|]. now rewrite IH.
  - apply (TR (inv_infos (c_gates c)) to1 _ arity1); try assumption; [apply inv_arity| |].
    + intros g (u & o & ->). split; [discriminate|reflexivity].
    + clear. induction (c_gates c) as [|[] gs IH]; simpl; try assumption; [reflexivity|]. now rewrite IH.
Qed.
Print Assumptions C19_sorted_by_use.

(** A block size of zero panics. *)
Theorem C19_zero_block_size_panics : forall c, pack c 0 = None.
Proof. reflexivity. Qed.
Print Assumptions C19_zero_block_size_panics.

Example C19_example :
  option_map p_gates (pack adder 2) =
    Some [PAnd [0; 3] [1; 2] [4; 5]; PXor [0; 3] [1; 2] [3; 7]; PXor [4] [5] [6]; PInv [6] [8]] /\
  option_map p_inputs (pack adder 2) = Some [[0; 1]; [2]] /\ 1 <= 2.
Proof. repeat split; vm_compute; try reflexivity; discriminate. Qed.

(** Packing a well-formed circuit gives a well-formed packed circuit. *)

From Coq Require Import NArith List Permutation.
From Verif Require Import CircuitModel CircuitSpec LpnModel P_Circuit.
From mathcomp Require Import all_ssreflect all_algebra zify.
From Verif Require Import GarbleSpec.
Set Implicit Arguments.
Unset Strict Implicit.
Unset Printing Implicit Defensive.

(** ** Lists of the two libraries *)

Lemma InP (T : eqType) (x : T) s : reflect (In x s) (x \in s).
Proof.
  elim: s => [|y s IH] /=; first by right. rewrite inE. apply: (iffP orP).
  - move=> [/eqP ->|/IH H]; [by left|by right].
  - move=> [->|/IH H]; [by left|by right].
Qed.

Lemma NoDup_uniq (T : eqType) (s : seq T) : NoDup s -> uniq s.
Proof. elim=> //= x l H _ ->. rewrite andbT. by apply/negP => /InP. Qed.

Lemma In_concat (T : Type) (x : T) ss : In x (List.concat ss) <-> exists s, In s ss /\ In x s.
Proof. split=> [/in_concat [s H]|[s H]]; [by exists s|]. apply/in_concat. by exists s. Qed.

Lemma flatten_concat (T : Type) (ss : seq (seq T)) : flatten ss = List.concat ss.
Proof. by elim: ss => //= s ss ->. Qed.

Lemma full_le k sizes m : full_blocks k sizes -> In m sizes -> (m <= k)%N.
Proof.
  move=> [->|[q [la [-> H]]]] //. rewrite in_app_iff => -[H1|[H1|[]]].
  - by rewrite (repeat_spec _ _ _ H1).
  - rewrite -H1. lia.
Qed.

Lemma all_In (T : Type) (a : pred T) s : (forall x, In x s -> a x) -> all a s.
Proof. elim: s => //= x s IH H. rewrite H ?IH //; [move=> y Hy; apply: H; by right|by left]. Qed.

(** ** Blocks *)

Lemma zip3_out f l r o : (forall x y z, gate_output (f x y z) = z) -> List.length l = List.length o -> List.length r = List.length o ->
  List.map gate_output (zip3 l r o f) = o.
Proof. move=> Hf. elim: o l r => [|z o IH] [|x l] [|y r] //= [H1] [H2]. by rewrite Hf IH. Qed.

Lemma combine_out a o : List.length a = List.length o ->
  List.map gate_output (List.map (fun x => Inv x.1 x.2) (List.combine a o)) = o.
Proof. by elim: o a => [|z o IH] [|x a] //= [H]; rewrite IH. Qed.

Lemma block_out b : block_wf b -> List.map gate_output (block_gates b) = gate_out b.
Proof.
  case: b => [l r o|l r o|a o] /=; [case=> H1 H2; exact: zip3_out|case=> H1 H2; exact: zip3_out|exact: combine_out].
Qed.

(** The gates of a block read exactly the wires in the block's input lists. *)
Lemma block_reads b w : block_wf b -> In w (List.concat (gate_inps b)) -> exists2 g, In g (block_gates b) & In w (gate_inputs g).
Proof.
  have Z (f : N -> N -> N -> gate) : (forall x y z, gate_inputs (f x y z) = [:: x; y]) -> forall l r o,
    List.length l = List.length o -> List.length r = List.length o -> In w l \/ In w r ->
    exists2 g, In g (zip3 l r o f) & In w (gate_inputs g).
  { move=> Hf l r o. elim: o l r => [|z o IH] [|x l] [|y r] //=; first by move=> _ _ [].
    move=> [H1] [H2] [[->|H]|[->|H]].
    - exists (f w y z); [by left|]. rewrite Hf. by left.
    - have [g Hg Hw] := IH l r H1 H2 (or_introl H). exists g => //. by right.
    - exists (f x w z); [by left|]. rewrite Hf. by right; left.
    - have [g Hg Hw] := IH l r H1 H2 (or_intror H). exists g => //. by right. }
  case: b => [l r o|l r o|a o] /=; rewrite ?app_nil_r.
  - move=> [H1 H2] /in_app_iff. exact: Z.
  - move=> [H1 H2] /in_app_iff. exact: Z.
  - move=> H1 H. elim: o a H1 H => [|z o IH] [|x a] //= [H1] [->|H].
    + exists (Inv w z); by left.
    + have [g Hg Hw] := IH a H1 H. exists g => //. by right.
Qed.

Lemma block_sizes b : block_wf b -> forall ws, ws \in gate_inps b -> size ws = size (gate_out b).
Proof.
  case: b => [l r o|l r o|a o] /=.
  - move=> [H1 H2] ws. by rewrite !inE => /orP [] /eqP ->.
  - move=> [H1 H2] ws. by rewrite !inE => /orP [] /eqP ->.
  - move=> H1 ws. by rewrite !inE => /eqP ->.
Qed.

Lemma kind_cases b : [|| is_pand b, is_pxor b | is_pinv b].
Proof. by case: b. Qed.

(** ** The packed circuit *)

Lemma pack_wf c l pc : well_formed c -> pack c (N.of_nat l) = Some pc ->
  wf_packed pc l /\ p_num_wires pc = c_num_wires c.
Proof.
  move=> [ND [BD [TO _]]] E.
  have Hl : (1 <= N.of_nat l)%num.
  { case: (N.eq_dec (N.of_nat l) 0) => [E0|]; last by lia. by move: E; rewrite E0. }
  have [pc' [E' [WF [FA [FX [FI [PE [CI [FB [_ [_ [NW _]]]]]]]]]]]] := C19_pack_preserves_the_circuit c (N.of_nat l) Hl.
  move: E. rewrite E' => -[?]. subst pc'. rewrite Nat2N.id in FA FX FI FB.
  set wires := List.concat (c_inputs c) ++ List.map gate_output (c_gates c) in ND BD.
  have EO : List.map gate_output (flat_map block_gates (p_gates pc)) = List.concat (List.map gate_out (p_gates pc)).
  { elim: WF => //= b bs Hb _ IH. by rewrite map_app IH (block_out Hb). }
  have PO : Permutation (flatten (out_blocks pc)) wires.
  { rewrite /out_blocks flatten_concat concat_app CI /wires. apply: Permutation_app_head. rewrite -[map gate_out _]/(List.map _ _) -EO.
    exact: Permutation_map. }
  have MEM w : In w wires -> w \in flatten (out_blocks pc).
  { move=> H. apply/InP. apply: Permutation_in H. exact: Permutation_sym. }
  split=> //. apply/and4P. split.
  - apply/allP => b /InP. rewrite /out_blocks in_app_iff => -[H|/in_map_iff [g [<- H]]].
    + apply: (full_le FB). exact: (in_map (@List.length N)).
    + have := kind_cases g.
      have -> : size (gate_out g) = block_size g by case: (g).
      move=> /or3P [K|K|K]; [apply: (full_le FA)|apply: (full_le FX)|apply: (full_le FI)]; apply: in_map; by apply/filter_In.
  - apply: NoDup_uniq. apply: Permutation_NoDup ND. exact: Permutation_sym.
  - apply/allP => w /InP H. apply/N.ltb_lt. rewrite NW. move/Forall_forall: BD. apply. exact: Permutation_in H.
  - apply: all_In => g Hg. have Wg := proj1 (Forall_forall _ _) WF g Hg.
    apply/allP => ws Hws. rewrite (block_sizes Wg Hws) eqxx /=. apply/allP => w Hw. apply: MEM.
    have [x Hx Hr] : exists2 x, In x (block_gates g) & In w (gate_inputs x).
    { apply: block_reads => //. apply/In_concat. exists ws. split; exact/InP. }
    have Hc : In x (c_gates c). { apply: Permutation_in PE _. apply/in_flat_map. by exists g. }
    have [pre [post Ep]] := in_split _ _ Hc. have := TO _ _ _ Ep w Hr. rewrite /wires Ep.
    rewrite !in_app_iff => -[H|H]; [by left|right]. rewrite map_app in_app_iff. by left.
Qed.

(** C46, C47: which gates share an LPN matrix. *)

From Coq Require Import NArith List.
From Verif Require Import CircuitModel LpnModel LpnSpec LpnProofs.
From mathcomp Require Import all_ssreflect zify.
Set Implicit Arguments.
Unset Strict Implicit.
Unset Printing Implicit Defensive.

Notation g0 := (PInv [::] [::]).

(** ** C47 *)

(** The lookup never panics; every gate has an index below the number of
    nonces, the nonce there is the hash of the gate's use numbers, no nonce is
    listed twice and every one belongs to some gate. *)
Theorem C47_lookup_total_and_dense (H : eqType) (sha : seq N -> H) (h0 : H) (gs : seq pgate) (l : nat) :
  exists ns lk, [/\ compute_lookup sha h0 gs l = Some (ns, lk),
    size lk = size gs, uniq ns,
    forall g, g < size gs -> nth 0 lk g < size ns /\ nth h0 ns (nth 0 lk g) = sha (nonce_bytes gs l g) &
    forall i, i < size ns -> exists2 g, g < size gs & nth 0 lk g = i].
Proof.
  set hs := [seq sha (nonce_bytes gs l g) | g <- iota 0 (size gs)].
  set N' := foldl (@add_nonce H) [::] hs.
  have Sz : size hs = size gs by rewrite size_map size_iota.
  have U : uniq N' by exact: uniq_fold.
  have Hn g : g < size gs -> nth h0 hs g = sha (nonce_bytes gs l g).
  { by move=> Hg; rewrite (nth_map 0) ?size_iota // nth_iota. }
  have Hk g : g < size gs -> nth 0 [seq index h N' | h <- hs] g = index (nth h0 hs g) N'.
  { by move=> Hg; rewrite (nth_map h0) ?Sz. }
  exists N', [seq index h N' | h <- hs]. split=> //.
  - exact: compute_lookupE.
  - by rewrite size_map.
  - move=> g Hg. rewrite Hk // -Hn //.
    have M : nth h0 hs g \in N' by rewrite mem_fold /=; apply: mem_nth; rewrite Sz.
    by rewrite index_mem nth_index.
  - move=> i Hi. have M : nth h0 N' i \in hs by have := mem_nth h0 Hi; rewrite mem_fold.
    exists (index (nth h0 N' i) hs); first by rewrite -Sz index_mem.
    by rewrite Hk -?Sz ?index_mem // nth_index // index_uniq.
Qed.
Print Assumptions C47_lookup_total_and_dense.

(** Two gates share a matrix exactly when their hashes agree. *)
Theorem C47_shared_iff_equal_hash (H : eqType) (sha : seq N -> H) (h0 : H) gs l ns lk g g' :
  compute_lookup sha h0 gs l = Some (ns, lk) -> g < size gs -> g' < size gs ->
  nth 0 lk g = nth 0 lk g' <-> sha (nonce_bytes gs l g) = sha (nonce_bytes gs l g').
Proof.
  move=> E Hg Hg'. have [ns' [lk' [E' _ U Hn _]]] := C47_lookup_total_and_dense sha h0 gs l.
  move: E' Hn U. rewrite E => -[<- <-] Hn U. have [L1 E1] := Hn g Hg. have [L2 E2] := Hn g' Hg'. rewrite -E1 -E2.
  split=> [->//|] /eqP. by rewrite nth_uniq // => /eqP.
Qed.
Print Assumptions C47_shared_iff_equal_hash.

(** Three gates and two nonces (the bytes themselves stand for their hash). *)
Example C47_example :
  let gs := [:: PAnd [:: 0]%num [:: 1]%num [:: 4]%num; PXor [:: 1]%num [:: 0]%num [:: 5]%num; PXor [:: 2]%num [:: 3]%num [:: 6]%num] in
  exists ns, compute_lookup id [::] gs 1 = Some (ns, [:: 0; 1; 0]) /\ size ns = 2.
Proof. by eexists; split; vm_compute; reflexivity. Qed.

(** ** C46 *)

(** The bytes hashed for two gate blocks that have the same wires at an
    occupied slot (as an unordered pair, or as one wire) differ. *)
Theorem C46_same_wires_different_bytes gs l g g' q : (2 * N.of_nat (size gs) < 2 ^ 64)%num ->
  g < g' < size gs -> q < l -> full_at q (nth g0 gs g) -> full_at q (nth g0 gs g') ->
  perm_eq (wires_at q (nth g0 gs g)) (wires_at q (nth g0 gs g')) ->
  nonce_bytes gs l g <> nonce_bytes gs l g'.
Proof.
  move=> Hb /andP [Lg Lg'] Hq F F' P. have Hg : g < size gs := ltn_trans Lg Lg'.
  pose U k w := uses q w (take k.+1 gs).
  have Umono w : U g w <= U g' w.
  { rewrite /U -(subnKC (ltnW Lg : g.+1 <= g'.+1)) takeD uses_cat. lia. }
  have Ugrow w : w \in wires_at q (nth g0 gs g') -> 0 < U g' w /\ U g w < U g' w.
  { move=> Hw. have : U g' w = uses q w (take g' gs) + gate_uses q w (nth g0 gs g').
    { by rewrite /U (take_nth g0 Lg') -cats1 uses_cat uses_seq1. }
    have : U g w <= uses q w (take g' gs).
    { by rewrite /U -(subnKC Lg) takeD uses_cat; lia. }
    have : 0 < gate_uses q w (nth g0 gs g').
    { case/mapP: Hw => ws Hws ->. apply: gate_uses_pos; last exact: (allP F' _ Hws).
      elim: (gate_inps _) Hws => //= x s IH. rewrite inE => /orP [/eqP ->|/IH]; [by left|by right]. }
    lia. }
  have Upos w : w \in wires_at q (nth g0 gs g) -> 0 < U g w.
  { move=> Hw. have : U g w = uses q w (take g gs) + gate_uses q w (nth g0 gs g).
    { by rewrite /U (take_nth g0 Hg) -cats1 uses_cat uses_seq1. }
    have : 0 < gate_uses q w (nth g0 gs g).
    { case/mapP: Hw => ws Hws ->. apply: gate_uses_pos; last exact: (allP F _ Hws).
      elim: (gate_inps _) Hws => //= x s IH. rewrite inE => /orP [/eqP ->|/IH]; [by left|by right]. }
    lia. }
  pose num k i := use_numbers (take k.+1 gs) l (nth [::] (gate_inps (nth g0 gs k)) i).
  have Bnd k j : k < size gs -> (N.of_nat (nth 0%N (num k 0 ++ num k 1) j) < 2 ^ 64)%num.
  { move=> Hk. apply: (N.le_lt_trans _ _ _ _ Hb). 
    have : nth 0 (num k 0 ++ num k 1) j <= 2 * size gs; first last.
    { move: (nth _ _ _) => v. move: (size gs) => m. move=> /leP Hv. rewrite -[2%num]/(N.of_nat 2) -Nat2N.inj_mul. clear -Hv. rewrite /N.le -Nat2N.inj_compare. apply/PeanoNat.Nat.compare_le_iff. exact: Hv. }
    have A s : all (fun v => v <= 2 * size gs) s -> nth 0 s j <= 2 * size gs.
    { case: (ltnP j (size s)) => Hj Ha; [exact: (all_nthP 0 Ha)|by rewrite nth_default]. }
    apply: A. apply/allP => v. rewrite mem_cat => /orP [] /mapP [i _ ->]; case: ifP => // _;
      have := uses_le i (nth 0%num (nth [::] (gate_inps (nth g0 gs k)) 0) i) (take k.+1 gs);
      have := uses_le i (nth 0%num (nth [::] (gate_inps (nth g0 gs k)) 1) i) (take k.+1 gs);
      rewrite size_take; case: (ltnP k.+1 _); lia. }
  have Num k i : q < size (nth [::] (gate_inps (nth g0 gs k)) i) ->
     nth 0 (num k i) q = (U k (nth 0%num (nth [::] (gate_inps (nth g0 gs k)) i) q)).-1.
  { move=> Hs. by rewrite (nth_map 0) ?size_iota // nth_iota // add0n Hs. }
  rewrite !nonce_bytesE -!/(num _ _) => E.
  have Sz k : size (num k 0 ++ num k 1) = l + l by rewrite size_cat !size_use_numbers.
  have E0 : nth 0 (num g 0) q = nth 0 (num g' 0) q.
  { have Hq2 : q < size (num g 0 ++ num g 1) by rewrite Sz; lia.
    have := flatten_be_inj _ Hq2 (Bnd _ _ Hg) (Bnd _ _ Lg') E. rewrite !Sz => /(_ erefl).
    by rewrite !nth_cat !size_use_numbers Hq. }
  have E1 : nth 0 (num g 1) q = nth 0 (num g' 1) q.
  { have Hq2 : l + q < size (num g 0 ++ num g 1) by rewrite Sz; lia.
    have := flatten_be_inj _ Hq2 (Bnd _ _ Hg) (Bnd _ _ Lg') E. rewrite !Sz => /(_ erefl).
    rewrite !nth_cat !size_use_numbers. have -> : (l + q < l) = false by lia. by rewrite addKn. }
  move: F F' P E0 E1 Ugrow Upos (Num g 0) (Num g 1) (Num g' 0) (Num g' 1). rewrite /full_at /wires_at.
  have Two (a b a' b' : seq N) : (q < size a) && ((q < size b) && true) -> (q < size a') && ((q < size b') && true) ->
     perm_eq [:: nth 0%num a q; nth 0%num b q] [:: nth 0%num a' q; nth 0%num b' q] ->
     nth 0 (num g 0) q = nth 0 (num g' 0) q -> nth 0 (num g 1) q = nth 0 (num g' 1) q ->
     (forall w, w \in [:: nth 0%num a' q; nth 0%num b' q] -> 0 < U g' w /\ U g w < U g' w) ->
     (forall w, w \in [:: nth 0%num a q; nth 0%num b q] -> 0 < U g w) ->
     (q < size a -> nth 0 (num g 0) q = (U g (nth 0%num a q)).-1) -> (q < size b -> nth 0 (num g 1) q = (U g (nth 0%num b q)).-1) ->
     (q < size a' -> nth 0 (num g' 0) q = (U g' (nth 0%num a' q)).-1) -> (q < size b' -> nth 0 (num g' 1) q = (U g' (nth 0%num b' q)).-1) ->
     False.
  { rewrite !andbT => /andP [Fa Fb] /andP [Fa' Fb'] P E0 E1 G Ps /(_ Fa) Na /(_ Fb) Nb /(_ Fa') Na' /(_ Fb') Nb'.
    move: P E0 E1 G Ps. rewrite Na Nb Na' Nb'. move: (nth _ a q) (nth _ b q) (nth _ a' q) (nth _ b' q) => x y x' y' P E0 E1 G Ps.
    have [G1 G2] := (G x' (mem_head _ _), G y' (mem_last _ [:: _])).
    have [P1 P2] := (Ps x (mem_head _ _), Ps y (mem_last _ [:: _])).
    have [[Ex Ey]|[Ex Ey]] : (x = x' /\ y = y') \/ (x = y' /\ y = x').
    { have := perm_mem P x. rewrite !inE eqxx /= => /esym /orP [] /eqP Ex.
      - left. split=> //. move: P. rewrite Ex perm_cons => /perm_mem /(_ y). by rewrite !inE eqxx => /esym /eqP.
      - right. split=> //. have : perm_eq [:: y'; y] [:: y'; x'].
        { rewrite -Ex. apply: perm_trans P _. by rewrite Ex (perm_catC [:: x'] [:: y']). }
        rewrite perm_cons => /perm_mem /(_ y). by rewrite !inE eqxx => /esym /eqP. }
    - rewrite Ex in E0 P1. lia.
    - rewrite Ex in E0 P1. rewrite Ey in E1 P2. have := Umono x'. have := Umono y'. lia. }
  case: (nth g0 gs g) => [a b o|a b o|a o]; case: (nth g0 gs g') => [a' b' o'|a' b' o'|a' o'] /=;
    try (by move=> _ _ /perm_size); try exact: Two.
  rewrite !andbT => Fa Fa' P E0 _ G Ps /(_ Fa) Na _ /(_ Fa') Na' _.
  have Ex : nth 0%num a q = nth 0%num a' q by have := perm_mem P (nth 0%num a q); rewrite !inE eqxx => /esym /eqP.
  move: E0. rewrite Na Na' Ex. have := G _ (mem_head _ [::]). have := Ps _ (mem_head _ [::]). rewrite Ex. lia.
Qed.
Print Assumptions C46_same_wires_different_bytes.

(** Hence they never share a matrix, when the hash has no collision among the
    strings hashed for this circuit. *)
Theorem C46_same_wires_different_matrix (H : eqType) (sha : seq N -> H) (h0 : H) gs l ns lk g g' q :
  compute_lookup sha h0 gs l = Some (ns, lk) -> (2 * N.of_nat (size gs) < 2 ^ 64)%num ->
  {in [seq nonce_bytes gs l i | i <- iota 0 (size gs)] &, injective sha} ->
  g < g' < size gs -> q < l -> full_at q (nth g0 gs g) -> full_at q (nth g0 gs g') ->
  perm_eq (wires_at q (nth g0 gs g)) (wires_at q (nth g0 gs g')) ->
  nth 0 lk g <> nth 0 lk g'.
Proof.
  move=> E Hb Hi L Hq F F' P. have /andP [Lg Lg'] := L. have Hg := ltn_trans Lg Lg'.
  move/(C47_shared_iff_equal_hash E Hg Lg') => Es.
  apply: (C46_same_wires_different_bytes Hb L Hq F F' P). apply: Hi => //; apply: map_f; rewrite mem_iota; lia.
Qed.
Print Assumptions C46_same_wires_different_matrix.

(** Exactly which blocks share a matrix, under the same assumption on the hash:
    those whose two lists of use numbers agree. *)
Theorem C46_shared_iff_same_use_numbers (H : eqType) (sha : seq N -> H) (h0 : H) gs l ns lk g g' :
  compute_lookup sha h0 gs l = Some (ns, lk) -> (2 * N.of_nat (size gs) < 2 ^ 64)%num ->
  {in [seq nonce_bytes gs l i | i <- iota 0 (size gs)] &, injective sha} ->
  g < size gs -> g' < size gs ->
  nth 0 lk g = nth 0 lk g' <->
  forall i, i < 2 -> use_numbers (take g.+1 gs) l (nth [::] (gate_inps (nth g0 gs g)) i) =
                     use_numbers (take g'.+1 gs) l (nth [::] (gate_inps (nth g0 gs g')) i).
Proof.
  move=> E Hb Hi Hg Hg'. apply: (iff_trans (C47_shared_iff_equal_hash E Hg Hg')).
  pose num k i := use_numbers (take k.+1 gs) l (nth [::] (gate_inps (nth g0 gs k)) i).
  have Bnd k j : k < size gs -> (N.of_nat (nth 0%N (num k 0 ++ num k 1) j) < 2 ^ 64)%num.
  { move=> Hk. apply: (N.le_lt_trans _ _ _ _ Hb).
    have : nth 0 (num k 0 ++ num k 1) j <= 2 * size gs; first last.
    { move: (nth _ _ _) => v. move: (size gs) => m. move=> /leP Hv. rewrite -[2%num]/(N.of_nat 2) -Nat2N.inj_mul. clear -Hv. rewrite /N.le -Nat2N.inj_compare. apply/PeanoNat.Nat.compare_le_iff. exact: Hv. }
    have A s : all (fun v => v <= 2 * size gs) s -> nth 0 s j <= 2 * size gs.
    { case: (ltnP j (size s)) => Hj Ha; [exact: (all_nthP 0 Ha)|by rewrite nth_default]. }
    apply: A. apply/allP => v. rewrite mem_cat => /orP [] /mapP [i _ ->]; case: ifP => // _;
      have := uses_le i (nth 0%num (nth [::] (gate_inps (nth g0 gs k)) 0) i) (take k.+1 gs);
      have := uses_le i (nth 0%num (nth [::] (gate_inps (nth g0 gs k)) 1) i) (take k.+1 gs);
      rewrite size_take; case: (ltnP k.+1 _); lia. }
  have Sz k : size (num k 0 ++ num k 1) = l + l by rewrite size_cat !size_use_numbers.
  split=> [Es|Eq]; last first.
  { congr (sha _). by rewrite !nonce_bytesE /= (Eq 0) // (Eq 1). }
  have {Es}Eb : nonce_bytes gs l g = nonce_bytes gs l g' by apply: Hi => //; apply: map_f; rewrite mem_iota.
  rewrite !nonce_bytesE -!/(num _ _) in Eb.
  have Ec : num g 0 ++ num g 1 = num g' 0 ++ num g' 1.
  { apply: (@eq_from_nth _ 0); first by rewrite !Sz.
    move=> j Hj. apply: (flatten_be_inj _ Hj (Bnd _ _ Hg) (Bnd _ _ Hg') Eb). by rewrite !Sz. }
  have S0 k : size (num k 0) = l by exact: size_use_numbers.
  case=> [|[|//]] _; rewrite -!/(num _ _).
  - by rewrite -(take_size_cat (num g 1) (S0 g)) Ec take_size_cat.
  - by rewrite -(drop_size_cat (num g 1) (S0 g)) Ec drop_size_cat.
Qed.
Print Assumptions C46_shared_iff_same_use_numbers.

(** Two different blocks that share a matrix never have the same wire at the
    same slot of the same operand: a wire's key is used again with one matrix
    only by changing from the left operand to the right or back. *)
Theorem C46_same_operand_different_matrix (H : eqType) (sha : seq N -> H) (h0 : H) gs l ns lk g g' i q :
  compute_lookup sha h0 gs l = Some (ns, lk) -> (2 * N.of_nat (size gs) < 2 ^ 64)%num ->
  {in [seq nonce_bytes gs l i | i <- iota 0 (size gs)] &, injective sha} ->
  g < g' < size gs -> q < l ->
  let inp k := nth [::] (gate_inps (nth g0 gs k)) i in
  q < size (inp g) -> q < size (inp g') -> nth 0%num (inp g) q = nth 0%num (inp g') q ->
  nth 0 lk g <> nth 0 lk g'.
Proof.
  move=> E Hb Hi /andP [Lg Lg'] Hq inp Sg Sg' Ew. have Hg := ltn_trans Lg Lg'.
  move/(C46_shared_iff_same_use_numbers E Hb Hi Hg Lg') => Eq.
  have Hi2 : i < 2.
  { rewrite ltnNge. apply/negP => L2. move: Sg. rewrite /inp nth_default //.
    by case: (nth g0 gs g) => *; apply: leq_trans L2. }
  have In k : q < size (inp k) -> List.In (inp k) (gate_inps (nth g0 gs k)).
  { rewrite /inp. case: (nth g0 gs k) => [a b o|a b o|a o]; case: i {Ew Sg Sg' Eq inp} Hi2 => [|[|//]] _ //=; tauto. }
  have := congr1 (fun s => nth 0 s q) (Eq i Hi2). rewrite -!/(inp _) /= !(nth_map 0) ?size_iota // !nth_iota // !add0n Sg Sg' Ew.
  set w := nth _ (inp g') q.
  have G k (Hk : k < size gs) : uses q w (take k.+1 gs) = uses q w (take k gs) + gate_uses q w (nth g0 gs k).
  { by rewrite (take_nth g0 Hk) -cats1 uses_cat uses_seq1. }
  have P' : 0 < gate_uses q w (nth g0 gs g') by exact: gate_uses_pos (In _ Sg') Sg'.
  have P : 0 < gate_uses q w (nth g0 gs g) by rewrite /w -Ew; exact: gate_uses_pos (In _ Sg) Sg.
  have M : uses q w (take g.+1 gs) <= uses q w (take g' gs) by rewrite -(subnKC Lg) takeD uses_cat; lia.
  move: M. rewrite (G _ Hg) (G _ Lg'). lia.
Qed.
Print Assumptions C46_same_operand_different_matrix.

(** Wire 1 is the right operand of three blocks, which get three matrices; in
    the third block it is used for the third time. *)
Example C46_same_operand_example :
  let gs := [:: PAnd [:: 0]%num [:: 1]%num [:: 4]%num; PXor [:: 2]%num [:: 1]%num [:: 5]%num;
                PAnd [:: 3]%num [:: 1]%num [:: 6]%num; PXor [:: 3]%num [:: 2]%num [:: 7]%num] in
  exists ns, compute_lookup id [::] gs 1 = Some (ns, [:: 0; 1; 2; 3]) /\
    use_numbers (take 3 gs) 1 [:: 1]%num = [:: 2].
Proof. by eexists; split; vm_compute; reflexivity. Qed.

(** The stronger reading of the comment at garble.rs:790-791 (no wire's key is
    used twice with one matrix) is false, whatever the hash: in the circuit with
    gates [0 AND 1], [2 AND 1], [3 AND 2] packed with blocks of one gate, the
    last two gates both use wire 2 and get the same matrix. *)
Theorem C46_per_wire_refuted : exists c pc g g' w,
  pack c 1 = Some pc /\ g < g' < size (p_gates pc) /\
  w \in wires_at 0 (nth g0 (p_gates pc) g) /\ w \in wires_at 0 (nth g0 (p_gates pc) g') /\
  forall (H : eqType) (sha : seq N -> H) (h0 : H) ns lk,
    compute_lookup sha h0 (p_gates pc) 1 = Some (ns, lk) -> nth 0 lk g = nth 0 lk g'.
Proof.
  exists (Circuit [:: And 0 1 4; And 2 1 5; And 3 2 6]%num [:: [:: 0; 1; 2; 3]%num] [:: [:: 4; 5; 6]%num] 7).
  eexists. exists 1, 2, 2%num. split; first by vm_compute. split=> //. split=> //. split=> //.
  move=> H sha h0 ns lk E. apply/(C47_shared_iff_equal_hash E) => //.
Qed.
Print Assumptions C46_per_wire_refuted.

(** A gate whose two inputs are the same wire: the key sums of the rows 00 and 11
    are zero in characteristic 2, so "effective key" is zero for all such gates; two
    of them on different wires may share a matrix. *)
Theorem C46_self_pairs_share_refuted : exists c pc g g' x y,
  pack c 1 = Some pc /\ g < g' < size (p_gates pc) /\ x <> y /\
  wires_at 0 (nth g0 (p_gates pc) g) = [:: x; x] /\ wires_at 0 (nth g0 (p_gates pc) g') = [:: y; y] /\
  forall (H : eqType) (sha : seq N -> H) (h0 : H) ns lk,
    compute_lookup sha h0 (p_gates pc) 1 = Some (ns, lk) -> nth 0 lk g = nth 0 lk g'.
Proof.
  exists (Circuit [:: And 0 0 2; And 1 1 3]%num [:: [:: 0; 1]%num] [:: [:: 2; 3]%num] 4).
  eexists. exists 0, 1, 0%num, 1%num. split; first by vm_compute. do 4 split=> //.
  move=> H sha h0 ns lk E. apply/(C47_shared_iff_equal_hash E) => //.
Qed.
Print Assumptions C46_self_pairs_share_refuted.

(** ** The hypotheses hold in a concrete case *)

(** Two gates on the same two wires in opposite order, a third that reuses the
    first's matrix. *)
Example C46_example :
  let gs := [:: PAnd [:: 0]%num [:: 1]%num [:: 4]%num; PXor [:: 1]%num [:: 0]%num [:: 5]%num; PXor [:: 2]%num [:: 3]%num [:: 6]%num] in
  exists ns, compute_lookup id [::] gs 1 = Some (ns, [:: 0; 1; 0]) /\
    perm_eq (wires_at 0 (nth g0 gs 0)) (wires_at 0 (nth g0 gs 1)) /\ full_at 0 (nth g0 gs 0) /\ full_at 0 (nth g0 gs 1) /\
    (2 * N.of_nat (size gs) < 2 ^ 64)%num.
Proof. eexists. split; first by vm_compute. by []. Qed.

(** From bills to the formulas of TrafficSpec. *)

From Coq Require Import NArith List.
From Verif Require Import CircuitModel LpnModel.
From mathcomp Require Import all_ssreflect all_algebra zify.
From Verif Require Import MathModel SharingModel MachineModel CoreModel PreprocModel GarbleModel PipeModel RouteModel RouteSpec RouteProofs.
From Verif Require Import RouterModel RouterSpec.
From Verif Require Import StackModel StackSpec StackNets Bill BillProto TrafficSpec.
From Verif Require ProtoIdModel.
Set Implicit Arguments.
Unset Strict Implicit.
Unset Printing Implicit Defensive.

(** ** Totals *)

Lemma sum_eq n (L : 'I_n) : \sum_(i < n) (i == L :> nat) = 1.
Proof. by rewrite (bigD1 L) //= eqxx big1 // => i /negbTE H; rewrite (_ : (_ == _ :> nat) = false). Qed.

Lemma sum_via n L : L < n -> \sum_(s < n) \sum_(r < n) via L s r = 2 * n.
Proof.
move=> HL; rewrite /via; pose L' := Ordinal HL.
under eq_bigr => s _ do rewrite big_split /= (sum_eq L') sum_nat_const card_ord.
rewrite big_split /= sum_nat_const card_ord muln1 -big_distrr /= (sum_eq L'); lia.
Qed.

Lemma sum_pairs_via n L c : L < n -> \sum_(s < n) \sum_(r < n) via L s r * c = 2 * n * c.
Proof.
by move=> HL; rewrite -(sum_via HL) big_distrl /=; apply: eq_bigr => s _; rewrite big_distrl.
Qed.

Lemma sum_pairs_const n c : \sum_(s < n) \sum_(r < n) c = n * n * c.
Proof. by rewrite !sum_nat_const !card_ord mulnA. Qed.

Lemma sum_pairs_add n (F G : 'I_n -> 'I_n -> nat) :
  \sum_(s < n) \sum_(r < n) (F s r + G s r) = \sum_(s < n) \sum_(r < n) F s r + \sum_(s < n) \sum_(r < n) G s r.
Proof. by rewrite -big_split; apply: eq_bigr => s _; rewrite big_split. Qed.

Lemma sum_pairs_sum n m (F : 'I_m -> 'I_n -> 'I_n -> nat) :
  \sum_(s < n) \sum_(r < n) \sum_(i < m) F i s r = \sum_(i < m) \sum_(s < n) \sum_(r < n) F i s r.
Proof.
by rewrite exchange_big /= ; under eq_bigr => s _ do rewrite exchange_big /=; rewrite exchange_big /=; apply: eq_bigr => i _; rewrite exchange_big.
Qed.

Lemma gates_total cost K gs : \sum_(gid < size gs) (if nth (PInv [::] [::]) gs gid is PAnd _ _ _ then cost 1 + cost (3 * (K + 1)) else cost (K + 1)) =
  let: (a, x, v) := get_gate_counts gs in a * (cost 1 + cost (3 * (K + 1))) + (x + v) * cost (K + 1).
Proof.
elim: gs => [|g gs IH] /=; first by rewrite big_ord0.
rewrite big_ord_recl /= IH; case: (get_gate_counts gs) => [[a x] v].
by case: g => * /=; lia.
Qed.

Lemma garble_traffic_total cost n l K circ L1 L2 : 0 < n -> (forall i, L1 i < n) -> (forall i, L2 i < n) ->
  \sum_(s < n) \sum_(r < n) garble_traffic cost n l K circ L1 L2 s r = garble_total cost n l K circ.
Proof.
move=> Hn H1 H2; rewrite /garble_traffic /garble_total.
set nb := size _ + size _; set ni := size (flatten _).
rewrite !sum_pairs_add sum_pairs_const !sum_pairs_sum.
have E m : \sum_(i < m) \sum_(s < n) \sum_(r < n) via (i %% n) s r * cost (2 * K + 1) = m * (2 * n * cost (2 * K + 1)).
  under eq_bigr => i _ do rewrite sum_pairs_via ?ltn_mod //.
  by rewrite sum_nat_const card_ord.
rewrite !{}E.
have -> : \sum_(gid < size (p_gates circ)) \sum_(s < n) \sum_(r < n)
    gate_traffic cost K (nth (PInv [::] [::]) (p_gates circ) gid) (L1 gid) (L2 gid) s r =
    2 * n * \sum_(gid < size (p_gates circ)) (if nth (PInv [::] [::]) (p_gates circ) gid is PAnd _ _ _ then cost 1 + cost (3 * (K + 1)) else cost (K + 1)).
  rewrite big_distrr; apply: eq_bigr => gid _; rewrite /gate_traffic; case: (nth _ _ _) => * /=.
  - by rewrite sum_pairs_via.
  - by rewrite sum_pairs_add !sum_pairs_via // -mulnDr.
  - by rewrite sum_pairs_via.
by rewrite gates_total; case: (get_gate_counts _) => [[a x] v]; lia.
Qed.

Lemma preproc_traffic_total cost n rows rowsb d : 0 < n ->
  \sum_(s < n) \sum_(r < n) preproc_traffic cost n rows rowsb d s r = preproc_total cost n rows rowsb d.
Proof.
case: n => // n _; rewrite /preproc_traffic /preproc_total.
set C := cost _ + cost _ + cost _.
rewrite sum_pairs_add sum_pairs_const sum_pairs_sum.
under eq_bigr => i _ do rewrite sum_pairs_via //.
rewrite big_ord_recr /= eqxx (eq_bigr (fun _ => 2 * n.+1 * (2 * cost (n_errors d %/ n.+1)))) => [|i _]; last by rewrite ltn_eqF.
by rewrite sum_nat_const card_ord; move: (cost _) (cost _) => a b; lia.
Qed.

(** ** Only the prices of the messages that are sent matter *)

Lemma garble_traffic_ext c1 c2 n l K circ L1 L2 s r : (forall m, m <= 4 * K + 3 -> c1 m = c2 m) ->
  garble_traffic c1 n l K circ L1 L2 s r = garble_traffic c2 n l K circ L1 L2 s r.
Proof.
move=> E; rewrite /garble_traffic (E (2 * (2 * K + 1))) ?(E (2 * K + 1)); try lia.
by congr addn; apply: eq_bigr => i _; rewrite /gate_traffic; case: (nth _ _ _) => *; rewrite ?(E 1) ?(E (K + 1)) ?(E (3 * (K + 1))) //; lia.
Qed.

Lemma garble_total_ext c1 c2 n l K circ : (forall m, m <= 4 * K + 3 -> c1 m = c2 m) ->
  garble_total c1 n l K circ = garble_total c2 n l K circ.
Proof.
move=> E; rewrite /garble_total; case: (get_gate_counts _) => [[a x] v].
by rewrite (E (2 * (2 * K + 1))) ?(E (2 * K + 1)) ?(E 1) ?(E (K + 1)) ?(E (3 * (K + 1))) //; lia.
Qed.

Lemma ceil_div_le a b : ceil_div a b <= a.
Proof. by rewrite /ceil_div; case: b => [|[|b]]; rewrite ?divn0 //; [rewrite addnK divn1|nia]. Qed.

Section PreprocExt.
Variables (c1 c2 : nat -> nat) (rows rowsb : nat) (d : count).
Let most := maxn (keys_total d + n_randoms d + 3 * n_errors d) (maxn (n_zeros d + 2 * n_errors d) (n_masks d + 2 * n_errors d)).
Hypothesis E : forall m, m <= most -> c1 m = c2 m.

Lemma preproc_traffic_ext n s r : preproc_traffic c1 n rows rowsb d s r = preproc_traffic c2 n rows rowsb d s r.
Proof.
have M1 m : m <= n_errors d -> c1 m = c2 m by move=> Hm; apply: E; rewrite /most; lia.
have D a b := ceil_div_le a b; rewrite /preproc_traffic !E; try by rewrite /most !leq_max D ?orbT.
congr addn; apply: eq_bigr => i _; rewrite M1 //; case: ifP => _; [exact: leq_subr|exact: leq_div].
Qed.

Lemma preproc_total_ext n : preproc_total c1 n rows rowsb d = preproc_total c2 n rows rowsb d.
Proof.
have M1 m : m <= n_errors d -> c1 m = c2 m by move=> Hm; apply: E; rewrite /most; lia.
have D a b := ceil_div_le a b.
rewrite /preproc_total (M1 (_ %/ _)) ?leq_div // (M1 (_ - _)) ?leq_subr //.
by rewrite !E //; rewrite /most !leq_max D ?orbT.
Qed.

End PreprocExt.

(** ** Bills as formulas *)

Section Formula.
Variable F : fieldType.
Variable D : eqType.
Variables (enc : D -> seq N) (ser : seq F -> D) (de : D -> option (seq F)).
Variables (f : nat -> nat) (r0 : nat) (len : nat -> nat).
Hypothesis ser_len : forall x, size (enc (ser x)) = len (size x).

(** Only messages to [r0] count. *)
Definition W0 (r : nat) (b : seq N) : nat := if r == r0 then f (size b) else 0.
Definition fare0 (r m : nat) : nat := if r == r0 then f (len m) else 0.
Notation cost := (fun m => f (len m)).

Lemma price0 r x : W0 r (enc (ser x)) = fare0 r (size x).
Proof. by rewrite /W0 ser_len. Qed.

Lemma sum_one n (G : nat -> nat) : r0 < n -> \sum_(r < n) (if r == r0 :> nat then G r else 0) = G r0.
Proof. by move=> Hr; rewrite (bigD1 (Ordinal Hr)) //= eqxx big1 ?addn0 // => i Hi; rewrite (_ : (_ == _) = false) //; apply: negbTE. Qed.

Variable c : ctx F.
Hypothesis Hr : r0 < c_n c.

Lemma spread0 m : spread fare0 c m = cost m.
Proof. by rewrite /spread /fare0 (sum_one (fun _ => f (len m))). Qed.

Lemma led0 L m : led fare0 c L m = via L (c_id c) r0 * cost m.
Proof. by rewrite /led spread0 /fare0 /via eq_sym mulnDl; case: (r0 == L); case: (c_id c == L); rewrite ?mul1n ?mul0n. Qed.

Lemma preproc_bill0 M Mb d bR bZ bB :
  num_batches (keys_total d + n_randoms d + 3 * n_errors d) M = Some bR ->
  num_batches (n_zeros d + 2 * n_errors d) M = Some bZ ->
  num_batches (n_masks d + 2 * n_errors d) Mb = Some bB ->
  preproc_bill fare0 c bR bZ bB (n_errors d) = preproc_traffic cost (c_n c) M Mb d (c_id c) r0.
Proof.
have nbE a b x : num_batches a b = Some x -> x = ceil_div a b by case: b => // b [<-].
move=> /nbE -> /nbE -> /nbE ->; rewrite /preproc_bill /preproc_traffic !spread0; congr addn.
apply: eq_bigr => i _; rewrite led0 mulnCA; congr (_ * (2 * f (len _))).
rewrite /err_sizes nth_rcons size_nseq nth_nseq.
case: i => i /=; case: (c_n c) => // m; rewrite [m.+1.-1]/= ltnS leq_eqVlt => /orP[/eqP ->|H]; first by rewrite ltnn eqxx.
by rewrite H ltn_eqF.
Qed.

Notation pid := [eqType of seq N].
Variable hash : seq N -> N.

(** The leaders of the gates. *)
Definition gate_ids (id : seq N) (ng : nat) : seq (seq N) := odflt [::] (ProtoIdModel.take_ids id (4 + N.of_nat ng) (4 + ng)).
Definition leader1 (n : nat) (id : seq N) (ng gid : nat) : nat := lead1 hash n (nth [::] (gate_ids id ng) (4 + gid)).
Definition leader2 (n : nat) (id : seq N) (ng gid : nat) : nat := lead hash n (nth [::] (gate_ids id ng) (4 + gid)).

Lemma lead_lt n id : 0 < n -> lead hash n id < n.
Proof. by rewrite /lead; case E: (leader_from_proto_id _ _ _) => [L|] //= _; exact: leader_lt E. Qed.

Lemma leader1_lt n id ng gid : 0 < n -> leader1 n id ng gid < n.
Proof. by move=> Hn; rewrite /leader1 /lead1; case: (ProtoIdModel.take_ids _ _ _) => [[|id1 [|? ?]]|] //; exact: lead_lt. Qed.

Lemma leader2_lt n id ng gid : 0 < n -> leader2 n id ng gid < n.
Proof. exact: lead_lt. Qed.

Lemma num_batchesE' a b x : num_batches a b = Some x -> x = ceil_div a b.
Proof. by case: b => // b [<-]. Qed.

Lemma garble_bill0 (H : eqType) (emb : nat -> F) (sha : seq N -> H) h0 draws circ p g id ids :
  gctx_new emb sha h0 draws circ c p = Some g ->
  ProtoIdModel.take_ids id (4 + N.of_nat (size (p_gates circ))) (4 + size (p_gates circ)) = Some ids ->
  garble_bill hash fare0 g ids = garble_traffic cost (c_n c) (c_l c) (lpn_key_len p) circ
    (leader1 (c_n c) id (size (p_gates circ))) (leader2 (c_n c) id (size (p_gates circ))) (c_id c) r0.
Proof.
move=> Hg Ei; have [Ec Ep Eg _ [S1 S2 B1 B2]] := gctx_new_ok Hg.
rewrite /garble_bill /wires_bill Ec Ep Eg S1 S2 /garble_traffic (num_batchesE' B1) (num_batchesE' B2).
rewrite !spread0 !sum_nat_const !card_ord; congr addn.
  have E m w : \sum_(i < m) led fare0 c (i %% c_n c) w = \sum_(i < m) via (i %% c_n c) (c_id c) r0 * cost w.
    by apply: eq_bigr => i _; rewrite led0.
  rewrite !E mulnDl; move: (\sum_(i < _) _) (\sum_(i < _) _) (_ * _) (_ * _) => a b x y; lia.
apply: eq_bigr => gid _; rewrite /gate_bill Ec Ep /gate_traffic /leader1 /leader2 /gate_ids Ei /=.
by case: (nth _ _ _) => *; rewrite !led0.
Qed.

Lemma bill_garble0 (H : eqType) (emb : nat -> F) (sha : seq N -> H) h0 draws circ p g id Q pp r k b :
  gctx_new emb sha h0 draws circ c p = Some g ->
  (forall y, bill (c_n c) (fun r d => W0 r (enc d)) Q (k y) b) ->
  bill (c_n c) (fun r d => W0 r (enc d)) Q (garble emb ser de hash g id pp r k)
    (garble_traffic cost (c_n c) (c_l c) (lpn_key_len p) circ
      (leader1 (c_n c) id (size (p_gates circ))) (leader2 (c_n c) id (size (p_gates circ))) (c_id c) r0 + b).
Proof.
move=> Hg Hk; have [Ec Ep Eg [F1 F2] _] := gctx_new_ok Hg.
have Hn : 0 < c_n c by case: (c_n c) Hr.
case E: (ProtoIdModel.take_ids id (4 + N.of_nat (size (p_gates circ))) (4 + size (p_gates circ))) => [ids|]; last first.
  by rewrite /garble Eg E; case: ifP.
rewrite -(garble_bill0 Hg E) -Ec; apply: (bill_garble emb de hash price0); rewrite ?Ec ?Eg //.
Qed.

Lemma bill_preproc0 M Mb id d Q r k b : 0 < size (rows M) -> 0 < size (rows Mb) ->
  (forall y, bill (c_n c) (fun r d => W0 r (enc d)) Q (k y) b) ->
  bill (c_n c) (fun r d => W0 r (enc d)) Q (preproc ser de c M Mb id d r k)
    (preproc_traffic cost (c_n c) (size (rows M)) (size (rows Mb)) d (c_id c) r0 + b).
Proof.
move=> HM HMb Hk.
have some a m : 0 < m -> exists x, num_batches a m = Some x by case: m => // m _; eexists.
have [bR ER] := some (keys_total d + n_randoms d + 3 * n_errors d) _ HM.
have [bZ EZ] := some (n_zeros d + 2 * n_errors d) _ HM.
have [bB EB] := some (n_masks d + 2 * n_errors d) _ HMb.
by rewrite -(preproc_bill0 ER EZ EB); apply: (bill_preproc de price0).
Qed.

End Formula.

(** ** Loops *)

Section Loop.
Variables (n : nat) (I D : eqType) (V : Type) (price : nat -> D -> nat).
Notation bill := (@bill n I D V price).

Lemma bill_loop Q (S T : Type) id d (prep : nat -> option S) (body : nat -> S -> (T -> proc I D V) -> proc I D V) B rs k b :
  (forall r s k b, (forall y, bill Q (k y) b) -> bill Q (body r s k) (B + b)) ->
  (forall ys, bill Q (k ys) b) ->
  bill Q (bench_loop n id d prep body rs k) (size rs * ((\sum_(r < n) price r d) + B) + b).
Proof.
move=> HB; elim: rs k => [|r rs IH] k Hk //=; case: (prep r) => // s.
split=> //; exists (B + (size rs * ((\sum_(r < n) price r d) + B) + b)); split.
  rewrite /toll; have -> : targets n All = index_iota 0 n by rewrite /index_iota subn0.
  by rewrite big_mkord mulSn -!addnA.
by move=> ds; apply: HB => y; apply: IH.
Qed.

End Loop.

(** ** On the stack *)

Lemma ends_in_all (S : Type) (step : S -> S -> Prop) T (Q : S -> Prop) (Q2 : T -> S -> Prop) s :
  ends_in step Q s -> (forall x, ends_in step (Q2 x) s) -> ends_in step (fun s => Q s /\ forall x, Q2 x s) s.
Proof.
elim=> {}s _ IH Hs H; constructor=> [s' st|T0].
  apply: (IH _ st) => x; case: (H x) => H' _; exact: H' st.
by split=> [|x]; [exact: Hs|case: (H x) => _; exact].
Qed.

Lemma stat_tally (n : nat) (o : seq (nat * payload)) j :
  (bytes_from j [seq msg_of x | x <- o]).1 = tally id (got_from o j).
Proof.
rewrite /bytes_from /tally /got_from /=; elim: o => [|x o IH] /=; first by rewrite big_nil.
by case: eqP => _ //=; rewrite big_cons IH.
Qed.

Section OnStack.
Variables (n : nat) (D : eqType) (enc : D -> seq N) (V : Type).
Variables (X : Type) (nstep : X -> label -> X -> Prop) (out : X -> nat -> seq (nat * payload)).
Notation sstep := (@sstep n D enc V X nstep out).

Theorem traffic_settled (P : nat -> proc [eqType of seq N] D V) (B : (nat -> nat) -> nat -> nat -> nat) x0 (Q : stack D V X -> Prop) :
  (forall f j r, j < n -> r < n -> bill n (fun r' d => W0 f r r' (enc d)) (fun _ => True) (P j) (B f j r)) ->
  (forall s, Q s -> exists res, stack_done n out res s) ->
  ends_in sstep Q (stack_start n x0 P) ->
  ends_in sstep (fun s => Q s /\ receives n out s B) (stack_start n x0 P).
Proof.
move=> HB HQ E.
pose T := ((nat -> nat) * 'I_n)%type.
have E2 (x : T) : ends_in sstep (fun s => Q s /\ forall j, j < n -> tally x.1 (got_from (out (s_net s) x.2) j) = B x.1 j x.2) (stack_start n x0 P).
  case: x => f r; apply: ends_in_mono (bill_settled (W := W0 f r) (B := fun j => B f j r) (fun j Hj => HB f j r Hj (ltn_ord r)) HQ E) => s [Qs H].
  split=> // j Hj; rewrite -(H j Hj) (bigD1 r) //= [X in _ = _ + X]big1 ?addn0 => [|r' Hr'].
    by apply: eq_bigr => x _; rewrite /W0 eqxx.
  by rewrite big1 // => x _; rewrite /W0; have -> // : (r' == r :> nat) = false by apply: negbTE.
apply: ends_in_mono (ends_in_all E E2) => s [Qs H]; split=> //.
have R f j r : j < n -> r < n -> tally f (got_from (out (s_net s) r) j) = B f j r.
  by move=> Hj Hr; have [_ ] := H (f, Ordinal Hr); exact.
split=> // j r Hj Hr; rewrite -R //; have [res Hd] := HQ s Qs; have [_ _ _ _ H5] := Hd r Hr.
by have [_ ->] := H5 j Hj; rewrite stat_tally.
Qed.

End OnStack.

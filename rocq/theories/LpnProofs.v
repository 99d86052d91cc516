(** Proofs about the nonces of the gates. *)

From Coq Require Import NArith List.
From Verif Require Import CircuitModel CodecModel CodecProofs MathModel LpnModel LpnSpec.
From mathcomp Require Import all_ssreflect zify.
Set Implicit Arguments.
Unset Strict Implicit.
Unset Printing Implicit Defensive.

(** ** Counting *)

Lemma at_slotE q w ws : at_slot q w ws = (q < size ws) && (N.eqb (nth 0%num ws q) w).
Proof. by elim: ws q => [|x ws IH] [|q] //=; rewrite -IH. Qed.

Lemma bump_listE q ws cts q' w' : bump_list q ws cts q' w' = cts q' w' + (if q <= q' then at_slot (q' - q) w' ws else 0).
Proof.
  elim: ws q cts => [|x ws IH] q cts /=; first by rewrite /at_slot if_same addn0.
  rewrite IH /bump_count. case: (ltngtP q q') => /= [H|H|<-].
  - by rewrite -(subnSK H).
  - by [].
  - rewrite subnn /= N.eqb_sym /at_slot /=. by case: (N.eqb x w'); rewrite ?addn0 ?addn1.
Qed.

Lemma update_countsE inps cts q w : update_counts inps cts q w = cts q w + sumn [seq at_slot q w ws | ws <- inps].
Proof.
  rewrite /update_counts. elim: inps cts => [|ws inps IH] cts /=; first by rewrite addn0.
  by rewrite IH bump_listE /= subn0 addnA.
Qed.

Lemma count_listE q ws cts : (forall i, i < size ws -> 0 < cts (q + i) (nth 0%num ws i)) ->
  count_list q ws cts = Some [seq (cts (q + i) (nth 0%num ws i)).-1 | i <- iota 0 (size ws)].
Proof.
  elim: ws q => [|w ws IH] q //= Hp. have := Hp 0 isT. rewrite addn0 /=. case: (cts q w) => // c _.
  rewrite IH => [|i Hi]; last by have := Hp i.+1 Hi; rewrite addnS.
  congr (Some (_ :: _)). rewrite -[1]addn0 iotaDl -map_comp. apply: eq_map => i /=. by rewrite addnS.
Qed.

Lemma take_pad (cs : seq nat) l : take l (cs ++ nseq l 0) = [seq nth 0 cs q | q <- iota 0 l].
Proof.
  apply: (@eq_from_nth _ 0) => [|i].
  - rewrite size_take size_cat size_nseq size_map size_iota. case: ltnP => //. lia.
  - rewrite size_take size_cat size_nseq => Hi. have Hl : i < l by move: Hi; case: (ltnP l _) => // A B; lia.
    rewrite nth_take // (nth_map 0) ?size_iota // nth_iota // add0n nth_cat nth_nseq.
    case: ltnP => // Hs. rewrite if_same nth_default //.
Qed.

Lemma uses_cat q w a b : uses q w (a ++ b) = uses q w a + uses q w b.
Proof. by rewrite /uses map_cat sumn_cat. Qed.

Lemma uses_seq1 q w g : uses q w [:: g] = gate_uses q w g.
Proof. by rewrite /uses /= addn0. Qed.

Lemma gate_uses_pos g ws q : List.In ws (gate_inps g) -> q < size ws -> 0 < gate_uses q (nth 0%num ws q) g.
Proof.
  rewrite /gate_uses. elim: (gate_inps g) => //= x s IH [->|Hin] Hq.
  - rewrite at_slotE Hq N.eqb_refl. lia.
  - have := IH Hin Hq. lia.
Qed.

Section Lookup.
Variable H : eqType.
Variable sha : seq N -> H.
Variable h0 : H.

Notation g0 := (PInv [::] [::]).

(** The bytes of gate [g] that comes after the gates [pre]. *)
Definition bytes_after (pre : seq pgate) (l : nat) (g : pgate) : seq N :=
  flatten [seq flatten [seq be_bytes8 v | v <- use_numbers (rcons pre g) l (nth [::] (gate_inps g) i)] | i <- [:: 0; 1]].

Lemma inp_bytesE (pre : seq pgate) (g : pgate) (cts : counts_map) l ws : (forall q w, cts q w = uses q w (rcons pre g)) ->
  List.In ws (gate_inps g) \/ ws = [::] ->
  inp_bytes ws cts l = Some (flatten [seq be_bytes8 v | v <- use_numbers (rcons pre g) l ws]).
Proof.
  move=> Hc Hw. rewrite /inp_bytes count_listE => [|i Hi]; last first.
  { rewrite Hc -cats1 uses_cat uses_seq1 add0n. case: Hw => [Hw|E]; last by rewrite E in Hi.
    have := gate_uses_pos Hw Hi. lia. }
  rewrite /= take_pad. do 3 congr (_ _). rewrite /use_numbers. apply/eq_in_map => q. rewrite mem_iota add0n => /= Hq.
  case: ltnP => Hs; last by rewrite nth_default // size_map size_iota.
  by rewrite (nth_map 0) ?size_iota // nth_iota // add0n Hc.
Qed.

Lemma hashE (pre : seq pgate) (g : pgate) (cts : counts_map) l : (forall q w, cts q w = uses q w (rcons pre g)) ->
  hash_inp_wires sha (gate_inps g) cts l = Some (sha (bytes_after pre l g)).
Proof.
  move=> Hc. rewrite /hash_inp_wires /bytes_after.
  have A i : inp_bytes (if i < size (gate_inps g) then nth [::] (gate_inps g) i else [::]) cts l =
     Some (flatten [seq be_bytes8 v | v <- use_numbers (rcons pre g) l (nth [::] (gate_inps g) i)]).
  { case: ltnP => Hi; last by rewrite nth_default //; apply: (inp_bytesE _ Hc); right.
    apply: (inp_bytesE _ Hc). left. by elim: (gate_inps g) i Hi => //= x s IH [|i] Hi; [left|right; apply: IH]. }
  by rewrite [iota 0 2]/= [map _ [:: 0; 1]]/= !A.
Qed.

(** The nonces in order of first occurrence. *)
Definition add_nonce (N : seq H) (h : H) : seq H := if h \in N then N else rcons N h.

Lemma find_nonceE (h : H) (N : seq H) k : find_nonce h (zip N (iota k (size N))) = if h \in N then Some (k + index h N) else None.
Proof.
  elim: N k => [|x N IH] k //=. rewrite inE eq_sym. case: eqP => [->|_] /=; first by rewrite addn0.
  rewrite IH. by case: (h \in N); rewrite // addnS.
Qed.

Lemma zip_rcons_iota (N : seq H) (h : H) : rcons (zip N (iota 0 (size N))) (h, size N) = zip (rcons N h) (iota 0 (size (rcons N h))).
Proof. by rewrite size_rcons -(addn1 (size N)) iotaD -!cats1 zip_cat ?size_iota. Qed.

Lemma index_add (N : seq H) hs h : h \in N -> index h (foldl add_nonce N hs) = index h N.
Proof.
  elim: hs N => //= a hs IH N Hh. rewrite IH /add_nonce; case: ifP => // Ha; last by rewrite mem_rcons inE Hh orbT.
  by rewrite -cats1 index_cat Hh.
Qed.

Lemma lookup_loopE gs pre (cts : counts_map) l (N : seq H) : (forall q w, cts q w = uses q w pre) -> 
  let hs := [seq sha (bytes_after (pre ++ take g gs) l (nth g0 gs g)) | g <- iota 0 (size gs)] in
  let N' := foldl add_nonce N hs in
  lookup_loop sha gs cts l (zip N (iota 0 (size N))) (size N) = Some (zip N' (iota 0 (size N')), [seq index h N' | h <- hs]).
Proof.
  elim: gs pre cts N => [|g gs IH] pre cts N Hc //=.
  have Hc' q w : update_counts (gate_inps g) cts q w = uses q w (rcons pre g).
  { by rewrite update_countsE Hc -cats1 uses_cat uses_seq1. }
  rewrite (hashE l Hc') find_nonceE cats0. set h := sha _.
  rewrite -[1]addn0 iotaDl -map_comp.
  set hs' := [seq _ | i <- iota 0 (size gs)].
  have Ehs : hs' = [seq sha (bytes_after (rcons pre g ++ take i gs) l (nth g0 gs i)) | i <- iota 0 (size gs)].
  { apply: eq_map => i /=. by rewrite cat_rcons. }
  rewrite /add_nonce -/(add_nonce). case: ifP => Hh.
  - rewrite add0n. have -> : maxn (size N) (index h N).+1 = size N by apply/maxn_idPl; rewrite index_mem.
    rewrite (IH (rcons pre g)) // -Ehs /=. by rewrite -/(foldl add_nonce N hs') index_add.
  - rewrite zip_rcons_iota (maxn_idPr (leqnSn _)) -(size_rcons N h) (IH (rcons pre g)) // -Ehs /=.
    rewrite index_add ?mem_rcons ?mem_head //. by rewrite -cats1 index_cat Hh /= eqxx addn0.
Qed.

Lemma fill_noncesE (N pre : seq H) : fill_nonces h0 (zip N (iota (size pre) (size N))) (pre ++ nseq (size N) h0) = Some (pre ++ N).
Proof.
  elim: N pre => [|h N IH] pre //=. rewrite size_cat /= size_nseq.
  have -> : size pre < size pre + (size N).+1 by lia.
  have -> : set_nth h0 (pre ++ h0 :: nseq (size N) h0) (size pre) h = rcons pre h ++ nseq (size N) h0.
  { elim: pre {IH} => //= x pre ->. by []. }
  by rewrite -(size_rcons pre h) IH cat_rcons.
Qed.

Lemma compute_lookupE gs l :
  let hs := [seq sha (nonce_bytes gs l g) | g <- iota 0 (size gs)] in
  let N' := foldl add_nonce [::] hs in
  compute_lookup sha h0 gs l = Some (N', [seq index h N' | h <- hs]).
Proof.
  rewrite /compute_lookup. have := @lookup_loopE gs [::] (fun _ _ => 0) l [::] (fun _ _ => erefl).
  move=> /= ->. set hs := [seq _ | g <- _]. have -> : hs = [seq sha (nonce_bytes gs l g) | g <- iota 0 (size gs)].
  { apply/eq_in_map => g. rewrite mem_iota add0n => /= Hg. congr sha.
    rewrite /bytes_after /nonce_bytes. by rewrite (take_nth g0 Hg). }
  rewrite /= size_zip size_iota minnn. by rewrite (fill_noncesE _ [::]).
Qed.

Lemma mem_fold (N : seq H) hs h : (h \in foldl add_nonce N hs) = (h \in N) || (h \in hs).
Proof.
  elim: hs N => [|a hs IH] N /=; first by rewrite orbF.
  rewrite IH /add_nonce inE. case: ifP => Ha; last by rewrite mem_rcons inE -orbA orbCA.
  case: eqP => [->|//]. by rewrite Ha.
Qed.

Lemma uniq_fold (N : seq H) hs : uniq N -> uniq (foldl add_nonce N hs).
Proof.
  elim: hs N => //= a hs IH N U. apply: IH. rewrite /add_nonce. case: ifP => // Ha. by rewrite rcons_uniq Ha.
Qed.
End Lookup.

(** ** Distinct use numbers give distinct bytes *)

Lemma be_bytes8_inj a b : (N.of_nat a < 2 ^ 64)%num -> (N.of_nat b < 2 ^ 64)%num -> be_bytes8 a = be_bytes8 b -> a = b.
Proof.
  move=> Ha Hb /(congr1 rev). rewrite /be_bytes8 !revK => E. apply: Nat2N.inj.
  by rewrite -(@le_value_bytes 8 (N.of_nat a)) // E le_value_bytes.
Qed.

Lemma size_be v : size (be_bytes8 v) = 8. Proof. by rewrite size_rev. Qed.

Lemma flatten_be_inj (s s' : seq nat) q : size s = size s' -> q < size s ->
  (N.of_nat (nth 0%N s q) < 2 ^ 64)%num -> (N.of_nat (nth 0%N s' q) < 2 ^ 64)%num ->
  flatten [seq be_bytes8 v | v <- s] = flatten [seq be_bytes8 v | v <- s'] -> nth 0 s q = nth 0 s' q.
Proof.
  elim: s s' q => [|a s IH] [|b s'] // q [Sz] Hq Ha Hb E0.
  have {E0}E : be_bytes8 a ++ flatten [seq be_bytes8 v | v <- s] = be_bytes8 b ++ flatten [seq be_bytes8 v | v <- s'] := E0.
  have E1 : be_bytes8 a = be_bytes8 b.
  { by rewrite -(take_size_cat (flatten [seq be_bytes8 v | v <- s]) (size_be a)) E take_size_cat ?size_be. }
  case: q Hq Ha Hb => [|q] Hq Ha Hb; first exact: be_bytes8_inj.
  apply: (IH s' q) => //. have := congr1 (drop 8) E. by rewrite !drop_size_cat ?size_be.
Qed.

Lemma size_use_numbers gs l ws : size (use_numbers gs l ws) = l. Proof. by rewrite size_map size_iota. Qed.

Lemma nonce_bytesE gs l g : nonce_bytes gs l g =
  let num i := use_numbers (take g.+1 gs) l (nth [::] (gate_inps (nth (PInv [::] [::]) gs g)) i) in
  flatten [seq be_bytes8 v | v <- num 0 ++ num 1].
Proof. by rewrite /nonce_bytes map_cat flatten_cat /= cats0. Qed.

Lemma uses_le q w gs : uses q w gs <= 2 * size gs.
Proof.
  rewrite /uses. elim: gs => //= g gs IH.
  have A ws : at_slot q w ws <= 1 by rewrite at_slotE; case: (_ && _).
  have : gate_uses q w g <= 2.
  { case: g => [a b o|a b o|a o]; rewrite /gate_uses /=; have := A a; [have := A b|have := A b|]; lia. }
  lia.
Qed.

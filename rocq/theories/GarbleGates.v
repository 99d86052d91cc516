(** Proofs about the garbling of single gates. *)

From Coq Require Import NArith List.
From Verif Require Import CircuitModel LpnModel.
From mathcomp Require Import all_ssreflect all_algebra zify.
From Verif Require Import MathModel MathProofs MatProofs SharingModel SharingSpec SharingProofs.
From Verif Require Import MachineModel MachineProofs MachineBuild Realize RingIds CoreModel CoreSpec CoreProofs.
From Verif Require Import RandTransProofs PreprocModel PreprocSpec PreprocProofs GarbleModel GarbleSpec.
From Verif Require ProtoIdModel.
Set Implicit Arguments.
Unset Strict Implicit.
Unset Printing Implicit Defensive.
Import GRing.Theory.
Local Open Scope ring_scope.

Section Held.
Variable F : fieldType.
Variable emb : nat -> F.
Notation held := (held emb).

Lemma size_held p num i : size (held p num i) = num.
Proof. by rewrite size_map size_iota. Qed.

Lemma nth_held p num i j : (j < num)%N -> nth 0 (held p num i) j = (p j).[emb i].
Proof. by move=> Hj; rewrite (nth_map 0%N) ?size_iota // nth_iota. Qed.

Lemma held_ext p q num i : (forall j, (j < num)%N -> (p j).[emb i] = (q j).[emb i]) -> held p num i = held q num i.
Proof. move=> H. apply/eq_in_map => j. rewrite mem_iota /= => Hj. exact: H. Qed.

Lemma held_add p q num i : zipw +%R (held p num i) (held q num i) = held (fun j => p j + q j) num i.
Proof. rewrite /held zipw_map. apply: eq_map => j. by rewrite hornerD. Qed.

Lemma held_sub p q num i : zipw (fun a b => a - b) (held p num i) (held q num i) = held (fun j => p j - q j) num i.
Proof. rewrite /held zipw_map. apply: eq_map => j. by rewrite hornerD hornerN. Qed.

Lemma held_nseq (p : {poly F}) num i : nseq num p.[emb i] = held (fun _ => p) num i.
Proof. rewrite /held. elim: num 0%N => [|m IH] a //=. by rewrite (IH a.+1). Qed.

Lemma held_cat p a q b i : held p a i ++ held q b i = held (fun j => if (j < a)%N then p j else q (j - a)%N) (a + b) i.
Proof.
  rewrite /held iotaD map_cat add0n. congr (_ ++ _).
  - apply/eq_in_map => j. by rewrite mem_iota /= => ->.
  - have -> : iota a b = [seq (a + j)%N | j <- iota 0 b] by rewrite -iotaDl addn0.
    rewrite -map_comp. apply: eq_map => j /=. by rewrite ltnNge leq_addr /= addKn.
Qed.

Lemma held_rcons p a (q : {poly F}) i : rcons (held p a i) q.[emb i] = held (fun j => if (j < a)%N then p j else q) (a + 1) i.
Proof. by rewrite -cats1 -[[:: _]]/(held (fun _ => q) 1 i) held_cat. Qed.

Lemma last_held p num i : last 0 (held p num.+1 i) = (p num).[emb i].
Proof. by rewrite -nth_last size_held nth_held. Qed.

Lemma dotv_held p q num i : dotv (held p num i) (held q num i) = (\sum_(k < num) p k * q k).[emb i].
Proof.
  rewrite (@dotv_ord _ _ _ num) ?size_held // horner_sum. apply: eq_bigr => k _. by rewrite !nth_held // hornerM.
Qed.

Lemma dotv_held_l (e : seq F) q num i : dotv e (held q num i) = (\sum_(k < num) nth 0 e k *: q k).[emb i].
Proof.
  rewrite (@dotv_ord _ _ _ num) ?size_held // horner_sum. apply: eq_bigr => k _. by rewrite !nth_held // hornerZ.
Qed.

Lemma held_flat w R N i : held w (R * N) i = flatten [seq held (fun c => w (r * N + c)%N) N i | r <- iota 0 R].
Proof.
  elim: R => [|R IH] //. rewrite -addn1 iotaD map_cat flatten_cat -IH /= cats0 add0n held_cat mulnDl mul1n.
  apply: held_ext => j _. case: ltnP => // Hj. by rewrite subnKC.
Qed.

Lemma to_mat_held w R N i : to_mat R N (held w (R * N) i) = Some [seq held (fun c => w (r * N + c)%N) N i | r <- iota 0 R].
Proof. rewrite held_flat to_mat_flatten ?size_map ?size_iota // => x /mapP [r _ ->]. exact: size_held. Qed.

(** Sharings are evaluations of polynomials. *)
Lemma sharings_polys n d pos num v s : sharings emb n d pos num v s ->
  exists p : nat -> {poly F}, (forall j, (j < num)%N -> (size (p j) <= d.+1)%N /\ s j = [seq (p j).[x] | x <- pos]) /\
    forall i, (i < n)%N -> v i = held p num i.
Proof.
  move=> [H1 H2].
  have [p Hp] := @fin_choice {poly F} num (fun j p => [/\ (size p <= d.+1)%N,
     [seq nth 0 (v i) j | i <- iota 0 n] = [seq p.[emb i] | i <- iota 0 n] & s j = [seq p.[x] | x <- pos]]) 0 H2.
  exists p. split=> [j Hj|i Hi]; first by have [] := Hp j Hj.
  apply: (@eq_from_nth _ 0) => [|j]; first by rewrite size_held H1.
  rewrite H1 // => Hj. have [_ /(congr1 (fun z => nth 0 z i)) E _] := Hp j Hj. rewrite nth_held //. move: E.
  by rewrite !(nth_map 0%N) ?size_iota // nth_iota.
Qed.

Lemma held_sharing_one n d pos (p : {poly F}) : (size p <= d.+1)%N ->
  is_sharing emb n d pos [seq p.[x] | x <- pos] [seq p.[emb i] | i <- iota 0 n].
Proof. by move=> H; exists p. Qed.

(** A table of evaluations. *)
Lemma table_heldP n d pos R M (tb : nat -> seq (seq F)) (T : nat -> nat -> {poly F}) val :
  (forall i, (i < n)%N -> tb i = [seq held (T r) M i | r <- iota 0 R]) ->
  (forall r m, (r < R)%N -> (m < M)%N -> (size (T r m) <= d.+1)%N) ->
  (forall r m q, (r < R)%N -> (m < M)%N -> (q < size pos)%N -> (T r m).[nth 0 pos q] = val r m q) ->
  table_shared emb n d pos R M tb val.
Proof.
  move=> Et Hs Hv. split=> [i Hi|r m Hr Hm].
  - rewrite Et // size_map size_iota. split=> // r Hr. by rewrite (nth_map 0%N) ?size_iota // nth_iota // size_held.
  - exists (T r m). split; first exact: Hs.
    + apply/eq_in_map => i. rewrite mem_iota /= => Hi. by rewrite Et // (nth_map 0%N) ?size_iota // nth_iota // nth_held.
    + apply: (@eq_from_nth _ 0); rewrite size_map size_iota ?size_map // => q Hq.
      by rewrite !(nth_map 0%N) ?size_iota // nth_iota // add0n (nth_map 0) // Hv.
Qed.

End Held.

Section Gates.
Variable F : fieldType.
Variable emb : nat -> F.
Variable D : eqType.
Variable ser : seq F -> D.
Variable de : D -> option (seq F).
Variable fits : nat -> Prop.
Hypothesis serK : codec_ok ser de fits.
Variables (n t l : nat) (P Pn : pss F).
Hypothesis HS : setting emb n t l P Pn.
Hypothesis Hdeg : (2 * (t + l).-1 <= n.-1)%N.
Notation mk me := (Ctx me n t l P Pn).
Notation pos := (default_pos emb n l).
Notation sharings := (sharings emb n).
Notation held := (held emb).
Notation pid := [eqType of seq N].
Notation realizes := (@realizes n pid D (val F)).

Lemma n_pos' : (0 < n)%N.
Proof. clear Hdeg. have [_ _ + _] := HS. rewrite /pss_new. case: ifP => // H _. lia. Qed.

Lemma size_pos : size pos = l. Proof. by rewrite size_map size_iota. Qed.

Lemma mult_poly (id : pid) num L (coin : nat -> nat -> nat -> F) (px py : nat -> {poly F}) rn r zr : (L < n)%N -> fits num ->
  (forall j, (j < num)%N -> (size (px j) <= t + l)%N) -> (forall j, (j < num)%N -> (size (py j) <= t + l)%N) ->
  sharings (t + l).-1 pos num rn r -> sharings n.-1 pos num zr (fun _ => nseq l 0) ->
  exists rd (w : nat -> {poly F}), realizes [:: (id, rd)]
     (fun me k => mult ser de (mk me) id (held px num me) (held py num me) (rn me) (zr me) L (coin me) k) (held w num) /\
   forall j, (j < num)%N -> (size (w j) <= t + l)%N /\ forall x, x \in pos -> (w j).[x] = (px j).[x] * (py j).[x].
Proof.
  move=> HL Hf Hx Hy Sr Sz. have Hn := n_pos'. have [Ht HP HPn Hg] := HS.
  have Ek : ((t + l).-1.+1 = t + l)%N by rewrite prednK.
  have Hl : (size pos <= (t + l).-1.+1)%N by rewrite size_pos prednK // leq_addl.
  have Hd : ((t + l).-1 + (t + l).-1 <= n.-1)%N by lia.
  have Sx := held_sharings emb n pos (d := (t + l).-1) (p := px) (num := num).
  have Sy := held_sharings emb n pos (d := (t + l).-1) (p := py) (num := num).
  rewrite Ek in Sx Sy. have {}Sx := Sx Hx. have {}Sy := Sy Hy. have {}Sz : sharings n.-1 pos num zr (fun _ => nseq (size pos) 0) by rewrite size_pos.
  have [rd [res [R E]]] := mult_ok serK Hn HP HPn Hg Hl id coin HL Hf Hd Sx Sy Sr Sz.
  have [w [Hw Ew]] := sharings_polys E. exists rd, w. split.
  - by apply: (realizes_eq (res := res) _ _ R) => // i Hi; rewrite Ew.
  - move=> j Hj. have [H1 H2] := Hw j Hj. rewrite Ek in H1. split=> // x Hxp.
    have := congr1 (fun s => nth 0 s (index x pos)) H2. have Hix : (index x pos < size pos)%N by rewrite index_mem.
    rewrite /vmul zip_map -map_comp !(nth_map 0) //. by rewrite nth_index.
Qed.

(** ** The public matrix *)
Variable H : eqType.
Variable draws : H -> nat -> F.
Variable hash : seq N -> N.
Hypothesis Hn16 : (n <= 2 ^ 16)%N.
Variables (K M : nat).
Notation prm := (Lpn K M).

Definition lpn_poly (h : H) (r m k : nat) : {poly F} :=
  interp pos (fun x => draws h (((r * M + m) * K + k) * l + index x pos)%N).

Lemma uniq_pos : uniq pos.
Proof. have [_ _ _] := HS. by rewrite /good_pos cat_uniq => /and3P []. Qed.

Lemma lpn_poly_size h r m k : (size (lpn_poly h r m k) <= l)%N.
Proof. have := interp_size (fun x => draws h (((r * M + m) * K + k) * l + index x pos)%N) uniq_pos. by rewrite size_pos. Qed.

Lemma lpn_poly_eval h r m k q : (q < l)%N -> (lpn_poly h r m k).[nth 0 pos q] = draws h (((r * M + m) * K + k) * l + q)%N.
Proof. move=> Hq. by rewrite interp_eval ?uniq_pos ?mem_nth ?size_pos // index_uniq ?size_pos // uniq_pos. Qed.

Lemma own_coeffsE me ps : (me < n)%N -> own_coeffs emb (mk me) ps = lagrange_row ps (lagrange_denom ps) (emb me).
Proof. move=> Hm. by rewrite /own_coeffs /= (nth_map 0%N) ?size_iota // nth_iota. Qed.

Lemma lpn_matrixE me h r : (me < n)%N -> (r < 4)%N ->
  nth [::] (lpn_matrix emb draws (mk me) prm h) r = [seq held (lpn_poly h r m) K me | m <- iota 0 M].
Proof.
  move=> Hm Hr. rewrite /lpn_matrix own_coeffsE //= -[[:: _; _; _; _]]/([seq [seq [seq _ | k <- iota 0 K] | m <- iota 0 M] | r <- iota 0 4]).
  rewrite (nth_map 0%N) ?size_iota // nth_iota // add0n. apply: eq_map => m. apply: eq_map => k.
  rewrite -(@lagrange_row_eval _ pos (lpn_poly h r m k) (emb me) uniq_pos); last by rewrite size_pos lpn_poly_size.
  congr dotv. apply: (@eq_from_nth _ 0); rewrite ?size_map ?size_iota // => q Hq.
  rewrite (nth_map 0%N) ?size_iota // nth_iota // add0n. rewrite (nth_map 0) ?size_map ?size_iota //. by rewrite lpn_poly_eval.
Qed.

(** ** Tables *)
Variable enc : mat F.
Hypothesis Eenc : rs_gen_mat emb (K + 1) M = Some enc.

Lemma encE p i : mdot enc (held p (K + 1) i) =
  held (fun m => \sum_(c < K + 1) nth 0 (nth [::] (rows enc) m) c *: p c) M i.
Proof.
  have Sz : size (rows enc) = M by move: Eenc; rewrite addn1 rs_gen_matE => -[<-]; rewrite /= !size_map size_iota.
  apply: (@eq_from_nth _ 0) => [|m]; first by rewrite size_map size_held.
  rewrite size_map Sz => Hm. rewrite (nth_map [::]) ?Sz // nth_held //. exact: dotv_held_l.
Qed.

Definition enc_poly (p : nat -> {poly F}) (m : nat) : {poly F} :=
  \sum_(c < K + 1) nth 0 (nth [::] (rows enc) m) c *: p c.

Lemma enc_poly_size d (p : nat -> {poly F}) m : (forall c, (c < K + 1)%N -> (size (p c) <= d)%N) -> (size (enc_poly p m) <= d)%N.
Proof.
  move=> Hp. apply: leq_trans (size_sum _ _ _) _. apply/bigmax_leqP => c _. exact: leq_trans (size_scale_leq _ _) (Hp c (ltn_ord c)).
Qed.

Lemma enc_poly_eval p m x : (enc_poly p m).[x] = \sum_(c < K + 1) nth 0 (nth [::] (rows enc) m) c * (p c).[x].
Proof. rewrite horner_sum. apply: eq_bigr => c _. by rewrite hornerZ. Qed.

(** The polynomial of a table entry. *)
Definition entry_poly (h : H) (key msg : nat -> {poly F}) (err : {poly F}) r m : {poly F} :=
  \sum_(k < K) lpn_poly h r m k * key k + enc_poly msg m + err.

Definition dT := ((t + l).-1 + l.-1)%N.

Lemma entry_size h (key msg : nat -> {poly F}) (err : {poly F}) r m : (0 < l)%N ->
  (forall k, (k < K)%N -> (size (key k) <= t + l)%N) ->
  (forall c, (c < K + 1)%N -> (size (msg c) <= t + l)%N) -> (size err <= t + l)%N ->
  (size (entry_poly h key msg err r m) <= dT.+1)%N.
Proof.
  move=> Hl Hk Hm He. have Ht : (t + l <= dT.+1)%N by rewrite /dT; lia.
  rewrite /entry_poly. apply: leq_trans (size_add _ _) _. rewrite geq_max. apply/andP; split; last exact: leq_trans He Ht.
  apply: leq_trans (size_add _ _) _. rewrite geq_max. apply/andP; split; last exact: leq_trans (enc_poly_size _ Hm) Ht.
  apply: leq_trans (size_sum _ _ _) _. apply/bigmax_leqP => k _. apply: leq_trans (size_mul_leq _ _) _.
  have := Hk k (ltn_ord k). have := lpn_poly_size h r m k. rewrite /dT. lia.
Qed.

Lemma entry_eval h key msg err r m q : (q < l)%N ->
  (entry_poly h key msg err r m).[nth 0 pos q] =
  encrypted K (fun k => draws h (((r * M + m) * K + k) * l + q)%N) (fun k => (key k).[nth 0 pos q])
    (fun c => nth 0 (nth [::] (rows enc) m) c) (fun c => (msg c).[nth 0 pos q]) err.[nth 0 pos q].
Proof.
  move=> Hq. rewrite /encrypted !hornerD horner_sum enc_poly_eval addn1. congr (_ + _ + _).
  apply: eq_bigr => k _. by rewrite hornerM lpn_poly_eval.
Qed.

(** One encrypted row. *)
Lemma row_held h key msg pe R r i : (i < n)%N -> (r < R)%N -> (r < 4)%N ->
  zipw +%R (zipw +%R [seq dotv a (held key K i) | a <- nth [::] (lpn_matrix emb draws (mk i) prm h) r] (mdot enc (held msg (K + 1) i)))
    (take M (drop (r * M) (held pe (R * M) i))) = held (fun m => entry_poly h key msg (pe (r * M + m)%N) r m) M i.
Proof.
  move=> Hi HR H4. rewrite lpn_matrixE // -map_comp encE held_slice; last by rewrite -mulSnr leq_mul2r HR orbT.
  have -> : [seq ((dotv (F:=F))^~ (held key K i) \o (fun m => held (lpn_poly h r m) K i)) x | x <- iota 0 M]
     = held (fun m => \sum_(k < K) lpn_poly h r m k * key k) M i.
  { apply: eq_map => m /=. by rewrite dotv_held. }
  by rewrite !held_add.
Qed.

(** Labels and masks of a row of input shares. *)
Lemma row_labelE p i b : (b < 2)%N -> row_label K (held p (2 * K + 1) i) b = held (fun c => p (b * K + c)%N) K i.
Proof. move=> Hb. rewrite /row_label held_slice //. case: b Hb => [|[|b]] // _; lia. Qed.

Lemma row_maskE p i : row_mask (held p (2 * K + 1) i) = (p (2 * K)%N).[emb i].
Proof. by rewrite /row_mask addn1 last_held. Qed.

Definition ext_poly (pk : nat -> nat -> {poly F}) (pm : {poly F}) (b c : nat) : {poly F} :=
  if (c < K)%N then pk b c else if b == 0%N then pm else pm + 1.

Lemma ext_labelE pk (pm : {poly F}) i b : (b < 2)%N ->
  ext_label [seq held (pk b) K i | b <- iota 0 2] pm.[emb i] b = held (ext_poly pk pm b) (K + 1) i.
Proof.
  move=> Hb. rewrite /ext_label (nth_map 0%N) ?size_iota // nth_iota // add0n /ext_poly.
  case: eqP => [->|_]; first by rewrite held_rcons.
  have -> : pm.[emb i] + 1 = (pm + 1).[emb i] by rewrite hornerD hornerC.
  by rewrite held_rcons.
Qed.

Lemma ext_size (pk : nat -> nat -> {poly F}) (pm : {poly F}) b c : (0 < t + l)%N -> (forall b c, (b < 2)%N -> (c < K)%N -> (size (pk b c) <= t + l)%N) -> (size pm <= t + l)%N ->
  (b < 2)%N -> (size (ext_poly pk pm b c) <= t + l)%N.
Proof.
  move=> Ht Hk Hm Hb. rewrite /ext_poly. case: ltnP => Hc; first exact: Hk. case: eqP => // _.
  apply: leq_trans (size_add _ _) _. by rewrite geq_max Hm size_poly1.
Qed.

(** What the plaintext polynomial of a row must be at the positions. *)
Lemma plaintext_ext pk pm b0 b1 v x c : b0 = 0%N -> b1 = 1%N ->
  choose (ext_poly pk pm b0 c).[x] (ext_poly pk pm b1 c).[x] v = plaintext K (fun b c => (pk b c).[x]) pm.[x] v c.
Proof. move=> -> ->. rewrite /plaintext /ext_poly. case: ltnP => // _. by rewrite hornerD hornerC. Qed.

(** ** The gates *)
Hypothesis Hl0 : (0 < l)%N.
Hypothesis F2 : 1 + 1 = 0 :> F.

Definition fsub (a b : F) := a - b.
Lemma F_rt : @Ring_theory.ring_theory F 0 1 +%R *%R fsub -%R eq.
Proof. split=> //; [exact: add0r|exact: addrC|exact: addrA|exact: mul1r|exact: mulrC|exact: mulrA|exact: mulrDl|exact: subrr]. Qed.

Lemma table4E h x0 x1 (msg : nat -> nat -> {poly F}) pe i mm : (i < n)%N ->
  mm = [seq held (msg r) (K + 1) i | r <- iota 0 4] ->
  table4 (lpn_matrix emb draws (mk i) prm h) K M (held x0 (2 * K + 1) i) (held x1 (2 * K + 1) i)
    [seq mdot enc p | p <- mm] (held pe (4 * M) i) =
  [seq held (fun m => entry_poly h (fun k => x0 (r %/ 2 * K + k)%N + x1 (r %% 2 * K + k)%N) (msg r) (pe (r * M + m)%N) r m) M i
  | r <- iota 0 4].
Proof.
  move=> Hi ->. apply/eq_in_map => r. rewrite mem_iota add0n => /andP [_ Hr].
  have Hb1 : (r %/ 2 < 2)%N by rewrite ltn_divLR. have Hb2 : (r %% 2 < 2)%N by rewrite ltn_mod.
  rewrite !row_labelE // held_add -map_comp (nth_map 0%N) ?size_iota // nth_iota // add0n /=.
  exact: row_held.
Qed.

Lemma table2E h x0 (msg : nat -> nat -> {poly F}) pe i mm : (i < n)%N ->
  mm = [seq held (msg r) (K + 1) i | r <- iota 0 2] ->
  table2 (lpn_matrix emb draws (mk i) prm h) K M (held x0 (2 * K + 1) i) [seq mdot enc p | p <- mm] (held pe (2 * M) i) =
  [seq held (fun m => entry_poly h (fun k => x0 (r * K + k)%N) (msg r) (pe (r * M + m)%N) r m) M i | r <- iota 0 2].
Proof.
  move=> Hi ->. apply/eq_in_map => r. rewrite mem_iota add0n => /andP [_ Hr].
  rewrite !row_labelE // -map_comp (nth_map 0%N) ?size_iota // nth_iota // add0n /=.
  by apply: row_held => //; apply: leq_trans Hr _.
Qed.

Lemma leader_ok (id : pid) : exists2 L, leader_from_proto_id hash id n = Some L & (L < n)%N.
Proof.
  move: n_pos' Hn16. rewrite /leader_from_proto_id. case: n => // n' _ H2.
  have Hlt : (N.to_nat (N.modulo (hash id) (N.of_nat n'.+1)) < n'.+1)%N.
  { have := N.mod_lt (hash id) (N.of_nat n'.+1). lia. }
  rewrite (leq_trans Hlt H2). by eexists; first reflexivity.
Qed.

(** What the parties hold at a gate: rows of input shares, output mask and
    labels, errors are the values of polynomials of degree below [t + l]. *)
Definition low_all (num : nat) (p : nat -> {poly F}) : Prop := forall j, (j < num)%N -> (size (p j) <= t + l)%N.

Definition gate_ready (ni nm R : nat) (x : nat -> gate_inp F) (xr : nat -> nat -> {poly F}) (pm : {poly F})
    (pk : nat -> nat -> {poly F}) (pe : nat -> {poly F}) : Prop :=
  [/\ forall i, (i < n)%N -> exists rn zr, x i = GateInp [seq held (xr s) (2 * K + 1) i | s <- iota 0 ni] pm.[emb i]
        [seq held (pk b) K i | b <- iota 0 2] rn zr (held pe (R * M) i),
      exists r, sharings (t + l).-1 pos nm (fun i => gi_randoms (x i)) r,
      sharings n.-1 pos nm (fun i => gi_zeros (x i)) (fun _ => nseq l 0),
      forall s, (s < ni)%N -> low_all (2 * K + 1) (xr s) &
      [/\ (size pm <= t + l)%N, forall b, (b < 2)%N -> low_all K (pk b) & low_all (R * M) pe]].

Variable g : nat -> gctx F.
Variables (gid : nat) (h : H).
Hypothesis Hg : forall me, (me < n)%N ->
  [/\ g_mpc (g me) = mk me, g_lpn (g me) = prm, g_enc (g me) = enc & gate_mat (g me) gid = lpn_matrix emb draws (mk me) prm h].
Hypothesis Hfit1 : fits 1.
Hypothesis HfitK : fits (K + 1).
Hypothesis Hfit3 : fits (3 * (K + 1)).

(** The entries of the table of a gate. *)
Definition entry_value (key : nat -> {poly F}) (pm : {poly F}) (pk : nat -> nat -> {poly F}) (pe : nat -> {poly F})
    (num : F -> F) (r m q : nat) : F :=
  let x := nth 0 pos q in
  encrypted K (fun k => draws h (((r * M + m) * K + k) * l + q)%N) (fun k => (key k).[x])
    (fun c => nth 0 (nth [::] (rows enc) m) c) (plaintext K (fun b c => (pk b c).[x]) pm.[x] (num x))
    (pe (r * M + m)%N).[x].

Lemma entry_valueP key (msg : nat -> {poly F}) pm pk pe num r m q : (q < l)%N ->
  (forall c x, x \in pos -> (c < K + 1)%N -> (msg c).[x] = choose (ext_poly pk pm 0 c).[x] (ext_poly pk pm 1 c).[x] (num x)) ->
  (entry_poly h key msg (pe (r * M + m)%N) r m).[nth 0 pos q] = entry_value key pm pk pe num r m q.
Proof.
  move=> Hq Hm. rewrite entry_eval // /entry_value /encrypted. congr (_ + _ + _). apply: eq_bigr => c _. congr (_ * _).
  rewrite -(@plaintext_ext _ _ 0 1) // Hm //; last by rewrite addn1. by rewrite mem_nth ?size_pos.
Qed.

Lemma sz_add (p q : {poly F}) b : (size p <= b)%N -> (size q <= b)%N -> (size (p + q)%R <= b)%N.
Proof. move=> H1 H2. apply: leq_trans (size_add _ _) _. by rewrite geq_max H1. Qed.
Lemma sz_sub (p q : {poly F}) b : (size p <= b)%N -> (size q <= b)%N -> (size (p - q)%R <= b)%N.
Proof. move=> H1 H2. apply: sz_add => //. by rewrite size_opp. Qed.

Lemma garble_xor_ok id x xr pm pk pe coin : gate_ready 2 (K + 1) 4 x xr pm pk pe ->
  exists rd res, realizes [:: (id, rd)] (fun me k => garble_xor ser de hash (g me) id gid (x me) (coin me) k) res /\
    table_shared emb n dT pos 4 M res (fun r => entry_value (fun k => xr 0%N (r %/ 2 * K + k)%N + xr 1%N (r %% 2 * K + k)%N)
      pm pk pe (fun y => xor_number (r %/ 2) (r %% 2) (xr 0%N (2 * K)%N).[y] (xr 1%N (2 * K)%N).[y] pm.[y]) r).
Proof.
  move=> [Hx [rr Sr] Sz Hxr [Hpm Hpk Hpe]]. have [L EL HL] := leader_ok id.
  have Htl : (0 < t + l)%N by lia.
  pose S := xr 0%N (2 * K)%N + xr 1%N (2 * K)%N + pm. pose ek b := ext_poly pk pm b.
  have HS' : (size S <= t + l)%N by rewrite !sz_add ?Hxr // ?addn1.
  have Hek b c : (b < 2)%N -> (size (ek b c) <= t + l)%N by move=> Hb; apply: ext_size => // *; exact: Hpk.
  have Hd c : (c < K + 1)%N -> (size (ek 1%N c - ek 0%N c)%R <= t + l)%N by move=> _; rewrite sz_sub ?Hek.
  have [rd [w [R Hw]]] := @mult_poly id (K + 1)%N L coin (fun _ => S) (fun c => ek 1%N c - ek 0%N c) _ rr _ HL HfitK (fun _ _ => HS') Hd Sr Sz.
  pose msg r c := if (r == 0%N) || (r == 3%N) then w c + ek 0%N c else w c + ek 1%N c.
  have Hmsg r c : (c < K + 1)%N -> (size (msg r c) <= t + l)%N.
  { move=> Hc. have [H1 _] := Hw c Hc. by rewrite /msg; case: ifP => _; apply: sz_add => //; exact: Hek. }
  exists rd. eexists. split.
  - have R' := realizes_map (f := fun me sel => let: (mssg1, mssg2) := (zipw +%R sel (held (ek 0%N) (K + 1) me), zipw +%R sel (held (ek 1%N) (K + 1) me)) in
      table4 (lpn_matrix emb draws (mk me) prm h) K M (held (xr 0%N) (2 * K + 1) me) (held (xr 1%N) (2 * K + 1) me)
           [seq mdot enc p | p <- [:: mssg1; mssg2; mssg2; mssg1]] (held pe (4 * M) me)) R.
    apply: realizes_eq R' => // i k Hi.
    have [rn [zr Ex]] := Hx i Hi. have := Sr.1 i Hi. have := Sz.1 i Hi. have [E1 E2 E3 E4] := Hg Hi.
    rewrite /garble_xor E1 E2 E3 E4 Ex /= => -> ->. rewrite size_held !eqxx /= /mult_leader /= EL.
    by rewrite !row_maskE -!hornerD held_nseq !ext_labelE // held_sub.
  - apply: (@table_heldP _ _ _ _ _ _ _ _ (fun r m => entry_poly h (fun k => xr 0%N (r %/ 2 * K + k)%N + xr 1%N (r %% 2 * K + k)%N) (msg r) (pe (r * M + m)%N) r m)).
    + move=> i Hi. cbv beta zeta iota. rewrite (@table4E h _ _ msg _ i _ Hi) //. by rewrite !held_add.
    + move=> r m Hr Hm. have Hb1 : (r %/ 2 < 2)%N by rewrite ltn_divLR. have Hb2 : (r %% 2 < 2)%N by rewrite ltn_mod.
      apply: entry_size => // [k Hk|c Hc|]; [|exact: Hmsg|apply: Hpe; nia].
      apply: sz_add; apply: Hxr => //; nia.
    + move=> r m q Hr Hm. rewrite size_pos => Hq. apply: entry_valueP => // c y Hy Hc.
      have [_ /(_ y Hy) Ew] := Hw c Hc. rewrite /msg /choose /xor_number.
      pose A := (xr 0%N (2 * K)%N).[y]. pose B := (xr 1%N (2 * K)%N).[y]. pose C := pm.[y].
      pose k0 := (ek 0%N c).[y]. pose k1 := (ek 1%N c).[y].
      case: r Hr => [|[|[|[|r]]]] //= _; rewrite hornerD Ew !hornerD hornerN.
      * exact (xor_row0 F_rt A B C k0 k1).
      * exact (xor_row1 F_rt A B C k0 k1).
      * exact (xor_row2 F_rt A B C k0 k1).
      * exact (xor_row3 F_rt A B C k0 k1 F2).
Qed.

Lemma garble_inv_ok id x xr pm pk pe coin : gate_ready 1 (K + 1) 2 x xr pm pk pe ->
  exists rd res, realizes [:: (id, rd)] (fun me k => garble_inv ser de hash (g me) id gid (x me) (coin me) k) res /\
    table_shared emb n dT pos 2 M res (fun r => entry_value (fun k => xr 0%N (r * K + k)%N)
      pm pk pe (fun y => buf_number r (xr 0%N (2 * K)%N).[y] pm.[y]) r).
Proof.
  move=> [Hx [rr Sr] Sz Hxr [Hpm Hpk Hpe]]. have [L EL HL] := leader_ok id.
  have Htl : (0 < t + l)%N by lia.
  pose S := xr 0%N (2 * K)%N + pm. pose ek b := ext_poly pk pm b.
  have HS' : (size S <= t + l)%N by rewrite !sz_add ?Hxr // ?addn1.
  have Hek b c : (b < 2)%N -> (size (ek b c) <= t + l)%N by move=> Hb; apply: ext_size => // *; exact: Hpk.
  have Hd c : (c < K + 1)%N -> (size (ek 1%N c - ek 0%N c)%R <= t + l)%N by move=> _; rewrite sz_sub ?Hek.
  have [rd [w [R Hw]]] := @mult_poly id (K + 1)%N L coin (fun _ => S) (fun c => ek 1%N c - ek 0%N c) _ rr _ HL HfitK (fun _ _ => HS') Hd Sr Sz.
  pose msg r c := if (r == 0%N) then w c + ek 0%N c else ek 0%N c + ek 1%N c + (w c + ek 0%N c).
  have Hmsg r c : (c < K + 1)%N -> (size (msg r c) <= t + l)%N.
  { move=> Hc. have [H1 _] := Hw c Hc. by rewrite /msg; case: ifP => _; rewrite !sz_add // Hek. }
  exists rd. eexists. split.
  - have R' := realizes_map (f := fun me sel => let mssg1 := zipw +%R sel (held (ek 0%N) (K + 1) me) in
       let mssg2 := zipw +%R (zipw +%R (held (ek 0%N) (K + 1) me) (held (ek 1%N) (K + 1) me)) mssg1 in
      table2 (lpn_matrix emb draws (mk me) prm h) K M (held (xr 0%N) (2 * K + 1) me)
           [seq mdot enc p | p <- [:: mssg1; mssg2]] (held pe (2 * M) me)) R.
    apply: realizes_eq R' => // i k Hi.
    have [rn [zr Ex]] := Hx i Hi. have := Sr.1 i Hi. have := Sz.1 i Hi. have [E1 E2 E3 E4] := Hg Hi.
    rewrite /garble_inv E1 E2 E3 E4 Ex /= => -> ->. rewrite size_held !eqxx /= /mult_leader /= EL.
    by rewrite !row_maskE -!hornerD held_nseq !ext_labelE // held_sub.
  - apply: (@table_heldP _ _ _ _ _ _ _ _ (fun r m => entry_poly h (fun k => xr 0%N (r * K + k)%N) (msg r) (pe (r * M + m)%N) r m)).
    + move=> i Hi. cbv beta zeta iota. rewrite (@table2E h _ msg _ i _ Hi) //. by rewrite !held_add.
    + move=> r m Hr Hm. apply: entry_size => // [k Hk|c Hc|]; [|exact: Hmsg|apply: Hpe; nia].
      apply: Hxr => //; nia.
    + move=> r m q Hr Hm. rewrite size_pos => Hq. apply: entry_valueP => // c y Hy Hc.
      have [_ /(_ y Hy) Ew] := Hw c Hc. rewrite /msg /choose /buf_number.
      pose A := (xr 0%N (2 * K)%N).[y]. pose C := pm.[y].
      pose k0 := (ek 0%N c).[y]. pose k1 := (ek 1%N c).[y].
      case: r Hr => [|[|r]] //= _; rewrite !hornerD Ew !hornerD hornerN.
      * exact (inv_row0 F_rt A C k0 k1).
      * exact (inv_row1 F_rt A C k0 k1 F2).
Qed.

Lemma garble_and_ok id id1 x xr pm pk pe coin1 coin2 : ProtoIdModel.take_ids id 2 1 = Some [:: id1] ->
  gate_ready 2 (3 * (K + 1) + 1) 4 x xr pm pk pe ->
  exists rd1 rd2 res, realizes [:: (id1, rd1); (id, rd2)]
      (fun me k => garble_and ser de hash (g me) id gid (x me) (coin1 me) (coin2 me) k) res /\
    table_shared emb n dT pos 4 M res (fun r => entry_value (fun k => xr 0%N (r %/ 2 * K + k)%N + xr 1%N (r %% 2 * K + k)%N)
      pm pk pe (fun y => and_number (r %/ 2) (r %% 2) (xr 0%N (2 * K)%N).[y] (xr 1%N (2 * K)%N).[y] pm.[y]) r).
Proof.
  move=> Eid [Hx [rr Sr] Sz Hxr [Hpm Hpk Hpe]].
  have [L1 EL1 HL1] := leader_ok id1. have [L2 EL2 HL2] := leader_ok id.
  have Htl : (0 < t + l)%N by lia.
  pose A := xr 0%N (2 * K)%N. pose B := xr 1%N (2 * K)%N.
  have HA : (size A <= t + l)%N by rewrite Hxr // addn1.
  have HB : (size B <= t + l)%N by rewrite Hxr // addn1.
  pose ek b := ext_poly pk pm b.
  have Hek b c : (b < 2)%N -> (size (ek b c) <= t + l)%N by move=> Hb; apply: ext_size => // *; exact: Hpk.
  have Sr1 := sharings_slice (a := (3 * (K + 1))%N) (m := 1) Sr (leqnn _).
  have Sz1 := sharings_slice (a := (3 * (K + 1))%N) (m := 1) Sz (leqnn _).
  have Sr2 := sharings_slice (a := 0%N) (m := (3 * (K + 1))%N) Sr (leq_addr _ _).
  have Sz2 := sharings_slice (a := 0%N) (m := (3 * (K + 1))%N) Sz (leq_addr _ _).
  have [rd1 [w1 [R1 Hw1]]] := @mult_poly id1 1%N L1 coin1 (fun _ => A) (fun _ => B) _ _ _ HL1 Hfit1 (fun _ _ => HA) (fun _ _ => HB) Sr1 Sz1.
  have [Hw1s Hw1v] := Hw1 0%N isT.
  pose S := w1 0%N + pm.
  have HS' : (size S <= t + l)%N by rewrite sz_add.
  have HK1 : (0 < K + 1)%N by rewrite addn1.
  pose px j := nth 0 [:: S; S + A; S + B] (j %/ (K + 1)).
  pose py j := ek 1%N (j %% (K + 1))%N - ek 0%N (j %% (K + 1))%N.
  have Hpx j : (j < 3 * (K + 1))%N -> (size (px j) <= t + l)%N.
  { move=> Hj. rewrite /px. have : (j %/ (K + 1) < 3)%N by rewrite ltn_divLR.
    by case: (j %/ _)%N => [|[|[|]]] // _ /=; rewrite ?sz_add. }
  have Hpy j : (j < 3 * (K + 1))%N -> (size (py j) <= t + l)%N by move=> _; rewrite sz_sub ?Hek.
  have [rd2 [w [R2 Hw]]] := @mult_poly id (3 * (K + 1))%N L2 coin2 px py _ _ _ HL2 Hfit3 Hpx Hpy Sr2 Sz2.
  pose wr r c := w (r * (K + 1) + c)%N.
  pose msg r c := (if r == 3%N then wr 0%N c + wr 1%N c + wr 2%N c + ek 1%N c - ek 0%N c else wr r c) + ek 0%N c.
  have Hwr r c : (r < 3)%N -> (c < K + 1)%N -> (size (wr r c) <= t + l)%N /\
     forall y, y \in pos -> (wr r c).[y] = (nth 0 [:: S; S + A; S + B] r).[y] * ((ek 1%N c).[y] - (ek 0%N c).[y]).
  { move=> Hr Hc. have [|H1 H2] := Hw (r * (K + 1) + c)%N; first by nia. split=> // y Hy. rewrite /wr H2 // /px /py.
    by rewrite divnMDl // divn_small // addn0 modnMDl modn_small // hornerD hornerN. }
  have Hmsg r c : (r < 4)%N -> (c < K + 1)%N -> (size (msg r c) <= t + l)%N.
  { move=> Hr Hc. rewrite /msg. apply: sz_add; last exact: Hek. case: eqP => [_|E].
    - have [a0 _] := Hwr 0%N c isT Hc. have [a1 _] := Hwr 1%N c isT Hc. have [a2 _] := Hwr 2%N c isT Hc.
      by rewrite sz_sub ?sz_add ?Hek.
    - have Hr3 : (r < 3)%N by lia. by have [] := Hwr r c Hr3 Hc. }
  pose Q me prod (k : seq (seq F) -> proc pid D (val F)) :=
    let s := nth 0 prod 0 + pm.[emb me] in
    let selector := nseq (K + 1) s ++ nseq (K + 1) (s + A.[emb me]) ++ nseq (K + 1) (s + B.[emb me]) in
    let key0 := held (ek 0%N) (K + 1) me in
    let key1 := held (ek 1%N) (K + 1) me in
    let d := zipw (fun a b => a - b) key1 key0 in
    mult_leader hash (mk me) id (fun L2 =>
    mult ser de (mk me) id selector (d ++ d ++ d) (take (3 * (K + 1)) (gi_randoms (x me))) (take (3 * (K + 1)) (gi_zeros (x me))) L2 (coin2 me) (fun sel =>
          if to_mat 3 (K + 1) sel is Some sel then
            let r3 := zipw (fun a b => a - b)
                        (zipw +%R (zipw +%R (zipw +%R (nth [::] sel 0) (nth [::] sel 1)) (nth [::] sel 2)) key1) key0 in
            let plain := [seq zipw +%R r key0 | r <- rcons sel r3] in
            k (table4 (lpn_matrix emb draws (mk me) prm h) K M (held (xr 0%N) (2 * K + 1) me) (held (xr 1%N) (2 * K + 1) me)
                 [seq mdot enc p | p <- plain] (held pe (4 * M) me))
          else Panic)).
  pose res me := [seq held (fun m => entry_poly h (fun k => xr 0%N (r %/ 2 * K + k)%N + xr 1%N (r %% 2 * K + k)%N) (msg r) (pe (r * M + m)%N) r m) M me
     | r <- iota 0 4].
  have RQ : realizes [:: (id, rd2)] (fun me => Q me (held w1 1 me)) res.
  { move=> plan ph AP me k js v Hm Fk. rewrite /Q /mult_leader /= EL2. cbv zeta.
    have -> : nseq (K + 1) ((w1 0%N).[emb me] + pm.[emb me]) ++ nseq (K + 1) ((w1 0%N).[emb me] + pm.[emb me] + A.[emb me]) ++
       nseq (K + 1) ((w1 0%N).[emb me] + pm.[emb me] + B.[emb me]) = held px (3 * (K + 1)) me.
    { rewrite -!hornerD !held_nseq held_flat /= cats0. congr (_ ++ (_ ++ _)); apply: held_ext => c Hc;
        by rewrite /px divnMDl // divn_small. }
    rewrite held_sub.
    have -> : held (fun j => ek 1%N j - ek 0%N j) (K + 1) me ++ held (fun j => ek 1%N j - ek 0%N j) (K + 1) me ++
       held (fun j => ek 1%N j - ek 0%N j) (K + 1) me = held py (3 * (K + 1)) me.
    { rewrite held_flat /= cats0. congr (_ ++ (_ ++ _)); apply: held_ext => c Hc;
        by rewrite /py modnMDl modn_small. }
    have := R2 plan ph AP me _ js v Hm. rewrite !drop0. apply. rewrite to_mat_held. cbv beta zeta iota.
    move: Fk. rewrite /res.
    by rewrite (@table4E h _ _ msg _ me _ Hm) //= !held_add held_sub held_add. }
  exists rd1, rd2, res. split.
  - apply: (realizes_eq _ _ (realizes_seq R1 RQ)) => // i k Hi. rewrite /Q.
    have [rn [zr Ex]] := Hx i Hi. have := Sr.1 i Hi. have := Sz.1 i Hi. have [E1 E2 E3 E4] := Hg Hi.
    rewrite /garble_and Eid E1 E2 E3 E4 Ex /= => Hz' Hr'. rewrite Hz' Hr' size_held !eqxx /= /mult_leader /= EL1.
    rewrite !row_maskE !ext_labelE //.
    have Et (s : seq F) : size s = (3 * (K + 1) + 1)%N -> take 1 (drop (3 * (K + 1)) s) = [:: last 0 s].
    { move=> Es. rewrite -nth_last Es addn1. cbn [predn]. rewrite (seq.drop_nth 0) ?Es ?addn1 //. by rewrite -cat1s take_size_cat. }
    by rewrite !Et.
  - apply: (@table_heldP _ _ _ _ _ _ _ _ (fun r m => entry_poly h (fun k => xr 0%N (r %/ 2 * K + k)%N + xr 1%N (r %% 2 * K + k)%N) (msg r) (pe (r * M + m)%N) r m)) => //.
    + move=> r m Hr Hm. have Hb1 : (r %/ 2 < 2)%N by rewrite ltn_divLR. have Hb2 : (r %% 2 < 2)%N by rewrite ltn_mod.
      apply: entry_size => // [k Hk|c Hc|]; [|exact: Hmsg|apply: Hpe; nia].
      apply: sz_add; apply: Hxr => //; nia.
    + move=> r m q Hr Hm. rewrite size_pos => Hq. apply: entry_valueP => // c y Hy Hc.
      have [_ /(_ y Hy) Ew0] := Hwr 0%N c isT Hc. have [_ /(_ y Hy) Ew1] := Hwr 1%N c isT Hc. have [_ /(_ y Hy) Ew2] := Hwr 2%N c isT Hc.
      have Ev := Hw1v y Hy.
      rewrite /msg /choose /and_number.
      pose a := A.[y]. pose b := B.[y]. pose C := pm.[y]. pose k0 := (ek 0%N c).[y]. pose k1 := (ek 1%N c).[y].
      case: r Hr => [|[|[|[|r]]]] //= _; rewrite !hornerD ?hornerN ?Ew0 ?Ew1 ?Ew2 /= !hornerD Ev.
      * exact (and_row0 F_rt a b C k0 k1).
      * exact (and_row1 F_rt a b C k0 k1).
      * exact (and_row2 F_rt a b C k0 k1).
      * exact (and_row3 F_rt a b C k0 k1 F2).
Qed.
End Gates.

(** Proofs about the shares of the gate inputs (garble.rs:33-227, 630-665). *)

From Coq Require Import NArith List.
From Verif Require Import CircuitModel LpnModel.
From mathcomp Require Import all_ssreflect all_algebra zify.
From Verif Require Import MathModel MathProofs MatProofs SharingModel SharingSpec SharingProofs.
From Verif Require Import MachineModel MachineProofs MachineBuild Realize CoreModel CoreSpec CoreProofs.
From Verif Require Import RandTransProofs PreprocModel PreprocSpec PreprocProofs GarbleModel GarbleSpec GarbleGates GarbleTf.
From Verif Require ProtoIdModel ProtoIdProofs.
Set Implicit Arguments.
Unset Strict Implicit.
Unset Printing Implicit Defensive.
Import GRing.Theory.
Local Open Scope ring_scope.

(** ** Sorting and looking up *)
Lemma mem_dedup_from x s w : (w \in x :: dedup_from x s) = (w \in x :: s).
Proof.
  elim: s x => [|y s IH] x //=. case: eqP => [->|_]; first by rewrite IH !inE; case: (w == x).
  by rewrite in_cons IH !in_cons.
Qed.

Lemma mem_dedup s : dedup s =i s.
Proof. case: s => [|x s] // w. exact: mem_dedup_from. Qed.

Lemma N_leb_trans : transitive N.leb.
Proof. move=> y x z /N.leb_le H1 /N.leb_le H2. apply/N.leb_le. exact: N.le_trans H1 H2. Qed.

Lemma uniq_dedup_from x s : path N.leb x s -> uniq (x :: dedup_from x s).
Proof.
  elim: s x => [|y s IH] x //= /andP [Hxy Hp].
  have Hx : path N.leb x s.
  { case: s Hp {IH} => //= z s /andP [Hyz ->]. by rewrite (N_leb_trans Hxy Hyz). }
  case: eqP => [E|E]; first exact: IH.
  rewrite -[X in X && _]/(x \notin y :: dedup_from y s) mem_dedup_from; apply/andP; split; last exact: IH.
  rewrite in_cons negb_or. apply/andP; split; first by apply/eqP => E'; apply: E.
  apply/negP => Hi. have /allP /(_ x Hi) Hyx := order_path_min N_leb_trans Hp.
  apply: E. apply: N.le_antisymm; exact/N.leb_le.
Qed.

Lemma sorted_sort_N ws : sorted N.leb (sort N.leb ws).
Proof. apply: sort_sorted => x y. case: (N.le_ge_cases x y) => /N.leb_le ->; by rewrite ?orbT. Qed.

Lemma uniq_sorted_wires ws : uniq (sorted_wires ws).
Proof.
  rewrite /sorted_wires. have := sorted_sort_N ws. case: (sort _ _) => [|x s] // Hs. exact: uniq_dedup_from.
Qed.

Lemma mem_sorted_wires ws : sorted_wires ws =i ws.
Proof. move=> w. by rewrite mem_dedup mem_sort. Qed.

Lemma size_sorted_wires ws : (size (sorted_wires ws) <= size ws)%N.
Proof. apply: uniq_leq_size (uniq_sorted_wires ws) _ => w. by rewrite mem_sorted_wires. Qed.

Lemma map_getP m w i : uniq [seq x.1 | x <- m] -> (w, i) \in m -> map_get m w = Some i.
Proof.
  elim: m => [|[x j] m IH] //= /andP [Hn U]. rewrite in_cons => /orP [/eqP [-> ->]|Hi].
  - have -> : map_get m x = None.
    { elim: m Hn {IH U} => [|[y k] m IH] //=. rewrite in_cons negb_or => /andP [Hy /IH ->]. by rewrite eq_sym (negbTE Hy). }
    by rewrite eqxx.
  - by rewrite IH.
Qed.

Section Blocks.
Variables (circ : pcircuit) (l : nat).
Hypothesis Hwf : wf_packed circ l.
Notation outs := (out_blocks circ).

Lemma outs_size b : (size (nth [::] outs b) <= l)%N.
Proof.
  have /and4P [/allP H _ _ _] := Hwf. case: (ltnP b (size outs)) => Hb; first by apply: H; exact: mem_nth.
  by rewrite nth_default.
Qed.

Lemma outs_uniq : uniq (flatten outs). Proof. by have /and4P [_ H _ _] := Hwf. Qed.

Lemma block_ofP w : w \in flatten outs -> (block_of circ w < size outs)%N /\ w \in nth [::] outs (block_of circ w).
Proof.
  case/flattenP => b Hb Hw. have Hh : has (fun b => w \in b) outs by apply/hasP; exists b.
  by rewrite /block_of -has_find; split=> //; exact: (nth_find [::] Hh).
Qed.

Lemma slot_ofP w : w \in flatten outs -> (slot_of circ w < size (nth [::] outs (block_of circ w)))%N /\
  nth 0%num (nth [::] outs (block_of circ w)) (slot_of circ w) = w.
Proof. move=> /block_ofP [_ H]. by rewrite /slot_of index_mem nth_index. Qed.

(** A wire is at one place only. *)
Lemma block_of_uniq w b : (b < size outs)%N -> w \in nth [::] outs b -> block_of circ w = b.
Proof.
  move=> Hb Hw. have Hwf' : w \in flatten outs by apply/flattenP; exists (nth [::] outs b) => //; exact: mem_nth.
  have [H1 H2] := block_ofP Hwf'. set c := block_of circ w in H1 H2 *.
  have U := outs_uniq. move: b c Hb Hw H1 H2 {Hwf'}. elim: (outs) U => [|x s IH] //=.
  rewrite cat_uniq => /and3P [_ /hasPn Hd Hs] [|b] [|c] //= Hb Hw Hc Hw'.
  - have : w \in flatten s by apply/flattenP; exists (nth [::] s c) => //; exact: mem_nth. by move/Hd/negP.
  - have : w \in flatten s by apply/flattenP; exists (nth [::] s b) => //; exact: mem_nth. by move/Hd/negP.
  - by congr S; exact: IH.
Qed.

Lemma block_mapE : block_map circ = flatten [seq [seq (w, i) | w <- nth [::] outs i] | i <- iota 0 (size outs)].
Proof.
  rewrite /block_map /out_blocks size_cat size_map iotaD map_cat flatten_cat add0n. congr (_ ++ _).
  - congr flatten. apply/eq_in_map => i. rewrite mem_iota add0n => /andP [_ Hi]. by rewrite nth_cat Hi.
  - congr flatten. set m := size (p_inputs circ).
    have -> : iota m (size (p_gates circ)) = [seq (m + i)%N | i <- iota 0 (size (p_gates circ))] by rewrite -iotaDl addn0.
    rewrite -map_comp. apply/eq_in_map => i. rewrite mem_iota add0n => /andP [_ Hi] /=.
    by rewrite nth_cat -/m ltnNge leq_addr /= addKn (nth_map (PInv [::] [::])) // addnC.
Qed.

Lemma lookup_ok w : w \in flatten outs -> map_get (block_map circ) w = Some (block_of circ w).
Proof.
  move=> Hw. have [H1 H2] := block_ofP Hw. rewrite block_mapE. apply: map_getP.
  - rewrite map_flatten -map_comp (@eq_map _ _ _ (fun i => nth [::] outs i)) => [|i]; last by rewrite /= -map_comp map_id.
    by rewrite map_nth_iota0 ?take_size ?outs_uniq.
  - apply/flattenP. exists [seq (x, block_of circ w) | x <- nth [::] outs (block_of circ w)].
    + apply/mapP. exists (block_of circ w) => //. by rewrite mem_iota.
    + by apply/mapP; exists w.
Qed.

Lemma inp_wires ws : ws \in inp_blocks circ -> (size ws <= l)%N /\ {subset ws <= flatten outs}.
Proof.
  case/flattenP => s /(nthP [::]) [i]. rewrite size_map => Hi. rewrite (nth_map (PInv [::] [::])) // => <- Hw.
  have /and4P [H1 _ _ /(all_nthP (PInv [::] [::])) /(_ i Hi) /allP /(_ ws Hw) /andP [/eqP Es /allP Ha]] := Hwf.
  split; last by move=> w; exact: Ha.
  rewrite Es. move/allP: H1; apply. rewrite mem_cat. apply/orP; right. apply/(nthP [::]). exists i; first by rewrite size_map.
  by rewrite (nth_map (PInv [::] [::])).
Qed.
End Blocks.

Section Basis.
Variable F : fieldType.

Definition lb (wp : seq F) (v : F) : {poly F} := interp wp (fun x => (x == v)%:R).

Lemma lagrange_row_nth wp v k : uniq wp -> (k < size wp)%N ->
  nth 0 (lagrange_row wp (lagrange_denom wp) v) k = (lb wp (nth 0 wp k)).[v].
Proof.
  move=> U Hk. rewrite -(@lagrange_row_eval _ wp _ v U (interp_size _ U)).
  rewrite (@dotv_ord _ _ _ (size wp)) ?size_evals // (bigD1 (Ordinal Hk)) //= big1 => [|s Hs].
  - rewrite addr0 (nth_map 0) // interp_eval ?mem_nth // eqxx mulr1 //.
  - rewrite (nth_map 0) // interp_eval ?mem_nth // nth_uniq //. have -> : (nat_of_ord s == k) = false.
    { apply/negbTE. apply: contra Hs => /eqP E. apply/eqP. exact: val_inj. } by rewrite mulr0.
Qed.

(** A combination of polynomials that takes the value of the [k]-th at the
    [k]-th position. *)
Definition weave (wp : seq F) (p : nat -> {poly F}) : {poly F} := \sum_(k < size wp) lb wp (nth 0 wp k) * p k.

Lemma weave_eval wp p k : uniq wp -> (k < size wp)%N -> (weave wp p).[nth 0 wp k] = (p k).[nth 0 wp k].
Proof.
  move=> U Hk. rewrite horner_sum (bigD1 (Ordinal Hk)) //= big1 => [|s Hs].
  - by rewrite addr0 hornerM interp_eval ?mem_nth // eqxx mul1r.
  - rewrite hornerM interp_eval ?mem_nth // nth_uniq //. have -> : (k == nat_of_ord s) = false.
    { apply/negbTE. apply: contra Hs => /eqP E. apply/eqP. exact: val_inj. } by rewrite mul0r.
Qed.

Lemma weave_size wp (p : nat -> {poly F}) d : uniq wp -> (0 < d)%N -> (forall k, (k < size wp)%N -> (size (p k) <= d)%N) -> (size (weave wp p) <= (size wp).-1 + d)%N.
Proof.
  move=> U Hd Hp. apply: leq_trans (size_sum _ _ _) _. apply/bigmax_leqP => k _. apply: leq_trans (size_mul_leq _ _) _.
  have H1 := Hp k (ltn_ord k). have H2 : (size (lb wp (nth 0%R wp k)) <= size wp)%N := interp_size _ U.
  have H3 := ltn_ord k. move: (size (lb _ _)) (size (p k)) H1 H2 => a b H1 H2. lia.
Qed.

Lemma weave_dot wp p v : uniq wp -> dotv (lagrange_row wp (lagrange_denom wp) v) [seq (p k).[v] | k <- iota 0 (size wp)] = (weave wp p).[v].
Proof.
  move=> U. rewrite (@dotv_ord _ _ _ (size wp)) ?size_map ?size_iota // horner_sum. apply: eq_bigr => k _.
  by rewrite lagrange_row_nth // hornerM (nth_map 0%N) ?size_iota // nth_iota.
Qed.
End Basis.

Section Wires.
Variable F : fieldType.
Variable emb : nat -> F.
Variable D : eqType.
Variable ser : seq F -> D.
Variable de : D -> option (seq F).
Variable fits : nat -> Prop.
Hypothesis serK : codec_ok ser de fits.
Variables (n t l : nat) (P Pn : pss F).
Hypothesis HS : setting emb n t l P Pn.
Hypothesis Hl0 : (0 < l)%N.
Hypothesis HKl : (t + l + l <= n)%N.
Notation mk me := (Ctx me n t l P Pn).
Notation pos := (default_pos emb n l).
Notation sharings := (sharings emb n).
Notation held := (held emb).
Notation pid := [eqType of seq N].
Notation realizes := (@realizes n pid D (val F)).
Variable circ : pcircuit.
Hypothesis Hwf : wf_packed circ l.
Hypothesis Hinj : distinct_positions emb n l circ.
Notation outs := (out_blocks circ).
Notation inps := (inp_blocks circ).
Let W := N.to_nat (p_num_wires circ).

Lemma emb_inj i j : (i < n + l + W)%N -> (j < n + l + W)%N -> emb i = emb j -> i = j.
Proof.
  move=> Hi Hj E. have U : uniq [seq emb i | i <- iota 0 (n + l + W)] := Hinj.
  have := nth_uniq 0 _ _ U. move/(_ i j). rewrite size_map size_iota => /(_ Hi Hj).
  by rewrite !(nth_map 0%N) ?size_iota // !nth_iota // !add0n E eqxx => /esym /eqP.
Qed.

Lemma good_list (s : seq nat) : uniq s -> (forall i, i \in s -> (n <= i < n + l + W)%N) -> good_pos emb n [seq emb i | i <- s].
Proof.
  move=> U Hs. rewrite /good_pos -map_cat map_inj_in_uniq.
  - rewrite cat_uniq U iota_uniq andbT. apply/hasPn => i. rewrite mem_iota add0n => /andP [_ Hi]. apply/negP => /Hs. lia.
  - move=> i j. rewrite !mem_cat !mem_iota !add0n => Hi Hj. apply: emb_inj.
    + case/orP: Hi => [/Hs|]; lia.
    + case/orP: Hj => [/Hs|]; lia.
Qed.

Lemma good_take k : good_pos emb n (take k pos).
Proof.
  rewrite /default_pos -map_take. apply: good_list; first by rewrite take_uniq // iota_uniq.
  move=> i /mem_take. rewrite mem_iota. lia.
Qed.

Lemma wires_lt w : w \in flatten outs -> (N.to_nat w < W)%N.
Proof. move=> Hw. have /and4P [_ _ /allP /(_ w Hw) /N.ltb_lt H _] := Hwf. rewrite /W. lia. Qed.

Definition wpos (w : N) : F := emb (N.to_nat w + (n + l))%N.

Lemma wires_posE ws : wires_pos emb n l ws = [seq wpos w | w <- ws].
Proof. by rewrite /wires_pos /wire_to_pos -map_comp. Qed.

Lemma good_wires ws : uniq ws -> {subset ws <= flatten outs} -> good_pos emb n (wires_pos emb n l ws).
Proof.
  move=> U Hs. have -> : wires_pos emb n l ws = [seq emb i | i <- [seq (N.to_nat w + (n + l))%N | w <- ws]].
  { by rewrite wires_posE -map_comp. }
  apply: good_list.
  - rewrite map_inj_in_uniq // => x y _ _ E. apply: Nnat.N2Nat.inj. lia.
  - move=> i /mapP [w /Hs /wires_lt Hw ->]. lia.
Qed.

Lemma uniq_wires ws : uniq ws -> {subset ws <= flatten outs} -> uniq (wires_pos emb n l ws).
Proof. move=> U Hs. have := good_wires U Hs. by rewrite /good_pos cat_uniq => /and3P []. Qed.

(** ** The transformations *)
Definition tf_out : seq (seq F * seq F * seq nat) :=
  [seq (take (size ws) pos, wires_pos emb n l ws, iota 0 (size ws)) | ws <- outs].
Definition tf_inp : seq (seq F * seq F * seq nat) :=
  [seq (wires_pos emb n l (sorted_wires ws), take (size ws) pos, [seq sel_of (sorted_wires ws) w | w <- ws]) | ws <- inps].

Let x0 : seq F * seq F * seq nat := ([::], [::], [::]).

Lemma size_take_pos k : (k <= l)%N -> size (take k pos) = k.
Proof. move=> Hk. by rewrite size_takel // size_map size_iota. Qed.

Lemma out_uniq b : uniq (nth [::] outs b) /\ {subset nth [::] outs b <= flatten outs}.
Proof.
  case: (ltnP b (size outs)) => Hb; last by rewrite nth_default.
  split; last by move=> w Hw; apply/flattenP; exists (nth [::] outs b) => //; exact: mem_nth.
  have := outs_uniq Hwf. elim: (outs) b Hb => [|x s IH] //= [|b] Hb; rewrite cat_uniq => /and3P [H _ Hs] //. exact: IH.
Qed.

Lemma tf_out_ok k : (k < size tf_out)%N -> tf_ok emb n l (nth x0 tf_out k).
Proof.
  rewrite size_map => Hk. rewrite (nth_map [::]) //. have [U Hsub] := out_uniq k. have Hsz := outs_size Hwf k.
  split=> /=.
  - exact: good_take.
  - exact: good_wires.
  - by rewrite size_take_pos.
  - by rewrite wires_posE size_map.
  - rewrite size_iota wires_posE size_map size_take_pos //. split=> //. apply/allP => i. by rewrite mem_iota.
Qed.

Lemma tf_inp_ok k : (k < size tf_inp)%N -> tf_ok emb n l (nth x0 tf_inp k).
Proof.
  rewrite size_map => Hk. rewrite (nth_map [::]) //. have [Hsz Hsub] := inp_wires Hwf (mem_nth [::] Hk).
  set ws := nth [::] inps k in Hsz Hsub *. have Hss := size_sorted_wires ws.
  split=> /=.
  - apply: good_wires; first exact: uniq_sorted_wires. by move=> w; rewrite mem_sorted_wires => /Hsub.
  - exact: good_take.
  - rewrite wires_posE size_map. exact: leq_trans Hss Hsz.
  - by rewrite size_take_pos.
  - rewrite size_map size_take_pos // wires_posE size_map. split=> //. apply/allP => i /mapP [w Hw ->].
    have Hw' : w \in sorted_wires ws by rewrite mem_sorted_wires. exact: (sel_ofP Hw').1.
Qed.

Lemma tf_outE : all_some [seq out_tf emb n l ws | ws <- outs] = Some tf_out.
Proof.
  apply: all_some_map_in => ws Hw. rewrite /out_tf ifT //. have := outs_size Hwf (index ws outs). by rewrite nth_index.
Qed.

Lemma tf_inpE : all_some [seq inp_tf emb n l ws | ws <- inps] = Some tf_inp.
Proof.
  apply: all_some_map_in => ws Hw. have [Hsz _] := inp_wires Hwf Hw. rewrite /inp_tf Hsz from_instance_ok //.
  apply/allP => w Hw'. by rewrite /= mem_sorted_wires.
Qed.

Variables (B1 B2 : nat).
Hypothesis HB1 : num_batches (size outs) l = Some B1.
Hypothesis HB2 : num_batches (size inps) l = Some B2.
Notation tfs_out := (tfs emb n t l tf_out B1).
Notation tfs_inp := (tfs emb n t l tf_inp B2).

Lemma HB1' : num_batches (size tf_out) l = Some B1. Proof. by rewrite size_map. Qed.
Lemma HB2' : num_batches (size tf_inp) l = Some B2. Proof. by rewrite size_map. Qed.

(** ** Selection *)
Variables (K M : nat).
Notation prm := (Lpn K M).
Let reps := (2 * K + 1)%N.
Variable g : nat -> gctx F.
Hypothesis Hg : forall me, (me < n)%N ->
  [/\ g_mpc (g me) = mk me, g_lpn (g me) = prm, g_circ (g me) = circ & [/\ g_lookup (g me) = block_map circ, g_out (g me) = tfs_out me & g_inp (g me) = tfs_inp me]].

Section Select.
Variables (po : nat -> nat -> {poly F}) (shares : nat -> seq (seq F)).
Hypothesis Hsh : forall me, (me < n)%N -> size (shares me) = size outs /\
  forall b, (b < size outs)%N -> nth [::] (shares me) b = held (po b) reps me.

Definition sel_poly (ws : seq N) (j : nat) : {poly F} :=
  let wires := sorted_wires ws in weave (wires_pos emb n l wires) (fun k => po (block_of circ (nth 0%num wires k)) j).

Lemma select_blockE me ws : (me < n)%N -> ws \in inps ->
  select_block emb (g me) reps (shares me) ws = Some (held (sel_poly ws) reps me).
Proof.
  move=> Hm Hws. have [E1 E2 E3 [E4 _ _]] := Hg Hm. have [Hsz Hsub] := inp_wires Hwf Hws. have [Ssh Hsh'] := Hsh Hm.
  have Hsub' w : w \in sorted_wires ws -> w \in flatten outs by rewrite mem_sorted_wires => /Hsub.
  rewrite /select_block E1 E4 /=.
  rewrite (@all_some_map_in _ _ _ (block_of circ)) /=; last by move=> w /Hsub' Hw; exact: lookup_ok Hwf _ Hw.
  rewrite ifT; last by apply/allP => i /mapP [w /Hsub' Hw ->]; rewrite Ssh; exact: (block_ofP Hw).1.
  congr Some. apply/eq_in_map => j. rewrite mem_iota add0n => /andP [_ Hj].
  rewrite own_coeffsE // /sel_poly -weave_dot; last by apply: uniq_wires => //; exact: uniq_sorted_wires.
  congr dotv. rewrite -map_comp col_map wires_posE size_map. apply: (@eq_from_nth _ 0); rewrite !size_map ?size_iota // => k Hk.
  rewrite (nth_map 0%num) // (nth_map 0%N) ?size_iota // nth_iota // add0n.
  have Hw := Hsub' _ (mem_nth 0%num Hk). by rewrite /= Hsh' ?nth_held // (block_ofP Hw).1.
Qed.

Lemma select_allE me : (me < n)%N ->
  select_all emb (g me) reps (shares me) = Some [seq held (sel_poly ws) reps me | ws <- inps].
Proof.
  move=> Hm. have [_ _ E3 _] := Hg Hm. rewrite /select_all E3.
  rewrite (@all_some_map_in _ _ _ (fun ws => held (sel_poly ws) reps me)) /=; last by move=> ws; exact: select_blockE.
  have Hrow x : x \in [seq held (sel_poly ws) reps me | ws <- inps] -> size x = reps by case/mapP => ws _ ->; exact: size_held.
  rewrite (size_flat Hrow) size_map mulnK; last by rewrite /reps addn1.
  by rewrite to_mat_flatten // size_map.
Qed.

Lemma sel_poly_ok ws j : ws \in inps -> (forall b, (b < size outs)%N -> (size (po b j) <= t + l)%N) ->
  (size (sel_poly ws j) <= n)%N /\ forall w, w \in ws -> (sel_poly ws j).[wpos w] = (po (block_of circ w) j).[wpos w].
Proof.
  move=> Hws Hpo. have [Hsz Hsub] := inp_wires Hwf Hws. have [Ht _ _ _] := HS.
  have Hsub' w : w \in sorted_wires ws -> w \in flatten outs by rewrite mem_sorted_wires => /Hsub.
  have U := uniq_wires (uniq_sorted_wires ws) Hsub'.
  split.
  - apply: leq_trans (@weave_size _ _ _ (t + l)%N U Ht _) _ => [k Hk|].
    + apply: Hpo. move: Hk. rewrite wires_posE size_map => Hk. exact: (block_ofP (Hsub' _ (mem_nth _ Hk))).1.
    + rewrite wires_posE size_map. have H := leq_trans (size_sorted_wires ws) Hsz. move: H. move: (size _) => a Ha. lia.
  - move=> w Hw. have Hw' : w \in sorted_wires ws by rewrite mem_sorted_wires.
    have Hi : (index w (sorted_wires ws) < size (wires_pos emb n l (sorted_wires ws)))%N by rewrite wires_posE size_map index_mem.
    have E : nth 0 (wires_pos emb n l (sorted_wires ws)) (index w (sorted_wires ws)) = wpos w.
    { by rewrite wires_posE (nth_map 0%num) ?index_mem // nth_index. }
    by rewrite -{1}E weave_eval // E nth_index.
Qed.
End Select.

(** ** The whole *)

(** Column [j] of the label shares of block [b]: [2K] label symbols and the
    mask. *)
Definition col_sec (mk ks : nat -> seq F) (b j : nat) : seq F := if (j < 2 * K)%N then ks (b * (2 * K) + j)%N else mk b.
Definition wire_sec mk ks (w : N) (j : nat) : F := nth 0 (col_sec mk ks (block_of circ w) j) (slot_of circ w).

Lemma sharings_take d ps num v s k : sharings d ps num v s -> sharings d (take k ps) num v (fun j => take k (s j)).
Proof. move=> [H1 H2]. split=> // j Hj. have [p [Hp E1 E2]] := H2 j Hj. exists p. split=> //. by rewrite E2 map_take. Qed.

Lemma nbE : size outs = (size (p_inputs circ) + size (p_gates circ))%N.
Proof. by rewrite /out_blocks size_cat size_map. Qed.

(** What the messages of these steps are made of: the shares of the labels of an
    output block are computed from the messages received, and so are shares of
    others of an input block with a repeated wire. *)
Definition wire_trace (c0 c1 c2 c3 : seq pid) (pp : nat -> preproc_data F) mk ks (rds : seq (pid * round D)) : Prop :=
  let rd (dd : nat -> nat -> D) me := rt_read emb de n l reps [seq dd s me | s <- iota 0 n] in
  exists (po : nat -> nat -> {poly F}) (inp : nat -> seq (seq F)),
  [/\ forall b, (b < size outs)%N -> forall j, (j < reps)%N -> (size (po b j) <= t + l)%N /\ forall s, (s < size (nth [::] outs b))%N ->
        (po b j).[wpos (nth 0%num (nth [::] outs b) s)] = nth 0 (col_sec mk ks b j) s,
      forall me, (me < n)%N -> label_rows (size outs) K (pp_keys (pp me)) (pp_masks (pp me)) = Some (inp me),
      forall b, (b < size outs)%N -> exists dd (up dn : nat -> seq F),
        [/\ List.In (nth [::] c0 (b %/ l)%N, Exch dd) rds,
            List.In (nth [::] c2 b, Lead (b %% n)%N (fun me => ser (up me)) (fun me => ser (dn me))) rds,
            forall me, size (dn me) = reps &
            forall me, (me < n)%N -> up me = zipw +%R (nth [::] (rd dd me).2 (b %% l)%N) (nth [::] (inp me) b) /\
              held (po b) reps me = zipw (fun a b => a - b) (dn me) (nth [::] (rd dd me).1 (b %% l)%N)] &
      forall i, (i < size inps)%N -> exists dd (up dn : nat -> seq F), let ws := nth [::] inps i in
        [/\ List.In (nth [::] c1 (i %/ l)%N, Exch dd) rds,
            List.In (nth [::] c3 i, Lead (i %% n)%N (fun me => ser (up me)) (fun me => ser (dn me))) rds,
            forall me, (me < n)%N -> size (up me) = reps &
            forall m m', (m < n)%N -> (m' < n)%N -> (size ws + m < l)%N -> (size ws + m = size (sorted_wires ws) + m')%N ->
              zipw (fun a b => a - b) (up m') (nth [::] (rd dd m).1 (i %% l)%N) = held (sel_poly po ws) reps m']].

Lemma wire_trace_sub c0 c1 c2 c3 pp mk ks rds rds' : (forall x, List.In x rds -> List.In x rds') ->
  wire_trace c0 c1 c2 c3 pp mk ks rds -> wire_trace c0 c1 c2 c3 pp mk ks rds'.
Proof.
  move=> Hs [po [inp [H1 H2 H3 H4]]]. exists po, inp. split=> // [b Hb|i Hi].
  - have [dd [up [dn [X1 X2 X3 X4]]]] := H3 b Hb. exists dd, up, dn. split=> //; exact: Hs.
  - have [dd [up [dn [X1 X2 X3 X4]]]] := H4 i Hi. exists dd, up, dn. split=> //; exact: Hs.
Qed.

Lemma wire_shares_ok (cids : seq pid) c0 c1 c2 c3 (pp : nat -> preproc_data F) mk ks r1 R1 z1 r2 R2 z2 coins :
  fits (2 * reps) -> fits reps ->
  ProtoIdModel.gen_rand_ids (nth [::] cids 0) (N.of_nat B1) = Some c0 ->
  ProtoIdModel.gen_rand_ids (nth [::] cids 1) (N.of_nat B2) = Some c1 ->
  ProtoIdModel.transform_ids (nth [::] cids 2) (N.of_nat (size outs)) = Some c2 ->
  ProtoIdModel.transform_ids (nth [::] cids 3) (N.of_nat (size inps)) = Some c3 ->
  sharings (t + l).-1 pos (size outs) (fun i => pp_masks (pp i)) mk ->
  sharings (t + l).-1 pos (size outs * (2 * K)) (fun i => pp_keys (pp i)) ks ->
  sharings (t + l).-1 pos (B1 * ((n + t) * reps)) r1 R1 -> sharings n.-1 pos (B1 * (2 * n * reps)) z1 (fun _ => nseq l 0) ->
  sharings (t + l).-1 pos (B2 * ((n + t) * reps)) r2 R2 -> sharings n.-1 pos (B2 * (2 * n * reps)) z2 (fun _ => nseq l 0) ->
  exists rds res, ids rds = c1 ++ (c0 ++ c2) ++ c3 /\
    realizes rds (fun me k => wire_shares emb ser de (g me) cids (pp me) (r1 me, z1 me) (r2 me, z2 me) (coins me) k) res /\
    (forall me, (me < n)%N -> size (res me) = size inps) /\
    (forall i, (i < size inps)%N -> let ws := nth [::] inps i in
      sharings (t + l).-1 (take (size ws) pos) reps (fun me => nth [::] (res me) i) (fun j => [seq wire_sec mk ks w j | w <- ws])) /\
    wire_trace c0 c1 c2 c3 pp mk ks rds.
Proof.
  move=> F2 F1 Ec0 Ec1 Ec2 Ec3 Sm Sk Sr1 Sz1 Sr2 Sz2. have Hn := n_pos' HS. have [Ht HP HPn Hgp] := HS.
  have Ek : ((t + l).-1.+1 = t + l)%N by rewrite prednK.
  have Hdn : ((t + l).-1 <= n.-1)%N by lia.
  have [rd0 [y0 [q0 [I0 [RR0 [Z0 [S0 [T0 _]]]]]]]] := gen_rand_rd serK HS Hl0 HKl tf_out_ok HB1' F2 Ec0 Sr1 Sz1.
  have [rd1 [y1 [q1 [I1 [RR1 [Z1 [S1 [T1 X1]]]]]]]] := gen_rand_rd serK HS Hl0 HKl tf_inp_ok HB2' F2 Ec1 Sr2 Sz2.
  have [pm [Hpm Em]] := sharings_polys Sm. have [pk [Hpk Ekk]] := sharings_polys Sk.
  (* the label rows *)
  pose lp b j := if (j < 2 * K)%N then pk (b * (2 * K) + j)%N else pm b.
  pose inp me := [seq held (lp b) reps me | b <- iota 0 (size outs)].
  have Einp me : (me < n)%N -> label_rows (size outs) K (pp_keys (pp me)) (pp_masks (pp me)) = Some (inp me).
  { move=> Hm. rewrite /label_rows Em // size_held eqxx Ekk // to_mat_held /=. congr Some. apply/eq_in_map => b.
    rewrite mem_iota add0n => /andP [_ Hb]. rewrite (nth_map 0%N) ?size_iota // nth_iota // add0n nth_held // held_rcons.
    by rewrite /reps. }
  have Slp b : (b < size outs)%N -> sharings (t + l).-1 pos reps (held (lp b) reps) (col_sec mk ks b).
  { move=> Hb. apply: sharings_ext (held_sharings emb n pos (d := (t + l).-1) (p := lp b) (num := reps) _) => // j Hj; rewrite /lp /col_sec.
    - case: ltnP => Hc; [have [|_ ->] // := Hpk (b * (2 * K) + j)%N|by have [_ ->] := Hpm b Hb]. nia.
    - case: ltnP => Hc; [have [|->] // := Hpk (b * (2 * K) + j)%N|by have [->] := Hpm b Hb]. nia. }
  have Tsz : size tf_out = size outs by rewrite size_map.
  have Tsi : size tf_inp = size inps by rewrite size_map.
  pose xs b j := take (size (nth [::] outs b)) (col_sec mk ks b j).
  have [||| rd2 [y2 [I2 [RR2 [Z2 [S2 T2]]]]]] := @transform_rd _ emb D ser de fits serK n t l P Pn HS Hl0 HKl tf_out tf_out_ok B1 reps (nth [::] cids 2) c2 inp xs
     (fun me => (y0 me).1) (fun me => (y0 me).2) q0 (fun me => gk_out (coins me)) F1 _ _ _ S0.
  { by rewrite Tsz. }
  { move=> me Hm. have [-> ->] := Z0 me Hm. by rewrite size_map size_iota Tsz. }
  { move=> b. rewrite Tsz => Hb. rewrite (nth_map [::]) //=. apply: sharings_degree Hdn _.
    apply: sharings_ext (sharings_take (size (nth [::] outs b)) (Slp b Hb)) => // me Hm.
    by rewrite /inp (nth_map 0%N) ?size_iota // nth_iota. }
  (* polynomials of the transformed blocks *)
  have [po Hpo] : exists po : nat -> nat -> {poly F}, forall b, (b < size outs)%N ->
     (forall j, (j < reps)%N -> (size (po b j) <= t + l)%N /\ forall s, (s < size (nth [::] outs b))%N ->
        (po b j).[wpos (nth 0%num (nth [::] outs b) s)] = nth 0 (col_sec mk ks b j) s) /\
     forall me, (me < n)%N -> nth [::] (y2 me) b = held (po b) reps me.
  { apply: (@fin_choice (nat -> {poly F}) (size outs) (fun b (p : nat -> {poly F}) => (forall j, (j < reps)%N -> (size (p j) <= t + l)%N /\ forall s, (s < size (nth [::] outs b))%N ->
        (p j).[wpos (nth 0%num (nth [::] outs b) s)] = nth 0 (col_sec mk ks b j) s) /\
     forall me, (me < n)%N -> nth [::] (y2 me) b = held p reps me) (fun _ => 0)).
    move=> b Hb. have := S2 b. rewrite Tsz => /(_ Hb). rewrite (nth_map [::]) //= => S.
    have [p [Hp Ep]] := sharings_polys S. exists p. split=> // j Hj. have [Hs Es] := Hp j Hj. rewrite Ek in Hs. split=> // s Hs'.
    have := congr1 (fun z => nth 0 z s) Es. rewrite wires_posE -map_comp (nth_map 0%num) //= => <-.
    by rewrite /pick (nth_map 0%N) ?size_iota // nth_iota // add0n nth_take. }
  pose sel me := [seq held (sel_poly po ws) reps me | ws <- inps].
  have Esel me : (me < n)%N -> select_all emb (g me) reps (y2 me) = Some (sel me).
  { apply: select_allE => {}me Hm. rewrite Z2 // Tsz. split=> // b Hb. exact: (Hpo b Hb).2. }
  (* second transformation *)
  pose xi i j := [seq wire_sec mk ks w j | w <- sorted_wires (nth [::] inps i)].
  have [||| rd3 [y3 [I3 [RR3 [Z3 [S3 T3]]]]]] := @transform_rd _ emb D ser de fits serK n t l P Pn HS Hl0 HKl tf_inp tf_inp_ok B2 reps (nth [::] cids 3) c3 sel xi
     (fun me => (y1 me).1) (fun me => (y1 me).2) q1 (fun me => gk_inp (coins me)) F1 _ _ _ S1.
  { by rewrite Tsi. }
  { move=> me Hm. have [-> ->] := Z1 me Hm. by rewrite size_map Tsi. }
  { move=> i. rewrite Tsi => Hi. rewrite (nth_map [::]) //=. set ws := nth [::] inps i. have Hws : ws \in inps by exact: mem_nth.
    have [Hsz Hsub] := inp_wires Hwf Hws.
    apply: sharings_ext (held_sharings emb n _ (d := n.-1) (p := sel_poly po ws) (num := reps) _) => [me Hm|j Hj|j Hj].
    - by rewrite /sel (nth_map [::]).
    - rewrite /xi -/ws wires_posE -map_comp. apply/eq_in_map => w. rewrite mem_sorted_wires => Hw /=.
      have [_ ->] // := @sel_poly_ok po ws j Hws (fun b Hb => ((Hpo b Hb).1 j Hj).1).
      have [Hb _] := block_ofP (Hsub w Hw). have [Hsl Ew] := slot_ofP (Hsub w Hw).
      have [_ /(_ _ Hsl)] := (Hpo _ Hb).1 j Hj. by rewrite Ew.
    - rewrite prednK //. exact: (@sel_poly_ok po ws j Hws (fun b Hb => ((Hpo b Hb).1 j Hj).1)).1. }
  pose Qf (me : nat) (k : seq (seq F) -> proc pid D (val F)) :=
    gen_rand_shares ser de (CoreModel.Ctx me n t l P Pn) (tfs_out me) (nth [::] cids 0) reps (r1 me) (z1 me) (fun y =>
       if label_rows (size outs) K (pp_keys (pp me)) (pp_masks (pp me)) is Some inp then
         transform emb ser de (CoreModel.Ctx me n t l P Pn) (tfs_out me) (nth [::] cids 2) reps inp y.1 y.2 (gk_out (coins me)) (fun out_shares =>
           if select_all emb (g me) reps out_shares is Some selected then k selected else @Panic pid D (val F))
       else @Panic pid D (val F)).
  have RQ : realizes (rd0 ++ rd2) Qf sel.
  { apply: (realizes_seq RR0 (Q := fun me y k => if label_rows (size outs) K (pp_keys (pp me)) (pp_masks (pp me)) is Some inp then
         transform emb ser de (CoreModel.Ctx me n t l P Pn) (tfs_out me) (nth [::] cids 2) reps inp y.1 y.2 (gk_out (coins me)) (fun out_shares =>
           if select_all emb (g me) reps out_shares is Some selected then k selected else @Panic pid D (val F))
       else @Panic pid D (val F))).
    move=> plan ph A me k js v Hm Fk. rewrite Einp //. apply: (RR2 plan ph A me) => //. by rewrite Esel. }
  have RF := @realizes_fork n pid D (val F) _ _ _ _ _ _ (fun y => Node [:: Leaf y.1; Leaf y.2]) (fun s => Leaf s) _ _ Qf sel
    (fun me a b k => if b is Leaf selected then
         transform emb ser de (CoreModel.Ctx me n t l P Pn) (tfs_inp me) (nth [::] cids 3) reps selected (pair_of a).1 (pair_of a).2 (gk_inp (coins me)) k
       else @Panic pid D (val F)) y3 RR1 RQ RR3.
  exists (rd1 ++ (rd0 ++ rd2) ++ rd3), y3. split; [|split; [|split; [|split]]].
  - by rewrite !ids_cat I0 I1 I2 I3.
  - apply: realizes_eq RF => // me k Hm. have [E1 E2 E3 [E4 E5 E6]] := Hg Hm. rewrite /wire_shares E1 E2 E3 E5 E6 /= -nbE //.
  - move=> me Hm. by rewrite Z3.
  - move=> i Hi ws. have := S3 i. rewrite Tsi => /(_ Hi). rewrite (nth_map [::]) //= -/ws => S.
    apply: sharings_ext S => // j Hj. rewrite /pick -map_comp /xi -/ws. apply/eq_in_map => w Hw /=.
    have Hw' : w \in sorted_wires ws by rewrite mem_sorted_wires. have [H1 H2] := sel_ofP Hw'.
    by rewrite (nth_map 0%num) // H2.
  - have I1' x : List.In x rd1 -> List.In x (rd1 ++ (rd0 ++ rd2) ++ rd3) by move=> ?; apply: List.in_or_app; left.
    have I0' x : List.In x rd0 -> List.In x (rd1 ++ (rd0 ++ rd2) ++ rd3) by move=> ?; apply: List.in_or_app; right; apply: List.in_or_app; left; apply: List.in_or_app; left.
    have I2' x : List.In x rd2 -> List.In x (rd1 ++ (rd0 ++ rd2) ++ rd3) by move=> ?; apply: List.in_or_app; right; apply: List.in_or_app; left; apply: List.in_or_app; right.
    have I3' x : List.In x rd3 -> List.In x (rd1 ++ (rd0 ++ rd2) ++ rd3) by move=> ?; apply: List.in_or_app; right; apply: List.in_or_app; right.
    exists po, inp. split=> //.
    + by move=> b Hb j Hj; exact: (Hpo b Hb).1.
    + move=> b Hb. have Hb' : (b < size tf_out)%N by rewrite Tsz.
      have [dd [D1 D2]] := T0 b Hb'. have [dn [N1 N2 N3]] := T2 b Hb'.
      exists dd. eexists. exists dn. split; [exact: I0'|exact: I2' N2|by []|].
      move=> me Hm /=. have [E1 E2] := D2 me Hm. rewrite -E1 -E2. split=> //. by rewrite -N3 // (Hpo b Hb).2.
    + move=> i Hi. have Hi' : (i < size tf_inp)%N by rewrite Tsi.
      have [dd [D1 D2]] := T1 i Hi'. have [dn [N1 N2 N3]] := T3 i Hi'. have [S11 S12] := S1 i Hi'.
      exists dd. eexists. exists dn. set ws := nth [::] inps i. cbv zeta. split; [exact: I1'|exact: I3' N2|..].
      * move=> me Hm. rewrite size_zipw S12.1 // /sel (nth_map [::]) // size_held minnn //.
      * move=> m m' Hm Hm' H1 H2 /=. have [E1 _] := D2 m Hm. rewrite -E1.
        have [Hsz _] := inp_wires Hwf (mem_nth [::] Hi).
        apply: (@eq_from_nth _ 0); first by rewrite !size_zipw S12.1 // S11.1 // /sel (nth_map [::]) // !size_held !minnn.
        move=> j. rewrite !size_zipw S12.1 // S11.1 // /sel (nth_map [::]) // !size_held !minnn => Hj.
        rewrite !nth_zipw ?size_zipw ?S12.1 ?S11.1 ?size_held ?minnn //.
        have -> := X1 i m m' j Hi' Hj; rewrite ?(nth_map [::]) //= ?size_take_pos ?wires_posE ?size_map //.
        by rewrite addrC addrA addNr add0r.
Qed.
End Wires.

(** Proofs about the preprocessing protocols. *)

From Coq Require Import NArith.
From mathcomp Require Import all_ssreflect all_algebra zify.
From Verif Require Import MathModel MathProofs MatProofs SharingModel SharingSpec SharingProofs.
From Verif Require Import MachineModel MachineProofs MachineBuild Realize CoreModel CoreSpec CoreProofs.
From Verif Require Import RandTransProofs PreprocModel PreprocSpec.
Set Implicit Arguments.
Unset Strict Implicit.
Unset Printing Implicit Defensive.
Import GRing.Theory.
Local Open Scope ring_scope.

Lemma num_batchesE num b : (0 < b)%N -> exists m, num_batches num b = Some m /\ (num <= b * m < num + b)%N.
Proof.
  case: b => // b _. exists ((num + b) %/ b.+1)%N. rewrite /num_batches addnS subn1 /=. split=> //.
  have := divn_eq (num + b) b.+1. have := ltn_pmod (num + b) (ltn0Sn b). lia.
Qed.

Section Vec.
Variable F : fieldType.
Variable emb : nat -> F.

Lemma dotv_ord (a b : seq F) n : size b = n -> dotv a b = \sum_(s < n) nth 0 a s * nth 0 b s.
Proof.
  move=> <-. rewrite /dotv suml_map. elim: b a => [|y b IH] [|x a]; rewrite /= ?big_nil ?big_ord0 //.
  - rewrite big1 // => i _. by rewrite nth_nil mul0r.
  - by rewrite big_cons IH big_ord_recl.
Qed.

Lemma nth_flat (s : seq (seq F)) c i j : (forall x, x \in s -> size x = c) -> (i < size s)%N -> (j < c)%N ->
  nth 0 (flatten s) (i * c + j) = nth 0 (nth [::] s i) j.
Proof.
  elim: s i => [|x s IH] // [|i] H Hi Hj; rewrite /= nth_cat (H x) ?mem_head //.
  - by rewrite mul0n add0n Hj.
  - rewrite ifF; last by rewrite mulSn; lia.
    rewrite -IH //; last by move=> y Hy; apply: H; rewrite inE Hy orbT.
    congr nth. rewrite mulSn. lia.
Qed.

Lemma size_flat (s : seq (seq F)) c : (forall x, x \in s -> size x = c) -> size (flatten s) = (size s * c)%N.
Proof.
  elim: s => [|x s IH] H //=. rewrite size_cat (H x) ?mem_head // IH ?mulSn // => y Hy. by apply: H; rewrite inE Hy orbT.
Qed.

(** Holding shares of low degree polynomials. *)
Lemma held_sharings n d pos num (p : nat -> {poly F}) : (forall j, (j < num)%N -> (size (p j) <= d.+1)%N) ->
  sharings emb n d pos num (held emb p num) (fun j => [seq (p j).[x] | x <- pos]).
Proof.
  move=> H. split=> [i Hi|j Hj]; first by rewrite size_map size_iota.
  exists (p j). split=> //; first exact: H.
  apply/eq_in_map => i Hi. by rewrite /held (nth_map 0%N) ?size_iota // nth_iota.
Qed.

Lemma sharings_slice n d pos num v s a m : sharings emb n d pos num v s -> (a + m <= num)%N ->
  sharings emb n d pos m (fun i => take m (drop a (v i))) (fun j => s (a + j)%N).
Proof.
  move=> [H1 H2] Ha. split=> [i Hi|j Hj].
  - rewrite size_takel // size_drop H1 //. lia.
  - have := H2 (a + j)%N. have Hj' : (a + j < num)%N by lia. move=> /(_ Hj'). congr is_sharing.
    apply/eq_in_map => i Hi. by rewrite nth_take // nth_drop.
Qed.

Lemma held_slice (p : nat -> {poly F}) num a m i : (a + m <= num)%N ->
  take m (drop a (held emb p num i)) = held emb (fun j => p (a + j)%N) m i.
Proof.
  move=> Ha. rewrite /held -map_drop -map_take drop_iota take_iota add0n.
  have -> : minn m (num - a) = m by lia.
  by rewrite -{1}[a]addn0 iotaDl -map_comp.
Qed.

(** Concatenated blocks. *)
Lemma sharings_flatten n d pos (bs : seq nat) (v : nat -> nat -> seq F) (s : nat -> nat -> seq F) :
  (forall q, (q < size bs)%N -> sharings emb n d pos (nth 0%N bs q) (v q) (s q)) ->
  sharings emb n d pos (sumn bs) (fun i => flatten [seq v q i | q <- iota 0 (size bs)])
    (fun j => s (reshape_index bs j) (reshape_offset bs j)).
Proof.
  move=> H.
  have Sh i : (i < n)%N -> shape [seq v q i | q <- iota 0 (size bs)] = bs.
  { move=> Hi. rewrite /shape -map_comp -[RHS](mkseq_nth 0%N). apply/eq_in_map => q. rewrite mem_iota /= => Hq.
    exact: (H q Hq).1. }
  split=> [i Hi|j Hj]; first by rewrite size_flatten Sh.
  have Hr := reshape_indexP Hj. have Ho := reshape_offsetP Hj.
  have := (H _ Hr).2 _ Ho. congr is_sharing. apply/eq_in_map => i. rewrite mem_iota /= => Hi.
  by rewrite nth_flatten Sh // (nth_map 0%N) ?size_iota // nth_iota.
Qed.

Section Mixed.
Variables (n : nat) (M : mat F) (b : nat) (p : nat -> nat -> {poly F}).

Lemma mixed_size d idx : (forall s j, (s < n)%N -> (size (p s j) <= d)%N) -> (size (mixed n M b p idx) <= d)%N.
Proof.
  move=> H. rewrite /mixed. apply: (leq_trans (size_sum _ _ _)). apply/bigmax_leqP => s _.
  exact: (leq_trans (size_scale_leq _ _) (H s _ (ltn_ord s))).
Qed.

Lemma mixed_eval idx x : (mixed n M b p idx).[x] = \sum_(s < n) entry M (idx %/ b) s * (p s (idx %% b)%N).[x].
Proof. rewrite /mixed horner_sum. apply: eq_bigr => s _. by rewrite hornerZ. Qed.

Lemma mmul_held i : flatten (mmul M b [seq [seq (p s j).[emb i] | j <- iota 0 b] | s <- iota 0 n]) =
  held emb (mixed n M b p) (size (rows M) * b) i.
Proof.
  rewrite /mmul.
  have Sx x : x \in [seq [seq dotv r (col j [seq [seq (p s j).[emb i] | j <- iota 0 b] | s <- iota 0 n]) | j <- iota 0 b]
      | r <- rows M] -> size x = b.
  { case/mapP => r _ ->. by rewrite size_map size_iota. }
  apply: (@eq_from_nth _ 0).
  { by rewrite (size_flat Sx) !size_map size_iota. }
  move=> idx. rewrite (size_flat Sx) size_map => Hi.
  have Hb : (0 < b)%N by case: (b) Hi => //; rewrite muln0.
  rewrite [RHS](nth_map 0%N) ?size_iota // nth_iota // add0n mixed_eval.
  have Hr : (idx %/ b < size (rows M))%N by rewrite ltn_divLR.
  have Hc : (idx %% b < b)%N by rewrite ltn_mod.
  rewrite {1}(divn_eq idx b) (nth_flat Sx) ?size_map //.
  rewrite (nth_map [::]) // (nth_map 0%N) ?size_iota // nth_iota // add0n.
  rewrite (@dotv_ord _ _ n); last by rewrite !size_map size_iota.
  apply: eq_bigr => s _. congr (_ * _).
  rewrite /col (nth_map [::]) ?size_map ?size_iota // (nth_map 0%N) ?size_iota // nth_iota // add0n.
  by rewrite (nth_map 0%N) ?size_iota // nth_iota.
Qed.
End Mixed.
End Vec.

Section Spawn.
Variables (F : fieldType) (I D : eqType) (n : nat).
Notation proc := (proc I D (val F)).
Notation realizes := (@realizes n I D (val F)).

(** Spawned tasks. *)
Lemma realizes_spawn (A : eqType) (js : seq A) T W (P : A -> nat -> (T -> proc) -> proc) (res : A -> nat -> T) (inj : T -> val F)
    (rds : A -> seq (I * round D)) r3 (R : nat -> seq (val F) -> (W -> proc) -> proc) res3 :
  (forall j, j \in js -> realizes (rds j) (P j) (res j)) ->
  realizes r3 (fun me => R me [seq inj (res j me) | j <- js]) res3 ->
  realizes (flatten [seq rds j | j <- js] ++ r3)
    (fun me k => spawn_all [seq P j me (fun x => Ret (inj x)) | j <- js] (fun vs => R me vs k)) res3.
Proof.
  elim: js W r3 R res3 => [|j js IH] W r3 R res3 HP H3 //=.
  have HPj := HP j (mem_head _ _).
  have HPr i : i \in js -> realizes (rds i) (P i) (res i) by move=> Hi; apply: HP; rewrite inE Hi orbT.
  have H2 : realizes (flatten [seq rds j | j <- js]) (fun me k => spawn_all [seq P j me (fun x => Ret (inj x)) | j <- js] k)
      (fun me => [seq inj (res j me) | j <- js]).
  { rewrite -[flatten _]cats0. apply: (IH _ [::] (fun me vs k => k vs)) => //. }
  rewrite -catA.
  apply: (@realizes_fork n I D (val F) T (seq (val F)) W (rds j) _ r3 inj (@Node F) (P j) (res j) _ _
    (fun me a b k => if b is Node vs then R me (a :: vs) k else @Panic I D (val F)) res3 HPj H2 H3).
Qed.
End Spawn.

Section Deal.
Variable F : fieldType.
Variable emb : nat -> F.
Variables I D : eqType.
Variable ser : seq F -> D.
Variable de : D -> option (seq F).
Variable fits : nat -> Prop.
Hypothesis serK : forall x, fits (size x) -> de (ser x) = Some x.
Variables (n t l : nat) (P Pn : pss F).
Hypothesis n_pos : (0 < n)%N.
Notation proc := (proc I D (val F)).
Notation realizes := (@realizes n I D (val F)).
Notation mk me := (Ctx me n t l P Pn).

Lemma deal_realizes (M : mat F) (id : I) num b (dealt : nat -> nat -> option (seq F)) (p : nat -> nat -> {poly F}) :
  num_batches num (size (rows M)) = Some b -> ncols M = n -> fits b ->
  (forall s j, (s < n)%N -> dealt s j = Some [seq (p s j).[emb i] | i <- iota 0 n]) ->
  realizes [:: (id, Exch (fun s r => ser [seq (p s j).[emb r] | j <- iota 0 b]))]
    (fun me k => deal ser de n M id num (dealt me) k) (held emb (mixed n M b p) (size (rows M) * b)).
Proof.
  move=> Hb HM Hf Hd plan ph /= [Hp _] me k js v Hme Fk. rewrite /deal Hb.
  rewrite (@all_some_map_in _ _ _ (fun j => [seq (p me j).[emb i] | i <- iota 0 n])) => [|j _]; last exact: Hd.
  rewrite /= to_mat_flatten ?size_map ?size_iota //; last first.
  { move=> x /mapP [j _ ->]. by rewrite size_map size_iota. }
  apply: (follows_exch n_pos Hp) => [j Hj|].
  { congr ser. rewrite col_map. apply: eq_map => q. by rewrite (nth_map 0%N) ?size_iota // nth_iota. }
  rewrite (unpack_ser serK Hf) => [|s Hs]; last by rewrite size_map size_iota.
  by rewrite HM eqxx mmul_held.
Qed.

Hypothesis HS : setting emb n t l P Pn.
Notation pos := (default_pos emb n l).

Lemma size_dp : size (default_pos emb n l) = l. Proof. by rewrite size_map size_iota. Qed.

Lemma rand_dealt r : exists p : {poly F}, [/\ (size p <= t + l)%N,
  forall i, (i < t + l)%N -> p.[emb i] = r i & pss_rand P r = Some [seq p.[emb i] | i <- iota 0 n]].
Proof.
  have [Ht HP _ Hg] := HS. have Us := U_sh Hg.
  have Hd : ((t + l).-1 < n)%N by move: HP; rewrite /pss_new; case: leqP.
  have Hk : ((t + l).-1.+1 = t + l)%N by rewrite prednK.
  have UT : uniq (take (t + l) (share_pos emb n)) by apply: take_uniq.
  have ST : size (take (t + l) (share_pos emb n)) = (t + l)%N by rewrite size_takel // size_share_pos; lia.
  have [|p Hp E] := @interp_exists _ (take (t + l) (share_pos emb n)) [seq r i | i <- iota 0 (t + l)] UT.
  { by rewrite ST size_map size_iota. }
  exists p. split.
  - by rewrite -ST.
  - move=> i Hi. have := congr1 (fun s => nth 0 s i) E.
    rewrite /evals (nth_map 0) ?ST // nth_take // /share_pos (nth_map 0%N) ?size_iota; last lia.
    rewrite nth_iota; last lia. by rewrite (nth_map 0%N) ?size_iota // nth_iota.
  - move: HP. rewrite /pss_new Hd => -[<-]. rewrite /pss_rand [ps_np _]/= [ps_rand _]/= Hk -E /mdot_chk [ncols _]/=.
    rewrite size_evals eqxx /=.
    rewrite (@lagrange_eval _ (take (t + l) (share_pos emb n))) //.
    by rewrite -evals_cat cat_take_drop evals_share_pos.
Qed.

(** Dealing given secrets, for either degree. *)
Lemma secret_dealt Q d sec r : pss_new emb d n pos = Some Q -> (l <= d.+1)%N -> size sec = l ->
  exists p : {poly F}, [/\ (size p <= d.+1)%N, forall q, (q < l)%N -> p.[nth 0 pos q] = nth 0 sec q,
    forall i, (i < d.+1 - l)%N -> p.[emb i] = r i & pss_share Q sec r = Some [seq p.[emb i] | i <- iota 0 n]].
Proof.
  move=> HQ Hl Hs. have [_ _ _ Hg] := HS.
  have Hd : (d < n)%N by move: HQ; rewrite /pss_new; case: leqP.
  have Hl' : (size pos <= d.+1)%N by rewrite size_dp.
  have Hs' : size sec = size pos by rewrite size_dp.
  have [|p Hp [E1 E2]] := @share_points _ emb n d pos Hg Hd Hl' sec [seq r i | i <- iota 0 (d.+1 - l)] Hs'.
  { by rewrite size_map size_iota size_dp. }
  exists p. split=> //.
  - move=> q Hq. by rewrite -E1 (nth_map 0) ?size_dp.
  - move=> i Hi. have := congr1 (fun s => nth 0 s i) E2. rewrite size_dp.
    rewrite /evals (nth_map 0) ?size_takel ?size_share_pos; [|lia|lia].
    rewrite nth_take // /share_pos (nth_map 0%N) ?size_iota; last lia.
    rewrite nth_iota; last lia. by rewrite (nth_map 0%N) ?size_iota // nth_iota.
  - have -> : pss_share Q sec r = share_using_coeffs sec (compute_share_coeffs emb d n pos) (size pos) r.
    { move: HQ. by rewrite /pss_new Hd => -[<-]. }
    rewrite (@share_of_poly _ emb n d pos Hg Hd Hl' p) ?evals_share_pos //.
    + by rewrite Hs' subnn /= cats0 -Hs' take_size E1.
    + by rewrite E2 size_dp.
Qed.

(** Choice for each dealer and batch: the polynomials are determined by the
    values at given points. *)
Definition interp_at (xs : seq F) (ys : seq F) : {poly F} := interp xs (fun x => nth 0 ys (index x xs)).

Lemma interp_atE (xs : seq F) (p : {poly F}) : uniq xs -> (size p <= size xs)%N ->
  interp_at xs [seq p.[x] | x <- xs] = p.
Proof.
  move=> U Hp. rewrite -[RHS](interp_self U Hp) /interp_at /interp !big_seq. apply: eq_bigr => v Hv.
  by rewrite (nth_map 0) ?index_mem // nth_index.
Qed.

Lemma choose_polys k (R : nat -> nat -> {poly F} -> Prop) (xs : nat -> nat -> option (seq F)) :
  (k <= n)%N -> (forall s j, (s < n)%N -> exists p : {poly F}, [/\ (size p <= k)%N, R s j p &
    xs s j = Some [seq p.[emb i] | i <- iota 0 n]]) ->
  exists p : nat -> nat -> {poly F}, forall s j, (s < n)%N -> [/\ (size (p s j) <= k)%N, R s j (p s j) &
    xs s j = Some [seq (p s j).[emb i] | i <- iota 0 n]].
Proof.
  move=> Hk H. have [_ _ _ Hg] := HS. have Us := U_sh Hg.
  exists (fun s j => interp_at (share_pos emb n) (odflt [::] (xs s j))) => s j Hs.
  have [p [Hp HR E]] := H s j Hs. rewrite E /=.
  have -> : interp_at (share_pos emb n) [seq p.[emb i] | i <- iota 0 n] = p.
  { rewrite -evals_share_pos interp_atE // size_share_pos. exact: leq_trans Hp Hk. }
  by [].
Qed.

Lemma tl_le : (0 < t + l <= n)%N.
Proof. have [Ht HP _ _] := HS. move: HP. rewrite /pss_new. case: ifP => // H _. lia. Qed.

Lemma rand_realizes (M : mat F) (id : I) num (coin : nat -> nat -> nat -> F) b :
  num_batches num (size (rows M)) = Some b -> ncols M = n -> fits b ->
  exists rd p, rand_polys emb n (t + l) coin p /\
    realizes [:: (id, rd)] (fun me k => rand ser de (mk me) M id num (coin me) k)
      (held emb (mixed n M b p) (size (rows M) * b)).
Proof.
  move=> Hb HM Hf. have /andP [_ Hk] := tl_le.
  have [p Hp] := @choose_polys (t + l) (fun s j p => forall i, (i < t + l)%N -> p.[emb i] = coin s j i)
    (fun s j => pss_rand P (coin s j)) Hk (fun s j Hs => rand_dealt (coin s j)).
  eexists. exists p. split; first by move=> s j Hs; have [] := Hp s j Hs.
  apply: (@deal_realizes M id num b (fun s j => pss_rand P (coin s j)) p Hb HM Hf) => s j Hs. by have [] := Hp s j Hs.
Qed.

Lemma zero_realizes (M : mat F) (id : I) num (coin : nat -> nat -> nat -> F) b :
  num_batches num (size (rows M)) = Some b -> ncols M = n -> fits b ->
  exists rd p, secret_polys emb n n pos (fun _ _ _ => 0) coin p /\
    realizes [:: (id, rd)] (fun me k => zero ser de (mk me) M id num (coin me) k)
      (held emb (mixed n M b p) (size (rows M) * b)).
Proof.
  move=> Hb HM Hf. have /andP [Ht Hk] := tl_le. have [_ _ HPn _] := HS.
  have En : (n.-1.+1 = n)%N by rewrite prednK.
  have Hl : (l <= n.-1.+1)%N by lia.
  have [|p Hp] := @choose_polys n (fun s j p => (forall q, (q < l)%N -> p.[nth 0 pos q] = 0) /\
      forall i, (i < n - l)%N -> p.[emb i] = coin s j i) (fun s j => pss_share Pn (nseq l 0) (coin s j)) (leqnn _).
  { move=> s j Hs. have [p []] := @secret_dealt Pn n.-1 (nseq l 0) (coin s j) HPn Hl (size_nseq _ _).
    rewrite En => H1 H2 H3 H4. exists p. split=> //. split=> // q Hq. by rewrite H2 // nth_nseq Hq. }
  eexists. exists p. split.
  - move=> s j Hs. have [H1 [H2 H3] _] := Hp s j Hs. by split=> //; rewrite size_dp.
  - apply: (@deal_realizes M id num b (fun s j => pss_share Pn (nseq l 0) (coin s j)) p Hb HM Hf) => s j Hs. by have [] := Hp s j Hs.
Qed.

Lemma randbit_realizes (M : mat F) (id : I) num (bit : nat -> nat -> nat -> bool) (coin : nat -> nat -> nat -> F) b :
  num_batches num (size (rows M)) = Some b -> ncols M = n -> fits b ->
  exists rd p, secret_polys emb n (t + l) pos (fun s j q => if bit s j q then 1 else 0) coin p /\
    realizes [:: (id, rd)] (fun me k => randbit ser de (mk me) M id num (bit me) (coin me) k)
      (held emb (mixed n M b p) (size (rows M) * b)).
Proof.
  move=> Hb HM Hf. have /andP [Ht Hk] := tl_le. have [_ HP _ _] := HS.
  have En : ((t + l).-1.+1 = t + l)%N by rewrite prednK.
  have Hl : (l <= (t + l).-1.+1)%N by lia.
  have El : ps_l P = l by move: HP; rewrite /pss_new; case: ifP => // _ [<-] /=; rewrite size_dp.
  have [|p Hp] := @choose_polys (t + l) (fun s j p => (forall q, (q < l)%N -> p.[nth 0 pos q] = if bit s j q then 1 else 0) /\
      forall i, (i < t + l - l)%N -> p.[emb i] = coin s j i)
      (fun s j => pss_share P [seq (if bit s j q then 1 else 0) | q <- iota 0 l] (coin s j)) Hk.
  { move=> s j Hs. have [|p []] := @secret_dealt P (t + l).-1 [seq (if bit s j q then 1 else 0) | q <- iota 0 l] (coin s j) HP Hl.
    { by rewrite size_map size_iota. }
    rewrite En => H1 H2 H3 H4. exists p. split=> //. split=> // q Hq.
    by rewrite H2 // (nth_map 0%N) ?size_iota // nth_iota. }
  eexists. exists p. split.
  - move=> s j Hs. have [H1 [H2 H3] _] := Hp s j Hs. by split=> //; rewrite size_dp.
  - rewrite /randbit /= El. apply: (@deal_realizes M id num b (fun s j => pss_share P [seq (if bit s j q then 1 else 0) | q <- iota 0 l] (coin s j)) p Hb HM Hf) => s j Hs. by have [] := Hp s j Hs.
Qed.
End Deal.

(** Proofs about [Transforms] (garble.rs:668-787). *)

From Coq Require Import NArith List.
From Verif Require Import CircuitModel LpnModel.
From mathcomp Require Import all_ssreflect all_algebra zify.
From Verif Require Import MathModel MathProofs MatProofs SharingModel SharingSpec SharingProofs.
From Verif Require Import MachineModel MachineProofs MachineBuild Realize CoreModel CoreSpec CoreProofs.
From Verif Require Import RandTransProofs PreprocModel PreprocSpec PreprocProofs GarbleModel GarbleSpec GarbleGates.
From Verif Require ProtoIdModel ProtoIdProofs.
Set Implicit Arguments.
Unset Strict Implicit.
Unset Printing Implicit Defensive.
Import GRing.Theory.
Local Open Scope ring_scope.

(** Blocks of [l] of which the last may be shorter. *)
Lemma chunks_flat (T : Type) (f : nat -> nat -> T) N l B : (0 < l)%N ->
  flatten [seq [seq f i k | k <- iota 0 (minn l (N - i * l))] | i <- iota 0 B] =
  [seq f (m %/ l)%N (m %% l)%N | m <- iota 0 (minn N (B * l))].
Proof.
  move=> Hl. elim: B => [|B IH]; first by rewrite mul0n minn0.
  rewrite -addn1 iotaD map_cat flatten_cat IH /= cats0 add0n.
  have -> : minn N ((B + 1) * l) = (minn N (B * l) + minn l (N - B * l))%N by lia.
  rewrite iotaD map_cat add0n. congr (_ ++ _).
  case: (leqP N (B * l)%N) => Hc.
  - by rewrite (_ : minn l (N - B * l) = 0%N); last lia.
  - have -> : iota (B * l) (minn l (N - B * l)) = [seq (B * l + j)%N | j <- iota 0 (minn l (N - B * l))] by rewrite -iotaDl addn0.
    rewrite -map_comp. apply/eq_in_map => k. rewrite mem_iota /= add0n => Hk.
    have Hk' : (k < l)%N by lia. by rewrite divnMDl // divn_small // addn0 modnMDl modn_small.
Qed.

Lemma drain_eachE (F : fieldType) B m (q : seq F) : (B * m <= size q)%N ->
  drain_each B m q = Some ([seq take m (drop (i * m) q) | i <- iota 0 B], drop (B * m) q).
Proof.
  elim: B q => [|B IH] q Hq; first by rewrite /= mul0n drop0.
  have E : ((B.+1) * m = m + B * m)%N by rewrite mulSn. rewrite /= /drain ifT; last lia.
  rewrite /= IH; last by rewrite size_drop; lia. rewrite /= drop_drop addnC -E drop0. congr (Some (_ :: _, _)).
  rewrite (iotaDl 1 0) -map_comp. apply: eq_map => i /=. by rewrite drop_drop mulSn addnC.
Qed.

Lemma In_iota i m : (i < m)%N -> List.In i (iota 0 m).
Proof. move=> Hi. have : i \in iota 0 m by rewrite mem_iota. elim: (iota 0 m) => //= a s IH. rewrite inE => /orP [/eqP ->|/IH]; by [left|right]. Qed.

Lemma flatten_one (A T : Type) (f : A -> T) (s : seq A) : flatten [seq [:: f i] | i <- s] = [seq f i | i <- s].
Proof. by elim: s => //= a s ->. Qed.

Section Tf.
Variable F : fieldType.
Variable emb : nat -> F.
Variable D : eqType.
Variable ser : seq F -> D.
Variable de : D -> option (seq F).
Variable fits : nat -> Prop.
Hypothesis serK : codec_ok ser de fits.
Variables (n t l : nat) (P Pn : pss F).
Hypothesis HS : setting emb n t l P Pn.
Hypothesis Hl0 : (0 < l)%N.
Hypothesis HKl : (t + l + l <= n)%N.
Notation mk me := (Ctx me n t l P Pn).
Notation pos := (default_pos emb n l).
Notation sharings := (sharings emb n).
Notation held := (held emb).
Notation pid := [eqType of seq N].
Notation realizes := (@realizes n pid D (val F)).

Let x0 : seq F * seq F * seq nat := ([::], [::], [::]).
Variable tf : seq (seq F * seq F * seq nat).
Hypothesis Htf : forall k, (k < size tf)%N -> tf_ok emb n l (nth x0 tf k).
Variable B : nat.
Hypothesis HB : num_batches (size tf) l = Some B.

Definition tchunk (k : nat) := take l (drop (k * l) tf).
Definition tfs (me : nat) : transforms F :=
  Tfs [seq ST x.1.1 x.1.2 x.2 | x <- tf] [seq rts emb n t l (tchunk k) me | k <- iota 0 B].

Lemma B_ok : (size tf <= B * l < size tf + l)%N.
Proof. have [m [E H]] := num_batchesE (size tf) Hl0. move: HB. rewrite E => -[<-]. lia. Qed.

Lemma size_tchunk k : size (tchunk k) = minn l (size tf - k * l).
Proof. by rewrite size_take size_drop /minn. Qed.

Lemma nth_tchunk k j : (j < size (tchunk k))%N -> nth x0 (tchunk k) j = nth x0 tf (k * l + j).
Proof. rewrite size_tchunk => Hj. rewrite /tchunk nth_take ?nth_drop //. lia. Qed.

Lemma tchunk_le k : (size (tchunk k) <= l)%N. Proof. rewrite size_tchunk. lia. Qed.

Lemma tchunk_ok k j : (j < size (tchunk k))%N -> tf_ok emb n l (nth x0 (tchunk k) j).
Proof. move=> Hj. rewrite nth_tchunk //. apply: Htf. move: Hj. rewrite size_tchunk. lia. Qed.

Lemma transforms_newE me : (me < n)%N -> transforms_new emb (mk me) tf = Some (tfs me).
Proof.
  move=> Hm. have Hn := n_pos' HS. have [Ht _ _ _] := HS. rewrite /transforms_new /= HB /=.
  rewrite (@all_some_map _ _ _ (fun k => rts emb n t l (tchunk k) me)) // => k.
  exact (@rt_newE _ emb n t l P Pn Hn Ht HKl (tchunk k) (tchunk_le k) (@tchunk_ok k) me Hm).
Qed.

(** ** gen_rand_shares *)
Variable reps : nat.

(** The masks are computed from the messages of the round, and shares of the
    two masks of a transformation coincide if it has fewer than [l] positions. *)
Definition masks_trace (cs : seq pid) (rds : seq (pid * round D)) (res : nat -> seq (seq F) * seq (seq F)) : Prop :=
  (forall i, (i < size tf)%N -> exists dd, List.In (nth [::] cs (i %/ l), Exch dd) rds /\
     forall me, (me < n)%N -> let y := rt_read emb de n l reps [seq dd s me | s <- iota 0 n] in
       nth [::] (res me).1 i = nth [::] y.1 (i %% l) /\ nth [::] (res me).2 i = nth [::] y.2 (i %% l)) /\
  forall i m m' j, (i < size tf)%N -> (j < reps)%N -> let np := size (nth x0 tf i).1.2 in
     (np + m < l)%N -> (np + m = size (nth x0 tf i).1.1 + m')%N ->
     nth 0 (nth [::] (res m).1 i) j = nth 0 (nth [::] (res m').2 i) j.

(** The batches, their results, and the rows in order. *)
Definition gr_slice (m : nat) (v : nat -> seq F) (i me : nat) : seq F := take m (drop (i * m) (v me)).
Definition gr_rs (randoms : nat -> seq F) := gr_slice ((n + t) * reps) randoms.
Definition gr_zs (zeros : nat -> seq F) := gr_slice (2 * n * reps) zeros.
Definition gr_out randoms zeros (i me : nat) := rt_out emb n t l (tchunk i) reps (gr_rs randoms i) (gr_zs zeros i) me.
Definition gr_rd randoms zeros (i : nat) : round D := Exch (fun s r => ser (rt_msg emb n t l (tchunk i) reps (gr_rs randoms i) (gr_zs zeros i) s r)).
Definition gr_res randoms zeros (me : nat) : seq (seq F) * seq (seq F) :=
  ([seq nth [::] (gr_out randoms zeros (m %/ l)%N me).1 (m %% l)%N | m <- iota 0 (size tf)],
   [seq nth [::] (gr_out randoms zeros (m %/ l)%N me).2 (m %% l)%N | m <- iota 0 (size tf)]).

Lemma gr_rsS randoms R i : sharings (t + l).-1 pos (B * ((n + t) * reps)) randoms R -> (i < B)%N ->
  sharings (t + l).-1 pos ((n + t) * reps) (gr_rs randoms i) (fun j => R (i * ((n + t) * reps) + j)%N).
Proof. move=> Sr Hi. apply: (sharings_slice Sr). rewrite -mulSnr leq_mul2r Hi orbT //. Qed.

Lemma gr_zsS zeros i : sharings n.-1 pos (B * (2 * n * reps)) zeros (fun _ => nseq l 0) -> (i < B)%N ->
  sharings n.-1 pos (2 * n * reps) (gr_zs zeros i) (fun _ => nseq l 0).
Proof. move=> Sz Hi. apply: (sharings_slice Sz). rewrite -mulSnr leq_mul2r Hi orbT //. Qed.

Lemma gen_rand_real (id : pid) (cs : seq pid) randoms zeros R : fits (2 * reps) ->
  ProtoIdModel.gen_rand_ids id (N.of_nat B) = Some cs ->
  sharings (t + l).-1 pos (B * ((n + t) * reps)) randoms R ->
  sharings n.-1 pos (B * (2 * n * reps)) zeros (fun _ => nseq l 0) ->
  let rds := flatten [seq [:: (nth [::] cs i, gr_rd randoms zeros i)] | i <- iota 0 B] in
  ids rds = cs /\ realizes rds (fun me k => gen_rand_shares ser de (mk me) (tfs me) id reps (randoms me) (zeros me) k) (gr_res randoms zeros).
Proof.
  move=> Hf Hcs Sr Sz. have Hn := n_pos' HS. have [Ht HP HPn Hg] := HS.
  have HBl := B_ok.
  have Scs : size cs = B.
  { move: Hcs => /ProtoIdProofs.take_ids_spec [_ [E _]]. by rewrite -[LHS]/(length cs) E Nnat.Nat2N.id. }
  pose out := gr_out randoms zeros. pose rd := gr_rd randoms zeros. pose res := gr_res randoms zeros.
  have HR i : i \in iota 0 B -> realizes [:: (nth [::] cs i, rd i)]
     (fun me k => randtrans ser de (mk me) (nth [::] cs i) (gr_rs randoms i me) (gr_zs zeros i me) (rts emb n t l (tchunk i) me) k) (out i).
  { rewrite mem_iota add0n => /andP [_ Hi].
    exact: (@randtrans_realizes _ emb _ D ser de fits serK n t l P Pn Hn HPn Ht HKl (tchunk i) (tchunk_le i) reps (gr_rs randoms i) (gr_zs zeros i) _ Hf (gr_rsS Sr Hi) (gr_zsS Sz Hi)). }
  have Hrow i k me : (k < l)%N -> size (nth [::] (out i me).1 k) = reps /\ size (nth [::] (out i me).2 k) = reps.
  { move=> Hk. apply: (@rt_out_rows _ emb n t l) => //. }
  have Hsz i me : size (out i me).1 = l /\ size (out i me).2 = l.
  { have E := recon_rows emb n l. by split; apply: etrans E; apply: size_map. }
  have Cut (o : nat -> seq (seq F)) : (forall i, size (o i) = l) -> (forall i k, (k < l)%N -> size (nth [::] (o i) k) = reps) ->
    append_rows reps [seq cut_rows i B l (size tf) (o i) | i <- iota 0 B] =
    Some [seq nth [::] (o (m %/ l)%N) (m %% l)%N | m <- iota 0 (size tf)].
  { move=> H1 H2. rewrite /append_rows.
    rewrite (@all_some_map_in _ _ _ (fun i => [seq nth [::] (o i) k | k <- iota 0 (minn l (size tf - i * l))])) /=; last first.
    { move=> i. rewrite mem_iota add0n => /andP [_ Hi]. rewrite /cut_rows H1.
      have Et e : (e <= l)%N -> take e (o i) = [seq nth [::] (o i) k | k <- iota 0 e].
      { move=> He. apply: (@eq_from_nth _ [::]) => [|k]; first by rewrite size_takel ?H1 // size_map size_iota.
        rewrite size_takel ?H1 // => Hk. by rewrite nth_take // (nth_map 0%N) ?size_iota // nth_iota. }
      case: eqP => [Ei|Ei]; first by rewrite geq_minl Et // geq_minl.
      have -> : minn l (size tf - i * l) = l by nia.
      by rewrite -Et // take_oversize // H1. }
    rewrite chunks_flat // (_ : minn _ _ = size tf); last lia. rewrite ifT //.
    apply/allP => x /mapP [m _ ->]. by rewrite H2 // ltn_mod. }
  pose Rf (me : nat) (vs : seq (val F)) (k : seq (seq F) * seq (seq F) -> proc pid D (val F)) :=
         let cut i r := cut_rows i B l (size tf) r in
         let rr i := pair_of (nth (Leaf [::]) vs i) in
         if (append_rows reps [seq cut i (rr i).1 | i <- iota 0 B], append_rows reps [seq cut i (rr i).2 | i <- iota 0 B])
           is (Some rand, Some rand_n) then k (rand, rand_n)
         else @Panic pid D (val F).
  have HRf : realizes [::] (fun me => Rf me [seq Node [:: Leaf (out i me).1; Leaf (out i me).2] | i <- iota 0 B]) res.
  { move=> plan ph _ me k js v Hm Fk. rewrite /Rf.
    have Ec (o : nat -> seq (seq F)) (pr : seq (seq F) * seq (seq F) -> seq (seq F)) : (forall i, pr ((out i me).1, (out i me).2) = o i) ->
      [seq cut_rows i B l (size tf) (pr (pair_of (nth (Leaf [::]) [seq Node [:: Leaf (out i me).1; Leaf (out i me).2] | i <- iota 0 B] i))) | i <- iota 0 B] =
      [seq cut_rows i B l (size tf) (o i) | i <- iota 0 B].
    { move=> Ho. apply/eq_in_map => i. rewrite mem_iota add0n => /andP [_ Hi].
      by rewrite (nth_map 0%N) ?size_iota // nth_iota //= Ho. }
    rewrite (Ec (fun i => (out i me).1) fst) // (Ec (fun i => (out i me).2) snd) //.
    rewrite !Cut //.
    - by move=> i; have [] := Hsz i me.
    - by move=> i k' Hk; have [] := Hrow i k' me Hk.
    - by move=> i; have [] := Hsz i me.
    - by move=> i k' Hk; have [] := Hrow i k' me Hk. }
  have RS := @realizes_spawn F pid D n _ (iota 0 B) _ _ _ out (fun y => Node [:: Leaf y.1; Leaf y.2]) (fun i => [:: (nth [::] cs i, rd i)]) [::] Rf res HR HRf.
  rewrite cats0 in RS. split.
  - rewrite /ids flatten_one -map_comp.
    apply: (@eq_from_nth _ [::]); rewrite size_map size_iota // => i Hi. by rewrite (nth_map 0%N) ?size_iota // nth_iota.
  - apply: realizes_eq RS => // me k Hm. rewrite /gen_rand_shares /= !size_map size_iota Hcs.
    rewrite !drain_eachE; last first.
    { by rewrite Sr.1. } { by rewrite Sz.1. }
    congr spawn_all. apply/eq_in_map => i. rewrite mem_iota add0n => /andP [_ Hi].
    by rewrite !(nth_map 0%N) ?size_iota // !nth_iota.
Qed.

Lemma gen_rand_rd (id : pid) (cs : seq pid) randoms zeros R : fits (2 * reps) ->
  ProtoIdModel.gen_rand_ids id (N.of_nat B) = Some cs ->
  sharings (t + l).-1 pos (B * ((n + t) * reps)) randoms R ->
  sharings n.-1 pos (B * (2 * n * reps)) zeros (fun _ => nseq l 0) ->
  exists rds res (r : nat -> nat -> seq F), ids rds = cs /\
    realizes rds (fun me k => gen_rand_shares ser de (mk me) (tfs me) id reps (randoms me) (zeros me) k) res /\
    (forall me, (me < n)%N -> size (res me).1 = size tf /\ size (res me).2 = size tf) /\
    (forall i, (i < size tf)%N ->
      sharings (t + l).-1 (nth x0 tf i).1.2 reps (fun me => nth [::] (res me).1 i) (fun j => pick (nth x0 tf i).2 (r i j)) /\
      sharings n.-1 (nth x0 tf i).1.1 reps (fun me => nth [::] (res me).2 i) (r i)) /\
    masks_trace cs rds res.
Proof.
  move=> Hf Hcs Sr Sz. have Hn := n_pos' HS. have [Ht HP HPn Hg] := HS. have HBl := B_ok.
  have [Hids RR] := gen_rand_real Hf Hcs Sr Sz.
  pose m1 := ((n + t) * reps)%N. pose rs := gr_rs randoms. pose zs := gr_zs zeros. pose rd := gr_rd randoms zeros. pose res := gr_res randoms zeros.
  have Srs i : (i < B)%N -> sharings (t + l).-1 pos m1 (rs i) (fun j => R (i * m1 + j)%N) by exact: gr_rsS.
  have Szs i : (i < B)%N -> sharings n.-1 pos (2 * n * reps) (zs i) (fun _ => nseq l 0) by exact: gr_zsS.
  pose sec m j := rt_sec (tchunk (m %/ l)) reps (fun q => R ((m %/ l) * m1 + q)%N) (m %% l)%N j.
  exists (flatten [seq [:: (nth [::] cs i, rd i)] | i <- iota 0 B]), res, sec.
  split; [exact: Hids|split; [exact: RR|split; [|split; [|split]]]].
  - by move=> me _; rewrite /res /= !size_map size_iota.
  - move=> i Hi. have Hq : (i %/ l < B)%N by rewrite ltn_divLR //; lia.
    have Hk : (i %% l < size (tchunk (i %/ l)%N))%N.
    { rewrite size_tchunk. have := divn_eq i l. have := ltn_pmod i Hl0. lia. }
    have [S1 S2] := @randtrans_out _ emb n t l Hn Hg Ht HKl (tchunk (i %/ l)%N) (tchunk_le _) (@tchunk_ok _) reps _ _ _ (Srs _ Hq) (Szs _ Hq) (i %% l)%N Hk.
    have Ei : nth x0 (tchunk (i %/ l)%N) (i %% l)%N = nth x0 tf i by rewrite nth_tchunk // -divn_eq.
    rewrite -/x0 Ei in S1 S2. split.
    + apply: sharings_ext S1 => // me Hm. by rewrite /res /= (nth_map 0%N) ?size_iota // nth_iota.
    + apply: sharings_ext S2 => // me Hm. by rewrite /res /= (nth_map 0%N) ?size_iota // nth_iota.
  - move=> i Hi. have Hq : (i %/ l < B)%N by rewrite ltn_divLR //; lia.
    exists (fun s r => ser (rt_msg emb n t l (tchunk (i %/ l)%N) reps (rs (i %/ l)%N) (zs (i %/ l)%N) s r)). split.
    + rewrite flatten_one. apply: (List.in_map (fun i => (nth [::] cs i, rd i))). apply: In_iota. exact: Hq.
    + move=> me Hm. cbv zeta. rewrite (@rt_readE _ emb D ser de fits serK n t l Hn Ht HKl _ (tchunk_le _) _ _ _ Hf (Szs _ Hq)) //.
      by rewrite /res /= !(nth_map 0%N) ?size_iota // nth_iota.
  - move=> i m m' j Hi Hj np H1 H2. have Hq : (i %/ l < B)%N by rewrite ltn_divLR //; lia.
    have Hk : (i %% l < size (tchunk (i %/ l)%N))%N.
    { rewrite size_tchunk. have := divn_eq i l. have := ltn_pmod i Hl0. lia. }
    have Ei : nth x0 (tchunk (i %/ l)%N) (i %% l)%N = nth x0 tf i by rewrite nth_tchunk // -divn_eq.
    have := @rt_repeat _ emb n t l Hn Hg Ht HKl (tchunk (i %/ l)%N) (tchunk_le _) (@tchunk_ok _) reps _ _ _ (Srs _ Hq) (Szs _ Hq) (i %% l)%N m m' j Hk Hj.
    rewrite -/x0 Ei => /(_ H1 H2). by rewrite /res /= !(nth_map 0%N) ?size_iota // nth_iota.
Qed.

Lemma gen_rand_ok (id : pid) (cs : seq pid) randoms zeros R : fits (2 * reps) ->
  ProtoIdModel.gen_rand_ids id (N.of_nat B) = Some cs ->
  sharings (t + l).-1 pos (B * ((n + t) * reps)) randoms R ->
  sharings n.-1 pos (B * (2 * n * reps)) zeros (fun _ => nseq l 0) ->
  exists rds res (r : nat -> nat -> seq F), ids rds = cs /\
    realizes rds (fun me k => gen_rand_shares ser de (mk me) (tfs me) id reps (randoms me) (zeros me) k) res /\
    (forall me, (me < n)%N -> size (res me).1 = size tf /\ size (res me).2 = size tf) /\
    forall i, (i < size tf)%N ->
      sharings (t + l).-1 (nth x0 tf i).1.2 reps (fun me => nth [::] (res me).1 i) (fun j => pick (nth x0 tf i).2 (r i j)) /\
      sharings n.-1 (nth x0 tf i).1.1 reps (fun me => nth [::] (res me).2 i) (r i).
Proof.
  move=> Hf Hcs Sr Sz. have [rds [res [r [H1 [H2 [H3 [H4 _]]]]]]] := gen_rand_rd Hf Hcs Sr Sz. by exists rds, res, r.
Qed.

(** ** transform *)
Definition tr_st i := ST (nth x0 tf i).1.1 (nth x0 tf i).1.2 (nth x0 tf i).2.

(** The transformations run side by side. *)
Lemma transform_real (id : pid) (cs : seq pid) inp rand rand_n (coin : nat -> nat -> nat -> nat -> F) (rd : nat -> round D) (out : nat -> nat -> seq F) :
  ProtoIdModel.transform_ids id (N.of_nat (size tf)) = Some cs ->
  (forall me, (me < n)%N -> [/\ size (inp me) = size tf, size (rand me) = size tf & size (rand_n me) = size tf]) ->
  (forall i me, (i < size tf)%N -> (me < n)%N -> size (out i me) = reps) ->
  (forall i, (i < size tf)%N -> realizes [:: (nth [::] cs i, rd i)]
        (fun me k => trans emb ser de (mk me) (nth [::] cs i) (nth [::] (inp me) i) (nth [::] (rand me) i) (nth [::] (rand_n me) i)
               (tr_st i) (i %% n)%N (coin me i) k) (out i)) ->
  let rds := flatten [seq [:: (nth [::] cs i, rd i)] | i <- iota 0 (size tf)] in
  ids rds = cs /\
  realizes rds (fun me k => transform emb ser de (mk me) (tfs me) id reps (inp me) (rand me) (rand_n me) (coin me) k) (fun me => [seq out i me | i <- iota 0 (size tf)]).
Proof.
  move=> Hcs Hsz Hout HR. have Hn := n_pos' HS.
  have Scs : size cs = size tf.
  { move: Hcs => /ProtoIdProofs.take_ids_spec [_ [E _]]. by rewrite -[LHS]/(length cs) E Nnat.Nat2N.id. }
  pose res me := [seq out i me | i <- iota 0 (size tf)].
  pose Rf (me : nat) (vs : seq (val F)) (k : seq (seq F) -> proc pid D (val F)) :=
     if to_mat (size tf) reps (flatten [seq vec_of v | v <- vs]) is Some res then k res else @Panic pid D (val F).
  have HRf : realizes [::] (fun me => Rf me [seq Leaf [:: out i me] | i <- iota 0 (size tf)]) res.
  { move=> plan ph _ me k js v Hm Fk. rewrite /Rf -map_comp.
    rewrite (@eq_map _ _ _ (fun i => out i me)) //.
    rewrite to_mat_flatten ?size_map ?size_iota // => y /mapP [i]. rewrite mem_iota add0n => /andP [_ Hi] ->. exact: Hout. }
  have RS := @realizes_spawn F pid D n _ (iota 0 (size tf)) _ _ _ out (fun y => Leaf [:: y]) (fun i => [:: (nth [::] cs i, rd i)]) [::] Rf res _ HRf.
  have Hmem i : i \in iota 0 (size tf) -> (i < size tf)%N by rewrite mem_iota add0n => /andP [].
  have {}RS := RS _ (fun i Hi => HR i (Hmem i Hi)). rewrite cats0 in RS. split.
  - rewrite /ids flatten_one -map_comp.
    apply: (@eq_from_nth _ [::]); rewrite size_map size_iota // => i Hi. by rewrite (nth_map 0%N) ?size_iota // nth_iota.
  - apply: realizes_eq RS => // me k Hm.
    rewrite /transform /= !size_map. have [-> -> ->] := Hsz me Hm. rewrite Hn leqnn /= Hcs.
    congr spawn_all. apply/eq_in_map => i. rewrite mem_iota add0n => /andP [_ Hi].
    by rewrite (nth_map x0).
Qed.

Lemma transform_rd (id : pid) (cs : seq pid) inp (x : nat -> nat -> seq F) rand rand_n (r : nat -> nat -> seq F) coin : fits reps ->
  ProtoIdModel.transform_ids id (N.of_nat (size tf)) = Some cs ->
  (forall me, (me < n)%N -> [/\ size (inp me) = size tf, size (rand me) = size tf & size (rand_n me) = size tf]) ->
  (forall i, (i < size tf)%N -> sharings n.-1 (nth x0 tf i).1.1 reps (fun me => nth [::] (inp me) i) (x i)) ->
  (forall i, (i < size tf)%N ->
      sharings (t + l).-1 (nth x0 tf i).1.2 reps (fun me => nth [::] (rand me) i) (fun j => pick (nth x0 tf i).2 (r i j)) /\
      sharings n.-1 (nth x0 tf i).1.1 reps (fun me => nth [::] (rand_n me) i) (r i)) ->
  exists rds res, ids rds = cs /\
    realizes rds (fun me k => transform emb ser de (mk me) (tfs me) id reps (inp me) (rand me) (rand_n me) (coin me) k) res /\
    (forall me, (me < n)%N -> size (res me) = size tf) /\
    (forall i, (i < size tf)%N ->
      sharings (t + l).-1 (nth x0 tf i).1.2 reps (fun me => nth [::] (res me) i) (fun j => pick (nth x0 tf i).2 (x i j))) /\
    forall i, (i < size tf)%N -> exists dn : nat -> seq F, [/\ forall me, size (dn me) = reps,
      List.In (nth [::] cs i, Lead (i %% n) (fun me => ser (zipw +%R (nth [::] (rand_n me) i) (nth [::] (inp me) i))) (fun me => ser (dn me))) rds &
      forall me, (me < n)%N -> nth [::] (res me) i = zipw (fun a b => a - b) (dn me) (nth [::] (rand me) i)].
Proof.
  move=> Hf Hcs Hsz Sx Sr. have Hn := n_pos' HS. have [Ht HP HPn Hg] := HS.
  have Scs : size cs = size tf.
  { move: Hcs => /ProtoIdProofs.take_ids_spec [_ [E _]]. by rewrite -[LHS]/(length cs) E Nnat.Nat2N.id. }
  have Hdn : ((t + l).-1 < n)%N by move: HP; rewrite /pss_new; case: ifP.
  pose st := tr_st.
  pose rdf i (dn : nat -> seq F) : round D := Lead (i %% n) (fun me => ser (zipw +%R (nth [::] (rand_n me) i) (nth [::] (inp me) i))) (fun me => ser (dn me)).
  pose out i (dn : nat -> seq F) me := zipw (fun a b => a - b) (dn me) (nth [::] (rand me) i).
  have [f Hfq'] : exists f : nat -> nat -> seq F, forall i, (i < size tf)%N -> [/\ forall me, size (f i me) = reps,
      realizes [:: (nth [::] cs i, rdf i (f i))]
        (fun me k => trans emb ser de (mk me) (nth [::] cs i) (nth [::] (inp me) i) (nth [::] (rand me) i) (nth [::] (rand_n me) i)
               (st i) (i %% n)%N (coin me i) k) (out i (f i)) &
      sharings (t + l).-1 (nth x0 tf i).1.2 reps (out i (f i)) (fun j => pick (nth x0 tf i).2 (x i j))].
  { apply: (@fin_choice _ (size tf) (fun i dn => [/\ forall me, size (dn me) = reps, realizes [:: (nth [::] cs i, rdf i dn)]
        (fun me k => trans emb ser de (mk me) (nth [::] cs i) (nth [::] (inp me) i) (nth [::] (rand me) i) (nth [::] (rand_n me) i)
               (st i) (i %% n)%N (coin me i) k) (out i dn) &
      sharings (t + l).-1 (nth x0 tf i).1.2 reps (out i dn) (fun j => pick (nth x0 tf i).2 (x i j))]) (fun _ => [::])).
    move=> i Hi. have [H1 H2 H3 H4 [H5 H6]] := Htf Hi. have [S1 S2] := Sr i Hi.
    have Hl' : (size (nth x0 tf i).1.2 <= (t + l).-1.+1)%N by rewrite prednK //; lia.
    have HL : (i %% n < n)%N by rewrite ltn_mod.
    exact (@trans_rd _ emb pid D ser de fits serK n t l P Pn Hn _ _ _ Hdn H1 H2 Hl' H5 H6
     (nth [::] cs i) reps (i %% n)%N (fun me => coin me i) _ _ _ _ _ HL Hf (Sx i Hi) S2 S1). }
  have Hfq i : (i < size tf)%N -> realizes [:: (nth [::] cs i, rdf i (f i))]
        (fun me k => trans emb ser de (mk me) (nth [::] cs i) (nth [::] (inp me) i) (nth [::] (rand me) i) (nth [::] (rand_n me) i)
               (st i) (i %% n)%N (coin me i) k) (out i (f i)) /\
      sharings (t + l).-1 (nth x0 tf i).1.2 reps (out i (f i)) (fun j => pick (nth x0 tf i).2 (x i j)) by move=> /Hfq' [].
  have Hout i me : (i < size tf)%N -> (me < n)%N -> size (out i (f i) me) = reps by move=> Hi Hm; have [_ [H _]] := Hfq i Hi; exact: H.
  have [Hids RR] := transform_real Hcs Hsz Hout (fun i Hi => (Hfq i Hi).1).
  exists (flatten [seq [:: (nth [::] cs i, (rdf i (f i)))] | i <- iota 0 (size tf)]), (fun me => [seq out i (f i) me | i <- iota 0 (size tf)]).
  split; [exact: Hids|split; [exact: RR|split; [|split]]].
  - by move=> me _; rewrite size_map size_iota.
  - move=> i Hi. apply: sharings_ext (Hfq i Hi).2 => // me _. by rewrite (nth_map 0%N) ?size_iota // nth_iota.
  - move=> i Hi. have [Hz _ _] := Hfq' i Hi. exists (f i). split=> //.
    + rewrite flatten_one. apply: (List.in_map (fun i => (nth [::] cs i, rdf i (f i)))). exact: In_iota.
    + move=> me _. by rewrite (nth_map 0%N) ?size_iota // nth_iota.
Qed.

End Tf.

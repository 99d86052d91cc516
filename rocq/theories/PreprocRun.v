(** Proofs about [preproc] as a whole. *)

From Coq Require Import NArith.
From mathcomp Require Import all_ssreflect all_algebra zify.
From Verif Require Import MathModel MathProofs MatProofs SharingModel SharingSpec SharingProofs.
From Verif Require Import MachineModel MachineProofs MachineBuild Realize CoreModel CoreSpec CoreProofs.
From Verif Require Import RandTransProofs PreprocModel PreprocSpec PreprocProofs.
From Verif Require ProtoIdModel.
Set Implicit Arguments.
Unset Strict Implicit.
Unset Printing Implicit Defensive.
Import GRing.Theory.
Local Open Scope ring_scope.

Lemma sumn_err_sizes e n : (0 < n)%N -> sumn (err_sizes e n) = e.
Proof.
  move=> Hn. rewrite /err_sizes -cats1 sumn_cat sumn_nseq /= addn0.
  have := divn_eq e n. set q := (e %/ n)%N. move=> E. have : (n.-1 * q <= e)%N by rewrite E; nia. lia.
Qed.

Lemma size_err_sizes e n : (0 < n)%N -> size (err_sizes e n) = n.
Proof. move=> Hn. by rewrite /err_sizes size_rcons size_nseq prednK. Qed.

Lemma nth_le_sumn (bs : seq nat) i : (sumn (take i bs) + nth 0%N bs i <= sumn bs)%N.
Proof. elim: bs i => [|b bs IH] [|i] //=; first by lia. have := IH i. lia. Qed.

(** Where the bits and scalars of error [j] come from. *)
Section Index.
Variable bs : seq nat.
Let q j := reshape_index bs j.
Let c j := reshape_offset bs j.
Let o j := sumn (take (q j) bs).
Definition b0_idx j : nat := (2 * o j + c j)%N.
Definition b1_idx j : nat := (2 * o j + nth 0%N bs (q j) + c j)%N.
Definition sc_idx j : nat := (3 * o j + nth 0%N bs (q j) + c j)%N.

Lemma off_eq j : (o j + c j = j)%N.
Proof. exact: (reshape_indexK bs j). Qed.

Lemma off_lt j : (j < sumn bs)%N -> (c j < nth 0%N bs (q j))%N.
Proof. exact: reshape_offsetP. Qed.

Lemma off_mono j j' : (q j < q j')%N -> (o j + nth 0%N bs (q j) <= o j')%N.
Proof.
  rewrite /o. elim: bs (q j) (q j') => [|b r IH] [|x] [|y] //= H; first by lia.
  have := IH x y H. lia.
Qed.

Lemma idx_inj j j' : (j < sumn bs)%N -> (j' < sumn bs)%N ->
  [/\ b0_idx j = b0_idx j' -> j = j', b1_idx j = b1_idx j' -> j = j', sc_idx j = sc_idx j' -> j = j' & b0_idx j <> b1_idx j'].
Proof.
  move=> Hj Hj'. rewrite /b0_idx /b1_idx /sc_idx.
  have := off_eq j. have := off_eq j'. have := off_lt Hj. have := off_lt Hj'.
  have := @off_mono j j'. have := @off_mono j' j. rewrite -/(o j) -/(o j') -/(c j) -/(c j').
  have : q j = q j' -> o j = o j' by move=> E; rewrite /o E.
  move: (o j) (o j') (c j) (c j') (q j) (q j') => a a' b b' x x'.
  case: (ltngtP x x') => [H _ _ /(_ isT)|H _ /(_ isT) H1 _|E /(_ E) E' _ _]; [split; lia|split; lia|].
  rewrite E. split; lia.
Qed.

Lemma idx_bound j : (j < sumn bs)%N -> [/\ (b0_idx j < 2 * sumn bs)%N, (b1_idx j < 2 * sumn bs)%N & (sc_idx j < 3 * sumn bs)%N].
Proof.
  move=> Hj. have := off_lt Hj. have := nth_le_sumn bs (q j). rewrite /b0_idx /b1_idx /sc_idx -/(o j). split; lia.
Qed.
End Index.

Section Queue.
Variable F : fieldType.

Lemma drainE k (q : seq F) : (k <= size q)%N -> drain k q = Some (take k q, drop k q).
Proof. by rewrite /drain => ->. Qed.

Lemma err_inputs_ok bs (rb rr rz : seq F) x0 :
  (2 * sumn bs <= size rb)%N -> (3 * sumn bs <= size rr)%N -> (2 * sumn bs <= size rz)%N ->
  exists xs, err_inputs bs rb rr rz = Some xs /\ forall i, (i < size bs)%N ->
    let b := nth 0%N bs i in let o := sumn (take i bs) in
    nth x0 xs i = ErrInp b (take b (drop (2 * o) rb)) (take b (drop (2 * o + b) rb))
      (take (3 * b) (drop (3 * o) rr)) (take (2 * b) (drop (2 * o) rz)).
Proof.
  elim: bs rb rr rz => [|b bs IH] rb rr rz /=; first by exists [::].
  move=> H1 H2 H3.
  rewrite (@drainE b rb) /=; last lia. rewrite (@drainE b (drop b rb)) /=; last by rewrite size_drop; lia.
  rewrite (@drainE (3 * b) rr) /=; last lia. rewrite (@drainE (2 * b) rz) /=; last lia.
  have [||| xs [E Hx]] := IH (drop b (drop b rb)) (drop (3 * b) rr) (drop (2 * b) rz); rewrite ?size_drop; try lia.
  rewrite E. eexists; split; first reflexivity. case=> [|i] Hi /=.
  - by rewrite !muln0 !add0n !drop0.
  - rewrite (Hx i Hi) !drop_drop. congr ErrInp; congr take; congr drop; lia.
Qed.
End Queue.

Section Run.
Variable F : fieldType.
Variable emb : nat -> F.
Variable D : eqType.
Variable ser : seq F -> D.
Variable de : D -> option (seq F).
Variable fits : nat -> Prop.
Hypothesis serK : codec_ok ser de fits.
Variables (n t l : nat) (P Pn : pss F).
Hypothesis HS : setting emb n t l P Pn.
Hypothesis Hdeg : (2 * (t + l).-1 <= n.-1)%N.
Notation mk me := (Ctx me n t l P Pn).
Notation pos := (default_pos emb n l).
Notation sharings := (sharings emb n).

Lemma n_pos : (0 < n)%N.
Proof. have [_ _ + _] := HS. rewrite /pss_new. case: ifP => // H _. lia. Qed.

Section Task.
Variable I : eqType.
Notation realizes := (@realizes n I D (val F)).

Lemma err_task_ok (id1 id2 : I) L b bit0 s0 bit1 s1 rnd sr zr coin1 coin2 : (L < n)%N -> fits b ->
  sharings (t + l).-1 pos b bit0 s0 -> sharings (t + l).-1 pos b bit1 s1 ->
  sharings (t + l).-1 pos (3 * b) rnd sr -> sharings n.-1 pos (2 * b) zr (fun _ => nseq l 0) ->
  exists rd1 rd2 res, realizes [:: (id1, rd1); (id2, rd2)]
      (fun me k => err_task ser de (mk me) id1 id2 L (ErrInp b (bit0 me) (bit1 me) (rnd me) (zr me)) (coin1 me) (coin2 me) k) res /\
    sharings (t + l).-1 pos b res (fun j => vmul (vmul (s0 j) (s1 j)) (sr (b + j)%N)).
Proof.
  move=> HL Hf S0 S1 Sr Sz. have Hn := n_pos. have [Ht HP HPn Hg] := HS.
  have Hl : (size pos <= (t + l).-1.+1)%N by rewrite size_dp prednK // leq_addl.
  have Hd : ((t + l).-1 + (t + l).-1 <= n.-1)%N by lia.
  have Sz' : sharings n.-1 pos (2 * b) zr (fun _ => nseq (size pos) 0) by rewrite size_dp.
  have Sz0 : sharings n.-1 pos b (fun i => take b (drop 0 (zr i))) (fun _ => nseq (size pos) 0).
  { apply: (sharings_slice Sz'). lia. }
  have Sz1 : sharings n.-1 pos b (fun i => take b (drop b (zr i))) (fun _ => nseq (size pos) 0).
  { apply: (sharings_slice Sz'). lia. }
  have Sr0 : sharings (t + l).-1 pos b (fun i => take b (drop 0 (rnd i))) (fun j => sr (0 + j)%N).
  { apply: (sharings_slice Sr). lia. }
  have Sr1 : sharings (t + l).-1 pos b (fun i => take b (drop b (rnd i))) (fun j => sr (b + j)%N).
  { apply: (sharings_slice Sr). lia. }
  have Sr2 : sharings (t + l).-1 pos b (fun i => take b (drop (b + b) (rnd i))) (fun j => sr (b + b + j)%N).
  { apply: (sharings_slice Sr). lia. }
  have [rd1 [res1 [R1 E1]]] := mult_ok serK Hn HP HPn Hg Hl id1 coin1 HL Hf Hd S0 S1 Sr0 Sz0.
  have [rd2 [res2 [R2 E2]]] := mult_ok serK Hn HP HPn Hg Hl id2 coin2 HL Hf Hd E1 Sr1 Sr2 Sz1.
  exists rd1, rd2, res2. split=> //.
  move=> plan ph /= [A1 [A2 _]] me k js v Hm Fk.
  have Q1 : size (rnd me) = (3 * b)%N := Sr.1 me Hm. have Q2 : size (zr me) = (2 * b)%N := Sz.1 me Hm.
  rewrite /err_task /= drainE ?Q1; last lia. rewrite drainE ?Q2; last lia.
  have Ed : drain b (drop b (rnd me)) = Some (take b (drop b (rnd me)), take b (drop (b + b) (rnd me))).
  { rewrite drainE ?size_drop ?Q1; last lia. rewrite drop_drop.
    by rewrite [take b (drop (b + b) _)]take_oversize // size_drop Q1; lia. }
  have Ez : drop b (zr me) = take b (drop b (zr me)) by rewrite take_oversize // size_drop Q2; lia.
  have E0 : take b (zr me) = take b (drop 0 (zr me)) by rewrite drop0.
  have E0' : take b (rnd me) = take b (drop 0 (rnd me)) by rewrite drop0.
  rewrite Ez E0 E0'.
  apply: (R1 plan ph (conj A1 Logic.I) me _ ((ph, id2) :: js)) => //. rewrite Ed.
  exact: (R2 plan ph (conj A2 Logic.I) me k js).
Qed.
End Task.

(** The secrets of a polynomial. *)
Notation sec p := ([seq p.[x] | x <- pos]).

Lemma mixed_zero M b coin p idx : secret_polys emb n n pos (fun _ _ _ => 0) coin p ->
  sec (mixed n M b p idx) = nseq l 0.
Proof.
  move=> H. rewrite -[RHS](mkseq_nth 0) size_nseq -[default_pos _ _ _ in LHS](mkseq_nth 0) size_dp /mkseq -map_comp.
  apply/eq_in_map => q. rewrite mem_iota /= => Hq. rewrite mixed_eval nth_nseq Hq big1 // => s _.
  have [_ H2 _] := H s (idx %% b)%N (ltn_ord s). by rewrite H2 ?size_dp // mulr0.
Qed.

Lemma flatten_pairs (T : Type) (x0 : T) m (s : seq T) : size s = (2 * m)%N ->
  flatten [seq [:: nth x0 s (2 * i)%N; nth x0 s (2 * i + 1)%N] | i <- iota 0 m] = s.
Proof.
  elim: m s => [|m IH] s E; first by move: E; rewrite muln0 => /size0nil ->.
  case: s E => [|a [|b s]] E; rewrite [size _]/= in E; [lia|lia|].
  rewrite -[in RHS](IH s); last by lia.
  rewrite -[iota 0 m.+1]/(0%N :: iota (1 + 0) m) iotaDl /= -map_comp.
  congr [:: _, _ & _]. congr flatten. apply: eq_map => i.
  rewrite /comp.
  by have -> : (2 * (1 + i) = (2 * i).+2)%N by lia.
Qed.

Section Whole.
Variables (M Mb : mat F) (id : seq N) (d : count) (r : nat -> coins F) (bR bZ bB : nat).
Notation keys := (keys_total d).
Notation errs := (n_errors d).
Hypothesis HbR : num_batches (keys + n_randoms d + 3 * errs) (size (rows M)) = Some bR.
Hypothesis HbZ : num_batches (n_zeros d + 2 * errs) (size (rows M)) = Some bZ.
Hypothesis HbB : num_batches (n_masks d + 2 * errs) (size (rows Mb)) = Some bB.
Hypothesis HM : ncols M = n.
Hypothesis HMb : ncols Mb = n.
Hypothesis Hf : forall m, (m <= maxn (maxn bR bZ) (maxn bB errs))%N -> fits m.
Variable chans : seq (seq N).
Hypothesis Hids : ProtoIdModel.preproc_ids id (N.of_nat n) = Some chans.
Hypothesis Hsz : size chans = (3 + 2 * n)%N.
Notation totR := (size (rows M) * bR)%N.
Notation totZ := (size (rows M) * bZ)%N.
Notation totB := (size (rows Mb) * bB)%N.
Hypothesis LR : (keys + n_randoms d + 3 * errs <= totR)%N.
Hypothesis LZ : (n_zeros d + 2 * errs <= totZ)%N.
Hypothesis LB : (n_masks d + 2 * errs <= totB)%N.
Notation mR pr := (mixed n M bR pr).
Notation mZ pz := (mixed n M bZ pz).
Notation mB pb := (mixed n Mb bB pb).
Notation bs := (err_sizes errs n).

Notation bq q := (nth 0%N bs q).
Notation oq q := (sumn (take q bs)).

(** What error task [q] is given of the sharings generated. *)
Definition err_given (pr pz pb : nat -> nat -> {poly F}) (q me : nat) : err_inp F :=
  let eb := take (2 * errs) (held emb (mB pb) totB me) in
  let er := take (3 * errs) (held emb (mR pr) totR me) in
  let ez := take (2 * errs) (held emb (mZ pz) totZ me) in
  ErrInp (bq q) (take (bq q) (drop (2 * oq q) eb)) (take (bq q) (drop (2 * oq q + bq q) eb))
      (take (3 * bq q) (drop (3 * oq q) er)) (take (2 * bq q) (drop (2 * oq q) ez)).

(** The rounds of [preproc] are those of its parts. *)
Lemma preproc_from idr idz idb eids pr pz pb rdr rdz rdb (rde : nat -> seq ([eqType of seq N] * round D)) (res : nat -> nat -> seq F) :
  chans = [:: idr, idz, idb & eids] ->
  realizes n [:: (idr, rdr)] (fun me k => rand ser de (mk me) M idr (keys + n_randoms d + 3 * errs) (k_rand (r me)) k) (held emb (mR pr) totR) ->
  realizes n [:: (idz, rdz)] (fun me k => zero ser de (mk me) M idz (n_zeros d + 2 * errs) (k_zero (r me)) k) (held emb (mZ pz) totZ) ->
  realizes n [:: (idb, rdb)] (fun me k => randbit ser de (mk me) Mb idb (n_masks d + 2 * errs) (k_bit (r me)) (k_bitrand (r me)) k) (held emb (mB pb) totB) ->
  (forall q, (q < n)%N -> realizes n (rde q) (fun me k => err_task ser de (mk me) (nth [::] eids (2 * q)%N) (nth [::] eids (2 * q + 1)%N) q
     (err_given pr pz pb q me) (k_mult1 (r me) q) (k_mult2 (r me) q) k) (res q)) ->
  realizes n ([:: (idr, rdr); (idz, rdz); (idb, rdb)] ++ flatten [seq rde q | q <- iota 0 n])
    (fun me k => preproc ser de (mk me) M Mb id d (r me) k)
    (fun i => PreProc (held emb (fun j => mB pb (2 * errs + j)) (n_masks d) i) (n_keys d)
                (held emb (fun j => mR pr (3 * errs + j)) keys i)
                (held emb (fun j => mR pr (3 * errs + keys + j)) (totR - (3 * errs + keys)) i)
                (held emb (fun j => mZ pz (2 * errs + j)) (totZ - 2 * errs) i)
                (flatten [seq res q i | q <- iota 0 n])).
Proof.
  move=> Ec RR RZ RB Hfq. have Hn := n_pos. move: Hids. rewrite Ec => Hid.
  have Sbs : size bs = n by apply: size_err_sizes. have Ebs : sumn bs = errs by apply: sumn_err_sizes.
  pose x0 := ErrInp 0%N [::] [::] [::] ([::] : seq F).
  pose eb i := take (2 * errs) (held emb (mB pb) totB i).
  pose er i := take (3 * errs) (held emb (mR pr) totR i).
  pose ez i := take (2 * errs) (held emb (mZ pz) totZ i).
  have SEB i : size (eb i) = (2 * errs)%N by rewrite /eb size_takel // size_map size_iota; lia.
  have SER i : size (er i) = (3 * errs)%N by rewrite /er size_takel // size_map size_iota; lia.
  have SEZ i : size (ez i) = (2 * errs)%N by rewrite /ez size_takel // size_map size_iota; lia.
  pose inp q i := ErrInp (bq q) (take (bq q) (drop (2 * oq q) (eb i))) (take (bq q) (drop (2 * oq q + bq q) (eb i)))
      (take (3 * bq q) (drop (3 * oq q) (er i))) (take (2 * bq q) (drop (2 * oq q) (ez i))).
  pose task q := fun me (k : seq F -> proc [eqType of seq N] D (val F)) =>
    err_task ser de (mk me) (nth [::] eids (2 * q)%N) (nth [::] eids (2 * q + 1)%N) q (inp q me) (k_mult1 (r me) q) (k_mult2 (r me) q) k.
  pose es i := flatten [seq res q i | q <- iota 0 n].
  pose fst3 (j : nat) := fun me (k : seq F -> proc [eqType of seq N] D (val F)) =>
    if j is 0%N then rand ser de (mk me) M idr (keys + n_randoms d + 3 * errs) (k_rand (r me)) k
    else if j is 1%N then zero ser de (mk me) M idz (n_zeros d + 2 * errs) (k_zero (r me)) k
    else randbit ser de (mk me) Mb idb (n_masks d + 2 * errs) (k_bit (r me)) (k_bitrand (r me)) k.
  pose res3 (j : nat) := if j is 0%N then held emb (mR pr) totR else if j is 1%N then held emb (mZ pz) totZ
    else held emb (mB pb) totB.
  pose rds3 (j : nat) := if j is 0%N then [:: (idr, rdr)] else if j is 1%N then [:: (idz, rdz)] else [:: (idb, rdb)].
  pose out i := PreProc (held emb (fun j => mB pb (2 * errs + j)) (n_masks d) i) (n_keys d)
                (held emb (fun j => mR pr (3 * errs + j)) keys i)
                (held emb (fun j => mR pr (3 * errs + keys + j)) (totR - (3 * errs + keys)) i)
                (held emb (fun j => mZ pz (2 * errs + j)) (totZ - 2 * errs) i) (es i).
  have R2 := @realizes_spawn F [eqType of seq N] D n nat_eqType (iota 0 n) (seq F) (preproc_data F) task res
    (fun x => Leaf [:: x]) rde [::]
    (fun me vs k => if drain keys (drop (3 * errs) (held emb (mR pr) totR me)) is Some (key_shares, rand_shares) then
                      k (PreProc (take (n_masks d) (drop (2 * errs) (held emb (mB pb) totB me))) (n_keys d) key_shares rand_shares
                          (drop (2 * errs) (held emb (mZ pz) totZ me))
                          (flatten [seq vec_of e | e <- vs])) else @Panic [eqType of seq N] D (val F)) out.
  have {}R2 := R2 (fun q Hq => Hfq q (etrans (esym (mem_iota 0 n q)) Hq)).
  have E2 : realizes n [::] (fun me (k : preproc_data F -> proc [eqType of seq N] D (val F)) =>
    if drain keys (drop (3 * errs) (held emb (mR pr) totR me)) is Some (key_shares, rand_shares) then
      k (PreProc (take (n_masks d) (drop (2 * errs) (held emb (mB pb) totB me))) (n_keys d) key_shares rand_shares
            (drop (2 * errs) (held emb (mZ pz) totZ me)) (flatten [seq vec_of e | e <- [seq Leaf [:: res q me] | q <- iota 0 n]]))
    else @Panic [eqType of seq N] D (val F)) out.
  { move=> plan ph _ i k js v Hi Fk. rewrite drainE; last by rewrite size_drop size_map size_iota; lia.
    have G : forall X, out i = X -> follows n plan i (k X) js v by move=> X <-.
    apply: G. rewrite /out /es drop_drop -map_comp.
    rewrite -(@held_slice _ emb (mB pb) totB); last lia. rewrite -(@held_slice _ emb (mR pr) totR (3 * errs)); last lia.
    rewrite -(@held_slice _ emb (mR pr) totR (3 * errs + keys)); last lia.
    rewrite -(@held_slice _ emb (mZ pz) totZ); last lia.
    have SzR : size (held emb (mR pr) totR i) = totR by rewrite size_map size_iota.
    have SzZ : size (held emb (mZ pz) totZ i) = totZ by rewrite size_map size_iota.
    rewrite [take (totR - _) _]take_oversize; last by rewrite size_drop SzR.
    rewrite [take (totZ - _) _]take_oversize; last by rewrite size_drop SzZ.
    by rewrite [(keys + _)%N]addnC. }
  have {}R2 := R2 E2.
  have R1 := @realizes_spawn F [eqType of seq N] D n nat_eqType (iota 0 3) (seq F) (preproc_data F) fst3 res3
    (fun x => Leaf [:: x]) rds3 (flatten [seq rde q | q <- iota 0 n] ++ [::]) (fun me vs k =>
         if [seq vec_of v | v <- vs] is [:: rand_shares; zero_shares; rbit_shares] then
           if (drain (3 * errs) rand_shares, drain (2 * errs) zero_shares, drain (2 * errs) rbit_shares)
             is (Some (er, rand_shares), Some (ez, zero_shares), Some (eb, rbit_shares)) then
             if n is 0%N then @Panic [eqType of seq N] D (val F) else
             if err_inputs (err_sizes errs n) eb er ez is Some xs then
               spawn_all
                 [seq err_task ser de (mk me) (nth [::] eids (2 * i)) (nth [::] eids (2 * i + 1)) i
                        (nth (ErrInp 0 [::] [::] [::] [::]) xs i) (k_mult1 (r me) i) (k_mult2 (r me) i)
                        (fun x => Ret (Leaf [:: x])) | i <- iota 0 n]
                 (fun es =>
                    if drain keys rand_shares is Some (key_shares, rand_shares) then
                      k (PreProc (take (n_masks d) rbit_shares) (n_keys d) key_shares rand_shares zero_shares
                           (flatten [seq vec_of e | e <- es]))
                    else @Panic [eqType of seq N] D (val F))
             else @Panic [eqType of seq N] D (val F)
           else @Panic [eqType of seq N] D (val F)
         else @Panic [eqType of seq N] D (val F)) out.
  have H1 : forall j, j \in iota 0 3 -> realizes n (rds3 j) (fst3 j) (res3 j).
  { case=> [|[|[|j]]] // _. }
  have {}R1 := R1 H1.
  rewrite -[flatten [seq rde q | q <- iota 0 n]]cats0.
  apply: realizes_eq (R1 _) => // [i k Hi|].
  - by rewrite /preproc [c_n _]/= Hid.
  - apply: realizes_eq R2 => // i k Hi.
    rewrite [[seq vec_of _ | _ <- _]]/=.
    lazy iota beta.
    rewrite (@drainE _ (3 * errs) (held _ _ _ _)); last by rewrite size_map size_iota; lia.
    rewrite (@drainE _ (2 * errs) (held emb (mZ pz) _ _)); last by rewrite size_map size_iota; lia.
    rewrite (@drainE _ (2 * errs) (held emb (mB pb) _ _)); last by rewrite size_map size_iota; lia.
    have [||| xs [Ex Hx]] := @err_inputs_ok F bs (eb i) (er i) (ez i) x0; rewrite ?Ebs.
    + by rewrite SEB.
    + by rewrite SER.
    + by rewrite SEZ.
    rewrite -/(eb i) -/(er i) -/(ez i) Ex.
    have En' : forall (X Y : proc [eqType of seq N] D (val F)), (if n is 0%N then X else Y) = Y by case: (n) Hn.
    rewrite En'. congr spawn_all. apply/eq_in_map => q. rewrite mem_iota /= => Hq.
    by rewrite /task /inp Hx ?Sbs.
Qed.

Lemma preproc_realizes : exists rds pr pz pb es,
  [/\ ids rds = chans, rand_polys emb n (t + l) (fun s => k_rand (r s)) pr,
      secret_polys emb n n pos (fun _ _ _ => 0) (fun s => k_zero (r s)) pz,
      secret_polys emb n (t + l) pos (fun s j q => if k_bit (r s) j q then 1 else 0) (fun s => k_bitrand (r s)) pb &
  sharings (t + l).-1 pos errs es
    (fun j => vmul (vmul (sec (mB pb (b0_idx bs j))) (sec (mB pb (b1_idx bs j)))) (sec (mR pr (sc_idx bs j)))) /\
  realizes n rds (fun me k => preproc ser de (mk me) M Mb id d (r me) k)
    (fun i => PreProc (held emb (fun j => mB pb (2 * errs + j)) (n_masks d) i) (n_keys d)
                (held emb (fun j => mR pr (3 * errs + j)) keys i)
                (held emb (fun j => mR pr (3 * errs + keys + j)) (totR - (3 * errs + keys)) i)
                (held emb (fun j => mZ pz (2 * errs + j)) (totZ - 2 * errs) i)
                (es i))].
Proof.
  have Hn := n_pos. have /andP [Ht Htl] := tl_le Hn HS.
  have Ek : ((t + l).-1.+1 = t + l)%N by rewrite prednK.
  have En : (n.-1.+1 = n)%N by rewrite prednK.
  case Ec : chans Hsz Hids => [|idr [|idz [|idb eids]]] //= [Hse] Hid.
  have fR : fits bR by apply: Hf; lia. have fZ : fits bZ by apply: Hf; lia. have fB : fits bB by apply: Hf; lia.
  have [rdr [pr [Hpr RR]]] := rand_realizes serK Hn HS idr (fun s => k_rand (r s)) HbR HM fR.
  have [rdz [pz [Hpz RZ]]] := zero_realizes serK Hn HS idz (fun s => k_zero (r s)) HbZ HM fZ.
  have [rdb [pb [Hpb RB]]] := randbit_realizes serK Hn HS idb (fun s => k_bit (r s)) (fun s => k_bitrand (r s)) HbB HMb fB.
  have SR : sharings (t + l).-1 pos totR (held emb (mR pr) totR) (fun j => sec (mR pr j)).
  { apply: held_sharings => j _. rewrite Ek. apply: mixed_size => s i Hs. exact: (Hpr s i Hs).1. }
  have SZ : sharings n.-1 pos totZ (held emb (mZ pz) totZ) (fun j => nseq l 0).
  { apply: sharings_ext (held_sharings emb n pos (d := n.-1) (p := mZ pz) _) => // [j _|j _].
    - exact: mixed_zero Hpz.
    - rewrite En. apply: mixed_size => s i Hs. by have [] := Hpz s i Hs. }
  have SB : sharings (t + l).-1 pos totB (held emb (mB pb) totB) (fun j => sec (mB pb j)).
  { apply: held_sharings => j _. rewrite Ek. apply: mixed_size => s i Hs. by have [] := Hpb s i Hs. }
  have Sbs : size bs = n by apply: size_err_sizes. have Ebs : sumn bs = errs by apply: sumn_err_sizes.
  (* the error tasks *)
  pose eb i := take (2 * errs) (held emb (mB pb) totB i).
  pose er i := take (3 * errs) (held emb (mR pr) totR i).
  pose ez i := take (2 * errs) (held emb (mZ pz) totZ i).
  have SEB : sharings (t + l).-1 pos (2 * errs) eb (fun j => sec (mB pb j)).
  { apply: sharings_ext (sharings_slice (a := 0) (m := (2 * errs)%N) SB _) => // [i _|]; first by rewrite drop0. lia. }
  have SER : sharings (t + l).-1 pos (3 * errs) er (fun j => sec (mR pr j)).
  { apply: sharings_ext (sharings_slice (a := 0) (m := (3 * errs)%N) SR _) => // [i _|]; first by rewrite drop0. lia. }
  have SEZ : sharings n.-1 pos (2 * errs) ez (fun _ => nseq l 0).
  { apply: sharings_ext (sharings_slice (a := 0) (m := (2 * errs)%N) SZ _) => // [i _|]; first by rewrite drop0. lia. }
  pose task q := fun me (k : seq F -> proc [eqType of seq N] D (val F)) =>
    err_task ser de (mk me) (nth [::] eids (2 * q)%N) (nth [::] eids (2 * q + 1)%N) q (err_given pr pz pb q me) (k_mult1 (r me) q) (k_mult2 (r me) q) k.
  pose esec q j := vmul (vmul (sec (mB pb (2 * oq q + j))) (sec (mB pb (2 * oq q + bq q + j)))) (sec (mR pr (3 * oq q + (bq q + j)))).
  have [f Hfq] : exists f : nat -> round D * round D * (nat -> seq F), forall q, (q < n)%N ->
      realizes n [:: (nth [::] eids (2 * q)%N, (f q).1.1); (nth [::] eids (2 * q + 1)%N, (f q).1.2)] (task q) (f q).2 /\
      sharings (t + l).-1 pos (bq q) (f q).2 (esec q).
  { apply: (@fin_choice _ n (fun q x =>
      realizes n [:: (nth [::] eids (2 * q)%N, x.1.1); (nth [::] eids (2 * q + 1)%N, x.1.2)] (task q) x.2 /\
      sharings (t + l).-1 pos (bq q) x.2 (esec q)) ((Exch (fun _ _ => ser [::]), Exch (fun _ _ => ser [::])), fun _ => [::])).
    move=> q Hq. have Hb := nth_le_sumn bs q. rewrite Ebs in Hb.
    have Fb : fits (bq q) by apply: Hf; lia.
    have [||||rd1 [rd2 [res [R S]]]] := @err_task_ok _ (nth [::] eids (2 * q)%N) (nth [::] eids (2 * q + 1)%N) q (bq q)
      (fun i => take (bq q) (drop (2 * oq q) (eb i))) (fun j => sec (mB pb (2 * oq q + j)))
      (fun i => take (bq q) (drop (2 * oq q + bq q) (eb i))) (fun j => sec (mB pb (2 * oq q + bq q + j)))
      (fun i => take (3 * bq q) (drop (3 * oq q) (er i))) (fun j => sec (mR pr (3 * oq q + j)))
      (fun i => take (2 * bq q) (drop (2 * oq q) (ez i))) (fun i => k_mult1 (r i) q) (fun i => k_mult2 (r i) q) Hq Fb.
    - apply: (sharings_slice SEB). lia.
    - apply: (sharings_slice SEB). lia.
    - apply: (sharings_slice SER). lia.
    - apply: (sharings_slice SEZ). lia.
    - by exists (rd1, rd2, res). }
  pose es i := flatten [seq (f q).2 i | q <- iota 0 n].
  have Ses : sharings (t + l).-1 pos errs es (fun j => esec (reshape_index bs j) (reshape_offset bs j)).
  { rewrite -[in sharings _ _ errs]Ebs /es -[in iota 0 n]Sbs. apply: sharings_flatten => q. rewrite Sbs => Hq. exact: (Hfq q Hq).2. }
  pose rds := [:: (idr, rdr); (idz, rdz); (idb, rdb)] ++
    flatten [seq [:: (nth [::] eids (2 * q)%N, (f q).1.1); (nth [::] eids (2 * q + 1)%N, (f q).1.2)] | q <- iota 0 n].
  exists rds, pr, pz, pb, es.
  have Eids : ids rds = [:: idr, idz, idb & eids].
  { rewrite /ids /rds map_cat map_flatten -map_comp /=. congr [:: _, _, _ & _].
    rewrite -[RHS](@flatten_pairs _ [::] n); last by lia. by []. }
  split; [by rewrite Eids|by []|by []|by []|]. split.
  { apply: sharings_ext Ses => // j Hj. rewrite /esec /b0_idx /b1_idx /sc_idx. by rewrite addnA. }
  apply: (preproc_from (rde := fun q => [:: (nth [::] eids (2 * q)%N, (f q).1.1); (nth [::] eids (2 * q + 1)%N, (f q).1.2)]) Ec RR RZ RB) => q Hq.
  exact: (Hfq q Hq).1.
Qed.
End Whole.
End Run.

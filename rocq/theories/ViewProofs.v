(** Proofs about views: codes with the same traffic, and shifts of masks. *)

From mathcomp Require Import all_ssreflect all_algebra zify.
From Verif Require Import MathModel MathProofs SharingModel SharingSpec SharingProofs.
From Verif Require Import MachineModel CoreModel CoreSpec CoreProofs RandTransProofs ViewSpec.
Set Implicit Arguments.
Unset Strict Implicit.
Unset Printing Implicit Defensive.
Import GRing.Theory.
Local Open Scope ring_scope.

(** ** Codes with the same traffic *)
Section Traffic.
Variables (n : nat) (I D : eqType) (V : Type).
Notation proc := (proc I D V).
Notation cfg := (cfg I D V).

(** Same sends and receives whatever is received; only results may differ. *)
Inductive like (R : V -> V -> Prop) : proc -> proc -> Prop :=
| KRet v v' : R v v' -> like R (Ret v) (Ret v')
| KPanic : like R (@Panic I D V) (@Panic I D V)
| KSend to id d k k' : like R k k' -> like R (Send to id d k) (Send to id d k')
| KRecv id f f' : (forall s d, like R (f s d) (f' s d)) -> like R (Recv id f) (Recv id f')
| KGath id got k k' : (forall ds, like R (k ds) (k' ds)) -> like R (Gath id got k) (Gath id got k').

Lemma like_sym R p p' : like R p p' -> like (fun v v' => R v' v) p' p.
Proof. by elim=> *; constructor. Qed.

Lemma like_step R p p' a q : like R p p' -> lstep p a q -> exists2 q', lstep p' a q' & like R q q'.
Proof.
  case=> [v v' Rv|||id f f' Hf|id got k k' Hk].
  - move=> S. by inversion S.
  - move=> S. by inversion S.
  - move=> to id d k k' Hk S. inversion S; subst. exists k' => //. by constructor.
  - move=> S. inversion S; subst. exists (f' s d); [by constructor|exact: Hf].
  - move=> S. inversion S; subst.
    + exists (gath_step id got k' s d); first by constructor.
      rewrite /gath_step. case: ifP => _; last by constructor.
      case: (nth None got s) => [_|]; by constructor.
    + exists (k' (pmap (fun x => x) got)); [by constructor|exact: Hk].
Qed.

Lemma like_ret R v p : like R (Ret v) p -> exists2 v', p = Ret v' & R v v'.
Proof. move=> L. inversion L; subst. by exists v'. Qed.

Lemma like_send_each R id (d : nat -> D) k k' : like R k k' -> like R (send_each n id d k) (send_each n id d k').
Proof. rewrite /send_each. elim: (iota 0 n) => //= i s IH H. constructor. exact: IH. Qed.

Variables (A : seq nat) (same : nat -> V -> V -> Prop).

Definition like_at (i : nat) (p p' : proc) : Prop := if i \in A then p' = p else like (same i) p p'.

Lemma like_at_step i p p' a q : like_at i p p' -> lstep p a q -> exists2 q', lstep p' a q' & like_at i q q'.
Proof.
  rewrite /like_at. case: ifP => _; last exact: like_step.
  move=> -> S. by exists q.
Qed.

Record close (c c' : cfg) : Prop := Close {
  cl_procs : forall i, (i < n)%N -> like_at i (procs c i) (procs c' i);
  cl_net : net c' = net c;
  cl_mbox : forall i, mbox c' i = mbox c i }.

Lemma close_step c1 c c' : close c1 c' -> gstep n c1 c -> exists2 c2, gstep n c' c2 & close c c2.
Proof.
  move=> [HP HN HM] S. case: S => [i p Hi S|i to id d p Hi S|i id s d p a b Hi Eb Ha S|to m a b Hto En].
  - have [p' S' L] := like_at_step (HP i Hi) S. eexists; first exact: GTau Hi S'.
    split=> //= j Hj. rewrite /upd. case: eqP => [->|_] //. exact: HP.
  - have [p' S' L] := like_at_step (HP i Hi) S. eexists; first exact: GSend Hi S'.
    split=> //= [j Hj|]; rewrite ?HN //. rewrite /upd. case: eqP => [->|_] //. exact: HP.
  - have [p' S' L] := like_at_step (HP i Hi) S.
    eexists; first by apply: GRecv Hi _ Ha S'; rewrite HM; exact: Eb.
    split=> //= [j Hj|j]; rewrite /upd; [case: eqP => [->|_] //; exact: HP|by case: eqP].
  - eexists; first by apply: (@GDeliver _ _ _ _ _ to m a b Hto); rewrite HN.
    split=> //= j. by rewrite /upd; case: eqP => _; rewrite ?HM.
Qed.

Lemma close_steps k c1 c c' : close c1 c' -> gsteps n k c1 c -> exists2 c2, gsteps n k c' c2 & close c c2.
Proof.
  move=> H S. elim: S c' H => [c0|k0 c0 c2 c3 S1 S2 IH] c' H; first by exists c' => //; constructor.
  have [c4 S4 H4] := close_step H S1. have [c5 S5 H5] := IH _ H4. exists c5 => //. exact: GSS S4 S5.
Qed.

Lemma like_simulated (P P' : nat -> proc) : (forall i, (i < n)%N -> like_at i (P i) (P' i)) -> simulated n A same P P'.
Proof.
  move=> H k c S. have [|c' S' [HP HN HM]] := @close_steps k _ c (start P') _ S; first by split.
  exists c'. split=> //.
  - move=> i Hn Hi. by have := HP i Hn; rewrite /like_at Hi.
  - move=> i v Hn Hi E. have := HP i Hn; rewrite /like_at (negbTE Hi) E. exact: like_ret.
Qed.
End Traffic.

Lemma like_indistinguishable n I D V A same (Q P P' : nat -> proc I D V) :
  (forall i, (i < n)%N -> i \notin A -> like (same i) (P i) (P' i)) ->
  indistinguishable n A same (with_code A Q P) (with_code A Q P').
Proof.
  move=> H. split; apply: like_simulated => i Hn; rewrite /like_at /with_code; case Hi: (i \in A) => //.
  - exact: H (negbT Hi).
  - exact: like_sym (H i Hn (negbT Hi)).
Qed.

(** ** Shifts of masks *)
Section Shift.
Variable F : fieldType.
Variable emb : nat -> F.

Lemma sub_pos n (pos : seq F) (A : seq nat) : good_pos emb n pos -> uniq A -> all (fun i => (i < n)%N) A ->
  uniq (pos ++ [seq emb i | i <- A]).
Proof.
  rewrite /good_pos !cat_uniq => /and3P [-> Hh Hu] UA HA. rewrite andTb.
  have Sub x : x \in [seq emb i | i <- A] -> x \in [seq emb i | i <- iota 0 n].
  { case/mapP => i Hi ->. apply: map_f. by rewrite mem_iota (allP HA). }
  apply/andP; split.
  - apply: contra Hh => /hasP [x Hx Hp]. apply/hasP. exists x => //. exact: Sub.
  - rewrite map_inj_in_uniq // => a b Ha Hb E.
    have Ha' := allP HA a Ha. have Hb' := allP HA b Hb.
    have := nth_uniq 0 (s := [seq emb i | i <- iota 0 n]) (i := a) (j := b).
    rewrite size_map size_iota => /(_ Ha' Hb' Hu). rewrite !(nth_map 0%N) ?size_iota // !nth_iota // !add0n E eqxx.
    by move/esym/eqP.
Qed.

(** There is a polynomial of degree at most [d] with given values at the
    positions that vanishes at the shares of [A]. *)
Lemma hidden_poly n d (pos : seq F) (A : seq nat) (s : seq F) : good_pos emb n pos -> uniq A -> all (fun i => (i < n)%N) A ->
  size s = size pos -> (size pos + size A <= d.+1)%N ->
  exists p : {poly F}, [/\ (size p <= d.+1)%N, evals p pos = s & forall i, i \in A -> p.[emb i] = 0].
Proof.
  move=> Hg UA HA Hs Hd. have U := sub_pos Hg UA HA.
  have [|p Hp E] := @interp_exists _ (pos ++ [seq emb i | i <- A]) (s ++ nseq (size A) 0) U.
  { by rewrite !size_cat size_map size_nseq Hs. }
  exists p. move: E. rewrite evals_cat => /eqP. rewrite eqseq_cat ?size_evals // => /andP [/eqP E1 /eqP E2].
  split=> //.
  - apply: (leq_trans Hp). by rewrite size_cat size_map.
  - move=> i Hi. have Hx : (index i A < size A)%N by rewrite index_mem.
    have := congr1 (fun v => nth 0 v (index i A)) E2. rewrite /evals -map_comp (nth_map 0%N) // nth_index //=.
    by rewrite nth_nseq if_same.
Qed.

Lemma sharings_polys n d pos num (v sec : nat -> seq F) : sharings emb n d pos num v sec ->
  exists p : nat -> {poly F}, forall j, (j < num)%N -> [/\ (size (p j) <= d.+1)%N,
    forall i, (i < n)%N -> nth 0 (v i) j = (p j).[emb i] & sec j = evals (p j) pos].
Proof.
  move=> [_ H]. apply: (@fin_choice {poly F} num (fun j p => [/\ (size p <= d.+1)%N,
    forall i, (i < n)%N -> nth 0 (v i) j = p.[emb i] & sec j = evals p pos]) 0) => j Hj.
  have [p [Hp E1 E2]] := H j Hj. exists p. split=> // i Hi.
  have := congr1 (fun s => nth 0 s i) E1. by rewrite !(nth_map 0%N) ?size_iota // nth_iota.
Qed.

Lemma sharings_of_polys n d pos num (p : nat -> {poly F}) : (forall j, (j < num)%N -> (size (p j) <= d.+1)%N) ->
  sharings emb n d pos num (fun i => [seq (p j).[emb i] | j <- iota 0 num]) (fun j => evals (p j) pos).
Proof.
  move=> H. split=> [i Hi|j Hj]; first by rewrite size_map size_iota.
  exists (p j). split=> //; first exact: H.
  apply/eq_in_map => i Hi. by rewrite (nth_map 0%N) ?size_iota // nth_iota.
Qed.

Lemma nth_polys (p : nat -> {poly F}) num i j : (j < num)%N -> nth 0 [seq (p j).[emb i] | j <- iota 0 num] j = (p j).[emb i].
Proof. move=> Hj. by rewrite (nth_map 0%N) ?size_iota // nth_iota. Qed.

Variables (n : nat) (A : seq nat).
Hypothesis UA : uniq A.
Hypothesis HA : all (fun i => (i < n)%N) A.

Definition zeros_at (num : nat) (v : nat -> seq F) : Prop := forall i, i \in A -> v i = nseq num 0.

Lemma zeros_at_polys num (p : nat -> {poly F}) : (forall j i, (j < num)%N -> i \in A -> (p j).[emb i] = 0) ->
  zeros_at num (fun i => [seq (p j).[emb i] | j <- iota 0 num]).
Proof.
  move=> H i Hi. apply: (@eq_from_nth _ 0); rewrite size_map size_iota ?size_nseq // => j Hj.
  by rewrite nth_polys // H // nth_nseq Hj.
Qed.

(** Shifting the masks of a degree reduction. *)
Lemma shift_reduce d pos num vx x vx' x' : (0 < n)%N -> good_pos emb n pos -> (size pos + size A <= d.+1)%N -> (d < n)%N ->
  sharings emb n n.-1 pos num vx x -> sharings emb n n.-1 pos num vx' x' ->
  (forall i, i \in A -> vx' i = vx i) ->
  exists dr sr dz, [/\ sharings emb n d pos num dr sr, sharings emb n n.-1 pos num dz (fun _ => nseq (size pos) 0),
    zeros_at num dr, zeros_at num dz &
    forall i j, (i < n)%N -> (j < num)%N -> nth 0 (vx' i) j + nth 0 (dr i) j + nth 0 (dz i) j = nth 0 (vx i) j].
Proof.
  move=> Hn Hg Hs Hd Sx Sx' HE.
  have [p Hp] := sharings_polys Sx. have [q Hq] := sharings_polys Sx'.
  have [e He] : exists e : nat -> {poly F}, forall j, (j < num)%N ->
     [/\ (size (e j) <= d.+1)%N, evals (e j) pos = evals (p j - q j) pos & forall i, i \in A -> (e j).[emb i] = 0].
  { apply: (@fin_choice {poly F} num (fun j e => [/\ (size e <= d.+1)%N, evals e pos = evals (p j - q j) pos &
        forall i, i \in A -> e.[emb i] = 0]) 0) => j Hj.
    apply: (hidden_poly Hg UA HA) => //. by rewrite size_evals. }
  have Ea i j : i \in A -> (j < num)%N -> (p j).[emb i] = (q j).[emb i].
  { move=> Hi Hj. have Hin := allP HA i Hi. have [_ Ep _] := Hp j Hj. have [_ Eq _] := Hq j Hj.
    by rewrite -Ep // -Eq // HE. }
  have Sz j : (j < num)%N -> (size (p j - q j - e j)%R <= n.-1.+1)%N.
  { move=> Hj. have [Hpj _ _] := Hp j Hj. have [Hqj _ _] := Hq j Hj. have [Hej _ _] := He j Hj.
    apply: (leq_trans (size_add _ _)). rewrite size_opp geq_max. apply/andP; split.
    - apply: (leq_trans (size_add _ _)). by rewrite size_opp geq_max Hpj.
    - apply: (leq_trans Hej). by rewrite prednK. }
  exists (fun i => [seq (e j).[emb i] | j <- iota 0 num]), (fun j => evals (e j) pos),
         (fun i => [seq (p j - q j - e j).[emb i] | j <- iota 0 num]).
  split.
  - apply: sharings_of_polys => j Hj. by have [] := He j Hj.
  - have H := @sharings_of_polys n n.-1 pos num (fun j => p j - q j - e j) Sz.
    apply: sharings_ext H => // j Hj. have [_ E _] := He j Hj.
    rewrite -vsub_evals E vsub_evals subrr.
    apply: (@eq_from_nth _ 0); rewrite size_evals ?size_nseq // => k Hk.
    by rewrite (nth_map 0) // horner0 nth_nseq Hk.
  - apply: zeros_at_polys => j i Hj Hi. by have [_ _ ->] := He j Hj.
  - apply: zeros_at_polys => j i Hj Hi. have [_ _ E] := He j Hj.
    by rewrite !hornerD !hornerN E // subr0 Ea // subrr.
  - move=> i j Hi Hj. have [_ Ep _] := Hp j Hj. have [_ Eq _] := Hq j Hj.
    rewrite !nth_polys // Ep // Eq // !hornerD !hornerN.
    by rewrite -[X in _ + X]addrA -opprD addrC subrK.
Qed.

(** Shifting the masks of a transformation. *)
Lemma shift_trans d opos npos f num vx x vx' x' : (0 < n)%N -> good_pos emb n opos -> good_pos emb n npos ->
  (size npos + size A <= d.+1)%N -> size f = size npos ->
  sharings emb n n.-1 opos num vx x -> sharings emb n n.-1 opos num vx' x' ->
  (forall i, i \in A -> vx' i = vx i) ->
  exists dn sn dr, [/\ sharings emb n n.-1 opos num dn sn, sharings emb n d npos num dr (fun j => pick f (sn j)),
    zeros_at num dn, zeros_at num dr &
    forall i j, (i < n)%N -> (j < num)%N -> nth 0 (dn i) j + nth 0 (vx' i) j = nth 0 (vx i) j].
Proof.
  move=> Hn Ho Hg Hs Hf Sx Sx' HE.
  have [p Hp] := sharings_polys Sx. have [q Hq] := sharings_polys Sx'.
  have [e He] : exists e : nat -> {poly F}, forall j, (j < num)%N ->
     [/\ (size (e j) <= d.+1)%N, evals (e j) npos = pick f (evals (p j - q j) opos) & forall i, i \in A -> (e j).[emb i] = 0].
  { apply: (@fin_choice {poly F} num (fun j e => [/\ (size e <= d.+1)%N, evals e npos = pick f (evals (p j - q j) opos) &
        forall i, i \in A -> e.[emb i] = 0]) 0) => j Hj.
    apply: (hidden_poly Hg UA HA) => //. by rewrite size_map. }
  have Ea i j : i \in A -> (j < num)%N -> (p j).[emb i] = (q j).[emb i].
  { move=> Hi Hj. have Hin := allP HA i Hi. have [_ Ep _] := Hp j Hj. have [_ Eq _] := Hq j Hj.
    by rewrite -Ep // -Eq // HE. }
  have Sz j : (j < num)%N -> (size (p j - q j)%R <= n.-1.+1)%N.
  { move=> Hj. have [Hpj _ _] := Hp j Hj. have [Hqj _ _] := Hq j Hj.
    apply: (leq_trans (size_add _ _)). by rewrite size_opp geq_max Hpj. }
  exists (fun i => [seq (p j - q j).[emb i] | j <- iota 0 num]), (fun j => evals (p j - q j) opos),
         (fun i => [seq (e j).[emb i] | j <- iota 0 num]).
  split.
  - exact: (@sharings_of_polys n n.-1 opos num (fun j => p j - q j)).
  - have H := @sharings_of_polys n d npos num e.
    apply: sharings_ext (H _) => // [j Hj|j Hj]; by have [] := He j Hj.
  - apply: zeros_at_polys => j i Hj Hi. by rewrite hornerD hornerN Ea // subrr.
  - apply: zeros_at_polys => j i Hj Hi. by have [_ _ ->] := He j Hj.
  - move=> i j Hi Hj. have [_ Ep _] := Hp j Hj. have [_ Eq _] := Hq j Hj.
    by rewrite nth_polys // Ep // Eq // !hornerD !hornerN subrK.
Qed.

End Shift.

(** ** The codes with shifted masks *)
Section Codes.
Variable F : fieldType.
Variable emb : nat -> F.
Variables I D : eqType.
Variable ser : seq F -> D.
Variable de : D -> option (seq F).
Notation val := (val F).

Lemma size_vadd_eq num (a b : seq F) : size a = num -> size b = num -> size (vadd a b) = num.
Proof. move=> Ha Hb. by rewrite size_vadd Ha Hb minnn. Qed.

Lemma nth_vadd num (a b : seq F) j : size a = num -> size b = num -> (j < num)%N ->
  nth 0 (vadd a b) j = nth 0 a j + nth 0 b j.
Proof. move=> Ha Hb Hj. by rewrite /vadd (nth_map (0, 0)) ?size_zip ?Ha ?Hb ?minnn // nth_zip ?Ha. Qed.

Lemma nth_vsub num (a b : seq F) j : size a = num -> size b = num -> (j < num)%N ->
  nth 0 (vsub a b) j = nth 0 a j - nth 0 b j.
Proof. move=> Ha Hb Hj. by rewrite /vsub (nth_map (0, 0)) ?size_zip ?Ha ?Hb ?minnn // nth_zip ?Ha. Qed.

Lemma zipw_subE (a b : seq F) : zipw (fun x y => x - y) a b = vsub a b. Proof. by []. Qed.

(** The result moves by the shift. *)
Definition moved (dr : seq F) (v v' : val) : Prop :=
  exists2 y, v = Leaf [:: y] & v' = Leaf [:: vsub y dr].

Lemma like_unmask num id (random dr : seq F) : size random = num -> size dr = num ->
  like (moved dr) (unmask (I := I) de id random (fun y => Ret (Leaf [:: y])))
                  (unmask de id (vadd random dr) (fun y => Ret (Leaf [:: y]))).
Proof.
  move=> Hr Hd. constructor=> s d. case: (de d) => [shares|]; last by constructor.
  rewrite (size_vadd_eq Hr Hd) Hr. case: eqP => Hs; last by constructor.
  constructor. exists (vsub shares random); first by rewrite zipw_subE.
  rewrite zipw_subE. congr (Leaf [:: _]).
  have S1 : size (vsub shares random) = num by rewrite /vsub size_map size_zip Hs Hr minnn.
  apply: (@eq_from_nth _ 0).
    by rewrite /vsub !size_map !size_zip !size_map !size_zip Hs Hr Hd !minnn.
  move=> j. rewrite {1}/vsub size_map size_zip (size_vadd_eq Hr Hd) Hs minnn => Hj.
  rewrite (nth_vsub (num := num)) ?(size_vadd_eq Hr Hd) // (nth_vsub (num := num)) // (nth_vsub (num := num)) //.
  by rewrite (nth_vadd (num := num)) // opprD addrA.
Qed.

Lemma like_answer R c id m k k' : like R k k' -> like (I := I) (V := val) R (answer ser c id m k) (answer ser c id m k').
Proof. move=> L. case: m => [m|] /=; [exact: like_send_each|by constructor]. Qed.

Lemma like_reduce num c id vx vx' random zero dr dz L coin :
  size vx = num -> size vx' = num -> size random = num -> size zero = num -> size dr = num -> size dz = num ->
  (forall j, (j < num)%N -> nth 0 vx' j + nth 0 dr j + nth 0 dz j = nth 0 vx j) ->
  like (moved dr) (reduce_degree (I := I) ser de c id vx random zero L coin (fun y => Ret (Leaf [:: y])))
    (reduce_degree ser de c id vx' (vadd random dr) (vadd zero dz) L coin (fun y => Ret (Leaf [:: y]))).
Proof.
  move=> Hx Hx' Hr Hz Hdr Hdz E. rewrite /reduce_degree !(size_vadd_eq (num := num)) // Hx Hx' Hr Hz !eqxx /=.
  have -> : zipw +%R (zipw +%R vx' (vadd random dr)) (vadd zero dz) = zipw +%R (zipw +%R vx random) zero.
  { have Er j : (j < num)%N -> nth 0 (vadd random dr) j = nth 0 random j + nth 0 dr j by move=> Hj; rewrite (nth_vadd (num := num)).
    have Ez j : (j < num)%N -> nth 0 (vadd zero dz) j = nth 0 zero j + nth 0 dz j by move=> Hj; rewrite (nth_vadd (num := num)).
    have := size_vadd_eq Hr Hdr. have := size_vadd_eq Hz Hdz.
    move: (vadd random dr) (vadd zero dz) Er Ez => r' z' Er Ez Sz Sr.
    apply: (@eq_from_nth _ 0); rewrite !size_zipw ?Hx ?Hx' ?Hr ?Hz ?Sz ?Sr ?minnn // => j Hj.
    rewrite !nth_zipw ?size_zipw ?Hx ?Hx' ?Hr ?Hz ?Sz ?Sr ?minnn //.
    rewrite Er // Ez // -(E j Hj) [nth 0 zero j + _]addrC !addrA. congr (_ + _).
    rewrite [RHS]addrAC. congr (_ + _). by rewrite addrAC. }
  constructor. case: ifP => _; last exact: like_unmask Hr Hdr.
  constructor=> ds. apply: like_answer. exact: like_unmask Hr Hdr.
Qed.

Lemma like_trans num c id vx vx' random random_n dr dn tr L coin :
  size vx = num -> size vx' = num -> size random = num -> size random_n = num -> size dr = num -> size dn = num ->
  (forall j, (j < num)%N -> nth 0 dn j + nth 0 vx' j = nth 0 vx j) ->
  like (moved dr) (trans (I := I) emb ser de c id vx random random_n tr L coin (fun y => Ret (Leaf [:: y])))
    (trans emb ser de c id vx' (vadd random dr) (vadd random_n dn) tr L coin (fun y => Ret (Leaf [:: y]))).
Proof.
  move=> Hx Hx' Hr Hz Hdr Hdz E. rewrite /trans !(size_vadd_eq (num := num)) // Hx Hx' Hz !eqxx /=.
  have -> : zipw +%R (vadd random_n dn) vx' = zipw +%R random_n vx.
  { have Er j : (j < num)%N -> nth 0 (vadd random_n dn) j = nth 0 random_n j + nth 0 dn j by move=> Hj; rewrite (nth_vadd (num := num)).
    have := size_vadd_eq Hz Hdz. move: (vadd random_n dn) Er => r' Er Sr.
    apply: (@eq_from_nth _ 0); rewrite !size_zipw ?Hx ?Hx' ?Hz ?Sr ?minnn // => j Hj.
    by rewrite !nth_zipw ?Hx ?Hx' ?Hz ?Sr // Er // -(E j Hj) addrA. }
  constructor. case: ifP => _; last exact: like_unmask Hr Hdr.
  constructor=> ds. apply: like_answer. exact: like_unmask Hr Hdr.
Qed.
End Codes.

(** The change of dice that makes a run with other secrets look the same, and
    that it can be undone. *)

From Coq Require Import NArith List.
From Verif Require Import CircuitModel LpnModel.
From mathcomp Require Import all_ssreflect all_algebra zify.
From Verif Require Import MathModel MathProofs MatProofs SharingModel SharingSpec SharingProofs.
From Verif Require Import MachineModel MachineProofs MachineBuild Realize CoreModel CoreSpec CoreProofs.
From Verif Require Import RandTransProofs PreprocModel PreprocSpec PreprocProofs GarbleModel GarbleSpec GarbleGates GarbleTf GarbleWires GarbleRun.
From Verif Require Import ViewProofs TwinProofs TwinCore TwinRand TwinTf TwinWires TwinGates TwinRun TwinDeal Triangle DiceSpec.
From Verif Require ProtoIdModel.
Set Implicit Arguments.
Unset Strict Implicit.
Unset Printing Implicit Defensive.
Import GRing.Theory.
Local Open Scope ring_scope.

Section Dice.
Variable F : fieldType.
Variable emb : nat -> F.
Variables (n t l : nat) (P Pn : pss F).
Hypothesis HS : setting emb n t l P Pn.
Variable B : nat.
Notation pos := (default_pos emb n l).
Notation fam := {ffun slot B 6 -> F}.
Notation die := (@die F B 6).

Let n_pos : (0 < n)%N := npos HS.

(** ** What dice deal, as polynomials *)
Definition shp (k : nat) (s : nat -> seq F) (w : fam) (j : nat) : {poly F} :=
  through emb n (t + l) pos (fun q => nth 0 (s j) q) (fun c => die w k j c 0 0).
Definition rndp (w : fam) (j : nat) : {poly F} := through emb n (t + l) [::] (fun _ => 0) (fun c => die w 3 j c 0 0).
Definition zrop (w : fam) (j : nat) : {poly F} := through emb n n pos (fun _ => 0) (fun c => die w 4 j c 0 0).

Lemma gp0 : good_pos emb n [::]. Proof. have [_ _ _ Hg] := HS. exact: U_sh Hg. Qed.
Lemma gpl : good_pos emb n pos. Proof. by have [_ _ _ Hg] := HS. Qed.
Lemma tln : (0 < t + l <= n)%N. Proof. exact: tl_le n_pos HS. Qed.
Lemma szp : size pos = l. Proof. by rewrite size_map size_iota. Qed.
Lemma fitp : (size pos <= t + l)%N /\ (t + l <= size pos + n)%N. Proof. have := tln. rewrite szp. lia. Qed.
Lemma fit0 : (size (Nil F) <= t + l)%N /\ (t + l <= size (Nil F) + n)%N. Proof. have := tln. simpl. lia. Qed.
Lemma fitz : (size pos <= n)%N /\ (n <= size pos + n)%N. Proof. have := tln. rewrite szp. lia. Qed.

Lemma part_evals (p : {poly F}) i : (i < n)%N -> nth 0 [seq p.[emb j] | j <- iota 0 n] i = p.[emb i].
Proof. move=> Hi. by rewrite (nth_map 0%N) ?size_iota // nth_iota. Qed.

Lemma share_dealt k s w j i : (i < n)%N -> size (s j) = l -> nth 0 (odflt [::] (pss_share P (s j) (fun c => die w k j c 0 0))) i = (shp k s w j).[emb i].
Proof.
  move=> Hi Hs. have /andP [Ht Hk] := tln. have [_ HP _ _] := HS. have En : ((t + l).-1.+1 = t + l)%N by rewrite prednK.
  have [|p [Q1 Q2 Q3 ->]] := @secret_dealt F emb n t l P Pn n_pos HS P (t + l).-1 (s j) (fun c => die w k j c 0 0) HP _ Hs; first by lia.
  rewrite En in Q1 Q3. rewrite part_evals //. have [F1 F2] := fitp. have G := gpl.
  congr (_.[_]). apply: through_eq => // [q|c]; rewrite szp => Hq; [exact: Q2|apply: Q3]. lia.
Qed.

Lemma rand_cast w j i : (i < n)%N -> nth 0 (odflt [::] (pss_rand P (fun c => die w 3 j c 0 0))) i = (rndp w j).[emb i].
Proof.
  move=> Hi. have [p [Q1 Q2 ->]] := rand_dealt n_pos HS (fun c => die w 3 j c 0 0). rewrite part_evals //.
  have [F1 F2] := fit0. have G := gp0. congr (_.[_]). apply: through_eq => // c. rewrite addn0. exact: Q2.
Qed.

Lemma zero_cast w j i : (i < n)%N -> nth 0 (odflt [::] (pss_share Pn (nseq l 0) (fun c => die w 4 j c 0 0))) i = (zrop w j).[emb i].
Proof.
  move=> Hi. have /andP [Ht Hk] := tln. have [_ _ HPn _] := HS. have En : (n.-1.+1 = n)%N by rewrite prednK.
  have [|p [Q1 Q2 Q3 ->]] := @secret_dealt F emb n t l P Pn n_pos HS Pn n.-1 (nseq l 0) (fun c => die w 4 j c 0 0) HPn _ (size_nseq _ _); first by lia.
  rewrite En in Q1 Q3. rewrite part_evals //. have [F1 F2] := fitz. have G := gpl.
  congr (_.[_]). apply: through_eq => // [q|c]; rewrite szp => Hq; [by rewrite Q2 // nth_nseq Hq|apply: Q3]. lia.
Qed.

Lemma shp_ok k s w j : (size (shp k s w j) <= t + l)%N /\ forall q, (q < l)%N -> (shp k s w j).[nth 0 pos q] = nth 0 (s j) q.
Proof.
  have [F1 F2] := fitp. have [T1 T2 _] := through_ok (fun q => nth 0 (s j) q) (fun c => die w k j c 0 0) gpl F1 F2.
  split=> // q Hq. apply: T2. by rewrite szp.
Qed.
Lemma rndp_ok w j : (size (rndp w j) <= t + l)%N.
Proof. have [F1 F2] := fit0. by have [T1 _ _] := through_ok (fun _ => 0) (fun c => die w 3 j c 0 0) gp0 F1 F2. Qed.
Lemma zrop_ok w j : (size (zrop w j) <= n)%N /\ forall x, x \in pos -> (zrop w j).[x] = 0.
Proof.
  have [F1 F2] := fitz. have [T1 T2 _] := through_ok (fun _ => 0) (fun c => die w 4 j c 0 0) gpl F1 F2.
  split=> // x Hx. rewrite -(nth_index 0 Hx). apply: T2. by rewrite index_mem.
Qed.

(** The same dice, the same polynomials. *)
Lemma shp_ext k s w w' j : (forall c, die w k j c 0 0 = die w' k j c 0 0) -> shp k s w j = shp k s w' j.
Proof. move=> H. have [F1 F2] := fitp. apply: through_ext => //. exact: gpl. Qed.
Lemma rndp_ext w w' j : (forall c, die w 3 j c 0 0 = die w' 3 j c 0 0) -> rndp w j = rndp w' j.
Proof. move=> H. have [F1 F2] := fit0. apply: through_ext => //. exact: gp0. Qed.
Lemma zrop_ext w w' j : (forall c, die w 4 j c 0 0 = die w' 4 j c 0 0) -> zrop w j = zrop w' j.
Proof. move=> H. have [F1 F2] := fitz. apply: through_ext => //. exact: gpl. Qed.

(** ** The change of the dice *)
Variable A : seq nat.
Hypothesis UA : uniq A.
Hypothesis HA : all (fun i => (i < n)%N) A.
Hypothesis tA : (size A <= t)%N.
Variable circ : pcircuit.
Variables (B1 B2 : nat) (hash : seq N -> N) (K M : nat) (cids : seq [eqType of seq N]).
Variables (mk ks es mk' ks' es' : nat -> seq F).
Notation prm := (Lpn K M).
Notation reps := (2 * K + 1)%N.
Notation gates := (p_gates circ).
Notation outs := (out_blocks circ).
Notation inps := (inp_blocks circ).
Let nr1 := (B1 * ((n + t) * reps))%N. Let nr2 := (B2 * ((n + t) * reps))%N.
Let nz1 := (B1 * (2 * n * reps))%N. Let nz2 := (B2 * (2 * n * reps))%N.
Notation moff := (offs (gate_mults prm) gates).
Notation mults := (moff (size gates)).

(** The order in which dice are changed. *)
Definition first_product (j : nat) : bool :=
  let: (gid, q) := seg (gate_mults prm) gates j in is_and (nth g0 gates gid) && (q == 3 * (K + 1))%N.
Definition level (k j : nat) : nat :=
  match k with
  | 3%N => if (j < nr1)%N then 1%N else if (j < nr1 + nr2)%N then 2%N else if first_product (j - (nr1 + nr2)) then 3%N else 4%N
  | 4%N => if (j < nz1)%N then 1%N else if (j < nz1 + nz2)%N then 2%N else 4%N
  | 5%N => 1%N
  | 6%N => 2%N
  | _ => 0%N
  end.
Definition slot_level (s : slot B 6) : nat := let: (k, a, _, _, _) := s in level k a.
Definition cut (m : nat) (w : fam) : fam := [ffun s => if (slot_level s < m)%N then w s else 0].

Definition other (s s' : nat -> seq F) (j : nat) : {poly F} := hidep emb A pos (fun q => nth 0 (s' j) q - nth 0 (s j) q).
Definition Pm (w : fam) := shp 0 mk (cut 1 w).
Definition Pk (w : fam) := shp 1 ks (cut 1 w).
Definition Pm' (w : fam) j := Pm w j + other mk mk' j.
Definition Pk' (w : fam) j := Pk w j + other ks ks' j.
Definition Pr3 (w : fam) (gid : nat) := rndp (cut 4 w) (nr1 + nr2 + (moff gid + 3 * (K + 1)))%N.
Definition K1 (w : fam) := die (cut 2 w) 5.
Definition K2 (w : fam) := die (cut 3 w) 6.
Variable kand : nat -> nat -> nat -> nat -> F.
Definition drand (w : fam) := ex_rand emb n t l A circ B1 B2 hash K M cids (Pm w) (Pk w) (Pm' w) (Pk' w) (rndp (cut 2 w)) (zrop (cut 2 w))
  (from (rndp (cut 3 w)) nr1) (from (zrop (cut 3 w)) nz1) (Pr3 w) (K1 w) (K2 w) kand.
Definition dzero (w : fam) := ex_zero emb n t l A circ B1 B2 hash K M cids (Pm w) (Pk w) (Pm' w) (Pk' w) (rndp (cut 2 w)) (zrop (cut 2 w))
  (from (rndp (cut 3 w)) nr1) (from (zrop (cut 3 w)) nz1) (Pr3 w) (K1 w) (K2 w) kand.
Definition dco1 (w : fam) := ex_co1 emb n l A circ K (Pm w) (Pk w) (Pm' w) (Pk' w).
Definition dco2 (w : fam) := ex_co2 emb n t l A circ B1 K (Pm w) (Pk w) (Pm' w) (Pk' w) (rndp (cut 2 w)) (zrop (cut 2 w)) (K1 w).

Definition delta (w : fam) (s : slot B 6) : F :=
  let: (k, a, b, c, d) := s in
  match nat_of_ord k with
  | 0%N => (other mk mk' a).[emb b]
  | 1%N => (other ks ks' a).[emb b]
  | 2%N => (other es es' a).[emb b]
  | 3%N => (drand w a).[emb b]
  | 4%N => (dzero w a).[emb b]
  | 5%N => dco1 w a b c d
  | 6%N => dco2 w a b c d
  | _ => 0
  end.

Lemma cut_same m m' (w w' : fam) : (forall s, (slot_level s < m')%N -> w s = w' s) -> (m <= m')%N -> cut m w = cut m w'.
Proof. move=> H Hm. apply/ffunP => s. rewrite !ffunE. case: ifP => // Hs. apply: H. exact: leq_trans Hs Hm. Qed.

Lemma delta_tri (w w' : fam) s : (forall s', (slot_level s' < slot_level s)%N -> w s' = w' s') -> delta w s = delta w' s.
Proof.
  case: s => [[[[k a] b] c] d]. rewrite [slot_level (_, _, _, _, _)]/= => H. have C m : (m <= level k a)%N -> cut m w = cut m w' by exact: cut_same H.
  rewrite /delta. case: (nat_of_ord k) C => [|[|[|[|[|[|[|k']]]]]]] C; [exact: erefl|exact: erefl|exact: erefl| | | | |exact: erefl].
  - suff -> : drand w a = drand w' a by exact: erefl. move: C. rewrite /drand /ex_rand /glue -/nr1 -/nr2 /level. case: (ltnP a nr1) => C1.
    { move=> C. by rewrite /Pm' /Pk' /Pm /Pk (C 1%N isT). }
    case: (ltnP a (nr1 + nr2)) => C2.
    { move=> C. by rewrite /Pm' /Pk' /Pm /Pk /K1 (C 1%N isT) (C 2%N isT). }
    case: (ltnP a (nr1 + nr2 + mults)) => C3; last by move=> _. rewrite /first_product. case: (seg _ _ _) => gid q. case: ifP => Hf C.
    { rewrite /ex_gdl /gate_dl. move: Hf. case: (nth g0 gates gid) => [x y z|x y z|x y] /andP [Ha /eqP ->]; [discriminate Ha| |discriminate Ha].
      rewrite /and_dl ltnn. by rewrite /Pm' /Pk' /Pm /Pk /K1 /K2 (C 1%N isT) (C 2%N isT) (C 3%N isT). }
    by rewrite /Pm' /Pk' /Pm /Pk /K1 /K2 /Pr3 (C 1%N isT) (C 2%N isT) (C 3%N isT) (C 4%N isT).
  - suff -> : dzero w a = dzero w' a by exact: erefl. move: C. rewrite /dzero /ex_zero /glue -/nz1 -/nz2 /level. case: (ltnP a nz1) => C1.
    { move=> C. by rewrite /Pm' /Pk' /Pm /Pk (C 1%N isT). }
    case: (ltnP a (nz1 + nz2)) => C2.
    { move=> C. by rewrite /Pm' /Pk' /Pm /Pk /K1 (C 1%N isT) (C 2%N isT). }
    move=> C. by rewrite /Pm' /Pk' /Pm /Pk /K1 /K2 /Pr3 (C 1%N isT) (C 2%N isT) (C 3%N isT) (C 4%N isT).
  - by rewrite /dco1 /Pm' /Pk' /Pm /Pk (C 1%N isT).
  - by rewrite /dco2 /Pm' /Pk' /Pm /Pk /K1 (C 1%N isT) (C 2%N isT).
Qed.

Definition alter (w : fam) : fam := shear delta w.

Definition unalter : fam -> fam := shear_inv slot_level delta.

Lemma alterK : cancel alter unalter.
Proof. exact: shearK delta_tri. Qed.
Lemma unalterK : cancel unalter alter.
Proof. exact: shear_invK delta_tri. Qed.

Lemma alter_die w k a b c d : die (alter w) k a b c d = die w k a b c d + delta w (inord k, inord a, inord b, inord c, inord d).
Proof. by rewrite /DiceSpec.die ffunE. Qed.

Lemma cut_die m w k a b c d : (k <= 6)%N -> (a <= B)%N -> (level k a < m)%N -> die (cut m w) k a b c d = die w k a b c d.
Proof. move=> Hk Ha Hl. by rewrite /DiceSpec.die ffunE /slot_level !inordK // Hl. Qed.

(** ** Both runs *)
Hypothesis Hmk : forall j, size (mk j) = l.
Hypothesis Hks : forall j, size (ks j) = l.
Hypothesis Hes : forall j, size (es j) = l.
Hypothesis Hmk' : forall j, size (mk' j) = l.
Hypothesis Hks' : forall j, size (ks' j) = l.
Hypothesis Hes' : forall j, size (es' j) = l.
Hypothesis nB : (n <= B)%N.

Lemma other_ok s s' j : [/\ (size (other s s' j) <= t + l)%N, forall q, (q < l)%N -> (other s s' j).[nth 0 pos q] = nth 0 (s' j) q - nth 0 (s j) q &
  forall a, a \in A -> (other s s' j).[emb a] = 0].
Proof.
  have Hd : (size pos + size A <= t + l)%N by rewrite szp addnC leq_add2r.
  have [H1 H2 H3] := hidep_ok (fun q => nth 0 (s' j) q - nth 0 (s j) q) UA HA gpl Hd. split=> // q Hq. apply: H2. by rewrite szp.
Qed.

Lemma shp_other k s s' w w' j : (forall c, (c < t)%N -> die w' k j c 0 0 = die w k j c 0 0 + (other s s' j).[emb c]) -> shp k s' w' j = shp k s w j + other s s' j.
Proof.
  move=> H. have [F1 F2] := fitp. have [S1 S2] := shp_ok k s w j. have [O1 O2 O3] := other_ok s s' j.
  have [_ _ T3] := through_ok (fun q => nth 0 (s j) q) (fun c => die w k j c 0 0) gpl F1 F2.
  apply/esym. apply: through_eq => //; first exact: gpl.
  - apply: leq_trans (size_add _ _) _. by rewrite geq_max S1 O1.
  - move=> q. rewrite szp => Hq. by rewrite hornerD S2 // O2 // addrC subrK.
  - move=> c Hc. rewrite hornerD T3 // H //. move: Hc. by rewrite szp ltn_add2r.
Qed.

Variable D : eqType.
Variable ser : seq F -> D.
Variable de : D -> option (seq F).
Variable fits : nat -> Prop.
Hypothesis serK : codec_ok ser de fits.
Hypothesis Hl0 : (0 < l)%N.
Hypothesis HKl : (t + l + l <= n)%N.
Hypothesis Hdeg : (2 * (t + l).-1 <= n.-1)%N.
Hypothesis Hn16 : (n <= 2 ^ 16)%N.
Hypothesis Hwf : wf_packed circ l.
Hypothesis Hinj : distinct_positions emb n l circ.
Hypothesis HB1 : num_batches (size outs) l = Some B1.
Hypothesis HB2 : num_batches (size inps) l = Some B2.
Variable g : nat -> gctx F.
Hypothesis Hg : forall me, (me < n)%N ->
  [/\ g_mpc (g me) = Ctx me n t l P Pn, g_lpn (g me) = prm, g_circ (g me) = circ &
   [/\ g_lookup (g me) = block_map circ, g_out (g me) = tfs emb n t l (tf_out emb n l circ) B1 me & g_inp (g me) = tfs emb n t l (tf_inp emb n l circ) B2 me]].
Hypothesis Hfits : forall m, (m <= 4 * K + 3)%N -> fits m.
Variable cnt : count.
Hypothesis Em : n_masks cnt = size outs.
Hypothesis Ek : n_keys cnt = (2%N, K, size outs).
Hypothesis Ee : n_errors cnt = offs (fun x => gate_rows x * M)%N gates (size gates).
Hypothesis Hnr : (nr1 + nr2 + mults <= n_randoms cnt)%N.
Hypothesis Hnz : (nz1 + nz2 + mults <= n_zeros cnt)%N.
Hypothesis Hen : enough B n circ prm cnt.
Hypothesis Hsh : blocks_shielded n l A circ.

Lemma held_shares k s (num : nat) (w : fam) me : (me < n)%N -> (forall j, size (s j) = l) ->
  [seq nth 0 (odflt [::] (pss_share P (s j) (fun c => die w k j c 0 0))) me | j <- iota 0 num] = held emb (shp k s w) num me.
Proof. move=> Hm Hs. apply/eq_in_map => j _. exact: share_dealt. Qed.

Lemma cast_holds s1 s2 s3 (w : fam) w2 : (forall j, size (s1 j) = l) -> (forall j, size (s2 j) = l) -> (forall j, size (s3 j) = l) ->
  holds emb n circ K M (n_randoms cnt) (n_zeros cnt) (cast_material P Pn l cnt s1 s2 s3 (w, w2)) (Polys (shp 0 s1 w) (shp 1 s2 w) (rndp w) (zrop w) (shp 2 s3 w)).
Proof.
  move=> Z1 Z2 Z3 me Hm. rewrite /cast_material. split; cbn [pp_masks pp_kshape pp_keys o_mask o_key fst].
  - by rewrite held_shares // Em.
  - exact: Ek.
  - by rewrite held_shares // /keys_total Ek.
  - split; cbn [pp_randoms pp_zeros pp_errors o_rand o_zero o_err].
    + apply/eq_in_map => j _. exact: rand_cast.
    + apply/eq_in_map => j _. exact: zero_cast.
    + by rewrite held_shares // Ee.
Qed.

(** The same polynomials, the same material. *)
Lemma holds_ext nr nz pp (o o' : polys F) : holds emb n circ K M nr nz pp o ->
  (forall j, (j < size outs)%N -> o_mask o j = o_mask o' j) -> (forall j, (j < 2 * K * size outs)%N -> o_key o j = o_key o' j) ->
  (forall j, (j < nr)%N -> o_rand o j = o_rand o' j) -> (forall j, (j < nz)%N -> o_zero o j = o_zero o' j) ->
  (forall j, (j < offs (fun x => gate_rows x * M)%N gates (size gates))%N -> o_err o j = o_err o' j) -> holds emb n circ K M nr nz pp o'.
Proof.
  move=> Ho H1 H2 H3 H4 H5 me Hm. have [E1 E2 E3 [E4 E5 E6]] := Ho me Hm.
  split; [|exact: E2| |split]; rewrite ?E1 ?E3 ?E4 ?E5 ?E6; apply: held_ext => j Hj; by rewrite ?H1 ?H2 ?H3 ?H4 ?H5.
Qed.

Lemma dice_exact (id : [eqType of seq N]) chans (w : fam) (w2 : {ffun slot B 1 -> F}) :
  ProtoIdModel.garble_ids id circ (N.of_nat l) = Some chans ->
  ProtoIdModel.take_ids id (4 + N.of_nat (size gates))%num (4 + size gates) = Some cids ->
  kand = (fun me => DiceSpec.die w2 0 me) ->
  let pp := cast_material P Pn l cnt mk ks es (w, w2) in let pp' := cast_material P Pn l cnt mk' ks' es' (alter w, w2) in
  let coins := cast_coins (w, w2) in let coins' := cast_coins (alter w, w2) in
  [/\ forall a, a \in A -> pp a = pp' a, forall a, a \in A -> same_coins (coins a) (coins' a) &
    exists rds rds' : seq ([eqType of seq N] * round D),
   [/\ perm_eq (ids rds) chans, twins n A rds rds',
      exists res, @realizes n _ D (val F) _ rds (fun me k => garble emb ser de hash (g me) id (pp me) (coins me) k) res &
      exists res, @realizes n _ D (val F) _ rds' (fun me k => garble emb ser de hash (g me) id (pp' me) (coins' me) k) res]].
Proof.
  move=> Hids Hc Hka pp pp' coins coins'.
  have [[BM BK] [BR BZ] [BE _] [BO BI _ B3]] := Hen. have /andP [Htl0 Htl] := tln. rewrite /= in B3.
  have BK' : (2 * K * size outs <= B)%N by move: BK; rewrite /keys_total Ek.
  have BM' : (size outs <= B)%N by rewrite -Em.
  have BE' : (offs (fun x => gate_rows x * M)%N gates (size gates) <= B)%N by rewrite -Ee.
  have up m x : (m <= B)%N -> (x < m)%N -> (x <= B)%N by move=> H1 H2; exact: leq_trans (ltnW H2) H1.
  have tB c : (c < t + l)%N -> (c <= B)%N by move=> H; apply: (up n) => //; exact: leq_trans H Htl.
  have Dm j : (j < size outs)%N -> Pm w j = shp 0 mk w j.
  { move=> Hj. apply: shp_ext => c. apply: cut_die => //. exact: up Hj. }
  have Dk j : (j < 2 * K * size outs)%N -> Pk w j = shp 1 ks w j.
  { move=> Hj. apply: shp_ext => c. apply: cut_die => //. exact: up Hj. }
  pose o := Polys (Pm w) (Pk w) (rndp w) (zrop w) (shp 2 es w).
  have Ho : holds emb n circ K M (n_randoms cnt) (n_zeros cnt) pp o.
  { apply: holds_ext (cast_holds w w2 Hmk Hks Hes) _ _ _ _ _ => j Hj //; [exact/esym/Dm|exact/esym/Dk]. }
  have Lm : low t l (size outs) (o_mask o) by move=> j _; exact: (shp_ok 0 mk _ j).1.
  have Lk : low t l (2 * K * size outs) (o_key o) by move=> j _; exact: (shp_ok 1 ks _ j).1.
  have Lr : low t l (n_randoms cnt) (o_rand o) by move=> j _; exact: rndp_ok.
  have Lz : zero_at emb n l (n_zeros cnt) (o_zero o) by move=> j _; exact: zrop_ok.
  have addlow (p q : {poly F}) : (size p <= t + l)%N -> (size q <= t + l)%N -> (size (p + q)%R <= t + l)%N.
  { move=> H1 H2. apply: leq_trans (size_add _ _) _. by rewrite geq_max H1 H2. }
  have Lm' : low t l (size outs) (Pm' w) by move=> j Hj; apply: addlow; [exact: Lm|by have [] := other_ok mk mk' j].
  have Lk' : low t l (2 * K * size outs) (Pk' w) by move=> j Hj; apply: addlow; [exact: Lk|by have [] := other_ok ks ks' j].
  have Am : agree emb A (size outs) (o_mask o) (Pm' w).
  { move=> j a _ Ha. have [_ _ H] := other_ok mk mk' j. by rewrite hornerD H // addr0. }
  have Ak : agree emb A (2 * K * size outs) (o_key o) (Pk' w).
  { move=> j a _ Ha. have [_ _ H] := other_ok ks ks' j. by rewrite hornerD H // addr0. }
  have Hr12 : (nr1 + nr2 <= n_randoms cnt)%N by apply: leq_trans Hnr; exact: leq_addr.
  have Hz12 : (nz1 + nz2 <= n_zeros cnt)%N by apply: leq_trans Hnz; exact: leq_addr.
  have E1 j : (j < nr1)%N -> rndp (cut 2 w) j = o_rand o j.
  { move=> Hj. apply: rndp_ext => c. apply: cut_die => //; last by rewrite /level Hj.
    apply: (up _ _ BR). apply: leq_trans Hr12. apply: leq_trans Hj _. exact: leq_addr. }
  have E2 j : (j < nz1)%N -> zrop (cut 2 w) j = o_zero o j.
  { move=> Hj. apply: zrop_ext => c. apply: cut_die => //; last by rewrite /level Hj.
    apply: (up _ _ BZ). apply: leq_trans Hz12. apply: leq_trans Hj _. exact: leq_addr. }
  have E3 j : (j < nr2)%N -> from (rndp (cut 3 w)) nr1 j = o_rand o (nr1 + j)%N.
  { move=> Hj. apply: rndp_ext => c. have Hj' : (nr1 + j < nr1 + nr2)%N by rewrite ltn_add2l.
    apply: cut_die => //; last by rewrite /level Hj'; case: ifP.
    apply: (up _ _ BR). exact: leq_trans Hj' Hr12. }
  have E4 j : (j < nz2)%N -> from (zrop (cut 3 w)) nz1 j = o_zero o (nz1 + j)%N.
  { move=> Hj. apply: zrop_ext => c. have Hj' : (nz1 + j < nz1 + nz2)%N by rewrite ltn_add2l.
    apply: cut_die => //; last by rewrite /level Hj'; case: ifP.
    apply: (up _ _ BZ). exact: leq_trans Hj' Hz12. }
  have E5 gid : (gid < size gates)%N -> is_and (nth g0 gates gid) -> Pr3 w gid = o_rand o (nr1 + nr2 + (moff gid + 3 * (K + 1)))%N.
  { move=> Hgid Ha. have Hq : (3 * (K + 1) < gate_mults prm (nth g0 gates gid))%N by move: Ha; case: (nth g0 gates gid) => //= *; rewrite -[X in (X < _)%N]addn0 ltn_add2l.
    have Hmul := offs_all (gate_mults prm) Hgid. rewrite /= in Hmul.
    apply: rndp_ext => c. apply: cut_die => //.
    - apply: (up _ _ BR). apply: leq_trans Hnr. rewrite ltn_add2l. apply: leq_trans Hmul. by rewrite ltn_add2l.
    - have C1 : (nr1 + nr2 + (moff gid + 3 * (K + 1)) < nr1)%N = false by clear; lia.
      have C2 : (nr1 + nr2 + (moff gid + 3 * (K + 1)) < nr1 + nr2)%N = false by clear; lia.
      by rewrite /level C1 C2 addKn /first_product seg_offs // Ha eqxx. }
  have X1 me i j c : (me < n)%N -> (i < size outs)%N -> (j < reps)%N -> (c < t + l)%N -> gk_out (coins me) i j c = K1 w me i j c.
  { move=> Hm _ _ _. apply/esym. apply: cut_die => //. exact: up Hm. }
  have X2 me i j c : (me < n)%N -> (i < size inps)%N -> (j < reps)%N -> (c < t + l)%N -> gk_inp (coins me) i j c = K2 w me i j c.
  { move=> Hm _ _ _. apply/esym. apply: cut_die => //. exact: up Hm. }
  pose pe' j := shp 2 es w j + other es es' j.
  have [cids' [rds [rds' [Et [[L1 L2 A1 A2] [Hper Htw] R R2]]]]] := garble_exact serK HS Hl0 HKl Hdeg Hn16 UA HA tA Hwf Hinj HB1 HB2 hash Hg Hfits pe'
    Hsh Hids Ho Hnr Hnz Lm Lk Lr Lz Lm' Lk' Am Ak E1 E2 E3 E4 E5 X1 X2.
  move: Et L1 L2 A1 A2 R2. rewrite Hc => -[<-]. rewrite -[fun me => gk_and (coins me)]/(fun me => DiceSpec.die w2 0 me) -Hka => L1 L2 A1 A2 R2.
  have S0 j : (j < size outs)%N -> shp 0 mk' (alter w) j = Pm' w j.
  { move=> Hj. rewrite /Pm' Dm //. apply: shp_other => c Hct. rewrite alter_die /delta !inordK ?ltnS //; [apply: tB|exact: up Hj].
    apply: leq_trans Hct _. exact: leq_addr. }
  have S1 j : (j < 2 * K * size outs)%N -> shp 1 ks' (alter w) j = Pk' w j.
  { move=> Hj. rewrite /Pk' Dk //. apply: shp_other => c Hct. rewrite alter_die /delta !inordK ?ltnS //; [apply: tB|exact: up Hj].
    apply: leq_trans Hct _. exact: leq_addr. }
  have S2 j : (j < offs (fun x => gate_rows x * M)%N gates (size gates))%N -> shp 2 es' (alter w) j = pe' j.
  { move=> Hj. apply: shp_other => c Hct. rewrite alter_die /delta !inordK ?ltnS //; [apply: tB|exact: up Hj].
    apply: leq_trans Hct _. exact: leq_addr. }
  have S3 j : (j < n_randoms cnt)%N -> rndp (alter w) j = rndp w j + drand w j.
  { move=> Hj. have [F1 F2] := fit0. have [_ _ T3] := through_ok (fun _ => 0) (fun c => die w 3 j c 0 0) gp0 F1 F2.
    apply/esym. apply: through_eq; [exact: gp0|exact: F1|exact: F2|exact: L1|by []|] => c Hcc.
    rewrite hornerD T3 // alter_die /delta !inordK ?ltnS //; [apply: tB|exact: up Hj]. by rewrite addn0 in Hcc. }
  have S4 j : (j < n_zeros cnt)%N -> zrop (alter w) j = zrop w j + dzero w j.
  { move=> Hj. have [F1 F2] := fitz. have [_ _ T3] := through_ok (fun _ => 0) (fun c => die w 4 j c 0 0) gpl F1 F2. have [Z1 Z2] := L2 j Hj.
    apply/esym. apply: through_eq; [exact: gpl|exact: F1|exact: F2|exact: Z1| |].
    - move=> q Hq. apply: Z2. exact: mem_nth.
    - move=> c Hcc. rewrite hornerD T3 // alter_die /delta !inordK ?ltnS //; [|exact: up Hj].
      apply: (up n) => //. apply: leq_trans Hcc. by rewrite ltnS leq_addr. }
  pose o' := Polys (Pm' w) (Pk' w) (fun j => rndp w j + drand w j) (fun j => zrop w j + dzero w j) pe'.
  have Ho' : holds emb n circ K M (n_randoms cnt) (n_zeros cnt) pp' o'.
  { apply: holds_ext (cast_holds (alter w) w2 Hmk' Hks' Hes') _ _ _ _ _ => j Hj; [exact: S0|exact: S1|exact: S3|exact: S4|exact: S2]. }
  have Ae : agree emb A (offs (fun x => gate_rows x * M)%N gates (size gates)) (o_err o) pe'.
  { move=> j a _ Ha. have [_ _ H] := other_ok es es' j. by rewrite hornerD H // addr0. }
  have kB a : a \in A -> (a <= B)%N by move=> /(allP HA) H; exact: up H.
  split.
  - move=> a Ha. have Han := allP HA a Ha.
    have [H1 H2 H3 [H4 H5 H6]] := Ho a Han. have [H1' H2' H3' [H4' H5' H6']] := Ho' a Han.
    rewrite (agree_held Am Ha) in H1. rewrite (agree_held Ak Ha) in H3. rewrite (agree_held A1 Ha) in H4. rewrite (agree_held A2 Ha) in H5. rewrite (agree_held Ae Ha) in H6.
    move: H1 H2 H3 H4 H5 H6 H1' H2' H3' H4' H5' H6'. rewrite -/(drand w) -/(dzero w). cbn [o_mask o_key o_rand o_zero o_err o'].
    case: (pp a) => m1 m2 m3 m4 m5 m6. case: (pp' a) => q1 q2 q3 q4 q5 q6. cbn [pp_masks pp_kshape pp_keys pp_randoms pp_zeros pp_errors].
    move=> -> -> -> H4 H5 -> -> -> -> H4' H5' ->. by rewrite H4 H4' H5 H5'.
  - move=> a Ha i j c. have Z b d e := ex_coA emb n t l circ B1 K (Pm w) (Pk w) (Pm' w) (Pk' w) (rndp (cut 2 w)) (zrop (cut 2 w)) (K1 w) b d e Ha.
    split=> //; cbn [gk_out gk_inp coins coins' cast_coins fst]; rewrite alter_die /delta !(@inordK 6) // (@inordK B a) ?ltnS ?kB //.
    + by rewrite /dco1 (Z _ _ _).1 addr0.
    + by rewrite /dco2 (Z _ _ _).2 addr0.
  - exists rds, rds'. split; [exact: Hper|exact: Htw|exact: R|].
    apply: (R2 pp' coins' Ho').
    + by move=> me; split.
    + move=> me i j c Hm Hi Hj Hcc. rewrite -(X1 me i j c) //. cbn [gk_out coins coins' cast_coins fst]. rewrite alter_die /delta !inordK ?ltnS //;
        [exact: tB|apply: leq_trans B3; clear -Hj; lia|exact: up Hi|exact: up Hm].
    + move=> me i j c Hm Hi Hj Hcc. rewrite -(X2 me i j c) //. cbn [gk_inp coins coins' cast_coins fst]. rewrite alter_die /delta !inordK ?ltnS //;
        [exact: tB|apply: leq_trans B3; clear -Hj; lia|exact: up Hi|exact: up Hm].
Qed.
End Dice.

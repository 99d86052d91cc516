(** The core protocols in two executions that look the same to a set of
    parties: shifted inputs and masks. *)

From mathcomp Require Import all_ssreflect all_algebra zify.
From Verif Require Import MathModel MathProofs MatProofs SharingModel SharingSpec SharingProofs.
From Verif Require Import MachineModel MachineProofs MachineBuild Realize CoreModel CoreSpec CoreProofs RandTransProofs.
From Verif Require Import PreprocModel PreprocSpec PreprocProofs GarbleGates ViewProofs TwinProofs.
Set Implicit Arguments.
Unset Strict Implicit.
Unset Printing Implicit Defensive.
Import GRing.Theory.
Local Open Scope ring_scope.

Lemma shift_id (R : ringType) (m m' r e z : R) : m' + (r + e) + (z + (m - m' - e)) = m + r + z.
Proof.
  have -> : m - m' - e = m - (m' + e) by rewrite opprD addrA.
  rewrite [r + e]addrC [z + _]addrC [m' + _]addrA. move: (m' + e) => s.
  rewrite addrA. congr (_ + _). by rewrite addrC addrA subrK.
Qed.

(** ** Polynomials through given points *)
Section Fit.
Variable F : fieldType.
Variable emb : nat -> F.

Definition fit (pts vals : seq F) : {poly F} := interp pts (fun x => nth 0 vals (index x pts)).

Lemma fit_ok pts vals : uniq pts -> size vals = size pts -> (size (fit pts vals) <= size pts)%N /\ evals (fit pts vals) pts = vals.
Proof.
  move=> U Hs. split; first exact: interp_size.
  apply: (@eq_from_nth _ 0); rewrite size_evals // => i Hi.
  by rewrite (nth_map 0) // interp_eval ?mem_nth // index_uniq.
Qed.

(** Given values at positions, zero for the parties [A]. *)
Definition hidep (A : seq nat) (ps : seq F) (v : nat -> F) : {poly F} :=
  fit (ps ++ [seq emb i | i <- A]) ([seq v k | k <- iota 0 (size ps)] ++ nseq (size A) 0).

Lemma hidep_ok n A ps v d : uniq A -> all (fun i => (i < n)%N) A -> good_pos emb n ps -> (size ps + size A <= d)%N ->
  [/\ (size (hidep A ps v) <= d)%N, forall k, (k < size ps)%N -> (hidep A ps v).[nth 0 ps k] = v k & forall a, a \in A -> (hidep A ps v).[emb a] = 0].
Proof.
  move=> UA HA Hg Hs. have U := sub_pos Hg UA HA.
  have [|S E] := @fit_ok (ps ++ [seq emb i | i <- A]) ([seq v k | k <- iota 0 (size ps)] ++ nseq (size A) 0) U.
  { by rewrite !size_cat !size_map size_iota size_nseq. }
  rewrite -/(hidep A ps v) in S E. move: E. rewrite evals_cat => /eqP. rewrite eqseq_cat ?size_evals ?size_map ?size_iota // => /andP [/eqP E1 /eqP E2].
  split.
  - apply: (leq_trans S). by rewrite size_cat size_map.
  - move=> k Hk. have := congr1 (fun s => nth 0 s k) E1. by rewrite !(nth_map 0) // (nth_map 0%N) ?size_iota // nth_iota.
  - move=> i Hi. have Hx : (index i A < size A)%N by rewrite index_mem.
    have := congr1 (fun v => nth 0 v (index i A)) E2. rewrite /evals -map_comp (nth_map 0%N) // nth_index //=.
    by rewrite nth_nseq if_same.
Qed.

(** Given values at positions and for the first parties. *)
Definition through (n K : nat) (ps : seq F) (v c : nat -> F) : {poly F} :=
  fit (take K (ps ++ share_pos emb n)) ([seq v k | k <- iota 0 (size ps)] ++ [seq c i | i <- iota 0 (K - size ps)]).

Lemma through_pts n K (ps : seq F) : (size ps <= K)%N -> take K (ps ++ share_pos emb n) = ps ++ take (K - size ps) (share_pos emb n).
Proof. move=> H. by rewrite take_cat ltnNge H. Qed.

Lemma through_size_pts n K (ps : seq F) : (size ps <= K)%N -> (K <= size ps + n)%N -> size (take (K - size ps) (share_pos emb n)) = (K - size ps)%N.
Proof. move=> H1 H2. rewrite size_takel // size_share_pos. by rewrite leq_subLR. Qed.

Lemma through_ok n K ps v c : good_pos emb n ps -> (size ps <= K)%N -> (K <= size ps + n)%N ->
  [/\ (size (through n K ps v c) <= K)%N, forall k, (k < size ps)%N -> (through n K ps v c).[nth 0 ps k] = v k &
    forall i, (i + size ps < K)%N -> (through n K ps v c).[emb i] = c i].
Proof.
  move=> Hg H1 H2. have U : uniq (take K (ps ++ share_pos emb n)) by apply: take_uniq; exact: Hg.
  have Z := through_size_pts H1 H2.
  have Sp : size (take K (ps ++ share_pos emb n)) = K by rewrite through_pts // size_cat Z subnKC.
  have [|S E] := @fit_ok _ ([seq v k | k <- iota 0 (size ps)] ++ [seq c i | i <- iota 0 (K - size ps)]) U.
  { by rewrite Sp size_cat !size_map !size_iota subnKC. }
  rewrite -/(through n K ps v c) Sp in S E. move: E. rewrite through_pts // evals_cat => /eqP.
  rewrite eqseq_cat ?size_evals ?size_map ?size_iota // => /andP [/eqP E1 /eqP E2]. split=> //.
  - move=> k Hk. have := congr1 (fun s => nth 0 s k) E1. by rewrite !(nth_map 0) // (nth_map 0%N) ?size_iota // nth_iota.
  - move=> i Hi. have Hi' : (i < K - size ps)%N by rewrite ltn_subRL addnC. have Hin : (i < n)%N by lia.
    have := congr1 (fun s => nth 0 s i) E2. rewrite (nth_map 0) ?Z // nth_take // (nth_map 0%N) ?size_iota //.
    by rewrite (nth_map 0%N) ?size_iota // !nth_iota.
Qed.

Lemma through_eq n K ps v c (p : {poly F}) : good_pos emb n ps -> (size ps <= K)%N -> (K <= size ps + n)%N -> (size p <= K)%N ->
  (forall k, (k < size ps)%N -> p.[nth 0 ps k] = v k) -> (forall i, (i + size ps < K)%N -> p.[emb i] = c i) -> p = through n K ps v c.
Proof.
  move=> Hg H1 H2 Hp Ev Ec. have U : uniq (take K (ps ++ share_pos emb n)) by apply: take_uniq; exact: Hg.
  have Z := through_size_pts H1 H2.
  have Sp : size (take K (ps ++ share_pos emb n)) = K by rewrite through_pts // size_cat Z subnKC.
  have [T1 T2 T3] := through_ok v c Hg H1 H2. apply: (poly_agree U); rewrite ?Sp //.
  rewrite through_pts // !evals_cat. congr (_ ++ _); apply: (@eq_from_nth _ 0); rewrite !size_evals // => i Hi.
  - by rewrite !(nth_map 0) // Ev // T2.
  - rewrite Z in Hi. have Hin : (i < n)%N by lia. rewrite !(nth_map 0) ?Z // nth_take // (nth_map 0%N) ?size_iota // nth_iota // add0n.
    by rewrite Ec ?T3 //; lia.
Qed.

Lemma through_shift n K ps v c (e : {poly F}) : good_pos emb n ps -> (size ps <= K)%N -> (K <= size ps + n)%N -> (size e <= K)%N ->
  through n K ps v c + e = through n K ps (fun k => v k + e.[nth 0 ps k]) (fun i => c i + e.[emb i]).
Proof.
  move=> Hg H1 H2 He. have [T1 T2 T3] := through_ok v c Hg H1 H2. apply: through_eq => //.
  - apply: leq_trans (size_add _ _) _. by rewrite geq_max T1 He.
  - move=> k Hk. by rewrite hornerD T2.
  - move=> i Hi. by rewrite hornerD T3.
Qed.

Lemma through_ext n K ps v v' c c' : good_pos emb n ps -> (size ps <= K)%N -> (K <= size ps + n)%N ->
  (forall k, (k < size ps)%N -> v k = v' k) -> (forall i, (i + size ps < K)%N -> c i = c' i) -> through n K ps v c = through n K ps v' c'.
Proof.
  move=> Hg H1 H2 Ev Ec. have [T1 T2 T3] := through_ok v c Hg H1 H2. apply: through_eq => // [k Hk|i Hi]; [by rewrite T2 ?Ev|by rewrite T3 ?Ec].
Qed.

(** The polynomial of all shares. *)
Definition allp (n : nat) (v : nat -> F) : {poly F} := through n n [::] (fun _ => 0) v.

Lemma allp_eq n v (p : {poly F}) : good_pos emb n [::] -> (size p <= n)%N -> (forall i, (i < n)%N -> p.[emb i] = v i) -> p = allp n v.
Proof. move=> Hg Hp H. apply: through_eq => // i. rewrite /= addn0. exact: H. Qed.
End Fit.

Section Twin.
Variable F : fieldType.
Variable emb : nat -> F.
Variables I D : eqType.
Variable ser : seq F -> D.
Variable de : D -> option (seq F).
Variable fits : nat -> Prop.
Hypothesis serK : codec_ok ser de fits.
Variables (n t l : nat) (P Pn : pss F).
Hypothesis HS : setting emb n t l P Pn.
Variable A : seq nat.
Hypothesis UA : uniq A.
Hypothesis HA : all (fun i => (i < n)%N) A.
Hypothesis tA : (size A <= t)%N.
Notation mk me := (Ctx me n t l P Pn).
Notation pos := (default_pos emb n l).
Notation sharings := (sharings emb n).
Notation held := (held emb).
Notation realizes := (@realizes n I D (val F)).
Notation vsub := (zipw (fun a b : F => a - b)).

(** Polynomials of low degree, sharings of zeros, polynomials with the same
    shares for the parties. *)
Definition low (num : nat) (p : nat -> {poly F}) : Prop := forall j, (j < num)%N -> (size (p j) <= t + l)%N.
Definition high (num : nat) (p : nat -> {poly F}) : Prop := forall j, (j < num)%N -> (size (p j) <= n)%N.
Definition zero_at (num : nat) (p : nat -> {poly F}) : Prop :=
  forall j, (j < num)%N -> (size (p j) <= n)%N /\ forall x, x \in pos -> (p j).[x] = 0.
Definition agree (num : nat) (p p' : nat -> {poly F}) : Prop :=
  forall j a, (j < num)%N -> a \in A -> (p j).[emb a] = (p' j).[emb a].
Definition null (num : nat) (d : nat -> {poly F}) : Prop := forall j a, (j < num)%N -> a \in A -> (d j).[emb a] = 0.

Lemma Kn : (t + l <= n)%N.
Proof. clear UA HA tA. have [Ht + _ _] := HS. rewrite /pss_new. case: ifP => // H _. lia. Qed.

Lemma npos : (0 < n)%N. Proof. clear UA HA tA. have [Ht _ _ _] := HS. have := Kn. lia. Qed.

Lemma sh_low num p : low num p -> sharings (t + l).-1 pos num (held p num) (fun j => [seq (p j).[x] | x <- pos]).
Proof. move=> H. have [Ht _ _ _] := HS. apply: held_sharings => j Hj. rewrite prednK //. exact: H. Qed.

Lemma sh_high num p ps : high num p -> sharings n.-1 ps num (held p num) (fun j => [seq (p j).[x] | x <- ps]).
Proof. move=> H. apply: held_sharings => j Hj. rewrite prednK ?npos //. exact: H. Qed.

Lemma sh_zero num p : zero_at num p -> sharings n.-1 pos num (held p num) (fun _ => nseq l 0).
Proof.
  move=> H. apply: sharings_ext (@sh_high num p pos _) => // [j Hj|j Hj]; last by have [] := H j Hj.
  have [_ E] := H j Hj. apply: (@eq_from_nth _ 0); rewrite size_map size_pos ?size_nseq // => k Hk.
  rewrite (nth_map 0) ?size_pos // nth_nseq Hk. by apply: E; rewrite mem_nth ?size_pos.
Qed.

Lemma low_high num p : low num p -> high num p.
Proof. move=> H j Hj. exact: leq_trans (H j Hj) Kn. Qed.

Lemma agree_held num p p' : agree num p p' -> forall a, a \in A -> held p num a = held p' num a.
Proof. move=> H a Ha. apply: held_ext => j Hj. exact: H. Qed.

Lemma agree_sub num p p' : agree num p p' -> null num (fun j => p j - p' j).
Proof. move=> H j a Hj Ha. by rewrite hornerD hornerN H // subrr. Qed.

Lemma agree_null num p d : null num d -> agree num p (fun j => p j + d j).
Proof. move=> H j a Hj Ha. by rewrite hornerD H // addr0. Qed.

(** A polynomial with given values at positions that vanishes for the parties. *)
Lemma hide ps (v : nat -> F) d : good_pos emb n ps -> (size ps + size A <= d)%N -> (0 < d)%N ->
  exists p : {poly F}, [/\ (size p <= d)%N, forall k, (k < size ps)%N -> p.[nth 0 ps k] = v k & forall a, a \in A -> p.[emb a] = 0].
Proof.
  move=> Hg Hs Hd. exists (hidep emb A ps v). exact (hidep_ok v UA HA Hg Hs).
Qed.

(** What is dealt with given coins. *)
Lemma share_by_poly sec r (p : {poly F}) : pss_new emb (t + l).-1 n pos = Some P -> good_pos emb n pos -> (size pos <= (t + l).-1.+1)%N ->
  (size p <= (t + l).-1.+1)%N -> evals p pos = sec -> (forall i, (i + size pos < (t + l).-1.+1)%N -> p.[emb i] = r i) -> 
  pss_share P sec r = Some (evals p (share_pos emb n)).
Proof.
  move=> HP Hg Hl Hp E1 E2. have HK := Kn. have [Ht _ _ _] := HS. move: HP. rewrite /pss_new. case: ifP => // Hd [<-].
  rewrite /pss_share [ps_share _]/= [ps_l _]/=. apply: share_of_poly => //.
  - by rewrite -E1 size_evals subnn cats0 take_oversize // size_evals.
  - move: E2 Hl. rewrite !size_pos => E2 Hl. have Hz : ((t + l).-1.+1 - l <= n)%N by move: Hd; clear; lia.
    apply: (@eq_from_nth _ 0); rewrite size_evals size_takel ?size_share_pos ?size_map ?size_iota //.
    move=> i Hi. have Hin : (i < n)%N by exact: leq_trans Hz.
    rewrite (nth_map 0) ?size_takel ?size_share_pos ?nth_take //.
    rewrite (nth_map 0%N) ?size_iota // (nth_map 0%N) ?size_iota // !nth_iota // E2 //. clear -Hi Hl. lia.
Qed.

(** The leader's answer depends on the masked values only. *)
Lemma reduce_pair (id : I) num L (coin : nat -> nat -> nat -> F) u : (L < n)%N -> fits num -> high num u ->
  let dn j := through emb n (t + l) pos (fun k => (u j).[nth 0 pos k]) (coin L j) in
  exists (dnv : nat -> seq F), [/\ low num dn,
    forall j x, (j < num)%N -> x \in pos -> (dn j).[x] = (u j).[x], forall i, (i < n)%N -> dnv i = held dn num i &
    forall vx random zero, (forall i, (i < n)%N -> [/\ size (vx i) = num, size (random i) = num, size (zero i) = num &
        zipw +%R (zipw +%R (vx i) (random i)) (zero i) = held u num i]) ->
      realizes [:: (id, Lead L (fun i => ser (held u num i)) (fun i => ser (dnv i)))]
        (fun me k => reduce_degree ser de (mk me) id (vx me) (random me) (zero me) L (coin me) k) (fun me => vsub (dnv me) (random me))].
Proof.
  move=> HL Hf Hu dn. have Hn := npos. have [Ht HP HPn Hg] := HS. have HK := Kn.
  have Hl : (size pos <= (t + l).-1.+1)%N by rewrite size_pos prednK // leq_addl.
  have Su := sh_high pos Hu. pose y j := [seq (u j).[x] | x <- pos].
  pose sh j := dealt P (y j) (coin L j).
  have Hsh j : pss_share P (y j) (coin L j) = Some (sh j) /\ is_sharing emb n (t + l).-1 pos (y j) (sh j).
  { by apply: (dealtE HP Hg Hl); rewrite size_map. }
  have Hgl : reduce_leader de (mk L) num (coin L) [seq ser (held u num s) | s <- iota 0 n] = Some [seq sh j | j <- iota 0 num].
  { rewrite /reduce_leader /= (unpack_ser serK Hf) //=; last by move=> i Hi; apply: Su.1.
    rewrite (@all_some_map_in _ _ _ sh) => [|j]; last first.
    { rewrite mem_iota /= => Hj. rewrite col_map (semihon_n Hn HPn Hg (Su.2 j Hj)) /=. exact: (Hsh j).1. }
    rewrite /= to_mat_flatten ?size_map ?size_iota // => z /mapP [j]. rewrite mem_iota /= => Hj ->.
    have [Hs _] := sharing_size (Hsh j).2. exact: Hs. }
  have Sd : sharings (t + l).-1 pos num (lead_down num sh) y.
  { apply: lead_down_sharings => // j Hj. exact: (Hsh j).2. }
  have Hl1 : (size pos <= t + l)%N by rewrite size_pos leq_addl. have Hl2 : (t + l <= size pos + n)%N by apply: leq_trans HK _; exact: leq_addl.
  have Hdn j := through_ok (fun k => (u j).[nth 0 pos k]) (coin L j) Hg Hl1 Hl2.
  have Esh j : sh j = evals (dn j) (share_pos emb n).
  { have [T1 T2 T3] := Hdn j. have Es := (Hsh j).1. rewrite (share_by_poly HP Hg Hl (p := dn j)) ?prednK // in Es; first by case: Es.
    - apply: (@eq_from_nth _ 0); rewrite !size_evals // => k Hk. by rewrite !(nth_map 0) // T2. }
  exists (lead_down num sh). split.
  - move=> j Hj. by have [] := Hdn j.
  - move=> j x Hj Hx. have [_ T2 _] := Hdn j. have := T2 (index x pos). rewrite index_mem nth_index //. exact.
  - move=> i Hi. rewrite /lead_down /held. apply: eq_map => j. by rewrite Esh (nth_map 0) ?size_share_pos // (nth_map 0%N) ?size_iota // nth_iota.
  - move=> vx random zero Hv.
    have R := @lead_realizes F I D ser de fits serK n t l P Pn Hn id num L (held u num) sh random _ HL Hf (fun i Hi => let: And4 _ H _ _ := Hv i Hi in H) Hgl.
    apply: realizes_eq R => // i k Hi. have [E1 E2 E3 E4] := Hv i Hi. rewrite /reduce_degree E1 E2 E3 eqxx E4 /=.
    by case: eqP => [->|].
Qed.

Lemma sz_mul (p q : {poly F}) : (2 * (t + l).-1 <= n.-1)%N -> (size p <= t + l)%N -> (size q <= t + l)%N -> (size (p * q)%R <= n)%N.
Proof.
  move=> Hdeg Hp Hq. have Hn := npos. have [Ht _ _ _] := HS. clear UA HA tA.
  apply: leq_trans (size_mul_leq _ _) _. move: Hp Hq. move: (size p) (size q) => a b. lia.
Qed.

(** What the leader of a multiplication deals. *)
Definition mdeal (px py pr : nat -> {poly F}) (c : nat -> nat -> F) (j : nat) : {poly F} :=
  through emb n (t + l) pos (fun k => (px j * py j + pr j).[nth 0 pos k]) (c j).

(** Products with the same masked values look the same to everybody. *)
Lemma mult_shift (id : I) num L coin px py pr pz : (2 * (t + l).-1 <= n.-1)%N -> (L < n)%N -> fits num ->
  low num px -> low num py -> low num pr -> zero_at num pz ->
  exists (rd : round D), let dn := mdeal px py pr (coin L) in [/\ alike n A rd rd, low num dn,
     forall j x, (j < num)%N -> x \in pos -> (dn j).[x] = (px j).[x] * (py j).[x] + (pr j).[x] &
     forall p q r z, (forall j, (j < num)%N -> p j * q j + r j + z j = px j * py j + pr j + pz j) ->
       realizes [:: (id, rd)] (fun me k => mult ser de (mk me) id (held p num me) (held q num me) (held r num me) (held z num me) L (coin me) k)
         (held (fun j => dn j - r j) num)].
Proof.
  move=> Hdeg HL Hf Lx Ly Lr Lz. have HK := Kn.
  pose u j := px j * py j + pr j + pz j.
  have Su : high num u.
  { move=> j Hj. have [H3 _] := Lz j Hj. rewrite !sz_add // ?sz_mul ?Lx ?Ly //. exact: leq_trans (Lr j Hj) HK. }
  have [dnv] := @reduce_pair id num L coin u HL Hf Su. set dn' := fun j => through _ _ _ _ _ _. move=> [H1 H1' H2 H3].
  have [Ht _ _ Hg] := HS. have Hl1 : (size pos <= t + l)%N by rewrite size_pos leq_addl.
  have Hl2 : (t + l <= size pos + n)%N by apply: leq_trans HK _; exact: leq_addl.
  have Ed j : (j < num)%N -> mdeal px py pr (coin L) j = dn' j.
  { move=> Hj. apply: through_ext => // k Hk. have [_ Z] := Lz j Hj. by rewrite [(u j).[_]]hornerD Z ?addr0 ?mem_nth. }
  have Emul p q i : zipw *%R (held p num i) (held q num i) = held (fun j => p j * q j) num i.
  { rewrite /held zipw_map. apply: eq_map => j. by rewrite hornerM. }
  exists (Lead L (fun i => ser (held u num i)) (fun i => ser (dnv i))). cbv zeta. split=> //.
  - by move=> j Hj; rewrite Ed // H1.
  - move=> j x Hj Hx. have [_ Z] := Lz j Hj. by rewrite Ed // H1' // !hornerD hornerM Z // addr0.
  - move=> p q r z Eu. have R := H3 (held (fun j => p j * q j) num) (held r num) (held z num).
    apply: realizes_eq (R _) => [i k Hi|i Hi|i Hi].
    + by rewrite /mult !size_held eqxx Emul.
    + rewrite H2 // held_sub. by apply: held_ext => j Hj; rewrite Ed.
    + rewrite !size_held !held_add. split=> //. apply: held_ext => j Hj. by rewrite Eu.
Qed.

(** A shift of a mask that makes up for a difference at the positions. *)
Definition offp (d : {poly F}) : {poly F} := hidep emb A pos (fun k => d.[nth 0 pos k]).

Lemma offp_ok d : [/\ (size (offp d) <= t + l)%N, forall a, a \in A -> (offp d).[emb a] = 0 & forall x, x \in pos -> (offp d).[x] = d.[x]].
Proof.
  have [Ht _ _ Hg] := HS.
  have [|H1 H2 H3] := hidep_ok (fun k => d.[nth 0 pos k]) (d := (t + l)%N) UA HA Hg.
  { by rewrite size_pos addnC leq_add2r. }
  split=> // x Hx. have := H2 (index x pos). rewrite index_mem nth_index //. exact.
Qed.

Lemma offset num dl : exists e : nat -> {poly F}, [/\ low num e, null num e & forall j x, (j < num)%N -> x \in pos -> (e j).[x] = (dl j : {poly F}).[x]].
Proof. exists (fun j => offp (dl j)). by split=> [j Hj|j a Hj Ha|j x Hj Hx]; have [H1 H2 H3] := offp_ok (dl j); rewrite ?H2 ?H3. Qed.

(** The other masks of a multiplication, and what comes out. *)
Definition mdl (px py px' py' : nat -> {poly F}) (j : nat) : {poly F} := px j * py j - px' j * py' j.
Definition mpr (pr dl : nat -> {poly F}) (j : nat) : {poly F} := pr j + offp (dl j).
Definition mpz (pz dl : nat -> {poly F}) (j : nat) : {poly F} := pz j + (dl j - offp (dl j)).
Definition mout (px py pr : nat -> {poly F}) (c : nat -> nat -> F) (j : nat) : {poly F} := mdeal px py pr c j - pr j.

Lemma mult_exact (id : I) num L coin px py px' py' pr pz : (2 * (t + l).-1 <= n.-1)%N -> (L < n)%N -> fits num ->
  low num px -> low num py -> low num px' -> low num py' -> agree num px px' -> agree num py py' ->
  low num pr -> zero_at num pz ->
  let dl := mdl px py px' py' in let pr' := mpr pr dl in let pz' := mpz pz dl in
  let w := mout px py pr (coin L) in let w' j := w j - offp (dl j) in
  exists (rd : round D),
   [/\ [/\ low num pr', zero_at num pz', agree num pr pr' & agree num pz pz'], [/\ low num w, low num w' & agree num w w'], alike n A rd rd,
     realizes [:: (id, rd)] (fun me k => mult ser de (mk me) id (held px num me) (held py num me) (held pr num me) (held pz num me) L (coin me) k) (held w num) &
     realizes [:: (id, rd)] (fun me k => mult ser de (mk me) id (held px' num me) (held py' num me) (held pr' num me) (held pz' num me) L (coin me) k) (held w' num)].
Proof.
  move=> Hdeg HL Hf Lx Ly Lx' Ly' Ax Ay Lr Lz dl pr' pz' w w'. have HK := Kn.
  have Sdl : high num dl by move=> j Hj; rewrite sz_sub // sz_mul ?Lx ?Ly ?Lx' ?Ly'.
  have Ndl : null num dl by move=> j a Hj Ha; rewrite hornerD hornerN !hornerM Ax // Ay // subrr.
  pose e j := offp (dl j).
  have [Le Ne Ee] : [/\ low num e, null num e & forall j x, (j < num)%N -> x \in pos -> (e j).[x] = (dl j).[x]].
  { by split=> [j Hj|j a Hj Ha|j x Hj Hx]; have [H1 H2 H3] := offp_ok (dl j); rewrite /e ?H2 ?H3. }
  have Lr' : low num pr' by move=> j Hj; rewrite /pr' /mpr sz_add ?Lr ?Le.
  have Ar : agree num pr pr' by apply: agree_null.
  have Lz' : zero_at num pz'.
  { move=> j Hj. have [H3 H4] := Lz j Hj. split.
    - rewrite /pz' /mpz sz_add // sz_sub //; [exact: Sdl|exact: leq_trans (Le j Hj) HK].
    - move=> x Hx. by rewrite hornerD [(dl j - _).[x]]hornerD hornerN H4 // add0r Ee // subrr. }
  have Az : agree num pz pz'.
  { apply: agree_null => j a Hj Ha. by rewrite hornerD hornerN Ndl // Ne // subr0. }
  have [rd [H0 H1 _ Main]] := mult_shift id coin Hdeg HL Hf Lx Ly Lr Lz.
  have Ew j : w' j = mdeal px py pr (coin L) j - pr' j by rewrite /w' /w /mout /pr' /mpr opprD addrA.
  exists rd. split=> //.
  - split.
    + move=> j Hj. by rewrite sz_sub ?H1 ?Lr.
    + move=> j Hj. by rewrite Ew sz_sub ?H1 ?Lr'.
    + move=> j a Hj Ha. by rewrite Ew !hornerD !hornerN -Ar.
  - exact: Main.
  - apply: realizes_eq (Main px' py' pr' pz' _) => // [i Hi|j Hj]; last exact: shift_id.
    by apply: held_ext => j Hj; rewrite Ew.
Qed.

(** ** trans *)
Section Trans.
Variables (opos qpos : seq F) (f : seq nat).
Hypothesis Hx : tf_ok emb n l (opos, qpos, f).
Notation tr := (ST opos qpos f).

(** The leader may deal any sharing of the selected values. *)
Definition deals num (u dn : nat -> {poly F}) : Prop :=
  forall j, (j < num)%N -> (size (dn j) <= t + l)%N /\
    forall c, (c < size qpos)%N -> (dn j).[nth 0 qpos c] = (u j).[nth 0 opos (nth 0%N f c)].

Definition down_of num (dn : nat -> {poly F}) : nat -> seq F := lead_down num (fun j => evals (dn j) (share_pos emb n)).

Lemma down_ofE num dn i : (i < n)%N -> down_of num dn i = held dn num i.
Proof.
  move=> Hi. rewrite /down_of /lead_down /held. apply/eq_in_map => j _.
  by rewrite (nth_map 0) ?size_share_pos // (nth_map 0%N) ?size_iota // nth_iota.
Qed.

Lemma trans_deal (id : I) num L u dn (cL : nat -> nat -> F) : (L < n)%N -> fits num -> high num u -> deals num u dn ->
  (forall j i, (j < num)%N -> (i + size qpos < t + l)%N -> cL j i = (dn j).[emb i]) ->
  forall vx random random_n (coin : nat -> nat -> nat -> F), coin L = cL ->
    (forall i, (i < n)%N -> [/\ size (vx i) = num, size (random i) = num, size (random_n i) = num &
        zipw +%R (random_n i) (vx i) = held u num i]) ->
    realizes [:: (id, Lead L (fun i => ser (held u num i)) (fun i => ser (down_of num dn i)))]
        (fun me k => trans emb ser de (mk me) id (vx me) (random me) (random_n me) tr L (coin me) k) (fun me => vsub (held dn num me) (random me)).
Proof.
  move=> HL Hf Hu Hdn Hc vx random random_n coin EL Hv. have Hn := npos. have [Ht HP HPn Hg] := HS. have HK := Kn.
  have [H1 H2 H3 H4 [H5 H6]] := Hx. rewrite /= in H1 H2 H3 H4 H5 H6.
  have Hd : ((t + l).-1 < n)%N by rewrite prednK.
  have Hl : (size qpos <= (t + l).-1.+1)%N by rewrite prednK //; lia.
  have Su := sh_high opos Hu. pose y j := [seq (u j).[x] | x <- opos].
  pose sh j := evals (dn j) (share_pos emb n).
  have Hsh j : (j < num)%N -> share_using_coeffs (pick f (y j)) (compute_share_coeffs emb (t + l).-1 n qpos) (size qpos) (cL j) = Some (sh j).
  { move=> Hj. have [D1 D2] := Hdn j Hj. apply: share_of_poly => //; first by rewrite prednK.
    - rewrite size_map H5 subnn cats0 take_oversize ?size_map ?H5 //.
      apply: (@eq_from_nth _ 0); rewrite !size_map ?H5 // => c Hc'.
      rewrite (nth_map 0) // D2 // (nth_map 0%N) ?H5 // (nth_map 0) //. by apply: (allP H6); rewrite mem_nth ?H5.
    - have Hq : ((t + l).-1.+1 - size qpos <= n)%N by lia.
      apply: (@eq_from_nth _ 0); rewrite !size_map size_takel ?size_share_pos ?size_iota //.
      move=> i Hi. have Hin : (i < n)%N by lia.
      rewrite (nth_map 0) ?size_takel ?size_share_pos // nth_take // (nth_map 0%N) ?size_iota //.
      rewrite (nth_map 0%N) ?size_iota // !nth_iota // !add0n Hc //. move: Hi. rewrite prednK //. lia. }
  have Hgl : trans_leader emb de (mk L) tr num (coin L) [seq ser (held u num s) | s <- iota 0 n] = Some [seq sh j | j <- iota 0 num].
  { rewrite /trans_leader /= (unpack_ser serK Hf) //=; last by move=> i Hi; apply: Su.1.
    rewrite (@all_some_map_in _ _ _ sh) => [|j]; last first.
    { rewrite mem_iota /= => Hj. rewrite (@col_recon _ emb n Hn opos H1 (y j)) //; last by rewrite col_map; apply: Su.2.
      rewrite (comb_apply_ok 0) /= ?size_map // EL. exact: Hsh. }
    rewrite /= to_mat_flatten ?size_map ?size_iota // => z /mapP [j]. rewrite mem_iota /= => Hj ->.
    by rewrite size_map size_share_pos. }
  have R := @lead_realizes F I D ser de fits serK n t l P Pn Hn id num L (held u num) sh random _ HL Hf (fun i Hi => let: And4 _ H _ _ := Hv i Hi in H) Hgl.
  apply: realizes_eq R => [i k Hi|i Hi]; last by rewrite -[lead_down _ _ _]/(down_of num dn i) down_ofE.
  have [E1 E2 E3 E4] := Hv i Hi. rewrite /trans E1 E3 eqxx E4 /=. by case: eqP => [->|].
Qed.

(** With the coins of the leader as they are, some sharing is dealt. *)
Definition tdeal (u : {poly F}) (c : nat -> F) : {poly F} :=
  through emb n (t + l) qpos (fun k => u.[nth 0 opos (nth 0%N f k)]) c.

Lemma tdeal_ok num u (cL : nat -> nat -> F) : deals num u (fun j => tdeal (u j) (cL j)) /\
  forall j i, (i + size qpos < t + l)%N -> (tdeal (u j) (cL j)).[emb i] = cL j i.
Proof.
  have HK := Kn. have [H1 H2 H3 H4 [H5 H6]] := Hx. rewrite /= in H1 H2 H3 H4 H5 H6.
  have Hq1 : (size qpos <= t + l)%N by apply: leq_trans H4 _; exact: leq_addl.
  have Hq2 : (t + l <= size qpos + n)%N by apply: leq_trans HK _; exact: leq_addl.
  split=> [j Hj|j i Hi]; have [T1 T2 T3] := through_ok (fun k => (u j).[nth 0 opos (nth 0%N f k)]) (cL j) H2 Hq1 Hq2.
  - by split.
  - exact: T3.
Qed.

(** The shifts of the two masks of a transformation that hide a change of what
    is transformed. *)
Definition nodes (ps : seq F) (c : nat) : F := nth 0 (ps ++ share_pos emb n) c.

Definition related (dl dn : {poly F}) : Prop :=
  (forall c, (c < size qpos)%N -> dl.[nth 0 qpos c] = dn.[nth 0 opos (nth 0%N f c)]) /\
  forall m, (size qpos + m < l)%N -> dl.[emb m] = dn.[nodes opos (size qpos + m)].

Record shifts num L (px px' dl dn : nat -> {poly F}) : Prop := Shifts {
  s_low : low num dl; s_high : high num dn; s_null : null num dl; s_nulln : null num dn;
  s_rel : forall j, (j < num)%N -> related (dl j) (dn j);
  s_case : (forall j i, (j < num)%N -> (i < n)%N -> (dn j).[emb i] = (px j - px' j).[emb i]) \/
           (L \notin A /\ forall j, (j < num)%N -> dl j = 0 /\ dn j = 0) }.

(** The leader is outside, or every party's share of the low-degree mask that
    is a share of the high-degree mask is so within the coalition. *)
Definition shielded (L : nat) : Prop :=
  (L \notin A) \/ forall m, m \in A -> (size qpos + m < l)%N -> (size qpos + m - size opos)%N \in A.

(** The two shifts, and what an honest leader deals differently. *)
Definition textra : seq nat := [seq m <- iota 0 (l - size qpos) | m \notin A].
Definition tpts : seq F := qpos ++ [seq emb i | i <- A ++ textra].
Definition tvals (d : {poly F}) : seq F :=
  [seq d.[nth 0 opos (nth 0%N f c)] | c <- iota 0 (size qpos)] ++ [seq 0 | _ <- A] ++ [seq d.[nodes opos (size qpos + m)] | m <- textra].
Definition tdl (L : nat) (p p' : {poly F}) : {poly F} := if L \in A then fit tpts (tvals (p - p')) else 0.
Definition tdn (L : nat) (p p' : {poly F}) : {poly F} := if L \in A then p - p' else 0.
Definition thid (p p' : {poly F}) : {poly F} := hidep emb A qpos (fun c => (p' - p).[nth 0 opos (nth 0%N f c)]).
Definition tco (L : nat) (p p' : {poly F}) (i : nat) : F := if L \in A then 0 else (thid p p').[emb i].
Definition tout (p r rn : {poly F}) (c : nat -> F) : {poly F} := tdeal (rn + p) c - r.
Definition tout' (L : nat) (p p' r rn : {poly F}) (c : nat -> F) : {poly F} :=
  if L \in A then tout p r rn c - tdl L p p' else tout p r rn c + thid p p'.

Lemma shifts_ok num L px px' : (size opos <= size qpos)%N -> shielded L -> high num px -> high num px' -> agree num px px' ->
  shifts num L px px' (fun j => tdl L (px j) (px' j)) (fun j => tdn L (px j) (px' j)).
Proof.
  move=> Hle Hsh Hp Hp' Ha. case HL : (L \in A); last first.
  - have E1 j : tdl L (px j) (px' j) = 0 by rewrite /tdl HL. have E2 j : tdn L (px j) (px' j) = 0 by rewrite /tdn HL.
    split=> [j|j|j a _ _|j a _ _|j _|]; rewrite ?E1 ?E2 ?size_poly0 ?horner0 //.
    + by split=> *; rewrite ?E1 ?E2 !horner0.
    + by right; split; rewrite ?HL.
  - case: Hsh => [|Hs]; first by rewrite HL.
    have Hn := npos. have [Ht HP HPn Hg] := HS. have HK := Kn.
    have [H1 H2 H3 H4 [H5 H6]] := Hx. rewrite /= in H1 H2 H3 H4 H5 H6.
    pose dn j := px j - px' j. have Edn j : tdn L (px j) (px' j) = dn j by rewrite /tdn HL.
    have Nd : null num dn by exact: agree_sub.
    have Upts : uniq tpts.
    { apply: (@sub_pos _ emb n) => //.
      - rewrite cat_uniq UA filter_uniq ?iota_uniq // andbT /=. apply/hasPn => m. by rewrite mem_filter => /andP [].
      - rewrite all_cat HA /=. apply/allP => m. rewrite mem_filter mem_iota => /andP [_ Hm]. lia. }
    have Se : (size textra <= l - size qpos)%N by rewrite size_filter -[X in (_ <= X)%N](size_iota 0) count_size.
    pose dl j := fit tpts (tvals (dn j)). have Edl j : tdl L (px j) (px' j) = dl j by rewrite /tdl HL.
    have Hdl j : (size (dl j) <= t + l)%N /\ evals (dl j) tpts = tvals (dn j).
    { have [|S E] := @fit_ok F tpts (tvals (dn j)) Upts; first by rewrite !size_cat !size_map size_cat size_iota.
      split=> //. apply: leq_trans S _. rewrite /tpts size_cat size_map size_cat addnCA leq_add //. by rewrite -(subnKC H4) leq_add2l. }
    split.
    + by move=> j Hj; rewrite Edl; have [] := Hdl j.
    + by move=> j Hj; rewrite Edn sz_sub ?Hp ?Hp'.
    + move=> j a Hj Hin. have [_ E] := Hdl j. move: E. rewrite Edl /evals /tpts /tvals map_cat map_cat map_cat => /eqP.
      rewrite !eqseq_cat ?size_map ?size_iota // => /and3P [_ /eqP E _].
      have := congr1 (fun s => nth 0 s (index a A)) E. rewrite (nth_map 0) ?size_map ?index_mem // (nth_map 0%N) ?index_mem // nth_index // => ->.
      by rewrite (nth_map 0%N) ?index_mem.
    + by move=> j a Hj Hin; rewrite Edn Nd.
    + move=> j Hj. have [_ E] := Hdl j. move: E. rewrite Edl Edn /evals /tpts /tvals map_cat map_cat map_cat => /eqP.
      rewrite !eqseq_cat ?size_map ?size_iota // => /and3P [/eqP E1 /eqP E2 /eqP E3]. split.
      * move=> c Hc. have := congr1 (fun s => nth 0 s c) E1. by rewrite (nth_map 0) // (nth_map 0%N) ?size_iota // nth_iota.
      * move=> m Hm. case Hin : (m \in A).
        -- have Hin' := Hs m Hin Hm. have Ho : (size opos <= size qpos + m)%N by lia.
           have -> : nodes opos (size qpos + m) = emb (size qpos + m - size opos).
           { have Hn' : (size qpos + m - size opos < n)%N by lia.
             by rewrite /nodes nth_cat ltnNge Ho /= (nth_map 0%N) ?size_iota // nth_iota. }
           rewrite (Nd j _ Hj Hin'). have := congr1 (fun s => nth 0 s (index m A)) E2.
           rewrite (nth_map 0) ?size_map ?index_mem // (nth_map 0%N) ?index_mem // nth_index // => ->.
           by rewrite (nth_map 0%N) ?index_mem.
        -- have Hex : m \in textra by rewrite mem_filter Hin mem_iota /=; lia.
           have := congr1 (fun s => nth 0 s (index m textra)) E3.
           rewrite (nth_map 0) ?size_map ?index_mem // (nth_map 0%N) ?index_mem // nth_index // => ->.
           by rewrite (nth_map 0%N) ?index_mem // nth_index.
    + by left=> j i Hj Hi; rewrite Edn.
Qed.

Lemma trans_exact (id : I) num L (coin : nat -> nat -> nat -> F) px px' pr prn : (L < n)%N -> fits num ->
  high num px -> high num px' -> low num pr -> high num prn ->
  let dl j := tdl L (px j) (px' j) in let dn j := tdn L (px j) (px' j) in
  let w j := tout (px j) (pr j) (prn j) (coin L j) in let w' j := tout' L (px j) (px' j) (pr j) (prn j) (coin L j) in
  shifts num L px px' dl dn ->
  exists (rd rd' : round D),
   [/\ [/\ low num w, low num w' & agree num w w'], alike n A rd rd',
     forall coin0 : nat -> nat -> nat -> F, (forall j i, (j < num)%N -> (i + size qpos < t + l)%N -> coin0 L j i = coin L j i) ->
     realizes [:: (id, rd)] (fun me k => trans emb ser de (mk me) id (held px num me) (held pr num me) (held prn num me) tr L (coin0 me) k) (held w num) &
     forall coin' : nat -> nat -> nat -> F, (forall j i, (j < num)%N -> (i + size qpos < t + l)%N -> coin' L j i = coin L j i + tco L (px j) (px' j) i) ->
     realizes [:: (id, rd')] (fun me k => trans emb ser de (mk me) id (held px' num me) (held (fun j => pr j + dl j) num me) (held (fun j => prn j + dn j) num me) tr L (coin' me) k) (held w' num)].
Proof.
  move=> HL Hf Hp Hp' Lr Hr dl dn w w' Hsh. have [S1 S2 S3 S4 S5 S6] := Hsh. have [H1 H2 H3 H4 [H5 H6]] := Hx. rewrite /= in H1 H2 H3 H4 H5 H6.
  pose u j := prn j + px j. have Hu : high num u by move=> j Hj; rewrite sz_add ?Hr ?Hp.
  have [Dd Cd] := tdeal_ok num u (coin L). set d := fun j => tdeal _ _ in Dd.
  pose rd := Lead L (fun i => ser (held u num i)) (fun i => ser (down_of num d i)).
  have R1 (coin0 : nat -> nat -> nat -> F) : (forall j i, (j < num)%N -> (i + size qpos < t + l)%N -> coin0 L j i = coin L j i) ->
    realizes [:: (id, rd)] (fun me k => trans emb ser de (mk me) id (held px num me) (held pr num me) (held prn num me) tr L (coin0 me) k) (held w num).
  { move=> E0. have R := @trans_deal id num L u d (coin0 L) HL Hf Hu Dd (fun j i Hj Hi => etrans (E0 j i Hj Hi) (esym (Cd j i Hi))) (held px num) (held pr num) (held prn num) coin0 erefl.
    apply: realizes_eq (R _) => // [i Hi|i Hi]; first by rewrite held_sub.
    by rewrite !size_held held_add. }
  have Lw : low num w by move=> j Hj; rewrite sz_sub ?Lr //; have [] := Dd j Hj.
  case HLA : (L \in A).
  - have E : forall j i, (j < num)%N -> (i < n)%N -> (dn j).[emb i] = (px j - px' j).[emb i] by move=> j i _ _; rewrite /dn /tdn HLA.
    have Ew j : w' j = d j - (pr j + dl j) by rewrite /w' /tout' HLA /tout opprD addrA.
    have Lw' : low num w' by move=> j Hj; rewrite Ew sz_sub ?sz_add ?Lr ?S1 //; have [] := Dd j Hj.
    exists rd, rd. split=> //.
    + split=> // j a Hj Ha. by rewrite Ew !(hornerD, hornerN) S3 // addr0.
    + move=> coin' Ec.
      have R := @trans_deal id num L u d (coin' L) HL Hf Hu Dd _ (held px' num) (held (fun j => pr j + dl j) num) (held (fun j => prn j + dn j) num) coin' erefl.
      apply: realizes_eq (R _ _) => // [i Hi|j i Hj Hi|i Hi].
      * rewrite held_sub. apply: held_ext => j Hj. by rewrite Ew.
      * by rewrite Ec // /tco HLA addr0 -Cd.
      * rewrite !size_held held_add. split=> //. apply: held_ext => j Hj.
        by rewrite /u !hornerD E // hornerD hornerN -addrA subrK.
  - have E j : dl j = 0 /\ dn j = 0 by rewrite /dl /dn /tdl /tdn HLA.
    pose u' j := prn j + px' j. have Hu' : high num u' by move=> j Hj; rewrite sz_add ?Hr ?Hp'.
    pose e j := thid (px j) (px' j).
    have He j : [/\ (size (e j) <= t + l)%N,
      forall c, (c < size qpos)%N -> (e j).[nth 0 qpos c] = (u' j - u j).[nth 0 opos (nth 0%N f c)] & forall a, a \in A -> (e j).[emb a] = 0].
    { have [|E1 E2 E3] := hidep_ok (fun c => (px' j - px j).[nth 0 opos (nth 0%N f c)]) (d := (t + l)%N) UA HA H2; first by rewrite addnC leq_add.
      split=> // c Hc. rewrite /e /thid E2 // /u' /u. by rewrite opprD addrACA subrr add0r. }
    pose d' j := d j + e j. have Ew j : w' j = d' j - pr j by rewrite /w' /tout' HLA /tout addrAC.
    have Dd' : deals num u' d'.
    { move=> j Hj. have [D1 D2] := Dd j Hj. have [E1 E2 _] := He j. split; first by rewrite sz_add.
      move=> c Hc. by rewrite hornerD D2 // E2 // hornerD hornerN addrC subrK. }
    exists rd, (Lead L (fun i => ser (held u' num i)) (fun i => ser (down_of num d' i))).
    split=> //.
    + split=> //.
      * move=> j Hj. have [D1 _] := Dd' j Hj. by rewrite Ew sz_sub ?Lr.
      * move=> j a Hj Ha. have [_ _ Ez] := He j. by rewrite Ew !(hornerD, hornerN) Ez // addr0.
    + split=> //; first by rewrite HLA.
      move=> a Ha. have Han := allP HA a Ha. rewrite !down_ofE //. congr ser. apply: held_ext => j Hj.
      have [_ _ Ez] := He j. by rewrite hornerD Ez // addr0.
    + move=> coin' Ec.
      have R := @trans_deal id num L u' d' (coin' L) HL Hf Hu' Dd' _ (held px' num) (held (fun j => pr j + dl j) num) (held (fun j => prn j + dn j) num) coin' erefl.
      apply: realizes_eq (R _ _) => // [i Hi|j i Hj Hi|i Hi].
      * rewrite held_sub. apply: held_ext => j Hj. have [-> _] := E j. by rewrite Ew addr0.
      * by rewrite Ec // /tco HLA hornerD Cd.
      * rewrite !size_held held_add. split=> //. apply: held_ext => j Hj. have [_ ->] := E j. by rewrite addr0.
Qed.
End Trans.
End Twin.

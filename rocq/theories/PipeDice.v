(** The change of all coins of [preproc] and [garble] that makes a run with other
    masks, labels and errors look the same, and that it can be undone. *)

From Coq Require Import NArith List.
From Verif Require Import CircuitModel LpnModel.
From mathcomp Require Import all_ssreflect all_algebra zify.
From Verif Require Import MathModel MathProofs MatProofs SharingModel SharingSpec SharingProofs.
From Verif Require Import MachineModel MachineProofs MachineBuild Realize CoreModel CoreSpec CoreProofs.
From Verif Require Import RandTransProofs PreprocModel PreprocSpec PreprocProofs PreprocRun GarbleModel GarbleSpec GarbleGates GarbleTf GarbleWires GarbleRun.
From Verif Require Import ViewProofs TwinProofs TwinCore TwinRand TwinTf TwinWires TwinGates TwinRun TwinDeal TwinErr TwinPre ExactErr ExactPre.
From Verif Require Import Triangle DiceSpec DiceProofs PipeDiceSpec PipeLift.
From Verif Require ProtoIdModel.
Set Implicit Arguments.
Unset Strict Implicit.
Unset Printing Implicit Defensive.
Import GRing.Theory.
Local Open Scope ring_scope.

Section Pipe.
Variable F : fieldType.
Variable emb : nat -> F.
Variables (n t l : nat) (P Pn : pss F).
Hypothesis HS : setting emb n t l P Pn.
Variable B : nat.
Notation pos := (default_pos emb n l).
Variables (Ms Mb : mat F) (d : count) (bR bZ bB : nat).
Notation totR := (size (rows Ms) * bR)%N.
Notation totZ := (size (rows Ms) * bZ)%N.
Notation totB := (size (rows Mb) * bB)%N.
Notation keys := (keys_total d).
Notation errs := (n_errors d).
Notation bs := (err_sizes errs n).
Notation bq q := (nth 0%N bs q).
Notation oq q := (sumn (take q bs)).
Notation C := (B + totR + totZ)%N.
Notation fam := {ffun slot B 3 -> F}.
Notation fam2 := {ffun slot B 0 -> F}.
Notation fam3 := {ffun slot B 3 -> F}.
Notation famb := {ffun slot B 0 -> bool}.
Notation res := {ffun slot C 3 -> F}.

(** ** What the dice deal *)
Definition prp (w : fam) (s j : nat) : {poly F} := through emb n (t + l) [::] (fun _ => 0) (fun c => die w 0 s j c 0).
Definition pzp (w : fam) (s j : nat) : {poly F} := through emb n n pos (fun _ => 0) (fun c => die w 1 s j c 0).
Definition pbp (w2 : fam2) (wb : famb) (s j : nat) : {poly F} :=
  through emb n (t + l) pos (fun q => if bdie wb s j q then 1 else 0) (fun c => die w2 0 s j c 0).
Notation mR w := (mixed n Ms bR (prp w)).
Notation mZ w := (mixed n Ms bZ (pzp w)).
Notation mB w2 wb := (mixed n Mb bB (pbp w2 wb)).

(** The same from the results. *)
Definition RP (u : res) (i : nat) : {poly F} := through emb n (t + l) [::] (fun _ => 0) (fun c => die u 0 i c 0 0).
Definition ZP (u : res) (i : nat) : {poly F} := through emb n n pos (fun _ => 0) (fun c => die u 1 i c 0 0).

Let gp0 := gp0 HS. Let gpl := gpl HS. Let tln := tln HS. Let szp := szp emb n l. Let fit0 := fit0 HS. Let fitp := fitp HS. Let fitz := fitz HS.

Lemma prp_ok w s j : (size (prp w s j) <= t + l)%N /\ forall c, (c < t + l)%N -> (prp w s j).[emb c] = die w 0 s j c 0.
Proof. have [F1 F2] := fit0. have [T1 _ T3] := through_ok (fun _ => 0) (fun c => die w 0 s j c 0) gp0 F1 F2. split=> // c Hc. apply: T3. by rewrite addn0. Qed.
Lemma pzp_ok w s j : [/\ (size (pzp w s j) <= n)%N, forall q, (q < size pos)%N -> (pzp w s j).[nth 0 pos q] = 0 &
  forall c, (c < n - size pos)%N -> (pzp w s j).[emb c] = die w 1 s j c 0].
Proof.
  have [F1 F2] := fitz. have [T1 T2 T3] := through_ok (fun _ => 0) (fun c => die w 1 s j c 0) gpl F1 F2. split=> // c Hc. apply: T3. by rewrite addnC -ltn_subRL.
Qed.
Lemma pbp_ok w2 wb s j : [/\ (size (pbp w2 wb s j) <= t + l)%N, forall q, (q < size pos)%N -> (pbp w2 wb s j).[nth 0 pos q] = (if bdie wb s j q then 1 else 0) &
  forall c, (c < t + l - size pos)%N -> (pbp w2 wb s j).[emb c] = die w2 0 s j c 0].
Proof.
  have [F1 F2] := fitp. have [T1 T2 T3] := through_ok (fun q => if bdie wb s j q then 1 else 0) (fun c => die w2 0 s j c 0) gpl F1 F2. split=> // c Hc. apply: T3. by rewrite addnC -ltn_subRL.
Qed.

Lemma mR_low w i : (size (mR w i) <= t + l)%N.
Proof. apply: mixed_size => s j _. by have [] := prp_ok w s j. Qed.
Lemma mB_low w2 wb i : (size (mB w2 wb i) <= t + l)%N.
Proof. apply: mixed_size => s j _. by have [] := pbp_ok w2 wb s j. Qed.
Lemma mZ_ok w i : (size (mZ w i) <= n)%N /\ forall x, x \in pos -> (mZ w i).[x] = 0.
Proof.
  split; first by apply: mixed_size => s j _; have [] := pzp_ok w s j.
  move=> x Hx. rewrite mixed_eval big1 // => s _. have [_ H2 _] := pzp_ok w s (i %% bZ)%N.
  have := H2 (index x pos). rewrite index_mem nth_index // => -> //. by rewrite mulr0.
Qed.

Hypotheses (nB : (n <= B)%N) (RB : (bR <= B)%N) (ZB : (bZ <= B)%N) (BB : (bB <= B)%N).
Notation rho := (rho C n Ms bR bZ).

Lemma rho_rand (w : fam) i c : (i < totR)%N -> (c < n)%N -> die (rho w) 0 i c 0 0 = \sum_(s < n) entry Ms (i %/ bR) s * die w 0 s (i %% bR) c 0.
Proof.
  move=> Hi Hc. have J1 : (i <= C)%N by move: Hi; clear; lia. have J2 : (c <= C)%N by move: Hc nB; clear; lia.
  by rewrite {1}/die ffunE /reach /rho_at !inordK // Hi Hc.
Qed.
Lemma rho_zero (w : fam) i c : (i < totZ)%N -> (c < n)%N -> die (rho w) 1 i c 0 0 = \sum_(s < n) entry Ms (i %/ bZ) s * die w 1 s (i %% bZ) c 0.
Proof.
  move=> Hi Hc. have J1 : (i <= C)%N by move: Hi; clear; lia. have J2 : (c <= C)%N by move: Hc nB; clear; lia.
  by rewrite {1}/die ffunE /reach /rho_at !inordK // Hi Hc.
Qed.
Lemma rho_co (w : fam) k a b c e : (1 < k < 4)%N -> (a <= B)%N -> (b <= B)%N -> (c <= B)%N -> (e <= B)%N -> die (rho w) k a b c e = die w k a b c e.
Proof.
  move=> Hk Ha Hb Hc He. have /andP [_ Hk4] := Hk.
  have J x : (x <= B)%N -> (x < C.+1)%N by clear; lia.
  rewrite {1}/die ffunE /reach /rho_at !inordK ?J //. move: Hk. clear -Ha Hb Hc He. case: k => [|[|k]] // _. by rewrite Ha Hb Hc He.
Qed.

Lemma RP_rho w i : (i < totR)%N -> mR w i = RP (rho w) i.
Proof.
  move=> Hi. have [F1 F2] := fit0. apply: through_eq => //; first exact: mR_low. move=> c. rewrite addn0 => Hc.
  have Hcn : (c < n)%N by have /andP [_ H] := tln; exact: leq_trans Hc H.
  rewrite mixed_eval rho_rand //. apply: eq_bigr => s _. have [_ -> //] := prp_ok w s (i %% bR)%N.
Qed.
Lemma ZP_rho w i : (i < totZ)%N -> mZ w i = ZP (rho w) i.
Proof.
  move=> Hi. have [F1 F2] := fitz. have [Z1 Z2] := mZ_ok w i. apply: through_eq => //; first by move=> q Hq; apply: Z2; exact: mem_nth.
  move=> c Hc. have Hcn : (c < n)%N by move: Hc; clear; lia.
  rewrite mixed_eval rho_zero //. apply: eq_bigr => s _. have [_ _ -> //] := pzp_ok w s (i %% bZ)%N. by rewrite ltn_subRL addnC.
Qed.
Lemma RP_low u i : (size (RP u i) <= t + l)%N.
Proof. have [F1 F2] := fit0. by have [T1 _ _] := through_ok (fun _ => 0) (fun c => die u 0 i c 0 0) gp0 F1 F2. Qed.
Lemma RP_ext (u u' : res) i : (forall c, die u 0 i c 0 0 = die u' 0 i c 0 0) -> RP u i = RP u' i.
Proof. move=> H. have [F1 F2] := fit0. exact: through_ext. Qed.
Lemma ZP_ext (u u' : res) i : (forall c, die u 1 i c 0 0 = die u' 1 i c 0 0) -> ZP u i = ZP u' i.
Proof. move=> H. have [F1 F2] := fitz. exact: through_ext. Qed.

(** ** The change of the results *)
Variable A : seq nat.
Hypothesis UA : uniq A.
Hypothesis HA : all (fun i => (i < n)%N) A.
Hypothesis tA : (size A <= t)%N.
Variable circ : pcircuit.
Variables (B1 B2 : nat) (hash : seq N -> N) (K M : nat) (cids : seq [eqType of seq N]).
Notation prm := (Lpn K M).
Notation reps := (2 * K + 1)%N.
Notation gates := (p_gates circ).
Notation outs := (out_blocks circ).
Notation inps := (inp_blocks circ).
Let nr1 := (B1 * ((n + t) * reps))%N. Let nr2 := (B2 * ((n + t) * reps))%N.
Let nz1 := (B1 * (2 * n * reps))%N. Let nz2 := (B2 * (2 * n * reps))%N.
Notation moff := (offs (gate_mults prm) gates).
Notation mults := (moff (size gates)).
Notation first_product := (first_product circ K M).

(** By how much the bits, the labels and the scalars of the errors change. *)
Variables (sB : nat -> nat -> bool) (sK sS : nat -> nat -> F).
Definition hB i : {poly F} := hidep emb A pos (fun q => (sB i q)%:R).
Definition hK j : {poly F} := hidep emb A pos (sK j).
Definition hS q o : {poly F} := hidep emb A pos (sS (oq q + o)%N).

Lemma hide_ok (v : nat -> F) : [/\ (size (hidep emb A pos v) <= t + l)%N, forall q, (q < l)%N -> (hidep emb A pos v).[nth 0 pos q] = v q &
  forall a, a \in A -> (hidep emb A pos v).[emb a] = 0].
Proof.
  have Hd : (size pos + size A <= t + l)%N by rewrite szp addnC leq_add2r.
  have [H1 H2 H3] := hidep_ok v UA HA gpl Hd. split=> // q Hq. apply: H2. by rewrite szp.
Qed.

(** The results for bits, and the coins of those who lead the first product of
    an error task and of an AND gate, are given. *)
Section Delta.
Variables (QB : nat -> {poly F}) (km1 : nat -> nat -> nat -> F) (kand : nat -> nat -> nat -> nat -> F).
Definition QB' i : {poly F} := QB i + hB i.

(** The order in which results are changed. *)
Definition level (k a : nat) : nat :=
  match k with
  | 0%N => if (a < 3 * errs)%N then (if (off bs 3 a < 2 * bq (blk bs 3 a))%N then 0%N else 1%N) else if (a < 3 * errs + keys)%N then 0%N
      else DiceProofs.level n t circ B1 B2 K M 3 (a - (3 * errs + keys))
  | 1%N => if (a < 2 * errs)%N then (if (off bs 2 a < bq (blk bs 2 a))%N then 0%N else 1%N) else DiceProofs.level n t circ B1 B2 K M 4 (a - 2 * errs)
  | 2%N => 1%N
  | _ => 2%N
  end.
Definition slot_level (s : slot C 3) : nat := let: (k, a, _, _, _) := s in level k a.
Definition cut (m : nat) (u : res) : res := [ffun s => if (slot_level s < m)%N then u s else 0].

Definition er (u : res) (q : nat) := err_rand emb n t l A (bq q) (ta0 n d QB q) (ta1 n d QB q) (ta0 n d QB' q) (ta1 n d QB' q) (hS q) (tar n d (RP (cut 1 u)) q) (km1 q).
Definition ez (u : res) (q : nat) := err_zero emb n t l A (bq q) (ta0 n d QB q) (ta1 n d QB q) (ta0 n d QB' q) (ta1 n d QB' q) (hS q) (tar n d (RP (cut 1 u)) q) (km1 q).

Definition Pm := from QB (2 * errs).
Definition Pm' := from QB' (2 * errs).
Definition Pk (u : res) := from (RP (cut 1 u)) (3 * errs).
Definition Pk' (u : res) j := Pk u j + hK j.
Definition rr m (u : res) := from (RP (cut m u)) (3 * errs + keys).
Definition zz m (u : res) := from (ZP (cut m u)) (2 * errs).
Definition Pr3 (u : res) (gid : nat) := rr 4 u (nr1 + nr2 + (moff gid + 3 * (K + 1)))%N.
Definition K1 (u : res) := die (cut 2 u) 2.
Definition K2 (u : res) := die (cut 3 u) 3.
Definition grand (u : res) := ex_rand emb n t l A circ B1 B2 hash K M cids Pm (Pk u) Pm' (Pk' u) (rr 2 u) (zz 2 u)
  (from (rr 3 u) nr1) (from (zz 3 u) nz1) (Pr3 u) (K1 u) (K2 u) kand.
Definition gzero (u : res) := ex_zero emb n t l A circ B1 B2 hash K M cids Pm (Pk u) Pm' (Pk' u) (rr 2 u) (zz 2 u)
  (from (rr 3 u) nr1) (from (zz 3 u) nz1) (Pr3 u) (K1 u) (K2 u) kand.
Definition co1 (u : res) := ex_co1 emb n l A circ K Pm (Pk u) Pm' (Pk' u).
Definition co2 (u : res) := ex_co2 emb n t l A circ B1 K Pm (Pk u) Pm' (Pk' u) (rr 2 u) (zz 2 u) (K1 u).

Definition dR (u : res) (i : nat) : {poly F} :=
  if (i < 3 * errs)%N then er u (blk bs 3 i) (off bs 3 i) else if (i < 3 * errs + keys)%N then hK (i - 3 * errs) else grand u (i - (3 * errs + keys)).
Definition dZ (u : res) (i : nat) : {poly F} :=
  if (i < 2 * errs)%N then ez u (blk bs 2 i) (off bs 2 i) else gzero u (i - 2 * errs).

Definition dval (u : res) (s : slot C 3) : F :=
  let: (k, a, b, c, e) := s in
  match nat_of_ord k with
  | 0%N => (dR u a).[emb b]
  | 1%N => (dZ u a).[emb b]
  | 2%N => co1 u a b c e
  | _ => co2 u a b c e
  end.
Definition delta (u : res) (s : slot C 3) : F := if reach B n Ms bR bZ s then dval u s else 0.

Lemma delta_off u s : ~~ reach B n Ms bR bZ s -> delta u s = 0.
Proof. by rewrite /delta => /negbTE ->. Qed.

Lemma cut_same m m' (u u' : res) : (forall s, (slot_level s < m')%N -> u s = u' s) -> (m <= m')%N -> cut m u = cut m u'.
Proof. move=> H Hm. apply/ffunP => s. rewrite !ffunE. case: ifP => // Hs. apply: H. exact: leq_trans Hs Hm. Qed.

Lemma delta_tri (u u' : res) s : (forall s', (slot_level s' < slot_level s)%N -> u s' = u' s') -> delta u s = delta u' s.
Proof.
  move=> H0. suff E : dval u s = dval u' s by rewrite /delta E. move: s H0.
  case=> [[[[k a] b] c] e]. rewrite [slot_level (_, _, _, _, _)]/= => H. have Cu m : (m <= level k a)%N -> cut m u = cut m u' by exact: cut_same H.
  rewrite /dval. case: (nat_of_ord k) Cu => [|[|[|k']]] Cu.
  - suff -> : dR u a = dR u' a by exact: erefl. move: Cu. rewrite /dR /level. case: (ltnP a (3 * errs)) => C1.
    { rewrite /er /err_rand /three. case: (ltnP (off bs 3 a) (2 * bq (blk bs 3 a))) => C2 Cu.
      - case: ifP => C3; first exact: erefl. case: ifP => C4; first exact: erefl. exfalso. clear -C2 C4. lia.
      - by rewrite (Cu 1%N isT). }
    case: (ltnP a (3 * errs + keys)) => C2; first by move=> _; exact: erefl. set j := (a - (3 * errs + keys))%N. rewrite /grand /ex_rand /glue -/nr1 -/nr2 /DiceProofs.level -/nr1 -/nr2.
    case: (ltnP j nr1) => D1.
    { move=> Cu. by rewrite /Pk' /Pk (Cu 1%N isT). }
    case: (ltnP j (nr1 + nr2)) => D2.
    { move=> Cu. by rewrite /Pk' /Pk /K1 /rr /zz (Cu 1%N isT) (Cu 2%N isT). }
    case: (ltnP j (nr1 + nr2 + mults)) => D3; last by move=> _. rewrite /DiceProofs.first_product. case: (seg _ _ _) => gid q. case: ifP => Hf Cu.
    { rewrite /ex_gdl /gate_dl. move: Hf. case: (nth g0 gates gid) => [x y z|x y z|x y] /andP [Ha /eqP ->]; [discriminate Ha| |discriminate Ha].
      rewrite /and_dl ltnn. by rewrite /Pk' /Pk /K1 /K2 /rr /zz (Cu 1%N isT) (Cu 2%N isT) (Cu 3%N isT). }
    by rewrite /Pk' /Pk /K1 /K2 /Pr3 /rr /zz (Cu 1%N isT) (Cu 2%N isT) (Cu 3%N isT) (Cu 4%N isT).
  - suff -> : dZ u a = dZ u' a by exact: erefl. move: Cu. rewrite /dZ /level. case: (ltnP a (2 * errs)) => C1.
    { rewrite /ez /err_zero /two. case: (ltnP (off bs 2 a) (bq (blk bs 2 a))) => C2 Cu; first exact: erefl. by rewrite (Cu 1%N isT). }
    set j := (a - 2 * errs)%N. rewrite /gzero /ex_zero /glue -/nz1 -/nz2 /DiceProofs.level -/nz1 -/nz2. case: (ltnP j nz1) => D1.
    { move=> Cu. by rewrite /Pk' /Pk (Cu 1%N isT). }
    case: (ltnP j (nz1 + nz2)) => D2.
    { move=> Cu. by rewrite /Pk' /Pk /K1 /rr /zz (Cu 1%N isT) (Cu 2%N isT). }
    move=> Cu. by rewrite /Pk' /Pk /K1 /K2 /Pr3 /rr /zz (Cu 1%N isT) (Cu 2%N isT) (Cu 3%N isT) (Cu 4%N isT).
  - by rewrite /co1 /Pk' /Pk (Cu 1%N isT).
  - by rewrite /co2 /Pk' /Pk /K1 /rr /zz (Cu 1%N isT) (Cu 2%N isT).
Qed.

Lemma cut_die m u k a b c e : (k <= 3)%N -> (a <= C)%N -> (level k a < m)%N -> die (cut m u) k a b c e = die u k a b c e.
Proof. move=> Hk Ha Hl. by rewrite /DiceSpec.die ffunE /slot_level !inordK // Hl. Qed.
End Delta.

(** ** The change of the dice *)
Variables (X : nat -> nat -> F) (Xb : nat -> nat -> bool).
Notation R := (size (rows Ms)).
Notation Rb := (size (rows Mb)).
Hypothesis XA : forall s r, s \in A -> X s r = 0.
Hypothesis XM : forall r r', (r < R)%N -> (r' < R)%N -> \sum_(s < n) entry Ms r s * X s r' = (r == r')%:R.
Hypothesis XbA : forall s r, s \in A -> Xb s r = false.
Hypothesis XbM : forall r r', (r < Rb)%N -> (r' < Rb)%N -> \sum_(s < n) entry Mb r s * (Xb s r')%:R = (r == r')%:R :> F.
Hypothesis C2 : 1 + 1 = 0 :> F.

Definition parity (a b c : nat) : bool := \big[addb/false]_(r < Rb) (Xb a r && sB (r * bB + b) c).
Definition bshift (s : slot B 0) : F :=
  let: (k, a, b, c, e) := s in
  if [&& k == 0%N :> nat, (b < bB)%N, (c < n)%N & e == 0%N :> nat] then \sum_(r < Rb) (Xb a r)%:R * (hB (r * bB + b)).[emb c] else 0.
Definition alt2 (w2 : fam2) : fam2 := [ffun s => w2 s + bshift s].
Definition unalt2 (w2 : fam2) : fam2 := [ffun s => w2 s - bshift s].
Definition pshift (s : slot B 0) : bool :=
  let: (k, a, b, c, e) := s in [&& (b < bB)%N, (c < l)%N, e == 0%N :> nat & parity a b c].
Definition altb (wb : famb) : famb := [ffun s => wb s (+) pshift s].

Definition km1 (w3 : fam3) (q : nat) := die w3 0 q q.
Definition kand (w3 : fam3) (me : nat) := die w3 2 me.
Definition wdelta (w2 : fam2) (w3 : fam3) (wb : famb) := delta (mB w2 wb) (km1 w3) (kand w3).
Definition phi (w : pipe_dice F B) : pipe_dice F B := (change n Ms bR bZ X (wdelta w.1.2.1 w.1.2.2 w.2) w.1.1, (alt2 w.1.2.1, w.1.2.2), altb w.2).
Definition unphi (v : pipe_dice F B) : pipe_dice F B :=
  let w2 := unalt2 v.1.2.1 in let wb := altb v.2 in (unchange n Ms bR bZ X slot_level (wdelta w2 v.1.2.2 wb) v.1.1, (w2, v.1.2.2), wb).

Lemma alt2K : cancel alt2 unalt2. Proof. move=> w. apply/ffunP => s. by rewrite !ffunE addrK. Qed.
Lemma unalt2K : cancel unalt2 alt2. Proof. move=> w. apply/ffunP => s. by rewrite !ffunE subrK. Qed.
Lemma altbK : involutive altb. Proof. move=> w. apply/ffunP => s. by rewrite !ffunE -addbA addbb addbF. Qed.

Lemma phiK : cancel phi unphi.
Proof.
  move=> [[w [w2 w3]] wb]. rewrite /unphi /phi; cbn [fst snd]; rewrite alt2K altbK. congr (_, _, _).
  exact (changeK XM nB RB ZB (@delta_tri _ _ _) (@delta_off _ _ _) w).
Qed.
Lemma unphiK : cancel unphi phi.
Proof.
  move=> [[w [w2 w3]] wb]. rewrite /unphi /phi; cbn [fst snd]; rewrite unalt2K altbK. congr (_, _, _).
  exact (unchangeK XM nB RB ZB (@delta_tri _ _ _) (@delta_off _ _ _) w).
Qed.

Lemma bit_sum (b : bool) m (x : nat -> bool) : (if b (+) \big[addb/false]_(r < m) x r then 1 else 0) = (if b then 1 else 0) + \sum_(r < m) (x r)%:R :> F.
Proof.
  have E (u v : bool) : (u (+) v)%:R = u%:R + v%:R :> F by case: u; case: v; rewrite ?addr0 ?add0r ?C2.
  have T (u : bool) : (if u then 1 else 0) = u%:R :> F by case: u.
  rewrite !T E. congr (_ + _). apply: (big_morph (fun u : bool => u%:R : F)) => //.
Qed.

Lemma pbp_alt w2 wb s j : (s < n)%N -> (j < bB)%N -> pbp (alt2 w2) (altb wb) s j = pbp w2 wb s j + \sum_(r < Rb) (Xb s r)%:R *: hB (r * bB + j).
Proof.
  move=> Hs Hj. have [F1 F2] := fitp. have [T1 T2 T3] := pbp_ok w2 wb s j.
  have ln : (l <= n)%N by have /andP [_ H] := tln; clear -H; lia.
  have J1 : (s <= B)%N by exact: leq_trans (ltnW Hs) nB. have J2 : (j <= B)%N by exact: leq_trans (ltnW Hj) BB.
  apply/esym. apply: through_eq => //.
  - apply: sz_add => //. apply: (leq_trans (size_sum _ _ _)). apply/bigmax_leqP => r _. apply: (leq_trans (size_scale_leq _ _)). by have [] := hide_ok (fun q => (sB (r * bB + j) q)%:R).
  - move=> q Hq. have Hql : (q < l)%N by rewrite -szp. have J3 : (q <= B)%N by apply: leq_trans nB; apply: leq_trans ln; exact: ltnW.
    rewrite hornerD T2 // /bdie ffunE /pshift !inordK // ?ltnS ?J1 ?J2 ?J3 // Hj Hql eqxx /= /parity (bit_sum _ _ (fun r => Xb s r && sB (r * bB + j) q)). congr (_ + _).
    rewrite horner_sum. apply: eq_bigr => r _. rewrite hornerZ. have [_ -> // _] := hide_ok (fun q => (sB (r * bB + j) q)%:R).
    by case: (Xb s r); rewrite ?mul1r ?mul0r.
  - move=> c Hc. have Hcn : (c < n)%N by have /andP [_ H] := tln; clear -H Hc; lia. have J3 : (c <= B)%N by apply: leq_trans nB; exact: ltnW.
    rewrite hornerD T3; last by rewrite ltn_subRL addnC.
    rewrite {2}/die ffunE /bshift !inordK // ?ltnS ?J1 ?J2 ?J3 // Hj Hcn eqxx /=. congr (_ + _).
    rewrite horner_sum. apply: eq_bigr => r _. by rewrite hornerZ.
Qed.

Lemma mB_alt w2 wb i : (i < totB)%N -> mB (alt2 w2) (altb wb) i = mB w2 wb i + hB i.
Proof. move=> Hi. apply: (@mix_add _ _ _ _ (fun s r => (Xb s r)%:R) XbM _ _ _ _ Hi) => s j Hs Hj. exact (pbp_alt w2 wb Hs Hj). Qed.

(** The changes for an error task depend on its scalars and its first masks only. *)
Lemma err_ext b p0 p1 p0' p1' hs rnd rnd' c1 j : (forall i, (i < b + b)%N -> rnd i = rnd' i) ->
  ((j < 3 * b)%N -> err_rand emb n t l A b p0 p1 p0' p1' hs rnd c1 j = err_rand emb n t l A b p0 p1 p0' p1' hs rnd' c1 j) /\
  ((j < 2 * b)%N -> err_zero emb n t l A b p0 p1 p0' p1' hs rnd c1 j = err_zero emb n t l A b p0 p1 p0' p1' hs rnd' c1 j).
Proof.
  move=> H. have E i : (i < b)%N -> err_dl2 emb n t l A b p0 p1 p0' p1' hs rnd c1 i = err_dl2 emb n t l A b p0 p1 p0' p1' hs rnd' c1 i.
  { move=> Hi. have H1 : rnd i = rnd' i by apply: H; clear -Hi; lia. have H2 : rnd (b + i)%N = rnd' (b + i)%N by apply: H; clear -Hi; lia.
    have E1 : err_w1 emb n t l p0 p1 rnd c1 i = err_w1 emb n t l p0 p1 rnd' c1 i by apply: mout_ext.
    by rewrite /err_dl2 /mdl E1 H2. }
  split=> Hj; rewrite /err_rand /err_zero /three /two.
  - case: (ltnP j b) => C1 //. case: (ltnP j (b + b)) => C3 //. rewrite E //. clear -C3 Hj. lia.
  - case: (ltnP j b) => C1 //. rewrite E //. clear -C1 Hj. lia.
Qed.
(** ... and on as many of the changed bits. *)
Lemma err_ext2 b p0 p1 p0' p1' p0'' p1'' hs rnd c1 j : (forall i, (i < b)%N -> p0' i = p0'' i) -> (forall i, (i < b)%N -> p1' i = p1'' i) ->
  ((j < 3 * b)%N -> err_rand emb n t l A b p0 p1 p0' p1' hs rnd c1 j = err_rand emb n t l A b p0 p1 p0'' p1'' hs rnd c1 j) /\
  ((j < 2 * b)%N -> err_zero emb n t l A b p0 p1 p0' p1' hs rnd c1 j = err_zero emb n t l A b p0 p1 p0'' p1'' hs rnd c1 j).
Proof.
  move=> H0 H1. have E1 i : (i < b)%N -> err_dl1 p0 p1 p0' p1' i = err_dl1 p0 p1 p0'' p1'' i by move=> Hi; rewrite /err_dl1 /mdl H0 // H1.
  have E i : (i < b)%N -> err_dl2 emb n t l A b p0 p1 p0' p1' hs rnd c1 i = err_dl2 emb n t l A b p0 p1 p0'' p1'' hs rnd c1 i by move=> Hi; rewrite /err_dl2 /mdl E1.
  split=> Hj; rewrite /err_rand /err_zero /three /two.
  - case: (ltnP j b) => C1; first by rewrite E1. case: (ltnP j (b + b)) => C3 //. rewrite E //. clear -C3 Hj. lia.
  - case: (ltnP j b) => C1; first by rewrite E1. rewrite E //. clear -C1 Hj. lia.
Qed.

(** ** Both runs *)
Variable D : eqType.
Variable ser : seq F -> D.
Variable de : D -> option (seq F).
Variable fits : nat -> Prop.
Hypothesis serK : codec_ok ser de fits.
Hypothesis Hl0 : (0 < l)%N.
Hypothesis HKl : (t + l + l <= n)%N.
Hypothesis Hdeg : (2 * (t + l).-1 <= n.-1)%N.
Hypothesis Hn16 : (n <= 2 ^ 16)%N.
Hypothesis Hwf : wf_packed circ l.
Hypothesis Hinj : distinct_positions emb n l circ.
Hypothesis HB1 : num_batches (size outs) l = Some B1.
Hypothesis HB2 : num_batches (size inps) l = Some B2.
Variable g : nat -> gctx F.
Hypothesis Hg : forall me, (me < n)%N ->
  [/\ g_mpc (g me) = Ctx me n t l P Pn, g_lpn (g me) = prm, g_circ (g me) = circ &
   [/\ g_lookup (g me) = block_map circ, g_out (g me) = tfs emb n t l (tf_out emb n l circ) B1 me & g_inp (g me) = tfs emb n t l (tf_inp emb n l circ) B2 me]].
Hypothesis Hfits : forall m, (m <= 4 * K + 3)%N -> fits m.
Hypothesis Em : n_masks d = size outs.
Hypothesis Ek : n_keys d = (2%N, K, size outs).
Hypothesis Ee : errs = offs (fun x => gate_rows x * M)%N gates (size gates).
Hypothesis Hsh : blocks_shielded n l A circ.
Hypothesis HbR : num_batches (keys + n_randoms d + 3 * errs) (size (rows Ms)) = Some bR.
Hypothesis HbZ : num_batches (n_zeros d + 2 * errs) (size (rows Ms)) = Some bZ.
Hypothesis HbB : num_batches (n_masks d + 2 * errs) (size (rows Mb)) = Some bB.
Hypothesis HMs : ncols Ms = n.
Hypothesis HMb : ncols Mb = n.
Hypothesis Hfp : forall m, (m <= maxn (maxn bR bZ) (maxn bB errs))%N -> fits m.
Hypothesis LR : (keys + n_randoms d + 3 * errs <= totR)%N.
Hypothesis LZ : (n_zeros d + 2 * errs <= totZ)%N.
Hypothesis LB : (n_masks d + 2 * errs <= totB)%N.
Hypothesis Hnr : (nr1 + nr2 + mults <= n_randoms d)%N.
Hypothesis Hnz : (nz1 + nz2 + mults <= n_zeros d)%N.
Hypothesis Hen : enough_dice B n circ prm d bR bZ bB.

(** What the parties hold after the preprocessing. *)
Definition held_by (w : pipe_dice F B) : nat -> preproc_data F :=
  pre_out emb n t l Ms d bR bZ (mB w.1.2.1 w.2) (mR w.1.1) (mZ w.1.1) (fun q => die w.1.2.2 0 q q) (fun q => die w.1.2.2 1 q q).

Notation low := (low t l).
Notation zero_at := (zero_at emb n l).
Notation agree := (agree emb A).
Notation null := (null emb A).
Notation nr := (totR - (3 * errs + keys))%N.
Notation nz := (totZ - 2 * errs)%N.

Let Ekt : keys = (2 * K * size outs)%N. Proof. by rewrite /keys_total Ek. Qed.

Lemma held_holds (w : pipe_dice F B) : holds emb n circ K M nr nz (held_by w)
  (Polys (from (mB w.1.2.1 w.2) (2 * errs)) (from (mR w.1.1) (3 * errs)) (from (mR w.1.1) (3 * errs + keys)) (from (mZ w.1.1) (2 * errs))
     (pre_err emb n t l d (mB w.1.2.1 w.2) (mR w.1.1) (fun q => die w.1.2.2 0 q q) (fun q => die w.1.2.2 1 q q))).
Proof.
  move=> me Hm. split; [by rewrite -Em|exact: Ek|by rewrite -Ekt|split=> //; by rewrite -Ee].
Qed.

Section World.
Variable w : pipe_dice F B.
Notation u := (rho w.1.1).
Notation QBw := (mB w.1.2.1 w.2).
Notation QBw' := (QB' QBw).
Notation kmw := (km1 w.1.2.2).
Notation kaw := (kand w.1.2.2).
Notation dRw := (dR QBw kmw kaw u).
Notation dZw := (dZ QBw kmw kaw u).
Notation Pkw := (Pk u).
Notation Pkw' := (Pk' u).

Let up m x : (m <= B)%N -> (x < m)%N -> (x <= B)%N.
Proof. move=> H1 H2. exact: leq_trans (ltnW H2) H1. Qed.
Let Sbs : size bs = n. Proof. exact: size_err_sizes (npos HS). Qed.
Let Ebs : sumn bs = errs. Proof. exact: sumn_err_sizes (npos HS). Qed.
Let Bq q : (oq q + bq q <= errs)%N. Proof. have := nth_le_sumn bs q. by rewrite Ebs. Qed.

Lemma cut_RP m i : (i < totR)%N -> (level 0 i < m)%N -> RP (cut m u) i = mR w.1.1 i.
Proof.
  move=> Hi Hl. rewrite RP_rho //. apply: RP_ext => c. apply: cut_die => //. move: Hi. clear. lia.
Qed.
Lemma cut_ZP m i : (i < totZ)%N -> (level 1 i < m)%N -> ZP (cut m u) i = mZ w.1.1 i.
Proof.
  move=> Hi Hl. rewrite ZP_rho //. apply: ZP_ext => c. apply: cut_die => //. move: Hi. clear. lia.
Qed.

(** The error tasks. *)
Lemma tar_at q i : (i < bq q + bq q)%N -> tar n d (RP (cut 1 u)) q i = tar n d (mR w.1.1) q i.
Proof.
  move=> Hi. have Hi3 : (i < 3 * bq q)%N by clear -Hi; lia. have Hb := Bq q. rewrite /tar. apply: cut_RP.
  - move: LR. clear -Hb Hi3. lia.
  - have H3 : (3 * oq q + i < 3 * errs)%N by clear -Hb Hi3; lia. have H2 : (i < 2 * bq q)%N by clear -Hi; lia. by rewrite /level H3 offE // blkE // H2.
Qed.
Lemma er_at q o : (o < 3 * bq q)%N -> er QBw kmw u q o =
  err_rand emb n t l A (bq q) (ta0 n d QBw q) (ta1 n d QBw q) (ta0 n d QBw' q) (ta1 n d QBw' q) (hS q) (tar n d (mR w.1.1) q) (kmw q) o.
Proof. exact: (proj1 (err_ext _ _ _ _ _ _ _ (@tar_at q))). Qed.
Lemma ez_at q o : (o < 2 * bq q)%N -> ez QBw kmw u q o =
  err_zero emb n t l A (bq q) (ta0 n d QBw q) (ta1 n d QBw q) (ta0 n d QBw' q) (ta1 n d QBw' q) (hS q) (tar n d (mR w.1.1) q) (kmw q) o.
Proof. exact: (proj2 (err_ext _ _ _ _ _ _ _ (@tar_at q))). Qed.

Lemma QB_low' i : (size (QBw' i) <= t + l)%N.
Proof. apply: sz_add; first exact: mB_low. by have [] := hide_ok (fun q => (sB i q)%:R). Qed.
Lemma hB_null i a : a \in A -> (hB i).[emb a] = 0.
Proof. have [_ _ H] := hide_ok (fun q => (sB i q)%:R). exact: H. Qed.

Lemma err_good q : (q < n)%N ->
  (forall o, (o < 3 * bq q)%N -> (size (er QBw kmw u q o) <= t + l)%N /\ forall a, a \in A -> (er QBw kmw u q o).[emb a] = 0) /\
  (forall o, (o < 2 * bq q)%N -> [/\ (size (ez QBw kmw u q o) <= n)%N, forall x, x \in pos -> (ez QBw kmw u q o).[x] = 0 & forall a, a \in A -> (ez QBw kmw u q o).[emb a] = 0]).
Proof.
  move=> Hq. have Fb : fits (bq q) by apply: Hfp; have := Bq q; clear; lia.
  have Lh : low (bq q) (hS q) by move=> j _; have [] := hide_ok (sS (oq q + j)%N).
  have Nh : null (bq q) (hS q) by move=> j a _; have [_ _ H] := hide_ok (sS (oq q + j)%N); exact: H.
  have [||||rds [_ [R1 R2 R3 R4] _ _ _]] := @err_exact _ emb [eqType of nat] D ser de fits serK n t l P Pn HS Hdeg A UA HA tA 0%N 1%N q (bq q) (fun _ => kmw q) (fun _ => kmw q)
    (ta0 n d QBw q) (ta1 n d QBw q) (ta0 n d QBw' q) (ta1 n d QBw' q) (hS q) (tar n d (mR w.1.1) q) (taz n d (mZ w.1.1) q) Hq Fb.
  - split; [by move=> j _; exact: mB_low|by move=> j _; exact: mB_low|by move=> j _; exact: QB_low'|by move=> j _; exact: QB_low'|exact: Lh].
  - split; [by move=> j a _ Ha; rewrite /ta0 hornerD hB_null // addr0|by move=> j a _ Ha; rewrite /ta1 hornerD hB_null // addr0|exact: Nh].
  - by move=> j _; exact: mR_low.
  - by move=> j _; exact: mZ_ok.
  split=> o Ho.
  - rewrite er_at //. set e := err_rand _ _ _ _ _ _ _ _ _ _ _ _ _ _. have S := R1 o Ho. have V a (Ha : a \in A) := R3 o a Ho Ha. rewrite -/e in S V. split.
    + rewrite -[e](addKr (tar n d (mR w.1.1) q o)) addrC. apply: sz_sub => //. exact: mR_low.
    + move=> a Ha. have := V a Ha. rewrite hornerD => E. apply: (addrI (tar n d (mR w.1.1) q o).[emb a]). by rewrite -E addr0.
  - rewrite ez_at //. set e := err_zero _ _ _ _ _ _ _ _ _ _ _ _ _ _. have [S Z] := R2 o Ho. have V a (Ha : a \in A) := R4 o a Ho Ha. rewrite -/e in S Z V.
    have [Z1 Z2] := mZ_ok w.1.1 (2 * oq q + o)%N. split.
    + rewrite -[e](addKr (taz n d (mZ w.1.1) q o)) addrC. exact: sz_sub.
    + move=> x Hx. have := Z x Hx. rewrite hornerD /taz Z2 // add0r. exact.
    + move=> a Ha. have := V a Ha. rewrite hornerD => E. apply: (addrI (taz n d (mZ w.1.1) q o).[emb a]). by rewrite -E addr0.
Qed.

(** What is dealt after the change. *)
Notation w1' := (change n Ms bR bZ X (wdelta w.1.2.1 w.1.2.2 w.2) w.1.1).
Notation chw := (ch (wdelta w.1.2.1 w.1.2.2 w.2) u).

Lemma ch_rand i c : (i < totR)%N -> (c < n)%N -> die chw 0 i c 0 0 = (dRw i).[emb c].
Proof.
  move=> Hi Hc. have J1 : (i < C.+1)%N by move: Hi; clear; lia. have J2 : (c < C.+1)%N by move: Hc nB; clear; lia.
  by rewrite /die ffunE /wdelta /delta /reach /dval !inordK // Hi Hc.
Qed.
Lemma ch_zero i c : (i < totZ)%N -> (c < n)%N -> die chw 1 i c 0 0 = (dZw i).[emb c].
Proof.
  move=> Hi Hc. have J1 : (i < C.+1)%N by move: Hi; clear; lia. have J2 : (c < C.+1)%N by move: Hc nB; clear; lia.
  by rewrite /die ffunE /wdelta /delta /reach /dval !inordK // Hi Hc.
Qed.
Lemma ch_co a b c e : (a <= B)%N -> (b <= B)%N -> (c <= B)%N -> (e <= B)%N ->
  die w1' 2 a b c e = die w.1.1 2 a b c e + co1 QBw u a b c e /\ die w1' 3 a b c e = die w.1.1 3 a b c e + co2 QBw u a b c e.
Proof.
  move=> Ha Hb Hc He. have J x : (x <= B)%N -> (x < C.+1)%N by clear; lia.
  rewrite !change_die !lift_co // /die !ffunE /wdelta /delta /reach /dval !inordK ?J //. by rewrite Ha Hb Hc He.
Qed.

Lemma change_rand s j : (forall i, (i < totR)%N -> (size (dRw i) <= t + l)%N) -> (s < n)%N -> (j < bR)%N ->
  prp w1' s j = prp w.1.1 s j + \sum_(r < R) X s r *: dRw (r * bR + j)%N.
Proof.
  move=> L Hs Hj. have [F1 F2] := fit0. have [T1 T3] := prp_ok w.1.1 s j. have /andP [_ Htl] := tln.
  apply/esym. apply: through_eq => //.
  - apply: sz_add => //. apply: (leq_trans (size_sum _ _ _)). apply/bigmax_leqP => r _. apply: (leq_trans (size_scale_leq _ _)). apply: L. exact: row_lt.
  - move=> c. rewrite addn0 => Hc. have Hcn : (c < n)%N by exact: leq_trans Hc Htl.
    rewrite hornerD T3 // change_die lift_rand //. congr (_ + _). rewrite horner_sum. apply: eq_bigr => r _. rewrite hornerZ ch_rand //. exact: row_lt.
Qed.
Lemma change_zero s j : zero_at totZ dZw -> (s < n)%N -> (j < bZ)%N ->
  pzp w1' s j = pzp w.1.1 s j + \sum_(r < R) X s r *: dZw (r * bZ + j)%N.
Proof.
  move=> L Hs Hj. have [F1 F2] := fitz. have [T1 T2 T3] := pzp_ok w.1.1 s j.
  apply/esym. apply: through_eq => //.
  - apply: sz_add => //. apply: (leq_trans (size_sum _ _ _)). apply/bigmax_leqP => r _. apply: (leq_trans (size_scale_leq _ _)). apply: (proj1 (L _ _)). exact: row_lt.
  - move=> q Hq. rewrite hornerD T2 // add0r horner_sum big1 // => r _. rewrite hornerZ (proj2 (L (r * bZ + j)%N (row_lt (ltn_ord r) Hj)) _ (mem_nth _ Hq)). by rewrite mulr0.
  - move=> c Hc. have Hcn : (c < n)%N by move: Hc; clear; lia.
    rewrite hornerD T3; last by rewrite ltn_subRL addnC. rewrite change_die lift_zero //. congr (_ + _). rewrite horner_sum. apply: eq_bigr => r _. rewrite hornerZ ch_zero //. exact: row_lt.
Qed.

(** Parties of the coalition draw the same. *)
Lemma same_die k a j c e : a \in A -> (k < 4)%N -> die w1' k a j c e = die w.1.1 k a j c e.
Proof.
  move=> Ha Hk. have HaB : (a <= B)%N by exact: up (allP HA a Ha). have HaC : (a <= C)%N by move: HaB; clear; lia.
  have Z b1 d1 e1 := ex_coA emb n t l circ B1 K (Pm QBw) Pkw (Pm' QBw) Pkw' (rr 2 u) (zz 2 u) (K1 u) b1 d1 e1 Ha.
  rewrite change_die -[RHS]addr0. congr (_ + _). rewrite /die ffunE (@inordK 3 k) // (@inordK B a) ?ltnS //.
  move: Hk. case: k => [|[|[|[|k]]]] // _.
  - case: ifP => // _. rewrite big1 // => r _. by rewrite XA // mul0r.
  - case: ifP => // _. rewrite big1 // => r _. by rewrite XA // mul0r.
  - rewrite /die ffunE /wdelta /delta /dval. case: (reach _ _ _ _ _ _); last exact: erefl. rewrite (@inordK 3) // (@inordK C a) ?ltnS //. exact: (Z _ _ _).1.
  - rewrite /die ffunE /wdelta /delta /dval. case: (reach _ _ _ _ _ _); last exact: erefl. rewrite (@inordK 3) // (@inordK C a) ?ltnS //. exact: (Z _ _ _).2.
Qed.
Lemma same_alt2 a j c e : a \in A -> die (alt2 w.1.2.1) 0 a j c e = die w.1.2.1 0 a j c e.
Proof.
  move=> Ha. rewrite /die ffunE /bshift -[RHS]addr0. congr (_ + _). case: ifP => // _.
  rewrite big1 // => r _. have HaB : (a <= B)%N by exact: up (allP HA a Ha). by rewrite inordK ?ltnS // XbA // mul0r.
Qed.
Lemma same_altb a j c : a \in A -> bdie (altb w.2) a j c = bdie w.2 a j c.
Proof.
  move=> Ha. have HaB : (a <= B)%N by exact: up (allP HA a Ha). rewrite /bdie ffunE /pshift -[RHS]addbF. congr (_ (+) _).
  have -> : parity (inord a : 'I_B.+1) (inord j : 'I_B.+1) (inord c : 'I_B.+1) = false; last by rewrite !andbF.
  rewrite /parity big1 // => r _. by rewrite inordK ?ltnS // XbA.
Qed.
End World.

(** ** The two runs look the same *)
Lemma pipe_exact (w : pipe_dice F B) (id1 id2 : [eqType of seq N]) chans1 chans2 :
  ProtoIdModel.preproc_ids id1 (N.of_nat n) = Some chans1 -> size chans1 = (3 + 2 * n)%N ->
  ProtoIdModel.garble_ids id2 circ (N.of_nat l) = Some chans2 ->
  ProtoIdModel.take_ids id2 (4 + N.of_nat (size gates))%num (4 + size gates) = Some cids ->
  let w' := phi w in
  [/\ forall a, a \in A -> same_pre (cast_pre w a) (cast_pre w' a) /\ same_coins (cast_garble w a) (cast_garble w' a),
      [/\ forall i, (i < totB)%N -> mB w'.1.2.1 w'.2 i = mB w.1.2.1 w.2 i + hB i,
          forall j, (j < keys)%N -> mR w'.1.1 (3 * errs + j)%N = mR w.1.1 (3 * errs + j)%N + hK j &
          forall q o, (q < n)%N -> (o < bq q)%N -> mR w'.1.1 (3 * oq q + (bq q + o))%N = mR w.1.1 (3 * oq q + (bq q + o))%N + hS q o],
      (forall a, a \in A -> held_by w a = held_by w' a) /\ low errs (pre_err emb n t l d (mB w.1.2.1 w.2) (mR w.1.1) (fun q => die w.1.2.2 0 q q) (fun q => die w.1.2.2 1 q q)) &
      exists rds1 rds1' rds2 rds2' : seq ([eqType of seq N] * round D),
      [/\ ids rds1 = chans1 /\ perm_eq (ids rds2) chans2, twins n A rds1 rds1' /\ twins n A rds2 rds2',
          realizes n rds1 (fun me k => preproc ser de (Ctx me n t l P Pn) Ms Mb id1 d (cast_pre w me) k) (held_by w) /\
          realizes n rds1' (fun me k => preproc ser de (Ctx me n t l P Pn) Ms Mb id1 d (cast_pre w' me) k) (held_by w'),
          exists res, @realizes n _ D (val F) _ rds2 (fun me k => garble emb ser de hash (g me) id2 (held_by w me) (cast_garble w me) k) res &
          exists res, @realizes n _ D (val F) _ rds2' (fun me k => garble emb ser de hash (g me) id2 (held_by w' me) (cast_garble w' me) k) res]].
Proof.
  move=> Hids1 Hsz Hids2 Hc w'. pose u := rho w.1.1. pose QBw := mB w.1.2.1 w.2. pose km := km1 w.1.2.2. pose ka := kand w.1.2.2.
  pose dRw := dR QBw km ka u. pose dZw := dZ QBw km ka u.
  have [_ [_ _ _ BE] [BO BI _ B3]] := Hen. have /andP [Htl0 Htl] := tln. rewrite /= in B3.
  have up m x : (m <= B)%N -> (x < m)%N -> (x <= B)%N by move=> H1 H2; exact: leq_trans (ltnW H2) H1.
  have Sbs : size bs = n by exact: size_err_sizes (npos HS).
  have Ebs : sumn bs = errs by exact: sumn_err_sizes (npos HS).
  have Bq q : (oq q + bq q <= errs)%N by have := nth_le_sumn bs q; rewrite Ebs.
  have nrLR : (n_randoms d <= nr)%N by move: LR; clear; lia.
  have nzLZ : (n_zeros d <= nz)%N by move: LZ; clear; lia.
  have I3 j : (j < nr)%N -> (3 * errs + keys + j < totR)%N by clear; lia.
  have I2 j : (j < nz)%N -> (2 * errs + j < totZ)%N by clear; lia.
  have V3 j : level 0 (3 * errs + keys + j) = DiceProofs.level n t circ B1 B2 K M 3 j.
  { have H1 : (3 * errs + keys + j < 3 * errs)%N = false by clear; lia. have H2 : (3 * errs + keys + j < 3 * errs + keys)%N = false by clear; lia.
    by rewrite /level H1 H2 addKn. }
  have V2 j : level 1 (2 * errs + j) = DiceProofs.level n t circ B1 B2 K M 4 j.
  { have H1 : (2 * errs + j < 2 * errs)%N = false by clear; lia. by rewrite /level H1 addKn. }
  have crr m j : (j < nr)%N -> (DiceProofs.level n t circ B1 B2 K M 3 j < m)%N -> rr m u j = from (mR w.1.1) (3 * errs + keys) j.
  { move=> Hj Hl. apply: cut_RP; [exact: I3|by rewrite V3]. }
  have czz m j : (j < nz)%N -> (DiceProofs.level n t circ B1 B2 K M 4 j < m)%N -> zz m u j = from (mZ w.1.1) (2 * errs) j.
  { move=> Hj Hl. apply: cut_ZP; [exact: I2|by rewrite V2]. }
  have cPk j : (j < 2 * K * size outs)%N -> Pk u j = from (mR w.1.1) (3 * errs) j.
  { rewrite -Ekt => Hj. apply: cut_RP; first by move: LR Hj; clear; lia.
    have H1 : (3 * errs + j < 3 * errs)%N = false by clear; lia. have H2 : (3 * errs + j < 3 * errs + keys)%N by rewrite ltn_add2l. by rewrite /level H1 H2. }
  (* garbling *)
  pose c1 q := die w.1.2.2 0 q q. pose c2 q := die w.1.2.2 1 q q.
  pose pe := pre_err emb n t l d QBw (mR w.1.1) c1 c2.
  pose o := Polys (Pm QBw) (Pk u) (from (mR w.1.1) (3 * errs + keys)) (from (mZ w.1.1) (2 * errs)) pe.
  have Ho : holds emb n circ K M nr nz (held_by w) o.
  { apply: holds_ext (held_holds w) _ _ _ _ _ => j Hj //. by rewrite -[RHS]/(Pk u j) cPk. }
  have addlow (p q : {poly F}) : (size p <= t + l)%N -> (size q <= t + l)%N -> (size (p + q)%R <= t + l)%N.
  { move=> H1 H2. apply: leq_trans (size_add _ _) _. by rewrite geq_max H1 H2. }
  have Lm : low (size outs) (o_mask o) by move=> j _; exact: mB_low.
  have Lk : low (2 * K * size outs) (o_key o) by move=> j _; exact: RP_low.
  have Lr : low nr (o_rand o) by move=> j _; exact: mR_low.
  have Lz : zero_at nz (o_zero o) by move=> j _; exact: mZ_ok.
  have Lm' : low (size outs) (Pm' QBw) by move=> j _; exact: QB_low'.
  have Lk' : low (2 * K * size outs) (Pk' u) by move=> j Hj; apply: addlow; [exact: RP_low|by have [] := hide_ok (sK j)].
  have Am : agree (size outs) (o_mask o) (Pm' QBw).
  { move=> j a _ Ha. by rewrite /Pm' /from hornerD hB_null // addr0. }
  have Ak : agree (2 * K * size outs) (o_key o) (Pk' u).
  { move=> j a _ Ha. have [_ _ H] := hide_ok (sK j). by rewrite /Pk' hornerD H // addr0. }
  have Hnr' : (nr1 + nr2 + mults <= nr)%N by exact: leq_trans Hnr nrLR.
  have Hnz' : (nz1 + nz2 + mults <= nz)%N by exact: leq_trans Hnz nzLZ.
  have Hr12 : (nr1 + nr2 <= nr)%N by apply: leq_trans Hnr'; exact: leq_addr.
  have Hz12 : (nz1 + nz2 <= nz)%N by apply: leq_trans Hnz'; exact: leq_addr.
  have E1 j : (j < nr1)%N -> rr 2 u j = o_rand o j.
  { move=> Hj. apply: crr; last by rewrite /DiceProofs.level -/nr1 Hj. apply: leq_trans Hr12. apply: leq_trans Hj _. exact: leq_addr. }
  have E2 j : (j < nz1)%N -> zz 2 u j = o_zero o j.
  { move=> Hj. apply: czz; last by rewrite /DiceProofs.level -/nz1 Hj. apply: leq_trans Hz12. apply: leq_trans Hj _. exact: leq_addr. }
  have E3 j : (j < nr2)%N -> from (rr 3 u) nr1 j = o_rand o (nr1 + j)%N.
  { move=> Hj. have Hj' : (nr1 + j < nr1 + nr2)%N by rewrite ltn_add2l. rewrite /from. apply: crr; first exact: leq_trans Hj' Hr12.
    by rewrite /DiceProofs.level -/nr1 -/nr2 Hj'; case: ifP. }
  have E4 j : (j < nz2)%N -> from (zz 3 u) nz1 j = o_zero o (nz1 + j)%N.
  { move=> Hj. have Hj' : (nz1 + j < nz1 + nz2)%N by rewrite ltn_add2l. rewrite /from. apply: czz; first exact: leq_trans Hj' Hz12.
    by rewrite /DiceProofs.level -/nz1 -/nz2 Hj'; case: ifP. }
  have E5 gid : (gid < size gates)%N -> is_and (nth g0 gates gid) -> Pr3 u gid = o_rand o (nr1 + nr2 + (moff gid + 3 * (K + 1)))%N.
  { move=> Hgid Ha. have Hq : (3 * (K + 1) < gate_mults prm (nth g0 gates gid))%N by move: Ha; case: (nth g0 gates gid) => //= *; rewrite -[X in (X < _)%N]addn0 ltn_add2l.
    have Hmul := offs_all (gate_mults prm) Hgid. rewrite /= in Hmul. rewrite /Pr3. apply: crr.
    - apply: leq_trans Hnr'. rewrite ltn_add2l. apply: leq_trans Hmul. by rewrite ltn_add2l.
    - have D1 : (nr1 + nr2 + (moff gid + 3 * (K + 1)) < nr1)%N = false by clear; lia.
      have D2 : (nr1 + nr2 + (moff gid + 3 * (K + 1)) < nr1 + nr2)%N = false by clear; lia.
      by rewrite /DiceProofs.level -/nr1 -/nr2 D1 D2 addKn /DiceProofs.first_product seg_offs // Ha eqxx. }
  have BC x : (x <= B)%N -> (x <= C)%N by clear; lia.
  have tB c : (c < t + l)%N -> (c <= B)%N by move=> H; apply: (up n) => //; exact: leq_trans H Htl.
  have rB j : (j < reps)%N -> (j <= B)%N by move=> H; apply: leq_trans B3; clear -H; lia.
  have X1 me i j c : (me < n)%N -> (i < size outs)%N -> (j < reps)%N -> (c < t + l)%N -> gk_out (cast_garble w me) i j c = K1 u me i j c.
  { move=> Hm Hi Hj Hcc. have Hm' := up _ _ nB Hm. apply/esym. rewrite /K1 cut_die //; last exact: BC. apply: rho_co => //; [exact: up Hi|exact: rB|exact: tB]. }
  have X2 me i j c : (me < n)%N -> (i < size inps)%N -> (j < reps)%N -> (c < t + l)%N -> gk_inp (cast_garble w me) i j c = K2 u me i j c.
  { move=> Hm Hi Hj Hcc. have Hm' := up _ _ nB Hm. apply/esym. rewrite /K2 cut_die //; last exact: BC. apply: rho_co => //; [exact: up Hi|exact: rB|exact: tB]. }
  pose pe' := pre_err emb n t l d (mB w'.1.2.1 w'.2) (mR w'.1.1) c1 c2.
  have [cids' [rds [rds' [Et [[L1 L2 A1 A2] [Hper Htw] Rg Rg2]]]]] := garble_exact serK HS Hl0 HKl Hdeg Hn16 UA HA tA Hwf Hinj HB1 HB2 hash Hg Hfits pe'
    Hsh Hids2 Ho Hnr' Hnz' Lm Lk Lr Lz Lm' Lk' Am Ak E1 E2 E3 E4 E5 X1 X2.
  move: Et L1 L2 A1 A2 Rg2. rewrite Hc => -[<-]. rewrite -[fun me => gk_and (cast_garble w me)]/ka => L1 L2 A1 A2 Rg2.
  (* the changes are of the right kind *)
  have GR j : (j < nr)%N -> dRw (3 * errs + keys + j)%N = grand QBw ka u j.
  { move=> Hj. have H1 : (3 * errs + keys + j < 3 * errs)%N = false by clear; lia. have H2 : (3 * errs + keys + j < 3 * errs + keys)%N = false by clear; lia.
    by rewrite /dRw /dR H1 H2 addKn. }
  have GZ j : (j < nz)%N -> dZw (2 * errs + j)%N = gzero QBw ka u j.
  { move=> Hj. have H1 : (2 * errs + j < 2 * errs)%N = false by clear; lia. by rewrite /dZw /dZ H1 addKn. }
  have KR j : (j < keys)%N -> dRw (3 * errs + j)%N = hK j.
  { move=> Hj. have H1 : (3 * errs + j < 3 * errs)%N = false by clear; lia. have H2 : (3 * errs + j < 3 * errs + keys)%N by rewrite ltn_add2l. by rewrite /dRw /dR H1 H2 addKn. }
  have ERw q j : (j < 3 * bq q)%N -> dRw (3 * oq q + j)%N = er QBw km u q j.
  { move=> Hj. have Hb := Bq q. have H1 : (3 * oq q + j < 3 * errs)%N by clear -Hb Hj; lia. by rewrite /dRw /dR H1 blkE // offE. }
  have EZw q j : (j < 2 * bq q)%N -> dZw (2 * oq q + j)%N = ez QBw km u q j.
  { move=> Hj. have Hb := Bq q. have H1 : (2 * oq q + j < 2 * errs)%N by clear -Hb Hj; lia. by rewrite /dZw /dZ H1 blkE // offE. }
  have splitR (Q : nat -> Prop) : (forall q j, (q < n)%N -> (j < 3 * bq q)%N -> Q (3 * oq q + j)%N) -> (forall j, (j < keys)%N -> Q (3 * errs + j)%N) ->
     (forall j, (j < nr)%N -> Q (3 * errs + keys + j)%N) -> forall i, (i < totR)%N -> Q i.
  { move=> Q1 Q2 Q3 i Hi. case: (ltnP i (3 * errs)) => H1.
    - have [q [e [Hq He ->]]] := @blk_split bs 3 i ltac:(by rewrite Ebs). rewrite Sbs in Hq. exact: Q1.
    - case: (ltnP i (3 * errs + keys)) => H2; first by rewrite -(subnKC H1); apply: Q2; move: H1 H2; clear; lia.
      rewrite -(subnKC H2). apply: Q3. move: Hi H2. clear. lia. }
  have splitZ (Q : nat -> Prop) : (forall q j, (q < n)%N -> (j < 2 * bq q)%N -> Q (2 * oq q + j)%N) ->
     (forall j, (j < nz)%N -> Q (2 * errs + j)%N) -> forall i, (i < totZ)%N -> Q i.
  { move=> Q1 Q2 i Hi. case: (ltnP i (2 * errs)) => H1.
    - have [q [e [Hq He ->]]] := @blk_split bs 2 i ltac:(by rewrite Ebs). rewrite Sbs in Hq. exact: Q1.
    - rewrite -(subnKC H1). apply: Q2. move: Hi H1. clear. lia. }
  have DRok : forall i, (i < totR)%N -> (size (dRw i) <= t + l)%N /\ forall a, a \in A -> (dRw i).[emb a] = 0.
  { apply: splitR => [q j Hq Hj|j Hj|j Hj].
    - rewrite ERw //. have [H _] := err_good w Hq. exact: H.
    - rewrite KR //. have [H1 _ H3] := hide_ok (sK j). by split.
    - rewrite GR //. have S := L1 j Hj. have V a (Ha : a \in A) := A1 j a Hj Ha. split.
      + rewrite -[grand _ _ _ j](addKr (o_rand o j)) addrC. apply: sz_sub; [exact: S|exact: Lr].
      + move=> a Ha. have := V a Ha. rewrite hornerD => E. apply: (addrI (o_rand o j).[emb a]). by rewrite addr0 [in RHS]E. }
  have DZok : forall i, (i < totZ)%N -> [/\ (size (dZw i) <= n)%N, forall x, x \in pos -> (dZw i).[x] = 0 & forall a, a \in A -> (dZw i).[emb a] = 0].
  { apply: splitZ => [q j Hq Hj|j Hj].
    - rewrite EZw //. have [_ H] := err_good w Hq. exact: H.
    - rewrite GZ //. have [S Z] := L2 j Hj. have V a (Ha : a \in A) := A2 j a Hj Ha. have [Z1 Z2] := Lz j Hj. split.
      + rewrite -[gzero _ _ _ j](addKr (o_zero o j)) addrC. apply: sz_sub; [exact: S|exact: Z1].
      + move=> x Hx. have := Z x Hx. rewrite hornerD Z2 // add0r. exact.
      + move=> a Ha. have := V a Ha. rewrite hornerD => E. apply: (addrI (o_zero o j).[emb a]). by rewrite addr0 [in RHS]E. }
  (* what is dealt *)
  have PR s j : (s < n)%N -> (j < bR)%N -> prp w'.1.1 s j = prp w.1.1 s j + \sum_(r < R) X s r *: dRw (r * bR + j)%N.
  { apply: change_rand => i Hi. exact: (DRok i Hi).1. }
  have PZ s j : (s < n)%N -> (j < bZ)%N -> pzp w'.1.1 s j = pzp w.1.1 s j + \sum_(r < R) X s r *: dZw (r * bZ + j)%N.
  { apply: change_zero => i Hi. by have [Z1 Z2 _] := DZok i Hi. }
  have MR i : (i < totR)%N -> mR w'.1.1 i = mR w.1.1 i + dRw i by move=> Hi; apply: (mix_add XM Hi) => s j Hs Hj; exact (PR s j Hs Hj).
  have MZ i : (i < totZ)%N -> mZ w'.1.1 i = mZ w.1.1 i + dZw i by move=> Hi; apply: (mix_add XM Hi) => s j Hs Hj; exact (PZ s j Hs Hj).
  have MB i : (i < totB)%N -> mB w'.1.2.1 w'.2 i = QBw i + hB i by move=> Hi; exact: mB_alt.
  have EB i : (i < totB)%N -> mB w'.1.2.1 w'.2 i = QB' QBw i by exact: MB.
  have nul m (f : nat -> {poly F}) (y : nat -> F) a : (forall r, (r < m)%N -> (f r).[emb a] = 0) -> (\sum_(r < m) y r *: f r).[emb a] = 0.
  { move=> Hr. rewrite horner_sum big1 // => r _. by rewrite hornerZ Hr ?mulr0. }
  have alR : alike n A (dealing emb ser bR (prp w.1.1)) (dealing emb ser bR (prp w'.1.1)).
  { move=> s a Hs Ha /=. congr ser. apply/eq_in_map => j. rewrite mem_iota add0n => /andP [_ Hj]. rewrite (PR s j Hs Hj) hornerD.
    rewrite (@nul R (fun r => dRw (r * bR + j)%N) (X s)) ?addr0 // => r Hr. apply: (proj2 (DRok _ _)) => //. exact: row_lt. }
  have alZ : alike n A (dealing emb ser bZ (pzp w.1.1)) (dealing emb ser bZ (pzp w'.1.1)).
  { move=> s a Hs Ha /=. congr ser. apply/eq_in_map => j. rewrite mem_iota add0n => /andP [_ Hj]. rewrite (PZ s j Hs Hj) hornerD.
    rewrite (@nul R (fun r => dZw (r * bZ + j)%N) (X s)) ?addr0 // => r Hr. have [_ _ H] := DZok _ (row_lt Hr Hj). exact: H. }
  have alB : alike n A (dealing emb ser bB (pbp w.1.2.1 w.2)) (dealing emb ser bB (pbp w'.1.2.1 w'.2)).
  { move=> s a Hs Ha /=. congr ser. apply/eq_in_map => j. rewrite mem_iota add0n => /andP [_ Hj]. rewrite (pbp_alt w.1.2.1 w.2 Hs Hj) hornerD.
    rewrite (@nul Rb (fun r => hB (r * bB + j)%N) (fun r => (Xb s r)%:R)) ?addr0 // => r Hr. exact: hB_null. }
  have recv (v : pipe_dice F B) : [/\ rand_polys emb n (t + l) (fun s => k_rand (cast_pre v s)) (prp v.1.1), secret_polys emb n n pos (fun _ _ _ => 0) (fun s => k_zero (cast_pre v s)) (pzp v.1.1) &
    secret_polys emb n (t + l) pos (fun s j q => if k_bit (cast_pre v s) j q then 1 else 0) (fun s => k_bitrand (cast_pre v s)) (pbp v.1.2.1 v.2)].
  { split=> s j _; [exact: prp_ok|exact: pzp_ok|exact: pbp_ok]. }
  have AB : agree (2 * errs) (mB w.1.2.1 w.2) (mB w'.1.2.1 w'.2).
  { move=> j a Hj Ha. have Hj' : (j < totB)%N by apply: leq_trans LB; move: Hj; clear; lia. by rewrite MB // hornerD hB_null // addr0. }
  have taE q : (q < n)%N -> (forall j, (j < bq q)%N -> ta0 n d (QB' QBw) q j = ta0 n d (mB w'.1.2.1 w'.2) q j) /\
      (forall j, (j < bq q)%N -> ta1 n d (QB' QBw) q j = ta1 n d (mB w'.1.2.1 w'.2) q j).
  { move=> Hq. have Hb := Bq q. have I0 j : (j < bq q)%N -> (2 * oq q + j < totB)%N by move=> Hj; apply: leq_trans LB; clear -Hb Hj; lia.
    have I1 j : (j < bq q)%N -> (2 * oq q + bq q + j < totB)%N by move=> Hj; apply: leq_trans LB; clear -Hb Hj; lia.
    split=> j Hj; apply/esym; [exact: EB (I0 j Hj)|exact: EB (I1 j Hj)]. }
  have iR q j : (q < n)%N -> (j < 3 * bq q)%N -> (3 * oq q + j < totR)%N.
  { move=> Hq Hj. have Hb := Bq q. apply: leq_trans LR. clear -Hb Hj; lia. }
  have iZ q j : (q < n)%N -> (j < 2 * bq q)%N -> (2 * oq q + j < totZ)%N.
  { move=> Hq Hj. have Hb := Bq q. apply: leq_trans LZ. clear -Hb Hj; lia. }
  have Hhs q : (q < n)%N -> low (bq q) (hS q) /\ null (bq q) (hS q).
  { move=> Hq. split; first by move=> j _; have [] := hide_ok (sS (oq q + j)%N). by move=> j a _; have [_ _ H] := hide_ok (sS (oq q + j)%N); exact: H. }
  have ER q j : (q < n)%N -> (j < 3 * bq q)%N -> mR w'.1.1 (3 * oq q + j)%N = mR w.1.1 (3 * oq q + j)%N +
     err_rand emb n t l A (bq q) (ta0 n d (mB w.1.2.1 w.2) q) (ta1 n d (mB w.1.2.1 w.2) q) (ta0 n d (mB w'.1.2.1 w'.2) q) (ta1 n d (mB w'.1.2.1 w'.2) q) (hS q) (tar n d (mR w.1.1) q) (die w.1.2.2 0 q q) j.
  { move=> Hq Hj. rewrite (MR _ (iR q j Hq Hj)) (ERw q j Hj) er_at //. congr (_ + _). have [T0 T1] := taE q Hq. exact: (proj1 (err_ext2 _ _ _ _ _ _ T0 T1)). }
  have EZ q j : (q < n)%N -> (j < 2 * bq q)%N -> mZ w'.1.1 (2 * oq q + j)%N = mZ w.1.1 (2 * oq q + j)%N +
     err_zero emb n t l A (bq q) (ta0 n d (mB w.1.2.1 w.2) q) (ta1 n d (mB w.1.2.1 w.2) q) (ta0 n d (mB w'.1.2.1 w'.2) q) (ta1 n d (mB w'.1.2.1 w'.2) q) (hS q) (tar n d (mR w.1.1) q) (die w.1.2.2 0 q q) j.
  { move=> Hq Hj. rewrite (MZ _ (iZ q j Hq Hj)) (EZw q j Hj) ez_at //. congr (_ + _). have [T0 T1] := taE q Hq. exact: (proj2 (err_ext2 _ _ _ _ _ _ T0 T1)). }
  have [rds1 [rds1' [Tw1 Rp1 Rp1' [Le Le' Ae]]]] := @preproc_exact _ emb D ser de fits serK n t l P Pn HS Hdeg A UA HA tA Ms Mb id1 d bR bZ bB HbR HbZ HbB HMs HMb Hfp
    chans1 Hids1 Hsz LR LZ LB (cast_pre w) (cast_pre w') (prp w.1.1) (pzp w.1.1) (pbp w.1.2.1 w.2) (prp w'.1.1) (pzp w'.1.1) (pbp w'.1.2.1 w'.2) hS
    (recv w) (recv w') (And3 alR alZ alB) (fun _ _ => conj erefl erefl) AB Hhs ER EZ.
  (* the second garbling *)
  have Ho' : holds emb n circ K M nr nz (held_by w') (Polys (Pm' QBw) (Pk' u) (fun j => o_rand o j + grand QBw ka u j) (fun j => o_zero o j + gzero QBw ka u j) pe').
  { apply: holds_ext (held_holds w') _ _ _ _ _ => j Hj //.
    - apply: EB. apply: leq_trans LB. move: Hj Em. clear. lia.
    - rewrite -Ekt in Hj. have Hi : (3 * errs + j < totR)%N by apply: leq_trans LR; move: Hj; clear; lia. rewrite -[LHS]/(mR w'.1.1 (3 * errs + j)%N) (MR _ Hi) (KR j Hj).
      congr (_ + _). apply/esym. apply: cPk. by rewrite -Ekt.
    - rewrite -[LHS]/(mR w'.1.1 (3 * errs + keys + j)%N) (MR _ (I3 j Hj)). by rewrite GR.
    - rewrite -[LHS]/(mZ w'.1.1 (2 * errs + j)%N) (MZ _ (I2 j Hj)). by rewrite GZ. }
  have Y1 me i j c : (me < n)%N -> (i < size outs)%N -> (j < reps)%N -> (c < t + l)%N -> gk_out (cast_garble w' me) i j c = K1 u me i j c + co1 QBw u me i j c.
  { move=> Hm Hi Hj Hcc. have [E _] := ch_co w (up _ _ nB Hm) (up _ _ BO Hi) (rB j Hj) (tB c Hcc). by rewrite -X1. }
  have Y2 me i j c : (me < n)%N -> (i < size inps)%N -> (j < reps)%N -> (c < t + l)%N -> gk_inp (cast_garble w' me) i j c = K2 u me i j c + co2 QBw u me i j c.
  { move=> Hm Hi Hj Hcc. have [_ E] := ch_co w (up _ _ nB Hm) (up _ _ BI Hi) (rB j Hj) (tB c Hcc). by rewrite -X2. }
  have Rg' := Rg2 (held_by w') (cast_garble w') Ho' (fun _ => conj erefl erefl) Y1 Y2.
  split.
  - move=> a Ha. split.
    + split=> [j i|j i|j i|j i|q j i]; first (by apply/esym; exact: (@same_die w 0%N)); first (by apply/esym; exact: (@same_die w 1%N));
        [by apply/esym; exact: same_altb|by apply/esym; exact: same_alt2|by []].
    + move=> i j c. split; [by apply/esym; exact: (@same_die w 2%N)|by apply/esym; exact: (@same_die w 3%N)|by []|by []].
  - split; [exact: MB| |].
    + move=> j Hj. have Hi : (3 * errs + j < totR)%N by apply: leq_trans LR; move: Hj; clear; lia. by rewrite (MR _ Hi) KR.
    + move=> q o' Hq Ho1. have H3 : (bq q + o' < 3 * bq q)%N by clear -Ho1; lia. rewrite (MR _ (iR q _ Hq H3)) ERw // er_at //. congr (_ + _).
      have H1 : (bq q + o' < bq q)%N = false by clear; lia. have H2 : (bq q + o' < bq q + bq q)%N by rewrite ltn_add2l. by rewrite /err_rand /three H1 H2 addKn.
  - split; last exact: Le. move=> a Ha. rewrite /held_by /pre_out /material_of. congr PreProc; apply: held_ext => j Hj; last exact: Ae.
    + have Hi : (2 * errs + j < totB)%N by apply: leq_trans LB; move: Hj; clear; lia. by rewrite (MB _ Hi) hornerD hB_null // addr0.
    + have Hi : (3 * errs + j < totR)%N by apply: leq_trans LR; move: Hj; clear; lia. rewrite (MR _ Hi) hornerD (proj2 (DRok _ Hi) _ Ha). by rewrite addr0.
    + rewrite (MR _ (I3 j Hj)) hornerD (proj2 (DRok _ (I3 j Hj)) _ Ha). by rewrite addr0.
    + rewrite (MZ _ (I2 j Hj)) hornerD. have [_ _ ->] := DZok _ (I2 j Hj); by rewrite ?addr0.
  - exists rds1, rds1', rds, rds'. split=> //; [by split; first by have [] := Tw1|by split; first by have [] := Tw1].
Qed.
End Pipe.

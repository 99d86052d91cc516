(** The error tasks of the preprocessing in two executions that look the same to
    a set of parties. *)

From Coq Require Import NArith.
From mathcomp Require Import all_ssreflect all_algebra zify.
From Verif Require Import MathModel MathProofs MatProofs SharingModel SharingSpec SharingProofs.
From Verif Require Import MachineModel MachineProofs MachineBuild Realize CoreModel CoreSpec CoreProofs RandTransProofs.
From Verif Require Import PreprocModel PreprocSpec PreprocProofs PreprocRun GarbleGates ViewProofs TwinProofs TwinCore.
Set Implicit Arguments.
Unset Strict Implicit.
Unset Printing Implicit Defensive.
Import GRing.Theory.
Local Open Scope ring_scope.

Section Err.
Variable F : fieldType.
Variable emb : nat -> F.
Variables I D : eqType.
Variable ser : seq F -> D.
Variable de : D -> option (seq F).
Variable fits : nat -> Prop.
Hypothesis serK : codec_ok ser de fits.
Variables (n t l : nat) (P Pn : pss F).
Hypothesis HS : setting emb n t l P Pn.
Hypothesis Hdeg : (2 * (t + l).-1 <= n.-1)%N.
Variable A : seq nat.
Hypothesis UA : uniq A.
Hypothesis HA : all (fun i => (i < n)%N) A.
Hypothesis tA : (size A <= t)%N.
Notation mk me := (Ctx me n t l P Pn).
Notation pos := (default_pos emb n l).
Notation held := (held emb).
Notation realizes := (@realizes n I D (val F)).
Notation low := (low t l).
Notation zero_at := (zero_at emb n l).
Notation agree := (agree emb A).

(** The two products one after the other. *)
Lemma err_task_seq (id1 id2 : I) L b p0 p1 rnd zr coin1 coin2 rd1 rd2 w1 w2 :
  realizes [:: (id1, rd1)] (fun me k => mult ser de (mk me) id1 (held p0 b me) (held p1 b me) (held rnd b me) (held zr b me) L (coin1 me) k) (held w1 b) ->
  realizes [:: (id2, rd2)] (fun me k => mult ser de (mk me) id2 (held w1 b me) (held (fun j => rnd (b + j)%N) b me) (held (fun j => rnd (b + b + j)%N) b me)
     (held (fun j => zr (b + j)%N) b me) L (coin2 me) k) (held w2 b) ->
  realizes [:: (id1, rd1); (id2, rd2)] (fun me k => err_task ser de (mk me) id1 id2 L
     (ErrInp b (held p0 b me) (held p1 b me) (held rnd (3 * b) me) (held zr (2 * b) me)) (coin1 me) (coin2 me) k) (held w2 b).
Proof.
  clear. move=> R1 R2 plan ph /= [A1 [A2 _]] me k js v Hm Fk.
  have Sl (p : nat -> {poly F}) a num : (a + b <= num)%N -> take b (drop a (held p num me)) = held (fun j => p (a + j)%N) b me by exact: held_slice.
  rewrite /err_task /= drainE ?size_held; last by clear; lia. rewrite drainE ?size_held; last by clear; lia.
  rewrite drainE; last by rewrite size_drop size_held; clear; lia.
  have T0 (p : nat -> {poly F}) num : (b <= num)%N -> take b (held p num me) = held p b me.
  { move=> Hb. have := Sl p 0%N num Hb. by rewrite drop0. }
  rewrite !T0; [|clear; lia|clear; lia]. rewrite drop_drop Sl; last by clear; lia.
  have E2 : drop (b + b) (held rnd (3 * b) me) = held (fun j => rnd (b + b + j)%N) b me.
  { rewrite -(Sl rnd (b + b)%N (3 * b)%N); last by clear; lia. by rewrite take_oversize // size_drop size_held; clear; lia. }
  have Ez : drop b (held zr (2 * b) me) = held (fun j => zr (b + j)%N) b me.
  { rewrite -(Sl zr b (2 * b)%N); last by clear; lia. by rewrite take_oversize // size_drop size_held; clear; lia. }
  rewrite E2 Ez.
  apply: (R1 plan ph (conj A1 Logic.I) me _ ((ph, id2) :: js)) => //.
  exact: (R2 plan ph (conj A2 Logic.I) me k js).
Qed.

(** Several lists of polynomials one after the other. *)
Definition three b (p q r : nat -> {poly F}) (j : nat) : {poly F} := if (j < b)%N then p j else if (j < b + b)%N then q (j - b)%N else r (j - (b + b))%N.
Definition two b (p q : nat -> {poly F}) (j : nat) : {poly F} := if (j < b)%N then p j else q (j - b)%N.

Lemma err_twin (id1 id2 : I) L b coin1 coin2 p0 p1 rnd zr : (L < n)%N -> fits b ->
  low b p0 -> low b p1 -> low (3 * b) rnd -> zero_at (2 * b) zr ->
  exists rds w, [/\ twins n A rds rds /\ ids rds = [:: id1; id2], low b w,
    realizes rds (fun me k => err_task ser de (mk me) id1 id2 L
     (ErrInp b (held p0 b me) (held p1 b me) (held rnd (3 * b) me) (held zr (2 * b) me)) (coin1 me) (coin2 me) k) (held w b) &
    forall pe, low b pe -> agree b w pe -> exists p0' p1' rnd' zr',
     [/\ [/\ low b p0', low b p1', low (3 * b) rnd' & zero_at (2 * b) zr'],
       [/\ agree b p0 p0', agree b p1 p1', agree (3 * b) rnd rnd' & agree (2 * b) zr zr'],
       forall j x, (j < b)%N -> x \in pos -> (p0' j).[x] = 1 /\ (p1' j).[x] = 1 &
       realizes rds (fun me k => err_task ser de (mk me) id1 id2 L
         (ErrInp b (held p0' b me) (held p1' b me) (held rnd' (3 * b) me) (held zr' (2 * b) me)) (coin1 me) (coin2 me) k) (held pe b)]].
Proof.
  move=> HL Hf L0 L1 Lr Lz. have HK := Kn HS.
  pose r1 j := rnd j. pose sc j := rnd (b + j)%N. pose r2 j := rnd (b + b + j)%N. pose z1 j := zr j. pose z2 j := zr (b + j)%N.
  have Lr1 : low b r1 by move=> j Hj; apply: Lr; clear -Hj; lia.
  have Lsc : low b sc by move=> j Hj; apply: Lr; clear -Hj; lia.
  have Lr2 : low b r2 by move=> j Hj; apply: Lr; clear -Hj; lia.
  have Lz1 : zero_at b z1 by move=> j Hj; apply: Lz; clear -Hj; lia.
  have Lz2 : zero_at b z2 by move=> j Hj; apply: Lz; clear -Hj; lia.
  pose dn1 := mdeal emb n t l p0 p1 r1 (coin1 L).
  have [rd1 [T1 Ld1 E1 M1]] := mult_shift serK HS A id1 coin1 Hdeg HL Hf L0 L1 Lr1 Lz1.
  pose w1 j := dn1 j - r1 j.
  have Lw1 : low b w1 by move=> j Hj; rewrite sz_sub ?Ld1 ?Lr1.
  pose dn2 := mdeal emb n t l w1 sc r2 (coin2 L).
  have [rd2 [T2 Ld2 E2 M2]] := mult_shift serK HS A id2 coin2 Hdeg HL Hf Lw1 Lsc Lr2 Lz2.
  pose w2 j := dn2 j - r2 j.
  have Lw2 : low b w2 by move=> j Hj; rewrite sz_sub ?Ld2 ?Lr2.
  exists [:: (id1, rd1); (id2, rd2)], w2. split=> //; first by apply: (@err_task_seq id1 id2 L b p0 p1 rnd zr coin1 coin2 rd1 rd2 w1); [exact: M1|exact: M2].
  move=> pe Le Ae.
  (* the bits are one, the scalars the errors *)
  have [h0 [Lh0 Nh0 Eh0]] := offset HS UA HA tA b (fun j => 1 - p0 j).
  have [h1 [Lh1 Nh1 Eh1]] := offset HS UA HA tA b (fun j => 1 - p1 j).
  have [hs [Lhs Nhs Ehs]] := offset HS UA HA tA b (fun j => pe j - sc j).
  pose p0' j := p0 j + h0 j. pose p1' j := p1 j + h1 j. pose sc' j := sc j + hs j.
  have L0' : low b p0' by move=> j Hj; rewrite sz_add ?L0 ?Lh0.
  have L1' : low b p1' by move=> j Hj; rewrite sz_add ?L1 ?Lh1.
  have Lsc' : low b sc' by move=> j Hj; rewrite sz_add ?Lsc ?Lhs.
  have A0 : agree b p0 p0' by apply: agree_null.
  have A1 : agree b p1 p1' by apply: agree_null.
  have Asc : agree b sc sc' by apply: agree_null.
  have O0 j x : (j < b)%N -> x \in pos -> (p0' j).[x] = 1 by move=> Hj Hx; rewrite hornerD Eh0 // hornerD hornerN hornerC addrC subrK.
  have O1 j x : (j < b)%N -> x \in pos -> (p1' j).[x] = 1 by move=> Hj Hx; rewrite hornerD Eh1 // hornerD hornerN hornerC addrC subrK.
  have Os j x : (j < b)%N -> x \in pos -> (sc' j).[x] = (pe j).[x] by move=> Hj Hx; rewrite hornerD Ehs // hornerD hornerN addrC subrK.
  (* the first product *)
  pose dl1 j := p0 j * p1 j - p0' j * p1' j.
  have [e1 [Le1 Ne1 Ee1]] := offset HS UA HA tA b dl1.
  pose r1' j := r1 j + e1 j. pose z1' j := z1 j + (dl1 j - e1 j).
  have Lr1' : low b r1' by move=> j Hj; rewrite sz_add ?Lr1 ?Le1.
  have Ar1 : agree b r1 r1' by apply: agree_null.
  have Lz1' : zero_at b z1'.
  { move=> j Hj. have [H3 H4] := Lz1 j Hj. split.
    - rewrite sz_add // sz_sub //; last by exact: leq_trans (Le1 j Hj) HK.
      rewrite sz_sub //; apply: (sz_mul HS) => //; [exact: L0|exact: L1|exact: L0'|exact: L1'].
    - move=> x Hx. by rewrite hornerD [(dl1 j - e1 j).[x]]hornerD hornerN H4 // add0r Ee1 // subrr. }
  have Az1 : agree b z1 z1'.
  { apply: agree_null => j a Hj Ha. by rewrite hornerD hornerN Ne1 // subr0 /dl1 hornerD hornerN !hornerM A0 // A1 // subrr. }
  pose w1' j := dn1 j - r1' j.
  have Lw1' : low b w1' by move=> j Hj; rewrite sz_sub ?Ld1 ?Lr1'.
  have Aw1 : agree b w1 w1' by move=> j a Hj Ha; rewrite !hornerD !hornerN -Ar1.
  have Ow j x : (j < b)%N -> x \in pos -> (w1' j).[x] = 1.
  { move=> Hj Hx. rewrite /w1' /r1' hornerD hornerN hornerD E1 // Ee1 // /dl1 hornerD hornerN !hornerM O0 // O1 // mulr1.
    rewrite opprD addrA addrK opprB addrC subrK //. }
  (* the second product *)
  pose r2' j := dn2 j - pe j. pose z2' j := z2 j + (w1 j * sc j - w1' j * sc' j + (r2 j - r2' j)).
  have Lr2' : low b r2' by move=> j Hj; rewrite sz_sub ?Ld2 ?Le.
  have Ar2 : agree b r2 r2'.
  { move=> j a Hj Ha. have := Ae j a Hj Ha. rewrite /w2 /r2' !hornerD !hornerN => <-. by rewrite opprB addrC subrK. }
  have Lz2' : zero_at b z2'.
  { move=> j Hj. have [H3 H4] := Lz2 j Hj. split.
    - rewrite sz_add // sz_add //; first by rewrite sz_sub //; apply: (sz_mul HS) => //; [exact: Lw1|exact: Lsc|exact: Lw1'|exact: Lsc'].
      rewrite sz_sub //; [exact: leq_trans (Lr2 j Hj) HK|exact: leq_trans (Lr2' j Hj) HK].
    - move=> x Hx. rewrite hornerD H4 // add0r.
      have G (a a' c c' r d e : {poly F}) : (a * c - a' * c' + (r - (d - e))).[x] = a.[x] * c.[x] - a'.[x] * c'.[x] + (r.[x] - (d.[x] - e.[x])).
      { by rewrite !(hornerD, hornerN, hornerM). }
      rewrite G Ow // Os // mul1r E2 //. move: ((w1 j).[x] * (sc j).[x]) ((pe j).[x]) ((r2 j).[x]) => a e r.
      have -> : r - (a + r - e) = e - a by rewrite opprB opprD addrCA [- a - r]addrC addNKr.
      by rewrite -[e - a]opprB subrr. }
  have Az2 : agree b z2 z2'.
  { apply: agree_null => j a Hj Ha. by rewrite hornerD [(w1 j * _ - _).[_]]hornerD hornerN [(r2 j - _).[_]]hornerD hornerN !hornerM -Aw1 // -Asc // -Ar2 // !subrr addr0. }
  exists p0', p1', (three b r1' sc' r2'), (two b z1' z2').
  have X3 j : (j < 3 * b)%N -> [\/ exists2 i, (i < b)%N & j = i /\ three b r1' sc' r2' j = r1' i,
     exists2 i, (i < b)%N & j = (b + i)%N /\ three b r1' sc' r2' j = sc' i | exists2 i, (i < b)%N & j = (b + b + i)%N /\ three b r1' sc' r2' j = r2' i].
  { clear. rewrite /three => Hj. case: (ltnP j b) => H1; first by apply: Or31; exists j.
    case: (ltnP j (b + b)) => H2; [apply: Or32; exists (j - b)%N|apply: Or33; exists (j - (b + b))%N]; try lia; split=> //; lia. }
  have X2 j : (j < 2 * b)%N -> (exists2 i, (i < b)%N & j = i /\ two b z1' z2' j = z1' i) \/ (exists2 i, (i < b)%N & j = (b + i)%N /\ two b z1' z2' j = z2' i).
  { clear. rewrite /two => Hj. case: (ltnP j b) => H1; [left; exists j|right; exists (j - b)%N]; try lia; split=> //; lia. }
  split.
  - split=> //.
    + move=> j /X3 [] [i Hi [_ ->]]; [exact: Lr1'|exact: Lsc'|exact: Lr2'].
    + move=> j /X2 [] [i Hi [_ ->]]; [exact: Lz1'|exact: Lz2'].
  - split=> //.
    + move=> j a /X3 [] [i Hi [-> ->]] Ha; [exact: Ar1|exact: Asc|exact: Ar2].
    + move=> j a /X2 [] [i Hi [-> ->]] Ha; [exact: Az1|exact: Az2].
  - by move=> j x Hj Hx; rewrite O0 ?O1.
  - apply: (@err_task_seq id1 id2 L b p0' p1' (three b r1' sc' r2') (two b z1' z2') coin1 coin2 rd1 rd2 w1').
    + apply: realizes_eq (M1 p0' p1' r1' z1' _) => // [i k Hi|j Hj]; last exact: shift_id.
      congr mult; apply: held_ext => j Hj; by rewrite /three /two Hj.
    + have R := M2 w1' sc' r2' z2'. apply: realizes_eq (R _) => // [i k Hi|i Hi|j Hj].
      * congr mult; apply: held_ext => j Hj; rewrite /three /two; cbv beta.
        -- by rewrite ltnNge leq_addr /= ltn_add2l Hj addKn.
        -- by rewrite !ltnNge leq_addr -addnA leq_addr /= addnA addKn.
        -- by rewrite ltnNge leq_addr /= addKn.
      * apply: held_ext => j Hj. by rewrite /r2' opprB addrC subrK.
      * rewrite /z2' -/(sc j) -/(w1 j) -/(r2 j) -/(z2 j). move: (w1' j * sc' j) (w1 j * sc j) (r2' j) (r2 j) (z2 j) => a' a r' r z.
        rewrite [z + _]addrC addrA. congr (_ + _). rewrite addrACA. congr (_ + _); by rewrite addrC subrK.
Qed.
End Err.

(** The error tasks of the preprocessing in two executions that look the same to
    a set of parties, with explicit changes of the masks. *)

From Coq Require Import NArith.
From mathcomp Require Import all_ssreflect all_algebra zify.
From Verif Require Import MathModel MathProofs MatProofs SharingModel SharingSpec SharingProofs.
From Verif Require Import MachineModel MachineProofs MachineBuild Realize CoreModel CoreSpec CoreProofs RandTransProofs.
From Verif Require Import PreprocModel PreprocSpec PreprocProofs PreprocRun GarbleGates ViewProofs TwinProofs TwinCore TwinErr.
Set Implicit Arguments.
Unset Strict Implicit.
Unset Printing Implicit Defensive.
Import GRing.Theory.
Local Open Scope ring_scope.

Section Err.
Variable F : fieldType.
Variable emb : nat -> F.
Variables I D : eqType.
Variable ser : seq F -> D.
Variable de : D -> option (seq F).
Variable fits : nat -> Prop.
Hypothesis serK : codec_ok ser de fits.
Variables (n t l : nat) (P Pn : pss F).
Hypothesis HS : setting emb n t l P Pn.
Hypothesis Hdeg : (2 * (t + l).-1 <= n.-1)%N.
Variable A : seq nat.
Hypothesis UA : uniq A.
Hypothesis HA : all (fun i => (i < n)%N) A.
Hypothesis tA : (size A <= t)%N.
Notation mk me := (Ctx me n t l P Pn).
Notation pos := (default_pos emb n l).
Notation held := (held emb).
Notation realizes := (@realizes n I D (val F)).
Notation low := (low t l).
Notation zero_at := (zero_at emb n l).
Notation agree := (agree emb A).
Notation null := (null emb A).
Notation offp := (offp emb n l A).
Notation mout := (mout emb n t l).
Notation mdeal := (mdeal emb n t l).
Notation mpr := (mpr emb n l A).
Notation mpz := (mpz emb n l A).

(** What the two products come to. *)
Definition err_w1 (p0 p1 rnd : nat -> {poly F}) (c1 : nat -> nat -> F) : nat -> {poly F} := mout p0 p1 rnd c1.
Definition err_w2 (b : nat) (p0 p1 rnd : nat -> {poly F}) (c1 c2 : nat -> nat -> F) : nat -> {poly F} :=
  mout (err_w1 p0 p1 rnd c1) (fun j => rnd (b + j)%N) (fun j => rnd (b + b + j)%N) c2.

(** The differences of the two products, when the bits become [p0'], [p1'] and
    the scalars change by [hs]. *)
Definition err_dl1 (p0 p1 p0' p1' : nat -> {poly F}) : nat -> {poly F} := mdl p0 p1 p0' p1'.
Definition err_dl2 (b : nat) (p0 p1 p0' p1' hs rnd : nat -> {poly F}) (c1 : nat -> nat -> F) : nat -> {poly F} :=
  mdl (err_w1 p0 p1 rnd c1) (fun j => rnd (b + j)%N) (fun j => err_w1 p0 p1 rnd c1 j - offp (err_dl1 p0 p1 p0' p1' j)) (fun j => rnd (b + j)%N + hs j).
Definition err_rand b p0 p1 p0' p1' hs rnd c1 : nat -> {poly F} :=
  three b (fun j => offp (err_dl1 p0 p1 p0' p1' j)) hs (fun j => offp (err_dl2 b p0 p1 p0' p1' hs rnd c1 j)).
Definition err_zero b p0 p1 p0' p1' hs rnd c1 : nat -> {poly F} :=
  two b (fun j => err_dl1 p0 p1 p0' p1' j - offp (err_dl1 p0 p1 p0' p1' j))
    (fun j => err_dl2 b p0 p1 p0' p1' hs rnd c1 j - offp (err_dl2 b p0 p1 p0' p1' hs rnd c1 j)).

Let gp : good_pos emb n pos. Proof. by have [_ _ _ Hg] := HS. Qed.
Let fit1 : (size pos <= t + l)%N. Proof. by rewrite size_pos leq_addl. Qed.
Let fit2 : (t + l <= size pos + n)%N. Proof. apply: leq_trans (Kn HS) _. exact: leq_addl. Qed.

Lemma mout_sec px py pr c j x : x \in pos -> (mout px py pr c j).[x] = (px j).[x] * (py j).[x].
Proof.
  move=> Hx. rewrite /TwinCore.mout hornerD hornerN. have [_ T _] := through_ok (fun k => (px j * py j + pr j).[nth 0 pos k]) (c j) gp fit1 fit2.
  have := T (index x pos). rewrite index_mem nth_index // => /(_ Hx). rewrite /TwinCore.mdeal => ->. by rewrite hornerD hornerM addrK.
Qed.

Lemma mout_low px py pr c num : low num pr -> low num (mout px py pr c).
Proof.
  move=> L j Hj. have [T _ _] := through_ok (fun k => (px j * py j + pr j).[nth 0 pos k]) (c j) gp fit1 fit2. by apply: sz_sub => //; exact: L.
Qed.

(** With the masks changed accordingly, the leader deals the same. *)
Lemma mout_shift px py px' py' pr c j :
  mout px' py' (mpr pr (mdl px py px' py')) c j = mout px py pr c j - offp (mdl px py px' py' j).
Proof.
  have E : mdeal px' py' (mpr pr (mdl px py px' py')) c j = mdeal px py pr c j.
  { apply: through_ext => // k Hk. have [_ _ O] := offp_ok HS UA HA tA (mdl px py px' py' j). rewrite /TwinCore.mpr !hornerD O ?mem_nth // /mdl hornerD hornerN.
    rewrite addrCA [X in _ + X]addrC subrK. by rewrite addrC. }
  rewrite /TwinCore.mout E /TwinCore.mpr opprD addrA. by [].
Qed.

Lemma mout_ext px py pr px' py' pr' c j : px j = px' j -> py j = py' j -> pr j = pr' j -> mout px py pr c j = mout px' py' pr' c j.
Proof. by rewrite /TwinCore.mout /TwinCore.mdeal => -> -> ->. Qed.

Lemma err_w2_sec b p0 p1 rnd c1 c2 j x : x \in pos -> (err_w2 b p0 p1 rnd c1 c2 j).[x] = (p0 j).[x] * (p1 j).[x] * (rnd (b + j)%N).[x].
Proof. move=> Hx. by rewrite /err_w2 !mout_sec. Qed.

Lemma err_exact (id1 id2 : I) L b coin1 coin2 p0 p1 p0' p1' hs rnd zr : (L < n)%N -> fits b ->
  [/\ low b p0, low b p1, low b p0', low b p1' & low b hs] -> [/\ agree b p0 p0', agree b p1 p1' & null b hs] -> low (3 * b) rnd -> zero_at (2 * b) zr ->
  let rnd' j := rnd j + err_rand b p0 p1 p0' p1' hs rnd (coin1 L) j in
  let zr' j := zr j + err_zero b p0 p1 p0' p1' hs rnd (coin1 L) j in
  let w := err_w2 b p0 p1 rnd (coin1 L) (coin2 L) in let w' := err_w2 b p0' p1' rnd' (coin1 L) (coin2 L) in
  exists rds, [/\ twins n A rds rds /\ ids rds = [:: id1; id2], 
    [/\ low (3 * b) rnd', zero_at (2 * b) zr', agree (3 * b) rnd rnd' & agree (2 * b) zr zr'], [/\ low b w, low b w' & agree b w w'],
    realizes rds (fun me k => err_task ser de (mk me) id1 id2 L
     (ErrInp b (held p0 b me) (held p1 b me) (held rnd (3 * b) me) (held zr (2 * b) me)) (coin1 me) (coin2 me) k) (held w b) &
    realizes rds (fun me k => err_task ser de (mk me) id1 id2 L
     (ErrInp b (held p0' b me) (held p1' b me) (held rnd' (3 * b) me) (held zr' (2 * b) me)) (coin1 me) (coin2 me) k) (held w' b)].
Proof.
  move=> HL Hf [L0 L1 L0' L1' Lhs] [A0 A1 Nhs] Lr Lz rnd' zr' w w'.
  pose r1 j := rnd j. pose sc j := rnd (b + j)%N. pose r2 j := rnd (b + b + j)%N. pose z1 j := zr j. pose z2 j := zr (b + j)%N.
  have Lr1 : low b r1 by move=> j Hj; apply: Lr; clear -Hj; lia.
  have Lsc : low b sc by move=> j Hj; apply: Lr; clear -Hj; lia.
  have Lr2 : low b r2 by move=> j Hj; apply: Lr; clear -Hj; lia.
  have Lz1 : zero_at b z1 by move=> j Hj; apply: Lz; clear -Hj; lia.
  have Lz2 : zero_at b z2 by move=> j Hj; apply: Lz; clear -Hj; lia.
  pose sc' j := sc j + hs j.
  have Lsc' : low b sc' by move=> j Hj; rewrite sz_add ?Lsc ?Lhs.
  have Asc : agree b sc sc' by apply: agree_null.
  have [rd1 [[Lr1' Lz1' Ar1 Az1] [Lw1 Lw1' Aw1] T1 R1 R1']] := mult_exact serK HS UA HA tA id1 coin1 Hdeg HL Hf L0 L1 L0' L1' A0 A1 Lr1 Lz1.
  have [rd2 [[Lr2' Lz2' Ar2 Az2] [Lw2 Lw2' Aw2] T2 R2 R2']] := mult_exact serK HS UA HA tA id2 coin2 Hdeg HL Hf Lw1 Lsc Lw1' Lsc' Aw1 Asc Lr2 Lz2.
  have X3 j : (j < 3 * b)%N -> [\/ exists2 i, (i < b)%N & j = i /\ rnd' j = mpr r1 (err_dl1 p0 p1 p0' p1') i,
     exists2 i, (i < b)%N & j = (b + i)%N /\ rnd' j = sc' i | exists2 i, (i < b)%N & j = (b + b + i)%N /\ rnd' j = mpr r2 (err_dl2 b p0 p1 p0' p1' hs rnd (coin1 L)) i].
  { rewrite /rnd' /err_rand /three => Hj. case: (ltnP j b) => H1; first by apply: Or31; exists j.
    case: (ltnP j (b + b)) => H2.
    - have H3 : (j - b < b)%N by clear -H1 H2; lia. apply: Or32. exists (j - b)%N => //. rewrite subnKC //. split=> //. by rewrite /sc' /sc subnKC.
    - have H3 : (j - (b + b) < b)%N by clear -H2 Hj; lia. apply: Or33. exists (j - (b + b))%N => //. rewrite subnKC //. split=> //. by rewrite /TwinCore.mpr /r2 subnKC. }
  have X2 j : (j < 2 * b)%N -> (exists2 i, (i < b)%N & j = i /\ zr' j = mpz z1 (err_dl1 p0 p1 p0' p1') i) \/
     (exists2 i, (i < b)%N & j = (b + i)%N /\ zr' j = mpz z2 (err_dl2 b p0 p1 p0' p1' hs rnd (coin1 L)) i).
  { rewrite /zr' /err_zero /two => Hj. case: (ltnP j b) => H1; first by left; exists j.
    have H3 : (j - b < b)%N by clear -H1 Hj; lia. right. exists (j - b)%N => //. rewrite subnKC //. split=> //. by rewrite /TwinCore.mpz /z2 subnKC. }
  have N1 j : (j < b)%N -> rnd' j = mpr r1 (err_dl1 p0 p1 p0' p1') j by move=> Hj; rewrite /rnd' /err_rand /three Hj.
  have N2 j : (j < b)%N -> rnd' (b + j)%N = sc' j by move=> Hj; rewrite /rnd' /err_rand /three ltnNge leq_addr /= ltn_add2l Hj addKn.
  have N3 j : (j < b)%N -> rnd' (b + b + j)%N = mpr r2 (err_dl2 b p0 p1 p0' p1' hs rnd (coin1 L)) j.
  { move=> Hj. by rewrite /rnd' /err_rand /three !ltnNge leq_addr -addnA leq_addr /= addnA addKn. }
  have M1 j : (j < b)%N -> zr' j = mpz z1 (err_dl1 p0 p1 p0' p1') j by move=> Hj; rewrite /zr' /err_zero /two Hj.
  have M2 j : (j < b)%N -> zr' (b + j)%N = mpz z2 (err_dl2 b p0 p1 p0' p1' hs rnd (coin1 L)) j.
  { move=> Hj. by rewrite /zr' /err_zero /two ltnNge leq_addr /= addKn. }
  have W1 j : (j < b)%N -> err_w1 p0' p1' rnd' (coin1 L) j = err_w1 p0 p1 rnd (coin1 L) j - offp (err_dl1 p0 p1 p0' p1' j).
  { move=> Hj. rewrite -mout_shift. apply: mout_ext => //. exact: N1. }
  have W2 j : (j < b)%N -> w' j = w j - offp (err_dl2 b p0 p1 p0' p1' hs rnd (coin1 L) j).
  { move=> Hj. rewrite /w /err_w2 -mout_shift. apply: mout_ext; [exact: W1|exact: N2|exact: N3]. }
  exists [:: (id1, rd1); (id2, rd2)]. split=> //.
  - split.
    + move=> j /X3 [] [i Hi [_ ->]]; [exact: Lr1'|exact: Lsc'|exact: Lr2'].
    + move=> j /X2 [] [i Hi [_ ->]]; [exact: Lz1'|exact: Lz2'].
    + move=> j a /X3 [] [i Hi [-> ->]] Ha; [exact: Ar1|exact: Asc|exact: Ar2].
    + move=> j a /X2 [] [i Hi [-> ->]] Ha; [exact: Az1|exact: Az2].
  - split; first exact: Lw2.
    + move=> j Hj. rewrite W2 //. exact: Lw2'.
    + move=> j a Hj Ha. rewrite W2 //. exact: Aw2.
  - apply: (@err_task_seq _ emb I D ser de n t l P Pn id1 id2 L b p0 p1 rnd zr coin1 coin2 rd1 rd2 (err_w1 p0 p1 rnd (coin1 L))); [exact: R1|exact: R2].
  - apply: (@err_task_seq _ emb I D ser de n t l P Pn id1 id2 L b p0' p1' rnd' zr' coin1 coin2 rd1 rd2 (err_w1 p0' p1' rnd' (coin1 L))).
    + apply: realizes_eq R1' => // [i k Hi|i Hi].
      * congr mult; apply: held_ext => j Hj; [by rewrite N1|by rewrite M1].
      * apply: held_ext => j Hj. by rewrite W1.
    + apply: realizes_eq R2' => // [i k Hi|i Hi].
      * congr mult; apply: held_ext => j Hj; [by rewrite W1|by rewrite N2|by rewrite N3|by rewrite M2].
      * apply: held_ext => j Hj. by rewrite W2.
Qed.
End Err.

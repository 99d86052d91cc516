(** Proofs about call histories. *)

From Coq Require Import ZArith NArith List Bool Lia.
From Verif Require Import GaloisModel GF2Poly GaloisOrder GaloisProofs GaloisSpec.
Import ListNotations.

Definition hist_inv (w : N) (g : gstate) : Prop :=
  (g_once g = false -> forall v, g_tabs g v = None) /\
  (g_once g = true -> exists lg il, g_tabs g w = Some (lg, il) /\ tables_ok w lg il) /\
  (g_dist g = None \/ g_dist g = Some (2 ^ w)%N).

Lemma init_step w g : (1 <= w <= 29)%N -> hist_inv w g ->
  exists g', gf_init true true w g = Done (g', true) /\ hist_inv w g' /\ g_once g' = true.
Proof.
  intros Hw (A & B & C). unfold gf_init. destruct (g_once g) eqn:O.
  - exists g. split; [reflexivity|]. split; [|assumption]. split; [congruence|].
    split; [intro; now apply B|assumption].
  - unfold create_log_tables_g. destruct (N.ltb_spec 30 w); [lia|].
    rewrite A by reflexivity.
    destruct (create_ok w Hw) as (lg & il & E & T). rewrite E. cbn [cbind].
    eexists. split; [reflexivity|]. split; [|reflexivity]. unfold hist_inv. cbn [g_once g_tabs g_dist].
    split; [discriminate|]. split; [|assumption]. intros _. exists lg, il.
    now rewrite N.eqb_refl.
Qed.

Lemma rand_step w g coin : (forall b, (0 < b)%N -> (coin b < b)%N) -> hist_inv w g ->
  (fst (gf_rand w coin g) < 2 ^ w)%N /\ hist_inv w (snd (gf_rand w coin g)) /\
  g_once (snd (gf_rand w coin g)) = g_once g.
Proof.
  intros Hc (A & B & C). assert (P := pow2_pos w).
  unfold gf_rand. destruct (g_dist g) as [b|] eqn:D; cbn [fst snd].
  - destruct C as [C|C]; [discriminate|]. injection C as ->. split; [now apply Hc|].
    split; [|reflexivity]. split; [assumption|]. split; [assumption|]. right. assumption.
  - split; [now apply Hc|]. split; [|reflexivity]. split; [assumption|]. split; [assumption|].
    now right.
Qed.

Lemma hist_run w cs : (1 <= w <= 29)%N -> Forall (good_call w) cs -> forall g, hist_inv w g ->
  exists g' outs, run_calls cs g = Done (g', outs) /\ hist_inv w g' /\
    (g_once g' = true <-> g_once g = true \/ Exists is_init cs) /\
    Forall (fun o => match o with OutInit ok => ok = true | OutRand v => (v < 2 ^ w)%N end) outs.
Proof.
  intros Hw. induction 1 as [|c cs Hc _ IH]; intros g I.
  - exists g, []. split; [reflexivity|]. split; [assumption|]. split; [|constructor].
    split; [tauto|]. intros [|E]; [assumption|inversion E].
  - destruct c as [m1 m2 v|v coin]; cbn [good_call] in Hc.
    + destruct Hc as (-> & -> & ->).
      destruct (init_step w g Hw I) as (g1 & E1 & I1 & O1).
      destruct (IH g1 I1) as (g2 & outs & E2 & I2 & O2 & F2).
      exists g2, (OutInit true :: outs). cbn [run_calls]. rewrite E1. cbn [cbind fst snd].
      rewrite E2. cbn [cbind fst snd]. split; [reflexivity|]. split; [assumption|].
      split; [|now constructor]. rewrite O2. split; [|tauto]. intros _. right. now left.
    + destruct Hc as (-> & Hcoin).
      destruct (rand_step w g coin Hcoin I) as (V & I1 & O1).
      destruct (IH _ I1) as (g2 & outs & E2 & I2 & O2 & F2).
      exists g2, (OutRand (fst (gf_rand w coin g)) :: outs). cbn [run_calls].
      rewrite E2. cbn [cbind fst snd]. split; [reflexivity|]. split; [assumption|].
      split; [|now constructor]. rewrite O2, O1. split.
      * intros [H|H]; [tauto|]. right. now right.
      * intros [H|H]; [tauto|]. inversion H as [? ? X|]; subst; [destruct X|tauto].
Qed.

Lemma hist_start w : hist_inv w g_start.
Proof. split; [reflexivity|]. split; [discriminate|]. now left. Qed.

Lemma initialised_tables w g : (1 <= w <= 29)%N -> initialised w g ->
  exists lg il, g_tabs g w = Some (lg, il) /\ tables_ok w lg il.
Proof.
  intros Hw (cs & outs & F & E & R).
  destruct (hist_run w cs Hw F g_start (hist_start w)) as (g' & outs' & R' & I & O & _).
  rewrite R in R'. injection R' as <- <-. destruct I as (_ & B & _). apply B, O. now right.
Qed.

Lemma field_poly_modulus w : (1 <= w <= 30)%N -> modulus w (prim_poly w) = field_poly w.
Proof.
  assert (H : forallb (fun v => N.eqb (modulus v (prim_poly v)) (field_poly v)) widths = true)
    by (vm_compute; reflexivity).
  intro Hw. rewrite forallb_forall in H. apply N.eqb_eq, H, width_in, Hw.
Qed.

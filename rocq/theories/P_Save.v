(** Property theorems C59: saving the figures. *)

From Coq Require Import NArith String List Ascii.
From Verif Require Import CircuitModel CircuitSpec LpnModel LpnSpec.
From mathcomp Require Import all_ssreflect all_algebra zify.
From Verif Require Import MathModel MathProofs MatProofs MatFileModel SharingModel SharingSpec SharingProofs.
From Verif Require Import MachineModel MachineProofs MachineBuild Realize CoreModel CoreSpec CoreProofs.
From Verif Require Import RandTransProofs PreprocModel PreprocSpec PreprocProofs GarbleModel GarbleSpec GarbleRun PipeModel BinModel.
From Verif Require Import GFField GFCodec P_Math P_Sharing P_Core P_Preproc P_Garble P_MatFile P_Phase P_Bin P_BinPre.
From Verif Require Import SaveModel SaveProofs.
From Verif Require ProtoIdModel.
Set Implicit Arguments.
Unset Strict Implicit.
Unset Printing Implicit Defensive.

(** ** The step as a round *)

Section Save.

Variables (n : nat) (I D : eqType) (V T : Type) (b : I) (d fin : D) (R : nat).
Variables (Q : nat -> (seq T -> proc I D V) -> proc I D V) (res : nat -> nat -> T) (rep : nat -> D).
Notation proc := (proc I D V).

(** What party [i] knows in the end. *)
Definition reports (i : nat) : option (seq D) := if i == 0 then Some [seq rep j | j <- iota 0 n] else None.

(** Party 0 takes its own last message. *)
Definition save_own (me : nat) (k : option (seq D) -> proc) : proc :=
  if me == 0 then
    Send (One 0) b (rep 0) (gather n b (fun ds =>
      Send All b fin (Recv b (fun s x => if (s == 0) && (x == fin) then k (Some ds) else Panic))))
  else save_step n b fin me (rep me) k.

Lemma realizes_save_own : 0 < n -> realizes n [:: (b, Lead 0 rep (fun _ => fin))] save_own reports.
Proof.
  move=> Hn plan ph /= [E _] me k js v Hm F. rewrite /jds /= /save_own.
  case: (me =P 0) => [E0|/eqP Hne].
  - have := @follows_lead_all n I D V Hn plan me (ph, b) 0 rep fin
      (fun ds => Send All b fin (Recv b (fun s x => if (s == 0) && (x == fin) then k (Some ds) else Panic)))
      (fun s x => if (s == 0) && (x == fin) then k (reports me) else Panic) js v E Hn Hm.
    rewrite E0 /= !eqxx. rewrite E0 in F. by apply.
  - have := @follows_lead_all n I D V Hn plan me (ph, b) 0 rep fin (fun ds => Send All b fin (k (Some ds)))
      (fun _ _ => k None) js v E Hn Hm.
    rewrite /save_step (negbTE Hne). move: F. rewrite /reports (negbTE Hne) => F. apply=> // E0. by rewrite E0 in Hne.
Qed.

(** Programs that are loops, followed by the step. *)
Definition saving (out : seq T -> option (seq D) -> V) (i : nat) : proc :=
  Q i (fun ys => save_step n b fin i (rep i) (fun o => Ret (out ys o))).

Definition saving_own (out : seq T -> option (seq D) -> V) (i : nat) : proc :=
  if i == 0 then Q 0 (fun ys => save_own 0 (fun o => Ret (out ys o))) else saving out i.

(** The same with any continuation. *)
Definition saving_with (me : nat) (k : seq T * option (seq D) -> proc) : proc :=
  if me == 0 then Q 0 (fun ys => save_own 0 (fun o => k (ys, o)))
  else Q me (fun ys => save_step n b fin me (rep me) (fun o => k (ys, o))).

Lemma saving_unfolds (named : I -> Prop) : loops_in n named b d R Q res -> exists rdss,
  [/\ alternating rdss, unfolds n rdss saving_with (fun me => ([seq res r me | r <- iota 0 R], reports me)) &
      forall k id, k < size rdss -> id \in ids (nth [::] rdss k) -> id = b \/ named id].
Proof.
  move=> [S [prep [body [mat [rds [Hn Hp Hb Hr HQ]]]]]].
  have A0 : alternating (loop_rounds b d rds (iota 0 R)).
  { apply: loop_alternating => r. rewrite mem_iota => Hi. by have [] := Hr r Hi. }
  have U0 : unfolds n (loop_rounds b d rds (iota 0 R)) Q (fun me => [seq res r me | r <- iota 0 R]).
  { have U : unfolds n (loop_rounds b d rds (iota 0 R)) (fun me k => bench_loop n b d (prep me) (body me) (iota 0 R) k)
      (fun me => [seq res r me | r <- iota 0 R]).
    { by apply: (loop_unfolds Hn (mat := mat)) => [me r Hm|r]; rewrite mem_iota => Hi; [exact: Hp|exact: Hb]. }
    by apply: unfolds_eq U => // i k Hi; rewrite HQ. }
  pose last : seq (seq (I * round D)) := [:: [:: (b, Lead 0 rep (fun _ => fin))]].
  have Z := size_loop_rounds b d rds (iota 0 R). rewrite size_iota in Z.
  exists (loop_rounds b d rds (iota 0 R) ++ last). split.
  - case: A0 => [A1 A2 A3]. split=> [k|k|k id]; rewrite size_cat /= addn1 ltnS => Hk.
    + rewrite nth_cat. case: (ltnP k (size (loop_rounds b d rds (iota 0 R)))) => Hk2; first exact: A1. have -> : k - size (loop_rounds b d rds (iota 0 R)) = 0 by lia. by [].
    + rewrite nth_cat. case: (ltnP k (size (loop_rounds b d rds (iota 0 R)))) => Hk2; first exact: A2. have -> : k - size (loop_rounds b d rds (iota 0 R)) = 0 by lia. by [].
    + rewrite !nth_cat Hk. case: ltnP => Hk2; first exact: A3.
      have -> : k.+1 - size (loop_rounds b d rds (iota 0 R)) = 0 by lia. rewrite /= inE.
      move: Hk2. rewrite Z => Hk2. rewrite (nth_loop_rounds 0 Hk). rewrite Z in Hk.
      have Hodd : odd k.
      { have : k.+1 = R.*2 by lia. move=> /(congr1 odd) /=. rewrite odd_double. by case: (odd k). }
      rewrite Hodd.
      move=> Hi. apply: contraTneq Hi => ->. have [|_ _ ? _] // := Hr (nth 0 (iota 0 R) k./2).
      rewrite nth_iota; lia.
  - move=> plan ph /agrees_all_cat [Ag1 [Ag2 _]] me k js v Hm F.
    rewrite tagged_cat -catA /saving_with.
    have {}F := realizes_save_own Hn Ag2 (k := fun o => k ([seq res r me | r <- iota 0 R], o)) Hm F.
    case: (me =P 0) => [E0|/eqP Hne].
    + rewrite E0 in F Hm *. exact: (U0 plan ph Ag1 0).
    + move: F. rewrite /save_own (negbTE Hne). exact: (U0 plan ph Ag1 me).
  - move=> k id. rewrite size_cat /= addn1 ltnS nth_cat => Hk. case: ltnP => Hk2.
    + rewrite (nth_loop_rounds 0 Hk2). case: ifP => _ Hid; last by left; move: Hid; rewrite /ids /= inE => /eqP.
      have Hk3 : k./2 < R by move: Hk2; rewrite Z; lia.
      right. have [|_ _ _] := Hr (nth 0 (iota 0 R) k./2); last exact. by rewrite nth_iota.
    + have -> : k - size (loop_rounds b d rds (iota 0 R)) = 0 by lia. rewrite /ids /= inE => /eqP ->. by left.
Qed.

Lemma saving_own_ends out : loops n b d R Q res ->
  every_run_ends n (start (saving_own out)) (all_done n (fun i => out [seq res r i | r <- iota 0 R] (reports i))).
Proof.
  move=> L. have Hn : 0 < n by case: L => [S [prep [body [mat [rds []]]]]].
  have [|rdss [A U _]] := @saving_unfolds (fun _ => True).
  { case: L => [S [prep [body [mat [rds [H1 H2 H3 H4 H5]]]]]]. exists S, prep, body, mat, rds. split=> // r Hr. by have [? ? ?] := H4 r Hr. }
  exact: (unfolds_runs Hn d (fun y => out y.1 y.2) A U).
Qed.


Lemma saving_lag out : natural (Q 0) -> lift (last_send b fin) (saving out 0) (saving_own out 0).
Proof.
  move=> H. rewrite /saving_own /saving /=. apply: H => ys. rewrite /save_own /save_step /=.
  apply: LiftSend. apply: LiftGath => ds. apply: LiftBase. by exists (out ys (Some ds)).
Qed.

Lemma saving_closing out : natural (Q 0) -> closing b fin (saving out 0).
Proof.
  move=> H. rewrite /closing /saving. apply: H => ys. rewrite /save_step /=.
  apply: LiftSend. apply: LiftGath => ds. apply: LiftBase. by exists (out ys (Some ds)).
Qed.

Lemma saving_ends out : loops n b d R Q res -> natural (Q 0) ->
  every_run_ends n (start (saving out)) (saved_done n b fin (fun i => out [seq res r i | r <- iota 0 R] (reports i))).
Proof.
  move=> L H. have Hn : 0 < n by case: L => [S [prep [body [mat [rds []]]]]].
  apply: lag_ends (saving_own_ends out L) => //; first exact: saving_lag.
  move=> i Hi. by rewrite /saving_own (negbTE Hi).
Qed.

End Save.

(** ** The protocols do nothing else with their continuations *)

Section Natural.

Variables (F : fieldType) (emb : nat -> F) (D : eqType) (ser : seq F -> D) (de : D -> option (seq F)).
Notation pproc := (proc [eqType of seq N] D (val F)).

Lemma natural_spawn (ps : seq pproc) : natural (spawn_all ps).
Proof.
  case: ps => [|p ps] R k k' H /=; first exact: H.
  apply: LiftFork => x y. case: y => [vs|vs]; [exact: LiftPanic|exact: H].
Qed.

Lemma natural_preproc c M Mb id d r : natural (preproc ser de c M Mb id d r).
Proof.
  move=> R k k' H. rewrite /preproc. case: (ProtoIdModel.preproc_ids _ _) => [[|? [|? [|? ?]]]|]; try exact: LiftPanic.
  apply: natural_spawn => vs. case: [seq vec_of v | v <- vs] => [|v1 [|v2 [|v3 [|? ?]]]]; try exact: LiftPanic.
  case: (drain _ v1) => [[? ?]|]; last exact: LiftPanic. case: (drain _ v2) => [[? ?]|]; last exact: LiftPanic.
  case: (drain _ v3) => [[? ?]|]; last exact: LiftPanic. case: (c_n c) => [|m]; first exact: LiftPanic.
  case: (err_inputs _ _ _ _) => [xs|]; last exact: LiftPanic.
  apply: natural_spawn => es. case: (drain _ _) => [[? ?]|]; last exact: LiftPanic. exact: H.
Qed.

Lemma natural_transform c tf id reps inp rand rand_n coin : natural (transform emb ser de c tf id reps inp rand rand_n coin).
Proof.
  move=> R k k' H. rewrite /transform. case: ifP => _; last exact: LiftPanic.
  case: (ProtoIdModel.transform_ids _ _) => [ids|]; last exact: LiftPanic.
  apply: natural_spawn => vs. case: (to_mat _ _ _) => [x|]; last exact: LiftPanic. exact: H.
Qed.

Lemma natural_garble hash g id pp r : natural (garble emb ser de hash g id pp r).
Proof.
  move=> R k k' H. rewrite /garble. case: ifP => _; last exact: LiftPanic.
  case: (ProtoIdModel.take_ids _ _ _) => [ids|]; last exact: LiftPanic.
  case: (drain_rtrans _ _ _ _) => [[[r1 z1] q1]|]; last exact: LiftPanic.
  case: (drain_rtrans _ _ _ _) => [[[r2 z2] q2]|]; last exact: LiftPanic.
  apply: LiftFork => a b. case: b => [sel|]; last by move=> ?; exact: LiftPanic.
  apply: natural_transform => inp. case: (hand_out _ _ _ _ _ _ _ _) => [[xs q3]|]; last exact: LiftPanic.
  apply: natural_spawn => vs. exact: H.
Qed.

Variable syn : D.

Lemma natural_garble_bin (H : eqType) (sha : seq N -> H) h0 draws hash (G : Type) (seed_from : N -> G) gf_rand gen_bool text i n t l p reps coins :
  natural (garble_bin emb ser de syn sha h0 draws hash seed_from gf_rand gen_bool text i n t l p reps coins).
Proof.
  move=> R k k' Hk. rewrite /garble_bin. case: (load_circuit _ _) => [circ|]; last exact: LiftPanic.
  case: (party_ctx _ _ _ _ _) => [c|]; last exact: LiftPanic. case: (describe _ _ _ _ _) => [d|]; last exact: LiftPanic.
  case: (gctx_new _ _ _ _ _ _ _) => [g|]; last exact: LiftPanic.
  apply: natural_bench_loop Hk => r pp. exact: natural_garble.
Qed.

Lemma natural_preproc_bin text file i n t l p reps r : natural (preproc_bin emb ser de syn text file i n t l p reps r).
Proof.
  move=> R k k' Hk. rewrite /preproc_bin. case: (load_circuit _ _) => [circ|]; last exact: LiftPanic.
  case: (party_ctx _ _ _ _ _) => [c|]; last exact: LiftPanic. case: (binary_super_inv_matrix _ _) => [Mb|]; last exact: LiftPanic.
  case: ifP => _; last exact: LiftPanic. case: (super_inv_matrix _ _ _) => [M|]; last exact: LiftPanic.
  case: (describe _ _ _ _ _) => [d|]; last exact: LiftPanic.
  apply: natural_bench_loop Hk => q s. exact: natural_preproc.
Qed.

End Natural.

(** ** C59: bin/garble.rs and bin/preproc.rs with [--save] *)

Lemma loops_n n (I D : eqType) (V T : Type) (b : I) (d : D) R (Q : nat -> (seq T -> proc I D V) -> proc I D V) res :
  loops n b d R Q res -> (0 < n)%N.
Proof. by case=> [S [prep [body [mat [rds []]]]]]. Qed.

Lemma saved_as n (I D : eqType) (V T : Type) (b : I) (fin : D) (P : nat -> proc I D V) (ys : nat -> seq T) out (rep : nat -> D) :
  every_run_ends n (start P) (saved_done n b fin (fun i => out (ys i) (reports n rep i))) -> (0 < n)%N ->
  every_run_ends n (start P)
    (fun cf => [/\ procs cf 0 = Ret (out (ys 0%N) (Some [seq rep j | j <- iota 0 n])),
       forall i, (0 < i < n)%N -> procs cf i = Ret (out (ys i) None), net cf = [::],
       mbox cf 0 = [:: (b, (0%N, fin))] & forall i, (0 < i < n)%N -> mbox cf i = [::]]).
Proof.
  move=> H Hn. apply: ends_mono H => cf [A1 A2 A3 A4]. split=> //; first by rewrite A1.
  move=> i Hi. rewrite A1 /reports; last by lia. by have -> : (i == 0)%N = false by lia.
Qed.

(** If processes lived until their messages have left: under the conditions of
    C54, in every run, after the last repetition party 0 has the figures of all
    parties in the order of the parties, everybody returns, and the only message
    left over is the one party 0 has sent to itself.  [out] says what of all this
    a party returns. *)
Theorem C59_garble_saved : forall (w : width) (H : eqType) (sha : seq N -> H) h0 draws hash
    (G : Type) (seed_from : N -> G) gf_rand gen_bool (syn fin : seq N) text c circ n t l K M reps coins (rep : nat -> seq N) out,
  from_bristol_fashion text = Some c -> well_formed c -> pack c (N.of_nat l) = Some circ ->
  (0 < l)%N -> (t + 2 * l <= n <= 2 ^ 16)%N -> (2 * (t + l - 1) <= n - 1)%N ->
  (N.of_nat n + N.of_nat l + c_num_wires c <= 2 ^ w)%num -> (N.of_nat M < 2 ^ w)%num -> (N.of_nat (4 * K + 3) < 2 ^ 64)%num ->
  let ng := N.of_nat (length (p_gates circ)) in
  let nb := (N.of_nat (length (p_inputs circ)) + ng)%num in
  let ni := ProtoIdModel.num_inp_blocks (p_gates circ) in
  (0 < nb <= 2 ^ 48)%num -> (ni <= 2 ^ 48)%num ->
  (forall x, In x [:: 4 + ng; nb; ni; (nb + N.of_nat l - 1) / N.of_nat l; (ni + N.of_nat l - 1) / N.of_nat l]%num ->
     ~ exists k, x = (256 ^ k)%num) ->
  let program i := garble_bin (gf_of w) (@gser w) (@gde w) syn sha h0 draws hash seed_from gf_rand gen_bool
       text i n t l (Lpn K M) reps (fun r => coins r i)
       (fun ys => save_step n garble_bench_id fin i (rep i) (fun o => Ret (out ys o))) in
  exists d (pp : nat -> nat -> preproc_data (gf_fieldType w)) mk ks rs es tabs rest,
    [/\ describe circ n t l (Lpn K M) = Some d,
        forall r, (r < reps)%N ->
          [/\ forall i, (i < n)%N -> dummy (gf_of w) seed_from gf_rand gen_bool i n t l (200 + N.of_nat r) d = Some (pp r i),
              material (gf_of w) n t l d (pp r) (mk r) (ks r) (rs r) (es r) &
              garbled (gf_of w) sha draws circ n t l K M (mk r) (ks r) (es r) (tabs r)] &
        let ys i := [seq ([seq tabs r gid i | gid <- iota 0 (size (p_gates circ))], rest r i) | r <- iota 0 reps] in
        every_run_ends n (start program)
          (fun cf => [/\ procs cf 0 = Ret (out (ys 0%N) (Some [seq rep j | j <- iota 0 n])),
             forall i, (0 < i < n)%N -> procs cf i = Ret (out (ys i) None), net cf = [::],
             mbox cf 0 = [:: (garble_bench_id, (0%N, fin))] & forall i, (0 < i < n)%N -> mbox cf i = [::]])].
Proof.
  move=> w H sha h0 draws hash G seed_from gf_rand gen_bool syn fin text c circ n t l K M reps coins rep out.
  move=> Ht Hwf Hp Hl Hn Hd Hw HM HK ng nb ni Hb Hni Hpow program.
  have [d [pp [mk [ks [rs [es [tabs [rest [Ed Hr L]]]]]]]]] := garble_loops sha h0 draws hash seed_from gf_rand gen_bool syn reps coins
    Ht Hwf Hp Hl Hn Hd Hw HM HK Hb Hni Hpow.
  exists d, pp, mk, ks, rs, es, tabs, rest. split=> // ys.
  exact: (saved_as (saving_ends fin rep out L (@natural_garble_bin _ _ _ _ _ _ _ _ _ _ _ _ _ _ _ _ _ _ _ _ _ _ _)) (loops_n L)).
Qed.
Print Assumptions C59_garble_saved.

(** The same for preprocessing, under the conditions of C55. *)
Theorem C59_preproc_saved : forall (w : width) (syn fin : seq N) text c circ (bs : seq (seq bool)) es C n t l K M d reps
    (r : nat -> nat -> coins (gf_fieldType w)) (rep : nat -> seq N) out,
  from_bristol_fashion text = Some c -> pack c (N.of_nat l) = Some circ -> describe circ n t l (Lpn K M) = Some d ->
  size bs = n -> size es = n -> ends_ok es -> (0 < C)%N -> all (fun row => size row == C) bs ->
  (0 < l)%N -> (t + l <= n)%N -> (2 * (t + l - 1) <= n - 1)%N -> (N.of_nat n + N.of_nat l <= 2 ^ w)%num ->
  (N.of_nat (keys_total d + n_randoms d + 3 * n_errors d) < 2 ^ 64)%num ->
  (N.of_nat (n_zeros d + 2 * n_errors d) < 2 ^ 64)%num -> (N.of_nat (n_masks d + 2 * n_errors d) < 2 ^ 64)%num ->
  let program i := preproc_bin (gf_of w) (@gser w) (@gde w) syn text (matrix_text bs es) i n t l (Lpn K M) reps (fun q => r q i)
       (fun ys => save_step n preproc_bench_id fin i (rep i) (fun o => Ret (out ys o))) in
  exists Ms Mb bR bZ bB,
    [/\ super_inv_matrix (gf_of w) n (n - t) = Some Ms,
        forall i j, (i < C)%N -> (j < n)%N -> entry Mb i j = ((nth false (nth [::] bs j) i)%:R)%R &
        [/\ size (rows Ms) = (n - t)%N, size (rows Mb) = C,
            (keys_total d + n_randoms d + 3 * n_errors d <= (n - t) * bR < keys_total d + n_randoms d + 3 * n_errors d + (n - t))%N,
            (n_zeros d + 2 * n_errors d <= (n - t) * bZ < n_zeros d + 2 * n_errors d + (n - t))%N &
            (n_masks d + 2 * n_errors d <= C * bB < n_masks d + 2 * n_errors d + C)%N]] /\
  exists pp, (forall q, (q < reps)%N -> preprocessed (gf_of w) n t l Ms Mb d (r q) bR bZ bB (pp q)) /\
    let ys i := [seq pp q i | q <- iota 0 reps] in
    every_run_ends n (start program)
      (fun cf => [/\ procs cf 0 = Ret (out (ys 0%N) (Some [seq rep j | j <- iota 0 n])),
         forall i, (0 < i < n)%N -> procs cf i = Ret (out (ys i) None), net cf = [::],
         mbox cf 0 = [:: (preproc_bench_id, (0%N, fin))] & forall i, (0 < i < n)%N -> mbox cf i = [::]]).
Proof.
  move=> w syn fin text c circ bs es C n t l K M d reps r rep out Ht Hp Ed Zb Ze He HC Hrows Hl Htl Hd Hw HR HZ HB program.
  have [Ms [Mb [bR [bZ [bB [Hm [pp [Hpp L]]]]]]]] := preproc_loops syn reps r Ht Hp Ed Zb Ze He HC Hrows Hl Htl Hd Hw HR HZ HB.
  exists Ms, Mb, bR, bZ, bB. split=> //. exists pp. split=> // ys.
  exact: (saved_as (saving_ends fin rep out L (@natural_preproc_bin _ _ _ _ _ _ _ _ _ _ _ _ _ _ _)) (loops_n L)).
Qed.
Print Assumptions C59_preproc_saved.

(** ** What happens

    The last thing party 0 does is to send a message, and the process ends before
    the message leaves it. *)

(** Garbling: all runs are finite; party 0 returns with all figures; none of the
    other parties ever returns: each waits for a message that never comes. *)
Theorem C59_garble_everybody_returns_refuted : forall (w : width) (H : eqType) (sha : seq N -> H) h0 draws hash
    (G : Type) (seed_from : N -> G) gf_rand gen_bool (syn fin : seq N) text c circ n t l K M reps coins (rep : nat -> seq N) out,
  from_bristol_fashion text = Some c -> well_formed c -> pack c (N.of_nat l) = Some circ ->
  (0 < l)%N -> (t + 2 * l <= n <= 2 ^ 16)%N -> (2 * (t + l - 1) <= n - 1)%N ->
  (N.of_nat n + N.of_nat l + c_num_wires c <= 2 ^ w)%num -> (N.of_nat M < 2 ^ w)%num -> (N.of_nat (4 * K + 3) < 2 ^ 64)%num ->
  let ng := N.of_nat (length (p_gates circ)) in
  let nb := (N.of_nat (length (p_inputs circ)) + ng)%num in
  let ni := ProtoIdModel.num_inp_blocks (p_gates circ) in
  (0 < nb <= 2 ^ 48)%num -> (ni <= 2 ^ 48)%num ->
  (forall x, In x [:: 4 + ng; nb; ni; (nb + N.of_nat l - 1) / N.of_nat l; (ni + N.of_nat l - 1) / N.of_nat l]%num ->
     ~ exists k, x = (256 ^ k)%num) ->
  let program i := garble_bin (gf_of w) (@gser w) (@gde w) syn sha h0 draws hash seed_from gf_rand gen_bool
       text i n t l (Lpn K M) reps (fun r => coins r i)
       (fun ys => save_step n garble_bench_id fin i (rep i) (fun o => Ret (out ys o))) in
  exists y0 B, forall k x, xsteps n k (xstart program) x ->
    [/\ (k <= B)%N, forall i, (0 < i < n)%N -> alive (xprocs x i) &
        (exists x', xstep n x x') \/ xprocs x 0 = Ret (out y0 (Some [seq rep j | j <- iota 0 n]))].
Proof.
  move=> w H sha h0 draws hash G seed_from gf_rand gen_bool syn fin text c circ n t l K M reps coins rep out.
  move=> Ht Hwf Hp Hl Hn Hd Hw HM HK ng nb ni Hb Hni Hpow program.
  have [d [pp [mk [ks [rs [es [tabs [rest [Ed Hr L]]]]]]]]] := garble_loops sha h0 draws hash seed_from gf_rand gen_bool syn reps coins
    Ht Hwf Hp Hl Hn Hd Hw HM HK Hb Hni Hpow.
  eexists. have N := @natural_garble_bin (gf_fieldType w) (gf_of w) _ (@gser w) (@gde w) syn H sha h0 draws hash G seed_from gf_rand gen_bool
    text 0 n t l (Lpn K M) reps (fun r => coins r 0%N).
  exact: (exit_ends (loops_n L) (@saving_closing n _ _ _ _ garble_bench_id fin _ rep out N) (saving_ends fin rep out L N)).
Qed.
Print Assumptions C59_garble_everybody_returns_refuted.

Theorem C59_preproc_everybody_returns_refuted : forall (w : width) (syn fin : seq N) text c circ (bs : seq (seq bool)) es C n t l K M d reps
    (r : nat -> nat -> coins (gf_fieldType w)) (rep : nat -> seq N) out,
  from_bristol_fashion text = Some c -> pack c (N.of_nat l) = Some circ -> describe circ n t l (Lpn K M) = Some d ->
  size bs = n -> size es = n -> ends_ok es -> (0 < C)%N -> all (fun row => size row == C) bs ->
  (0 < l)%N -> (t + l <= n)%N -> (2 * (t + l - 1) <= n - 1)%N -> (N.of_nat n + N.of_nat l <= 2 ^ w)%num ->
  (N.of_nat (keys_total d + n_randoms d + 3 * n_errors d) < 2 ^ 64)%num ->
  (N.of_nat (n_zeros d + 2 * n_errors d) < 2 ^ 64)%num -> (N.of_nat (n_masks d + 2 * n_errors d) < 2 ^ 64)%num ->
  let program i := preproc_bin (gf_of w) (@gser w) (@gde w) syn text (matrix_text bs es) i n t l (Lpn K M) reps (fun q => r q i)
       (fun ys => save_step n preproc_bench_id fin i (rep i) (fun o => Ret (out ys o))) in
  exists y0 B, forall k x, xsteps n k (xstart program) x ->
    [/\ (k <= B)%N, forall i, (0 < i < n)%N -> alive (xprocs x i) &
        (exists x', xstep n x x') \/ xprocs x 0 = Ret (out y0 (Some [seq rep j | j <- iota 0 n]))].
Proof.
  move=> w syn fin text c circ bs es C n t l K M d reps r rep out Ht Hp Ed Zb Ze He HC Hrows Hl Htl Hd Hw HR HZ HB program.
  have [Ms [Mb [bR [bZ [bB [Hm [pp [Hpp L]]]]]]]] := preproc_loops syn reps r Ht Hp Ed Zb Ze He HC Hrows Hl Htl Hd Hw HR HZ HB.
  eexists. have N := @natural_preproc_bin (gf_fieldType w) (gf_of w) _ (@gser w) (@gde w) syn text (matrix_text bs es) 0 n t l (Lpn K M) reps
    (fun q => r q 0%N).
  exact: (exit_ends (loops_n L) (@saving_closing n _ _ _ _ preproc_bench_id fin _ rep out N) (saving_ends fin rep out L N)).
Qed.
Print Assumptions C59_preproc_everybody_returns_refuted.

(** The hypotheses are those of C54 and C55, met by their examples.  The step
    alone, with three parties and the figures 10, 11, 12, in the two semantics. *)
Example C59_example :
  let program i : proc nat_eqType nat_eqType (option (seq nat)) := save_step 3 7 1 i (10 + i)%N (fun o => Ret o) in
  every_run_ends 3 (start program)
    (fun cf => procs cf 0 = Ret (Some [:: 10; 11; 12]%N) /\ forall i, (0 < i < 3)%N -> procs cf i = Ret None) /\
  exists B, forall k x, xsteps 3 k (xstart program) x ->
    [/\ (k <= B)%N, forall i, (0 < i < 3)%N -> alive (xprocs x i) &
        (exists x', xstep 3 x x') \/ xprocs x 0 = Ret (Some [:: 10; 11; 12]%N)].
Proof.
  move=> program.
  pose Q (_ : nat) (k : seq unit -> proc nat_eqType nat_eqType (option (seq nat))) := k [::].
  have L : @loops 3 nat_eqType nat_eqType (option (seq nat)) unit 7%N 0%N 0 Q (fun _ _ => tt).
  { by exists unit, (fun _ _ => Some tt), (fun _ _ _ k => k tt), (fun _ _ => tt), (fun _ => [::]). }
  have N : natural (Q 0%N) by move=> R k k'; exact.
  have E := saving_ends 1%N (fun i => 10 + i)%N (fun _ o => o) L N.
  split; last exact: (exit_ends (loops_n L) (@saving_closing 3 _ _ _ _ 7%N 1%N _ (fun i => 10 + i)%N (fun _ o => o) N) E).
  apply: ends_mono E => cf [A1 _ _ _]. split; first exact: A1. move=> i Hi. rewrite A1 /reports; last by lia.
  by have -> : (i == 0)%N = false by lia.
Qed.

(** Property C82: what the traffic figure of a repetition contains. *)

From Coq Require Import NArith String List Ascii.
From Verif Require Import CircuitModel CircuitSpec LpnModel LpnSpec.
From mathcomp Require Import all_ssreflect all_algebra zify.
From Verif Require Import MathModel MathProofs MatProofs MatFileModel SharingModel SharingSpec SharingProofs.
From Verif Require Import MachineModel MachineProofs MachineBuild Realize CoreModel CoreSpec CoreProofs.
From Verif Require Import RandTransProofs PreprocModel PreprocSpec PreprocProofs GarbleModel GarbleSpec GarbleRun PipeModel BinModel.
From Verif Require Import GFField GFCodec P_Math P_Sharing P_Core P_Preproc P_Garble P_MatFile P_Phase P_Bin P_BinPre FigureProofs.
From Verif Require ProtoIdModel ProtoIdProofs P_ProtoId IdLength PackWf CircuitEval.
Set Implicit Arguments.
Unset Strict Implicit.
Unset Printing Implicit Defensive.
Local Open Scope nat_scope.

(** ** The readings *)

Section Readings.

Variables (n : nat) (I D : eqType) (V : Type) (b : I) (d : D).

(** bin/garble.rs:119-121: the party has the messages of the [sync] of all
    parties and reads the counters before its next step. *)
Definition first_reading (c : cfg I D V) (i : nat) : Prop := exists got k, procs c i = Gath b got k /\ all isSome got.

(** bin/garble.rs:123: the protocol of the repetition has returned; the next step
    is the [sync] of the next repetition, or there is none. *)
Definition second_reading (c : cfg I D V) (i : nat) : Prop :=
  (exists d' k, procs c i = Send All b d' k) \/ exists v, procs c i = Ret v.

Definition syncs (l : seq (I * (nat * D))) : nat := seq.count (fun m => m.1 == b) l.

(** [B q i] is the traffic of the protocol in repetition [q] to party [i]: in every
    schedule what arrives at [i] until it is done is, for each repetition, one
    message of [sync] of each party and [B q i], in some order.  And in every schedule: if the messages [l] arrive at [i] between a first reading and a
    second one, with no message of a [sync] taken in between, then [l] is the
    traffic of that repetition without what lay in the mailbox at the first reading,
    and with what lies there at the second.  The former belongs to the protocol;
    the latter are messages of the next [sync], at most one of each party. *)
Definition accounts (R : nat) (P : nat -> proc I D V) (B : nat -> nat -> seq (I * (nat * D))) : Prop :=
  (forall q i m, q < R -> m \in B q i -> m.1 <> b) /\
  (forall i l c v, i < n -> hears n i (start P) l c -> procs c i = Ret v ->
     perm_eq l (flatten [seq [seq (b, (s, d)) | s <- iota 0 n] ++ B q i | q <- iota 0 R])) /\
  forall i l1 c1 l c2, i < n -> hears n i (start P) l1 c1 -> first_reading c1 i -> hears n i c1 l c2 -> second_reading c2 i ->
    syncs l = syncs (mbox c2 i) ->
    exists r, [/\ r < R, syncs l1 = n * r.+1, perm_eq (mbox c1 i ++ l) (B r i ++ mbox c2 i),
      forall m, m \in mbox c1 i -> m.1 <> b &
      (forall m, m \in mbox c2 i -> m.1 = b /\ m.2.2 = d) /\ uniq [seq m.2.1 | m <- mbox c2 i]].

(** A schedule in which a party has, at a first reading, already received a
    message that another party has sent in the protocol. *)
Definition arrives_early (P : nat -> proc I D V) : Prop :=
  exists i l1 c1 m, [/\ i < n, hears n i (start P) l1 c1, first_reading c1 i, m \in mbox c1 i & m.1 <> b /\ m.2.1 <> i].

(** A schedule in which the only repetition has the traffic [B 0 i] at party [i]
    and less arrives between the readings. *)
Definition undercounts (P : nat -> proc I D V) (B : nat -> nat -> seq (I * (nat * D))) : Prop :=
  exists i l1 c1 l c2, [/\ i < n, hears n i (start P) l1 c1 /\ first_reading c1 i, hears n i c1 l c2 /\ second_reading c2 i,
    syncs l = syncs (mbox c2 i) & size l < size (B 0 i)].

End Readings.

Lemma run_to_end n (I D : eqType) (V : Type) (c c1 : cfg I D V) (Q : cfg I D V -> Prop) k : every_run_ends n c Q -> gsteps n k c c1 ->
  exists k2 c2, gsteps n k2 c1 c2 /\ Q c2.
Proof.
  move=> [B H]. move Em : (B - k) => m. elim: m k c1 Em => [|m IH] k c1 Em S; have [Hk [[c2 S2]|HQ]] := H k c1 S.
  - have [Hk2 _] := H k.+1 c2 (gsteps_snoc S S2). lia.
  - exists 0, c1. split=> //. exact: GS0.
  - have [||k3 [c3 [S3 Q3]]] := IH k.+1 c2; [lia|exact: gsteps_snoc S S2|]. exists k3.+1, c3. split=> //. exact: GSS S2 S3.
  - exists 0, c1. split=> //. exact: GS0.
Qed.

(** ** Codes that are such loops *)

Section Account.

Variables (n : nat) (I D : eqType) (V T : Type) (b : I) (d : D) (R : nat).
Variables (Q : nat -> (seq T -> proc I D V) -> proc I D V) (res : nat -> nat -> T) (out : seq T -> V).
Variables (S : Type) (prep : nat -> nat -> option S) (body : nat -> nat -> S -> (T -> proc I D V) -> proc I D V).
Variables (mat : nat -> nat -> S) (rds : nat -> seq (I * round D)).
Hypothesis H1 : 0 < n.
Hypothesis H2 : forall i r, i < n -> r < R -> prep i r = Some (mat i r).
Hypothesis H3 : forall r, r < R -> realizes n (rds r) (fun i k => body i r (mat i r) k) (res r).
Hypothesis H4 : forall r, r < R -> [/\ uniq (ids (rds r)), 0 < size (rds r) & b \notin ids (rds r)].
Hypothesis H5 : forall i k, i < n -> Q i k = bench_loop n b d (prep i) (body i) (iota 0 R) k.

Lemma rounds_account : let P i := Q i (fun ys => Ret (out ys)) in
  [/\ accounts n b d R P (rep_msgs n rds), 1 < n -> 0 < R -> arrives_early n b P & 1 < n -> R = 1 -> undercounts n b P (rep_msgs n rds)].
Proof.
  move=> P. have L : loops n b d R Q res by exists S, prep, body, mat, rds. have E := loops_run out L.
  have AC : accounts n b d R P (rep_msgs n rds).
  { split; first by move=> q i m; exact: (rep_msgs_ids H4).
    split; first by move=> i l c v Hi S1 E1; have [_ _ A3] := account H1 H2 H3 H4 H5 Hi S1; have [_] := A3 _ E1.
    move=> i l1 c1 l c2 Hi S1 [got [k [Ep Hg]]] S2 E2 Hc.
    have [r [Hr C1 Pm]] := figure H1 H2 H3 H4 H5 Hi S1 Ep Hg S2 E2 Hc. exists r. split=> //.
    - have [A1 _ _] := account H1 H2 H3 H4 H5 Hi S1. have [Hm _] := A1 _ _ Ep Hg. move=> m Hin. apply: Hm. by left.
    - have [_ A2 A3] := account H1 H2 H3 H4 H5 Hi (hears_cat S1 S2). case: E2 => [[d' [k' E2]]|[v E2]].
      + have [Hm Hu _] := A2 _ _ E2. split; first by move=> m Hin; apply: Hm; left.
        by move: Hu; rewrite cat_uniq => /andP [].
      + have [Np _] := A3 _ E2. suff -> : mbox c2 i = [::] by [].
        case Eb : (mbox c2 i) => [|m l'] //. exfalso. apply: (Np m). left. by rewrite Eb mem_head. }
  have AE : 1 < n -> 0 < R -> arrives_early n b P.
  { move=> Hn HR. have [k [c [i [got [kk [m [S1 Hi [Ep Hg] Hm Hb]]]]]]] := early out H1 H2 H3 H4 H5 Hn HR.
    have [l1 S1'] := steps_hears i S1. exists i, l1, c, m. split=> //. by exists got, kk. }
  split=> // Hn ER. have HR : 0 < R by rewrite ER.
  have [i [l1 [c1 [m [Hi S1 F1 Hm [Hb _]]]]]] := AE Hn HR. have [k1 G1] := hears_steps S1.
  have [k2 [c2 [G2 [Q2 [_ M2]]]]] := run_to_end E G1. have [l S2] := steps_hears i G2.
  have Hs : syncs b l = syncs b (mbox c2 i).
  { rewrite (M2 i Hi). move: F1 => [got [k [Ep Hg]]].
    have [A1 _ _] := account H1 H2 H3 H4 H5 Hi S1. have [_ [r Hr P1]] := A1 _ _ Ep Hg.
    have [_ _ A3] := account H1 H2 H3 H4 H5 Hi (hears_cat S1 S2). have [_ P2] := A3 _ (Q2 i Hi).
    have C1 := permP P1 (fun m => m.1 == b). have C2 := permP P2 (fun m => m.1 == b).
    have Er : r = 0 by lia. move: C1 C2. rewrite Er ER /prior /= cats0 !count_cat (_ : seq.count _ (rep_msgs n rds 0 i) = 0).
    - rewrite /syncs /=. lia.
    - apply/eqP. rewrite -leqn0 leqNgt -has_count. apply/hasP => -[m' Hm' /eqP]. exact: (rep_msgs_ids H4 HR Hm'). }
  have F2 : second_reading b c2 i by right; eexists; exact: (Q2 i Hi).
  exists i, l1, c1, l, c2. split=> //.
  have [r [Hr _ Pm _ _]] := AC.2.2 _ _ _ _ _ Hi S1 F1 S2 F2 Hs. have Er : r = 0 by lia. move: (perm_size Pm).
  rewrite Er (M2 i Hi) cats0 size_cat => <-. by case: (mbox c1 i) Hm => //= m' l' _; lia.
Qed.

End Account.

Lemma loops_account n (I D : eqType) (V T : Type) (b : I) (d : D) R (Q : nat -> (seq T -> proc I D V) -> proc I D V) res (out : seq T -> V) :
  loops n b d R Q res -> let P i := Q i (fun ys => Ret (out ys)) in
  exists B, [/\ accounts n b d R P B, 1 < n -> 0 < R -> arrives_early n b P & 1 < n -> R = 1 -> undercounts n b P B].
Proof. move=> [S [prep [body [mat [rds [H1 H2 H3 H4 H5]]]]]] P. exists (rep_msgs n rds). exact: (rounds_account out H1 H2 H3 H4 H5). Qed.

(** ** C82 *)

(** The figure that bin/garble.rs reports for a repetition.  It is the traffic of
    the repetition except for the messages that were there early and those of the
    next [sync] that are there already; and with at least two parties there are
    schedules with the former, in which the figure is too small. *)

Theorem C82_garble_figure : forall (w : width) (H : eqType) (sha : seq N -> H) h0 draws hash
    (G : Type) (seed_from : N -> G) gf_rand gen_bool (syn : seq N) text c circ n t l K M reps coins,
  from_bristol_fashion text = Some c -> well_formed c -> pack c (N.of_nat l) = Some circ ->
  (0 < l)%N -> (t + 2 * l <= n <= 2 ^ 16)%N -> (2 * (t + l - 1) <= n - 1)%N ->
  (N.of_nat n + N.of_nat l + c_num_wires c <= 2 ^ w)%num -> (N.of_nat M < 2 ^ w)%num -> (N.of_nat (4 * K + 3) < 2 ^ 64)%num ->
  let ng := N.of_nat (length (p_gates circ)) in
  let nb := (N.of_nat (length (p_inputs circ)) + ng)%num in
  let ni := ProtoIdModel.num_inp_blocks (p_gates circ) in
  (0 < nb <= 2 ^ 48)%num -> (ni <= 2 ^ 48)%num ->
  (forall x, In x [:: 4 + ng; nb; ni; (nb + N.of_nat l - 1) / N.of_nat l; (ni + N.of_nat l - 1) / N.of_nat l]%num ->
     ~ exists k, x = (256 ^ k)%num) ->
  let P i := garble_bin (gf_of w) (@gser w) (@gde w) syn sha h0 draws hash seed_from gf_rand gen_bool
       text i n t l (Lpn K M) reps (fun r => coins r i) (fun ys => Ret (Node [seq garble_val y | y <- ys])) in
  exists B, [/\ accounts n garble_bench_id syn reps P B, 1 < n -> 0 < reps -> arrives_early n garble_bench_id P &
    1 < n -> reps = 1 -> undercounts n garble_bench_id P B].
Proof.
  move=> w H sha h0 draws hash G seed_from gf_rand gen_bool syn text c circ n t l K M reps coins.
  move=> Ht Hwf Hp Hl Hn Hd Hw HM HK ng nb ni Hb Hni Hpow P.
  have [d [pp [mk [ks [rs [es [tabs [rest [Ed Hr L]]]]]]]]] := garble_loops sha h0 draws hash seed_from gf_rand gen_bool syn reps coins
    Ht Hwf Hp Hl Hn Hd Hw HM HK Hb Hni Hpow.
  exact: (loops_account (fun ys => Node [seq garble_val y | y <- ys]) L).
Qed.
Print Assumptions C82_garble_figure.

(** The parameters of [C54_example]: three parties, one repetition. *)
Example C82_garble_example : forall (H : eqType) (sha : seq N -> H) h0 draws hash (G : Type) (seed_from : N -> G) gf_rand gen_bool (syn : seq N) coins,
  let P i := garble_bin (gf_of w4) (@gser w4) (@gde w4) syn sha h0 draws hash seed_from gf_rand gen_bool
       text3 i 3 1 1 (Lpn 1 2) 1 (fun r => coins r i) (fun ys => Ret (Node [seq garble_val y | y <- ys])) in
  exists B, accounts 3 garble_bench_id syn 1 P B /\ undercounts 3 garble_bench_id P B.
Proof.
  move=> H sha h0 draws hash G seed_from gf_rand gen_bool syn coins P.
  have [circ [[Ht Hwf Hp [Hl Hn] Hd] [[Hw HM HK] [Hb Hni Hpow]]]] := C54_example.
  have [B [A _ U]] := C82_garble_figure sha h0 draws hash seed_from gf_rand gen_bool syn 1 coins Ht Hwf Hp Hl Hn Hd Hw HM HK Hb Hni Hpow.
  exists B. split; [exact: A|exact: U].
Qed.

(** The same for bin/preproc.rs:114-145. *)
Theorem C82_preproc_figure : forall (w : width) (syn : seq N) text c circ (bs : seq (seq bool)) es C n t l K M d reps
    (r : nat -> nat -> coins (gf_fieldType w)),
  from_bristol_fashion text = Some c -> pack c (N.of_nat l) = Some circ -> describe circ n t l (Lpn K M) = Some d ->
  size bs = n -> size es = n -> ends_ok es -> (0 < C)%N -> all (fun row => size row == C) bs ->
  (0 < l)%N -> (t + l <= n)%N -> (2 * (t + l - 1) <= n - 1)%N -> (N.of_nat n + N.of_nat l <= 2 ^ w)%num ->
  (N.of_nat (keys_total d + n_randoms d + 3 * n_errors d) < 2 ^ 64)%num ->
  (N.of_nat (n_zeros d + 2 * n_errors d) < 2 ^ 64)%num -> (N.of_nat (n_masks d + 2 * n_errors d) < 2 ^ 64)%num ->
  let P i := preproc_bin (gf_of w) (@gser w) (@gde w) syn text (matrix_text bs es) i n t l (Lpn K M) reps (fun q => r q i)
       (fun ys => Ret (Node [seq pp_val y | y <- ys])) in
  exists B, [/\ accounts n preproc_bench_id syn reps P B, 1 < n -> 0 < reps -> arrives_early n preproc_bench_id P &
    1 < n -> reps = 1 -> undercounts n preproc_bench_id P B].
Proof.
  move=> w syn text c circ bs es C n t l K M d reps r Ht Hp Ed Zb Ze He HC Hrows Hl Htl Hd Hw HR HZ HB P.
  have [Ms [Mb [bR [bZ [bB [Hm [pp [Hpp L]]]]]]]] := preproc_loops syn reps r Ht Hp Ed Zb Ze He HC Hrows Hl Htl Hd Hw HR HZ HB.
  exact: (loops_account (fun ys => Node [seq pp_val y | y <- ys]) L).
Qed.
Print Assumptions C82_preproc_figure.
(** The parameters of [C55_example] meet the hypotheses. *)

(** ** Too much *)

(** Two parties and two repetitions of a protocol that consists of one [sync] on
    another id.  In the schedule below party 1 is done with the first repetition and
    has sent its message for the second when party 0 reads the counters: three
    messages have arrived at party 0 between its readings, and two of them belong to
    the repetition. *)
Definition toy_body (i r : nat) (s : unit) (k : unit -> proc nat_eqType nat_eqType nat) := sync 2 8 1 (k tt).
Definition toy (i : nat) := bench_loop 2 7 1 (fun _ => Some tt) (toy_body i) (iota 0 2) (fun ys => Ret (size ys)).
Definition toy_traffic (q i : nat) : seq (nat * (nat * nat)) := [:: (8, (0, 1)); (8, (1, 1))].

Lemma toy_accounts : accounts 2 7 1 2 toy toy_traffic.
Proof.
  have [A _ _] := @rounds_account 2 nat_eqType nat_eqType nat unit 7 1 2
    (fun i => bench_loop 2 7 1 (fun _ => Some tt) (toy_body i) (iota 0 2)) (fun _ _ => tt) size unit (fun _ _ => Some tt) toy_body (fun _ _ => tt)
    (fun _ => [:: (8, Exch (fun _ _ => 1))]) isT (fun _ _ _ _ => erefl) (fun r _ => @realizes_sync 2 nat_eqType nat_eqType nat isT 8 1) (fun _ _ => And3 isT isT isT)
    (fun _ _ _ => erefl).
  exact: A.
Qed.

Ltac tidy H := lazy -[toy start] in H.
Ltac sends H i := match type of H with hears _ _ _ _ ?c => move: (HOther H (@GSend 2 _ _ _ c i _ _ _ _ isT (LSend _ _ _ _)) isT) => {}H; tidy H end.
Ltac done_with H i := match type of H with hears _ _ _ _ ?c => move: (HOther H (@GTau 2 _ _ _ c i _ isT (@LGathDone _ _ _ _ [:: Some 1; Some 1] _ isT)) isT) => {}H; tidy H end.
Ltac takes H i a g := match type of H with hears _ _ _ _ ?c =>
  move: (HOther H (@GRecv 2 _ _ _ c i a _ _ _ [::] _ isT erefl isT (@LGathMsg _ _ _ a g _ _ _ isT)) isT) => {}H; tidy H end.
Ltac to0 H := match type of H with hears _ _ ?c0 ?l ?c => move: (@HArrive 2 _ _ _ 0 c0 l c _ [::] _ H isT erefl) => {}H; tidy H end.
Ltac to1 H := match type of H with hears _ _ _ _ ?c => move: (HOther H (@GDeliver 2 _ _ _ c 1 _ [::] _ isT erefl) isT) => {}H; tidy H end.

Theorem C82_overcount : exists l1 c1 l c2, [/\ hears 2 0 (start toy) l1 c1 /\ first_reading 7 c1 0, hears 2 0 c1 l c2 /\ second_reading 7 c2 0,
  syncs 7 l = syncs 7 (mbox c2 0) & size (toy_traffic 0 0) < size l].
Proof.
  have H := HStart 2 0 (start toy). sends H 0. to0 H. to1 H. sends H 1. to0 H. to1 H. takes H 0 7 [:: @None nat; None]. takes H 0 7 [:: Some 1; None]. takes H 1 7 [:: @None nat; None]. takes H 1 7 [:: Some 1; None].
  match type of H with hears _ _ _ ?l1 ?c1 => exists l1, c1; have K := HStart 2 0 c1 end.
  done_with K 0. sends K 0. to0 K. to1 K. done_with K 1. sends K 1. to0 K. to1 K. takes K 0 8 [:: @None nat; None]. takes K 0 8 [:: Some 1; None]. takes K 1 8 [:: @None nat; None]. takes K 1 8 [:: Some 1; None].
  done_with K 1. sends K 1. to0 K. done_with K 0.
  match type of K with hears _ _ _ ?l ?c2 => exists l, c2 end.
  split; [split; [exact: H|]|split; [exact: K|]| |].
  - eexists _, _. by split; [reflexivity|].
  - left. eexists _, _. reflexivity.
  - by [].
  - by [].
Qed.
Print Assumptions C82_overcount.

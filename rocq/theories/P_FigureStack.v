(** Property C82 on the whole network stack: the counters that the programs read
    are those of [receive_router]. *)

From Coq Require Import NArith String List Ascii.
From Verif Require Import CircuitModel CircuitSpec LpnModel LpnSpec.
From mathcomp Require Import all_ssreflect all_algebra zify.
From Verif Require Import MathModel MathProofs MatProofs MatFileModel SharingModel SharingSpec SharingProofs.
From Verif Require Import MachineModel MachineProofs MachineBuild Realize CoreModel CoreSpec CoreProofs.
From Verif Require Import RandTransProofs PreprocModel PreprocSpec PreprocProofs GarbleModel GarbleSpec GarbleRun PipeModel BinModel.
From Verif Require Import GFField GFCodec P_Math P_Sharing P_Core P_Preproc P_Garble P_MatFile P_Phase P_Bin P_BinPre.
From Verif Require Import FrameModel RouterModel RouterSpec RouteModel RouteSpec RouteProofs P_Route StackModel StackSpec StackProofs StackRun StackRounds StackNets.
From Verif Require Import FigureProofs FigureStack StackExec P_Figure P_Stack.
From Verif Require ProtoIdModel ProtoIdProofs P_ProtoId IdLength PackWf CircuitEval.
Set Implicit Arguments.
Unset Strict Implicit.
Unset Printing Implicit Defensive.
Local Open Scope nat_scope.

(** ** The readings *)

Section Readings.

Variables (n : nat) (D : eqType) (enc : D -> seq N) (V X : Type) (nstep : X -> label -> X -> Prop) (out : X -> nat -> seq (nat * payload)).
Notation stack := (stack D V X).
Variables (b : seq N) (d : D).

(** bin/garble.rs:119-121 and 123, as [first_reading] and [second_reading]. *)
Definition stack_first (s : stack) (i : nat) : Prop := exists got k, p_task (s_party s i) = TRun (Gath b got k) /\ all isSome got.
Definition stack_second (s : stack) (i : nat) : Prop :=
  (exists d' k, p_task (s_party s i) = TRun (Send All b d' k)) \/ exists v, p_task (s_party s i) = TRun (Ret v).

(** The counters of party [i] for the sender [j]: payload bytes and all bytes. *)
Definition counter (s : stack) (i j : nat) : nat * nat := nth (0, 0) (rstats (p_router (s_party s i))) j.

(** The messages the router of [i] has counted, and those of them it still has. *)
Definition counted (s : stack) (i : nat) : seq msg := [seq msg_of x | x <- take (p_read (s_party s i)) (out (s_net s) i)].
Definition waiting (s : stack) (i : nat) : seq msg := flatten [seq x.2 | x <- mssg_pool (p_router (s_party s i))].

Definition syncs_in (l : seq msg) : nat := seq.count (fun m => m_id m == b) l.
Definition add2 (x y : nat * nat) : nat * nat := (x.1 + y.1, x.2 + y.2).
Definition as_msg (m : seq N * (nat * D)) : msg := Msg m.1 m.2.1 (enc m.2.2).

(** [B q i] is the traffic of the protocol in repetition [q] to party [i]: what has
    been put in the channel [party_out] of [i] when its code is done is, for each
    repetition, one message of [sync] of each party and [B q i], in some order.  And
    in every execution, between a first reading and a second one with no message
    of a [sync] handed to the code in between: the counters have grown by the bytes of
    the repetition, without those of the messages that waited in the router at the
    first reading, and with those of the messages that wait there at the second.
    The former belong to the protocol; the latter are messages of the next [sync],
    at most one of each party. *)
Definition stack_accounts (R : nat) (s0 : stack) (B : nat -> nat -> seq (seq N * (nat * D))) : Prop :=
  (forall q i m, q < R -> m \in B q i -> m.1 <> b) /\
  (forall s i v, i < n -> steps (sstep n enc nstep out) s0 s -> p_task (s_party s i) = TRun (Ret v) ->
     perm_eq (out (s_net s) i) [seq (m.2.1, (m.1, enc m.2.2)) | m <- flatten [seq [seq (b, (p, d)) | p <- iota 0 n] ++ B q i | q <- iota 0 R]]) /\
  forall i s1 s2, i < n -> steps (sstep n enc nstep out) s0 s1 -> stack_first s1 i -> steps (sstep n enc nstep out) s1 s2 -> stack_second s2 i ->
    syncs_in (counted s2 i) + syncs_in (waiting s1 i) = syncs_in (counted s1 i) + syncs_in (waiting s2 i) ->
    exists r, [/\ r < R, syncs_in (counted s1 i) = n * r.+1,
      forall j, j < n -> add2 (counter s2 i j) (bytes_from j (waiting s1 i)) =
        add2 (add2 (counter s1 i j) (bytes_from j (map as_msg (B r i)))) (bytes_from j (waiting s2 i)),
      all (fun m => m_id m != b) (waiting s1 i) &
      all (fun m => (m_id m == b) && (m_data m == enc d)) (waiting s2 i) && uniq (map m_from (waiting s2 i))].

End Readings.

(** ** Loops of repetitions on a network *)

Section Account.

Variables (n : nat) (D : eqType) (enc : D -> seq N) (V : Type).
Hypothesis enc_inj : injective enc.
Notation I := [eqType of seq N].
Variables (X : Type) (nstep : X -> label -> X -> Prop) (out : X -> nat -> seq (nat * payload)) (x0 : X) (ok : smsg -> Prop).
Hypothesis NX : network n nstep out x0 ok.
Variables (P : nat -> proc I D V) (res : nat -> V).
Hypothesis P_sends : forall k c i to id d p, gsteps n k (start P) c -> i < n -> lstep (procs c i) (ASend to id d) p ->
  in_range n to /\ ok (to, (id, enc d)).
Hypothesis P_clear : forall k c i, gsteps n k (start P) c -> i < n -> uniq (listens (procs c i)).
Hypothesis P_ends : every_run_ends n (start P) (all_done n res).
Variables (b : I) (d : D) (R : nat) (B : nat -> nat -> seq (I * (nat * D))).
Hypothesis A : accounts n b d R P B.
Hypothesis A0 : forall i l c m, i < n -> hears n i (start P) l c -> first_reading b c i -> m \in mbox c i -> m.1 <> b.
Notation sim := (sim n enc nstep out x0 ok P).
Notation s0 := (stack_start n x0 P).

Lemma follow s s' k calls c i : i < n -> sim k calls s c -> steps (sstep n enc nstep out) s s' ->
  exists k' calls' c' l, [/\ sim k' calls' s' c', hears n i c l c' & out (s_net s') i = out (s_net s) i ++ map (wire enc) l].
Proof.
  case: NX => N1 N2 N3 N4 N5. apply: (hears_stack enc_inj N1 N3 N4 P_sends P_clear (left := fun _ => [::]) (res := res)).
  have [m HB] := P_ends. exists m => k' c' S. have [Hk [Hs|[H1 [H2 H3]]]] := HB k' c' S; split=> //; by [left|right].
Qed.

Lemma follow0 s i : i < n -> steps (sstep n enc nstep out) s0 s ->
  exists k calls c l, [/\ sim k calls s c, hears n i (start P) l c & out (s_net s) i = map (wire enc) l].
Proof.
  move=> Hi S. have H0 : sim 0 [::] s0 (start P) by apply: sim_start; case: NX.
  have [k [calls [c [l [H L O]]]]] := follow Hi H0 S. exists k, calls, c, l. split=> //. by rewrite O /=; case: NX => _ ->.
Qed.

Lemma tri_wire (l : seq (I * (nat * D))) : [seq tri (msg_of x) | x <- map (wire enc) l] = map (btri enc) l.
Proof. by rewrite -map_comp. Qed.

Lemma syncs_tri l : syncs_in b l = seq.count (fun t : I * (nat * seq N) => t.1 == b) (map tri l).
Proof. by rewrite /syncs_in count_map. Qed.

Lemma syncs_btri (l : seq (I * (nat * D))) : syncs b l = seq.count (fun t : I * (nat * seq N) => t.1 == b) (map (btri enc) l).
Proof. by rewrite /syncs count_map. Qed.

Lemma sums_between (x1 u1 y1 x2 u2 y w1 w2 m1 m2 : nat) : x2 + w1 = x1 + w2 -> x1 + u1 = y1 -> x2 + u2 = y1 + y ->
  m1 = w1 + u1 -> m2 = w2 + u2 -> m1 = 0 -> y = m2.
Proof. lia. Qed.

Lemma sums_first (x1 u1 y1 w1 m1 : nat) : x1 + u1 = y1 -> m1 = w1 + u1 -> m1 = 0 -> x1 = y1.
Proof. lia. Qed.

Lemma sums_figure (x1 u1 y1 x2 u2 y w1 w2 m1 m2 z : nat) : x1 + u1 = y1 -> x2 + u2 = y1 + y -> m1 + y = z + m2 ->
  m1 = w1 + u1 -> m2 = w2 + u2 -> x2 + w1 = x1 + z + w2.
Proof. lia. Qed.

Lemma stack_account : stack_accounts n enc nstep out b d R s0 B.
Proof.
  move: (A) => [A1 [A2 A3]]. split; first exact: A1.
  split.
  - move=> s i v Hi S Ep. have [k [calls [c [l [H L ->]]]]] := follow0 Hi S.
    have Ec : procs c i = Ret v by rewrite -(sim_proc H Hi) Ep.
    exact: perm_map (A2 _ _ _ _ Hi L Ec).
  - move=> i s1 s2 Hi S1 [got [kk [E1 Hg]]] S2 E2 Hc.
    have [k1 [calls1 [c1 [l1 [H1 L1 O1]]]]] := follow0 Hi S1.
    have [k2 [calls2 [c2 [l [H2 L2 O2]]]]] := follow Hi H1 S2.
    have F1 : first_reading b c1 i by exists got, kk; rewrite -(sim_proc H1 Hi) E1.
    have F2 : second_reading b c2 i.
    { case: E2 => [[d' [k' E2]]|[v E2]]; [left; exists d', k'|right; exists v]; by rewrite -(sim_proc H2 Hi) E2. }
    have S12 : steps (sstep n enc nstep out) s0 s2 by elim: S2 => // u v _ IH Suv; exact: Step IH Suv.
    have I1 := sim_party H1 Hi. have I2 := sim_party H2 Hi.
    have W1 : waits (p_task (s_party s1 i)) = [::] by rewrite E1.
    have W2 : waits (p_task (s_party s2 i)) = [::] by case: E2 => [[d' [k' ->]]|[v ->]].
    have M1 := mail_split I1 W1 (keys_steps S1 i). have M2 := mail_split I2 W2 (keys_steps S12 i).
    set U1 := drop (p_read (s_party s1 i)) _ in M1. set U2 := drop (p_read (s_party s2 i)) _ in M2.
    have Es : out (s_net s2) i = map (wire enc) l1 ++ map (wire enc) l by rewrite O2 O1.
    have T1 : map tri (counted out s1 i) ++ [seq tri (msg_of x) | x <- U1] = map (btri enc) l1.
    { rewrite /counted /U1 -map_comp -map_cat cat_take_drop O1. exact: tri_wire. }
    have T2 : map tri (counted out s2 i) ++ [seq tri (msg_of x) | x <- U2] = map (btri enc) l1 ++ map (btri enc) l.
    { rewrite -[RHS]map_cat -tri_wire map_cat -Es /counted /U2 -map_comp -map_cat. by rewrite cat_take_drop. }
    set Q := fun t : I * (nat * seq N) => t.1 == b.
    have C1 := congr1 (seq.count Q) T1. have C2 := congr1 (seq.count Q) T2. rewrite !count_cat in C1 C2.
    have K1 := permP M1 Q. have K2 := permP M2 Q. rewrite !count_cat in K1 K2.
    rewrite !syncs_tri -/Q in Hc.
    have N1 : syncs b (mbox c1 i) = 0.
    { apply/eqP. rewrite -leqn0 leqNgt -has_count. apply/hasP => -[m Hin /eqP]. exact: A0 L1 F1 Hin. }
    rewrite syncs_btri -/Q in N1.
    have Hs : syncs b l = syncs b (mbox c2 i).
    { rewrite !syncs_btri. exact: (sums_between Hc C1 C2 K1 K2 N1). }
    have [r [Hr Er Pm Hm1 [Hm2 Hu]]] := A3 _ _ _ _ _ Hi L1 F1 L2 F2 Hs. exists r. split=> //.
    - rewrite syncs_tri -Er syncs_btri. exact: (sums_first C1 K1 N1).
    - move=> j Hj. rewrite /counter (pi_stats I1 Hj) (pi_stats I2 Hj) -/(counted out s1 i) -/(counted out s2 i) /add2 -!bytes_cat.
      apply: bytes_perm. rewrite !map_cat.
      have EB : map tri (map (as_msg enc) (B r i)) = map (btri enc) (B r i) by rewrite -map_comp.
      rewrite EB. have Pm' := perm_map (btri enc) Pm. rewrite !map_cat in Pm'.
      apply/permP => q. have Q1 := congr1 (seq.count q) T1. have Q2 := congr1 (seq.count q) T2.
      have Q3 := permP Pm' q. have Q4 := permP M1 q. have Q5 := permP M2 q. rewrite !count_cat in Q1 Q2 Q3 Q4 Q5 *.
      exact: (sums_figure Q1 Q2 Q3 Q4 Q5).
    - have : all (fun t : I * (nat * seq N) => t.1 != b) (map (btri enc) (mbox c1 i)).
      { apply/allP => t /mapP [m Hin ->] /=. apply/eqP. exact: Hm1. }
      by rewrite (perm_all _ M1) all_cat => /andP [Ha _]; rewrite all_map in Ha.
    - apply/andP. split.
      + have : all (fun t : I * (nat * seq N) => (t.1 == b) && (t.2.2 == enc d)) (map (btri enc) (mbox c2 i)).
        { apply/allP => t /mapP [m Hin ->] /=. by have [-> ->] := Hm2 m Hin; rewrite !eqxx. }
        by rewrite (perm_all _ M2) all_cat => /andP [Ha _]; rewrite all_map in Ha.
      + have : uniq [seq t.2.1 | t <- map (btri enc) (mbox c2 i)] by rewrite -map_comp.
        rewrite (perm_uniq (perm_map (fun t => t.2.1) M2)) map_cat cat_uniq => /andP [Ha _]. by rewrite -map_comp in Ha.
Qed.

End Account.

Section Rounds.

Variables (n : nat) (D : eqType) (enc : D -> seq N) (V T : Type) (X : Type) (nstep : X -> label -> X -> Prop).
Variables (out : X -> nat -> seq (nat * payload)) (x0 : X) (ok : smsg -> Prop).
Notation I := [eqType of seq N].
Variables (named : I -> Prop) (b : I) (d : D) (R : nat) (Q : nat -> (seq T -> proc I D V) -> proc I D V).
Variables (res : nat -> nat -> T) (rt : seq T -> V) (S : Type) (prep : nat -> nat -> option S).
Variables (body : nat -> nat -> S -> (T -> proc I D V) -> proc I D V) (mat : nat -> nat -> S) (rds : nat -> seq (I * round D)).
Hypothesis enc_inj : injective enc.
Hypothesis NX : network n nstep out x0 ok.
Hypothesis Hn : 0 < n.
Hypothesis Hp : forall i r, i < n -> r < R -> prep i r = Some (mat i r).
Hypothesis Hb : forall r, r < R -> realizes n (rds r) (fun i k => body i r (mat i r) k) (res r).
Hypothesis Hr : forall r, r < R -> [/\ uniq (ids (rds r)), 0 < size (rds r), b \notin ids (rds r) & forall id, id \in ids (rds r) -> named id].
Hypothesis HQ : forall i k, i < n -> Q i k = bench_loop n b d (prep i) (body i) (iota 0 R) k.
Hypothesis Hok : forall id to d', id = b \/ named id -> in_range n to -> ok (to, (id, enc d')).

Lemma rounds_stack_account : stack_accounts n enc nstep out b d R (stack_start n x0 (fun i => Q i (fun ys => Ret (rt ys)))) (rep_msgs n rds).
Proof.
  have L' : loops n b d R Q res by exists S, prep, body, mat, rds; split=> // r Hi; have [] := Hr Hi.
  have Hr' r : r < R -> [/\ uniq (ids (rds r)), 0 < size (rds r) & b \notin ids (rds r)] by move=> Hi; have [] := Hr Hi.
  have Al : alternating (loop_rounds b d rds (iota 0 R)).
  { apply: loop_alternating => r. rewrite mem_iota => Hi. by have [] := Hr Hi. }
  have U : unfolds n (loop_rounds b d rds (iota 0 R)) (fun me k => bench_loop n b d (prep me) (body me) (iota 0 R) k)
      (fun me => [seq res r me | r <- iota 0 R]).
  { apply: (loop_unfolds Hn (mat := mat)) => [me r Hm|r]; rewrite mem_iota => Hi; [exact: Hp|exact: Hb]. }
  have U' : unfolds n (loop_rounds b d rds (iota 0 R)) Q (fun me => [seq res r me | r <- iota 0 R]).
  { apply: unfolds_eq U => // i k Hi. by rewrite HQ. }
  have Hok' k id to d' : k < size (loop_rounds b d rds (iota 0 R)) -> id \in ids (nth [::] (loop_rounds b d rds (iota 0 R)) k) ->
      in_range n to -> ok (to, (id, enc d')).
  { move=> Hk. rewrite (nth_loop_rounds 0 Hk). case: ifP => _ Hid Hto; apply: Hok => //; last first.
    - left. by move: Hid; rewrite /ids /= inE => /eqP.
    - right. have [|_ _ _] := @Hr (nth 0 (iota 0 R) k./2); last exact.
      have Hk2 : k./2 < R by move: Hk; rewrite size_loop_rounds size_iota; lia.
      by rewrite nth_iota. }
  have [Hs Hc] := unfolds_reach Hn d rt Al U' Hok'.
  have [A _ _] := rounds_account rt Hn Hp Hb Hr' HQ.
  apply: (stack_account enc_inj NX Hs Hc (loops_run rt L') A).
  move=> i l c m Hi S1 [got [k [Ep Hg]]] Hm.
  have [A1 _ _] := account Hn Hp Hb Hr' HQ Hi S1. have [Hq _] := A1 _ _ Ep Hg. apply: Hq. by left.
Qed.

End Rounds.

Lemma loops_stack_account (n : nat) (D : eqType) (enc : D -> seq N) (V T : Type) (X : Type) (nstep : X -> label -> X -> Prop) out (x0 : X) ok
    (named : [eqType of seq N] -> Prop) (b : [eqType of seq N]) (d : D) R
    (Q : nat -> (seq T -> proc [eqType of seq N] D V) -> proc [eqType of seq N] D V) res (rt : seq T -> V) :
  injective enc -> network n nstep out x0 ok -> loops_in n named b d R Q res ->
  (forall id to d', id = b \/ named id -> in_range n to -> ok (to, (id, enc d'))) ->
  exists B, stack_accounts n enc nstep out b d R (stack_start n x0 (fun i => Q i (fun ys => Ret (rt ys)))) B.
Proof.
  move=> enc_inj NX [S [prep [body [mat [rds [Hn Hp Hb Hr HQ]]]]]] Hok. exists (rep_msgs n rds).
  exact: (rounds_stack_account rt enc_inj NX Hn Hp Hb Hr HQ Hok).
Qed.

(** ** C82 *)

(** bin/garble.rs on the TCP network. *)
Theorem C82_garble_counters : forall (w : width) (H : eqType) (sha : seq N -> H) h0 draws hash
    (G : Type) (seed_from : N -> G) gf_rand gen_bool (syn : bytes) text c circ n t l K M reps coins,
  from_bristol_fashion text = Some c -> well_formed c -> pack c (N.of_nat l) = Some circ ->
  (0 < l)%N -> (t + 2 * l <= n <= 2 ^ 16)%N -> (2 * (t + l - 1) <= n - 1)%N ->
  (N.of_nat n + N.of_nat l + c_num_wires c <= 2 ^ w)%num -> (N.of_nat M < 2 ^ w)%num ->
  (8 + N.of_nat (4 * K + 3) * ((w + 7) / 8) < 2 ^ 62)%num ->
  let ng := N.of_nat (length (p_gates circ)) in
  let nb := (N.of_nat (length (p_inputs circ)) + ng)%num in
  let ni := ProtoIdModel.num_inp_blocks (p_gates circ) in
  (0 < nb <= 2 ^ 48)%num -> (ni <= 2 ^ 48)%num ->
  (forall x, In x [:: 4 + ng; nb; ni; (nb + N.of_nat l - 1) / N.of_nat l; (ni + N.of_nat l - 1) / N.of_nat l]%num ->
     ~ exists k, x = (256 ^ k)%num) ->
  exists B, stack_accounts n raw (tnstep n) t_out garble_bench_id syn reps
    (stack_start n tinit (fun i => garble_bin (gf_of w) (@bser w) (@bde w) syn sha h0 draws hash seed_from gf_rand gen_bool
       text i n t l (Lpn K M) reps (fun r => coins r i) (fun ys => Ret (Node [seq garble_val y | y <- ys])))) B.
Proof.
  move=> w H sha h0 draws hash G seed_from gf_rand gen_bool syn text c circ n t l K M reps coins.
  move=> Ht Hwf Hp Hl Hn Hd Hw HM HK ng nb ni Hb Hni Hpow.
  have [d [pp [mk [ks [rs [es [tabs [rest [Ed Hr L]]]]]]]]] := garble_loops_in sha h0 draws hash seed_from gf_rand gen_bool syn reps coins
    (@bserK w) Ht Hwf Hp Hl Hn Hd Hw HM (fun m Hm => bfits_le Hm HK) Hb Hni Hpow.
  apply: (loops_stack_account (fun ys => Node [seq garble_val y | y <- ys]) raw_inj (tcp_network n) L) => id to y Hid Hto.
  apply: tcp_sizes => //. by case: Hid => [->|/leq_trans ->].
Qed.
Print Assumptions C82_garble_counters.

(** bin/preproc.rs. *)
Theorem C82_preproc_counters : forall (w : width) (syn : bytes) text c circ (bs : seq (seq bool)) es C n t l K M d reps
    (r : nat -> nat -> coins (gf_fieldType w)),
  from_bristol_fashion text = Some c -> pack c (N.of_nat l) = Some circ -> describe circ n t l (Lpn K M) = Some d ->
  size bs = n -> size es = n -> ends_ok es -> (0 < C)%N -> all (fun row => size row == C) bs ->
  (0 < l)%N -> (t + l <= n)%N -> (2 * (t + l - 1) <= n - 1)%N -> (N.of_nat n + N.of_nat l <= 2 ^ w)%num ->
  let most := maxn (keys_total d + n_randoms d + 3 * n_errors d) (maxn (n_zeros d + 2 * n_errors d) (n_masks d + 2 * n_errors d)) in
  (8 + N.of_nat most * ((w + 7) / 8) < 2 ^ 62)%num ->
  exists B, stack_accounts n raw (tnstep n) t_out preproc_bench_id syn reps
    (stack_start n tinit (fun i => preproc_bin (gf_of w) (@bser w) (@bde w) syn text (matrix_text bs es) i n t l (Lpn K M) reps (fun q => r q i)
       (fun ys => Ret (Node [seq pp_val y | y <- ys])))) B.
Proof.
  move=> w syn text c circ bs es C n t l K M d reps r Ht Hp Ed Zb Ze He HC Hrows Hl Htl Hd Hw most Hft.
  have [Ms [Mb [bR [bZ [bB [Hm [pp [Hpp L]]]]]]]] := preproc_loops_in syn reps r (@bserK w) Ht Hp Ed Zb Ze He HC Hrows Hl Htl Hd Hw
    (fun m Hm => bfits_le Hm Hft).
  apply: (loops_stack_account (fun ys => Node [seq pp_val y | y <- ys]) raw_inj (tcp_network n) L) => id to y Hid Hto.
  apply: tcp_sizes => //. by case: Hid => [->|/leq_trans ->].
Qed.
Print Assumptions C82_preproc_counters.

(** ** Executions *)

(** Two parties, repetitions of a protocol that consists of one [sync] on another
    id, the local network. *)
Notation I8 := [eqType of seq N].
Definition small_body (i r : nat) (s : unit) (k : unit -> proc I8 I8 nat) := sync 2 [:: 8%num] [:: 1%num] (k tt).
Definition small (R i : nat) := bench_loop 2 [:: 7%num] [:: 1%num] (fun _ => Some tt) (small_body i) (iota 0 R) (fun ys => Ret (size ys)).
Definition small_traffic (q i : nat) : seq (I8 * (nat * I8)) := [:: ([:: 8%num], (0, [:: 1%num])); ([:: 8%num], (1, [:: 1%num]))].
Definition small_start R := stack_start 2 linit (small R).

Example C82_small_accounts : forall R,
  stack_accounts 2 (@bytes_id) (lnstep 2) l_out [:: 7%num] [:: 1%num] R (small_start R) small_traffic.
Proof.
  move=> R. apply: (@rounds_stack_account 2 I8 (@bytes_id) nat unit lnet (lnstep 2) l_out linit (recipient_ok 2) (fun id => id = [:: 8%num])
    [:: 7%num] [:: 1%num] R (fun i => bench_loop 2 [:: 7%num] [:: 1%num] (fun _ => Some tt) (small_body i) (iota 0 R)) (fun _ _ => tt) size unit
    (fun _ _ => Some tt) small_body (fun _ _ => tt) (fun _ => [:: ([:: 8%num], Exch (fun _ _ => [:: 1%num]))])) => //.
  - exact: local_network.
  - move=> r _. exact: (@realizes_sync 2 I8 I8 nat isT [:: 8%num] [:: 1%num]).
  - move=> r _. split=> // id. by rewrite inE => /eqP.
  - move=> id to d' _ Hto. exact: range_recipient.
Qed.

(** An execution of [small R] with a first reading, a second one and the messages of
    no [sync] taken in between, and by how much the counters of party 0 for party 1
    have grown. *)
Definition between_readings (R : nat) (grown : nat * nat) : Prop := exists s1 s2,
  let all_steps := steps (sstep 2 (@bytes_id) (lnstep 2) l_out) in
  [/\ all_steps (small_start R) s1 /\ all_steps s1 s2, stack_first [:: 7%num] s1 0, stack_second [:: 7%num] s2 0,
      syncs_in [:: 7%num] (counted l_out s2 0) + syncs_in [:: 7%num] (waiting s1 0) =
      syncs_in [:: 7%num] (counted l_out s1 0) + syncs_in [:: 7%num] (waiting s2 0) &
      counter s2 0 1 = add2 (counter s1 0 1) grown].

(** Party 1 leaves the first [sync] and its message of the second is in the router
    of party 0 when party 0 has its last message of the first. *)
Definition early_first : seq cmd :=
  [:: CSend 0; CSend 1; CForward 0; CForward 1; CPick; CPush; CPush; CPick; CPush; CPush;
      CRecv 1; CRequest 1; CArrive 1; CGot 1; CRecv 1; CRequest 1; CArrive 1; CGot 1; CTau 1;
      CSend 1; CForward 1; CPick; CPush; CPush;
      CRecv 0; CRequest 0; CArrive 0; CGot 0; CRecv 0; CRequest 0; CArrive 0; CArrive 0; CGot 0].
Definition early_second : seq cmd :=
  [:: CTau 0; CSend 0; CForward 0; CPick; CPush; CPush; CRecv 0; CRequest 0; CGot 0; CRecv 0; CRequest 0; CArrive 0; CGot 0; CTau 0].

(** Party 1 is done with the first of two repetitions and its message of the next
    [sync] is in the router of party 0 when party 0 leaves the protocol. *)
Definition late_first : seq cmd :=
  [:: CSend 0; CSend 1; CForward 0; CForward 1; CPick; CPush; CPush; CPick; CPush; CPush;
      CRecv 1; CRequest 1; CArrive 1; CGot 1; CRecv 1; CRequest 1; CArrive 1; CGot 1;
      CRecv 0; CRequest 0; CArrive 0; CGot 0; CRecv 0; CRequest 0; CArrive 0; CGot 0].
Definition late_second : seq cmd :=
  [:: CTau 0; CSend 0; CTau 1; CSend 1; CForward 0; CForward 1; CPick; CPush; CPush; CPick; CPush; CPush;
      CRecv 1; CRequest 1; CArrive 1; CGot 1; CRecv 1; CRequest 1; CArrive 1; CGot 1; CTau 1; CSend 1; CForward 1; CPick; CPush;
      CRecv 0; CRequest 0; CArrive 0; CGot 0; CRecv 0; CRequest 0; CArrive 0; CArrive 0; CGot 0; CTau 0].

Lemma is_some T (x : option T) y : isSome x -> x = Some (odflt y x).
Proof. by case: x. Qed.

(** In a repetition one byte of payload, with the id two bytes, comes from party 1
    to party 0.  The counters may not grow at all between the readings, and may grow by twice that. *)
Theorem C82_counters_differ :
  [/\ bytes_from 1 (map (as_msg (@bytes_id)) (small_traffic 0 0)) = (1, 2), between_readings 1 (0, 0) & between_readings 2 (2, 4)].
Proof.
  split; first by lazy.
  - pose s1 := odflt (small_start 1) (exec_all 2 early_first (small_start 1)).
    pose s2 := odflt (small_start 1) (exec_all 2 early_second s1).
    exists s1, s2. move=> all_steps.
    have X1 : exec_all 2 early_first (small_start 1) = Some s1 by apply: is_some; lazy.
    have X2 : exec_all 2 early_second s1 = Some s2 by apply: is_some; lazy.
    split.
    + split; [exact: exec_steps (Stop _ _) X1|exact: exec_steps (Stop _ _) X2].
    + eexists _, _. split; first by lazy; reflexivity. by [].
    + right. eexists. by lazy; reflexivity.
    + by lazy.
    + by lazy.
  - pose s1 := odflt (small_start 2) (exec_all 2 late_first (small_start 2)).
    pose s2 := odflt (small_start 2) (exec_all 2 late_second s1).
    exists s1, s2. move=> all_steps.
    have X1 : exec_all 2 late_first (small_start 2) = Some s1 by apply: is_some; lazy.
    have X2 : exec_all 2 late_second s1 = Some s2 by apply: is_some; lazy.
    split.
    + split; [exact: exec_steps (Stop _ _) X1|exact: exec_steps (Stop _ _) X2].
    + eexists _, _. split; first by lazy; reflexivity. by [].
    + left. eexists _, _. by lazy; reflexivity.
    + by lazy.
    + by lazy.
Qed.
Print Assumptions C82_counters_differ.

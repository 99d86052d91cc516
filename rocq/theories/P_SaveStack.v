(** Property theorems C65: the programs with [--save] on the whole network stack. *)

From Coq Require Import NArith String List Ascii.
From Verif Require Import CircuitModel CircuitSpec LpnModel LpnSpec.
From mathcomp Require Import all_ssreflect all_algebra zify.
From Verif Require Import MathModel MathProofs MatProofs MatFileModel SharingModel SharingSpec SharingProofs.
From Verif Require Import MachineModel MachineProofs MachineBuild Realize CoreModel CoreSpec CoreProofs.
From Verif Require Import RandTransProofs PreprocModel PreprocSpec PreprocProofs GarbleModel GarbleSpec GarbleRun PipeModel BinModel.
From Verif Require Import GFField GFCodec P_Math P_Sharing P_Core P_Preproc P_Garble P_MatFile P_Phase P_Bin P_BinPre.
From Verif Require Import RouterModel RouterSpec RouteModel RouteSpec RouteProofs P_Route.
From Verif Require Import StackModel StackSpec StackProofs StackRun StackRounds StackNets SaveModel SaveProofs P_Save.
From Verif Require ProtoIdModel.
Set Implicit Arguments.
Unset Strict Implicit.
Unset Printing Implicit Defensive.

(** ** Any code that leaves messages behind *)

(** As [C65_tcp_network], for code whose every schedule ends with messages
    [left i] in the mailbox of party [i]: on the stack they end up in the pool of
    its router. *)
Theorem C65_messages_left : forall n (D : eqType) (enc : D -> seq N) V (P : nat -> proc [eqType of seq N] D V) res left, injective enc ->
  every_run_ends n (start P)
    (fun c => [/\ forall i, i < n -> procs c i = Ret (res i), net c = [::] & forall i, i < n -> mbox c i = left i])%N ->
  (forall k c i to id d p, gsteps n k (start P) c -> (i < n)%N -> lstep (procs c i) (ASend to id d) p ->
     recipient_ok n (to, (id, enc d)) /\ sizes_ok (to, (id, enc d))) ->
  (forall k c i, gsteps n k (start P) c -> (i < n)%N -> uniq (listens (procs c i))) ->
  ends_in (sstep n enc (tnstep n) t_out) (stack_left n enc t_out res left) (stack_start n tinit P).
Proof.
  move=> n D enc V P res left enc_inj He Hs Hc. have [N1 N2 N3 N4 N5] := tcp_network n.
  apply: (stack_ends_left enc_inj N1 N2 N3 N4 N5 _ Hc He) => k c i to id d p S Hi L.
  have R := Hs k c i to id d p S Hi L. split=> //. exact: (recipient_range R.1).
Qed.
Print Assumptions C65_messages_left.

(** ** The report *)

Section Report.

Variables (n : nat) (D : eqType) (enc : D -> seq N) (V T : Type) (b : [eqType of seq N]) (d fin : D) (R : nat).
Notation I := [eqType of seq N].
Variables (Q : nat -> (seq T -> proc I D V) -> proc I D V) (res : nat -> nat -> T) (rep : nat -> D).
Hypothesis enc_inj : injective enc.
Variables (X : Type) (nstep : X -> label -> X -> Prop) (out : X -> nat -> seq (nat * payload)) (x0 : X) (ok : smsg -> Prop).
Hypothesis NX : network n nstep out x0 ok.

Lemma lag_listens (p q : proc I D V) : lag b fin p q -> uniq (listens q) -> uniq (listens p).
Proof.
  case=> [L|[v [-> _]]] //.
  by case: L => [p0 q0 [v [-> ->]]||to id d0 p0 q0 _|id k k' _|id got k k' _|p0 q0 k k' _].
Qed.

Lemma loops_in_loops (named : I -> Prop) : loops_in n named b d R Q res -> loops n b d R Q res.
Proof.
  move=> [S [prep [body [mat [rds [H1 H2 H3 H4 H5]]]]]]. exists S, prep, body, mat, rds. split=> // r Hr.
  by have [? ? ?] := H4 r Hr.
Qed.

Lemma saving_on_stack (named : I -> Prop) (f : seq T -> option (seq D) -> V) :
  loops_in n named b d R Q res -> natural (Q 0) ->
  (forall id to d', id = b \/ named id -> in_range n to -> ok (to, (id, enc d'))) ->
  ends_in (sstep n enc nstep out)
    (stack_left n enc out (fun i => f [seq res r i | r <- iota 0 R] (reports n rep i))
       (fun i => if i == 0%N then [:: (b, (0%N, fin))] else [::]))
    (stack_start n x0 (saving n b fin Q rep f)).
Proof.
  move=> L N Hok. have L' := loops_in_loops L. have Hn : (0 < n)%N by case: L => [? [? [? [? [? []]]]]].
  have [rdss [A U Hid]] := saving_unfolds fin rep L.
  have [Hs Hc] := unfolds_reach Hn d (fun y => f y.1 y.2) A U (fun k id to d' Hk Hi => Hok id to d' (Hid k id Hk Hi)).
  have E k c : gsteps n k (start (saving n b fin Q rep f)) c ->
    exists2 e, gsteps n k (start (saving_own n b fin Q rep f)) e & lag_cfg b fin c e.
  { move=> S. apply: (lag_gsteps S). split=> //.
    - left. exact: saving_lag.
    - by move=> i Hi; rewrite /= /saving_own (negbTE Hi). }
  case: NX => N1 N2 N3 N4 N5. apply: (stack_ends_left enc_inj N1 N2 N3 N4 N5).
  - move=> k c i to id d' p S Hi Hp. have [e Se Le] := E k c S. have [q Sq _] := lag_local Le Hp.
    exact: Hs Se Hi Sq.
  - move=> k c i S Hi. have [e Se [L0 L1 _ _]] := E k c S. have Hu := Hc k e i Se Hi.
    case: (i =P 0%N) Hu => [->|/eqP Hne] Hu; first exact: lag_listens L0 Hu. by rewrite L1.
  - apply: ends_mono (saving_ends fin rep f L' N) => c [A1 A2 A3 A4]. split=> // i Hi.
    case: (i =P 0%N) => [->|/eqP Hne] //. apply: A4. by rewrite lt0n Hne.
Qed.

End Report.

(** bin/garble.rs with [--save] on the TCP network, if processes live until
    their messages have left: every execution of the stack is finite; when nothing
    can happen any more party 0 has the figures of all parties in the order of the
    parties, all parties have returned, and the only message left is the one party
    0 sent to itself, in the pool of its router. *)
Theorem C65_garble_saved : forall (w : width) (H : eqType) (sha : seq N -> H) h0 draws hash
    (G : Type) (seed_from : N -> G) gf_rand gen_bool (syn fin : bytes) text c circ n t l K M reps coins (rep : nat -> bytes) out,
  from_bristol_fashion text = Some c -> well_formed c -> pack c (N.of_nat l) = Some circ ->
  (0 < l)%N -> (t + 2 * l <= n <= 2 ^ 16)%N -> (2 * (t + l - 1) <= n - 1)%N ->
  (N.of_nat n + N.of_nat l + c_num_wires c <= 2 ^ w)%num -> (N.of_nat M < 2 ^ w)%num ->
  (8 + N.of_nat (4 * K + 3) * ((w + 7) / 8) < 2 ^ 62)%num ->
  let ng := N.of_nat (length (p_gates circ)) in
  let nb := (N.of_nat (length (p_inputs circ)) + ng)%num in
  let ni := ProtoIdModel.num_inp_blocks (p_gates circ) in
  (0 < nb <= 2 ^ 48)%num -> (ni <= 2 ^ 48)%num ->
  (forall x, In x [:: 4 + ng; nb; ni; (nb + N.of_nat l - 1) / N.of_nat l; (ni + N.of_nat l - 1) / N.of_nat l]%num ->
     ~ exists k, x = (256 ^ k)%num) ->
  ends_in (sstep n raw (tnstep n) t_out)
    (fun s => exists d (pp : nat -> nat -> preproc_data (gf_fieldType w)) mk ks rs es tabs rest,
      let ys i := [seq ([seq tabs r gid i | gid <- iota 0 (size (p_gates circ))], rest r i) | r <- iota 0 reps] in
      [/\ stack_left n raw t_out (fun i => out (ys i) (if i == 0%N then Some [seq rep j | j <- iota 0 n] else None))
            (fun i => if i == 0%N then [:: (garble_bench_id, (0%N, fin))] else [::]) s,
          describe circ n t l (Lpn K M) = Some d &
          forall r, (r < reps)%N ->
            [/\ forall i, (i < n)%N -> dummy (gf_of w) seed_from gf_rand gen_bool i n t l (200 + N.of_nat r) d = Some (pp r i),
                material (gf_of w) n t l d (pp r) (mk r) (ks r) (rs r) (es r) &
                garbled (gf_of w) sha draws circ n t l K M (mk r) (ks r) (es r) (tabs r)]])
    (stack_start n tinit (fun i => garble_bin (gf_of w) (@bser w) (@bde w) syn sha h0 draws hash seed_from gf_rand gen_bool
       text i n t l (Lpn K M) reps (fun r => coins r i)
       (fun ys => save_step n garble_bench_id fin i (rep i) (fun o => Ret (out ys o))))).
Proof.
  move=> w H sha h0 draws hash G seed_from gf_rand gen_bool syn fin text c circ n t l K M reps coins rep out.
  move=> Ht Hwf Hp Hl Hn Hd Hw HM HK ng nb ni Hb Hni Hpow.
  have [d [pp [mk [ks [rs [es [tabs [rest [Ed Hr L]]]]]]]]] := garble_loops_in sha h0 draws hash seed_from gf_rand gen_bool syn reps coins
    (@bserK w) Ht Hwf Hp Hl Hn Hd Hw HM (fun m Hm => bfits_le Hm HK) Hb Hni Hpow.
  have N := @natural_garble_bin (gf_fieldType w) (gf_of w) _ (@bser w) (@bde w) syn H sha h0 draws hash G seed_from gf_rand gen_bool
    text 0 n t l (Lpn K M) reps (fun r => coins r 0%N).
  apply: ends_in_mono (saving_on_stack fin rep raw_inj (tcp_network n) out L N _) => [s A|id to y Hid Hto].
  - by exists d, pp, mk, ks, rs, es, tabs, rest.
  - apply: tcp_sizes => //. by case: Hid => [->|/leq_trans ->].
Qed.
Print Assumptions C65_garble_saved.

(** bin/preproc.rs with [--save]. *)
Theorem C65_preproc_saved : forall (w : width) (syn fin : bytes) text c circ (bs : seq (seq bool)) es C n t l K M d reps
    (r : nat -> nat -> coins (gf_fieldType w)) (rep : nat -> bytes) out,
  from_bristol_fashion text = Some c -> pack c (N.of_nat l) = Some circ -> describe circ n t l (Lpn K M) = Some d ->
  size bs = n -> size es = n -> ends_ok es -> (0 < C)%N -> all (fun row => size row == C) bs ->
  (0 < l)%N -> (t + l <= n)%N -> (2 * (t + l - 1) <= n - 1)%N -> (N.of_nat n + N.of_nat l <= 2 ^ w)%num ->
  let most := maxn (keys_total d + n_randoms d + 3 * n_errors d) (maxn (n_zeros d + 2 * n_errors d) (n_masks d + 2 * n_errors d)) in
  (8 + N.of_nat most * ((w + 7) / 8) < 2 ^ 62)%num ->
  exists Ms Mb bR bZ bB,
    [/\ super_inv_matrix (gf_of w) n (n - t) = Some Ms,
        forall i j, (i < C)%N -> (j < n)%N -> entry Mb i j = ((nth false (nth [::] bs j) i)%:R)%R &
        [/\ size (rows Ms) = (n - t)%N, size (rows Mb) = C,
            (keys_total d + n_randoms d + 3 * n_errors d <= (n - t) * bR < keys_total d + n_randoms d + 3 * n_errors d + (n - t))%N,
            (n_zeros d + 2 * n_errors d <= (n - t) * bZ < n_zeros d + 2 * n_errors d + (n - t))%N &
            (n_masks d + 2 * n_errors d <= C * bB < n_masks d + 2 * n_errors d + C)%N]] /\
  ends_in (sstep n raw (tnstep n) t_out)
    (fun s => exists pp, (forall q, (q < reps)%N -> preprocessed (gf_of w) n t l Ms Mb d (r q) bR bZ bB (pp q)) /\
      stack_left n raw t_out
        (fun i => out [seq pp q i | q <- iota 0 reps] (if i == 0%N then Some [seq rep j | j <- iota 0 n] else None))
        (fun i => if i == 0%N then [:: (preproc_bench_id, (0%N, fin))] else [::]) s)
    (stack_start n tinit (fun i => preproc_bin (gf_of w) (@bser w) (@bde w) syn text (matrix_text bs es) i n t l (Lpn K M) reps (fun q => r q i)
       (fun ys => save_step n preproc_bench_id fin i (rep i) (fun o => Ret (out ys o))))).
Proof.
  move=> w syn fin text c circ bs es C n t l K M d reps r rep out Ht Hp Ed Zb Ze He HC Hrows Hl Htl Hd Hw most Hft.
  have [Ms [Mb [bR [bZ [bB [Hm [pp [Hpp L]]]]]]]] := preproc_loops_in syn reps r (@bserK w) Ht Hp Ed Zb Ze He HC Hrows Hl Htl Hd Hw
    (fun m Hm => bfits_le Hm Hft).
  exists Ms, Mb, bR, bZ, bB. split; first exact: Hm.
  have N := @natural_preproc_bin (gf_fieldType w) (gf_of w) _ (@bser w) (@bde w) syn text (matrix_text bs es) 0 n t l (Lpn K M) reps
    (fun q => r q 0%N).
  apply: ends_in_mono (saving_on_stack fin rep raw_inj (tcp_network n) out L N _) => [s A|id to y Hid Hto].
  - by exists pp.
  - apply: tcp_sizes => //. by case: Hid => [->|/leq_trans ->].
Qed.
Print Assumptions C65_preproc_saved.

(** The hypotheses of the programs are met as in [C65_programs_example].  The
    report alone, with three parties and one byte each: *)
Example C65_saved_example : 
  let program i : proc [eqType of seq N] [eqType of seq N] (option (seq (seq N))) :=
    save_step 3 [:: 9]%num [:: 1]%num i [:: N.of_nat (10 + i)]%num (fun o => Ret o) in
  ends_in (sstep 3 id (lnstep 3) l_out)
    (stack_left 3 id l_out (fun i => if i == 0%N then Some [:: [:: 10]; [:: 11]; [:: 12]]%num else None)
       (fun i => if i == 0%N then [:: ([:: 9]%num, (0%N, [:: 1]%num))] else [::]))
    (stack_start 3 linit program).
Proof.
  move=> program.
  pose Q (_ : nat) (k : seq unit -> proc [eqType of seq N] [eqType of seq N] (option (seq (seq N)))) := k [::].
  have L : loops_in 3 (fun _ => True) [:: 9]%num [::] 0 Q (fun _ _ => tt).
  { by exists unit, (fun _ _ => Some tt), (fun _ _ _ k => k tt), (fun _ _ => tt), (fun _ => [::]). }
  have N : natural (Q 0%N) by move=> R k k'; exact.
  apply: (saving_on_stack [:: 1]%num (fun i => [:: N.of_nat (10 + i)]%num) (fun _ _ E => E) (local_network 3) (fun _ o => o) L N).
  move=> id to d' _ Hto. exact: range_recipient.
Qed.

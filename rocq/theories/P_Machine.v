(** Property theorem C25 (sync is a barrier), and what ties the machine's
    receive discipline to the router (C22) and to [message_from_each_party]
    (C24). *)

From Coq Require Import NArith.
From mathcomp Require Import all_ssreflect zify.
From Verif Require Import MachineModel MachineProofs MachineBuild MachineSync RouterModel.
Set Implicit Arguments.
Unset Strict Implicit.
Unset Printing Implicit Defensive.

(** ** C25 *)

(** In every run of arbitrary codes: when a gather on [id] can return at some
    party, every party has already sent a message on [id]. *)
Theorem C25_gather_waits_for_all : forall n (I D : eqType) (V : Type) (P : nat -> proc I D V) tr c i id,
  (forall j, j < n -> fresh n (P j)) -> gtrace n (start P) tr c ->
  i < n -> gather_ready id (procs c i) -> forall j, j < n -> has_sent tr id j.
Proof.
  move=> n I D V P tr c i id HP T Hi R j Hj.
  have [H1 _ _] := trace_inv HP T; exact: ready_holds (H1 i Hi) R j Hj.
Qed.
Print Assumptions C25_gather_waits_for_all.

(** If all parties run sync and then anything: in every reachable state, a
    party is still inside sync unless every party has called it. *)
Theorem C25_sync_is_barrier : forall n (I D : eqType) (V : Type) id (d : D) (k : nat -> proc I D V) tr c i,
  (forall j, j < n -> fresh n (k j)) -> gtrace n (start (fun j => sync n id d (k j))) tr c -> i < n ->
  [\/ procs c i = sync n id d (k i), exists got, procs c i = Gath id got (fun _ => k i) |
      forall j, j < n -> has_sent tr id j].
Proof.
  move=> n I D V id d k tr c i Hk T; elim: T i => [|tr0 c1 l c2 T IH L] i Hi; first by constructor 1.
  have HP j : j < n -> fresh n (sync n id d (k j)).
    move=> Hj; rewrite /fresh /sync /gather; apply: HSend; apply: HGath; rewrite ?size_nseq //.
    - by move=> s x; rewrite nth_nseq if_same.
    - by move=> _; exact: Hk.
  have mono l' : (forall j, j < n -> has_sent tr0 id j) -> forall j, j < n -> has_sent (tr0 ++ l') id j.
    by move=> H j Hj; apply: has_sent_cat; apply: H.
  have [H1 H2 H3] := trace_inv HP T.
  case: (IH i Hi) => [E|[got E]|Ha]; last by constructor 3; apply: mono.
  - case: L => [i' p Hi' S|i' to id' d' p Hi' S|i' id' s d' p a b Hi' Eb Ha S|to m a b Hto En] /=; rewrite ?/upd;
      try (case: eqP => [Ei|_]; last by rewrite E; constructor 1); try by rewrite E; constructor 1.
    + by subst i'; rewrite E in S; inversion S.
    + subst i'; rewrite E in S; inversion S; subst; constructor 2; by eexists.
    + by subst i'; rewrite E in S; inversion S.
  - case: L => [i' p Hi' S|i' to id' d' p Hi' S|i' id' s d' p a b Hi' Eb Ha S|to m a b Hto En] /=; rewrite ?/upd;
      try (case: eqP => [Ei|_]; last by constructor 2; exists got); try by constructor 2; exists got.
    + subst i'; rewrite E in S; inversion S; subst; constructor 3; apply: mono => j Hj.
      apply: ready_holds (H1 i Hi) _ j Hj; by rewrite E /= eqxx.
    + by subst i'; rewrite E in S; inversion S.
    + subst i'; rewrite E in S; inversion S; subst; rewrite /gath_step.
      have Sz : size got = n by move: (H1 i Hi); rewrite E => HH; inversion HH.
      have Hs : s < n.
        have Hin : List.In (id', (s, d')) (mbox c1 i) by rewrite Eb; apply: List.in_or_app; right; left.
        exact: (sent_range T (H3 i _ Hi Hin)).
      rewrite Sz Hs; case: (nth None got s) => [x|]; constructor 2; by eexists.
Qed.
Print Assumptions C25_sync_is_barrier.

(** And everybody returns from it, in every schedule. *)
Theorem C25_everybody_returns : forall n (I D : eqType) (V : Type) id (d : D) (v : nat -> V), 0 < n ->
  every_run_ends n (start (fun i => sync n id d (Ret (v i) : proc I D V))) (all_done n v).
Proof.
  move=> n I D V id d v n_pos.
  apply: (follows_runs n_pos (plan := fun _ => Exch (fun _ _ => d)) (ids := [:: (0, id)])) => [|i Hi].
    split=> // a b; first by rewrite !inE => /eqP -> /eqP ->; rewrite ltnn.
    by move=> ph; rewrite !inE => /eqP -> /eqP ->; rewrite ltn0 andbF.
  by apply: (@follows_all n I D V n_pos _ i (0, id)) => //; apply: follows_ret.
Qed.
Print Assumptions C25_everybody_returns.

(** Three parties; there is a run in which all return. *)
Example C25_example_fresh : forall j, j < 3 -> fresh 3 (Ret j : proc nat_eqType nat_eqType nat).
Proof. by move=> j _; constructor. Qed.
Example C25_example_run : exists k c,
  gsteps 3 k (start (fun i => sync 3 7 1 (Ret i : proc nat_eqType nat_eqType nat))) c /\ all_done 3 (fun i => i) c.
Proof.
  have [B H] := @C25_everybody_returns 3 nat_eqType nat_eqType nat 7 1 (fun i => i) isT.
  pose c0 := start (fun i => sync 3 7 1 (Ret i : proc nat_eqType nat_eqType nat)).
  have run m : exists k c, gsteps 3 k c0 c /\ (m <= k \/ all_done 3 (fun i => i) c).
    elim: m => [|m [k [c [S [Hk|Hd]]]]]; first by exists 0, c0; split; [constructor|left].
      case: (H k c S) => _ [[c' S']|Hd]; last by exists k, c; split=> //; right.
      by exists k.+1, c'; split; [apply: gsteps_rcons S S'|left].
    by exists k, c; split=> //; right.
  have [k [c [S [Hk|Hd]]]] := run B.+1; last by exists k, c.
  by have [Hb _] := H k c S; move: (leq_trans Hk Hb); rewrite ltnn.
Qed.

(** ** The receive discipline of the machine *)

(** Codes that follow a plan never have two receives outstanding on one id, in
    any reachable state: the hypothesis of C22 is met. *)
Theorem C22_plans_receive_one_at_a_time : forall n (I D : eqType) (V : Type) (plan : nat * I -> round D)
    (P : nat -> proc I D V) (ids : seq (nat * I)) (res : nat -> V) k c, 0 < n -> phased ids ->
  (forall i, i < n -> follows n plan i (P i) ids (res i)) ->
  gsteps n k (start P) c -> forall i, i < n -> uniq (pending (procs c i)).
Proof. move=> *; by apply: follows_pending; eauto. Qed.
Print Assumptions C22_plans_receive_one_at_a_time.

(** The machine's gather, fed the messages one after the other. *)
Definition feed (I : eqType) V (p : proc I (seq_eqType bin_nat_eqType) V) (ms : seq msg) :=
  foldl (fun p m => if p is Gath id got k then if all isSome got then p else gath_step id got k (m_from m) (m_data m)
                    else p) p ms.

(** It does what [message_from_each_party] does. *)
Theorem C24_machine_gather_agrees : forall n (I : eqType) V id k (arr : seq msg),
  let g := gather n id k : proc I (seq_eqType bin_nat_eqType) V in
  match message_from_each_party n arr with
  | MDone ds rest => exists pre got, [/\ arr = pre ++ rest, feed g pre = Gath id got k, all isSome got &
      pmap (fun x => x) got = ds]
  | MWait => exists got, feed g arr = Gath id got k /\ ~~ all isSome got
  | MPanic => feed g arr = Panic
  end.
Proof.
  move=> n I V id k arr /=; rewrite /message_from_each_party /gather.
  have : forall (arr : seq msg) mssgs has counter (got : seq (option (seq N))),
    size mssgs = n -> size has = n -> counter = count idfun has ->
    got = [seq if nth false has i then Some (nth [::] mssgs i) else None | i <- iota 0 n] ->
    match mfep_loop n mssgs has counter arr with
    | MDone ds rest => exists pre got', [/\ arr = pre ++ rest, feed (Gath id got k : proc I (seq_eqType bin_nat_eqType) V) pre = Gath id got' k, all isSome got' &
        pmap (fun x => x) got' = ds]
    | MWait => exists got', feed (Gath id got k : proc I (seq_eqType bin_nat_eqType) V) arr = Gath id got' k /\ ~~ all isSome got'
    | MPanic => feed (Gath id got k : proc I (seq_eqType bin_nat_eqType) V) arr = Panic
    end; last first.
    apply; rewrite ?size_nseq ?count_nseq //.
    apply: (@eq_from_nth _ None); rewrite ?size_nseq ?size_map ?size_iota // => i Hi.
    by rewrite nth_nseq Hi (nth_map 0) ?size_iota // nth_nseq if_same.
  have full (mssgs : seq (seq N)) (has : seq bool) : size mssgs = n -> size has = n ->
      let got := [seq if nth false has i then Some (nth [::] mssgs i) else None | i <- iota 0 n] in
      (count idfun has == n) = all isSome got /\ (all isSome got -> pmap (fun x => x) got = mssgs).
    move=> Sm Sh got; have Eall : all isSome got = all idfun has.
      rewrite /got all_map; apply/allP/allP => Ha.
        by move=> b /(nthP false) [j Hj <-]; rewrite Sh in Hj; have := Ha j; rewrite mem_iota /= Hj => /(_ isT); case: (nth _ _ _).
      move=> j; rewrite mem_iota /= => Hj; have : nth false has j by apply: Ha; rewrite mem_nth ?Sh.
      by move=> ->.
    split; first by rewrite Eall all_count Sh.
    move=> Ha; rewrite (@pmap_full _ got (nth [::] mssgs) 0) //.
      rewrite /got size_map size_iota; apply: (@eq_from_nth _ [::]); rewrite size_map size_iota ?Sm // => i Hi.
      by rewrite (nth_map 0) ?size_iota // nth_iota.
    move=> s x; rewrite /got size_map size_iota => Hs; rewrite (nth_map 0) ?size_iota // nth_iota // !add0n.
    by case: ifP => // _ [].
  move=> {}arr; elim: arr => [|m arr IH] mssgs has counter got Sm Sh Ec Eg /=; have [F1 F2] := full _ _ Sm Sh;
    rewrite -Eg in F1 F2; rewrite Ec F1.
  - by case: ifP => Ha; [exists [::], got; split=> //; exact: F2|exists got; rewrite Ha].
  - case: ifP => Ha; first by exists [::], got; split=> //; exact: F2.
    have Sg : size got = n by rewrite Eg size_map size_iota.
    rewrite /gath_step Sg Sh; case: (ltnP (m_from m) n) => Hf; last by elim: arr {IH}.
    have Ng : nth None got (m_from m) = if nth false has (m_from m) then Some (nth [::] mssgs (m_from m)) else None.
      by rewrite Eg (nth_map 0) ?size_iota // nth_iota.
    rewrite Ng; case Ehs: (nth false has (m_from m)).
      have := IH mssgs has counter got Sm Sh Ec Eg; rewrite -Ec.
      by case: (mfep_loop _ _ _ _ _) => // ds rest [pre [got' [-> E1 E2 E3]]]; exists (m :: pre), got'; split=> //=;
        rewrite Ha /gath_step Sg Hf Ng Ehs.
    have Sm' : size (set_nth [::] mssgs (m_from m) (m_data m)) = n by rewrite size_set_nth Sm; apply/maxn_idPr.
    have Sh' : size (set_nth false has (m_from m) true) = n by rewrite size_set_nth Sh; apply/maxn_idPr.
    have Ec' : (count idfun has).+1 = count idfun (set_nth false has (m_from m) true).
      have : m_from m < size has by rewrite Sh.
      elim: (has) (m_from m) Ehs => [|b h IHh] [|f] //=; first by case: b.
      by move=> E H; rewrite -(IHh f) // addnS.
    have Eg' : set_nth None got (m_from m) (Some (m_data m)) =
        [seq if nth false (set_nth false has (m_from m) true) i then Some (nth [::] (set_nth [::] mssgs (m_from m) (m_data m)) i) else None | i <- iota 0 n].
      apply: (@eq_from_nth _ None); rewrite size_set_nth Sg ?size_map ?size_iota; first by apply/maxn_idPr.
      rewrite (maxn_idPr Hf) => i Hi; rewrite (nth_map 0) ?size_iota // nth_iota // !nth_set_nth /= add0n.
      by case: eqP => // _; rewrite Eg (nth_map 0) ?size_iota // nth_iota.
    have := IH _ _ _ _ Sm' Sh' Ec' Eg'.
    by case: (mfep_loop _ _ _ _ _) => // ds rest [pre [got' [-> E1 E2 E3]]]; exists (m :: pre), got'; split=> //=;
      rewrite Ha /gath_step Sg Hf Ng Ehs.
Qed.
Print Assumptions C24_machine_gather_agrees.

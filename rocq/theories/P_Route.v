(** Property theorem C27: every message reaches exactly its recipients, on the
    local network and on the TCP network (src/protocol/network.rs:68-173,
    276-376), for every interleaving of the tasks.  The property is [delivers]
    of RouteSpec. *)

From Coq Require Import NArith.
From mathcomp Require Import all_ssreflect zify.
From Verif Require Import MachineModel FrameModel FrameProofs RouteModel RouteSpec RouteProofs.
Set Implicit Arguments.
Unset Strict Implicit.
Unset Printing Implicit Defensive.

(** The recipient exists. *)
Definition recipient_ok (n : nat) (m : smsg) : Prop := if m.1 is One p then p < n else True.

(** An id of at most 255 bytes; a length that fits a Rust buffer. *)
Definition sizes_ok (m : smsg) : Prop :=
  size m.2.1 <= 255 /\ (N.of_nat (size m.2.1 + size m.2.2 + 1) < 2 ^ 63)%num.

Lemma recipient_range n m : recipient_ok n m -> in_range n m.1.
Proof. by rewrite /recipient_ok; case: m.1. Qed.

Theorem C27_local_network_delivers : forall n,
  delivers (lnstep n) n linit l_out (recipient_ok n).
Proof.
by move=> n cs k s Hr Hok; apply: (local_delivers Hr) => i m Hin; apply: recipient_range (Hok i m Hin).
Qed.
Print Assumptions C27_local_network_delivers.

Theorem C27_tcp_network_delivers : forall n,
  delivers (tnstep n) n tinit t_out (fun m => recipient_ok n m /\ sizes_ok m).
Proof.
move=> n cs k s Hr Hok; apply: (tcp_delivers Hr) => i m Hin; have [H1 [H2 H3]] := Hok i m Hin.
split; first exact: recipient_range H1.
by split=> //; move: H2; rewrite !size_length => /leP.
Qed.
Print Assumptions C27_tcp_network_delivers.

(** Nobody else gets it: once the network rests, a party gets from another
    exactly as many messages as were addressed to it. *)
Theorem C27_exactly_once : forall n calls k s, runs (tnstep n) tinit calls k s ->
  (forall i m, List.In (i, m) calls -> recipient_ok n m /\ sizes_ok m) -> quiescent (tnstep n) s ->
  forall i j (pl : payload), i < n -> j < n ->
    count_mem (pl : seq_eqType bin_nat_eqType * seq_eqType bin_nat_eqType)%type (got_from (t_out s j) i) =
    count (fun c : nat * smsg => (c.1 == i) && addressed c.2.1 j && (c.2.2 == pl :> (seq_eqType bin_nat_eqType * seq_eqType bin_nat_eqType)%type)) calls.
Proof.
move=> n cs k s Hr Hok Hq i j pl Hi Hj.
have [_ _ _ H] := C27_tcp_network_delivers Hr Hok; rewrite (H Hq i j Hi Hj) /expected.
rewrite count_map count_filter; apply: eq_count => c /=.
by rewrite andbC.
Qed.
Print Assumptions C27_exactly_once.

(** ** Cases *)

Definition pl1 : payload := ([:: 1%num], [:: 7%num; 8%num]).

(** Party 0 of 2 sends to all; the message reaches both.  The states: *)
Definition none {T} : nat -> seq T := fun _ => [::].
Definition none2 {T} : nat -> nat -> seq T := fun _ _ => [::].
Definition fr1 : seq N := [:: 9; 1; 1; 7; 8]%num.
Definition inp1 : nat -> seq smsg := upd none 0 [:: (All, pl1)].
Definition inp2 : nat -> seq smsg := upd inp1 0 [::].
Definition cur2 : nat -> seq (nat * payload) := upd none 0 [:: (0, pl1); (1, pl1)].
Definition cur3 := upd cur2 0 [:: (1, pl1)].
Definition cur4 := upd cur3 0 [::].
Definition out3 : nat -> seq (nat * payload) := upd none 0 [:: (0, pl1)].
Definition link4 : nat -> nat -> seq payload := upd2 none2 0 1 [:: pl1].
Definition link5 := upd2 link4 0 1 [::].
Definition flight5 : nat -> nat -> seq N := upd2 none2 0 1 fr1.
Definition flight6 := upd2 flight5 0 1 [::].
Definition buf6 : nat -> nat -> seq N := upd2 none2 0 1 fr1.

Definition st1 := TNet inp1 none none2 none2 none2 none.
Definition st2 := TNet inp2 cur2 none2 none2 none2 none.
Definition st3 := TNet inp2 cur3 none2 none2 none2 out3.
Definition st4 := TNet inp2 cur4 link4 none2 none2 out3.
Definition st5 := TNet inp2 cur4 link5 flight5 none2 out3.
Definition st6 := TNet inp2 cur4 link5 flight6 buf6 out3.
Definition st7 := TNet inp2 cur4 link5 flight6 (upd2 buf6 0 1 [::]) (upd out3 1 [:: (0, pl1)]).

Example ex_tcp_run : runs (tnstep 2) tinit [:: (0, (All, pl1))] 6 st7.
Proof.
have H1 : tnstep 2 tinit (Call 0 (All, pl1)) st1 by exact: TnCall.
have H2 : tnstep 2 st1 Tau st2 by exact: (@TnPick 2 st1 0 (All, pl1) [::]).
have H3 : tnstep 2 st2 Tau st3 by exact: (@TnSelf 2 st2 0 pl1 [:: (1, pl1)]).
have H4 : tnstep 2 st3 Tau st4 by exact: (@TnPeer 2 st3 0 1 pl1 [::]).
have H5 : tnstep 2 st4 Tau st5 by exact: (@TnWrite 2 st4 0 1 pl1 [::] fr1).
have H6 : tnstep 2 st5 Tau st6 by exact: (@TnCarry 2 st5 0 1 5).
have H7 : tnstep 2 st6 Tau st7 by exact: (@TnRecv 2 st6 0 1 pl1 [:: [::]]).
exact: (RunCall H1 (RunTau H2 (RunTau H3 (RunTau H4 (RunTau H5 (RunTau H6 (RunTau H7 (RunNil _ _)))))))).
Qed.

Example ex_tcp_result : got_from (t_out st7 0) 0 = [:: pl1] /\ got_from (t_out st7 1) 0 = [:: pl1].
Proof. by []. Qed.

(** The same on the local network, up to the first delivery. *)
Definition ls1 := LNet inp1 [::] [::] none.
Definition ls2 := LNet inp2 [:: (0, (All, pl1))] [::] none.
Definition ls3 := LNet inp2 [::] [:: (0, (0, pl1)); (1, (0, pl1))] none.
Definition ls4 := LNet inp2 [::] [:: (1, (0, pl1))] (upd none 0 [:: (0, pl1)]).

Example ex_local_run : runs (lnstep 2) linit [:: (0, (All, pl1))] 3 ls4.
Proof.
have H1 : lnstep 2 linit (Call 0 (All, pl1)) ls1 by exact: LnCall.
have H2 : lnstep 2 ls1 Tau ls2 by exact: (@LnForward 2 ls1 0 (All, pl1) [::]).
have H3 : lnstep 2 ls2 Tau ls3 by exact: (@LnPick 2 ls2 0 (All, pl1) [::]).
have H4 : lnstep 2 ls3 Tau ls4 by exact: (@LnPush 2 ls3 0 (0, pl1) [:: (1, (0, pl1))]).
exact: (RunCall H1 (RunTau H2 (RunTau H3 (RunTau H4 (RunNil _ _))))).
Qed.

Example ex_ok : recipient_ok 2 (All, pl1) /\ sizes_ok (All, pl1).
Proof. by []. Qed.

(** Property theorem C58: measurements of traffic. *)

From Coq Require Import NArith List.
From mathcomp Require Import all_ssreflect zify.
From Verif Require Import CodecModel CodecProofs FrameModel FrameProofs RouterModel RouterSpec RouterProofs P_Router StatsModel.
Set Implicit Arguments.
Unset Strict Implicit.
Unset Printing Implicit Defensive.

(** ** C58 *)

(** The counters after the first [k] events of a history. *)
Definition counters (H : Type) n (es : seq (event H)) (k : nat) : seq (nat * nat) :=
  if rrun (rinit H n) (take k es) is Some (s, _, _) then rstats s else [::].

Lemma arrived_cat (H : Type) (a b : seq (event H)) : arrived (a ++ b) = arrived a ++ arrived b.
Proof. by rewrite /arrived pmap_cat. Qed.

Lemma senders_take (H : Type) n (es : seq (event H)) k : senders_ok n es -> senders_ok n (take k es).
Proof. by rewrite -{1}(cat_take_drop k es) /senders_ok arrived_cat all_cat => /andP []. Qed.

Lemma bytes_cat p a b : bytes_from p (a ++ b) = ((bytes_from p a).1 + (bytes_from p b).1, (bytes_from p a).2 + (bytes_from p b).2).
Proof. by rewrite /bytes_from !filter_cat !map_cat !sumn_cat. Qed.

Lemma countersE (H : Type) n (es : seq (event H)) k i : senders_ok n es -> i < n -> (N.of_nat n <= 2 ^ 16)%num ->
  read_party (fun _ => counters n es k) i = Some (bytes_from i (arrived (take k es))).
Proof.
  move=> Hs Hi Hn. rewrite /read_party /counters. have -> : (N.of_nat i <? 2 ^ 16)%num by apply/N.ltb_lt; lia.
  have [s [d [x [-> [Hp _]]]]] := C28_stats_exact (senders_take k Hs). exact: Hp.
Qed.

(** Whatever happens between the reads: if the counter of party [i] is read
    after [a i] events by [now] and after [b i] events by [elapsed], neither
    panics and the difference is exactly the traffic of the messages of party
    [i] that arrived in between. *)
Theorem C58_elapsed_exact : forall (H : Type) n (es : seq (event H)) (a b : nat -> nat),
  senders_ok n es -> (N.of_nat n <= 2 ^ 16)%num -> (forall i, i < n -> a i <= b i) ->
  exists comm, stats_now (fun i => counters n es (a i)) n = Some comm /\
    stats_elapsed (fun i => counters n es (b i)) comm =
      Some [seq bytes_from i (arrived (drop (a i) (take (b i) es))) | i <- iota 0 n].
Proof.
  move=> H n es a b Hs Hn Hab. pose f k i := bytes_from i (arrived (take k es)).
  have R k i : i < n -> read_party (fun i => counters n es (k i)) i = Some (f (k i) i).
  { move=> Hi. rewrite -(countersE (k i) Hs Hi Hn). by []. }
  have N1 num i : i + num <= n -> now_from (fun i => counters n es (a i)) i num = Some [seq f (a j) j | j <- iota i num].
  { elim: num i => //= num IH i Hi. rewrite R; last by lia. by rewrite IH; last lia. }
  exists [seq f (a j) j | j <- iota 0 n]. split; first exact: N1.
  rewrite /stats_elapsed.
  have E num i : i + num <= n -> elapsed_from (fun i => counters n es (b i)) i [seq f (a j) j | j <- iota i num] =
    Some [seq bytes_from j (arrived (drop (a j) (take (b j) es))) | j <- iota i num].
  { elim: num i => //= num IH i Hi. rewrite R; last by lia.
    have -> : f (b i) i = ((f (a i) i).1 + (bytes_from i (arrived (drop (a i) (take (b i) es)))).1,
                            (f (a i) i).2 + (bytes_from i (arrived (drop (a i) (take (b i) es)))).2).
    { have Hi' : i < n by lia. rewrite /f -bytes_cat -arrived_cat -(take_take (Hab i Hi') es). by rewrite cat_take_drop. }
    have Hi' : i.+1 + num <= n by lia. by rewrite !leq_addr /= !addKn (IH _ Hi'). }
  exact: E.
Qed.
Print Assumptions C58_elapsed_exact.

Lemma vint_length v : (length (vint_encode v) = N.to_nat (encoded_len v))%N.
Proof.
  rewrite /vint_encode. case: (N.eqb_spec (encoded_len v) 9) => [->|_] /=; by rewrite ?le_bytes_length.
Qed.

(** A message takes between 2 and 10 bytes more on the wire than [net_bytes]
    counts: the length of the id and the length of the frame. *)
Theorem C58_wire_bytes : forall id data b, frame (id, data) = Some b ->
  length b = (size data + size id) + 1 + N.to_nat (encoded_len (N.of_nat (size id + size data + 1))) /\
  (size data + size id) + 2 <= length b <= (size data + size id) + 10.
Proof.
  move=> id data b. rewrite /frame. case: ifP => // _ [<-].
  have E : length (vint_encode (N.of_nat (length id + length data + 1)) ++ N.of_nat (length id) :: id ++ data) =
    (size data + size id) + 1 + N.to_nat (encoded_len (N.of_nat (size id + size data + 1))).
  { rewrite app_length vint_length /= app_length. rewrite -[length id]/(size id) -[length data]/(size data). lia. }
  split; first exact: E. rewrite E.
  case: (encoded_len_spec (N.of_nat (size id + size data + 1))) => [[[H1 H2] _]|[-> _]]; lia.
Qed.
Print Assumptions C58_wire_bytes.

Theorem C58_net_bytes_are_wire_bytes_refuted : ~ forall id data b, frame (id, data) = Some b -> length b = size data + size id.
Proof. by move=> H; have := H [:: 1%num] [:: 7%num] _ erefl. Qed.
Print Assumptions C58_net_bytes_are_wire_bytes_refuted.

(** A history in which a message of party 1 arrives between the reads of the
    counters of parties 0 and 1 by [now]. *)
Example C58_example :
  let es := [:: Arrive (Msg [:: 5%num] 0 [:: 1; 2]%num); Arrive (Msg [:: 5%num] 1 [:: 3%num]); Request [:: 5%num] tt;
                Arrive (Msg [:: 6%num] 1 [::]); Arrive (Msg [:: 6%num] 0 [:: 9%num])] in
  let a i := i.+1 in let b i := 4 + i in
  senders_ok 2 es /\ (forall i, i < 2 -> a i <= b i) /\
  [seq bytes_from i (arrived (drop (a i) (take (b i) es))) | i <- iota 0 2] = [:: (0, 0); (0, 1)].
Proof. split; [by []|split; [move=> i Hi; lia|by []]]. Qed.

(** Property theorems C22, C23, C24, C28, C50: the receiving side of the
    network (src/protocol/network.rs). *)

From Coq Require Import NArith.
From mathcomp Require Import all_ssreflect zify.
From Verif Require Import RouterModel RouterSpec RouterProofs.
Set Implicit Arguments.
Unset Strict Implicit.
Unset Printing Implicit Defensive.

Definition id_a : seq N := [:: 1%num; 2%num].
Definition id_b : seq N := [:: 1%num; 3%num].
Definition msg_a (p d : nat) := Msg id_a p [:: N.of_nat d].
Definition msg_b (p d : nat) := Msg id_b p [:: N.of_nat d].

(** ** C22 *)

(** After every history: no panic, no dropped call, and for every id the
    hand-overs of that id's messages are exactly the k-th call of recv on it
    paired with the k-th message that arrived for it. *)
Theorem C22_fifo_per_id : forall (H : Type) n (es : seq (event H)),
  senders_ok n es -> one_at_a_time es ->
  exists s d, rrun (rinit H n) es = Some (s, d, [::]) /\
    forall id, [seq hm <- d | m_id hm.2 == id] = zip (requests id es) (arrivals id es).
Proof.
  by move=> H n es Hs Ho; have [s [d [E _ _ Hd]]] := rrun_fifo Hs Ho; exists s, d.
Qed.
Print Assumptions C22_fifo_per_id.

(** Messages nobody has asked for yet are kept, in order. *)
Theorem C22_nothing_lost : forall (H : Type) n (es : seq (event H)),
  senders_ok n es -> one_at_a_time es ->
  exists s d, rrun (rinit H n) es = Some (s, d, [::]) /\
    forall id, arrivals id es =
      [seq hm.2 | hm <- d & m_id hm.2 == id] ++ odflt [::] (get id (mssg_pool s)).
Proof.
  move=> H n es Hs Ho; have [s [d [E Hb _ Hd]]] := rrun_fifo Hs Ho; exists s, d; split=> // id.
  rewrite Hd Hb.
  set q := requests id es; set a := arrivals id es.
  have -> : [seq hm.2 | hm <- zip q a] = take (size q) a.
    by elim: q a => [|x q IH] [|y a] //=; rewrite IH.
  by rewrite -{1}(cat_take_drop (size q) a); congr (_ ++ _); case: (drop _ _).
Qed.
Print Assumptions C22_nothing_lost.

(** Delivered messages never go to a call on another id: the calls served
    with messages of [id] are calls on [id]; the call count and the message
    count decide who is waiting. *)
Theorem C22_answered_at_once : forall (H : Type) n (es : seq (event H)) id,
  senders_ok n es -> one_at_a_time es ->
  exists s d, rrun (rinit H n) es = Some (s, d, [::]) /\
    size [seq hm <- d | m_id hm.2 == id] = minn (size (requests id es)) (size (arrivals id es)) /\
    isSome (get id (handle_pool s)) = (size (arrivals id es) < size (requests id es)) /\
    isSome (get id (mssg_pool s)) = (size (requests id es) < size (arrivals id es)).
Proof.
  move=> H n es id Hs Ho; have [s [d [E Hb Hh Hd]]] := rrun_fifo Hs Ho; exists s, d; split=> //.
  rewrite Hd size_zip Hh Hb; split=> //; split.
  - case Ed: (drop _ _) (size_drop (size (arrivals id es)) (requests id es)) => [|x l] /= Es; lia.
  - case Ed: (drop _ _) (size_drop (size (requests id es)) (arrivals id es)) => [|x l] /= Es; lia.
Qed.
Print Assumptions C22_answered_at_once.

(** Arrivals before and after calls, two ids, several senders. *)
Definition ex_hist : seq (event nat) :=
  [:: Arrive (msg_a 0 7); Request id_b 10; Arrive (msg_a 1 8); Request id_a 11; Arrive (msg_b 2 9);
      Request id_a 12; Request id_a 13; Arrive (msg_a 2 5); Request id_b 14].
Example C22_example_senders : senders_ok 3 ex_hist.
Proof. by []. Qed.
Example C22_example_one : one_at_a_time ex_hist.
Proof.
  move=> k id.
  case: (eqVneq id id_a) => [->|Ha]; last case: (eqVneq id id_b) => [->|Hb].
  - by do 10 (case: k => [|k] //).
  - by do 10 (case: k => [|k] //).
  - have -> : requests id (take k ex_hist) = [::]; last by [].
    rewrite /requests; do 10 (case: k => [|k] /=; rewrite ?(eq_sym _ id) ?(negbTE Ha) ?(negbTE Hb) //).
Qed.
Example C22_example_run : omap (fun r => (r.1.2, r.2)) (rrun (rinit nat 3) ex_hist) =
  Some ([:: (11, msg_a 0 7); (10, msg_b 2 9); (12, msg_a 1 8); (13, msg_a 2 5)], [::]).
Proof. by vm_compute. Qed.

(** ** C23 *)

(** Two overlapping calls on one id: the first is dropped (its recv panics)
    although two messages arrive; the second message stays in the pool. *)
Theorem C23_concurrent_recv_refuted : exists es : seq (event nat),
  senders_ok 3 es /\ size (requests id_a es) = 2 /\ size (arrivals id_a es) = 2 /\
  exists s d, rrun (rinit nat 3) es = Some (s, d, [:: 1]) /\
    ~~ has (fun hm => hm.1 == 1) d /\ isSome (get id_a (mssg_pool s)).
Proof.
  exists [:: Request id_a 1; Request id_a 2; Arrive (msg_a 0 7); Arrive (msg_a 1 8)].
  by do 3 (split=> //); do 2 eexists; split; [reflexivity|].
Qed.
Print Assumptions C23_concurrent_recv_refuted.

(** In general: whenever a call on [id] is waiting, the next call on [id]
    drops it, in every state of the router. *)
Theorem C23_later_call_evicts : forall (H : Type) n (es : seq (event H)) s d x id h1 h2,
  senders_ok n es -> rrun (rinit H n) es = Some (s, d, x) -> get id (handle_pool s) = Some h1 ->
  exists s', rrun (rinit H n) (rcons es (Request id h2)) = Some (s', d, rcons x h1) /\
    get id (handle_pool s') = Some h2.
Proof.
  move=> H n es s d x id h1 h2 Hs E Eh; have [s0 [d0 [x0 [E0 Hp _ _]]]] := rrun_stats Hs.
  move: E0; rewrite E => -[? _ _]; subst s0; have [_ Hq] := Hp id; rewrite rrun_rcons E /= Hq ?Eh //.
  by eexists; split; [rewrite cats0 cats1; reflexivity|rewrite /= get_insert eqxx].
Qed.
Print Assumptions C23_later_call_evicts.

(** The hypotheses of the last theorem in a concrete case. *)
Example C23_example : let es := [:: Request id_a 1; Arrive (msg_a 0 7); Request id_a 2] in
  senders_ok 3 es /\ exists s d x, rrun (rinit nat 3) es = Some (s, d, x) /\ get id_a (handle_pool s) = Some 2.
Proof. by split=> //; do 3 eexists; split; [reflexivity|]. Qed.

(** ** C24 *)

Theorem C24_first_of_each : forall n (arr : seq msg),
  match message_from_each_party n arr with
  | MDone ds rest => exists pre, [/\ arr = pre ++ rest, heard_all n pre,
      forall k, k < size pre -> ~~ heard_all n (take k pre) & ds = [seq first_from i pre | i <- iota 0 n]]
  | MWait => ~~ heard_all n arr /\ all (fun m => m_from m < n) arr
  | MPanic => exists pre m rest, [/\ arr = pre ++ m :: rest, n <= m_from m & ~~ heard_all n pre]
  end.
Proof.
  move=> n arr; apply: (@mfep_loop_spec n arr _ _ 0 [::]); rewrite ?size_nseq //.
  - by rewrite count_nseq.
  - by move=> i Hi; rewrite nth_nseq if_same.
  - by move=> i Hi; rewrite nth_nseq if_same.
Qed.
Print Assumptions C24_first_of_each.

(** With senders in range it returns as soon as everybody has been heard, and
    waits before. *)
Theorem C24_returns_when_all_heard : forall n (arr : seq msg), all (fun m => m_from m < n) arr ->
  if heard_all n arr then exists rest ds, message_from_each_party n arr = MDone ds rest
  else message_from_each_party n arr = MWait.
Proof.
  move=> n arr Ha; have := C24_first_of_each n arr; case: (message_from_each_party n arr) => [ds rest|[H1 H2]|].
  - case=> pre [E Hall _ _]; rewrite (_ : heard_all n arr); first by exists rest, ds.
    rewrite /heard_all; apply/allP => i Hi; have /allP := Hall => /(_ i Hi).
    by rewrite E map_cat mem_cat => ->.
  - by rewrite (negbTE H1).
  - case=> pre [m [rest [E Hm _]]]; move: Ha; rewrite E all_cat /= => /and3P[_ Hlt _]; lia.
Qed.
Print Assumptions C24_returns_when_all_heard.

Example C24_example : message_from_each_party 3
    [:: msg_a 2 9; msg_a 0 7; msg_a 2 4; msg_a 0 3; msg_a 1 8; msg_a 1 6] =
  MDone [:: [:: 7%num]; [:: 8%num]; [:: 9%num]] [:: msg_a 1 6].
Proof. by []. Qed.
Example C24_example_wait : message_from_each_party 3 [:: msg_a 2 9; msg_a 0 7; msg_a 2 4] = MWait.
Proof. by []. Qed.

(** ** C28 *)

Theorem C28_stats_exact : forall (H : Type) n (es : seq (event H)), senders_ok n es ->
  exists s d x, rrun (rinit H n) es = Some (s, d, x) /\
    (forall p, p < n -> stats_party (rstats s) p = Some (bytes_from p (arrived es))) /\
    stats_total (rstats s) =
      (sumn [seq size (m_data m) | m <- arrived es],
       sumn [seq size (m_data m) + size (m_id m) | m <- arrived es]).
Proof.
  move=> H n es Hs; have [s [d [x [E _ Sz Hp]]]] := rrun_stats Hs; exists s, d, x; split=> //; split.
  - by move=> p Hlt; rewrite /stats_party (drop_nth (0, 0)) ?Sz //= Hp.
  - have -> : rstats s = [seq bytes_from p (arrived es) | p <- iota 0 n].
      apply: (@eq_from_nth _ (0, 0)); rewrite Sz ?size_map ?size_iota // => p Hlt.
      by rewrite Hp // (nth_map 0) ?size_iota // nth_iota.
    have fE : forall l a, foldl (fun a (v : nat * nat) => (a.1 + v.1, a.2 + v.2)) a l =
        (a.1 + sumn [seq v.1 | v <- l], a.2 + sumn [seq v.2 | v <- l]).
      by elim=> [|v l IH] [a1 a2] /=; rewrite ?addn0 // IH /= !addnA.
    rewrite /stats_total fE !add0n -!map_comp.
    have total (f : msg -> nat) (ms : seq msg) : all (fun m => m_from m < n) ms ->
        sumn [seq sumn [seq f m | m <- ms & m_from m == p] | p <- iota 0 n] = sumn [seq f m | m <- ms].
      elim: ms => [|m ms IH] /=; first by move=> _; elim: (iota 0 n).
      move=> /andP[Hm /IH <-]; have : m_from m \in iota 0 n by rewrite mem_iota.
      elim: (iota 0 n) (iota_uniq 0 n) => [|p l IHl] //= /andP[Np U]; rewrite in_cons.
      case: (eqVneq (m_from m) p) => [Ep _|Hne /= Hin] /=; last by rewrite IHl // addnCA.
      rewrite addnA; congr (_ + _ + _); congr sumn; apply/eq_in_map => q Hq.
      by case: eqP => // Eq; move: Np; rewrite -Ep Eq Hq.
    by rewrite -(total (fun m => size (m_data m)) _ Hs) -(total (fun m => size (m_data m) + size (m_id m)) _ Hs).
Qed.
Print Assumptions C28_stats_exact.

(** They never decrease as more events happen. *)
Theorem C28_stats_monotone : forall (H : Type) n (es es' : seq (event H)) p s d x s' d' x',
  senders_ok n (es ++ es') -> p < n ->
  rrun (rinit H n) es = Some (s, d, x) -> rrun (rinit H n) (es ++ es') = Some (s', d', x') ->
  exists a b, stats_party (rstats s) p = Some a /\ stats_party (rstats s') p = Some b /\
    a.1 <= b.1 /\ a.2 <= b.2.
Proof.
  move=> H n es es' p s d x s' d' x' Hs Hp E E'.
  have arrE : arrived (es ++ es') = arrived es ++ arrived es' by rewrite /arrived pmap_cat.
  have Hs1 : senders_ok n es by move: Hs; rewrite /senders_ok arrE all_cat => /andP[].
  have [s1 [d1 [x1 [E1 [H1 _]]]]] := C28_stats_exact Hs1.
  have [s2 [d2 [x2 [E2 [H2 _]]]]] := C28_stats_exact Hs.
  rewrite E in E1; rewrite E' in E2; case: E1 => ? _ _; case: E2 => ? _ _; subst s1 s2.
  exists (bytes_from p (arrived es)), (bytes_from p (arrived (es ++ es'))); do 2 (split; [by auto|]).
  by rewrite arrE /bytes_from !filter_cat !map_cat !sumn_cat /=; split; exact: leq_addr.
Qed.
Print Assumptions C28_stats_monotone.

Example C28_example : omap (fun r => (stats_party (rstats r.1.1) 2, stats_total (rstats r.1.1)))
    (rrun (rinit nat 3) ex_hist) = Some (Some (2, 6), (4, 12)).
Proof. by vm_compute. Qed.

(** ** C50 *)

(** A stream is named (connecting party, accepting party).  Party [me] accepts
    one connection from each later party, in any order, and connects to each
    earlier party. *)
Theorem C50_one_stream_per_pair : forall n me (acc : seq (nat * (nat * nat))), me < n ->
  perm_eq acc [seq (j, (j, me)) | j <- iota me.+1 (n - me - 1)] ->
  exists streams, connect_to_peers n me acc (fun j => (me, j)) = Some streams /\ size streams = n /\
    forall j, j < n -> nth None streams j = if j == me then None else Some (maxn me j, minn me j).
Proof.
  move=> n me acc Hme P.
  have Sa : size acc = n - me - 1 by rewrite (perm_size P) size_map size_iota.
  have Ua : uniq [seq e.1 | e <- acc].
    by rewrite (perm_uniq (perm_map _ P)) -map_comp /= map_id_in // iota_uniq.
  have Ha : all (fun e => e.1 < size (nseq n (None : option (nat * nat)))) acc.
    rewrite (perm_all _ P) size_nseq all_map; apply/allP => j; rewrite mem_iota /= => /andP[H1 H2]; lia.
  have [s' [E S' N]] := accept_loop_spec Ha Ua.
  rewrite /connect_to_peers take_oversize ?Sa // E; eexists; split; first by [].
  rewrite size_nseq in S'; have [|S2 N2] := @set_range _ (fun j => (me, j)) me s'; first by rewrite S' ltnW.
  split; first by rewrite S2.
  move=> j Hj; rewrite N2 N nth_nseq Hj.
  have getE : get j acc = if me < j then Some (j, me) else None.
    rewrite /get; case: ltnP => Hlt.
    - have : perm_eq [seq e <- acc | e.1 == j] [:: (j, (j, me))].
        apply: perm_trans (perm_filter _ P) _; rewrite filter_map /=.
        rewrite (eq_filter (a2 := pred1 j)) // filter_pred1_uniq ?iota_uniq //.
        by rewrite mem_iota; apply/andP; split; lia.
      move=> /perm_small_eq -> //.
    - rewrite (_ : [seq e <- acc | e.1 == j] = [::]) //.
      apply/eqP; rewrite -size_eq0 size_filter (permP P) count_map -size_filter (_ : filter _ _ = [::]) //.
      rewrite -(filter_pred0 (iota me.+1 (n - me - 1))); apply: eq_in_filter => k; rewrite mem_iota /= => /andP[H1 _].
      apply/eqP; lia.
  rewrite getE; case: (ltngtP j me) => Hc //.
Qed.
Print Assumptions C50_one_stream_per_pair.

(** Both ends hold the same stream. *)
Theorem C50_ends_agree : forall n i j acc_i acc_j si sj, i < n -> j < n -> i != j ->
  perm_eq acc_i [seq (k, (k, i)) | k <- iota i.+1 (n - i - 1)] ->
  perm_eq acc_j [seq (k, (k, j)) | k <- iota j.+1 (n - j - 1)] ->
  connect_to_peers n i acc_i (fun k => (i, k)) = Some si ->
  connect_to_peers n j acc_j (fun k => (j, k)) = Some sj ->
  nth None si j = nth None sj i /\ isSome (nth None si j) /\ nth None si i = None.
Proof.
  move=> n i j acc_i acc_j si sj Hi Hj Hne Pi Pj Ei Ej.
  have [s1 [E1 [_ N1]]] := C50_one_stream_per_pair Hi Pi.
  have [s2 [E2 [_ N2]]] := C50_one_stream_per_pair Hj Pj.
  rewrite Ei in E1; rewrite Ej in E2; case: E1 => ->; case: E2 => ->.
  rewrite !N1 // N2 // eqxx (negbTE Hne) eq_sym (negbTE Hne); split=> //.
  by rewrite maxnC minnC.
Qed.
Print Assumptions C50_ends_agree.

(** Party 1 of 4; party 3 is accepted before party 2. *)
Example C50_example : connect_to_peers 4 1 [:: (3, (3, 1)); (2, (2, 1))] (fun j => (1, j)) =
  Some [:: Some (1, 0); None; Some (2, 1); Some (3, 1)].
Proof. by []. Qed.
Example C50_example_perm : perm_eq [:: (3, (3, 1)); (2, (2, 1))] [seq (j, (j, 1)) | j <- iota 2 2].
Proof. by []. Qed.

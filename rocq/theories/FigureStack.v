(** For property C82 on the whole network stack: the stack follows the machine
    message by message, so the counters of the routers account for what the
    machine hears. *)

From Coq Require Import NArith.
From mathcomp Require Import all_ssreflect zify.
From Verif Require Import MachineModel MachineProofs RouterModel RouterSpec RouterProofs RouteModel RouteSpec RouteProofs.
From Verif Require Import StackModel StackSpec StackProofs StackRun FigureProofs.
Set Implicit Arguments.
Unset Strict Implicit.
Unset Printing Implicit Defensive.

(** Any number of steps. *)
Inductive steps (S : Type) (step : S -> S -> Prop) (s : S) : S -> Prop :=
| Stop : steps step s s
| Step s1 s2 : steps step s s1 -> step s1 s2 -> steps step s s2.

Section Global.
Variables (n : nat) (D : eqType) (enc : D -> seq N) (V : Type).
Notation I := [eqType of seq N].
Notation proc := (proc I D V).
Notation cfg := (cfg I D V).
Hypothesis enc_inj : injective enc.
Variables (X : Type) (nstep : X -> label -> X -> Prop) (out : X -> nat -> seq (nat * payload)) (x0 : X) (ok : smsg -> Prop).
Hypothesis NX : delivers nstep n x0 out ok.
Hypothesis out0 : forall j, out x0 j = [::].
Hypothesis out_call : forall x i m x', nstep x (Call i m) x' -> forall j, out x' j = out x j.
Hypothesis out_tau : forall x x', nstep x Tau x' -> (forall j, out x' j = out x j) \/
  exists j y, j < n /\ forall j', out x' j' = if j' == j then rcons (out x j) y else out x j'.
Variables (P : nat -> proc) (res : nat -> V) (left : nat -> seq (I * (nat * D))).
Hypothesis P_sends : forall k c i to id d p, gsteps n k (start P) c -> i < n -> lstep (procs c i) (ASend to id d) p ->
  in_range n to /\ ok (to, (id, enc d)).
Hypothesis P_clear : forall k c i, gsteps n k (start P) c -> i < n -> uniq (listens (procs c i)).
Hypothesis P_ends : every_run_ends n (start P) (left_done n res left).
Notation stack := (stack D V X).
Notation sstep := (@sstep n D enc V X nstep out).
Notation pl_eq := ([eqType of seq N * seq N]).
Notation sim := (sim n enc nstep out x0 ok P).

(** A message of the machine on the wire. *)
Definition wire (m : I * (nat * D)) : nat * payload := (m.2.1, (m.1, enc m.2.2)).

(** The lemmas [sim_deliver], [sim_send] and [sim_step] of StackRun with the step of
    the machine. *)
Lemma hears_deliver k calls s c x j y i : sim k calls s c -> nstep (s_net s) Tau x -> i < n -> j < n ->
  (forall j', out x j' = if j' == j then rcons (out (s_net s) j) y else out (s_net s) j') ->
  exists c' l, [/\ sim k.+1 calls (Stack x (s_party s) (s_calls s)) c', hears n i c l c' &
    out x i = out (s_net s) i ++ map wire l].
Proof.
move=> H Hx Hi0 Hj Ho; have [kk Hr] := sim_runs H; have Hr' := runs_tau Hr Hx.
have [D1 D2 _ _] := NX Hr' (sim_ok H).
have Hy : y.1 < n by have [] := D2 j y => //; rewrite Ho eqxx; apply/List.in_rev; rewrite -cats1 List.rev_app_distr; left.
have [rest Er] := D1 y.1 j Hy Hj; rewrite Ho eqxx got_rcons eqxx -catA in Er.
have Hp := sim_pend H Hy Hj.
have Hin : y.2 \in pend enc c y.1 j.
  have : perm_eq (pend enc c y.1 j ++ got_from (out (s_net s) j) y.1) (([:: y.2] ++ rest) ++ (got_from (out (s_net s) j) y.1 : seq pl_eq)).
    by apply: perm_trans Hp _; rewrite Er perm_catC.
  by rewrite perm_cat2r => /perm_mem ->; rewrite mem_head.
case/mapP: Hin => -[to [id [i' d]]]; rewrite mem_filter /= => /andP[/andP[/eqP Et /eqP Ei] Hm] Ey; subst to i'.
have [a [b En]] : exists a b, net c = a ++ (j, (id, (y.1, d))) :: b.
  by case/splitPr: Hm => a b; exists a, b.
have G := GDeliver Hj En; eexists _, (if j == i then [:: (id, (y.1, d))] else [::]); split.
- split.
  + exact: gsteps_snoc (sim_reach H) G.
  + exact: sim_calls H.
  + by exists kk.+1.
  + exact: sim_ok H.
  + exact: sim_proc H.
  + by have := sim_range H; rewrite En /= !all_cat /= => /and3P[-> _ ->].
  + move=> i' r Hi Hr0 /=; rewrite Ho; have := sim_pend H Hi Hr0.
    rewrite /pend /= En !filter_cat !map_cat /= [r == j]eq_sym; case: (eqVneq j r) => [<-|_] //=.
    rewrite got_rcons; case: (eqVneq y.1 i') => [_|_] /=; last by rewrite cats0.
    move=> /permP Hq; apply/permP => q; move: (Hq q); rewrite !count_cat /= -Ey !addn0; move: (q y.2) => qq <-.
    by clear; lia.
  + move=> i' Hi /=; rewrite Ho /upd; case: eqP => [->|_]; last exact: (sim_party H).
    have -> : y = (y.1, (id, enc d)) by rewrite -Ey; case: (y).
    by apply: pinv_deliver; exact: (sim_party H).
- case: eqP => [E|E].
  + by rewrite -E; exact: (HArrive (HStart n j c) Hj En).
  + by apply: HOther (HStart n i c) G _; rewrite /= /upd; case: eqP => // E'; case: E.
- rewrite Ho eq_sym; case: eqP => [<-|_] /=; last by rewrite cats0.
  by rewrite cats1 /wire /= -Ey; case: (y).
Qed.

Lemma hears_send k calls s c i0 i to id d t x : sim k calls s c -> i < n -> tstep (p_task (s_party s i)) (TSend to id d) t ->
  nstep (s_net s) (Call i (to, (id, enc d))) x ->
  exists c', sim k.+1 (rcons calls (i, (to, (id, enc d)))) (Stack x (upd (s_party s) i (with_task (s_party s i) t)) (rcons (s_calls s) (i, (to, (id, enc d))))) c' /\
    hears n i0 c [::] c'.
Proof.
move=> H Hi Ht Hx; have [Ew L] := send_sim Ht; rewrite (sim_proc H Hi) in L.
have [Hto Hok] := P_sends (sim_reach H) Hi L.
have G := GSend Hi L; have Ho := out_call Hx; have [kk Hr] := sim_runs H; eexists; split; last exact: HOther (HStart n i0 c) G _.
split.
- exact: gsteps_snoc (sim_reach H) G.
- by rewrite /= (sim_calls H).
- by exists kk; exact: runs_call Hr Hx.
- move=> i' m' Hin; case: (In_rcons Hin) => [Q|[_ ->]] //; exact: (sim_ok H Q).
- by move=> j Hj /=; rewrite /upd; case: eqP => // _; exact: (sim_proc H).
- rewrite /= all_cat (sim_range H); case: (to) Hto => [q|] /=; first by move=> ->; rewrite Hi.
  by move=> _; rewrite all_map; apply/allP => q; rewrite mem_iota /= Hi andbT.
- move=> i' r Hi' Hr0; rewrite expected_rcons /= Ho.
  have := sim_pend H Hi' Hr0; rewrite /pend /= filter_cat map_cat (pend_out _ _ _ _ _ Hto Hr0).
  move=> /permP Hq; apply/permP => q; move: (Hq q); rewrite !count_cat => <-.
  by rewrite -addnA [X in _ + X]addnC addnA.
- move=> j Hj /=; rewrite Ho /upd; case: eqP => [->|_]; last exact: (sim_party H).
  by apply: pinv_task => //; [exact: (sim_party H)|exact: tstep_wf Ht (pi_wf (sim_party H Hi))].
Qed.

Lemma hears_step k calls s c s' i0 : i0 < n -> sim k calls s c -> sstep s s' ->
  exists k' calls' c' l, [/\ sim k' calls' s' c', hears n i0 c l c' & out (s_net s') i0 = out (s_net s) i0 ++ map wire l].
Proof.
move=> Hi0 H; case=> {s'}.
- move=> i t Hi Ht; have HP := sim_party H Hi.
  have [|Ew [[Ee Hm]|L]] := tau_sim Ht.
  + by rewrite (sim_proc H Hi); exact: (no_panic P_ends (sim_reach H)).
  + exists k, calls, c, [::]; split; rewrite ?cats0 //; last exact: HStart.
    by apply: sim_inner => //; apply: pinv_task => //; exact: tstep_wf Ht (pi_wf HP).
  + rewrite (sim_proc H Hi) in L; have G := GTau Hi L.
    eexists _, calls, _, [::]; split; last by rewrite cats0.
    * apply: (sim_local H Hi G) => //=.
      by apply: pinv_task => //; exact: tstep_wf Ht (pi_wf HP).
    * exact: HOther (HStart n i0 c) G _.
- move=> i to id d t x Hi Ht Hx; have [c' [H' S']] := hears_send i0 H Hi Ht Hx.
  by eexists _, _, c', [::]; split; [exact: H'|exact: S'|rewrite /= cats0; exact: out_call Hx _].
- move=> i id t Hi p Ht; have HP := sim_party H Hi; have [_ Ee Hm] := req_sim Ht.
  exists k, calls, c, [::]; split; rewrite ?cats0 //; last exact: HStart.
  by apply: sim_inner => //; exact: pinv_req.
- move=> i h id f d t a b Hi p Es Ht; have HP := sim_party H Hi.
  have [u [v [Emb Hn L HP']]] := pinv_got enc_inj HP (sim_clear P_clear H Hi) Es Ht.
  rewrite (sim_proc H Hi) in L; have G := GRecv Hi Emb Hn L.
  eexists _, calls, _, [::]; split; last by rewrite cats0.
  + apply: (sim_local H Hi G) => //=; first by move=> j Hj; rewrite /upd (negbTE Hj).
    by rewrite /upd eqxx.
  + apply: HOther (HStart n i0 c) G _; rewrite /= /upd; case: eqP => // ->; rewrite Emb !size_cat /=; lia.
- by move=> i h t Hi p; rewrite /p (pi_lost (sim_party H Hi)).
- move=> i x rest r hand gone Hi p Ed Er; have HP := sim_party H Hi.
  have [kk Hr] := sim_runs H; have [_ D2 _ _] := NX Hr (sim_ok H).
  have Hx : x.1 < n.
    have [] := D2 i x => //; rewrite -(cat_take_drop (p_read p) (out (s_net s) i)) Ed.
    by apply: List.in_or_app; right; left.
  have [r' [hand' [Er' HP']]] := pinv_arrive HP (sim_clear P_clear H Hi) Ed Hx.
  move: Er; rewrite Er' => -[<- <- <-]; rewrite /p (pi_lost HP) cats0; rewrite /p (pi_lost HP) in HP'.
  exists k, calls, c, [::]; split; rewrite ?cats0 //; last exact: HStart.
  by apply: sim_inner => //.
- move=> i id h rest r hand gone Hi p Ec Er; have HP := sim_party H Hi.
  have [r' [hand' [Er' HP']]] := pinv_request HP (sim_clear P_clear H Hi) Ec.
  move: Er; rewrite Er' => -[<- <- <-]; rewrite /p (pi_lost HP) cats0; rewrite /p (pi_lost HP) in HP'.
  exists k, calls, c, [::]; split; rewrite ?cats0 //; last exact: HStart.
  by apply: sim_inner => //.
- move=> x Hx; case: (out_tau Hx) => [Ho|[j [y [Hj Ho]]]].
  + exists k, calls, c, [::]; split; [exact: sim_quiet|exact: HStart|by rewrite cats0 /= Ho].
  + by have [c' [l [H1 H2 H3]]] := hears_deliver H Hx Hi0 Hj Ho; exists k.+1, calls, c', l.
Qed.

Lemma hears_stack k calls s c s' i : i < n -> sim k calls s c -> steps sstep s s' ->
  exists k' calls' c' l, [/\ sim k' calls' s' c', hears n i c l c' & out (s_net s') i = out (s_net s) i ++ map wire l].
Proof.
move=> Hi H; elim=> [|s1 s2 _ [k1 [calls1 [c1 [l1 [H1 L1 O1]]]]] S2].
- by exists k, calls, c, [::]; split=> //; [exact: HStart|rewrite cats0].
- have [k2 [calls2 [c2 [l2 [H2 L2 O2]]]]] := hears_step Hi H1 S2.
  exists k2, calls2, c2, (l1 ++ l2); split=> //; first exact: hears_cat L1 L2.
  by rewrite O2 O1 map_cat catA.
Qed.

Definition keys_ok (s : stack) : Prop := forall i, uniq [seq x.1 | x <- mssg_pool (p_router (s_party s i))].

Lemma remove_uniq (K : eqType) T (k : K) (m : seq (K * T)) : uniq [seq x.1 | x <- m] -> uniq [seq x.1 | x <- remove k m].
Proof.
elim: m => //= e m IH /andP[He /IH U]; case: ifP => //= _; rewrite U andbT; apply: contra He => H.
by elim: m H {IH U} => //= e' m IH; case: ifP => /= _; rewrite !in_cons; [case/orP=> [->|/IH ->]|move=> /IH ->]; rewrite ?orbT.
Qed.

Lemma insert_uniq (K : eqType) T (k : K) (v : T) (m : seq (K * T)) : uniq [seq x.1 | x <- m] -> uniq [seq x.1 | x <- insert k v m].
Proof.
move=> U; rewrite /= remove_uniq // andbT; elim: m {U} => //= e m IH.
by case: eqP => //= E; rewrite in_cons negb_or IH andbT; apply/eqP => E'; case: E.
Qed.

Lemma rstep_uniq (H : Type) (r : rstate H) e r' hand gone : rstep r e = Some (r', hand, gone) ->
  uniq [seq x.1 | x <- mssg_pool r] -> uniq [seq x.1 | x <- mssg_pool r'].
Proof.
case: e => [m|id h] /=.
- case: (stats_increment _ _ _ _) => // st; case: (get _ _) => [h|] [<- _ _] U //; exact: insert_uniq.
- case: (get _ _) => [[|m buf]|] // [<- _ _] U //; case: buf => [|m' buf]; [exact: remove_uniq|exact: insert_uniq].
Qed.

Lemma keys_steps s : steps sstep (stack_start n x0 P) s -> keys_ok s.
Proof.
elim=> [i|s1 s2 _ IH S i] //; case: S => {s2}.
- by move=> j t _ _; rewrite /= /upd; case: eqP => _; exact: IH.
- by move=> j to id d t x _ _ _; rewrite /= /upd; case: eqP => _; exact: IH.
- by move=> j id t _ p _; rewrite /= /upd; case: eqP => _; exact: IH.
- by move=> j h id f d t a b _ p _ _; rewrite /= /upd; case: eqP => _; exact: IH.
- by move=> j h t _ p _ _; rewrite /= /upd; case: eqP => _; exact: IH.
- by move=> j x rest r hand gone _ p _ Hr; rewrite /= /upd; case: eqP => _; [exact: rstep_uniq Hr (IH _)|exact: IH].
- by move=> j id h rest r hand gone _ p _ Hr; rewrite /= /upd; case: eqP => _; [exact: rstep_uniq Hr (IH _)|exact: IH].
- by move=> x _; exact: IH.
Qed.

End Global.

(** ** Messages as values *)

Definition tri (m : msg) : seq N * (nat * seq N) := (m_id m, (m_from m, m_data m)).

(** What lies in the pool of a router. *)
Definition pooled (H : Type) (r : rstate H) : seq msg := flatten [seq x.2 | x <- mssg_pool r].

Lemma bytes_cat j a b : bytes_from j (a ++ b) = ((bytes_from j a).1 + (bytes_from j b).1, (bytes_from j a).2 + (bytes_from j b).2).
Proof. by rewrite /bytes_from filter_cat !map_cat !sumn_cat. Qed.

Lemma bytes_tri j a : bytes_from j a =
  (sumn [seq size t.2.2 | t <- map tri a & t.2.1 == j], sumn [seq size t.2.2 + size t.1 | t <- map tri a & t.2.1 == j]).
Proof. by rewrite !filter_map -!map_comp. Qed.

Lemma bytes_perm j a b : perm_eq (map tri a) (map tri b) -> bytes_from j a = bytes_from j b.
Proof. by move=> H; rewrite !bytes_tri; congr pair; apply: perm_sumn; apply: perm_map; apply: perm_filter. Qed.

Lemma perm_by_id (I T : eqType) (A B : seq (I * T)) :
  (forall id, [seq x.2 | x <- A & x.1 == id] = [seq x.2 | x <- B & x.1 == id]) -> perm_eq A B.
Proof.
move=> H; apply/allP => z _ /=; apply/eqP.
have E (C : seq (I * T)) : count_mem z C = count_mem z.2 [seq x.2 | x <- C & x.1 == z.1].
  rewrite count_map count_filter; apply: eq_count => x /=.
  by case: x z => [a b] [a' b'] /=; rewrite xpair_eqE andbC.
by rewrite !E H.
Qed.

Lemma pool_by_id (l : seq (seq N * seq msg)) id : uniq [seq x.1 | x <- l] ->
  (forall k b, get k l = Some b -> all (fun m => m_id m == k) b) ->
  [seq m <- flatten [seq x.2 | x <- l] | m_id m == id] = odflt [::] (get id l).
Proof.
elim: l => //= -[k b] l IH /= /andP[Hk U] Hg; rewrite filter_cat IH //; last first.
  move=> k' b' E; apply: Hg; rewrite /get /=; case: eqP => [Ek|_] //=.
  by case/negP: Hk; rewrite Ek; exact: get_in E.
have Hb := Hg k b; rewrite /get /= eqxx /= in Hb; have {}Hb := Hb erefl.
rewrite /get /=; case: eqP => [<-|Hne] /=.
- have -> : [seq e.2 | e <- l & e.1 == k] = [::].
    have : get k l = None by case E: (get k l) => [b'|] //; case/negP: Hk; exact: get_in E.
    by rewrite /get; case: [seq _ | _ <- _ & _].
  by rewrite /= cats0; apply/all_filterP.
- suff -> : [seq m <- b | m_id m == id] = [::] by [].
  by elim: b Hb {Hg} => //= m b IHb /andP[/eqP -> /IHb ->]; case: eqP.
Qed.

Section Party.
Variables (n : nat) (D : eqType) (enc : D -> seq N) (V : Type).
Notation I := [eqType of seq N].

Definition btri (m : I * (nat * D)) : I * (nat * seq N) := (m.1, (m.2.1, enc m.2.2)).

(** With no open request the mailbox of the machine is in the pool of the router or
    has not reached it. *)
Lemma mail_split (p : party D V) o mb : pinv n enc p o mb -> waits (p_task p) = [::] ->
  uniq [seq x.1 | x <- mssg_pool (p_router p)] ->
  perm_eq (map btri mb) (map tri (pooled (p_router p)) ++ [seq tri (msg_of x) | x <- drop (p_read p) o]).
Proof.
move=> H W U; have Es : p_slots p = [::].
  have := pi_waits H; rewrite W perm_sym => /perm_nilP; rewrite /asked.
  by case: (p_slots p) => // x l; case: (p_chan p) => //; case: (handle_pool _).
apply: perm_by_id => id; have := pi_mail H id; rewrite Es /= /mailv /poolv /unreadv => E.
rewrite filter_cat map_cat !filter_map -!map_comp.
have -> : [seq ((fun x => x.2) \o btri) x | x <- mb & preim btri (fun x => x.1 == id) x] = [seq (m.2.1, enc m.2.2) | m <- mb & m.1 == id] by [].
rewrite E; congr (_ ++ _).
by rewrite -(pool_by_id id U) // => k b /(pi_pool H) [].
Qed.

End Party.

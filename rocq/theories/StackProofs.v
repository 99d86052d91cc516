(** The network stack under the protocol code implements the machine of
    MachineModel. *)

From Coq Require Import NArith.
From mathcomp Require Import all_ssreflect zify.
From Verif Require Import MachineModel RouterModel RouterSpec RouterProofs RouteModel RouteSpec StackModel StackSpec.
Set Implicit Arguments.
Unset Strict Implicit.
Unset Printing Implicit Defensive.

(** ** Tasks *)

Section Task.
Variables (D : eqType) (V : Type).
Notation I := [eqType of seq N].
Notation proc := (proc I D V).
Notation task := (task D V).
Implicit Types (p : proc) (t : task).

Fixpoint erase t : proc :=
  match t with TRun p => p | TWait _ _ p => p | TFork a b k => Fork (erase a) (erase b) k end.

Fixpoint waits t : seq (handle * I) :=
  match t with TRun _ => [::] | TWait h id _ => [:: (h, id)] | TFork a b _ => waits a ++ waits b end.

Fixpoint wf t : bool :=
  match t with TRun _ => true | TWait _ id p => wanted p == Some id | TFork a b _ => wf a && wf b end.

Fixpoint panics p : bool :=
  match p with Panic => true | Fork p q _ => panics p || panics q | _ => false end.

Fixpoint pm p : nat :=
  match p with Fork p q _ => (pm p + pm q).+1 | p => if wanted p is Some _ then 1 else 0 end.
Fixpoint tm t : nat :=
  match t with TRun p => pm p | TWait _ _ _ => 0 | TFork a b _ => tm a + tm b end.

Lemma tstep_wf t x t' : tstep t x t' -> wf t -> wf t'.
Proof.
elim=> //=.
- by move=> p id h ->.
- by move=> a x0 a' b k _ IH /andP[/IH -> ->].
- by move=> a b x0 b' k _ IH /andP[-> /IH ->].
Qed.

Lemma waits_sub t : wf t -> subseq [seq w.2 | w <- waits t] (listens (erase t)).
Proof.
elim: t => [p|h id p|a IHa b IHb k] /=; first by rewrite sub0seq.
- by case: p => //= [id' k|id' got k]; [move=> /eqP [->]; rewrite eqxx|case: (all isSome got) => //= /eqP [->]; rewrite eqxx].
- by move=> /andP[/IHa Ha /IHb Hb]; rewrite map_cat; apply: cat_subseq.
Qed.

Lemma lstep_panics p a p' : lstep p a p' -> panics p -> panics p'.
Proof.
elim=> //=.
- by move=> p0 a0 p1 q k _ IH /orP[/IH ->|->] //; rewrite orbT.
- by move=> p0 q a0 q1 k _ IH /orP[->|/IH ->] //; rewrite orbT.
Qed.

Lemma tau_sim t t' : tstep t (@TTau D) t' -> ~~ panics (erase t) ->
  waits t' = waits t /\ (erase t' = erase t /\ tm t' < tm t \/ lstep (erase t) (ATau I D) (erase t')).
Proof.
move E: (@TTau D) => x H; elim: H E => //=.
- by move=> id got k Hg _ _; split=> //; right; constructor.
- by move=> p q k _ _; split=> //; left; split.
- move=> a x0 a' b k _ IH Ex; rewrite negb_or => /andP[/(IH Ex) [-> HH] _]; split=> //.
  case: HH => [[-> Hm]|L]; [left; split=> //; lia|right; exact: LForkL].
- move=> a b x0 b' k _ IH Ex; rewrite negb_or => /andP[_ /(IH Ex) [-> HH]]; split=> //.
  case: HH => [[-> Hm]|L]; [left; split=> //; lia|right; exact: LForkR].
- by move=> a b k _ _; split=> //; right; constructor.
- by move=> a k _; rewrite orbT.
Qed.

Lemma send_sim t to id d t' : tstep t (TSend to id d) t' -> waits t' = waits t /\ lstep (erase t) (ASend to id d) (erase t').
Proof.
move E: (TSend to id d) => x H; elim: H E => //=.
- by move=> to' id' d' k [-> -> ->]; split=> //; constructor.
- by move=> a x0 a' b k _ IH /IH [-> L]; split=> //; exact: LForkL.
- by move=> a b x0 b' k _ IH /IH [-> L]; split=> //; exact: LForkR.
Qed.

Lemma req_sim t id h t' : tstep t (TReq D id h) t' ->
  [/\ perm_eq (waits t') ((h, id) :: waits t), erase t' = erase t & tm t' < tm t].
Proof.
move E: (TReq D id h) => x H; elim: H E => //=.
- move=> p id' h' W [-> ->]; split=> //.
  by case: p W => //= [id0 got k]; case: (all isSome got).
- move=> a x0 a' b k _ IH /IH [P -> Hm]; split=> //; last lia.
  by rewrite -cat_cons perm_cat2r.
- move=> a b x0 b' k _ IH /IH [P -> Hm]; split=> //; last lia.
  by rewrite -(cat1s (h, id)) perm_sym perm_catCA cat1s perm_cat2l perm_sym.
Qed.

Lemma got_sim t h s d t' : tstep t (TGot h s d) t' -> wf t ->
  exists id, perm_eq (waits t) ((h, id) :: waits t') /\ lstep (erase t) (ARecv id s d) (erase t').
Proof.
move E: (TGot h s d) => x H; elim: H E => //=.
- move=> p id h' s' d' [-> -> ->] /eqP W; exists id; split=> //.
  case: p W => //= [id' k [->]|id' got k]; first by constructor.
  by case: ifP => // Hg [->]; constructor; rewrite Hg.
- move=> a x0 a' b k _ IH Ex /andP[/(IH Ex) [id [P L]] _]; exists id; split; last exact: LForkL.
  by rewrite -cat_cons perm_cat2r.
- move=> a b x0 b' k _ IH Ex /andP[_ /(IH Ex) [id [P L]]]; exists id; split; last exact: LForkR.
  by rewrite -(cat1s (h, id)) perm_sym perm_catCA cat1s perm_cat2l perm_sym.
Qed.

Lemma lfork_inv p q k x r : lstep (Fork p q k) x r ->
  [\/ exists p', lstep p x p', exists q', lstep q x q' |
      x = ATau I D /\ ((exists u v, p = Ret u /\ q = Ret v) \/ p = Panic \/ q = Panic)].
Proof.
move=> L; inversion L; subst.
- by constructor 1; exists p'.
- by constructor 2; exists q'.
- by constructor 3; split=> //; left; exists a, b.
- by constructor 3; split=> //; right; left.
- by constructor 3; split=> //; right; right.
Qed.

Lemma gdone_inv id got (k : seq D -> proc) r : lstep (Gath id got k) (ATau I D) r -> all isSome got.
Proof. by move=> L; inversion L. Qed.

Lemma erase_leaf t q : wf t -> erase t = q -> wanted q = None -> (if q is Fork _ _ _ then false else true) -> t = TRun q.
Proof. by case: t => [p|h id p|a b k] //=; [move=> _ ->|move=> /eqP W <-; rewrite W|move=> _ <-]. Qed.

(** Conversely: what the code can do the task can do, or it can move on. *)
Lemma can_tau t p' : wf t -> lstep (erase t) (ATau I D) p' -> exists t', tstep t (@TTau D) t'.
Proof.
elim: t p' => [p|h id p|a IHa b IHb k] p' /=.
- case: p => [v||to id d k|id k|id got k|p q k] _ L; try by inversion L.
  + by have Hg := gdone_inv L; eexists; constructor.
  + by eexists; apply: TsFork.
- case: p => // [id' k _ L|id' got k /eqP /=]; first by inversion L.
  by case: ifP => // Hg _ /gdone_inv; rewrite Hg.
- move=> /andP[Wa Wb] /lfork_inv [[q Hq]|[q Hq]|[_ [[u [v [Ea Eb]]]|[E|E]]]].
  + by have [a' Ha] := IHa _ Wa Hq; exists (TFork a' b k); exact: TsL.
  + by have [b' Hb] := IHb _ Wb Hq; exists (TFork a b' k); exact: TsR.
  + by rewrite (erase_leaf Wa Ea) // (erase_leaf Wb Eb) //; eexists; apply: TsJoin.
  + by rewrite (erase_leaf Wa E) //; eexists; apply: TsPanicL.
  + by rewrite (erase_leaf Wb E) //; eexists; apply: TsPanicR.
Qed.

Lemma can_send t to id d p' : wf t -> lstep (erase t) (ASend to id d) p' ->
  exists t', tstep t (TSend to id d) t' \/ tstep t (@TTau D) t'.
Proof.
elim: t p' => [p|h id' p|a IHa b IHb k] p' /=.
- case: p => [v||to' id' d' k|id' k|id' got k|p q k] _ L; try by inversion L.
  + by inversion L; subst; eexists; left; constructor.
  + by eexists; right; apply: TsFork.
- by case: p => // [id0 k|id0 got k] _ L; inversion L.
- move=> /andP[Wa Wb] /lfork_inv [[q Hq]|[q Hq]|[]] //.
  + by have [a' [Ha|Ha]] := IHa _ Wa Hq; exists (TFork a' b k); [left|right]; exact: TsL.
  + by have [b' [Hb|Hb]] := IHb _ Wb Hq; exists (TFork a b' k); [left|right]; exact: TsR.
Qed.

(** A task that can receive can call recv, or has done so, or moves on. *)
Lemma can_recv t id s d p' h' : wf t -> lstep (erase t) (ARecv id s d) p' ->
  (exists h, (h, id) \in waits t /\ forall s' d', exists t', tstep t (TGot h s' d') t') \/
  exists t', tstep t (TReq D id h') t' \/ tstep t (@TTau D) t'.
Proof.
elim: t p' => [p|h id' p|a IHa b IHb k] p' /=.
- case: p => [v||to' id' d' k|id' k|id' got k|p q k] _ L; try by inversion L.
  + by inversion L; subst; right; eexists; left; constructor.
  + by inversion L; subst; right; eexists; left; constructor; rewrite /= ifN.
  + by right; eexists; right; apply: TsFork.
- move=> /eqP W L; have -> : id' = id.
    case: p W L => // [id0 k [->]|id0 got k] L; first by inversion L.
    by move=> L'; inversion L'; subst; move: L; rewrite /= ifN // => -[->].
  by left; exists h; rewrite mem_seq1 eqxx; split=> // s' d'; eexists; constructor.
- move=> /andP[Wa Wb] /lfork_inv [[q Hq]|[q Hq]|[]] //.
  + have [[h [Hh Hg]]|[a' [Ha|Ha]]] := IHa _ Wa Hq.
    * by left; exists h; rewrite mem_cat Hh; split=> // s' d'; have [a' Ha] := Hg s' d'; exists (TFork a' b k); exact: TsL.
    * by right; exists (TFork a' b k); left; exact: TsL.
    * by right; exists (TFork a' b k); right; exact: TsL.
  + have [[h [Hh Hg]]|[a' [Ha|Ha]]] := IHb _ Wb Hq.
    * by left; exists h; rewrite mem_cat Hh orbT; split=> // s' d'; have [a' Ha] := Hg s' d'; exists (TFork a a' k); exact: TsR.
    * by right; exists (TFork a a' k); left; exact: TsR.
    * by right; exists (TFork a a' k); right; exact: TsR.
Qed.

Lemma erase_ret t v : wf t -> erase t = Ret v -> t = TRun (Ret v).
Proof. by case: t => [p|h id p|a b k] //=; [move=> _ ->|case: p]. Qed.

End Task.

(** ** Associations *)

Section Assoc.
Variables (K : eqType) (T : Type).
Implicit Type m : seq (K * T).

Lemma remove_id (k : K) m : k \notin [seq e.1 | e <- m] -> remove k m = m.
Proof.
rewrite /remove; elim: m => //= e m IH; rewrite in_cons negb_or eq_sym => /andP[-> /IH ->] //.
Qed.

Lemma get_some_in (k : K) m v : get k m = Some v -> List.In (k, v) m.
Proof.
rewrite /get; elim: m => //= e m IH; case: eqP => [<-|_ /IH] /=; last by right.
by case=> <-; left; case: e.
Qed.

Lemma get_in (k : K) m v : get k m = Some v -> k \in [seq e.1 | e <- m].
Proof. by rewrite /get; elim: m => //= e m IH; rewrite in_cons eq_sym; case: eqP => //= _ /IH ->; rewrite orbT. Qed.

Lemma get_none (k : K) m : get k m = None -> k \notin [seq e.1 | e <- m].
Proof. by rewrite /get; elim: m => //= e m IH; rewrite in_cons eq_sym; case: eqP => //= _ /IH. Qed.

Lemma get_split (k : K) m v : uniq [seq e.1 | e <- m] -> get k m = Some v ->
  exists a b, m = a ++ (k, v) :: b /\ remove k m = a ++ b.
Proof.
elim: m => // e m IH; rewrite /get /remove /= => /andP[Hn Hu]; case: eqP => [E|Hne] /=.
  move=> [<-]; exists [::], m; split; first by rewrite -E; case: e {Hn E}.
  by apply: remove_id; rewrite -E.
move=> /(IH Hu) [a [b [-> Hr]]]; exists (e :: a), b; split=> //; by rewrite /= -Hr.
Qed.

End Assoc.

(** ** One party *)

Section Party.
Variables (n : nat) (D : eqType) (enc : D -> seq N) (V : Type).
Notation I := [eqType of seq N].
Notation party := (party D V).
Hypothesis enc_inj : injective enc.

Definition mv (m : msg) : nat * seq N := (m_from m, m_data m).
Definition mailv (mb : seq (I * (nat * D))) (id : I) : seq (nat * seq N) := [seq (m.2.1, enc m.2.2) | m <- mb & m.1 == id].
Definition slotv (l : seq (handle * msg)) (id : I) : seq (nat * seq N) := [seq mv x.2 | x <- l & m_id x.2 == id].
Definition poolv (l : seq (I * seq msg)) (id : I) : seq (nat * seq N) := [seq mv m | m <- odflt [::] (get id l)].
Definition unreadv (l : seq (nat * payload)) (id : I) : seq (nat * seq N) := [seq mv (msg_of x) | x <- l & m_id (msg_of x) == id].

(** Where the open requests are. *)
Definition asked (p : party) : seq (handle * I) :=
  [seq (x.2, x.1) | x <- p_chan p] ++ [seq (x.2, x.1) | x <- handle_pool (p_router p)] ++ [seq (x.1, m_id x.2) | x <- p_slots p].

Record pinv (p : party) (o : seq (nat * payload)) (mb : seq (I * (nat * D))) : Prop := PInv {
  pi_wf : wf (p_task p);
  pi_waits : perm_eq (waits (p_task p)) (asked p);
  pi_new : all (fun w => w.1 < p_next p) (waits (p_task p));
  pi_handles : uniq [seq w.1 | w <- waits (p_task p)];
  pi_lost : p_lost p = [::];
  pi_keys : uniq [seq x.1 | x <- handle_pool (p_router p)];
  pi_pool : forall id b, get id (mssg_pool (p_router p)) = Some b -> b <> [::] /\ all (fun m => m_id m == id) b;
  pi_excl : forall id h, get id (handle_pool (p_router p)) = Some h -> get id (mssg_pool (p_router p)) = None;
  pi_read : p_read p <= size o;
  pi_size : size (rstats (p_router p)) = n;
  pi_stats : forall j, j < n -> nth (0, 0) (rstats (p_router p)) j = bytes_from j [seq msg_of x | x <- take (p_read p) o];
  pi_mail : forall id, mailv mb id = slotv (p_slots p) id ++ poolv (mssg_pool (p_router p)) id ++ unreadv (drop (p_read p) o) id }.

Definition clear_ids (p : party) : bool := uniq [seq w.2 | w <- waits (p_task p)].

Lemma asked_uniq p o mb : pinv p o mb -> clear_ids p -> uniq [seq w.2 | w <- asked p].
Proof. by move=> HI; rewrite /clear_ids (perm_uniq (perm_map _ (pi_waits HI))). Qed.

(** Tasks only. *)
Lemma pinv_task p o mb t : pinv p o mb -> wf t -> waits t = waits (p_task p) -> pinv (with_task p t) o mb.
Proof. by move=> [] *; split=> //=; match goal with E : waits t = _ |- _ => rewrite ?E end. Qed.

Lemma pinv_req p o mb id t : pinv p o mb -> tstep (p_task p) (TReq D id (p_next p)) t ->
  pinv (Party t (p_next p).+1 (rcons (p_chan p) (id, p_next p)) (p_router p) (p_read p) (p_slots p) (p_lost p)) o mb.
Proof.
move=> HI Ht; have [Pw Ee _] := req_sim Ht; destruct HI; split=> //=.
- exact: tstep_wf Ht _.
- apply: perm_trans Pw _; apply/permP => q; move/permP: pi_waits0 => /(_ q).
  by rewrite /asked /= map_rcons -cats1 !count_cat /= => ->; clear; lia.
- rewrite (perm_all _ Pw) /= ltnSn /=; apply: sub_all pi_new0 => w /=; lia.
- rewrite (perm_uniq (perm_map _ Pw)) /= pi_handles0 andbT; apply/mapP => -[w Hw E].
  by move/allP: pi_new0 => /(_ w Hw); rewrite -E ltnn.
Qed.

Lemma mailv_cons mb id x : mailv (x :: mb) id = (if x.1 == id then [:: (x.2.1, enc x.2.2)] else [::]) ++ mailv mb id.
Proof. by rewrite /mailv /=; case: eqP. Qed.
Lemma mailv_cat a b id : mailv (a ++ b) id = mailv a id ++ mailv b id.
Proof. by rewrite /mailv filter_cat map_cat. Qed.
Lemma slotv_cat a b id : slotv (a ++ b) id = slotv a id ++ slotv b id.
Proof. by rewrite /slotv filter_cat map_cat. Qed.
Lemma slotv_cons l id x : slotv (x :: l) id = (if m_id x.2 == id then [:: mv x.2] else [::]) ++ slotv l id.
Proof. by rewrite /slotv /=; case: eqP. Qed.
Lemma unreadv_cons l id x : unreadv (x :: l) id = (if x.2.1 == id then [:: mv (msg_of x)] else [::]) ++ unreadv l id.
Proof. by rewrite /unreadv /=; case: eqP. Qed.

Lemma slotv_none l id : id \notin [seq x.2 | x <- [seq (x.1, m_id x.2) | x <- l]] -> slotv l id = [::].
Proof.
rewrite -map_comp /slotv; elim: l => //= x l IH; rewrite in_cons negb_or eq_sym => /andP[/negbTE -> /IH] //.
Qed.

Lemma mailv_split mb id s b rest : mailv mb id = (s, b) :: rest ->
  exists u d v, [/\ mb = u ++ (id, (s, d)) :: v, b = enc d, id \notin [seq m.1 | m <- u] & mailv v id = rest].
Proof.
elim: mb => [|[id' [s' d']] mb IH] //; rewrite mailv_cons /=; case: eqP => [->|Hne] /=.
  by case=> -> <- <-; exists [::], d', mb.
move=> /IH [u [d [v [-> Eb Hn E]]]]; exists ((id', (s', d')) :: u), d, v; split=> //=.
by rewrite in_cons negb_or Hn andbT eq_sym; apply/eqP.
Qed.

(** The task takes the message out of its channel: that message is the first
    of its id in the mailbox. *)
Lemma pinv_got p o mb h id f d t a b : pinv p o mb -> clear_ids p -> p_slots p = a ++ (h, Msg id f (enc d)) :: b ->
  tstep (p_task p) (TGot h f d) t ->
  exists u v, [/\ mb = u ++ (id, (f, d)) :: v, id \notin [seq m.1 | m <- u],
    lstep (erase (p_task p)) (ARecv id f d) (erase t) &
    pinv (Party t (p_next p) (p_chan p) (p_router p) (p_read p) (a ++ b) (p_lost p)) o (u ++ v)].
Proof.
move=> HI HC Es Ht; have [id' [Pw Hl]] := got_sim Ht (pi_wf HI).
have HU := asked_uniq HI HC.
have Ha : asked p = [seq (x.2, x.1) | x <- p_chan p] ++ [seq (x.2, x.1) | x <- handle_pool (p_router p)] ++
                    [seq (x.1, m_id x.2) | x <- a] ++ (h, id) :: [seq (x.1, m_id x.2) | x <- b].
  by rewrite /asked Es map_cat /=.
have Eid : id' = id.
  have H1 : (h, id) \in waits (p_task p) by rewrite (perm_mem (pi_waits HI)) Ha !(mem_cat, in_cons) eqxx !orbT.
  have := pi_handles HI; rewrite (perm_uniq (perm_map _ Pw)) /= => /andP[Hn _].
  move: H1; rewrite (perm_mem Pw) in_cons => /orP[/eqP [->] //|H1].
  by move/negP: Hn; case; apply/mapP; exists (h, id).
subst id'.
have [N1 N2] : id \notin [seq x.2 | x <- [seq (x.1, m_id x.2) | x <- a]] /\ id \notin [seq x.2 | x <- [seq (x.1, m_id x.2) | x <- b]].
  move: HU; rewrite Ha !map_cat /= !cat_uniq => /and3P[_ _ /and3P[_ _ /and3P[_ Hh /andP[Hb _]]]]; split=> //.
  by move: Hh; rewrite /= negb_or => /andP[].
have Hm := pi_mail HI id; rewrite Es slotv_cat slotv_cons (slotv_none N1) (slotv_none N2) /= eqxx /mv /= in Hm.
have [u [d' [v [Emb /enc_inj Ed Hn Ev]]]] := mailv_split Hm; subst d'.
exists u, v; split=> //; destruct HI; split=> //=.
- exact: tstep_wf Ht _.
- apply/permP => q; move/permP: pi_waits0 => /(_ q); move/permP: Pw => /(_ q) ->.
  by rewrite Ha /asked /= map_cat !count_cat /=; clear; lia.
- by move: pi_new0; rewrite (perm_all _ Pw) /= => /andP[].
- by move: pi_handles0; rewrite (perm_uniq (perm_map _ Pw)) /= => /andP[].
- move=> id0; rewrite mailv_cat slotv_cat; have := pi_mail0 id0.
  rewrite Es Emb mailv_cat mailv_cons slotv_cat slotv_cons /= /mv /= eq_sym; case: eqP => [->|] //=.
  rewrite (slotv_none N1) (slotv_none N2) /=.
  have -> : mailv u id = [::] by move: Hn; clear; rewrite /mailv; elim: u => //= x u IH; rewrite in_cons negb_or eq_sym => /andP[/negbTE -> /IH].
  by case.
Qed.

Lemma drop_step T (l : seq T) k x r : drop k l = x :: r -> [/\ k < size l, drop k.+1 l = r & take k.+1 l = rcons (take k l) x].
Proof.
elim: l k => [|y l IH] [|k] //=; first by case=> -> ->; rewrite drop0 take0.
by move=> /IH [H1 H2 H3]; split=> //; rewrite H3.
Qed.

Lemma bytes_rcons j ms m : bytes_from j (rcons ms m) =
  ((bytes_from j ms).1 + (if m_from m == j then size (m_data m) else 0),
   (bytes_from j ms).2 + (if m_from m == j then size (m_data m) + size (m_id m) else 0)).
Proof. by rewrite /bytes_from -cats1 !filter_cat !map_cat !sumn_cat /=; case: eqP => _ /=; rewrite !addn0. Qed.

(** The router takes a message. *)
Lemma pinv_arrive p o mb x rest : pinv p o mb -> clear_ids p -> drop (p_read p) o = x :: rest -> x.1 < n ->
  exists r hand, rstep (p_router p) (Arrive (msg_of x)) = Some (r, hand, [::]) /\
    pinv (Party (p_task p) (p_next p) (p_chan p) r (p_read p).+1 (p_slots p ++ hand) (p_lost p)) o mb.
Proof.
move=> HI HC Ed Hx; have HU := asked_uniq HI HC; have [Hr Ed' Et] := drop_step Ed.
rewrite /= /stats_increment (pi_size HI) Hx.
set st := set_nth _ _ _ _.
have Sz : size st = n by rewrite size_set_nth (pi_size HI); apply/maxn_idPr.
have St j : j < n -> nth (0, 0) st j = bytes_from j [seq msg_of x | x <- take (p_read p).+1 o].
  move=> Hj; rewrite /st nth_set_nth /= Et map_rcons bytes_rcons -(pi_stats HI Hj) eq_sym /=.
  by case: eqP => [->|_] /=; rewrite ?addn0 //; case: (nth _ _ _).
have Hmail := pi_mail HI; rewrite Ed in Hmail.
case Eh: (get x.2.1 (handle_pool (p_router p))) => [h|].
- do 2 eexists; split; first by [].
  have [a [b [EH Er]]] := get_split (pi_keys HI) Eh.
  have HN : x.2.1 \notin [seq w.2 | w <- [seq (x.1, m_id x.2) | x <- p_slots p]].
    move: HU; rewrite /asked EH !map_cat /= !cat_uniq => /and3P[_ _ /and3P[_ /hasPn Hn _]].
    by apply/negP => /Hn /=; rewrite mem_cat in_cons eqxx orbT.
  have HP := pi_excl HI Eh.
  destruct HI; split=> //=.
  + apply: perm_trans pi_waits0 _; apply/permP => q.
    by rewrite /asked /= Er EH !map_cat !count_cat /=; clear; lia.
  + move: pi_keys0; rewrite Er EH !map_cat /= !cat_uniq /= => /and3P[-> Hh /andP[_ ->]].
    by move: Hh; rewrite negb_or => /andP[_ ->].
  + by move=> id h'; rewrite get_remove; case: eqP => // _; exact: pi_excl0.
  + move=> id; rewrite Hmail unreadv_cons slotv_cat slotv_cons Ed' /= cats0; case: (eqVneq x.2.1 id) => [E|_]; last by rewrite cats0.
    by rewrite -E (slotv_none HN) /poolv HP /=.
- do 2 eexists; split; first by [].
  destruct HI; rewrite cats0; split=> //=.
  + move=> id b0; rewrite get_insert; case: eqP => [-> [<-]|_]; last exact: pi_pool0.
    split; first by case: (get _ _) => [[]|].
    case E: (get _ _) => [b1|]; rewrite ?all_rcons /= eqxx //=; exact: (pi_pool0 _ _ E).2.
  + move=> id h; rewrite get_insert; case: eqP => [->|_]; [by rewrite Eh|exact: pi_excl0].
  + move=> id; rewrite Hmail unreadv_cons Ed' /poolv get_insert /=; congr (_ ++ _); rewrite eq_sym; case: eqP => [->|_] //=.
    by case: (get _ _) => [b1|] //=; rewrite map_rcons cat_rcons.
Qed.

(** The router takes a request. *)
Lemma pinv_request p o mb id h rest : pinv p o mb -> clear_ids p -> p_chan p = (id, h) :: rest ->
  exists r hand, rstep (p_router p) (Request id h) = Some (r, hand, [::]) /\
    pinv (Party (p_task p) (p_next p) rest r (p_read p) (p_slots p ++ hand) (p_lost p)) o mb.
Proof.
move=> HI HC Ec; have HU := asked_uniq HI HC; rewrite /=.
have [N1 N2] : id \notin [seq x.1 | x <- handle_pool (p_router p)] /\
    id \notin [seq w.2 | w <- [seq (x.1, m_id x.2) | x <- p_slots p]].
  move: HU; rewrite /asked Ec /= !map_cat !mem_cat !negb_or => /andP[/and3P[_ H1 H2] _]; split=> //.
  by move: H1; rewrite -map_comp.
case Eb: (get id (mssg_pool (p_router p))) => [[|m buf]|].
- by have [] := pi_pool HI Eb.
- do 2 eexists; split; first by [].
  have [_ /= /andP[/eqP Em Hbuf]] := pi_pool HI Eb.
  destruct HI; split=> //=.
  + apply: perm_trans pi_waits0 _; apply/permP => q.
    by rewrite /asked /= Ec map_cat /= !count_cat Em /=; clear; lia.
  + move=> id' b0; case: buf Hbuf {Eb} => [|m' buf] Hbuf; rewrite ?get_remove ?get_insert.
      by case: eqP => // _; exact: pi_pool0.
    by case: eqP => [->|_]; [case=> <-|exact: pi_pool0].
  + move=> id' h'; case: (eqVneq id' id) => [->|Hne] Eh'.
      by rewrite (get_in Eh') in N1.
    by case: buf Hbuf {Eb} => [|m' buf] Hbuf; rewrite ?get_remove ?get_insert (negbTE Hne); exact: pi_excl0 Eh'.
  + move=> id'; rewrite pi_mail0 slotv_cat slotv_cons /= cats0 -catA; congr (_ ++ _); rewrite catA; congr (_ ++ _).
    case: (eqVneq id id') => [<-|Hne].
      by rewrite Em eqxx /poolv Eb /=; case: buf {Hbuf Eb} => [|m' buf]; rewrite ?get_remove ?get_insert eqxx.
    by rewrite Em (negbTE Hne) /poolv; case: buf {Hbuf Eb} => [|m' buf]; rewrite ?get_remove ?get_insert eq_sym (negbTE Hne).
- have En : get id (handle_pool (p_router p)) = None.
    by case E: (get _ _) => [h'|] //; rewrite (get_in E) in N1.
  rewrite En; do 2 eexists; split; first by [].
  destruct HI; rewrite cats0; split=> //=.
  + apply: perm_trans pi_waits0 _; apply/permP => q.
    by rewrite /asked /= Ec /insert remove_id // !count_cat /= !count_cat /=; clear; lia.
  + by rewrite /insert remove_id //= N1.
  + by move=> id' h'; rewrite get_insert; case: eqP => [->|_]; [|exact: pi_excl0].
Qed.

(** A message is put in [party_out]. *)
Lemma pinv_deliver p o mb id s d : pinv p o mb -> pinv p (rcons o (s, (id, enc d))) (rcons mb (id, (s, d))).
Proof.
move=> HI; destruct HI; split=> //.
- by rewrite size_rcons; lia.
- by move=> j Hj; rewrite pi_stats0 // -cats1 takel_cat.
- move=> id0; rewrite -!cats1 mailv_cat pi_mail0 drop_cat; move: pi_read0; rewrite leq_eqVlt => /orP[/eqP E|Hlt].
    by rewrite E ltnn subnn drop_size /= cats0 mailv_cons /unreadv /=; case: eqP => _; rewrite ?cats0 // -catA.
  by rewrite Hlt /unreadv filter_cat map_cat -!catA /= mailv_cons /=; case: eqP.
Qed.

Lemma pinv_start q : pinv (Party (TRun q) 0 [::] (rinit handle n) 0 [::] [::]) [::] [::].
Proof.
split=> //; first by rewrite size_nseq.
by move=> j Hj; rewrite nth_nseq Hj.
Qed.

End Party.

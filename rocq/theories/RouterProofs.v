(** Proofs about the router model. *)

From Coq Require Import NArith.
From mathcomp Require Import all_ssreflect zify.
From Verif Require Import RouterModel RouterSpec.
Set Implicit Arguments.
Unset Strict Implicit.
Unset Printing Implicit Defensive.

Section Maps.
Variables (K : eqType) (T : Type).
Lemma get_remove (k k' : K) (m : seq (K * T)) : get k (remove k' m) = if k == k' then None else get k m.
Proof.
rewrite /get /remove; elim: m => [|e m IH] /=; first by case: eqP.
case: (eqVneq e.1 k') => [E|Hne] /=.
  by rewrite IH; case: (eqVneq k k') => // Hk; rewrite E eq_sym (negbTE Hk).
case: (eqVneq e.1 k) => [E|_] //=; by rewrite -E (negbTE Hne).
Qed.
Lemma get_insert (k k' : K) v (m : seq (K * T)) : get k (insert k' v m) = if k == k' then Some v else get k m.
Proof.
rewrite /insert {1}/get /= eq_sym; case: eqP => [E|/eqP Hne] //=.
by rewrite -/(get k (remove k' m)) get_remove (negbTE Hne).
Qed.
End Maps.

Section Router.
Variable H : Type.
Notation ev := (event H).
Implicit Types (es : seq ev) (s : rstate H).

Lemma rrun_rcons s es e : rrun s (rcons es e) =
  if rrun s es is Some (s', d, x) then
    if rstep s' e is Some (s'', d', x') then Some (s'', d ++ d', x ++ x') else None
  else None.
Proof.
elim: es s => [|e0 es IH] s /=.
  by case: (rstep s e) => [[[s' d] x]|] //; rewrite !cats0.
case: (rstep s e0) => [[[s' d] x]|] //; rewrite IH.
case: (rrun s' es) => [[[s1 d1] x1]|] //.
by case: (rstep s1 e) => [[[s2 d2] x2]|] //; rewrite !catA.
Qed.

Lemma arrivals_rcons id es e : arrivals id (rcons es e) =
  if e is Arrive m then if m_id m == id then rcons (arrivals id es) m else arrivals id es else arrivals id es.
Proof.
rewrite /arrivals -cats1 pmap_cat /=; case: e => [m|i h] /=; last by rewrite cats0.
by case: eqP => _ /=; rewrite ?cats0 ?cats1.
Qed.
Lemma requests_rcons id es e : requests id (rcons es e) =
  if e is Request i h then if i == id then rcons (requests id es) h else requests id es else requests id es.
Proof.
rewrite /requests -cats1 pmap_cat /=; case: e => [m|i h] /=; first by rewrite cats0.
by case: eqP => _ /=; rewrite ?cats0 ?cats1.
Qed.
Lemma arrived_rcons es e : arrived (rcons es e) = if e is Arrive m then rcons (arrived es) m else arrived es.
Proof. by rewrite /arrived -cats1 pmap_cat /=; case: e => [m|i h] /=; rewrite ?cats0 ?cats1. Qed.

Lemma senders_rcons n es e : senders_ok n (rcons es e) =
  senders_ok n es && (if e is Arrive m then m_from m < n else true).
Proof. by rewrite /senders_ok arrived_rcons; case: e => [m|i h]; rewrite ?andbT // all_rcons andbC. Qed.

(** Statistics, and buffers never empty, for every history. *)
Lemma rrun_stats n es : senders_ok n es ->
  exists s d x, [/\ rrun (rinit H n) es = Some (s, d, x),
    forall id, get id (mssg_pool s) <> Some [::] /\
      (isSome (get id (handle_pool s)) -> get id (mssg_pool s) = None),
    size (rstats s) = n &
    forall p, p < n -> nth (0, 0) (rstats s) p = bytes_from p (arrived es)].
Proof.
elim/last_ind: es => [|es e IH].
  move=> _; exists (rinit H n), [::], [::]; split=> //; first by rewrite size_nseq.
  by move=> p Hp; rewrite nth_nseq Hp.
rewrite senders_rcons => /andP[/IH {IH} [s [d [x [E HB Hsz Hst]]]] He].
rewrite rrun_rcons E; case: e He => [m Hm|id h _]; rewrite /= ?/stats_increment ?Hsz ?Hm.
- have Hst' p : p < n -> nth (0, 0)
      (set_nth (0, 0) (rstats s) (m_from m)
         ((nth (0, 0) (rstats s) (m_from m)).1 + size (m_data m),
          (nth (0, 0) (rstats s) (m_from m)).2 + (size (m_data m) + size (m_id m)))) p =
      bytes_from p (arrived (rcons es (Arrive m))).
    move=> Hp; rewrite nth_set_nth /= arrived_rcons /bytes_from -cats1 !filter_cat !map_cat !sumn_cat /= eq_sym.
    case: (eqVneq p (m_from m)) => [->|Hne]; last by rewrite Hst //= !addn0.
    by rewrite Hst //= !addn0.
  have Hsz' x1 : size (set_nth (0, 0) (rstats s) (m_from m) x1) = n.
    by rewrite size_set_nth Hsz; apply/maxn_idPr.
  case Eh: (get (m_id m) (handle_pool s)) => [h|]; (do 3 eexists; split; first by []) => //= id.
    by have [H1 H2] := HB id; split=> //; rewrite get_remove; case: eqP.
  have [H1 H2] := HB id; rewrite get_insert; case: eqP => [->|] //; split; last by rewrite Eh.
  by case: (get _ _) => [[]|].
- case Eb: (get id (mssg_pool s)) => [[|m b]|].
  + by case: (HB id) => /(_ Eb).
  + do 3 eexists; split; first by [].
    * move=> id' /=; have [H1 H2] := HB id'.
      case: b Eb => [|m' b] Eb; rewrite ?get_remove ?get_insert; case: eqP => [E'|] //; split=> //.
      by rewrite -E' in Eb => /H2; rewrite Eb.
    * by [].
    * by move=> p Hp; rewrite arrived_rcons Hst.
  + do 3 eexists; split; first by [].
    * move=> id' /=; have [H1 H2] := HB id'; split=> //; rewrite get_insert; case: eqP => // ->; by rewrite Eb.
    * by [].
    * by move=> p Hp; rewrite arrived_rcons Hst.
Qed.

Lemma one_rcons es e : one_at_a_time (rcons es e) -> one_at_a_time es /\
  forall id, size (requests id (rcons es e)) <= (size (arrivals id (rcons es e))).+1.
Proof.
move=> O; split=> [k id|id]; last by have := O (size (rcons es e)) id; rewrite take_size.
case: (leqP k (size es)) => Hk; last first.
  by have := O (size es) id; rewrite -cats1 take_size_cat // (take_oversize (ltnW Hk)).
have := O k id; rewrite -cats1 take_cat.
move: Hk; rewrite leq_eqVlt => /orP[/eqP ->|->] //; by rewrite ltnn subnn take0 cats0 take_size.
Qed.

Lemma zip_rcons_more (S T : Type) (a : seq S) (b : seq T) x : size b <= size a -> zip (rcons a x) b = zip a b.
Proof. by elim: a b => [|y a IH] [|z b] //= Hs; rewrite IH. Qed.
Lemma zip_rcons_more' (S T : Type) (a : seq S) (b : seq T) x : size a <= size b -> zip a (rcons b x) = zip a b.
Proof. by elim: a b => [|y a IH] [|z b] //= Hs; rewrite IH. Qed.

Lemma zip_answer (T : Type) (a : seq H) (b : seq T) h m : size a = (size b).+1 ->
  ohead (drop (size b) a) = Some h -> zip a (rcons b m) = rcons (zip a b) (h, m).
Proof. by elim: a b => [|y a IH] [|z b] //=; [case: a {IH} => // _ [->]|case=> E Hh; rewrite IH]. Qed.
Lemma zip_answer' (a : seq H) (b : seq msg) h m l : drop (size a) b = m :: l ->
  zip (rcons a h) b = rcons (zip a b) (h, m).
Proof. by elim: a b => [|y a IH] [|z b] //=; [case=> -> _; case: b|move=> E; rewrite IH]. Qed.

Lemma arrivals_id id es b m l : b ++ m :: l = arrivals id es -> m_id m = id.
Proof.
elim: es b => [|[m'|i h] es IH] b /=; [by case: b| |exact: IH].
case: eqP => [Em|_]; last exact: IH.
by case: b => [|x b] /= [E1 E]; [rewrite E1|apply: (IH b)].
Qed.

Lemma rrun_fifo n es : senders_ok n es -> one_at_a_time es ->
  exists s d, [/\ rrun (rinit H n) es = Some (s, d, [::]),
    forall id, get id (mssg_pool s) =
      (if drop (size (requests id es)) (arrivals id es) is [::] then None
       else Some (drop (size (requests id es)) (arrivals id es))),
    forall id, get id (handle_pool s) = ohead (drop (size (arrivals id es)) (requests id es)) &
    forall id, [seq hm <- d | m_id hm.2 == id] = zip (requests id es) (arrivals id es)].
Proof.
elim/last_ind: es => [|es e IH].
  by move=> _ _; exists (rinit H n), [::]; split.
rewrite senders_rcons => /andP[Hs He] /one_rcons [O1 Hone]; case: (IH Hs O1) => {IH} [s [d [E HB HH HD]]].
have [s0 [d0 [x0 [E0 _ Hsz _]]]] := rrun_stats Hs.
move: E0; rewrite E => -[? ? ?]; subst s0 d0 x0.
rewrite rrun_rcons E; case: e He Hone => [m Hm|id h _] Hone; rewrite /= ?/stats_increment ?Hsz ?Hm.
- have Hone' id : size (requests id es) <= (size (arrivals id es)).+1.
    by have := O1 (size es) id; rewrite take_size.
  rewrite HH; set q := requests (m_id m) es; set a := arrivals (m_id m) es.
  have Hqa : size q <= (size a).+1 by apply: Hone'.
  case Eh: (ohead (drop (size a) q)) => [h|].
  + have Hq : size q = (size a).+1.
      apply/eqP; rewrite eqn_leq Hqa ltnNge; apply/negP => Hle; by rewrite drop_oversize in Eh.
    do 2 eexists; split; first by [].
    * move=> id /=; rewrite HB arrivals_rcons requests_rcons; case: (eqVneq (m_id m) id) => // <-.
      by rewrite -/q -/a !drop_oversize // ?size_rcons Hq.
    * move=> id /=; rewrite get_remove arrivals_rcons requests_rcons eq_sym.
      case: (eqVneq (m_id m) id) => [<-|_]; last exact: HH.
      by rewrite -/q -/a drop_oversize // size_rcons Hq.
    * move=> id; rewrite filter_cat HD arrivals_rcons requests_rcons /=.
      case: (eqVneq (m_id m) id) => [<-|_]; last by rewrite cats0.
      by rewrite -/q -/a cats1 (zip_answer m Hq Eh).
  + have Hq : size q <= size a.
      rewrite leqNgt; apply/negP => Hlt; move: Eh; case Ed: (drop (size a) q) => [|y l] // _.
      by have := size_drop (size a) q; rewrite Ed /=; lia.
    do 2 eexists; split; first by [].
    * move=> id /=; rewrite get_insert HB arrivals_rcons requests_rcons eq_sym.
      case: (eqVneq (m_id m) id) => [<-|_]; last exact: HB.
      rewrite -/q -/a -(cats1 a) drop_cat.
      move: Hq; rewrite leq_eqVlt => /orP[/eqP Eq|Hlt]; last first.
        rewrite Hlt; case: (drop (size q) a) (size_drop (size q) a) => [|y l] /= Es; last by rewrite cats1.
        by move: Hlt; lia.
      by rewrite Eq ltnn subnn drop0 drop_oversize.
    * move=> id /=; rewrite HH arrivals_rcons requests_rcons; case: (eqVneq (m_id m) id) => // <-.
      by rewrite -/q -/a !drop_oversize // size_rcons; lia.
    * move=> id; rewrite cats0 HD arrivals_rcons requests_rcons.
      case: (eqVneq (m_id m) id) => // <-; by rewrite -/q -/a zip_rcons_more'.
- have := Hone id; rewrite requests_rcons arrivals_rcons eqxx size_rcons ltnS.
  set q := requests id es; set a := arrivals id es => Hqa.
  rewrite HB -/q -/a; case Ed: (drop (size q) a) => [|m l].
  + have Hq : size q = size a.
      by have := size_drop (size q) a; rewrite Ed /=; lia.
    have Eh : get id (handle_pool s) = None by rewrite HH -/q -/a drop_oversize // Hq.
    rewrite Eh; do 2 eexists; split; first by [].
    * move=> id' /=; rewrite HB arrivals_rcons requests_rcons; case: (eqVneq id id') => // <-.
      by rewrite -/q -/a !drop_oversize // ?size_rcons Hq.
    * move=> id' /=; rewrite get_insert arrivals_rcons requests_rcons eq_sym.
      case: (eqVneq id id') => [<-|_]; last exact: HH.
      by rewrite -/q -/a -cats1 drop_cat Hq ltnn subnn drop0.
    * move=> id'; rewrite cats0 HD arrivals_rcons requests_rcons.
      case: (eqVneq id id') => // <-; by rewrite -/q -/a zip_rcons_more // Hq.
  + have Hq : size q < size a.
      by have := size_drop (size q) a; rewrite Ed /=; lia.
    do 2 eexists; split; first by [].
    * move=> id' /=; rewrite arrivals_rcons requests_rcons.
      have El : drop (size q).+1 a = l by rewrite -add1n -drop_drop Ed /= drop0.
      case: l Ed El => [|m' l] Ed El; rewrite ?get_remove ?get_insert (eq_sym id'); case: (eqVneq id id') => [<-|_]; rewrite ?HB //;
        by rewrite size_rcons -/q -/a El.
    * move=> id' /=; rewrite HH arrivals_rcons requests_rcons.
      case: (eqVneq id id') => // <-; by rewrite -/q -/a !drop_oversize ?size_rcons // ltnW.
    * move=> id'; rewrite filter_cat HD arrivals_rcons requests_rcons /=.
      have Em : m_id m = id by apply: (@arrivals_id id es (take (size q) a) m l); rewrite -Ed cat_take_drop.
      rewrite Em; case: (eqVneq id id') => [<-|_]; last by rewrite cats0.
      by rewrite -/q -/a cats1 (zip_answer' h Ed).
Qed.

End Router.

(** ** message_from_each_party *)

Lemma heard_rcons n pre m : heard_all n pre -> heard_all n (rcons pre m).
Proof.
move=> /allP Ha; apply/allP => i /Ha; rewrite map_rcons mem_rcons in_cons => ->; exact: orbT.
Qed.

Lemma count_all_size (s : seq bool) : (count idfun s == size s) = all idfun s.
Proof. by rewrite all_count. Qed.

Lemma all_heard n (has : seq bool) pre : size has = n ->
  (forall i, i < n -> nth false has i = (i \in [seq m_from m | m <- pre])) ->
  (count idfun has == n) = heard_all n pre.
Proof.
move=> Sh Hh; rewrite -{1}Sh count_all_size; apply/allP/allP => Ha.
  by move=> i; rewrite mem_iota /= => Hi; rewrite -Hh //; apply: (Ha (nth false has i)); rewrite mem_nth ?Sh.
by move=> b /(nthP false) [j Hj <-]; rewrite Sh in Hj; rewrite Hh //; apply: Ha; rewrite mem_iota.
Qed.

Lemma from_in i pre : (i \in [seq m_from m | m <- pre]) = ~~ nilp [seq m_data m | m <- pre & m_from m == i].
Proof. by elim: pre => [|m pre IH] //=; rewrite in_cons IH eq_sym; case: eqP. Qed.

Lemma first_rcons i pre m : first_from i (rcons pre m) =
  if (i == m_from m) && (i \notin [seq m_from m | m <- pre]) then m_data m else first_from i pre.
Proof.
rewrite from_in /first_from -cats1 filter_cat map_cat /= eq_sym.
case: [seq m_data m0 | m0 <- pre & m_from m0 == i] => [|d l] /=; last by rewrite andbF.
by case: eqP.
Qed.

Lemma mfep_loop_spec n arr mssgs has counter pre :
  size mssgs = n -> size has = n -> counter = count idfun has ->
  (forall i, i < n -> nth false has i = (i \in [seq m_from m | m <- pre])) ->
  (forall i, i < n -> nth [::] mssgs i = first_from i pre) ->
  (forall k, k < size pre -> ~~ heard_all n (take k pre)) ->
  all (fun m => m_from m < n) pre ->
  match mfep_loop n mssgs has counter arr with
  | MDone ds rest => exists pre', [/\ pre ++ arr = pre' ++ rest, heard_all n pre',
      forall k, k < size pre' -> ~~ heard_all n (take k pre') & ds = [seq first_from i pre' | i <- iota 0 n]]
  | MWait => ~~ heard_all n (pre ++ arr) /\ all (fun m => m_from m < n) (pre ++ arr)
  | MPanic => exists pre' m rest, [/\ pre ++ arr = pre' ++ m :: rest, n <= m_from m & ~~ heard_all n pre']
  end.
Proof.
have done arr' mssgs' pre' : size mssgs' = n -> (forall i, i < n -> nth [::] mssgs' i = first_from i pre') ->
    (forall k, k < size pre' -> ~~ heard_all n (take k pre')) -> heard_all n pre' ->
    exists pre1, [/\ pre' ++ arr' = pre1 ++ arr', heard_all n pre1,
      forall k, k < size pre1 -> ~~ heard_all n (take k pre1) & mssgs' = [seq first_from i pre1 | i <- iota 0 n]].
  move=> Sm Hm Hp Ha; exists pre'; split=> //; apply: (@eq_from_nth _ [::]); rewrite Sm ?size_map ?size_iota // => i Hi.
  by rewrite Hm // (nth_map 0) ?size_iota // nth_iota.
elim: arr mssgs has counter pre => [|m arr IH] mssgs has counter pre Sm Sh -> Hh Hm Hp Hok /=.
  by rewrite (all_heard Sh Hh); case: ifP => Hall; [exact: done|rewrite cats0 Hall].
rewrite (all_heard Sh Hh); case: ifP => Hall; first exact: done.
rewrite Sh; case: (ltnP (m_from m) n) => Hf; last by exists pre, m, arr; rewrite Hall.
have Hp' k : k < size (rcons pre m) -> ~~ heard_all n (take k (rcons pre m)).
  rewrite size_rcons ltnS leq_eqVlt -cats1 take_cat => /orP[/eqP ->|Hk]; last by rewrite Hk Hp.
  by rewrite ltnn subnn take0 cats0 Hall.
have Hok' : all (fun m => m_from m < n) (rcons pre m) by rewrite all_rcons Hf.
rewrite -cat_rcons.
case Ehs: (nth false has (m_from m)); apply: IH => //.
- move=> i Hi; rewrite map_rcons mem_rcons in_cons Hh //; case: eqP => // Ei.
  by rewrite Ei -Hh // Ehs.
- move=> i Hi; rewrite first_rcons Hm //; case: eqP => //= Ei; by rewrite Ei -Hh // Ehs.
- by rewrite size_set_nth Sm; apply/maxn_idPr.
- by rewrite size_set_nth Sh; apply/maxn_idPr.
- have : m_from m < size has by rewrite Sh.
  elim: (has) (m_from m) Ehs => [|b h IHh] [|f] //=; first by case: b.
  by move=> E H; rewrite -(IHh f) // addnS.
- move=> i Hi; rewrite nth_set_nth /= map_rcons mem_rcons in_cons Hh //; by case: eqP.
- move=> i Hi; rewrite nth_set_nth /= first_rcons Hm //; case: eqP => //= Ei.
  by rewrite Ei -Hh // Ehs.
Qed.

(** ** connect_to_peers *)

Lemma accept_loop_spec S (acc : seq (nat * S)) streams : all (fun e => e.1 < size streams) acc ->
  uniq [seq e.1 | e <- acc] ->
  exists s', [/\ accept_loop streams acc = Some s', size s' = size streams &
    forall j, nth None s' j = if get j acc is Some c then Some c else nth None streams j].
Proof.
elim: acc streams => [|[p c] acc IH] streams /=; first by exists streams.
move=> /andP[Hp Ha] /andP[Hn U]; rewrite Hp.
have Sz : size (set_nth None streams p (Some c)) = size streams by rewrite size_set_nth; apply/maxn_idPr.
have [|s' [E S' N]] := IH (set_nth None streams p (Some c)) _ U; first by rewrite Sz.
exists s'; split=> //; first by rewrite S'.
move=> j; rewrite N nth_set_nth /= /get /=; case: (eqVneq j p) => [->|Hne] //=.
rewrite (_ : [seq e <- acc | e.1 == p] = [::]) //.
by elim: acc Hn {IH Ha U E N} => [|e acc IH] //=; rewrite in_cons negb_or eq_sym => /andP[/negbTE -> /IH].
Qed.

Lemma set_range S (out : nat -> S) k streams : k <= size streams ->
  let s' := foldl (fun s i => set_nth None s i (Some (out i))) streams (iota 0 k) in
  size s' = size streams /\ forall j, nth None s' j = if j < k then Some (out j) else nth None streams j.
Proof.
elim: k => [|k IH] Hk; first by split.
rewrite -[k.+1]addn1 iotaD foldl_cat /= addn1 add0n.
have [S' N] := IH (ltnW Hk); split.
  by rewrite size_set_nth S'; apply/maxn_idPr.
move=> j; rewrite nth_set_nth /= N ltnS (leq_eqVlt j); by case: eqP => [->|].
Qed.

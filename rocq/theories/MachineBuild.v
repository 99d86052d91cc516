(** Building codes that follow a plan. *)

From mathcomp Require Import all_ssreflect zify.
From Verif Require Import MachineModel MachineProofs.
Set Implicit Arguments.
Unset Strict Implicit.
Unset Printing Implicit Defensive.

Section Build.

Variables (n : nat) (I D : eqType) (V : Type).
Hypothesis n_pos : 0 < n.
Notation proc := (proc I D V).
Notation J := (prod_eqType nat_eqType I).
Variable plan : J -> round D.

(** [p] runs the rounds [ids] in this order and ends with [v]. *)
Definition follows (me : nat) (p : proc) (ids : seq J) (v : V) : Prop :=
  exists z, foll n plan me p [seq (id, st0 n plan id) | id <- ids] z v.

Lemma foll_bind me p O1 z1 (v1 : V) f O2 z2 (v : V) : foll n plan me p O1 z1 v1 ->
  foll n plan me (f v1) O2 z2 v -> foll n plan me (bind p f) (O1 ++ O2) (z1 + z2) v.
Proof.
move=> F1 F2; elim: F1 F2 => {p O1 z1 v1} //=.
- move=> id dd j k O z v1 Hp Hj _ IH F2; exact: FXSend (IH F2).
- move=> id dd d k O z v1 Hp Hd _ IH F2; exact: FXAll Hp Hd (IH F2).
- move=> id dd got k O z v1 Hp Hs Hg _ IH F2; exact: FXGath (IH F2).
- move=> id L up dn k O z v1 Hp HL _ IH F2; exact: FLUp Hp HL (IH F2).
- move=> id up dn got k O z v1 Hp Hs Hg _ IH F2; exact: FLGath Hp Hs Hg (IH F2).
- move=> id up dn j k O z v1 Hp Hj _ IH F2; exact: FLDown Hp Hj (IH F2).
- move=> id up dn d k O z v1 Hp Hd _ IH F2; exact: FLAll Hp Hd (IH F2).
- move=> id L up dn k O z v1 Hp HL _ IH F2; exact: FLWait Hp HL (IH F2).
- move=> p q k ph O1 O2' O3 z1 z2' z3 v1 v2 v3 P1 P2 F1 _ F2' _ _ IH F2.
  have := @FFork n I D V plan me p q (fun a b => bind (k a b) f) _ _ _ _ _ _ _ _ _ _ P1 P2 F1 F2' (IH F2); rewrite -!catA.
  by rewrite (_ : (z1 + z2' + (z3 + z2)).+1 = (z1 + z2' + z3).+1 + z2) //; lia.
Qed.

Lemma follows_ret me (v : V) : follows me (Ret v) [::] v.
Proof. by exists 0; constructor. Qed.

Lemma follows_bind me p ids1 v1 f ids2 v : follows me p ids1 v1 -> follows me (f v1) ids2 v ->
  follows me (bind p f) (ids1 ++ ids2) v.
Proof. move=> [z1 F1] [z2 F2]; exists (z1 + z2); rewrite map_cat; exact: foll_bind F1 F2. Qed.

Lemma follows_fork me p q k ph ids1 ids2 (ids3 : seq J) v1 v2 v :
  follows me p [seq (ph, i) | i <- ids1] v1 -> follows me q [seq (ph, i) | i <- ids2] v2 ->
  follows me (k v1 v2) ids3 v ->
  follows me (Fork p q k) ([seq (ph, i) | i <- ids1] ++ [seq (ph, i) | i <- ids2] ++ ids3) v.
Proof.
move=> [z1 F1] [z2 F2] [z3 F3]; exists (z1 + z2 + z3).+1; rewrite !map_cat.
have P l : in_phase ph [seq (id, st0 n plan id) | id <- [seq (ph, i) | i <- l]].
  by rewrite /in_phase !all_map; apply/allP => i _ /=.
exact: FFork (P _) (P _) F1 F2 F3.
Qed.

Lemma foll_gather_x me (id : J) dd k O z (v : V) : plan id = Exch dd ->
  foll n plan me (k [seq dd s me | s <- iota 0 n]) O z v ->
  foll n plan me (gather n id.2 k) ((id, XGath (none n)) :: O) z.+1 v.
Proof.
move=> Hp F; rewrite /gather (_ : none n = [seq isSome x | x <- nseq n (None : option D)]); last by rewrite map_nseq.
apply: FXGath Hp _ _ F; first by rewrite size_nseq.
by move=> s x Hs; rewrite nth_nseq if_same.
Qed.

Lemma follows_exch me (id : J) dd d k ids v : plan id = Exch dd -> (forall j, j < n -> d j = dd me j) ->
  follows me (k [seq dd s me | s <- iota 0 n]) ids v ->
  follows me (send_each n id.2 d (gather n id.2 k)) (id :: ids) v.
Proof.
move=> Hp Hd [z F]; exists z.+1; have Es : st0 n plan id = xs n 0 by rewrite /st0 Hp.
rewrite /= Es /send_each.
have {}F := foll_gather_x Hp F.
suff H : forall m j, m + j = n ->
    foll n plan me (foldr (fun i q => Send (One i) id.2 (d i) q) (gather n id.2 k) (iota j m))
      ((id, xs n j) :: [seq (id, st0 n plan id) | id <- ids]) z.+1 v.
  by apply: H; rewrite addn0.
elim=> [|m IH] j E /=; first by move: E; rewrite add0n => ->; rewrite /xs eqxx.
rewrite {1}/xs ifF; last by apply/eqP; lia.
have Hj : j < n by lia.
rewrite Hd //; apply: FXSend Hp Hj _; apply: IH; lia.
Qed.

Lemma follows_all me (id : J) dd d k ids v : plan id = Exch dd -> (forall r, r < n -> dd me r = d) ->
  follows me (k [seq dd s me | s <- iota 0 n]) ids v ->
  follows me (Send All id.2 d (gather n id.2 k)) (id :: ids) v.
Proof.
move=> Hp Hd [z F]; exists z.+1; have Es : st0 n plan id = XSend 0.
  by rewrite /st0 Hp /xs ifF //; apply/eqP; move: (n_pos); lia.
rewrite /= Es.
exact: FXAll Hp Hd (foll_gather_x Hp F).
Qed.

(** [g] is what the leader does with the gathered messages. *)
Lemma follows_lead_g me (id : J) L up dn g k ids v : plan id = Lead L up dn -> L < n -> me < n ->
  (me = L -> g [seq up s | s <- iota 0 n] = send_each n id.2 dn (Recv id.2 k)) ->
  follows me (k L (dn me)) ids v ->
  follows me (Send (One L) id.2 (up me) (if me == L then gather n id.2 g else Recv id.2 k)) (id :: ids) v.
Proof.
move=> Hp HL Hm Hg [z F].
have R : foll n plan me (Recv id.2 k) ((id, LWait) :: [seq (id, st0 n plan id) | id <- ids]) z v.
  exact: FLWait Hp HL F.
exists (if me == L then z.+1 else z); have Es : st0 n plan id = LUp by rewrite /st0 Hp.
rewrite /= Es.
apply: (FLUp Hp HL); case: eqP => [E|//].
rewrite /gather (_ : none n = [seq isSome x | x <- nseq n (None : option D)]); last by rewrite map_nseq.
have {}Hg := Hg E; rewrite -E in Hp HL Hg.
apply: (FLGath Hp); first by rewrite size_nseq.
  by move=> s x Hs; rewrite nth_nseq if_same.
rewrite Hg.
suff H : forall m j, m + j = n ->
    foll n plan me (foldr (fun i q => Send (One i) id.2 (dn i) q) (Recv id.2 k) (iota j m))
      ((id, ls n j) :: [seq (id, st0 n plan id) | id <- ids]) z v.
  by apply: H; rewrite addn0.
elim=> [|m IH] j E' /=; first by move: E'; rewrite add0n => ->; rewrite /ls eqxx.
rewrite {1}/ls ifF; last by apply/eqP; lia.
have Hj : j < n by lia.
apply: FLDown Hp Hj _; apply: IH; lia.
Qed.

(** A leader who sends its answer to everybody at once. *)
Lemma follows_lead_all me (id : J) L up d g k ids v : plan id = Lead L up (fun _ => d) -> L < n -> me < n ->
  (me = L -> g [seq up s | s <- iota 0 n] = Send All id.2 d (Recv id.2 k)) ->
  follows me (k L d) ids v ->
  follows me (Send (One L) id.2 (up me) (if me == L then gather n id.2 g else Recv id.2 k)) (id :: ids) v.
Proof.
move=> Hp HL Hm Hg [z F].
have R : foll n plan me (Recv id.2 k) ((id, LWait) :: [seq (id, st0 n plan id) | id <- ids]) z v.
  exact: FLWait Hp HL F.
exists (if me == L then z.+1 else z); have Es : st0 n plan id = LUp by rewrite /st0 Hp.
rewrite /= Es.
apply: (FLUp Hp HL); case: eqP => [E|//].
rewrite /gather (_ : none n = [seq isSome x | x <- nseq n (None : option D)]); last by rewrite map_nseq.
have {}Hg := Hg E; rewrite -E in Hp HL Hg.
apply: (FLGath Hp); first by rewrite size_nseq.
  by move=> s x Hs; rewrite nth_nseq if_same.
rewrite Hg /ls ifF; last by apply/eqP; move: (n_pos); lia.
exact: FLAll Hp _ R.
Qed.

Lemma follows_lead me (id : J) L up dn f k ids v : plan id = Lead L up dn -> L < n -> me < n ->
  (me = L -> forall j, j < n -> f [seq up s | s <- iota 0 n] j = dn j) ->
  follows me (k L (dn me)) ids v ->
  follows me (Send (One L) id.2 (up me)
    (if me == L then gather n id.2 (fun ds => send_each n id.2 (f ds) (Recv id.2 k)) else Recv id.2 k)) (id :: ids) v.
Proof.
move=> Hp HL Hm Hf F; apply: (follows_lead_g Hp HL Hm) => // E.
rewrite /send_each.
suff H : forall m j, m + j = n ->
    foldr (fun i q => Send (One i) id.2 (f [seq up s | s <- iota 0 n] i) q) (Recv id.2 k) (iota j m) =
    foldr (fun i q => Send (One i) id.2 (dn i) q) (Recv id.2 k) (iota j m) by apply: H; rewrite addn0.
elim=> [|m IH] j E' //=; rewrite Hf //; last by lia.
by rewrite IH //; lia.
Qed.

Lemma follows_z (P : nat -> proc) (ids : seq J) (res : nat -> V) :
  (forall i, i < n -> follows i (P i) ids (res i)) ->
  exists z : nat -> nat, forall i, i < n -> foll n plan i (P i) [seq (id, st0 n plan id) | id <- ids] (z i) (res i).
Proof.
suff : forall m, (forall i, i < m -> follows i (P i) ids (res i)) -> exists z : nat -> nat, forall i, i < m ->
    foll n plan i (P i) [seq (id, st0 n plan id) | id <- ids] (z i) (res i) by apply.
elim=> [|m IH] H; first by exists (fun _ => 0).
have [z Hz] := IH (fun i Hi => H i (ltnW Hi)).
have [zm Hm] := H m (leqnn _).
exists (fun i => if i == m then zm else z i) => i; rewrite ltnS leq_eqVlt.
by case: eqP => [-> _|_ /= Hi] //; apply: Hz.
Qed.

(** All parties following one list of rounds: every schedule runs to the end. *)
Theorem follows_runs (P : nat -> proc) (ids : seq J) (res : nat -> V) : phased ids ->
  (forall i, i < n -> follows i (P i) ids (res i)) ->
  every_run_ends n (start P) (all_done n res).
Proof.
move=> U H; have [z Hz] := follows_z H.
apply: (plan_runs n_pos (plan := plan) U); exact: Hz.
Qed.

End Build.

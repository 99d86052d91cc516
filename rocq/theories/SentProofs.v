(** Which messages are sent in the executions of codes made of rounds. *)

From Coq Require List.
From mathcomp Require Import all_ssreflect zify.
From Verif Require Import MachineModel MachineProofs MachineBuild Realize ViewSpec.
Set Implicit Arguments.
Unset Strict Implicit.
Unset Printing Implicit Defensive.

Lemma gsteps_snoc n (I D : eqType) (V : Type) k (c c1 c2 : cfg I D V) : gsteps n k c c1 -> gstep n c1 c2 -> gsteps n k.+1 c c2.
Proof. by elim=> [c0 S|k0 c0 c3 c4 S1 _ IH S2]; [exact: GSS S (GS0 _ _)|exact: GSS S1 (IH S2)]. Qed.

Lemma in_ids (I D : eqType) (rds : seq (I * round D)) id rd : List.In (id, rd) rds -> id \in ids rds.
Proof. by elim: rds => //= x r IH [->|/IH H]; rewrite in_cons ?eqxx ?H ?orbT. Qed.

Lemma agrees_in (I D : eqType) (plan : nat * I -> round D) ph (rds : seq (I * round D)) id rd :
  agrees plan ph rds -> List.In (id, rd) rds -> plan (ph, id) = rd.
Proof. by elim: rds => //= x r IH [H1 H2] [E|/IH]; [move: H1; rewrite E|exact]. Qed.

Section Sent.
Variables (n : nat) (I D : eqType) (V : Type).
Hypothesis n_pos : 0 < n.
Variables (T : Type) (rds : seq (I * round D)) (P : nat -> (T -> proc I D V) -> proc I D V) (res : nat -> T) (inj : T -> V) (d0 : D).
Hypothesis U : uniq (ids rds).
Hypothesis HR : realizes n rds P res.
Notation code := (fun i => P i (fun x => Ret (inj x))).
Notation plan := (plan_of d0 [:: rds]).
Notation js := (jds 0 rds).

Lemma code_follows : exists z : nat -> nat, forall i, i < n -> foll n plan i (code i) [seq (id, st0 n plan id) | id <- js] (z i) (inj (res i)).
Proof.
apply: follows_z => i Hi; rewrite -[js]cats0; apply: HR => //; last exact: follows_ret.
exact: (@plan_of_agrees _ _ d0 [:: rds] 0).
Qed.

Lemma plan_in id rd : List.In (id, rd) rds -> plan (0, id) = rd.
Proof. exact: agrees_in (@plan_of_agrees _ _ d0 [:: rds] 0 U). Qed.

Lemma mem_js id rd : List.In (id, rd) rds -> ((0, id) : prod_eqType nat_eqType I) \in js.
Proof. by move=> /in_ids Hid; apply/mapP; exists id. Qed.

Definition on_plan (rd : round D) (r : nat) (t : option nat) : bool :=
  match rd, t with Exch _, None => false | Lead L _ _, Some _ => r == L | _, _ => true end.

(** Nothing else is sent. *)
Lemma sent_plan s r id d rd : List.In (id, rd) rds -> r < n -> sent_in n code s r id d ->
  exists t, [/\ t \in toks n, on_plan rd r t & payload rd r t = (s, d)].
Proof.
move=> Hin Hr [k [c [S Hm]]]; have [z Hz] := code_follows.
have HI := start_inv n_pos (plan := plan) (ids := js) Hz.
have [gn [gm [O [z' [HI' _]]]]] := steps_inv n_pos (jds_phased n_pos U) HI S.
have [j [t [Hj Ej Ht St Ep]]] := net_payload HI' Hr Hm.
have Ej' : j = (0, id) by move: Hj Ej => /mapP[id' _ ->] /= ->.
exists t; move: St Ep; rewrite Ej' (plan_in Hin) => St Ep; split=> //.
by case: rd St {Ep Hin} => [dd|L up dn]; case: t {Ht} => //= s' /andP[->].
Qed.

(** Everything is sent. *)
Lemma plan_sent r id rd t : List.In (id, rd) rds -> r < n -> t \in toks n ->
  on_plan rd r t -> (if rd is Lead L _ _ then L < n else true) ->
  sent_in n code (payload rd r t).1 r id (payload rd r t).2.
Proof.
move=> Hin Hr Ht Hs HL; have [z Hz] := code_follows.
have HI := start_inv n_pos (plan := plan) (ids := js) Hz.
have [B HB] := plan_runs n_pos (plan := plan) (jds_phased n_pos U) Hz.
have [k [c [S Hc]]] : exists k c, gsteps n k (start code) c /\ all_done n (fun i => inj (res i)) c.
  have H : forall b k c, b + k = B.+1 -> gsteps n k (start code) c -> exists k c, gsteps n k (start code) c /\ all_done n (fun i => inj (res i)) c.
    elim=> [|b IH] k c E S; first by have [Hk _] := HB k c S; lia.
    have [_ [[c' S']|H]] := HB k c S; last by exists k, c.
    by apply: (IH k.+1 c'); [lia|exact: gsteps_snoc S S'].
  by apply: (H B.+1 0 (start code)); [lia|constructor].
have Hj := mem_js Hin.
have [||k' [c' [S' M]]] := @sent_between n I D V n_pos plan js _ (jds_phased n_pos U) k _ _ _ _ _ c (0, id) r t HI S Hc Hr Ht.
- move=> O' HO; rewrite (plan_in Hin); move: Hs HL Ht {Hin}; case: rd => [dd|L up dn]; case: t => [s|] //= Hs HL Ht.
  + by rewrite /sto HO //; rewrite toks_some in Ht.
  + by rewrite Hs /sto HO //; rewrite toks_some in Ht.
  + by rewrite /sto HO.
- rewrite (plan_in Hin).
  have stE s : sto (fun _ => [seq (id, st0 n plan id) | id <- js]) (0, id) s = Some (st0 n plan (0, id)).
    rewrite /sto; elim: js Hj => [|a l IH] //=; rewrite in_cons eq_sym; by case: eqP => [->|].
  case: rd Hs HL Hin => [dd|L up dn] Hs HL Hin; case: t Ht Hs => [s|] // Ht Hs; rewrite /= !stE.
  + by rewrite (st0_exch n_pos (plan_in Hin)).
  + by rewrite (st0_lead _ (plan_in Hin)) andbF.
  + by rewrite (st0_lead _ (plan_in Hin)).
exists k', c'; split=> //; move: M; rewrite (plan_in Hin) /=; by case: (payload _ _ _).
Qed.

Lemma exch_sent id dd s r d : List.In (id, Exch dd) rds -> s < n -> r < n -> (sent_in n code s r id d <-> d = dd s r).
Proof.
move=> Hin Hs Hr; split=> [/(sent_plan Hin Hr) [[s'|] [Ht Ho //=]]|->]; first by case=> -> ->.
by have := @plan_sent r id (Exch dd) (Some s) Hin Hr; rewrite toks_some => /(_ Hs isT isT).
Qed.

Lemma up_sent id L up dn s d : List.In (id, Lead L up dn) rds -> L < n -> s < n -> s != L -> (sent_in n code s L id d <-> d = up s).
Proof.
move=> Hin HL Hs Hne; split=> [/(sent_plan Hin HL) [[s'|] [Ht Ho //=]]|->].
- by case=> -> ->.
- by case=> E; rewrite E eqxx in Hne.
- by have := @plan_sent L id (Lead L up dn) (Some s) Hin HL; rewrite toks_some /= => /(_ Hs (eqxx _) HL).
Qed.

Lemma down_sent id L up dn r d : List.In (id, Lead L up dn) rds -> L < n -> r < n ->
  (sent_in n code L r id d <-> d = dn r \/ r = L /\ d = up L).
Proof.
move=> Hin HL Hr; split=> [/(sent_plan Hin Hr) [[s'|] [Ht Ho //=]]|].
- by move: Ho => /= /eqP -> [<- <-]; right.
- by case=> ->; left.
case=> [->|[-> ->]].
- by have := @plan_sent r id (Lead L up dn) None Hin Hr; rewrite /= => /(_ isT isT HL).
- by have := @plan_sent L id (Lead L up dn) (Some L) Hin HL; rewrite toks_some /= => /(_ HL (eqxx _) HL).
Qed.

End Sent.

(** Proofs about the routing of sent messages. *)

From Coq Require Import NArith.
From mathcomp Require Import all_ssreflect zify.
From Verif Require Import MachineModel FrameModel FrameProofs RouteModel RouteSpec.
Set Implicit Arguments.
Unset Strict Implicit.
Unset Printing Implicit Defensive.

(** ** Runs *)

Section Generic.
Variables (S : Type) (step : S -> label -> S -> Prop) (ok : smsg -> Prop).
Variable Inv : seq (nat * smsg) -> S -> Prop.
Hypothesis inv_call : forall cs s i m s', Inv cs s -> ok m -> step s (Call i m) s' -> Inv (rcons cs (i, m)) s'.
Hypothesis inv_tau : forall cs s s', Inv cs s -> step s Tau s' -> Inv cs s'.

Lemma runs_inv s cs k s' : runs step s cs k s' -> forall cs0, Inv cs0 s ->
  (forall i m, List.In (i, m) cs -> ok m) -> Inv (cs0 ++ cs) s'.
Proof.
elim=> {s cs k s'} [s|s i m s' cs k s'' Hs _ IH|s s' cs k s'' Hs _ IH] cs0 Hi Hok.
- by rewrite cats0.
- rewrite -cat_rcons; apply: IH.
  + by apply: inv_call Hi _ Hs; apply: (Hok i); left.
  + by move=> j m' Hin; apply: (Hok j); right.
- by apply: IH => //; apply: inv_tau Hi Hs.
Qed.

Variable mu : S -> nat.
Hypothesis mu_tau : forall s s', step s Tau s' -> mu s' < mu s.

Lemma runs_mu s cs k s' : runs step s cs k s' -> cs = [::] -> k + mu s' <= mu s.
Proof.
elim=> {s cs k s'} [s|s i m s' cs k s'' Hs _ IH|s s' cs k s'' Hs _ IH] // Ec.
by have := mu_tau Hs; have := IH Ec; lia.
Qed.
End Generic.

(** ** Lists and sums *)

Lemma got_rcons out i x : got_from (rcons out x) i = got_from out i ++ (if x.1 == i then [:: x.2] else [::]).
Proof. by rewrite /got_from filter_rcons; case: ifP => _; rewrite ?map_rcons -?cats1 ?cats0. Qed.

Lemma expected_rcons cs i j c : expected (rcons cs c) i j =
  expected cs i j ++ (if (c.1 == i) && addressed c.2.1 j then [:: c.2.2] else [::]).
Proof. by rewrite /expected filter_rcons; case: ifP => _; rewrite ?map_rcons -?cats1 ?cats0. Qed.

Lemma updE T (f : nat -> T) i x j : upd f i x j = if j == i then x else f j.
Proof. by []. Qed.

Lemma upd2E T (f : nat -> nat -> T) i j x a b : upd2 f i j x a b = if (a == i) && (b == j) then x else f a b.
Proof. by []. Qed.

Definition in_range (n : nat) (to : recipient) : bool := if to is One p then p < n else true.

Lemma filter_iota n j : j < n -> [seq r <- iota 0 n | r == j] = [:: j].
Proof.
move=> H; have -> : n = j + (1 + (n - j.+1)) by lia.
rewrite iotaD filter_cat iotaD filter_cat /= add0n eqxx.
rewrite (eq_in_filter (a2 := pred0)); last by move=> x; rewrite mem_iota /= => Hx; apply/negbTE; lia.
rewrite filter_pred0 /= (eq_in_filter (a2 := pred0)) ?filter_pred0 //.
by move=> x; rewrite mem_iota /= => Hx; apply/negbTE; lia.
Qed.

Lemma targets_range n to : in_range n to -> all (fun r => r < n) (targets n to).
Proof.
case: to => [p|_] /=; first by rewrite andbT.
by apply/allP => r; rewrite mem_iota add0n => /andP [].
Qed.

Lemma targets_filter n to j : in_range n to -> j < n ->
  [seq r <- targets n to | r == j] = if addressed to j then [:: j] else [::].
Proof. by case: to => [p|] /= _ Hj; [case: ifP => [/eqP ->|] | rewrite filter_iota]. Qed.

(** The part of a list of (recipient, x) that is for [j]. *)
Definition for_ T (j : nat) (l : seq (nat * T)) : seq T := [seq x.2 | x <- l & x.1 == j].

Lemma for_cons T j (l : seq (nat * T)) x : for_ j (x :: l) = (if x.1 == j then [:: x.2] else [::]) ++ for_ j l.
Proof. by rewrite /for_ /=; case: ifP. Qed.

Lemma for_targets T n to j (x : T) : in_range n to -> j < n ->
  for_ j [seq (r, x) | r <- targets n to] = if addressed to j then [:: x] else [::].
Proof.
move=> Hr Hj; rewrite /for_ filter_map -map_comp /=.
rewrite (eq_filter (a2 := fun r => r == j)) // targets_filter //.
by case: ifP.
Qed.

Lemma leq_targets n to : size (targets n to) <= n.+1.
Proof. by case: to => [p|] /=; rewrite ?size_iota. Qed.

Lemma sum_upd n T (f : nat -> T) (W : nat -> T -> nat) i x : i < n ->
  \sum_(a < n) W a (upd f i x a) + W i (f i) = \sum_(a < n) W a (f a) + W i x.
Proof.
move=> Hi; rewrite (bigD1 (Ordinal Hi)) //= [in RHS](bigD1 (Ordinal Hi)) //= updE eqxx.
rewrite (eq_bigr (fun a : 'I_n => W a (f a))); last first.
  by move=> a Ha; rewrite updE; case: eqP => // E; case/eqP: Ha; apply: val_inj.
by lia.
Qed.

Definition to_of (j : nat) (q : seq smsg) : seq payload := [seq m.2 | m <- q & addressed m.1 j].

Lemma to_of_cons j m q : to_of j (m :: q) = (if addressed m.1 j then [:: m.2] else [::]) ++ to_of j q.
Proof. by rewrite /to_of /=; case: ifP. Qed.

Lemma to_of_rcons j m q : to_of j (rcons q m) = to_of j q ++ (if addressed m.1 j then [:: m.2] else [::]).
Proof. by rewrite /to_of filter_rcons; case: ifP => _; rewrite ?map_rcons -?cats1 ?cats0. Qed.

Lemma expected_cons cs i j c : expected (c :: cs) i j =
  (if (c.1 == i) && addressed c.2.1 j then [:: c.2.2] else [::]) ++ expected cs i j.
Proof. by rewrite /expected /=; case: ifP. Qed.

Lemma got_cons out i x : got_from (x :: out) i = (if x.1 == i then [:: x.2] else [::]) ++ got_from out i.
Proof. by rewrite /got_from /=; case: ifP. Qed.

(** ** The local network *)

Record linv n (cs : seq (nat * smsg)) (s : lnet) : Prop := LInv {
  li_flow : forall i j, i < n -> j < n ->
    expected cs i j = got_from (l_out s j) i ++ got_from (for_ j (l_cur s)) i ++
                      expected (l_router s) i j ++ to_of j (l_inp s i);
  li_inp : forall i, i < n -> all (fun m : smsg => in_range n m.1) (l_inp s i);
  li_router : all (fun c : nat * smsg => (c.1 < n) && in_range n c.2.1) (l_router s);
  li_cur : all (fun x : nat * (nat * payload) => (x.1 < n) && (x.2.1 < n)) (l_cur s);
  li_out : forall j, all (fun x : nat * payload => (j < n) && (x.1 < n)) (l_out s j) }.

Lemma linv_init n : linv n [::] linit.
Proof. by []. Qed.

Lemma linv_call n cs s i m s' : linv n cs s -> in_range n m.1 -> lnstep n s (Call i m) s' -> linv n (rcons cs (i, m)) s'.
Proof.
move=> [H1 H2 H3 H4 H5] Hm Hs; inversion Hs as [i' m' Hi E1 E2| | |]; subst i' m' s'; split=> //= [a b Ha Hb|a Ha].
- rewrite expected_rcons (H1 a b Ha Hb) /= -!catA updE eq_sym; congr (_ ++ (_ ++ (_ ++ _))).
  by case: eqP => [->|_]; rewrite ?cats0 ?to_of_rcons.
- by rewrite updE; case: eqP => [_|_]; [rewrite all_rcons Hm H2 | apply: H2].
Qed.

Lemma linv_tau n cs s s' : linv n cs s -> lnstep n s Tau s' -> linv n cs s'.
Proof.
move=> [H1 H2 H3 H4 H5] Hs; inversion Hs as [|i m q Hi E|i m q E1 E2|r x q E Hr]; subst s'; split=> //=.
- move=> a b Ha Hb; rewrite (H1 a b Ha Hb) expected_rcons /= -!catA updE eq_sym; congr (_ ++ (_ ++ (_ ++ _))).
  by case: eqP => [->|_] //=; rewrite E to_of_cons.
- move=> a Ha; rewrite updE; case: eqP => [Ea|_]; last exact: H2.
  by have := H2 _ Hi; rewrite E /= => /andP [].
- by rewrite all_rcons H3 andbT /= Hi; have := H2 _ Hi; rewrite E /= => /andP [].
- move: H3; rewrite E2 /= => /andP [/andP [Hi Hm] H3] a b Ha Hb.
  rewrite (H1 a b Ha Hb) E1 E2 expected_cons /= for_targets //.
  by case: (addressed m.1 b); rewrite ?andbT ?andbF //= /got_from /=; case: (i == a).
- by move: H3; rewrite E2 /= => /andP [].
- move: H3; rewrite E2 /= => /andP [/andP [Hi Hm] _].
  rewrite all_map; apply/allP => r Hr /=; rewrite Hi andbT.
  by apply: (allP (targets_range Hm)).
- move=> a b Ha Hb; rewrite (H1 a b Ha Hb) E for_cons /= updE eq_sym.
  by case: eqP => [->|_] //=; rewrite got_rcons got_cons -!catA.
- by move: H4; rewrite E /= => /andP [].
- move=> j; rewrite updE; case: eqP => [->|_]; last exact: H5.
  by rewrite all_rcons H5 andbT /= Hr; move: H4; rewrite E /= => /andP [/andP []].
Qed.

Definition lmu n (s : lnet) : nat :=
  \sum_(i < n) size (l_inp s i) * n.+3 + size (l_router s) * n.+2 + size (l_cur s).

Lemma lmu_tau n s s' : lnstep n s Tau s' -> lmu n s' < lmu n s.
Proof.
move=> Hs; inversion Hs as [|i m q Hi E|i m q E1 E2|r x q E Hr]; subst s'; rewrite /lmu /=.
- have := sum_upd (l_inp s) (fun _ l => size l * n.+3) q Hi; rewrite E /= size_rcons; lia.
- by rewrite E1 E2 /= size_map; have := leq_targets n m.1; lia.
- by rewrite E /=; lia.
Qed.

Lemma local_delivers n : delivers (lnstep n) n linit l_out (fun m => in_range n m.1).
Proof.
move=> cs k s Hr Hok.
have [H1 H2 H3 H4 H5] := runs_inv (@linv_call n) (@linv_tau n) Hr (linv_init n) Hok.
split.
- by move=> i j Hi Hj; rewrite H1 //; eexists.
- move=> j x Hx; have := H5 j; elim: (l_out s j) Hx => [|y l IH] //= [<-|Hx] /andP [/andP [? ?] ?] //.
  exact: IH.
- exists (lmu n s) => k' s' Hr'; have := runs_mu (@lmu_tau n) Hr' erefl; lia.
- move=> Hq i j Hi Hj; rewrite [RHS]H1 //.
  have Ei : l_inp s i = [::].
    by case E: (l_inp s i) => [|m q] //; case: (Hq _ (LnForward Hi E)).
  have Ec : l_cur s = [::].
    case E: (l_cur s) => [|[r x] q] //; move: H4; rewrite E /= => /andP [/andP [Hr' _] _].
    by case: (Hq _ (LnPush E Hr')).
  have Er : l_router s = [::].
    by case E: (l_router s) => [|[a m] q] //; case: (Hq _ (LnPick n Ec E)).
  by rewrite Ei Ec Er /= !cats0.
Qed.

(** ** The TCP network *)

Lemma cat_app T (a b : seq T) : a ++ b = List.app a b.
Proof. by elim: a => [|x a IH] //=; rewrite IH. Qed.

Lemma size_length T (a : seq T) : size a = length a.
Proof. by []. Qed.

Lemma concat1 (a : seq N) : List.concat [:: a] = a.
Proof. by rewrite /= List.app_nil_r. Qed.

Record tinv n (cs : seq (nat * smsg)) (s : tnet) : Prop := TInv {
  ti_flow : forall i j, i < n -> j < n -> exists ms,
    [/\ send_all ms = Some (t_buf s i j ++ t_flight s i j), List.Forall msg_ok ms,
        expected cs i j = got_from (t_out s j) i ++ ms ++ t_link s i j ++ for_ j (t_cur s i) ++ to_of j (t_inp s i) &
        i = j -> ms = [::] /\ t_link s i j = [::]];
  ti_inp : forall i m, i < n -> List.In m (t_inp s i) -> in_range n m.1 /\ msg_ok m.2;
  ti_cur : forall i x, i < n -> List.In x (t_cur s i) -> x.1 < n /\ msg_ok x.2;
  ti_link : forall i j pl, i < n -> j < n -> List.In pl (t_link s i j) -> msg_ok pl;
  ti_out : forall j x, List.In x (t_out s j) -> j < n /\ x.1 < n }.

Lemma tinv_init n : tinv n [::] tinit.
Proof. by split=> // i j Hi Hj; exists [::]. Qed.

Lemma In_rcons T (x y : T) l : List.In x (rcons l y) -> List.In x l \/ x = y.
Proof. by elim: l => [|z l IH] /= [E|H]; auto; case: (IH H); auto. Qed.

Lemma In_map_pair T (l : seq nat) (y : T) x : List.In x [seq (r, y) | r <- l] -> x.1 \in l /\ x.2 = y.
Proof.
elim: l => [|r l IH] //= [<-|/IH [H1 H2]]; first by rewrite /= inE eqxx.
by rewrite inE H1 orbT.
Qed.

Lemma tinv_call n cs s i m s' : tinv n cs s -> in_range n m.1 /\ msg_ok m.2 -> tnstep n s (Call i m) s' ->
  tinv n (rcons cs (i, m)) s'.
Proof.
move=> [H1 H2 H3 H4 H5] Hm Hs; inversion Hs as [i' m' Hi E1 E2| | | | | |]; subst i' m' s'; split=> //=.
- move=> a b Ha Hb; have [ms [F1 F2 F3 F4]] := H1 a b Ha Hb; exists ms; split=> //.
  rewrite expected_rcons F3 /= -!catA updE eq_sym; congr (_ ++ (_ ++ (_ ++ (_ ++ _)))).
  by case: eqP => [->|_]; rewrite ?cats0 ?to_of_rcons.
- move=> a x Ha; rewrite updE; case: eqP => [Ea|_]; last exact: H2.
  by move=> Hx; have [Hx2|->] := In_rcons Hx => //; apply: (H2 _ _ _ Hx2).
Qed.

Lemma send_all_rcons ms pl bs b : send_all ms = Some bs -> frame pl = Some b ->
  send_all (rcons ms pl) = Some (bs ++ b).
Proof.
move=> E1 E2; rewrite -cats1 cat_app send_all_app E1 /= E2 /= List.app_nil_r.
by rewrite cat_app.
Qed.

Lemma tinv_tau n cs s s' : tinv n cs s -> tnstep n s Tau s' -> tinv n cs s'.
Proof.
move=> [H1 H2 H3 H4 H5] Hs; inversion Hs as
  [|i m q Hi E1 E2|i pl q Hi E|i r pl q Hi Hr Hne E|i j pl q b Hi Hj E Ef|i j k Hi Hj Hk|i j pl rest Hi Hj Er];
  subst s'; split=> //=.
- move=> a b Ha Hb; have [ms [F1 F2 F3 F4]] := H1 a b Ha Hb; exists ms; split=> //.
  rewrite F3 /= !updE; congr (_ ++ (_ ++ (_ ++ _))).
  case: eqP => [->|_] //; rewrite E1 E2 to_of_cons /= for_targets //.
  by case: (H2 i m Hi) => //; rewrite E2; left.
- move=> a x Ha; rewrite updE; case: eqP => [Ea|_]; last exact: H2.
  by move=> Hx; apply: (H2 i) => //; rewrite E2; right.
- move=> a x Ha; rewrite updE; case: eqP => [Ea|_]; last exact: H3.
  have [Hm1 Hm2] : in_range n m.1 /\ msg_ok m.2 by apply: (H2 i) => //; rewrite E2; left.
  move=> Hx0; have [Hx ->] := In_map_pair Hx0; split=> //.
  exact: (allP (targets_range Hm1)).
- move=> a b Ha Hb; have [ms [F1 F2 F3 F4]] := H1 a b Ha Hb; exists ms; split=> //.
  rewrite F3 /= !updE; case: (eqVneq a i) => [Ea|Na]; last first.
    by case: eqP => [Eb|_] //; rewrite got_rcons /= -Eb Eb eq_sym (negbTE Na) cats0.
  subst a; rewrite E for_cons /= eq_sym; case: eqP => [Eb|_] //.
  subst b; have [-> ->] := F4 erefl; rewrite got_rcons /= eqxx -!catA /=.
  by [].
- move=> a x Ha; rewrite updE; case: eqP => [Ea|_]; last exact: H3.
  by move=> Hx; apply: (H3 i) => //; rewrite E; right.
- move=> j x; rewrite updE; case: eqP => [->|_]; last exact: H5.
  by move=> Hx; have [Hx2|->] := In_rcons Hx => //; apply: (H5 _ _ Hx2).
- move=> a b Ha Hb; have [ms [F1 F2 F3 F4]] := H1 a b Ha Hb; exists ms.
  rewrite !updE !upd2E; case: (eqVneq a i) => [Ea|Na] //=.
  subst a; split=> //.
  + rewrite F3 E for_cons /= eq_sym; case: eqP => [Eb|_] //.
    by subst b; rewrite -cats1 -!catA.
  + by move=> Eb; subst b; rewrite eq_sym (negbTE Hne); apply: F4.
- move=> a x Ha; rewrite updE; case: eqP => [Ea|_]; last exact: H3.
  by move=> Hx; apply: (H3 i) => //; rewrite E; right.
- move=> a b x Ha Hb; rewrite upd2E; case: andP => [[/eqP Ea /eqP Eb]|_]; last exact: H4.
  move=> Hx; have [Hx2|->] := In_rcons Hx; first by apply: (H4 _ _ _ _ _ Hx2).
  by case: (H3 i (r, pl) Hi) => //; rewrite E; left.
- move=> a c Ha Hc; have [ms [F1 F2 F3 F4]] := H1 a c Ha Hc.
  rewrite !upd2E; case: andP => [[/eqP Ea /eqP Ec]|_]; last by exists ms.
  subst a c; exists (rcons ms pl); split.
  + by rewrite catA; apply: send_all_rcons.
  + rewrite -cats1 cat_app; apply/List.Forall_app; split=> //.
    by constructor=> //; apply: (H4 i j) => //; rewrite E; left.
  + by rewrite F3 E -cats1 -!catA.
  + by move=> Eij; have [_] := F4 Eij; rewrite E.
- move=> a c x Ha Hc; rewrite upd2E; case: andP => [[/eqP Ea /eqP Ec]|_]; last exact: H4.
  by move=> Hx; apply: (H4 i j) => //; rewrite E; right.
- move=> a c Ha Hc; have [ms [F1 F2 F3 F4]] := H1 a c Ha Hc; exists ms.
  rewrite !upd2E; case: andP => [[/eqP Ea /eqP Ec]|_]; last by [].
  by subst a c; split=> //; rewrite -catA cat_take_drop.
- move=> a c Ha Hc; have [ms [F1 F2 F3 F4]] := H1 a c Ha Hc.
  rewrite updE !upd2E; case: (eqVneq c j) => [Ec|Nc]; last by rewrite andbF; exists ms.
  subst c; rewrite got_rcons /= andbT eq_sym; case: eqP => [Ea|_]; last by rewrite cats0; exists ms.
  subst a; case: ms F1 F2 F3 F4 => [|m ms] /= F1 F2 F3 F4.
    have Eb : t_buf s i j = [::] by case: F1; case: (t_buf s i j).
    by move: Er; rewrite Eb (recv_one_nil [:: [::]]).
  case Ef: (frame m) F1 => [b|] //; case Es: (send_all ms) => [bs|] // [F1].
  have Hm : msg_ok m by inversion F2.
  have Ec : List.concat [:: t_buf s i j ++ t_flight s i j] = List.app b bs by rewrite concat1 -F1.
  have [c1 [R1 C1]] := recv_one_frame m b _ _ Hm Ef Ec.
  have [c2 [R2 C2]] : exists rest', recv_one [:: t_buf s i j ++ t_flight s i j] = RMsg pl rest' /\
                             List.concat rest' = List.app (List.concat rest) (t_flight s i j).
    by apply: recv_one_more Er _; rewrite !concat1 cat_app.
  move: R2; rewrite R1 => -[Em Ecc]; subst pl c2.
  exists ms; split.
  + by rewrite Es -C1 C2 cat_app.
  + by inversion F2.
  + by rewrite F3 -!catA.
  + by move=> Eij; have [] := F4 Eij.
- move=> a x; rewrite updE; case: eqP => [->|_]; last exact: H5.
  by move=> Hx; have [Hx2|->] := In_rcons Hx => //; apply: (H5 _ _ Hx2).
Qed.

Definition bytes_of (pl : payload) : nat := if frame pl is Some b then size b else 0.
Definition wcur (x : nat * payload) : nat := 2 + 2 * bytes_of x.2.
Definition wlink (pl : payload) : nat := 1 + 2 * bytes_of pl.
Definition winp n (m : smsg) : nat := 1 + n.+1 * (2 + 2 * bytes_of m.2).
Definition mpair (s : tnet) (i j : nat) : nat :=
  \sum_(pl <- t_link s i j) wlink pl + 2 * size (t_flight s i j) + size (t_buf s i j).
Definition tmu n (s : tnet) : nat :=
  \sum_(i < n) (\sum_(m <- t_inp s i) winp n m) + \sum_(i < n) (\sum_(x <- t_cur s i) wcur x) +
  \sum_(i < n) (\sum_(j < n) mpair s i j).

Lemma sum_diff n (f g : nat -> nat) i : i < n -> (forall a, a != i -> f a = g a) ->
  \sum_(a < n) f a + g i = \sum_(a < n) g a + f i.
Proof.
move=> Hi H; rewrite (bigD1 (Ordinal Hi)) //= [in RHS](bigD1 (Ordinal Hi)) //=.
rewrite (eq_bigr (fun a : 'I_n => g a)); first by lia.
by move=> a Ha; apply: H; apply: contraNneq Ha => E; apply/eqP/val_inj.
Qed.

Lemma sum_pairs n (f g : nat -> nat -> nat) i j : i < n -> j < n ->
  (forall a b, ~~ ((a == i) && (b == j)) -> f a b = g a b) ->
  \sum_(a < n) (\sum_(b < n) f a b) + g i j = \sum_(a < n) (\sum_(b < n) g a b) + f i j.
Proof.
move=> Hi Hj H.
have := @sum_diff n (fun a => \sum_(b < n) f a b) (fun a => \sum_(b < n) g a b) i Hi.
have := @sum_diff n (f i) (g i) j Hj; move=> H1 H2.
have {}H1 := H1 (fun b Hb => H i b (etrans (congr1 negb (congr1 (andb^~ _) (eqxx i))) Hb)).
have {}H2 : \sum_(a < n) (\sum_(b < n) f a b) + \sum_(b < n) g i b = \sum_(a < n) (\sum_(b < n) g a b) + \sum_(b < n) f i b.
  by apply: H2 => a Ha; apply: eq_bigr => b _; apply: H; rewrite (negbTE Ha).
by lia.
Qed.

Lemma sum_targets n to pl : \sum_(x <- [seq (r, pl) | r <- targets n to]) wcur x <= n.+1 * (2 + 2 * bytes_of pl).
Proof.
rewrite big_map /wcur /= big_const_seq count_predT iter_addn_0 mulnC.
by rewrite leq_mul2r leq_targets orbT.
Qed.

Lemma tmu_pair n s s1 i j : i < n -> j < n ->
  (forall a, t_inp s1 a = t_inp s a) ->
  (forall a b, ~~ ((a == i) && (b == j)) -> mpair s1 a b = mpair s a b) ->
  tmu n s1 + mpair s i j + \sum_(a < n) (\sum_(x <- t_cur s a) wcur x) =
  tmu n s + mpair s1 i j + \sum_(a < n) (\sum_(x <- t_cur s1 a) wcur x).
Proof.
move=> Hi Hj H1 H2; rewrite /tmu.
have := sum_pairs Hi Hj H2.
have -> : \sum_(a < n) (\sum_(m <- t_inp s1 a) winp n m) = \sum_(a < n) (\sum_(m <- t_inp s a) winp n m).
  by apply: eq_bigr => a _; rewrite H1.
by lia.
Qed.

Lemma tmu_tau n s s' : tnstep n s Tau s' -> tmu n s' < tmu n s.
Proof.
move=> Hs; inversion Hs as
  [|i m q Hi E1 E2|i pl q Hi E|i r pl q Hi Hr Hne E|i j pl q b Hi Hj E Ef|i j k Hi Hj Hk|i j pl rest Hi Hj Er];
  move=> {Hs}; set s1 := TNet _ _ _ _ _ _.
- rewrite /tmu; have := sum_upd (t_inp s) (fun _ l => \sum_(m <- l) winp n m) q Hi.
  have := sum_upd (t_cur s) (fun _ l => \sum_(x <- l) wcur x) [seq (r, m.2) | r <- targets n m.1] Hi.
  have Ew : winp n m = 1 + n.+1 * (2 + 2 * bytes_of m.2) by [].
  rewrite E1 E2 /= big_cons big_nil Ew; have := sum_targets n m.1 m.2; move: (n.+1 * _) => T.
  have -> : \sum_(a < n) \sum_(b < n) mpair s1 a b = \sum_(a < n) \sum_(b < n) mpair s a b by [].
  rewrite /s1 /=; lia.
- rewrite /tmu; have := sum_upd (t_cur s) (fun _ l => \sum_(x <- l) wcur x) q Hi.
  have Ew : wcur (i, pl) = 2 + 2 * bytes_of pl by [].
  rewrite E /= big_cons Ew.
  have -> : \sum_(a < n) \sum_(b < n) mpair s1 a b = \sum_(a < n) \sum_(b < n) mpair s a b by [].
  rewrite /s1 /=; lia.
- have : mpair s1 i r = mpair s i r + wlink pl.
    by rewrite /mpair /= upd2E !eqxx -cats1 big_cat /= big_seq1; lia.
  have := sum_upd (t_cur s) (fun _ l => \sum_(x <- l) wcur x) q Hi.
  have Ew : wcur (r, pl) = 2 + 2 * bytes_of pl by [].
  rewrite E /= big_cons Ew.
  rewrite /wlink; have H : forall a b, ~~ ((a == i) && (b == r)) -> mpair s1 a b = mpair s a b.
    by move=> a b /negbTE Hab; rewrite /mpair /= upd2E Hab.
  by have := tmu_pair (s := s) (s1 := s1) Hi Hr (fun _ => erefl) H; rewrite {3}/s1 /=; lia.
- have : mpair s i j = mpair s1 i j + 1.
    have Ew : wlink pl = 1 + 2 * size b by rewrite /wlink /bytes_of Ef.
    by rewrite /mpair /= !upd2E !eqxx /= E big_cons size_cat Ew; lia.
  have H : forall a c, ~~ ((a == i) && (c == j)) -> mpair s1 a c = mpair s a c.
    by move=> a c /negbTE Hac; rewrite /mpair /= !upd2E Hac.
  by have := tmu_pair (s := s) (s1 := s1) Hi Hj (fun _ => erefl) H; rewrite {3}/s1 /=; lia.
- have : mpair s i j = mpair s1 i j + k.
    by rewrite /mpair /= !upd2E !eqxx /= size_cat size_drop size_take; case: ltnP; lia.
  have H : forall a c, ~~ ((a == i) && (c == j)) -> mpair s1 a c = mpair s a c.
    by move=> a c /negbTE Hac; rewrite /mpair /= !upd2E Hac.
  by have := tmu_pair (s := s) (s1 := s1) Hi Hj (fun _ => erefl) H; rewrite {3}/s1 /=; lia.
- have : mpair s1 i j < mpair s i j.
    have := recv_one_shrinks _ _ _ Er; rewrite concat1 -!size_length => L.
    by rewrite /mpair /= !upd2E !eqxx /=; lia.
  have H : forall a c, ~~ ((a == i) && (c == j)) -> mpair s1 a c = mpair s a c.
    by move=> a c /negbTE Hac; rewrite /mpair /= !upd2E Hac.
  by have := tmu_pair (s := s) (s1 := s1) Hi Hj (fun _ => erefl) H; rewrite {3}/s1 /=; lia.
Qed.

Lemma tcp_delivers n : delivers (tnstep n) n tinit t_out (fun m => in_range n m.1 /\ msg_ok m.2).
Proof.
move=> cs k s Hr Hok.
have [H1 H2 H3 H4 H5] := runs_inv (@tinv_call n) (@tinv_tau n) Hr (tinv_init n) Hok.
split.
- by move=> i j Hi Hj; have [ms [_ _ E _]] := H1 i j Hi Hj; rewrite E; eexists.
- exact: H5.
- exists (tmu n s) => k' s' Hr'; have := runs_mu (@tmu_tau n) Hr' erefl; lia.
- move=> Hq i j Hi Hj; have [ms [F1 F2 F3 F4]] := H1 i j Hi Hj; rewrite F3.
  have Ec : t_cur s i = [::].
    case E: (t_cur s i) => [|[r pl] q] //.
    have [Hr' _] : r < n /\ msg_ok pl by apply: (H3 i (r, pl)) => //; rewrite E; left.
    case: (eqVneq r i) => [Er|Nr]; last by case: (Hq _ (TnPeer Hi Hr' Nr E)).
    by subst r; case: (Hq _ (TnSelf Hi E)).
  have Ei : t_inp s i = [::].
    by case E: (t_inp s i) => [|m q] //; case: (Hq _ (TnPick Hi Ec E)).
  have El : t_link s i j = [::].
    case E: (t_link s i j) => [|pl q] //.
    have [b Eb] : exists b, frame pl = Some b by apply: frame_ok; apply: (H4 i j) => //; rewrite E; left.
    by case: (Hq _ (TnWrite Hi Hj E Eb)).
  have Ef : t_flight s i j = [::].
    case E: (t_flight s i j) => [|b q] //.
    by case: (Hq _ (@TnCarry n s i j 1 Hi Hj _)); rewrite E.
  have Em : ms = [::].
    case: ms F1 F2 {F3 F4} => [|m ms] //= F1 F2.
    case Em: (frame m) F1 => [b|] //; case: (send_all ms) => [bs|] // [E].
    have Eb : List.concat [:: t_buf s i j] = List.app b bs by rewrite concat1 E Ef cats0.
    have [c [R _]] := recv_one_frame m b _ bs (List.Forall_inv F2) Em Eb.
    by case: (Hq _ (TnRecv Hi Hj R)).
  by rewrite Ec Ei El Em /= !cats0.
Qed.

(** The bills of the protocols. *)

From Coq Require Import NArith List.
From Verif Require Import CircuitModel LpnModel.
From mathcomp Require Import all_ssreflect all_algebra zify.
From Verif Require Import MathModel SharingModel MachineModel CoreModel CoreProofs PreprocModel GarbleModel RouteModel RouteProofs Bill.
From Verif Require ProtoIdModel.
Set Implicit Arguments.
Unset Strict Implicit.
Unset Printing Implicit Defensive.
Import GRing.Theory.
Local Open Scope ring_scope.

Section Vec.
Variable F : fieldType.

Lemma size_to_mat r c (v : seq F) m : to_mat r c v = Some m -> size m = r /\ forall x, x \in m -> size x = c.
Proof.
  rewrite /to_mat. case: eqP => // E [<-]. split; first by rewrite size_reshape size_nseq.
  move=> x Hx. have Hs : shape (reshape (nseq r c) v) = nseq r c by apply: reshapeKl; rewrite sumn_nseq E mulnC.
  have : size x \in shape (reshape (nseq r c) v) by apply/mapP; exists x.
  rewrite Hs mem_nseq => /andP [_ /eqP //].
Qed.

Lemma size_col (m : seq (seq F)) i : size (col i m) = size m.
Proof. by rewrite size_map. Qed.

Lemma drain_size k (q : seq F) x : drain k q = Some x -> size x.1 = k /\ (size x.2 + k = size q)%N.
Proof. rewrite /drain. case: ifP => // H [<-] /=. rewrite size_takel // size_drop. split=> //. exact: subnK. Qed.

Lemma drain_each_size k m (q : seq F) x i : drain_each k m q = Some x -> (i < k)%N -> size (nth [::] x.1 i) = m.
Proof.
  elim: k q x i => // k IH q x i /=. case E: (drain m q) => [y|] //=. case E': (drain_each k m y.2) => [z|] //= [<-] /=.
  have [Hy _] := drain_size E. case: i => [|i] //= Hi. exact: IH E' Hi.
Qed.
End Vec.

Section Core.
Variable F : fieldType.
Variable emb : nat -> F.
Variables I D : eqType.
Variable ser : seq F -> D.
Variable de : D -> option (seq F).
Notation proc := (proc I D (val F)).

Variable price : nat -> D -> nat.
(** The price of a vector depends on its length only. *)
Variable fare : nat -> nat -> nat.
Hypothesis price_ser : forall r x, price r (ser x) = fare r (size x).

Variable c : ctx F.
Notation n := (c_n c).
Notation bill := (@Bill.bill (c_n c) I D (val F) price).

(** To everybody; to a leader who answers everybody. *)
Definition spread (m : nat) : nat := (\sum_(r < n) fare r m)%N.
Definition led (L m : nat) : nat := (fare L m + (if c_id c == L then spread m else 0))%N.

Lemma bill_unmask Q id random k b : (forall y, size y = size random -> bill Q (k y) b) -> bill Q (unmask de id random k) b.
Proof.
  move=> H s d /=. case: (de d) => [sh|] //. case: eqP => // E. apply: H. by rewrite size_zipw E minnn.
Qed.

Lemma bill_answer Q id m num fin b : (forall x, m = Some x -> size x = num) -> bill Q fin b ->
  bill Q (answer ser c id m fin) (spread num + b).
Proof.
  move=> Hm Hf. rewrite /answer. case: m Hm => [x|] // /(_ x erefl) Ex.
  apply: bill_eq (bill_each _ _ Hf). congr addn. apply: eq_bigr => r _. by rewrite price_ser size_col Ex.
Qed.

Lemma bill_led Q id x L body fin b m : (L < n)%N -> size x = m ->
  bill Q fin b -> (forall ds, bill Q (body ds) (spread m + b)) ->
  bill Q (Send (One L) id (ser x) (if c_id c == L then gather n id body else fin)) (led L m + b).
Proof.
  move=> HL Ex Hf Hb. split; first exact: HL. rewrite /toll big_seq1 price_ser Ex /led.
  case: (c_id c == L); eexists; (split; last by [exact: Hf|exact: Hb]); first by rewrite addnA.
  by rewrite addn0.
Qed.

Lemma bill_reduce Q id vx random zero L coin k b : (L < n)%N -> (forall y, size y = size vx -> bill Q (k y) b) ->
  bill Q (reduce_degree ser de c id vx random zero L coin k) (led L (size vx) + b).
Proof.
  move=> HL Hk. rewrite /reduce_degree. case: ifP => // /andP [/eqP E1 /eqP E2].
  have Hf : bill Q (unmask de id random k) b by apply: bill_unmask => y; rewrite E1; exact: Hk.
  apply: bill_led => //; first by rewrite !size_zipw E1 E2 !minnn.
  move=> ds. apply: bill_answer => // x. rewrite /reduce_leader. case: (unpack _ _ _ _) => //= sh.
  case: (all_some _) => //= shs. by case/size_to_mat.
Qed.

Lemma bill_mult Q id vx vy random zero L coin k b m : (L < n)%N -> size vx = m -> (forall y, size y = m -> bill Q (k y) b) ->
  bill Q (mult ser de c id vx vy random zero L coin k) (led L m + b).
Proof.
  move=> HL Ex Hk. rewrite /mult. case: eqP => // E.
  have Es : size (zipw *%R vx vy) = m by rewrite size_zipw -E minnn.
  rewrite -Es. apply: bill_reduce => //. by rewrite Es.
Qed.

Lemma bill_trans Q id vx random random_n tr L coin k b : (L < n)%N -> (forall y, bill Q (k y) b) ->
  bill Q (trans emb ser de c id vx random random_n tr L coin k) (led L (size vx) + b).
Proof.
  move=> HL Hk. rewrite /trans. case: eqP => // E1.
  have Hf : bill Q (unmask de id random k) b by apply: bill_unmask => y _; exact: Hk.
  apply: bill_led => //; first by rewrite !size_zipw E1 minnn.
  move=> ds. apply: bill_answer => // x. rewrite /trans_leader. case: (unpack _ _ _ _) => //= sh.
  case: (all_some _) => //= shs. by case/size_to_mat.
Qed.

(** As many rows as there are parties. *)
Definition full (rt : rand_transform F) : bool := (size (rt_share rt) == n) && (size (rt_share_n rt) == n).

Lemma size_madd_row (a b : seq (seq F)) num k i : size a = k -> (forall x, x \in a -> size x = num) ->
  size b = k -> (forall x, x \in b -> size x = num) -> (i < k)%N -> size (nth [::] (madd a b) i) = num.
Proof.
  move=> Ea Ha Eb Hb Hi. rewrite /madd (nth_map ([::], [::])) ?size_zip ?Ea ?Eb ?minnn // nth_zip ?Ea ?Eb //=.
  by rewrite size_zipw Ha ?mem_nth ?Ea // Hb ?mem_nth ?Eb // minnn.
Qed.

Lemma size_mmul2_row (a : seq (seq F)) num b x : x \in mmul2 a num b -> size x = num.
Proof. by case/mapP => r _ ->; rewrite size_map size_iota. Qed.

Lemma bill_randtrans Q id randoms zeros rt k b reps : (0 < n)%N -> full rt -> size randoms = ((n + c_t c) * reps)%N ->
  (forall y, bill Q (k y) b) -> bill Q (randtrans ser de c id randoms zeros rt k) (spread (2 * reps) + b).
Proof.
  move=> Hn /andP [/eqP F1 /eqP F2] Er Hk. rewrite /randtrans.
  case E: (randtrans_shares c rt randoms zeros) => [[[num sh] sh_n]|] //.
  move: E. rewrite /randtrans_shares Er mulKn ?addn_gt0 ?Hn //.
  case: (if _ then to_mat (c_l c) _ _ else None) => //= sec.
  case: (if _ then to_mat (c_t c) _ _ else None) => //= rs.
  case: (if _ then to_mat (n - c_l c) _ _ else None) => //= rsn.
  case Ez: (if _ then to_mat n _ _ else None) => [zn|] //=.
  case Ez': (to_mat n _ _) => [z|] //= [<- <- <-].
  have [Z1 Z2] := size_to_mat Ez'. have [Y1 Y2] : size zn = n /\ forall x, x \in zn -> size x = reps by move: Ez; case: ifP => // _ /size_to_mat.
  apply: (@bill_eq _ _ _ _ _ _ _ _ ((\sum_(r < n) price r (ser (nth [::] (madd (mmul2 (rt_share rt) reps (sec ++ rs)) z) r
      ++ nth [::] (madd (mmul2 (rt_share_n rt) reps (sec ++ rsn)) zn) r))) + b)).
  { congr addn. apply: eq_bigr => r _. rewrite price_ser size_cat.
    rewrite (@size_madd_row _ _ reps n) ?size_map ?(@size_madd_row _ _ reps n) ?size_map // => [|x|x]; try exact: size_mmul2_row.
    by rewrite addnn mul2n. }
  apply: bill_each => ds. case: (unpack _ _ _ _) => // m. case: ifP => // _. exact: Hk.
Qed.

(** ** Tasks *)

Lemma bill_spawn Q (ps : seq proc) k (bs : nat -> nat) b :
  (forall i, (i < size ps)%N -> bill (fun _ => True) (nth (Panic) ps i) (bs i)) -> (forall vs, size vs = size ps -> bill Q (k vs) b) ->
  bill Q (spawn_all ps k) ((\sum_(i < size ps) bs i) + b)%N.
Proof.
  elim: ps Q k bs b => [|p ps IH] Q k bs b Hp Hk /=.
  { rewrite big_ord0. exact: Hk. }
  exists (fun _ => True), (fun v => exists vs, v = Node vs /\ size vs = size ps), (bs 0%N), ((\sum_(i < size ps) bs i.+1) + 0)%N, b. split.
  - by rewrite big_ord_recl /= addn0.
  - exact: (Hp 0%N isT).
  - apply: (IH _ _ (fun i => bs i.+1)) => [i Hi|vs Hvs]; first exact: (Hp i.+1 Hi).
    split=> //. by exists vs.
  - move=> x y _ [vs [-> Hvs]]. apply: Hk. by rewrite /= Hvs.
Qed.

Lemma bill_spawn_iota Q (P : nat -> proc) m k (bs : nat -> nat) b :
  (forall i, (i < m)%N -> bill (fun _ => True) (P i) (bs i)) -> (forall vs, bill Q (k vs) b) ->
  bill Q (spawn_all [seq P i | i <- iota 0 m] k) ((\sum_(i < m) bs i) + b)%N.
Proof.
  move=> HP Hk. have E : size [seq P i | i <- iota 0 m] = m by rewrite size_map size_iota.
  have := @bill_spawn Q [seq P i | i <- iota 0 m] k bs b. rewrite E. apply.
  - move=> i Hi. by rewrite (nth_map 0%N) ?size_iota // nth_iota // add0n; auto.
  - move=> vs _. exact: Hk.
Qed.

Lemma bill_deal Q M id num dealt k b bt : num_batches num (size (rows M)) = Some bt -> (forall y, bill Q (k y) b) ->
  bill Q (deal ser de n M id num dealt k) (spread bt + b).
Proof.
  move=> Eb Hk. rewrite /deal Eb. case E: (obind _ _) => [sh|] //.
  have Es : size sh = bt by move: E; case: (all_some _) => //= x /size_to_mat [].
  have H ds : bill Q (if unpack de n bt ds is Some sent then
             if ncols M == n then k (flatten (mmul M bt sent)) else @Panic I D (val F)
           else @Panic I D (val F)) b.
  { case: (unpack _ _ _ _) => // m. case: ifP => _ //; exact: Hk. }
  apply: bill_eq (bill_each _ _ (H : bill Q (gather n id _) b)). congr addn. apply: eq_bigr => r _. by rewrite price_ser size_col Es.
Qed.

Lemma bill_err Q id1 id2 L x c1 c2 k b : (L < n)%N -> size (e_bit0 x) = e_size x -> (forall y, bill Q (k y) b) ->
  bill Q (err_task ser de c id1 id2 L x c1 c2 k) (led L (e_size x) + (led L (e_size x) + b)).
Proof.
  move=> HL Ex Hk. rewrite /err_task. case: (drain _ _) => [[rs br]|] //. case: (drain _ _) => [[zs bz]|] //.
  apply: bill_mult => // y Ey. case: (drain _ _) => [[sc rest]|] //. apply: bill_mult => //.
Qed.

End Core.

(** ** Garbling *)

Lemma all_some_size (T : Type) (s : seq (option T)) x : all_some s = Some x -> size x = size s.
Proof. elim: s x => [|[y|] s IH] x //=; first by case=> <-. case E: (all_some s) => [z|] //= [<-] /=. by rewrite (IH z E). Qed.

Lemma all_some_all (T : Type) (a : T -> bool) (s : seq (option T)) x : all_some s = Some x -> (forall y, List.In (Some y) s -> a y) -> all a x.
Proof.
  elim: s x => [|[y|] s IH] x //=; first by case=> <-. case E: (all_some s) => [z|] //= [<-] H /=.
  rewrite H; last by left. apply: IH E _ => y' Hy. apply: H. by right.
Qed.

Lemma leader_lt (T : Type) (hash : T -> N) id n L : leader_from_proto_id hash id n = Some L -> (L < n)%N.
Proof.
  rewrite /leader_from_proto_id. case: n => // n. case: ifP => // _ [<-].
  have := N.mod_upper_bound (hash id) (N.of_nat n.+1). lia.
Qed.

Section Garble.
Variable F : fieldType.
Variable emb : nat -> F.
Variable D : eqType.
Variable ser : seq F -> D.
Variable de : D -> option (seq F).
Variable H : eqType.
Variable sha : seq N -> H.
Variable h0 : H.
Variable draws : H -> nat -> F.
Variable hash : seq N -> N.
Notation pid := [eqType of seq N].
Notation pproc := (proc pid D (val F)).

Variable price : nat -> D -> nat.
Variable fare : nat -> nat -> nat.
Hypothesis price_ser : forall r x, price r (ser x) = fare r (size x).

Section Ctx.
Variable c : ctx F.
Hypothesis Hn : (0 < c_n c)%N.
Notation n := (c_n c).
Notation bill := (@Bill.bill (c_n c) pid D (val F) price).
Notation spread := (spread fare c).
Notation led := (led fare c).

Lemma rt_new_full tf rt : rt_new emb c tf = Some rt -> full c rt.
Proof. rewrite /rt_new. case: (all_some _) => //= ms. case: ifP => // _ [<-]. by rewrite /full /= !size_map !size_iota eqxx. Qed.

Lemma transforms_new_ok tf x : transforms_new emb c tf = Some x ->
  [/\ size (tf_trans x) = size tf, num_batches (size tf) (c_l c) = Some (size (tf_rtrans x)) & all (full c) (tf_rtrans x)].
Proof.
  rewrite /transforms_new. case: (num_batches _ _) => //= b. case E: (all_some _) => [r|] //= [<-] /=.
  rewrite size_map (all_some_size E) size_map size_iota. split=> //. apply: all_some_all E _ => y.
  by move=> /List.in_map_iff [i [/rt_new_full]].
Qed.

Lemma bill_gen_rand Q tf id reps randoms zeros k b : all (full c) (tf_rtrans tf) -> (forall y, bill Q (k y) b) ->
  bill Q (gen_rand_shares ser de c tf id reps randoms zeros k) ((\sum_(i < size (tf_rtrans tf)) spread (2 * reps)) + b).
Proof.
  move=> /(all_nthP (RT [::] [::])) Hf Hk. rewrite /gen_rand_shares. case: (ProtoIdModel.gen_rand_ids _ _) => [ids|] //.
  case Er: (drain_each _ _ randoms) => [rs|] //. case: (drain_each _ _ zeros) => [zs|] //.
  apply: (bill_spawn_iota (bs := fun _ => spread (2 * reps))) => [i Hi|vs].
  - apply: (@bill_eq _ _ _ _ _ _ _ _ (spread (2 * reps) + 0)); first by rewrite addn0.
    apply: bill_randtrans => //; [exact: Hf|exact: drain_each_size Er Hi].
  - case: (append_rows _ _) => // r1. by case: (append_rows _ _).
Qed.

Lemma bill_transform Q tf id reps inp rand rand_n coin k b : (forall x, x \in inp -> size x = reps) ->
  (forall res, (forall x, x \in res -> size x = reps) -> bill Q (k res) b) ->
  bill Q (transform emb ser de c tf id reps inp rand rand_n coin k) ((\sum_(i < size (tf_trans tf)) led (i %% n) reps) + b).
Proof.
  move=> Hi Hk. rewrite /transform. case: ifP => // /and4P [_ Hs _ _]. case: (ProtoIdModel.transform_ids _ _) => // ids.
  apply: (bill_spawn_iota (bs := fun i => led (i %% n) reps)) => [i Hlt|vs].
  - apply: (@bill_eq _ _ _ _ _ _ _ _ (led (i %% n) (size (nth [::] inp i)) + 0)).
    { rewrite addn0 Hi // mem_nth //. exact: leq_trans Hs. }
    apply: bill_trans => //. by rewrite ltn_mod.
  - case E: (to_mat _ _ _) => [res|] //. apply: Hk. by have [] := size_to_mat E.
Qed.

End Ctx.

(** garble.rs: the leaders of the multiplications of a gate. *)
Definition lead (n : nat) (id : seq N) : nat := odflt 0%N (leader_from_proto_id hash id n).
Definition lead1 (n : nat) (id : seq N) : nat := if ProtoIdModel.take_ids id 2 1 is Some [:: id1] then lead n id1 else 0%N.

Lemma bill_mult_leader (c : ctx F) Q id k b : (forall L, (L < c_n c)%N -> L = lead (c_n c) id -> Bill.bill (c_n c) price Q (k L) b) ->
  Bill.bill (c_n c) price Q (mult_leader (D := D) hash c id k) b.
Proof.
  move=> Hk. rewrite /mult_leader. case E: (leader_from_proto_id _ _ _) => [L|] //.
  apply: Hk; first exact: leader_lt E. by rewrite /lead E.
Qed.

Section Gctx.
Variable g : gctx F.
Notation c := (g_mpc g).
Notation K := (lpn_key_len (g_lpn g)).
Hypothesis Hn : (0 < c_n c)%N.
Notation bill := (@Bill.bill (c_n c) pid D (val F) price).
Notation spread := (spread fare c).
Notation led := (led fare c).

Definition gate_bill (x : pgate) (id : seq N) : nat :=
  if x is PAnd _ _ _ then (led (lead1 (c_n c) id) 1 + led (lead (c_n c) id) (3 * (K + 1)))%N else led (lead (c_n c) id) (K + 1).

Lemma bill_gate Q id gid x r k b : (forall y, bill Q (k y) b) ->
  bill Q (gate_task ser de hash g id gid x r k) (gate_bill (nth (PInv [::] [::]) (p_gates (g_circ g)) gid) id + b).
Proof.
  move=> Hk. rewrite /gate_task /gate_bill. case: (nth _ _ _) => [? ? ?|? ? ?|? ?].
  - rewrite /garble_xor. case: ifP => // _.
    apply: bill_mult_leader => L2 HL2 <-. apply: (bill_mult de price_ser) => //; by rewrite size_nseq.
  - rewrite /garble_and /lead1. move: (ProtoIdModel.take_ids id 2 1) => tk. case: ifP => // _. case: tk => [[|id1 [|? ?]]|] //.
    apply: bill_mult_leader => L1 HL1 <-. rewrite -addnA. apply: (bill_mult de price_ser) => // y _.
    apply: bill_mult_leader => L2 HL2 <-. apply: (bill_mult de price_ser) => // [|z _].
    { rewrite !size_cat !size_nseq. lia. }
    by case: (to_mat _ _ _).
  - rewrite /garble_inv. case: ifP => // _.
    apply: bill_mult_leader => L2 HL2 <-. apply: (bill_mult de price_ser) => //; by rewrite size_nseq.
Qed.

Lemma label_rows_size nb (keys masks : seq F) inp : label_rows nb K keys masks = Some inp ->
  forall x, x \in inp -> size x = (2 * K + 1)%N.
Proof.
  rewrite /label_rows. case: ifP => // _. case E: (to_mat _ _ _) => [m|] //= [<-] x /mapP [b Hb ->].
  have [Em Hm] := size_to_mat E. rewrite mem_iota /= in Hb. rewrite size_rcons Hm ?addn1 // mem_nth // Em. lia.
Qed.

Lemma select_all_size reps shares sel : select_all emb g reps shares = Some sel -> forall x, x \in sel -> size x = reps.
Proof. rewrite /select_all. case: (all_some _) => //= rs. by move=> /size_to_mat []. Qed.

Hypothesis Hfo : all (full c) (tf_rtrans (g_out g)).
Hypothesis Hfi : all (full c) (tf_rtrans (g_inp g)).

Definition wires_bill (reps : nat) : nat :=
  ((\sum_(i < size (tf_rtrans (g_inp g))) spread (2 * reps)) +
   ((\sum_(i < size (tf_rtrans (g_out g))) spread (2 * reps)) + (\sum_(i < size (tf_trans (g_out g))) led (i %% c_n c) reps)) +
   \sum_(i < size (tf_trans (g_inp g))) led (i %% c_n c) reps)%N.

Lemma bill_wires Q ids pp rz_out rz_inp r k b : (forall y, bill Q (k y) b) ->
  bill Q (wire_shares emb ser de g ids pp rz_out rz_inp r k) (wires_bill (2 * K + 1) + b).
Proof.
  move=> Hk. set reps := (2 * K + 1)%N.
  exists (fun _ => True), (fun v => exists sel, v = Leaf sel /\ forall x, x \in sel -> size x = reps).
  exists ((\sum_(i < size (tf_rtrans (g_inp g))) spread (2 * reps)) + 0)%N,
    ((\sum_(i < size (tf_rtrans (g_out g))) spread (2 * reps)) + ((\sum_(i < size (tf_trans (g_out g))) led (i %% c_n c) reps) + 0))%N,
    ((\sum_(i < size (tf_trans (g_inp g))) led (i %% c_n c) reps) + b)%N.
  split; last first.
  - move=> u v _ [sel [-> Hs]] /=. apply: (bill_transform Hn) Hs _ => res _. exact: Hk.
  - apply: (bill_gen_rand Hn) Hfo _ => y. case E: (label_rows _ _ _ _) => [inp|] //.
    apply: (bill_transform Hn); first exact: label_rows_size E.
    move=> res _. case Es: (select_all _ _ _ _) => [sel|] //. split=> //. exists sel. split=> //. exact: select_all_size Es.
  - apply: (bill_gen_rand Hn) Hfi _ => y. by split.
  - rewrite /wires_bill -/reps !addn0. by rewrite -!addnA.
Qed.

Definition garble_bill (ids : seq (seq N)) : nat :=
  (wires_bill (2 * K + 1) +
   \sum_(gid < size (p_gates (g_circ g))) gate_bill (nth (PInv [::] [::]) (p_gates (g_circ g)) gid) (nth [::] ids (4 + gid)))%N.

Lemma bill_garble Q id ids pp r k b : (forall y, bill Q (k y) b) ->
  ProtoIdModel.take_ids id (4 + N.of_nat (size (p_gates (g_circ g)))) (4 + size (p_gates (g_circ g))) = Some ids ->
  bill Q (garble emb ser de hash g id pp r k) (garble_bill ids + b).
Proof.
  move=> Hk Eids. rewrite /garble Eids. case: ifP => // _.
  case: (drain_rtrans _ _ _ _) => [[[r1 z1] q1]|] //. case: (drain_rtrans _ _ _ _) => [[[r2 z2] q2]|] //.
  rewrite /garble_bill -addnA. apply: bill_wires => y. case: (hand_out _ _ _ _ _ _ _ _) => [[xs q3]|] //.
  apply: (bill_spawn_iota (bs := fun gid => gate_bill (nth (PInv [::] [::]) (p_gates (g_circ g)) gid) (nth [::] ids (4 + gid)))) => [i Hi|vs].
  - rewrite -[gate_bill _ _]addn0. by apply: bill_gate.
  - exact: Hk.
Qed.

End Gctx.

(** The context fits the circuit. *)
Lemma gctx_new_ok circ c p g : gctx_new emb sha h0 draws circ c p = Some g ->
  [/\ g_mpc g = c, g_lpn g = p, g_circ g = circ,
      all (full c) (tf_rtrans (g_out g)) /\ all (full c) (tf_rtrans (g_inp g)) &
   let nb := (size (p_inputs circ) + size (p_gates circ))%N in
   let ni := size (flatten [seq gate_inps x | x <- p_gates circ]) in
   [/\ size (tf_trans (g_out g)) = nb, size (tf_trans (g_inp g)) = ni,
       num_batches nb (c_l c) = Some (size (tf_rtrans (g_out g))) & num_batches ni (c_l c) = Some (size (tf_rtrans (g_inp g)))]].
Proof.
  rewrite /gctx_new.
  case Eo: (all_some [seq out_tf _ _ _ _ | _ <- _]) => [to|] //=. case Ho: (transforms_new emb c to) => [tfo|] //=.
  case Ei: (all_some _) => [ti|] //=. case Hi: (transforms_new emb c ti) => [tfi|] //=.
  case: (rs_gen_mat _ _ _) => //= enc. case: (compute_lookup _ _ _ _) => //= nl. case: ifP => // _ [<-] /=.
  have [O1 O2 O3] := transforms_new_ok Ho. have [I1 I2 I3] := transforms_new_ok Hi.
  have So := all_some_size Eo. have Si := all_some_size Ei.
  rewrite size_map size_cat size_map in So. rewrite size_map in Si.
  by rewrite O1 I1 -O2 -I2 So Si.
Qed.

(** ** Preprocessing *)

Lemma err_inputs_ok bs (rb rs zs : seq F) xs i : err_inputs bs rb rs zs = Some xs -> (i < size bs)%N ->
  let x := nth (ErrInp 0 [::] [::] [::] [::]) xs i in e_size x = nth 0%N bs i /\ size (e_bit0 x) = e_size x.
Proof.
  elim: bs rb rs zs xs i => [|b0 bs IH] rb rs zs xs i //=.
  case E0: (drain b0 rb) => [x0|] //=. case: (drain b0 _) => [x1|] //=. case: (drain (3 * b0) _) => [xr|] //=.
  case: (drain (2 * b0) _) => [xz|] //=. case E: (err_inputs bs _ _ _) => [ys|] //= [<-].
  have [S0 _] := drain_size E0. case: i => [|i] Hi //=. exact: IH E Hi.
Qed.

Definition preproc_bill (c : ctx F) (bR bZ bB : nat) (errs : nat) : nat :=
  (spread fare c bR + spread fare c bZ + spread fare c bB +
   \sum_(i < c_n c) 2 * led fare c i (nth 0%N (err_sizes errs (c_n c)) i))%N.

Lemma bill_preproc (c : ctx F) Q M Mb id d r k b bR bZ bB :
  num_batches (keys_total d + n_randoms d + 3 * n_errors d) (size (rows M)) = Some bR ->
  num_batches (n_zeros d + 2 * n_errors d) (size (rows M)) = Some bZ ->
  num_batches (n_masks d + 2 * n_errors d) (size (rows Mb)) = Some bB ->
  (forall y, Bill.bill (c_n c) price Q (k y) b) ->
  Bill.bill (c_n c) price Q (preproc ser de c M Mb id d r k) (preproc_bill c bR bZ bB (n_errors d) + b).
Proof.
  move=> ER EZ EB Hk. rewrite /preproc. case: (ProtoIdModel.preproc_ids _ _) => [[|idr [|idz [|idb eids]]]|] //.
  set B2 := (\sum_(i < c_n c) 2 * led fare c i (nth 0%N (err_sizes (n_errors d) (c_n c)) i))%N.
  pose bs i := nth 0%N [:: spread fare c bR; spread fare c bZ; spread fare c bB] i.
  apply: (@bill_eq _ _ _ _ _ _ _ _ ((\sum_(i < 3) bs i) + (B2 + b))).
  { rewrite !big_ord_recl big_ord0 /preproc_bill /bs /= -/B2. clear. lia. }
  apply: (@bill_spawn F [eqType of seq N] D price c Q [:: _; _; _]).
  - case=> [|[|[|i]]] //= _; rewrite /bs /=.
    + rewrite -[spread fare c bR]addn0. apply: bill_deal ER _ => //.
    + rewrite -[spread fare c bZ]addn0. apply: bill_deal EZ _ => //.
    + rewrite -[spread fare c bB]addn0. apply: bill_deal EB _ => //.
  - move=> vs _. case: [seq vec_of v | v <- vs] => [|rs [|zs [|bits [|? ?]]]] //.
    case: (drain _ rs) => [[er rs']|] //. case: (drain _ zs) => [[ez zs']|] //. case: (drain _ bits) => [[eb bits']|] //.
    case En: (c_n c) => [|m] //. rewrite -En. have Hn : (0 < c_n c)%N by rewrite En.
    case Ex: (err_inputs _ _ _ _) => [xs|] //.
    apply: (bill_spawn_iota (bs := fun i => 2 * led fare c i (nth 0%N (err_sizes (n_errors d) (c_n c)) i))%N) => [i Hi|es].
    + have Hb : size (err_sizes (n_errors d) (c_n c)) = c_n c by rewrite /err_sizes size_rcons size_nseq prednK.
      have [E1 E2] := err_inputs_ok Ex (leq_trans Hi (eq_leq (esym Hb))).
      rewrite -E1 mul2n -addnn -[X in (_ + X)%N]addn0. by apply: bill_err.
    + by case: (drain _ _) => [[ks rs'']|].
Qed.

End Garble.

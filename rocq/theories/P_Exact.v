(** Property theorems C66: what a coalition sees of garbling has the same
    distribution for all secrets. *)

From Coq Require Import NArith List.
From Verif Require Import CircuitModel LpnModel LpnSpec.
From mathcomp Require Import all_ssreflect all_algebra zify.
From Verif Require Import MathModel MathProofs SharingModel SharingSpec SharingProofs.
From Verif Require Import MachineModel MachineProofs MachineBuild Realize CoreModel CoreSpec CoreProofs ViewSpec.
From Verif Require Import RandTransProofs PreprocModel PreprocSpec GarbleModel GarbleSpec GarbleGates GarbleTf GarbleWires GarbleRun.
From Verif Require Import TwinProofs TwinCore TwinWires TwinRun DiceSpec DiceProofs.
From Verif Require Import GFField GFCodec P_Math P_Core P_Preproc P_Garble P_View P_Leak P_Secrecy.
From Verif Require ProtoIdModel P_ProtoId.
Set Implicit Arguments.
Unset Strict Implicit.
Unset Printing Implicit Defensive.
Import GRing.Theory.
Local Open Scope ring_scope.

(** ** C66 *)

(** What the dice deal is the material that garbling asks for. *)
Theorem C66_dice_deal_material : forall (F : fieldType) (emb : nat -> F) n t l P Pn circ K M d (B : nat) (mk ks es : nat -> seq F) (w : dice F B),
  setting emb n t l P Pn -> describe circ n t l (Lpn K M) = Some d ->
  (forall j, size (mk j) = l /\ bits (mk j)) -> (forall j, size (ks j) = l) -> (forall j, size (es j) = l) ->
  exists rs, material emb n t l d (cast_material P Pn l d mk ks es w) mk ks rs es.
Proof.
  move=> F emb n t l P Pn circ K M d B mk ks es [w w2] HS Hd Hmk Hks Hes.
  have [B1 [B2 [HB1 HB2 Em Ek [Er Ez Ee]]]] := describeE Hd.
  have Ekt : keys_total d = (2 * K * size (out_blocks circ))%N by rewrite /keys_total Ek.
  have Ho := cast_holds HS Em Ek Ee w w2 (fun j => (Hmk j).1) Hks Hes.
  have secE k s j : size (s j) = l -> s j = [seq (shp emb n t l k s w j).[x] | x <- default_pos emb n l].
  { move=> Hs. have [_ H] := shp_ok HS k s w j. apply: (@eq_from_nth _ 0); first by rewrite !size_map size_iota Hs.
    move=> q. rewrite Hs => Hq. by rewrite (nth_map 0) ?H // size_map size_iota. }
  exists (fun j => [seq (rndp emb n t l w j).[x] | x <- default_pos emb n l]). split.
  - split; last by move=> j _; exact: (Hmk j).2. rewrite Em.
    have L : low t l (size (out_blocks circ)) (shp emb n t l 0 mk w) by move=> j _; exact: (shp_ok HS 0 mk w j).1.
    apply: sharings_ext (sh_low HS L) => [i Hi|j Hj]; [by have [-> _ _ _] := Ho i Hi|by rewrite -secE //; have [] := Hmk j].
  - split; last by move=> i Hi; have [_ -> _ _] := Ho i Hi. rewrite Ekt.
    have L : low t l (2 * K * size (out_blocks circ)) (shp emb n t l 1 ks w) by move=> j _; exact: (shp_ok HS 1 ks w j).1.
    apply: sharings_ext (sh_low HS L) => [i Hi|j Hj]; [by have [_ _ -> _] := Ho i Hi|by rewrite -secE].
  - exists (n_randoms d). split=> //. have L : low t l (n_randoms d) (rndp emb n t l w) by move=> j _; exact: (rndp_ok HS w j).
    apply: sharings_ext (sh_low HS L) => [i Hi|j Hj] //. by have [_ _ _ [-> _ _]] := Ho i Hi.
  - exists (n_zeros d). split=> //. have L : zero_at emb n l (n_zeros d) (zrop emb n l w) by move=> j _; exact: (zrop_ok HS w j).
    apply: sharings_ext (sh_zero HS L) => [i Hi|j Hj] //. by have [_ _ _ [_ -> _]] := Ho i Hi.
  - rewrite Ee. have L : low t l (offs (fun x => gate_rows x * M)%N (p_gates circ) (size (p_gates circ))) (shp emb n t l 2 es w) by move=> j _; exact: (shp_ok HS 2 es w j).1.
    apply: sharings_ext (sh_low HS L) => [i Hi|j Hj]; [by have [_ _ _ [_ _ ->]] := Ho i Hi|by rewrite -secE].
Qed.
Print Assumptions C66_dice_deal_material.

(** Let the material be dealt at random for given masks, labels and errors, and
    let all coins be random.  For all other masks, labels and errors the dice can
    be renamed, one to one, such that at most [t] parties who compare notes see
    the same: their shares of the material, their coins, and all messages sent to
    them in all executions. *)
Theorem C66_same_distribution : forall (F : fieldType) (emb : nat -> F) (D : eqType) ser de fits n t l P Pn circ K M
    (H : eqType) (sha : seq N -> H) h0 draws hash d id chans g,
  @garble_setting F emb D ser de fits n t l P Pn circ K M ->
  describe circ n t l (Lpn K M) = Some d ->
  ProtoIdModel.garble_ids id circ (N.of_nat l) = Some chans ->
  (forall i, (i < n)%N -> gctx_new emb sha h0 draws circ (Ctx i n t l P Pn) (Lpn K M) = Some (g i)) ->
  let code pp coins := fun i => garble emb ser de hash (g i) id (pp i) (coins i) (fun y => Ret (garble_val y)) in
  forall A, coalition n t A -> shielded n l A circ ->
  forall B, enough B n circ (Lpn K M) d ->
  forall mk ks es mk' ks' es' : nat -> seq F,
  (forall j, [/\ size (mk j) = l, size (ks j) = l & size (es j) = l]) -> (forall j, [/\ size (mk' j) = l, size (ks' j) = l & size (es' j) = l]) ->
  let pp := @cast_material F B P Pn l d mk ks es in let pp' := @cast_material F B P Pn l d mk' ks' es' in
  exists phi : dice F B -> dice F B, bijective phi /\
    forall w, (forall a, a \in A -> same_coins (cast_coins w a) (cast_coins (phi w) a)) /\
      same_view n A (pp w) (pp' (phi w)) (code (pp w) (cast_coins w)) (code (pp' (phi w)) (cast_coins (phi w))).
Proof.
  move=> F emb D ser de fits n t l P Pn circ K M H sha h0 draws hash d id chans g HS Hd Hids Hg code A HC Hsh B Hen mk ks es mk' ks' es' Hs Hs' pp pp'.
  have [[serK HSS F2 Hwf Hinj] [Hl0 /andP [HKl Hn16] Hdeg _ Hf]] := HS. have Hn := setting_n HSS.
  have HKl' : (t + l + l <= n)%N by clear -HKl; lia.
  rewrite !subn1 in Hdeg. have [UA HA tA] := HC.
  have [B1 [B2 [HB1 HB2 Em Ek [Er Ez Ee]]]] := describeE Hd.
  have [g' [enc [Eenc Hg']]] := gctx_newE HSS Hl0 HKl' Hwf Hinj sha h0 draws K M HB1 HB2.
  have Eg me : (me < n)%N -> g' me = g me by move=> Hm; have [E _ _ _] := Hg' me Hm; move: E; rewrite Hg // => -[].
  have G1 me (Hm : (me < n)%N) : [/\ g_mpc (g me) = Ctx me n t l P Pn, g_lpn (g me) = Lpn K M, g_circ (g me) = circ &
     [/\ g_lookup (g me) = block_map circ, g_out (g me) = tfs emb n t l (tf_out emb n l circ) B1 me & g_inp (g me) = tfs emb n t l (tf_inp emb n l circ) B2 me]].
  { have [_ E _ _] := Hg' me Hm. by rewrite Eg in E. }
  have Hsh' : blocks_shielded n l A circ.
  { move=> i Hi. cbv zeta. rewrite size_distinct. exact: Hsh. }
  have Hnr' : (B1 * ((n + t) * (2 * K + 1)) + B2 * ((n + t) * (2 * K + 1)) + offs (gate_mults (Lpn K M)) (p_gates circ) (size (p_gates circ)) <= n_randoms d)%N.
  { rewrite Er leq_add2r. clear. nia. }
  have Hnz' : (B1 * (2 * n * (2 * K + 1)) + B2 * (2 * n * (2 * K + 1)) + offs (gate_mults (Lpn K M)) (p_gates circ) (size (p_gates circ)) <= n_zeros d)%N.
  { rewrite Ez leq_add2r. clear. nia. }
  have [cids [c0 [c1 [c2 [c3 [f [Et _ _ _ _]]]]]]] := garble_idsP HB1 HB2 Hids.
  have nB : (n <= B)%N by have [_ _ [_ ->] _] := Hen.
  pose kand (w2 : {ffun slot B 1 -> F}) me := DiceSpec.die w2 0 me.
  pose al w2 := @alter F emb n t l B A circ B1 B2 hash K M cids mk ks es mk' ks' es' (kand w2).
  pose un w2 := @unalter F emb n t l B A circ B1 B2 hash K M cids mk ks es mk' ks' es' (kand w2).
  exists (fun w => (al w.2 w.1, w.2)). split.
  { exists (fun w => (un w.2 w.1, w.2)) => -[w w2]; congr (_, _); [exact: alterK|exact: unalterK]. }
  move=> [w w2].
  have Z1 j : size (mk j) = l by have [] := Hs j. have Z2 j : size (ks j) = l by have [] := Hs j. have Z3 j : size (es j) = l by have [] := Hs j.
  have Z1' j : size (mk' j) = l by have [] := Hs' j. have Z2' j : size (ks' j) = l by have [] := Hs' j. have Z3' j : size (es' j) = l by have [] := Hs' j.
  have [X1 X2 [rds [rds' [Hper Htw [res R] [res' R']]]]] := dice_exact HSS UA HA tA hash Z1 Z2 Z3 Z1' Z2' Z3' nB serK Hl0 HKl' Hdeg Hn16 Hwf Hinj HB1 HB2 G1 Hf
    Em Ek Ee Hnr' Hnz' Hen Hsh' w Hids Et (erefl (kand w2)).
  have U : uniq (ids rds) by rewrite (perm_uniq Hper); apply: NoDup_uniq; exact: (P_ProtoId.C20_garble_ids_distinct _ _ _ _ Hids).1.
  split; first exact: X2. split; first exact: X1. move=> s r c x Hss Hr.
  exact: (@twin_view n _ D A Hn HA (val F) _ _ rds rds' (fun i k => garble emb ser de hash (g i) id (pp (w, w2) i) (cast_coins (w, w2) i) k) res (@garble_val F)
       (fun i k => garble emb ser de hash (g i) id (pp' (al w2 w, w2) i) (cast_coins (al w2 w, w2) i) k) res' (@garble_val F) (ser [::]) s r c x U R R' Htw Hr).
Qed.
Print Assumptions C66_same_distribution.

(** The outcomes of dice over a finite field. *)
Definition outcomes (F : finFieldType) (B : nat) : finType := [finType of {ffun slot B 6 -> F} * {ffun slot B 1 -> F}].

(** An event the coalition can observe does not depend on anything else than
    its shares, its coins and the messages sent to it. *)
Definition observable (F : fieldType) (D : Type) (n : nat) (A : seq nat)
    (E : (nat -> preproc_data F) -> (nat -> gcoins F) -> (nat -> nat -> seq N -> D -> Prop) -> Prop) : Prop :=
  forall pp pp' co co' (S S' : nat -> nat -> seq N -> D -> Prop),
    (forall a, a \in A -> pp a = pp' a) -> (forall a, a \in A -> same_coins (co a) (co' a)) ->
    (forall s r c x, (s < n)%N -> r \in A -> S s r c x <-> S' s r c x) -> E pp co S <-> E pp' co' S'.

(** Over a finite field, as the code's: for every event the coalition can
    observe, as many outcomes of the dice have it with one choice of masks,
    labels and errors as with any other. *)
Theorem C66_equally_likely : forall (F : finFieldType) (emb : nat -> F) (D : eqType) ser de fits n t l P Pn circ K M
    (H : eqType) (sha : seq N -> H) h0 draws hash d id chans g,
  @garble_setting F emb D ser de fits n t l P Pn circ K M ->
  describe circ n t l (Lpn K M) = Some d ->
  ProtoIdModel.garble_ids id circ (N.of_nat l) = Some chans ->
  (forall i, (i < n)%N -> gctx_new emb sha h0 draws circ (Ctx i n t l P Pn) (Lpn K M) = Some (g i)) ->
  let code pp coins := fun i => garble emb ser de hash (g i) id (pp i) (coins i) (fun y => Ret (garble_val y)) in
  forall A, coalition n t A -> shielded n l A circ ->
  forall B, enough B n circ (Lpn K M) d ->
  forall E, @observable F D n A E ->
  let happens mk ks es (w : dice F B) := E (cast_material P Pn l d mk ks es w) (cast_coins w) (sent_in n (code (cast_material P Pn l d mk ks es w) (cast_coins w))) in
  forall mk ks es mk' ks' es' : nat -> seq F,
  (forall j, [/\ size (mk j) = l, size (ks j) = l & size (es j) = l]) -> (forall j, [/\ size (mk' j) = l, size (ks' j) = l & size (es' j) = l]) ->
  forall b b' : pred (outcomes F B), (forall w, b w <-> happens mk ks es w) -> (forall w, b' w <-> happens mk' ks' es' w) -> #|b| = #|b'|.
Proof.
  move=> F emb D ser de fits n t l P Pn circ K M H sha h0 draws hash d id chans g HS Hd Hids Hg code A HC Hsh B Hen E HE happens
    mk ks es mk' ks' es' Hs Hs' b b' Hb Hb'.
  have [phi [Hphi Hv]] := C66_same_distribution hash HS Hd Hids Hg HC Hsh Hen Hs Hs'.
  have Eb w : b w = b' (phi w).
  { have [V1 [V2 V3]] := Hv w. have X := HE _ _ _ _ _ _ V2 V1 V3. rewrite -/(happens mk ks es w) -/(happens mk' ks' es' (phi w)) in X.
    move: (Hb w) (Hb' (phi w)) X. move: (happens mk ks es w) (happens mk' ks' es' (phi w)) => Q Q'. case: (b w); case: (b' _) => -[H1 H2] [H3 H4] [H5 H6] //.
    - by have := H4 (H5 (H1 isT)).
    - by have := H2 (H6 (H3 isT)). }
  have [psi K1 K2] := Hphi.
  rewrite -(card_imset b (can_inj K1)). apply: eq_card => v. apply/imsetP/idP => [[w Hw ->]|Hv'].
  - by move: Hw; rewrite !unfold_in Eb.
  - exists (psi v); last by rewrite K2. move: Hv'. by rewrite !unfold_in Eb K2.
Qed.
Print Assumptions C66_equally_likely.

(** A message to one of them and a share of one of them can be observed. *)
Lemma observable_message (F : fieldType) (D : Type) n A s a c x : a \in A -> (s < n)%N -> @observable F D n A (fun _ _ S => S s a c x).
Proof. move=> Ha Hs pp pp' co co' S S' _ _ H. exact: H. Qed.
Lemma observable_share (F : fieldType) (D : Type) n A a j v : a \in A -> @observable F D n A (fun pp _ _ => nth 0 (pp_masks (pp a)) j = v).
Proof. move=> Ha pp pp' co co' S S' H _ _. by rewrite H. Qed.

(** The circuit of C61, with seven parties: for each party but the first, and for
    the masks (0,0,0) and (1,0,0) of the input wires, which the first party can
    tell apart. *)
Example C66_example : exists P Pn d chans B g,
  let F := [finFieldType of gf w5] in let sha := (id : seq N -> [eqType of seq N]) in let draws (_ : [eqType of seq N]) (_ : nat) : F := 0 in
  let mk (b : bool) (j : nat) : seq F := [:: b%:R; 0; 0] in
  [/\ @garble_setting F g5 _ (@gser w5) (@gde w5) len_ok 7 1 3 P Pn circ7 1 2, describe circ7 7 1 3 (Lpn 1 2) = Some d,
      ProtoIdModel.garble_ids [:: 7]%num circ7 (N.of_nat 3) = Some chans,
      forall i, (i < 7)%N -> gctx_new g5 sha [::] draws circ7 (Ctx i 7 1 3 P Pn) (Lpn 1 2) = Some (g i) &
   [/\ enough B 7 circ7 (Lpn 1 2) d, forall a, (0 < a < 7)%N -> coalition 7 1 [:: a] /\ shielded 7 3 [:: a] circ7,
      forall b j, size (mk b j) = 3%N /\ bits (mk b j) & mk false 0%N <> mk true 0%N]].
Proof.
  have [P [Pn [d [chans [HS Hd Hids [_ HC _]]]]]] := C62_example.
  have [[_ HSS _ Hwf Hinj] _] := HS. have [B1 [B2 [HB1 HB2 _ _ _]]] := GarbleRun.describeE Hd.
  pose draws (_ : [eqType of seq N]) (_ : nat) : gf w5 := 0.
  have [g [enc [_ Hg]]] := GarbleRun.gctx_newE HSS (isT : (0 < 3)%N) (isT : (1 + 3 + 3 <= 7)%N) Hwf Hinj (id : seq N -> [eqType of seq N]) [::] draws 1 2 HB1 HB2.
  pose B := (n_masks d + keys_total d + n_randoms d + n_zeros d + n_errors d + 10)%N.
  exists P, Pn, d, chans, B, g. move=> F sha dr mk. split; [exact: HS|exact: Hd|exact: Hids|by move=> i /Hg []|split].
  - rewrite /enough /B. have -> : size (out_blocks circ7) = 4%N by []. have -> : size (inp_blocks circ7) = 5%N by [].
    rewrite [size _]/= [lpn_key_len _]/=. split; split; lia.
  - exact: HC.
  - move=> b j. split=> // y. rewrite !inE. case: b => /or3P [] /eqP ->; by [left|right].
  - move=> /(congr1 (fun s => nth 0 s 0)) /eqP /=. by rewrite eq_sym oner_eq0.
Qed.

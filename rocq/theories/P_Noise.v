(** Property theorem C70: the noise of the LPN ciphertexts is Bernoulli with rate
    1/4, also given all that a coalition sees. *)

From Coq Require Import NArith List.
From Verif Require Import CircuitModel LpnModel LpnSpec.
From mathcomp Require Import all_ssreflect all_algebra zify.
From Verif Require Import MathModel MathProofs MatProofs SharingModel SharingSpec SharingProofs.
From Verif Require Import MachineModel MachineProofs MachineBuild Realize CoreModel CoreSpec CoreProofs ViewSpec.
From Verif Require Import RandTransProofs PreprocModel PreprocSpec PreprocProofs PreprocRun GarbleModel GarbleSpec GarbleGates GarbleTf GarbleWires GarbleRun.
From Verif Require Import TwinProofs TwinCore TwinWires TwinRun HideSpec HideProofs TwinDeal TwinPre ExactErr ExactPre DiceSpec DiceProofs PipeDiceSpec PipeDice.
From Verif Require Import GFField GFCodec P_Math P_Sharing P_Core P_Preproc P_Garble P_View P_Leak P_Secrecy P_BinPre P_Pipeline P_PipeSecrecy P_Exact P_PipeExact.
From Verif Require ProtoIdModel P_ProtoId.
Set Implicit Arguments.
Unset Strict Implicit.
Unset Printing Implicit Defensive.
Import GRing.Theory.
Local Open Scope ring_scope.

(** ** C70 *)

(** The ways to write an element as the product of two bits and an element. *)
Definition noise (F : fieldType) (c : bool * bool * F) : F := c.1.1%:R * c.1.2%:R * c.2.
Lemma noise_ways (F : finFieldType) (x : F) : #|[pred c | noise c == x]| = if x == 0 then (3 * #|F| + 1)%N else 1%N.
Proof.
  have E u v : #|[pred z : F | noise (u, v, z) == x]| = if u && v then 1%N else if x == 0 then #|F| else 0%N.
  { have N z : u && v = false -> noise (u, v, z) = 0 by rewrite /noise /=; case: u; case: v; rewrite ?mulr0 ?mul0r.
    case Euv: (u && v).
    - move/andP: Euv => [-> ->]. rewrite -(card1 x). apply: eq_card => z. by rewrite !inE /noise /= !mul1r.
    - case: eqP => [->|Hx]; first by apply: eq_card => z; rewrite !inE N // eqxx.
      apply: eq_card0 => z. rewrite !inE N //. by apply/eqP => X; apply: Hx. }
  rewrite -sum1_card (partition_big (fun c : bool * bool * F => c.1) predT) //=.
  rewrite (eq_bigr (fun k : bool * bool => #|[pred z : F | noise (k.1, k.2, z) == x]|)); last first.
  { move=> k _. rewrite -sum1_card (reindex_onto (fun z : F => (k, z)) (fun c => c.2)); last by move=> [k' z] /= /andP [_ /eqP ->].
    apply: eq_bigl => z. rewrite !inE /= !eqxx !andbT. by case: k. }
  rewrite -(pair_bigA _ (fun u v => #|[pred z : F | noise (u, v, z) == x]|)) /= !big_bool /= !E /=.
  case: eqP => _; lia.
Qed.

(** As C69. *)
Theorem C70_noise_rate : forall (F : finFieldType) (emb : nat -> F) (D : eqType) ser de fits n t l P Pn circ K M
    (H : eqType) (sha : seq N -> H) h0 draws hash (Ms Mb : mat F) (id1 id2 : seq N) d chans bR bZ bB g,
  @garble_setting F emb D ser de fits n t l P Pn circ K M -> describe circ n t l (Lpn K M) = Some d ->
  (0 < size (rows Ms))%N -> (0 < size (rows Mb))%N -> ncols Ms = n -> ncols Mb = n -> binary Mb ->
  let e := n_errors d in
  let R := size (rows Ms) in let Rb := size (rows Mb) in
  (keys_total d + n_randoms d + 3 * e <= R * bR < keys_total d + n_randoms d + 3 * e + R)%N ->
  (n_zeros d + 2 * e <= R * bZ < n_zeros d + 2 * e + R)%N ->
  (n_masks d + 2 * e <= Rb * bB < n_masks d + 2 * e + Rb)%N ->
  (forall m, (m <= maxn (maxn bR bZ) (maxn bB e))%N -> fits m) ->
  ProtoIdModel.garble_ids id2 circ (N.of_nat l) = Some chans -> (forall u v, id1 ++ u <> id2 ++ v) ->
  (forall i, (i < n)%N -> gctx_new emb sha h0 draws circ (Ctx i n t l P Pn) (Lpn K M) = Some (g i)) ->
  let pre r i := preproc ser de (Ctx i n t l P Pn) Ms Mb id1 d (r i) in
  let code r coins i := pre r i (fun pp => garble emb ser de hash (g i) id2 pp (coins i) (fun y => Ret (garble_val y))) in
  forall A, coalition n t A -> shielded n l A circ -> hides n Ms A -> hides_bits n Mb A ->
  forall B, enough_dice B n circ (Lpn K M) d bR bZ bB ->
  exists pp : pipe_dice F B -> nat -> preproc_data F,
  let has mk ks es w := exists rs, material emb n t l d (pp w) mk ks rs es in
  let happens E w := E (pp w) (cast_pre w) (cast_garble w) (sent_in n (code (cast_pre w) (cast_garble w))) in
  [/\ forall w, every_run_ends n (start (fun i => pre (cast_pre w) i (fun x => Ret (pp_val x)))) (all_done n (fun i => pp_val (pp w i))),
      forall E, @observable_pipe F D n A E -> forall j q (b z : pred (pipe_outcomes F B)), (j < e)%N -> (q < l)%N ->
        (forall w, b w <-> happens E w) -> (forall w, z w <-> exists mk ks es, has mk ks es w /\ nth 0 (es j) q <> 0) ->
        (4 * #|F| * #|[predI b & z]| = (#|F| - 1) * #|b|)%N &
      forall E, @observable_pipe F D n A E -> forall mk ks es es' j q (b s s' : pred (pipe_outcomes F B)), (j < e)%N -> (q < l)%N ->
        (forall i, size (es i) = l /\ size (es' i) = l) -> (forall i p, (i, p) <> (j, q) -> nth 0 (es i) p = nth 0 (es' i) p) ->
        nth 0 (es j) q = 0 -> nth 0 (es' j) q <> 0 ->
        (forall w, b w <-> happens E w) -> (forall w, s w <-> has mk ks es w) -> (forall w, s' w <-> has mk ks es' w) ->
        #|[predI b & s]| = ((3 * #|F| + 1) * #|[predI b & s']|)%N].
Proof.
  move=> F emb D ser de fits n t l P Pn circ K M H sha h0 draws hash Ms Mb id1 id2 d chans bR bZ bB g.
  move=> HG Hd B0 BB0 HMs HMb Hbin e R Rb LR LZ LB Hfp Hids Hroots Hg pre code A HC Hsh Hh Hhb B Hen.
  have [pp [bit [key [sca [i0 [i1 [Hruns _ Hi01 Hmat Hren]]]]]]] := renaming hash HG Hd B0 BB0 HMs HMb Hbin LR LZ LB Hfp Hids Hroots Hg HC Hsh Hh Hhb Hen.
  exists pp. move=> has happens.
  (* events do not change *)
  have Hobs E (b : pred (pipe_outcomes F B)) (phi : pipe_dice F B -> pipe_dice F B) : @observable_pipe F D n A E -> (forall w, b w <-> happens E w) ->
     (forall w, (forall a, a \in A -> same_pre (cast_pre w a) (cast_pre (phi w) a) /\ same_coins (cast_garble w a) (cast_garble (phi w) a)) /\
        same_view n A (pp w) (pp (phi w)) (code (cast_pre w) (cast_garble w)) (code (cast_pre (phi w)) (cast_garble (phi w)))) -> forall w, b (phi w) = b w.
  { move=> HE Hb Hv w. have [V1 [V2 V3]] := Hv w.
    have X := HE _ _ _ _ _ _ _ _ V2 (fun a Ha => proj1 (V1 a Ha)) (fun a Ha => proj2 (V1 a Ha)) V3. rewrite -/(happens E w) -/(happens E (phi w)) in X.
    move: (Hb w) (Hb (phi w)) X. move: (happens E w) (happens E (phi w)) => Q Q'. case: (b w); case: (b _) => -[H1 H2] [H3 H4] [H5 H6] //.
    - by have := H4 (H5 (H1 isT)).
    - by have := H2 (H6 (H3 isT)). }
  pose sec j q (w : pipe_outcomes F B) := (bit w (i0 j) q, bit w (i1 j) q, sca w j q).
  pose err w i p := noise (sec i p w).
  pose others (mk ks es : nat -> seq F) (j q : nat) (w : pipe_outcomes F B) := [&& all (fun i => mk i == [seq (bit w (2 * e + i)%N p)%:R | p <- iota 0 l]) (iota 0 (n_masks d)),
    all (fun i => ks i == [seq key w i p | p <- iota 0 l]) (iota 0 (keys_total d)) &
    all (fun i => all (fun p => ((i, p) == (j, q)) || (nth 0 (es i) p == err w i p)) (iota 0 l)) (iota 0 e)].
  (* one error changes *)
  have one (j q : nat) (f f' : bool * bool * F) : (j < e)%N -> (q < l)%N -> exists phi : pipe_dice F B -> pipe_dice F B, bijective phi /\ forall w,
     [/\ (sec j q (phi w) == f') = (sec j q w == f), forall mk ks es, others mk ks es j q (phi w) = others mk ks es j q w &
      (forall a, a \in A -> same_pre (cast_pre w a) (cast_pre (phi w) a) /\ same_coins (cast_garble w a) (cast_garble (phi w) a)) /\
        same_view n A (pp w) (pp (phi w)) (code (cast_pre w) (cast_garble w)) (code (cast_pre (phi w)) (cast_garble (phi w)))].
  { move=> Hj Hq. have [J0 J1 J2] := Hi01 j Hj.
    have [phi [Hbij Hp]] := Hren (fun i p => if p == q then (if i == i0 j then f.1.1 (+) f'.1.1 else if i == i1 j then f.1.2 (+) f'.1.2 else false) else false)
       (fun _ _ => 0) (fun i p => if (i, p) == (j, q) then f'.2 - f.2 else 0).
    exists phi. split; first exact: Hbij. move=> w. have [P1 P2 P3 P4 P5] := Hp w.
    have [Jn _ J01] := J2 j Hj. split; last by split; [exact: P4|exact: P5].
    - rewrite /sec P3 // !P1 //; try by apply: leq_trans (leq_addr _ _). rewrite !eqxx [i1 j == i0 j]eq_sym J01.
      move: f f' {Hp P1 P2 P3} => [[f1 f2] f3] [[f1' f2'] f3']. rewrite !xpair_eqE /=. congr (_ && _ && _).
      + by case: (bit _ _ _) f1 f1' => -[] [].
      + by case: (bit _ _ _) f2 f2' => -[] [].
      + by rewrite addrA subr_eq [sca w j q + _]addrC (inj_eq (addrI _)).
    - move=> mk ks es. rewrite /others. congr [&& _, _ & _].
      + apply: eq_in_all => i. rewrite mem_iota add0n => Hi. congr (_ == _). apply/eq_in_map => p. rewrite mem_iota add0n => Hp'.
        rewrite P1 // ?ltn_add2l //. rewrite [_ == i0 j]gtn_eqF; last by apply: leq_trans (leq_addr _ _). rewrite [_ == i1 j]gtn_eqF; last by apply: leq_trans (leq_addr _ _). by rewrite if_same addbF.
      + apply: eq_in_all => i. rewrite mem_iota add0n => Hi. congr (_ == _). apply/eq_in_map => p. rewrite mem_iota add0n => Hp'. by rewrite P2 // addr0.
      + apply: eq_in_all => i. rewrite mem_iota add0n => Hi. apply: eq_in_all => p. rewrite mem_iota add0n => Hp'. case: eqP => // Hne.
        have [I0 I1 I2] := Hi01 i Hi. have [Q1 Q2 Q3] := I2 j Hj. have [_ _ Q4] := J2 i Hi.
        rewrite /err /sec P3 // !P1 //; try by apply: leq_trans (leq_addr _ _).
        rewrite Q1 Q3 [i1 i == i0 j]eq_sym Q4 Q2. have -> : ((i, p) == (j, q)) = false by apply/eqP. rewrite addr0.
        have -> : (if p == q then if i == j then f.1.1 (+) f'.1.1 else false else false) = false.
        { case: (p =P q) => // Ep. case: (i =P j) => // Ei. by case: Hne; rewrite Ep Ei. }
        have -> : (if p == q then if i == j then f.1.2 (+) f'.1.2 else false else false) = false.
        { case: (p =P q) => // Ep. case: (i =P j) => // Ei. by case: Hne; rewrite Ep Ei. }
        by rewrite !addbF. }
  split; first exact: Hruns.
  - move=> E HE j q b z Hj Hq Hb Hz.
    have hasP w : exists mk ks es, has mk ks es w.
    { exists (fun j => [seq (bit w (2 * e + j)%N q)%:R | q <- iota 0 l]), (fun j => [seq key w j q | q <- iota 0 l]), (fun j => [seq err w j q | q <- iota 0 l]). by apply/Hmat; split. }
    have Ez w : z w = (noise (sec j q w) != 0).
    { apply/idP/idP => [/Hz [mk [ks [es [/Hmat [_ _ X] Y]]]]|Y].
      - apply/eqP => X0. apply: Y. by rewrite X // (nth_map 0%N) ?size_iota // nth_iota.
      - apply/Hz. have [mk [ks [es Hw]]] := hasP w. exists mk, ks, es. split; first exact: Hw.
        have [_ _ X] := (Hmat w mk ks es).1 Hw. rewrite X // (nth_map 0%N) ?size_iota // nth_iota //. exact/eqP. }
    have count : forall f0 (Q : pred [finType of bool * bool * F]), #|[pred w | b w && Q (sec j q w)]| = (#|Q| * #|[pred w | b w && (sec j q w == f0)]|)%N.
    { apply: count_secrets => f f'. have [phi [Hbij Hp]] := one j q f f' Hj Hq. exists phi. split; first exact: Hbij. move=> w. have [P1 _ _] := Hp w. split; last exact: P1.
      apply: (Hobs E b phi HE Hb) => w'. by have [] := Hp w'. }
    have C1 := count (false, false, 0) [pred c | noise c != 0]. have C2 := count (false, false, 0) predT.
    have -> : #|[predI b & z]| = #|[pred w | b w && [pred c | noise c != 0] (sec j q w)]| by apply: eq_card => w; rewrite !inE -Ez; reflexivity.
    have -> : #|b| = #|[pred w | b w && predT (sec j q w)]| by apply: eq_card => w; rewrite !inE andbT; reflexivity.
    rewrite C1 C2 mulnA [RHS]mulnA. congr muln.
    have N0 := noise_ways (0 : F). rewrite eqxx in N0. have N1 : #|[pred c : bool * bool * F | noise c != 0]| = (#|F| - 1)%N.
    { have := cardC [pred c : bool * bool * F | noise c == 0]. rewrite N0 !card_prod card_bool. move=> X. rewrite -[LHS](addKn (3 * #|F| + 1)%N) X. move: #|F| => m. clear. lia. }
    rewrite N1 cardE -cardT !card_prod card_bool mulnC. by congr muln.
  - move=> E HE mk ks es es' j q b s s' Hj Hq Hsz Hsame Hz0 Hz1 Hb Hs Hs'.
    have Eo w : others mk ks es j q w = others mk ks es' j q w.
    { rewrite /others. congr [&& _, _ & _]. apply: eq_in_all => i _. apply: eq_in_all => p _. case: eqP => // Hne. by rewrite Hsame. }
    have split_has (es0 : nat -> seq F) w : (forall i, size (es0 i) = l) -> has mk ks es0 w <-> others mk ks es0 j q w && (noise (sec j q w) == nth 0 (es0 j) q).
    { move=> Hl. apply: (iff_trans (Hmat w mk ks es0)). split=> [[N1 N2 N3]|/andP [/and3P [/allP N1 /allP N2 /allP N3] /eqP N4]].
      - have X i p : (i < e)%N -> (p < l)%N -> nth 0 (es0 i) p = err w i p by move=> Hi Hp; rewrite N3 // (nth_map 0%N) ?size_iota // nth_iota.
        apply/andP; split; last by rewrite X.
        apply/and3P; split; apply/allP => i; rewrite mem_iota add0n => Hi; [by apply/eqP; exact: N1|by apply/eqP; exact: N2|].
        apply/allP => p. rewrite mem_iota add0n => Hp. by rewrite X // eqxx orbT.
      - split=> i Hi; [by apply/eqP; apply: N1; rewrite mem_iota|by apply/eqP; apply: N2; rewrite mem_iota|].
        apply: (@eq_from_nth _ 0); rewrite ?size_map ?size_iota Hl // => p Hp. rewrite (nth_map 0%N) ?size_iota // nth_iota // add0n.
        have /allP /(_ p) := N3 i ltac:(by rewrite mem_iota). rewrite mem_iota add0n => /(_ Hp) /orP [/eqP [-> ->]|/eqP X]; [by rewrite -N4|exact: X]. }
    have count : forall f0 (Q : pred [finType of bool * bool * F]), #|[pred w | b w && others mk ks es j q w && Q (sec j q w)]| =
        (#|Q| * #|[pred w | b w && others mk ks es j q w && (sec j q w == f0)]|)%N.
    { apply: (count_secrets (b := fun w => b w && others mk ks es j q w)) => f f'. have [phi [Hbij Hp]] := one j q f f' Hj Hq. exists phi. split; first exact: Hbij.
      move=> w. have [P1 P2 _] := Hp w. split; last exact: P1. rewrite P2. congr (_ && _). apply: (Hobs E b phi HE Hb) => w'. by have [] := Hp w'. }
    have E1 (s0 : pred (pipe_outcomes F B)) (es0 : nat -> seq F) : (forall i, size (es0 i) = l) -> (forall w, s0 w <-> has mk ks es0 w) -> (forall w, others mk ks es0 j q w = others mk ks es j q w) ->
      #|[predI b & s0]| = #|[pred w | b w && others mk ks es j q w && [pred c | noise c == nth 0 (es0 j) q] (sec j q w)]|.
    { move=> Hl H0 Ho. apply: eq_card => w. rewrite !inE -andbA -Ho. congr (_ && _). apply/idP/idP => X.
      - apply/(split_has es0 w Hl). exact/H0.
      - apply/H0. by apply/(split_has es0 w Hl). }
    rewrite (E1 s es (fun i => (Hsz i).1) Hs (fun w => erefl)) (E1 s' es' (fun i => (Hsz i).2) Hs' (fun w => esym (Eo w))).
    rewrite !(count (false, false, 0)) !noise_ways Hz0 eqxx. move/eqP/negbTE: Hz1 => ->. by rewrite mul1n.
Qed.
Print Assumptions C70_noise_rate.


(** The hypotheses are those of C69 (C69_example); two families of errors, with
    three slots, that differ in error 0 at slot 1 only. *)
Example C70_example : let F := gf_fieldType w5 in
  let es (_ : nat) : seq F := [:: 0; 0; 0] in let es' (i : nat) : seq F := [:: 0; (i == 0%N)%:R; 0] in
  [/\ forall i, size (es i) = 3%N /\ size (es' i) = 3%N, forall i p, (i, p) <> (0, 1)%N -> nth 0 (es i) p = nth 0 (es' i) p,
      nth 0 (es 0%N) 1 = 0 & nth 0 (es' 0%N) 1 <> 0].
Proof.
  move=> F es es'. split; [by []| |by []|by move/eqP; rewrite oner_eq0].
  by move=> [|i] [|[|[|p]]].
Qed.

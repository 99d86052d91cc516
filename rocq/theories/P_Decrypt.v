(** Property theorems C71: how often a row of a garbled table cannot be decrypted. *)

From Coq Require Import NArith List.
From Verif Require Import CircuitModel LpnModel LpnSpec.
From mathcomp Require Import all_ssreflect all_algebra zify.
From Verif Require Import MathModel MathProofs MatProofs SharingModel SharingSpec SharingProofs.
From Verif Require Import MachineModel MachineProofs MachineBuild Realize CoreModel CoreSpec CoreProofs ViewSpec.
From Verif Require Import RandTransProofs PreprocModel PreprocSpec PreprocProofs PreprocRun GarbleModel GarbleSpec GarbleGates GarbleTf GarbleWires GarbleRun.
From Verif Require Import TwinProofs TwinCore TwinWires TwinRun HideSpec HideProofs TwinDeal TwinPre ExactErr ExactPre DiceSpec DiceProofs PipeDiceSpec PipeDice.
From Verif Require Import GFField GFCodec P_Math P_Sharing P_Core P_Preproc P_Garble P_View P_Leak P_Secrecy P_BinPre P_Pipeline P_PipeSecrecy P_Exact P_PipeExact P_Noise.
From Verif Require Import WeightProofs LpnScriptModel.
From Verif Require ProtoIdModel P_ProtoId.
Set Implicit Arguments.
Unset Strict Implicit.
Unset Printing Implicit Defensive.
Import GRing.Theory.
Local Open Scope ring_scope.


(** ** C71 *)

(** The number of errors in row [rho] (of all rows of the tables) at slot [q]. *)
Definition row_weight (F : fieldType) (M : nat) (es : nat -> seq F) (rho q : nat) : nat :=
  seq.count (fun m => nth 0 (es (rho * M + m)%N) q != 0) (iota 0 M).

(** Row [r] of the table of gate block [gid] can be read at slot [q]: the shares,
    reconstructed, minus what the key contributes are a word that is at most
    [radius] symbols away from the encoded plaintext and from no other code word. *)
Definition readable (F : fieldType) (emb : nat -> F) (H : eqType) (sha : seq N -> H) (draws : H -> nat -> F) (circ : pcircuit)
    (n l K M radius : nat) (P : pss F) (mk ks : nat -> seq F) (tabs : nat -> nat -> seq (seq F)) (gid r q : nat) : Prop :=
  let x := nth (PInv [::] [::]) (p_gates circ) gid in
  let msg := row_msg (wire_mask circ mk) (out_label circ K ks) (plaintext K) (@buf_number F) x r q in
  let code (u : nat -> F) m := \sum_(c < K.+1) rs_code emb m c * u c in
  exists word : nat -> F, [/\
    forall m, (m < M)%N -> exists secrets,
      pss_recon P [seq nth 0 (nth [::] (tabs gid i) r) m | i <- iota 0 n] = Some (ROk secrets) /\
      word m = nth 0 secrets q - \sum_(k < K) public_matrix sha draws circ l K M gid r m k q * row_key (inp_label circ K ks) x r q k,
    (seq.count (fun m => word m != code msg m) (iota 0 M) <= radius)%N &
    forall u, (seq.count (fun m => word m != code u m) (iota 0 M) <= radius)%N -> forall c, (c <= K)%N -> u c = msg c].

(** Counting. *)
Definition noisy (F : fieldType) : pred (bool * bool * F) := fun c => noise c != 0.
Lemma noise_nonzero (F : finFieldType) : #|@noisy F| = (#|F| - 1)%N.
Proof.
  have -> : #|@noisy F| = #|[predC [pred c : bool * bool * F | noise c == 0]]| by apply: eq_card => c; rewrite !inE.
  have N0 := noise_ways (0 : F). rewrite eqxx in N0.
  have := cardC [pred c : bool * bool * F | noise c == 0]. rewrite N0 !card_prod card_bool => X. rewrite -[LHS](addKn (3 * #|F| + 1)%N) X. move: #|F| => m. clear. lia.
Qed.

Lemma both_bits (F : finType) : #|[pred c : bool * bool * F | c.1.1 && c.1.2]| = #|F|.
Proof.
  rewrite -(card_imset predT (_ : injective (fun z : F => (true, true, z)))); last by move=> z z' [].
  apply: eq_card => -[[u v] z]. rewrite inE /=. apply/idP/imsetP => [/andP [-> ->]|[z' _ [-> ->]]] //. by exists z.
Qed.

Lemma heavy_le (F : finFieldType) (I : finType) (J : {set I}) T :
  (4 ^ #|J| * #|[pred f : {ffun I -> bool * bool * F} | T < #|spots J (@noisy F) f|]| <=
   (\sum_(h < #|J|.+1 | T < h) 'C(#|J|, h) * 3 ^ (#|J| - h)) * (4 * #|F|) ^ #|I|)%N.
Proof.
  have CX : #|[finType of bool * bool * F]| = (4 * #|F|)%N by rewrite !card_prod card_bool.
  have HJ : (#|J| <= #|I|)%N by exact: max_card.
  apply: (@leq_trans (4 ^ #|J| * #|[pred f : {ffun I -> bool * bool * F} | T < #|spots J [pred c : bool * bool * F | c.1.1 && c.1.2] f|]|)%N).
  { rewrite leq_mul2l. apply/orP; right. apply: subset_leq_card. apply/subsetP => f. rewrite !inE => Hf. apply: leq_trans Hf _.
    apply: subset_leq_card. apply/subsetP => i. rewrite !inE => /andP [-> /=]. rewrite /noisy /noise.
    case: (f i) => [[[] []] z] //=; by rewrite ?mul0r ?mulr0 ?mul0r ?eqxx. }
  rewrite card_heavy big_distrr big_distrl /=. apply: leq_sum => h Hh.
  rewrite card_weight both_bits CX. have Hj : (h <= #|J|)%N by rewrite -ltnS.
  have -> : (4 * #|F| - #|F| = 3 * #|F|)%N by lia.
  have E1 : ((4 * #|F|) ^ #|I| = 4 ^ #|J| * (#|F| ^ h * #|F| ^ (#|J| - h)) * (4 * #|F|) ^ (#|I| - #|J|))%N.
  { by rewrite -expnD subnKC // -expnMn -expnD subnKC. }
  rewrite E1 expnMn.
  move: (4 ^ #|J|)%N (#|F| ^ h)%N (#|F| ^ (#|J| - h))%N (3 ^ (#|J| - h))%N ((4 * #|F|) ^ (#|I| - #|J|))%N 'C(_, _) => a b c x y z. clear.
  nia.
Qed.

Lemma count_ord M (a : pred nat) : seq.count a (iota 0 M) = #|[pred m : 'I_M | a m]|.
Proof. by rewrite -sum1_count -[iota 0 M](_ : index_iota 0 M = _) ?big_mkord -?sum1_card // /index_iota subn0. Qed.

(** The noise of a row. *)
Lemma row_sec (F : finFieldType) e l M rho q : (rho * M + M <= e)%N -> (q < l)%N -> exists J : {set 'I_e * 'I_l}, #|J| = M /\
  forall (f : {ffun 'I_e * 'I_l -> bool * bool * F}) (es : nat -> seq F), (forall (j : 'I_e) (p : 'I_l), nth 0 (es j) p = noise (f (j, p))) ->
    row_weight M es rho q = #|spots J (@noisy F) f|.
Proof.
  move=> Hrho Hq. have Hm (m : 'I_M) : (rho * M + m < e)%N by apply: leq_trans Hrho; rewrite ltn_add2l.
  pose h (m : 'I_M) : 'I_e * 'I_l := (Ordinal (Hm m), Ordinal Hq).
  have Ih : injective h. { move=> m m' [/eqP]. rewrite eqn_add2l => /eqP E. exact: val_inj. }
  exists [set h m | m in 'I_M]. split; first by rewrite card_imset // card_ord.
  move=> f es He. rewrite /row_weight count_ord -(card_imset _ Ih). apply: eq_card => x. rewrite inE. apply/imsetP/andP.
  - move=> [m]. rewrite inE => Hx ->. split; first by apply: imset_f. by rewrite /noisy -He.
  - move=> [/imsetP [m _ ->]]. rewrite /noisy -He => Hx. by exists m.
Qed.

Lemma card_some (I W : finType) (bad : I -> pred W) : (#|[pred w | [exists x, bad x w]]| <= \sum_x #|bad x|)%N.
Proof.
  rewrite -[X in (X <= _)%N]sum1_card (eq_bigr (fun x => \sum_(w | bad x w) 1)%N); last by move=> x _; rewrite sum1_card.
  rewrite (exchange_big_dep predT) //= [X in (X <= _)%N]big_mkcond /=. apply: leq_sum => w _. rewrite inE. case: existsP => // -[x Hx].
  by rewrite (bigD1 x).
Qed.

(** A secret that can be exchanged without changing an event is heavy as often as
    a random one. *)
Lemma heavy_bound (W I : finType) (F : finFieldType) (sec : W -> {ffun I -> bool * bool * F}) (b : pred W) (J : {set I}) T :
  (forall f f', exists phi : W -> W, bijective phi /\ forall w, b (phi w) = b w /\ (sec (phi w) == f') = (sec w == f)) ->
  (4 ^ #|J| * #|[pred w | b w && (T < #|spots J (@noisy F) (sec w)|)]| <= (\sum_(h < #|J|.+1 | T < h) 'C(#|J|, h) * 3 ^ (#|J| - h)) * #|b|)%N.
Proof.
  move=> Hm. pose f0 : {ffun I -> bool * bool * F} := [ffun=> (false, false, 0)].
  have C1 := count_secrets Hm f0 [pred f | (T < #|spots J (@noisy F) f|)%N]. have C2 := count_secrets Hm f0 predT.
  have -> : #|b| = #|[pred w | b w && predT (sec w)]| by apply: eq_card => w; rewrite !inE andbT; reflexivity.
  have -> : #|[pred w | b w && (T < #|spots J (@noisy F) (sec w)|)%N]| = #|[pred w | b w && [pred f | (T < #|spots J (@noisy F) f|)%N] (sec w)]| by apply: eq_card.
  rewrite C1 C2 !mulnA leq_mul2r. apply/orP; right.
  have := heavy_le F J T. rewrite -[X in (X ^ #|I|)%N](_ : #|[finType of bool * bool * F]| = _); last by rewrite !card_prod card_bool.
  rewrite -card_ffun => X. apply: leq_trans X _. rewrite leq_mul2l. apply/orP; right. apply: eq_leq. by apply: eq_card => f; rewrite !inE.
Qed.

(** As C69.  [b] is any event that the coalition can observe (or any event at all
    of which this can be said, such as the certain one), [z] an event in which row
    [r] of block [gid] cannot be read at slot [q], or in which some row cannot.
    [fail_ways M (K+1) 2 / 4^M] is the probability of more than
    [max_weight M (K+1)] errors among [M] of rate 1/4. *)
Theorem C71_rows_decrypt : forall (F : finFieldType) (emb : nat -> F) (D : eqType) ser de fits n t l P Pn circ K M
    (H : eqType) (sha : seq N -> H) h0 draws hash (Ms Mb : mat F) (id1 id2 : seq N) d chans bR bZ bB g P',
  @garble_setting F emb D ser de fits n t l P Pn circ K M -> describe circ n t l (Lpn K M) = Some d ->
  good_nodes emb M -> pss_new emb (t + 2 * l - 2) n (default_pos emb n l) = Some P' -> (K < M)%N ->
  (0 < size (rows Ms))%N -> (0 < size (rows Mb))%N -> ncols Ms = n -> ncols Mb = n -> binary Mb ->
  let e := n_errors d in
  let R := size (rows Ms) in let Rb := size (rows Mb) in
  (keys_total d + n_randoms d + 3 * e <= R * bR < keys_total d + n_randoms d + 3 * e + R)%N ->
  (n_zeros d + 2 * e <= R * bZ < n_zeros d + 2 * e + R)%N ->
  (n_masks d + 2 * e <= Rb * bB < n_masks d + 2 * e + Rb)%N ->
  (forall m, (m <= maxn (maxn bR bZ) (maxn bB e))%N -> fits m) ->
  ProtoIdModel.garble_ids id2 circ (N.of_nat l) = Some chans -> (forall u v, id1 ++ u <> id2 ++ v) ->
  (forall i, (i < n)%N -> gctx_new emb sha h0 draws circ (Ctx i n t l P Pn) (Lpn K M) = Some (g i)) ->
  let pre r i := preproc ser de (Ctx i n t l P Pn) Ms Mb id1 d (r i) in
  let code r coins i := pre r i (fun pp => garble emb ser de hash (g i) id2 pp (coins i) (fun y => Ret (garble_val y))) in
  forall A, coalition n t A -> shielded n l A circ -> hides n Ms A -> hides_bits n Mb A ->
  forall B, enough_dice B n circ (Lpn K M) d bR bZ bB ->
  let radius := max_weight M K.+1 in
  exists pp : pipe_dice F B -> nat -> preproc_data F,
  let happens E w := E (pp w) (cast_pre w) (cast_garble w) (sent_in n (code (cast_pre w) (cast_garble w))) in
  let reads gid r q w := forall mk ks rs es, material emb n t l d (pp w) mk ks rs es ->
    every_run_ends n (start (code (cast_pre w) (cast_garble w)))
      (fun c => exists tabs rest, all_done n (fun i => garble_val ([seq tabs gid i | gid <- iota 0 (size (p_gates circ))], rest i)) c /\
         readable emb sha draws circ n l K M radius P' mk ks tabs gid r q) in
  let inside gid r q := let x := nth (PInv [::] [::]) (p_gates circ) gid in [/\ (gid < size (p_gates circ))%N, (r < table_rows x)%N & (q < size (gate_out x))%N] in
  [/\ forall w, every_run_ends n (start (fun i => pre (cast_pre w) i (fun x => Ret (pp_val x)))) (all_done n (fun i => pp_val (pp w i))) /\
        exists mk ks rs es, material emb n t l d (pp w) mk ks rs es,
      forall E, @observable_pipe F D n A E -> forall gid r q (b z : pred (pipe_outcomes F B)), inside gid r q ->
        (forall w, b w <-> happens E w) -> (forall w, z w -> ~ reads gid r q w) ->
        (4 ^ M * #|[predI b & z]| <= fail_ways M K.+1 2 * #|b|)%N,
      forall E, @observable_pipe F D n A E -> forall (b z : pred (pipe_outcomes F B)),
        (forall w, b w <-> happens E w) -> (forall w, z w -> ~ (forall gid r q, inside gid r q -> reads gid r q w)) ->
        (4 ^ M * #|[predI b & z]| <= rows_before circ (size (p_gates circ)) * l * fail_ways M K.+1 2 * #|b|)%N &
      forall E, @observable_pipe F D n A E -> forall bits gid r q (b z : pred (pipe_outcomes F B)), accepts M K.+1 2 bits -> inside gid r q ->
        (forall w, b w <-> happens E w) -> (forall w, z w -> ~ reads gid r q w) -> (2 ^ bits * #|[predI b & z]| <= #|b|)%N].
Proof.
  move=> F emb D ser de fits n t l P Pn circ K M H sha h0 draws hash Ms Mb id1 id2 d chans bR bZ bB g P'.
  move=> HG Hd HM HP' HKM B0 BB0 HMs HMb Hbin e R Rb LR LZ LB Hfp Hids Hroots Hg pre code A HC Hsh Hh Hhb B Hen radius.
  have [pp [bit [key [sca [i0 [i1 [Hruns Hwhole Hi01 Hmat Hren]]]]]]] := renaming hash HG Hd B0 BB0 HMs HMb Hbin LR LZ LB Hfp Hids Hroots Hg HC Hsh Hh Hhb Hen.
  exists pp. move=> happens reads inside.
  (* events do not change *)
  have Hobs E (b : pred (pipe_outcomes F B)) (phi : pipe_dice F B -> pipe_dice F B) : @observable_pipe F D n A E -> (forall w, b w <-> happens E w) ->
     (forall w, (forall a, a \in A -> same_pre (cast_pre w a) (cast_pre (phi w) a) /\ same_coins (cast_garble w a) (cast_garble (phi w) a)) /\
        same_view n A (pp w) (pp (phi w)) (code (cast_pre w) (cast_garble w)) (code (cast_pre (phi w)) (cast_garble (phi w)))) -> forall w, b (phi w) = b w.
  { move=> HE Hb Hv w. have [V1 [V2 V3]] := Hv w.
    have X := HE _ _ _ _ _ _ _ _ V2 (fun a Ha => proj1 (V1 a Ha)) (fun a Ha => proj2 (V1 a Ha)) V3. rewrite -/(happens E w) -/(happens E (phi w)) in X.
    move: (Hb w) (Hb (phi w)) X. move: (happens E w) (happens E (phi w)) => Q Q'. case: (b w); case: (b _) => -[H1 H2] [H3 H4] [H5 H6] //.
    - by have := H4 (H5 (H1 isT)).
    - by have := H2 (H6 (H3 isT)). }
  pose S := {ffun 'I_e * 'I_l -> bool * bool * F}.
  pose sec (w : pipe_outcomes F B) : S := [ffun x : 'I_e * 'I_l => (bit w (i0 x.1) x.2, bit w (i1 x.1) x.2, sca w x.1 x.2)].
  pose at_ (f : S) (j p : nat) := if insub j is Some j' then if insub p is Some p' then f (j', p') else (false, false, 0) else (false, false, 0).
  have atE (f : S) (j : 'I_e) (p : 'I_l) : at_ f j p = f (j, p) by rewrite /at_ !valK.
  have move f f' : exists phi : pipe_dice F B -> pipe_dice F B, bijective phi /\ forall w, (sec (phi w) == f') = (sec w == f) /\
      ((forall a, a \in A -> same_pre (cast_pre w a) (cast_pre (phi w) a) /\ same_coins (cast_garble w a) (cast_garble (phi w) a)) /\
        same_view n A (pp w) (pp (phi w)) (code (cast_pre w) (cast_garble w)) (code (cast_pre (phi w)) (cast_garble (phi w)))).
  { have [phi [Hbij Hp]] := Hren (fun i p => if [pick j : 'I_e | i0 j == i] is Some j then (at_ f j p).1.1 (+) (at_ f' j p).1.1
         else if [pick j : 'I_e | i1 j == i] is Some j then (at_ f j p).1.2 (+) (at_ f' j p).1.2 else false)
       (fun _ _ => 0) (fun j p => (at_ f' j p).2 - (at_ f j p).2).
    exists phi. split; first exact: Hbij. move=> w. have [P1 P2 P3 P4 P5] := Hp w. split; last by split; [exact: P4|exact: P5].
    have X (j : 'I_e) (p : 'I_l) : (sec (phi w) (j, p) == f' (j, p)) = (sec w (j, p) == f (j, p)).
    { have [J0 J1 J2] := Hi01 j (ltn_ord j).
      rewrite !ffunE /= P3 // !P1 //; try by apply: leq_trans (leq_addr _ _).
      have -> : [pick j' : 'I_e | i0 j' == i0 j] = Some j.
      { case: pickP => [j' E|/(_ j)]; last by rewrite eqxx. have [Y _ _] := J2 j' (ltn_ord j'). rewrite eq_sym Y in E. by congr Some; apply/val_inj/eqP; rewrite eq_sym. }
      have -> : [pick j' : 'I_e | i0 j' == i1 j] = None.
      { case: pickP => // j' E. have [_ _ J2'] := Hi01 j' (ltn_ord j'). have [_ _ Y] := J2' j (ltn_ord j). by rewrite Y in E. }
      have -> : [pick j' : 'I_e | i1 j' == i1 j] = Some j.
      { case: pickP => [j' E|/(_ j)]; last by rewrite eqxx. have [_ Y _] := J2 j' (ltn_ord j'). rewrite eq_sym Y in E. by congr Some; apply/val_inj/eqP; rewrite eq_sym. }
      rewrite !atE. move: (f (j, p)) (f' (j, p)) => [[f1 f2] f3] [[f1' f2'] f3']. rewrite !xpair_eqE /=. congr (_ && _ && _).
      + by case: (bit _ _ _) f1 f1' => -[] [].
      + by case: (bit _ _ _) f2 f2' => -[] [].
      + by rewrite addrA subr_eq [sca w j p + _]addrC (inj_eq (addrI _)). }
    apply/eqP/eqP => E; apply/ffunP => -[j p]; apply/eqP; have := X j p; rewrite E eqxx; [by move=> <-|by move=> ->]. }
  pose es_of w j : seq F := [seq (bit w (i0 j) q)%:R * (bit w (i1 j) q)%:R * sca w j q | q <- iota 0 l].
  have es_ofE w (j : 'I_e) (p : 'I_l) : nth 0 (es_of w j) p = noise (sec w (j, p)) by rewrite ffunE /es_of (nth_map 0%N) ?size_iota // nth_iota.
  have [[_ HSS _ Hwf _] _] := HG. have [_ _ _ Hgp] := HSS.
  have [B1 [B2 [_ _ _ _ [_ _ Ee]]]] := describeE Hd.
  have Ee' : e = (rows_before circ (size (p_gates circ)) * M)%N by rewrite /e Ee errs_before.
  have Hrho gid r q : inside gid r q -> (rows_before circ gid + r < rows_before circ (size (p_gates circ)))%N /\ (q < l)%N.
  { move=> [Hgid Hr Hq]. split.
    - rewrite /rows_before take_size -[in X in (_ < X)%N](cat_take_drop gid (p_gates circ)) map_cat sumn_cat ltn_add2l.
      by rewrite (seq.drop_nth (PInv [::] [::]) Hgid) /=; apply: leq_trans Hr (leq_addr _ _).
    - apply: leq_trans Hq _. move: Hwf => /and4P [/allP Hw _ _ _]. apply: Hw. rewrite /out_blocks mem_cat. apply/orP; right.
      apply/(nthP [::]). exists gid; rewrite ?size_map // (nth_map (PInv [::] [::])) //. }
  have Hlight gid r q w : inside gid r q -> (row_weight M (es_of w) (rows_before circ gid + r) q <= radius)%N -> reads gid r q w.
  { move=> Hin Hw mk ks rs es Hmt. have [Hr1 _] := Hrho _ _ _ Hin. have [Hgid Hr Hq] := Hin.
    have [_ _ Hes] := (Hmat w mk ks es).1 (ex_intro _ rs Hmt).
    have [Bd HW] := Hwhole w mk ks rs es Hmt. exists Bd => k c Hk. have [HB HW'] := HW k c Hk. split; first exact: HB.
    case: HW' => [HW'|[tabs [rest [Hdone Hgb]]]]; [by left|right].
    exists tabs, rest. split; first exact: Hdone.
    have [word [W1 W2 _ W4]] := C45_rows_decrypt Hwf HM Hgp HP' Hgb Hgid Hr Hq.
    have Hrad : (2 * radius < M - K)%N by rewrite /radius /max_weight; clear -HKM; lia.
    have Ec : seq.count (fun m => error_of circ es M gid r m q != 0) (iota 0 M) = row_weight M (es_of w) (rows_before circ gid + r) q.
    { apply: eq_in_count => m. rewrite mem_iota add0n => Hm. rewrite /error_of Hes //.
      rewrite -/e Ee'. apply: (@leq_trans ((rows_before circ gid + r).+1 * M)%N); [by rewrite mulSnr ltn_add2l|by rewrite leq_mul2r Hr1 orbT]. }
    exists word. split; first exact: W1.
    - apply: leq_trans Hw. rewrite -Ec. apply: eq_leq. apply: eq_in_count => m. rewrite mem_iota add0n => Hm. rewrite (W2 m Hm).
      by rewrite -subr_eq0 [X in X - _]addrC addrK.
    - move=> u Hu. apply: W4. rewrite Ec. move: Hu Hw Hrad. clear. move: (seq.count _ _) (row_weight _ _ _ _) => a1 a2. lia. }
  have Hsum : fail_ways M K.+1 2 = (\sum_(h < M.+1 | radius < h) 'C(M, h) * 3 ^ (M - h))%N by [].
  (* one row *)
  have one E (b : pred (pipe_outcomes F B)) rho q : @observable_pipe F D n A E -> (forall w, b w <-> happens E w) -> (rho < rows_before circ (size (p_gates circ)))%N -> (q < l)%N ->
     (4 ^ M * #|[pred w | b w && (radius < row_weight M (es_of w) rho q)%N]| <= fail_ways M K.+1 2 * #|b|)%N.
  { move=> HE Hb Hr Hq. have Hle : (rho * M + M <= e)%N by rewrite Ee' -mulSnr leq_mul2r Hr orbT.
    have [J [EJ HJ]] := row_sec F Hle Hq.
    have Hm : forall f f', exists phi : pipe_outcomes F B -> pipe_outcomes F B, bijective phi /\ forall w, b (phi w) = b w /\ (sec (phi w) == f') = (sec w == f).
    { move=> f f'. have [phi [Hbij Hp]] := move f f'. exists phi. split; first exact: Hbij. move=> w. split; last by have [] := Hp w.
      apply: (Hobs E b phi HE Hb) => w'. by have [] := Hp w'. }
    have := heavy_bound J radius Hm. rewrite EJ -Hsum => X. apply: leq_trans X. rewrite leq_mul2l. apply/orP; right.
    apply: subset_leq_card. apply/subsetP => w. rewrite !inE => /andP [-> /=]. by rewrite (HJ _ _ (es_ofE w)). }
  have part2 : forall E, @observable_pipe F D n A E -> forall gid r q (b z : pred (pipe_outcomes F B)), inside gid r q ->
        (forall w, b w <-> happens E w) -> (forall w, z w -> ~ reads gid r q w) ->
        (4 ^ M * #|[predI b & z]| <= fail_ways M K.+1 2 * #|b|)%N.
  { move=> E HE gid r q b z Hin Hb Hz. have [Hr Hq] := Hrho _ _ _ Hin. 
    apply: leq_trans (one E b _ _ HE Hb Hr Hq). rewrite leq_mul2l. apply/orP; right. apply: subset_leq_card. apply/subsetP => w. rewrite !inE => /andP [Hbw Hzw].
    apply/andP; split; first exact: Hbw. rewrite ltnNge. apply/negP => Hn. apply: (Hz w Hzw). exact: (Hlight gid r q w Hin Hn). }
  split.
  - move=> w. split; first exact: Hruns.
    pose mk j := [seq (bit w (2 * e + j)%N q)%:R : F | q <- iota 0 l]. pose ks j := [seq key w j q | q <- iota 0 l].
    have [rs Hrs] : exists rs, material emb n t l d (pp w) mk ks rs (es_of w) by apply/Hmat; split.
    by exists mk, ks, rs, (es_of w).
  - exact: part2.
  - move=> E HE b z Hb Hz. pose rws := rows_before circ (size (p_gates circ)).
    pose bad (x : 'I_rws * 'I_l) := [pred w | b w && (radius < row_weight M (es_of w) x.1 x.2)%N].
    have Hbad x : (4 ^ M * #|bad x| <= fail_ways M K.+1 2 * #|b|)%N by exact: (one E b x.1 x.2 HE Hb (ltn_ord _) (ltn_ord _)).
    have Hsub : (#|[predI b & z]| <= \sum_(x : 'I_rws * 'I_l) #|bad x|)%N.
    { apply: leq_trans (card_some bad). apply: subset_leq_card. apply/subsetP => w. rewrite !inE => /andP [Hbw Hzw].
      case: (boolP [exists x, bad x w]) => // /existsPn Hn. case: (Hz w Hzw) => gid r q Hin. apply: Hlight => //. have [Hr Hq] := Hrho _ _ _ Hin.
      have X : ~~ (b w && (radius < row_weight M (es_of w) (rows_before circ gid + r) q)%N) := Hn (Ordinal Hr, Ordinal Hq).
      move: X. by rewrite [b w]Hbw /= -leqNgt. }
    apply: (@leq_trans (4 ^ M * \sum_x #|bad x|)%N); first by rewrite leq_mul2l Hsub orbT.
    rewrite big_distrr /=. apply: (@leq_trans (\sum_(x : 'I_rws * 'I_l) (fail_ways M K.+1 2 * #|b|))%N); first by apply: leq_sum => x _; exact: Hbad.
    by rewrite sum_nat_const card_prod !card_ord mulnA.
  - move=> E HE bits gid r q b z Hacc Hin Hb Hz. have := part2 E HE gid r q b z Hin Hb Hz. move: Hacc. rewrite /accepts expnM.
    have : (0 < 4 ^ M)%N by rewrite expn_gt0. move: #|[predI _ & _]| #|b| (fail_ways _ _ _) (2 ^ bits)%N => x1 x2 x3 x4. rewrite -[(2 ^ 2)%N]/4%N. move: (4 ^ M)%N => y. clear. move=> Hy Ha Hb.
    have X : (x4 * (y * x1) <= x4 * (x3 * x2))%N by rewrite leq_mul2l Hb orbT.
    have Y : (x3 * x4 * x2 <= y * x2)%N by rewrite leq_mul2r Ha orbT.
    rewrite -(leq_pmul2l Hy). apply: leq_trans Y. rewrite mulnCA. apply: leq_trans X _. by rewrite mulnA [(x4 * x3)%N]mulnC.
Qed.
Print Assumptions C71_rows_decrypt.

(** The code of the table rows: how many errors it corrects. *)
Definition decodes (F : fieldType) (emb : nat -> F) (K M T : nat) : Prop :=
  let code (u : nat -> F) m := \sum_(c < K.+1) rs_code emb m c * u c in
  forall (word : nat -> F) (u v : nat -> F),
    (seq.count (fun m => word m != code u m) (iota 0 M) <= T)%N -> (seq.count (fun m => word m != code v m) (iota 0 M) <= T)%N ->
    forall c, (c <= K)%N -> u c = v c.

Lemma count_low (a : pred nat) lo hi M : (forall m, (m < M)%N -> a m -> (lo <= m < hi)%N) -> (seq.count a (iota 0 M) <= hi - lo)%N.
Proof.
  move=> Ha. rewrite -size_filter -(size_iota lo (hi - lo)). apply: uniq_leq_size; first by rewrite filter_uniq ?iota_uniq.
  move=> m. rewrite mem_filter !mem_iota add0n => /andP [Am Hm]. have := Ha m Hm Am. clear. lia.
Qed.

(** The rows are corrected up to the bound of the script for [k = K + 1], a key
    and a bit, and no further.  With the length of the key for [k] the bound is
    one too many whenever [M - K] is even. *)
Theorem C71_radius_exact : forall (F : fieldType) (emb : nat -> F) K M, good_nodes emb M -> (K < M)%N ->
  (forall T, decodes emb K M T <-> (T <= max_weight M K.+1)%N) /\ (decodes emb K M (max_weight M K) <-> odd (M - K)).
Proof.
  move=> F emb K M HM HKM.
  have main T : decodes emb K M T <-> (T <= max_weight M K.+1)%N.
  { split.
    - move=> Hd. case: leqP => // HT. have H2 : (M - K <= 2 * T)%N by move: HT HKM; rewrite /max_weight; clear; lia.
      pose p : {poly F} := \prod_(i < K) ('X - (emb i.+1)%:P).
      have Sp : size p = K.+1 by rewrite /p (size_prod_XsubC _ (fun i : 'I_K => emb i.+1)) /index_enum -enumT size_enum_ord.
      pose code (u : nat -> F) m := \sum_(c < K.+1) rs_code emb m c * u c.
      pose uu c := p`_c. pose wd m := if (m < K + T)%N then code uu m else 0.
      have Eu m : code uu m = emb m.+1 * p.[emb m.+1].
      { rewrite /code rs_code_sum. congr (_ * _.[_]). apply/polyP => c. rewrite coef_poly. case: ltnP => // Hc. by rewrite nth_default // Sp. }
      have Z m : (m < K)%N -> code uu m = 0.
      { move=> Hm. rewrite Eu /p horner_prod (bigD1 (Ordinal Hm)) //= hornerXsubC subrr. by rewrite mul0r mulr0. }
      have V m : code (fun=> 0) m = 0 by rewrite /code big1 // => c _; rewrite mulr0.
      have := Hd wd uu (fun=> 0).
      have A1 : (seq.count (fun m => wd m != code uu m) (iota 0 M) <= T)%N.
      { apply: leq_trans (count_low (lo := K + T) (hi := M) _) _.
        - move=> m Hm. rewrite Hm andbT /wd. by case: ltnP => //; rewrite eqxx.
        - clear -H2. lia. }
      have A2 : (seq.count (fun m => wd m != code (fun=> 0%R) m) (iota 0 M) <= T)%N.
      { apply: leq_trans (count_low (lo := K) (hi := K + T) _) _; last by rewrite addKn.
        move=> m Hm. rewrite V /wd. case: ltnP => [H1|]; last by rewrite eqxx. rewrite andbT leqNgt. apply: contra => HK. by rewrite Z. }
      move=> /(_ A1 A2 K (leqnn K)) /eqP. rewrite /uu.
      have : lead_coef p = 1 by apply/monicP; apply: monic_prod_XsubC.
      by rewrite lead_coefE Sp /= => ->; rewrite oner_eq0.
    - move=> HT. have H2 : (2 * T < M - K)%N by move: HT HKM; rewrite /max_weight; clear; lia.
      move=> word u v Hu Hv. pose code (u : nat -> F) m := \sum_(c < K.+1) rs_code emb m c * u c. pose good m := (word m == code u m) && (word m == code v m).
      have Hg : (K < seq.count good (iota 0 M))%N.
      { have := count_predC good (iota 0 M). rewrite size_iota.
        have := count_predUI (fun m => word m != code u m) (fun m => word m != code v m) (iota 0 M).
        have -> : seq.count (predC good) (iota 0 M) = seq.count (predU (fun m => word m != code u m) (fun m => word m != code v m)) (iota 0 M).
        { apply: eq_count => m. by rewrite /= /good negb_and. }
        move: Hu Hv H2. move: (seq.count _ _) (seq.count _ _) (seq.count (predU _ _) _) (seq.count (predI _ _) _) (seq.count good _). clear. lia. }
      apply: (rs_unique (S := take K.+1 [seq m <- iota 0 M | good m]) HM).
      + apply: take_uniq. by rewrite filter_uniq ?iota_uniq.
      + rewrite size_takel // size_filter. exact: Hg.
      + apply/allP => m /mem_take. by rewrite mem_filter mem_iota => /andP [_ /andP []].
      + move=> m /mem_take. rewrite mem_filter => /andP [/andP [/eqP E1 /eqP E2] _]. by rewrite -/(code u m) -/(code v m) -E1 -E2. }
  split; first exact: main. apply: (iff_trans (main _)). rewrite /max_weight. move: HKM. clear => HKM.
  have := odd_double_half (M - K). rewrite -divn2 -mul2n. case: (odd _) => /= E; split=> //; move: E; lia.
Qed.
Print Assumptions C71_radius_exact.

(** The README's 5 and 3, and 5 and 2: one error more could be corrected only if
    the difference were the other parity. *)
Example C71_radius_example : [/\ good_nodes g4 5, decodes g4 2 5 1, ~ decodes g4 2 5 2, decodes g4 3 5 0 & ~ decodes g4 3 5 (max_weight 5 3)].
Proof.
  have HM : good_nodes g4 5 by apply: (@C08_field_has_enough_points w4); vm_compute.
  have [A1 _] := C71_radius_exact HM (isT : 2 < 5)%N. have [B1 B2] := C71_radius_exact HM (isT : 3 < 5)%N.
  split; [exact: HM|by apply/A1|by move/A1|by apply/B1|by move/B2].
Qed.

(** The theorem is not empty (as C69, with the reconstruction of table entries). *)
Example C71_example : exists P Pn P' (Ms Mb : mat (gf_fieldType w5)) d chans bR bZ bB g B,
  let F := [finFieldType of gf w5] in let sha := (id : seq N -> [eqType of seq N]) in let draws (_ : [eqType of seq N]) (_ : nat) : F := 0 in
  let e := n_errors d in let R := size (rows Ms) in let Rb := size (rows Mb) in
  [/\ @garble_setting F g5 _ (@gser w5) (@gde w5) len_ok 7 1 3 P Pn circ7 1 2, describe circ7 7 1 3 (Lpn 1 2) = Some d,
      [/\ (0 < R)%N, (0 < Rb)%N, ncols Ms = 7%N, ncols Mb = 7%N & binary Mb],
      ProtoIdModel.garble_ids [:: 7]%num circ7 (N.of_nat 3) = Some chans /\ (forall u v : seq N, [:: 5%num] ++ u <> [:: 7%num] ++ v) &
      forall i, (i < 7)%N -> gctx_new g5 sha [::] draws circ7 (Ctx i 7 1 3 P Pn) (Lpn 1 2) = Some (g i)] /\
  [/\ [/\ (keys_total d + n_randoms d + 3 * e <= R * bR < keys_total d + n_randoms d + 3 * e + R)%N,
      (n_zeros d + 2 * e <= R * bZ < n_zeros d + 2 * e + R)%N, (n_masks d + 2 * e <= Rb * bB < n_masks d + 2 * e + Rb)%N &
      forall m, (m <= maxn (maxn bR bZ) (maxn bB e))%N -> len_ok m],
      forall a, (0 < a < 7)%N -> [/\ coalition 7 1 [:: a], shielded 7 3 [:: a] circ7, hides 7 Ms [:: a] & hides_bits 7 Mb [:: a]],
      enough_dice B 7 circ7 (Lpn 1 2) d bR bZ bB &
      [/\ good_nodes g5 2, pss_new g5 (1 + 2 * 3 - 2) 7 (default_pos g5 7 3) = Some P' &
        exists gid r q, let x := nth (PInv [::] [::]) (p_gates circ7) gid in [/\ (gid < size (p_gates circ7))%N, (r < table_rows x)%N & (q < size (gate_out x))%N]]].
Proof.
  have [P [Pn [Ms [Mb [d [chans [bR [bZ [bB [g [B [H1 [H2 H3 H4 _ _]]]]]]]]]]]]] := C69_example.
  exists P, Pn. eexists. exists Ms, Mb, d, chans, bR, bZ, bB, g, B. split; first exact: H1. split; [exact: H2|exact: H3|exact: H4|].
  split; [|reflexivity|by exists 0%N, 0%N, 0%N]. by apply: (@C08_field_has_enough_points w5); vm_compute.
Qed.

(** Property theorems C67: exactly how much the protocols send. *)

From Coq Require Import NArith String List Ascii.
From Verif Require Import CircuitModel CircuitSpec LpnModel LpnSpec.
From mathcomp Require Import all_ssreflect all_algebra zify.
From Verif Require Import MathModel MathProofs MatFileModel SharingModel SharingSpec SharingProofs.
From Verif Require Import MachineModel Realize CoreModel CoreSpec PreprocModel PreprocSpec PreprocProofs GarbleModel GarbleSpec GarbleRun PipeModel BinModel.
From Verif Require Import CodecModel CodecProofs GaloisModel GFField GFCodec P_Math P_Garble P_MatFile P_Phase P_Bin P_BinPre P_Pipeline.
From Verif Require Import RouterModel RouterSpec RouteModel RouteSpec RouteProofs.
From Verif Require Import StackModel StackSpec StackRounds StackNets P_Stack Bill BillProto TrafficSpec TrafficProofs.
From Verif Require Import P_Core P_Preproc.
From Verif Require ProtoIdModel.
Set Implicit Arguments.
Unset Strict Implicit.
Unset Printing Implicit Defensive.
Import GRing.Theory.
Local Open Scope ring_scope.

(** ** The length of a message *)

(** [m] field elements: eight bytes for the length and then the elements. *)
Definition byte_len (w : N) (m : nat) : nat := (8 + m * N.to_nat ((w + 7) / 8))%N.

Definition byte_len' (w : N) (m : nat) : nat :=
  if (8 + N.of_nat m * ((w + 7) / 8) <? 2 ^ 62)%num then byte_len w m else 0%N.

Lemma raw_bser_len (w : width) x : size (raw (@bser w x)) = byte_len' w (size x).
Proof.
  have E : size (gser x) = byte_len w (size x).
  { have -> : size (gser x) = length (gser x) by []. by rewrite /gser ser_vec_length map_length. }
  rewrite /byte_len'. case: N.ltb_spec => H; first by rewrite raw_bser.
  rewrite /raw /bser /insubd insubN //. apply/negP => /N.ltb_lt. rewrite E /byte_len. lia.
Qed.

Lemma byte_len_fits (w : width) m : bfits w m -> byte_len' w m = byte_len w m.
Proof. by rewrite /bfits /byte_len' => /N.ltb_lt ->. Qed.

(** ** Preprocessing and garbling *)

Lemma pipeline_bill (F : fieldType) (emb : nat -> F) (D : eqType) (enc : D -> seq N) ser de len n t l P Pn circ K M
    (H : eqType) (sha : seq N -> H) h0 draws hash (Ms Mb : mat F) (id1 id2 : seq N) d (r : coins F) g coins f j r0 :
  (forall x, size (enc (ser x)) = len (size x)) -> (0 < size (rows Ms))%N -> (0 < size (rows Mb))%N -> (r0 < n)%N ->
  gctx_new emb sha h0 draws circ (Ctx j n t l P Pn) (Lpn K M) = Some g ->
  bill n (fun r' d => W0 f r0 r' (enc d)) (fun _ => True)
    (preproc ser de (Ctx j n t l P Pn) Ms Mb id1 d r (fun pp => garble emb ser de hash g id2 pp coins (fun y => Ret (garble_val y))))
    (preproc_traffic (f \o len) n (size (rows Ms)) (size (rows Mb)) d j r0 +
     garble_traffic (f \o len) n l K circ (leader1 hash n id2 (size (p_gates circ))) (leader2 hash n id2 (size (p_gates circ))) j r0)%N.
Proof.
  move=> Hlen B0 BB0 Hr Hg. refine (@bill_preproc0 F D enc ser de f r0 len Hlen (Ctx j n t l P Pn) Hr Ms Mb id1 d _ r _ _ B0 BB0 _) => pp.
  rewrite -[X in bill _ _ _ _ X]addn0. refine (@bill_garble0 F D enc ser de f r0 len Hlen (Ctx j n t l P Pn) Hr hash H emb sha h0 draws circ _ g id2 _ pp coins _ _ Hg _) => y. by [].
Qed.

(** The pipeline of C65 over TCP.  In every execution every party [r] receives
    from every party [j], for every function [f] of the number of bytes of a
    message, messages of total [f] as given by the two formulas of TrafficSpec;
    in particular the number of messages, the number of messages of each length
    and the number of bytes, which the statistics show.  Who leads a gate is a
    matter of hashing; the totals over all pairs do not depend on it. *)
Theorem C67_pipeline_tcp : forall (F : fieldType) (emb : nat -> F) (D : eqType) (enc : D -> seq N) ser de fits len n t l P Pn circ K M
    (H : eqType) (sha : seq N -> H) h0 draws hash (Ms Mb : mat F) (id1 id2 : seq N) d chans (r : nat -> coins F) bR bZ bB,
  injective enc -> (forall y, (N.of_nat (size (enc y)) < 2 ^ 62)%num) -> (forall x, size (enc (ser x)) = len (size x)) ->
  @garble_setting F emb D ser de fits n t l P Pn circ K M -> describe circ n t l (Lpn K M) = Some d ->
  (0 < size (rows Ms))%N -> (0 < size (rows Mb))%N -> ncols Ms = n -> ncols Mb = n -> binary Mb ->
  let e := n_errors d in
  let B := size (rows Ms) in let BB := size (rows Mb) in
  (keys_total d + n_randoms d + 3 * e <= B * bR < keys_total d + n_randoms d + 3 * e + B)%N ->
  (n_zeros d + 2 * e <= B * bZ < n_zeros d + 2 * e + B)%N ->
  (n_masks d + 2 * e <= BB * bB < n_masks d + 2 * e + BB)%N ->
  (forall m, (m <= maxn (maxn bR bZ) (maxn bB e))%N -> fits m) ->
  ProtoIdModel.garble_ids id2 circ (N.of_nat l) = Some chans -> (forall u v, id1 ++ u <> id2 ++ v) ->
  (size id1 <= 200)%N -> (size id2 <= 200)%N ->
  (N.of_nat (length (p_inputs circ)) + N.of_nat (length (p_gates circ)) + 4 <= 2 ^ 56)%num ->
  (ProtoIdModel.num_inp_blocks (p_gates circ) <= 2 ^ 56)%num ->
  exists g L1 L2,
    [/\ forall i, (i < n)%N -> gctx_new emb sha h0 draws circ (Ctx i n t l P Pn) (Lpn K M) = Some (g i),
        forall gid, (L1 gid < n)%N /\ (L2 gid < n)%N &
  forall coins, ends_in (sstep n enc (tnstep n) t_out)
    (fun s => [/\ exists res, stack_done n t_out res s,
        receives n t_out s (fun f j r => (preproc_traffic (f \o len) n B BB d j r + garble_traffic (f \o len) n l K circ L1 L2 j r)%N) &
        forall f, (\sum_(j < n) \sum_(r < n) tally f (got_from (t_out (s_net s) r) j) =
                   preproc_total (f \o len) n B BB d + garble_total (f \o len) n l K circ)%N])
    (stack_start n tinit (fun i => preproc ser de (Ctx i n t l P Pn) Ms Mb id1 d (r i) (fun pp =>
       garble emb ser de hash (g i) id2 pp (coins i) (fun y => Ret (garble_val y)))))].
Proof.
  move=> F emb D enc ser de fits len n t l P Pn circ K M H sha h0 draws hash Ms Mb id1 id2 d chans r bR bZ bB enc_inj enc_short Hlen.
  move=> HG Ed B0 BB0 HM HMb Hbin e B BB LR LZ LB Hf Hids Hroots Hid1 Hid2 Hb Hni.
  have [g [Hg HE]] := C65_pipeline_tcp sha h0 draws hash r enc_inj enc_short HG Ed B0 BB0 HM HMb Hbin LR LZ LB Hf Hids Hroots Hid1 Hid2 Hb Hni.
  have [[_ HS _ _ _] _] := HG. have Hn := setting_n HS.
  set ng := size (p_gates circ). exists g, (leader1 hash n id2 ng), (leader2 hash n id2 ng).
  split; [exact: Hg|by move=> gid; split; [exact: leader1_lt|exact: leader2_lt]|] => coins.
  have Hdone (s : stack D (val F) tnet) : (exists pp mk ks rs es tabs,
      [/\ stack_done n t_out (fun i => garble_val ([seq tabs gid i | gid <- iota 0 (size (p_gates circ))],
             Queues (drop (n_randoms d) (pp_randoms (pp i))) (drop (n_zeros d) (pp_zeros (pp i))) [::])) s,
          preprocessed_as emb n t l Ms Mb d r bR bZ bB pp mk ks rs es &
          garbled emb sha draws circ n t l K M mk ks es tabs]) -> exists res, stack_done n t_out res s.
  { by move=> [pp [mk [ks [rs [es [tabs [Hd _ _]]]]]]]; eexists; exact: Hd. }
  pose T f j r0 := (preproc_traffic (f \o len) n B BB d j r0 +
    garble_traffic (f \o len) n l K circ (leader1 hash n id2 ng) (leader2 hash n id2 ng) j r0)%N.
  have HB f j r0 (Hj : (j < n)%N) (Hr0 : (r0 < n)%N) := pipeline_bill de hash id1 id2 d (r j) (coins j) f Hlen B0 BB0 Hr0 (Hg j Hj).
  have HT := @traffic_settled n D enc _ _ (tnstep n) t_out (fun i => preproc ser de (Ctx i n t l P Pn) Ms Mb id1 d (r i) (fun pp =>
       garble emb ser de hash (g i) id2 pp (coins i) (fun y => Ret (garble_val y)))) T tinit _ HB Hdone (HE coins).
  apply: ends_in_mono HT => s [Hs R].
  split; [exact: Hdone|exact: R|] => f. have [R1 _] := R.
  rewrite -(preproc_traffic_total (f \o len) B BB d Hn) -(garble_traffic_total (f \o len) l K circ Hn
    (fun gid => leader1_lt hash id2 ng gid Hn) (fun gid => leader2_lt hash id2 ng gid Hn)) -sum_pairs_add.
  apply: eq_bigr => j _. apply: eq_bigr => r0 _. exact: R1.
Qed.
Print Assumptions C67_pipeline_tcp.

(** ** The programs *)

Lemma party_ctx_id (F : fieldType) (emb : nat -> F) id n t l c : party_ctx emb id n t l = Some c -> [/\ c_id c = id, c_n c = n & c_l c = l].
Proof. rewrite /party_ctx. by case: (t + l)%N => // tl; case: n => // n; case: (pss_new _ _ _ _) => // P; case: (pss_new _ _ _ _) => // Pn [<-]. Qed.

Lemma sum_syn n f r0 (b : seq N) : (r0 < n)%N -> (\sum_(r < n) W0 f r0 r b)%N = f (size b).
Proof. move=> Hr. exact: (sum_one (fun _ => f (size b)) Hr). Qed.

(** bin/garble.rs: [reps] times the synchronisation and a garbling. *)
Lemma garble_bin_bill (w : width) (H : eqType) (sha : seq N -> H) h0 draws hash (G : Type) (seed_from : N -> G) gf_rand gen_bool (syn : bytes)
    text c circ n t l K M reps coins f j r0 : (r0 < n)%N -> from_bristol_fashion text = Some c -> pack c (N.of_nat l) = Some circ ->
  let ng := size (p_gates circ) in
  bill n (fun r' d => W0 f r0 r' (raw d)) (fun _ => True)
    (garble_bin (gf_of w) (@bser w) (@bde w) syn sha h0 draws hash seed_from gf_rand gen_bool text j n t l (Lpn K M) reps coins
      (fun ys => Ret (Node [seq garble_val y | y <- ys])))
    (reps * (f (size (raw syn)) +
       garble_traffic (f \o byte_len' w) n l K circ (leader1 hash n [::] ng) (leader2 hash n [::] ng) j r0))%N.
Proof.
  move=> Hr Ht Hp ng. rewrite /garble_bin /load_circuit Ht Hp. case Ec: (party_ctx _ _ _ _ _) => [cx|] //.
  have [E1 E2 E3] := party_ctx_id Ec. case: (describe _ _ _ _ _) => // d. case Eg: (gctx_new _ _ _ _ _ _ _) => [g|] //.
  rewrite -(sum_syn f (raw syn) Hr) -[X in (X * _)%N](size_iota 0 reps) -[X in bill _ _ _ _ X]addn0.
  apply: bill_loop => // q pp k b Hk. rewrite -E2 in Hr Hk *.
  rewrite -[in garble_traffic _ _ l]E3 -[in garble_traffic _ _ _ _ _ _ _ j]E1.
  refine (@bill_garble0 _ _ raw (@bser w) (@bde w) f r0 (byte_len' w) (@raw_bser_len w) cx Hr hash H _ sha h0 draws circ _ g [::] _ pp (coins q) k b Eg Hk).
Qed.

(** bin/garble.rs on the TCP network.  Between any two parties, in any execution,
    each repetition costs a message of the synchronisation and the messages of
    one garbling. *)
Theorem C67_garble_program : forall (w : width) (H : eqType) (sha : seq N -> H) h0 draws hash
    (G : Type) (seed_from : N -> G) gf_rand gen_bool (syn : bytes) text c circ n t l K M reps coins,
  from_bristol_fashion text = Some c -> well_formed c -> pack c (N.of_nat l) = Some circ ->
  (0 < l)%N -> (t + 2 * l <= n <= 2 ^ 16)%N -> (2 * (t + l - 1) <= n - 1)%N ->
  (N.of_nat n + N.of_nat l + c_num_wires c <= 2 ^ w)%num -> (N.of_nat M < 2 ^ w)%num ->
  (8 + N.of_nat (4 * K + 3) * ((w + 7) / 8) < 2 ^ 62)%num ->
  let ng := N.of_nat (length (p_gates circ)) in
  let nb := (N.of_nat (length (p_inputs circ)) + ng)%num in
  let ni := ProtoIdModel.num_inp_blocks (p_gates circ) in
  (0 < nb <= 2 ^ 48)%num -> (ni <= 2 ^ 48)%num ->
  (forall x, In x [:: 4 + ng; nb; ni; (nb + N.of_nat l - 1) / N.of_nat l; (ni + N.of_nat l - 1) / N.of_nat l]%num ->
     ~ exists k, x = (256 ^ k)%num) ->
  exists L1 L2, (forall gid, (L1 gid < n)%N /\ (L2 gid < n)%N) /\
  ends_in (sstep n raw (tnstep n) t_out)
    (fun s => [/\ exists res, stack_done n t_out res s,
        receives n t_out s (fun f j r => reps * (f (size (raw syn)) + garble_traffic (f \o byte_len w) n l K circ L1 L2 j r))%N &
        forall f, (\sum_(j < n) \sum_(r < n) tally f (got_from (t_out (s_net s) r) j) =
                   reps * (n * n * f (size (raw syn)) + garble_total (f \o byte_len w) n l K circ))%N])
    (stack_start n tinit (fun i => garble_bin (gf_of w) (@bser w) (@bde w) syn sha h0 draws hash seed_from gf_rand gen_bool
       text i n t l (Lpn K M) reps (fun r => coins r i) (fun ys => Ret (Node [seq garble_val y | y <- ys])))).
Proof.
  move=> w H sha h0 draws hash G seed_from gf_rand gen_bool syn text c circ n t l K M reps coins.
  move=> Ht Hwf Hp Hl Hn Hd Hw HM HK ng nb ni Hb Hni Hpow.
  have HE := C65_garble_program sha h0 draws hash seed_from gf_rand gen_bool syn reps coins Ht Hwf Hp Hl Hn Hd Hw HM HK Hb Hni Hpow.
  have Hn0 : (0 < n)%N by clear -Hl Hn; lia.
  have ext (f : nat -> nat) m : (m <= 4 * K + 3)%N -> (f \o byte_len' w) m = (f \o byte_len w) m.
  { by move=> Hm /=; rewrite byte_len_fits //; apply: (bfits_le Hm). }
  set ngs := size (p_gates circ). exists (leader1 hash n [::] ngs), (leader2 hash n [::] ngs).
  split; first by move=> gid; split; [exact: leader1_lt|exact: leader2_lt].
  pose T f j r := (reps * (f (size (raw syn)) + garble_traffic (f \o byte_len w) n l K circ (leader1 hash n [::] ngs) (leader2 hash n [::] ngs) j r))%N.
  have HB f j r0 (Hj : (j < n)%N) (Hr0 : (r0 < n)%N) : bill n (fun r' d => W0 f r0 r' (raw d)) (fun _ => True)
    (garble_bin (gf_of w) (@bser w) (@bde w) syn sha h0 draws hash seed_from gf_rand gen_bool text j n t l (Lpn K M) reps (fun q => coins q j)
      (fun ys => Ret (Node [seq garble_val y | y <- ys]))) (T f j r0).
  { rewrite /T -(garble_traffic_ext _ _ _ _ _ _ _ (ext f)). exact: (@garble_bin_bill w H sha h0 draws hash G seed_from gf_rand gen_bool syn text c circ n t l K M reps (fun q => coins q j) f j r0 Hr0 Ht Hp). }
  apply: ends_in_mono (@traffic_settled n _ raw _ _ (tnstep n) t_out _ T tinit _ HB _ HE) => [s [Hs R]|s]; last first.
  { by move=> [d [pp [mk [ks [rs [es [tabs [rest [Hdn _ _]]]]]]]]]; eexists; exact: Hdn. }
  split; [|exact: R|] => [|f].
  { by move: Hs => [d [pp [mk [ks [rs [es [tabs [rest [Hdn _ _]]]]]]]]]; eexists; exact: Hdn. }
  have [R1 _] := R. rewrite -(garble_traffic_total (f \o byte_len w) l K circ Hn0
    (fun gid => leader1_lt hash [::] ngs gid Hn0) (fun gid => leader2_lt hash [::] ngs gid Hn0)) -sum_pairs_const -sum_pairs_add.
  rewrite big_distrr. apply: eq_bigr => j _. rewrite big_distrr. apply: eq_bigr => r0 _. exact: R1.
Qed.
Print Assumptions C67_garble_program.

Lemma preproc_bin_bill (w : width) (syn : bytes) text c circ file Ms Mb n t l K M d reps coins f j r0 :
  (r0 < n)%N -> (t <= n)%N -> from_bristol_fashion text = Some c -> pack c (N.of_nat l) = Some circ -> describe circ n t l (Lpn K M) = Some d ->
  super_inv_matrix (gf_of w) n (n - t) = Some Ms -> (0 < size (rows Ms))%N ->
  binary_super_inv_matrix (gf_fieldType w) file = Some Mb -> (0 < size (rows Mb))%N ->
  bill n (fun r' d => W0 f r0 r' (raw d)) (fun _ => True)
    (preproc_bin (gf_of w) (@bser w) (@bde w) syn text file j n t l (Lpn K M) reps coins (fun ys => Ret (Node [seq pp_val y | y <- ys])))
    (reps * (f (size (raw syn)) + preproc_traffic (f \o byte_len' w) n (size (rows Ms)) (size (rows Mb)) d j r0))%N.
Proof.
  move=> Hr Htn Ht Hp Ed Es B0 EM BB0. rewrite /preproc_bin /load_circuit Ht Hp. case Ec: (party_ctx _ _ _ _ _) => [cx|] //.
  have [E1 E2 E3] := party_ctx_id Ec. rewrite EM Htn Es Ed.
  rewrite -(sum_syn f (raw syn) Hr) -[X in (X * _)%N](size_iota 0 reps) -[X in bill _ _ _ _ X]addn0.
  apply: bill_loop => // q pp k b Hk. rewrite -[in preproc_traffic _ _ _ _ _ j]E1. rewrite -E2 in Hr Hk *.
  exact: (@bill_preproc0 _ _ raw (@bser w) (@bde w) f r0 (byte_len' w) (@raw_bser_len w) cx Hr Ms Mb [::] d _ (coins q) k b B0 BB0 Hk).
Qed.

(** bin/preproc.rs, with a matrix file of [n] lines of [C] bits. *)
Theorem C67_preproc_program : forall (w : width) (syn : bytes) text c circ (bs : seq (seq bool)) es C n t l K M d reps
    (r : nat -> nat -> coins (gf_fieldType w)),
  from_bristol_fashion text = Some c -> pack c (N.of_nat l) = Some circ -> describe circ n t l (Lpn K M) = Some d ->
  size bs = n -> size es = n -> ends_ok es -> (0 < C)%N -> all (fun row => size row == C) bs ->
  (0 < l)%N -> (t + l <= n)%N -> (2 * (t + l - 1) <= n - 1)%N -> (N.of_nat n + N.of_nat l <= 2 ^ w)%num ->
  let most := maxn (keys_total d + n_randoms d + 3 * n_errors d) (maxn (n_zeros d + 2 * n_errors d) (n_masks d + 2 * n_errors d)) in
  (8 + N.of_nat most * ((w + 7) / 8) < 2 ^ 62)%num ->
  ends_in (sstep n raw (tnstep n) t_out)
    (fun s => [/\ exists res, stack_done n t_out res s,
        receives n t_out s (fun f j r => reps * (f (size (raw syn)) + preproc_traffic (f \o byte_len w) n (n - t) C d j r))%N &
        forall f, (\sum_(j < n) \sum_(r < n) tally f (got_from (t_out (s_net s) r) j) =
                   reps * (n * n * f (size (raw syn)) + preproc_total (f \o byte_len w) n (n - t) C d))%N])
    (stack_start n tinit (fun i => preproc_bin (gf_of w) (@bser w) (@bde w) syn text (matrix_text bs es) i n t l (Lpn K M) reps (fun q => r q i)
       (fun ys => Ret (Node [seq pp_val y | y <- ys])))).
Proof.
  move=> w syn text c circ bs es C n t l K M d reps r Ht Hp Ed Zb Ze He HC Hrows Hl Htl Hd Hw most Hft.
  have [Ms [Mb0 [bR [bZ [bB [[EMs _ [S1 _ _ _ _]] HE]]]]]] :=
    C65_preproc_program syn reps r Ht Hp Ed Zb Ze He HC Hrows Hl Htl Hd Hw Hft.
  have Hn0 : (0 < n)%N by clear -Hl Htl; lia.
  have Zbe : size bs = size es by rewrite Zb Ze.
  have Hb0 : bs <> [::] by move=> E; move: Hn0; rewrite -Zb E.
  have [Mb [EMb N1 N2 N3]] := C52_transpose (gf_fieldType w) Zbe Hb0 He HC Hrows.
  have ext (f : nat -> nat) m : (m <= most)%N -> (f \o byte_len' w) m = (f \o byte_len w) m.
  { by move=> Hm /=; rewrite byte_len_fits //; apply: (bfits_le Hm). }
  pose T f j r := (reps * (f (size (raw syn)) + preproc_traffic (f \o byte_len w) n (n - t) C d j r))%N.
  have HB f j r0 (Hj : (j < n)%N) (Hr0 : (r0 < n)%N) : bill n (fun r' d => W0 f r0 r' (raw d)) (fun _ => True)
    (preproc_bin (gf_of w) (@bser w) (@bde w) syn text (matrix_text bs es) j n t l (Lpn K M) reps (fun q => r q j)
      (fun ys => Ret (Node [seq pp_val y | y <- ys]))) (T f j r0).
  { rewrite /T -(preproc_traffic_ext _ _ (ext f)) -S1 -N2.
    apply: (@preproc_bin_bill w syn text c circ _ Ms Mb n t l K M d reps _ f j r0 Hr0 _ Ht Hp Ed EMs _ EMb _); [|rewrite S1|rewrite N2 //]; clear -Hl Htl; lia. }
  have Hdone (s : stack bytes_eqType (val (gf_fieldType w)) tnet) : (exists pp, stack_done n t_out (fun i => Node [seq pp_val (pp q i) | q <- iota 0 reps]) s /\
      forall q, (q < reps)%N -> preprocessed (gf_of w) n t l Ms Mb0 d (r q) bR bZ bB (pp q)) -> exists res, stack_done n t_out res s.
  { by move=> [pp [Hdn _]]; eexists; exact: Hdn. }
  apply: ends_in_mono (@traffic_settled n _ raw _ _ (tnstep n) t_out _ T tinit _ HB Hdone HE) => s [Hs R].
  split; [exact: Hdone|exact: R|] => f.
  have [R1 _] := R. rewrite -(preproc_traffic_total (f \o byte_len w) (n - t) C d Hn0) -sum_pairs_const -sum_pairs_add.
  rewrite big_distrr. apply: eq_bigr => j _. rewrite big_distrr. apply: eq_bigr => r0 _. exact: R1.
Qed.
Print Assumptions C67_preproc_program.

(** The hypotheses are those of [C65_pipeline_example] and [C65_programs_example]
    and, for the pipeline, [raw_bser_len].  For the circuit of these examples and
    three parties the formulas give: *)
Example C67_example :
  (forall x, size (raw (@bser w4 x)) = byte_len' w4 (size x)) /\
  [/\ garble_total (fun _ => 1%N) 3 1 1 circ3 = 174%N, garble_total (byte_len w4) 3 1 1 circ3 = 2178%N,
      garble_traffic (byte_len w4) 3 1 1 circ3 (fun _ => 0%N) (fun _ => 2%N) 0 1 = 237%N &
      omap (preproc_total (fun _ => 1%N) 3 2 1) (describe circ3 3 1 1 (Lpn 1 2)) = Some 63%N].
Proof.
  split; first exact: raw_bser_len. split; [by []|by []| |by []].
  by rewrite /garble_traffic !big_ord_recl !big_ord0.
Qed.

(** Property theorems C54: the garble program. *)

From Coq Require Import NArith String List Ascii.
From Verif Require Import CircuitModel CircuitSpec LpnModel LpnSpec.
From mathcomp Require Import all_ssreflect all_algebra zify.
From Verif Require Import MathModel MathProofs MatProofs MatFileModel SharingModel SharingSpec SharingProofs.
From Verif Require Import MachineModel MachineProofs MachineBuild Realize CoreModel CoreSpec CoreProofs.
From Verif Require Import RandTransProofs PreprocModel PreprocSpec PreprocProofs GarbleModel GarbleSpec GarbleRun PipeModel BinModel.
From Verif Require Import GFField GFCodec P_Math P_Sharing P_Core P_Preproc P_Garble P_MatFile P_Phase.
From Verif Require ProtoIdModel ProtoIdProofs P_ProtoId IdLength PackWf CircuitEval.
Set Implicit Arguments.
Unset Strict Implicit.
Unset Printing Implicit Defensive.
Import GRing.Theory.
Local Open Scope ring_scope.

(** ** Parameters as numbers *)

Lemma first_points (w : width) m : (N.of_nat m <= 2 ^ w)%num -> uniq [seq gf_of w i | i <- iota 0 m].
Proof.
  case: m => // m H. apply: (C08_field_has_enough_points (w := w) _).1.
  apply/ltP. lia.
Qed.

Lemma party_ctxE (w : width) n t l : (0 < t + l <= n)%N -> (N.of_nat n + N.of_nat l <= 2 ^ w)%num ->
  exists P Pn, setting (gf_of w) n t l P Pn /\ forall i, party_ctx (gf_of w) i n t l = Some (Ctx i n t l P Pn).
Proof.
  move=> /andP [Ht Hn] Hw.
  have [P EP] : exists P, pss_new (gf_of w) (t + l).-1 n (default_pos (gf_of w) n l) = Some P.
  { rewrite /pss_new prednK // Hn. by eexists. }
  have [Pn EPn] : exists P, pss_new (gf_of w) n.-1 n (default_pos (gf_of w) n l) = Some P.
  { rewrite /pss_new prednK ?leqnn; [by eexists|lia]. }
  exists P, Pn. split; last first.
  { move=> i. rewrite /party_ctx. case: (t + l)%N Ht EP Hn => // tl _ EP Hn. case: n EP EPn Hn {Hw} => // n1 /= -> ->. by []. }
  split=> //. rewrite /good_pos /default_pos -map_cat (@perm_uniq _ _ [seq gf_of w i | i <- iota 0 (n + l)]).
  - apply: first_points. lia.
  - by rewrite iotaD /= !map_cat perm_catC.
Qed.

Lemma garble_params (w : width) (D : Type) (ser : seq (gf_fieldType w) -> D) de fits n t l K M circ P Pn :
  codec_ok ser de fits -> setting (gf_of w) n t l P Pn -> wf_packed circ l -> (0 < l)%N -> (t + 2 * l <= n <= 2 ^ 16)%N -> (2 * (t + l - 1) <= n - 1)%N ->
  (N.of_nat n + N.of_nat l + p_num_wires circ <= 2 ^ w)%num -> (N.of_nat M < 2 ^ w)%num -> (forall m, (m <= 4 * K + 3)%N -> fits m) ->
  garble_setting (gf_of w) ser de fits n t l P Pn circ K M.
Proof.
  move=> HC HS Hwf Hl Hn Hd Hw HM HK. split; split=> //.
  - exact: gf_char2.
  - apply: first_points. lia.
  - apply: first_points. lia.
Qed.

Lemma len_ok_upto x m : (N.of_nat x < 2 ^ 64)%num -> (m <= x)%N -> len_ok m.
Proof. move=> H Hm. rewrite /len_ok. apply: N.le_lt_trans H. lia. Qed.

Lemma describe_some circ n t l p : (0 < l)%N -> exists d, describe circ n t l p = Some d.
Proof.
  move=> Hl. rewrite /describe. case: (get_gate_counts _) => [[a x] v].
  by case: l Hl => // l _; eexists.
Qed.

Lemma In_mem (T : eqType) (x : T) (s : seq T) : x \in s -> In x s.
Proof. by elim: s => //= a s IH; rewrite inE => /orP [/eqP ->|Hx]; [left|right; exact: IH]. Qed.

Lemma notin_short (x : seq N) (s : seq (seq N)) m : (forall y, In y s -> (length y <= m)%coq_nat) -> (m < size x)%N -> x \notin s.
Proof.
  move=> H Hm. apply/negP => Hx. have := H x. rewrite -[length x]/(size x) => /(_ _) Hs.
  have : In x s by elim: s Hx {H Hs} => //= a s IH; rewrite inE => /orP [/eqP ->|Hx]; [left|right; exact: IH].
  move=> /Hs. lia.
Qed.

(** ** C54: bin/garble.rs *)

(** The program is a loop of repetitions, each of which garbles with the
    material of the repetition. *)
Lemma garble_loops_in : forall (w : width) (D : eqType) (ser : seq (gf_fieldType w) -> D) de fits (H : eqType) (sha : seq N -> H) h0 draws hash
    (G : Type) (seed_from : N -> G) gf_rand gen_bool (syn : D) text c circ n t l K M reps coins,
  codec_ok ser de fits -> from_bristol_fashion text = Some c -> well_formed c -> pack c (N.of_nat l) = Some circ ->
  (0 < l)%N -> (t + 2 * l <= n <= 2 ^ 16)%N -> (2 * (t + l - 1) <= n - 1)%N ->
  (N.of_nat n + N.of_nat l + c_num_wires c <= 2 ^ w)%num -> (N.of_nat M < 2 ^ w)%num -> (forall m, (m <= 4 * K + 3)%N -> fits m) ->
  let ng := N.of_nat (length (p_gates circ)) in
  let nb := (N.of_nat (length (p_inputs circ)) + ng)%num in
  let ni := ProtoIdModel.num_inp_blocks (p_gates circ) in
  (0 < nb <= 2 ^ 48)%num -> (ni <= 2 ^ 48)%num ->
  (forall x, In x [:: 4 + ng; nb; ni; (nb + N.of_nat l - 1) / N.of_nat l; (ni + N.of_nat l - 1) / N.of_nat l]%num ->
     ~ exists k, x = (256 ^ k)%num) ->
  exists d (pp : nat -> nat -> preproc_data (gf_fieldType w)) mk ks rs es tabs rest,
    [/\ describe circ n t l (Lpn K M) = Some d,
        forall r, (r < reps)%N ->
          [/\ forall i, (i < n)%N -> dummy (gf_of w) seed_from gf_rand gen_bool i n t l (200 + N.of_nat r) d = Some (pp r i),
              material (gf_of w) n t l d (pp r) (mk r) (ks r) (rs r) (es r) &
              garbled (gf_of w) sha draws circ n t l K M (mk r) (ks r) (es r) (tabs r)] &
        loops_in n (fun x => size x <= 14)%N garble_bench_id syn reps
          (fun i k => garble_bin (gf_of w) ser de syn sha h0 draws hash seed_from gf_rand gen_bool
             text i n t l (Lpn K M) reps (fun r => coins r i) k)
          (fun r i => ([seq tabs r gid i | gid <- iota 0 (size (p_gates circ))], rest r i))].
Proof.
  move=> w D ser de fits H sha h0 draws hash G seed_from gf_rand gen_bool syn text c circ n t l K M reps coins.
  move=> HCd Ht Hwf Hp Hl Hn Hd Hw HM HK ng nb ni [Hb0 Hb] Hni Hpow.
  have [Wf Enw] := PackWf.pack_wf Hwf Hp.
  have Htl : (0 < t + l <= n)%N by lia.
  have Hw' : (N.of_nat n + N.of_nat l <= 2 ^ w)%num by lia.
  have [P [Pn [HS HC]]] := party_ctxE Htl Hw'.
  have HG : garble_setting (gf_of w) ser de fits n t l P Pn circ K M by apply: garble_params => //; rewrite Enw.
  have [d Ed] := describe_some circ n t (Lpn K M) Hl.
  have Hl' : (0 < N.of_nat l)%num by lia.
  have B62 : (2 ^ 48 <= 2 ^ 62)%num by apply/N.leb_le.
  have B56 : (2 ^ 48 + 4 <= 2 ^ (8 * 7))%num by apply/N.leb_le.
  have [chans Hids] : exists ids, ProtoIdModel.garble_ids [::] circ (N.of_nat l) = Some ids.
  { apply/(P_ProtoId.C21_garble_names_subprotocols_iff [::] circ (N.of_nat l)) => //; rewrite -/ng -/nb -/ni; lia. }
  have Hb1 : (nb + 4 <= 2 ^ (8 * 7))%num by lia. have Hni1 : (ni <= 2 ^ (8 * 7))%num by lia.
  have [Hlen Hshort] := IdLength.garble_ids_short [::] circ (N.of_nat l) chans 7 Hl' (erefl _) Hb1 Hni1 Hids.
  have Huniq : uniq chans by apply: PackWf.NoDup_uniq; exact: (P_ProtoId.C20_garble_ids_distinct _ _ _ _ Hids).1.
  have Hbid : garble_bench_id \notin chans by apply: (notin_short (m := 14)).
  have Hne : (0 < size chans)%N by rewrite -[size chans]/(length chans); rewrite -/ng -/nb in Hlen; lia.
  have Hgp : good_pos (gf_of w) n (default_pos (gf_of w) n l) by case: HS.
  have Mat r := C38_dummy seed_from gf_rand gen_bool (200 + N.of_nat r) d Hgp Htl.
  have [g Hg] : exists g, forall i, (i < n)%N -> gctx_new (gf_of w) sha h0 draws circ (Ctx i n t l P Pn) (Lpn K M) = Some (g i).
  { have [pp [mk [ks [rs [es [_ Hm]]]]]] := Mat 0%N. have [g [Hg _]] := garble_rounds sha h0 draws hash HG Ed Hm Hids. by exists g. }
  pose T := ((nat -> preproc_data (gf_fieldType w)) * ((nat -> seq (gf_fieldType w)) * (nat -> seq (gf_fieldType w)) * (nat -> seq (gf_fieldType w)) * (nat -> seq (gf_fieldType w)))
     * (seq ([eqType of seq N] * round D) * (nat -> nat -> seq (seq (gf_fieldType w)))))%type.
  pose res (x : T) (i : nat) := ([seq x.2.2 gid i | gid <- iota 0 (size (p_gates circ))],
         Queues (drop (n_randoms d) (pp_randoms (x.1.1 i))) (drop (n_zeros d) (pp_zeros (x.1.1 i))) [::]).
  have [x Hx] : exists x : nat -> T, forall r, (r < reps)%N ->
    [/\ forall i, (i < n)%N -> dummy (gf_of w) seed_from gf_rand gen_bool i n t l (200 + N.of_nat r) d = Some ((x r).1.1 i),
        material (gf_of w) n t l d (x r).1.1 (x r).1.2.1.1.1 (x r).1.2.1.1.2 (x r).1.2.1.2 (x r).1.2.2,
        perm_eq (ids (x r).2.1) chans,
        realizes n (x r).2.1 (fun i k => garble (gf_of w) ser de hash (g i) [::] ((x r).1.1 i) (coins r i) k) (res (x r)) &
        garbled (gf_of w) sha draws circ n t l K M (x r).1.2.1.1.1 (x r).1.2.1.1.2 (x r).1.2.2 (x r).2.2].
  { apply: (@fin_choice T reps (fun r x =>
    [/\ forall i, (i < n)%N -> dummy (gf_of w) seed_from gf_rand gen_bool i n t l (200 + N.of_nat r) d = Some (x.1.1 i),
        material (gf_of w) n t l d x.1.1 x.1.2.1.1.1 x.1.2.1.1.2 x.1.2.1.2 x.1.2.2,
        perm_eq (ids x.2.1) chans,
        realizes n x.2.1 (fun i k => garble (gf_of w) ser de hash (g i) [::] (x.1.1 i) (coins r i) k) (res x) &
        garbled (gf_of w) sha draws circ n t l K M x.1.2.1.1.1 x.1.2.1.1.2 x.1.2.2 x.2.2])
     (fun _ => PreProc [::] (0, 0, 0)%N [::] [::] [::] [::], (fun _ => [::], fun _ => [::], fun _ => [::], fun _ => [::]), ([::], fun _ _ => [::]))).
    move=> r Hr. have [pp [mk [ks [rs [es [Hdm Hm]]]]]] := Mat r.
    have [g' [Hg' R]] := garble_rounds sha h0 draws hash HG Ed Hm Hids.
    have [rds [tabs [Hi RR Ht']]] := R (coins r).
    exists (pp, (mk, ks, rs, es), (rds, tabs)). split=> //=.
    apply: realizes_eq RR => // i k Hi'. have : Some (g' i) = Some (g i) by rewrite -Hg' // Hg. by move=> [->]. }
  exists d, (fun r => (x r).1.1), (fun r => (x r).1.2.1.1.1), (fun r => (x r).1.2.1.1.2), (fun r => (x r).1.2.1.2),
    (fun r => (x r).1.2.2), (fun r => (x r).2.2), (fun r i => (res (x r) i).2). split=> //.
  { move=> r Hr. by have [] := Hx r Hr. }
  exists (preproc_data (gf_fieldType w)), (fun i r => dummy (gf_of w) seed_from gf_rand gen_bool i n t l (200 + N.of_nat r) d),
    (fun i r pp k => garble (gf_of w) ser de hash (g i) [::] pp (coins r i) k),
    (fun i r => (x r).1.1 i), (fun r => (x r).2.1). split.
  - exact: setting_n HS.
  - move=> i r Hi Hr. have [Hdm _ _ _ _] := Hx r Hr. exact: Hdm.
  - move=> r Hr. by have [] := Hx r Hr.
  - move=> r Hr. have [_ _ Hi _ _] := Hx r Hr. split; first by rewrite (perm_uniq Hi).
    + by rewrite -(size_map fst) -/(ids _) (perm_size Hi).
    + by rewrite (perm_mem Hi).
    + move=> y. rewrite (perm_mem Hi) => Hy. by apply/leP; apply: Hshort; exact: In_mem.
  - move=> i k Hi. rewrite /garble_bin /load_circuit Ht Hp HC Ed Hg //.
Qed.

Lemma garble_loops : forall (w : width) (H : eqType) (sha : seq N -> H) h0 draws hash
    (G : Type) (seed_from : N -> G) gf_rand gen_bool (syn : seq N) text c circ n t l K M reps coins,
  from_bristol_fashion text = Some c -> well_formed c -> pack c (N.of_nat l) = Some circ ->
  (0 < l)%N -> (t + 2 * l <= n <= 2 ^ 16)%N -> (2 * (t + l - 1) <= n - 1)%N ->
  (N.of_nat n + N.of_nat l + c_num_wires c <= 2 ^ w)%num -> (N.of_nat M < 2 ^ w)%num -> (N.of_nat (4 * K + 3) < 2 ^ 64)%num ->
  let ng := N.of_nat (length (p_gates circ)) in
  let nb := (N.of_nat (length (p_inputs circ)) + ng)%num in
  let ni := ProtoIdModel.num_inp_blocks (p_gates circ) in
  (0 < nb <= 2 ^ 48)%num -> (ni <= 2 ^ 48)%num ->
  (forall x, In x [:: 4 + ng; nb; ni; (nb + N.of_nat l - 1) / N.of_nat l; (ni + N.of_nat l - 1) / N.of_nat l]%num ->
     ~ exists k, x = (256 ^ k)%num) ->
  exists d (pp : nat -> nat -> preproc_data (gf_fieldType w)) mk ks rs es tabs rest,
    [/\ describe circ n t l (Lpn K M) = Some d,
        forall r, (r < reps)%N ->
          [/\ forall i, (i < n)%N -> dummy (gf_of w) seed_from gf_rand gen_bool i n t l (200 + N.of_nat r) d = Some (pp r i),
              material (gf_of w) n t l d (pp r) (mk r) (ks r) (rs r) (es r) &
              garbled (gf_of w) sha draws circ n t l K M (mk r) (ks r) (es r) (tabs r)] &
        loops n garble_bench_id syn reps
          (fun i k => garble_bin (gf_of w) (@gser w) (@gde w) syn sha h0 draws hash seed_from gf_rand gen_bool
             text i n t l (Lpn K M) reps (fun r => coins r i) k)
          (fun r i => ([seq tabs r gid i | gid <- iota 0 (size (p_gates circ))], rest r i))].
Proof.
  move=> w H sha h0 draws hash G seed_from gf_rand gen_bool syn text c circ n t l K M reps coins.
  move=> Ht Hwf Hp Hl Hn Hd Hw HM HK ng nb ni Hb Hni Hpow.
  have [d [pp [mk [ks [rs [es [tabs [rest [Ed Hr L]]]]]]]]] := garble_loops_in sha h0 draws hash seed_from gf_rand gen_bool syn reps coins
    (@gserK w) Ht Hwf Hp Hl Hn Hd Hw HM (fun m => @len_ok_upto _ m HK) Hb Hni Hpow.
  exists d, pp, mk, ks, rs, es, tabs, rest. split=> //. exact: loops_in_loops L.
Qed.

(** From the text of a circuit file to the end of the last repetition, given
    only conditions on numbers: the parameters [n], [t], [l], [K], [M], the field
    width [w] (18 in the program) and the numbers of blocks.  Repetition [r] uses
    the pool seeded with [200 + r]; whatever the generator, the hash functions,
    the parties' coins and the schedule, nobody panics or waits forever and in
    every repetition the parties obtain sharings of the tables of that
    repetition's material. *)
Theorem C54_garble_program : forall (w : width) (H : eqType) (sha : seq N -> H) h0 draws hash
    (G : Type) (seed_from : N -> G) gf_rand gen_bool (syn : seq N) text c circ n t l K M reps coins,
  from_bristol_fashion text = Some c -> well_formed c -> pack c (N.of_nat l) = Some circ ->
  (0 < l)%N -> (t + 2 * l <= n <= 2 ^ 16)%N -> (2 * (t + l - 1) <= n - 1)%N ->
  (N.of_nat n + N.of_nat l + c_num_wires c <= 2 ^ w)%num -> (N.of_nat M < 2 ^ w)%num -> (N.of_nat (4 * K + 3) < 2 ^ 64)%num ->
  let ng := N.of_nat (length (p_gates circ)) in
  let nb := (N.of_nat (length (p_inputs circ)) + ng)%num in
  let ni := ProtoIdModel.num_inp_blocks (p_gates circ) in
  (0 < nb <= 2 ^ 48)%num -> (ni <= 2 ^ 48)%num ->
  (forall x, In x [:: 4 + ng; nb; ni; (nb + N.of_nat l - 1) / N.of_nat l; (ni + N.of_nat l - 1) / N.of_nat l]%num ->
     ~ exists k, x = (256 ^ k)%num) ->
  every_run_ends n
    (start (fun i => garble_bin (gf_of w) (@gser w) (@gde w) syn sha h0 draws hash seed_from gf_rand gen_bool
       text i n t l (Lpn K M) reps (fun r => coins r i) (fun ys => Ret (Node [seq garble_val y | y <- ys]))))
    (fun cf => exists d (pp : nat -> nat -> preproc_data (gf_fieldType w)) mk ks rs es tabs rest,
      [/\ all_done n (fun i => Node [seq garble_val ([seq tabs r gid i | gid <- iota 0 (size (p_gates circ))], rest r i)
                                    | r <- iota 0 reps]) cf,
          describe circ n t l (Lpn K M) = Some d &
          forall r, (r < reps)%N ->
            [/\ forall i, (i < n)%N -> dummy (gf_of w) seed_from gf_rand gen_bool i n t l (200 + N.of_nat r) d = Some (pp r i),
                material (gf_of w) n t l d (pp r) (mk r) (ks r) (rs r) (es r) &
                garbled (gf_of w) sha draws circ n t l K M (mk r) (ks r) (es r) (tabs r)]]).
Proof.
  move=> w H sha h0 draws hash G seed_from gf_rand gen_bool syn text c circ n t l K M reps coins.
  move=> Ht Hwf Hp Hl Hn Hd Hw HM HK ng nb ni Hb Hni Hpow.
  have [d [pp [mk [ks [rs [es [tabs [rest [Ed Hr L]]]]]]]]] := garble_loops sha h0 draws hash seed_from gf_rand gen_bool syn reps coins
    Ht Hwf Hp Hl Hn Hd Hw HM HK Hb Hni Hpow.
  apply: ends_mono (loops_run (fun ys => Node [seq garble_val y | y <- ys]) L) => cf A.
  exists d, pp, mk, ks, rs, es, tabs, rest. split=> //.
  move: A => [A1 A2]. split=> // i Hi. rewrite A1 //. congr (Ret (Node _)). by rewrite -map_comp.
Qed.
Print Assumptions C54_garble_program.

(** The hypotheses are met by a file of a circuit of three gates with three
    parties over GF(16). *)
Definition text3 : list ascii :=
  str "3 5"%string ++ nl :: str "2 1 1"%string ++ nl :: str "1 1"%string ++ nl :: nl :: str "2 1 0 1 2 AND"%string ++ nl :: str "2 1 2 0 3 XOR"%string ++ nl ::
  str "1 1 3 4 INV"%string ++ [:: nl].
Definition source3 : circuit := Circuit [:: And 0 1 2; Xor 2 0 3; CircuitModel.Inv 3 4]%num [:: [:: 0]; [:: 1]]%num [:: [:: 4]]%num 5.

Lemma source3_wf : well_formed source3.
Proof.
  split; [|split; [|split]].
  - simpl. repeat (constructor; [simpl; intuition discriminate|]). constructor.
  - simpl. repeat constructor.
  - apply: (CircuitEval.topo_ok (c_gates source3) [:: 0; 1]%num). repeat split; move=> w Hw; simpl in *; intuition.
  - move=> w Hw. simpl in *. intuition.
Qed.

Example C54_example : exists circ, let w := w4 in let n := 3%N in let t := 1%N in let l := 1%N in let K := 1%N in let M := 2%N in
  [/\ from_bristol_fashion text3 = Some source3, well_formed source3, pack source3 (N.of_nat l) = Some circ,
      (0 < l)%N /\ (t + 2 * l <= n <= 2 ^ 16)%N & (2 * (t + l - 1) <= n - 1)%N] /\
  [/\ (N.of_nat n + N.of_nat l + c_num_wires source3 <= 2 ^ w)%num, (N.of_nat M < 2 ^ w)%num & (N.of_nat (4 * K + 3) < 2 ^ 64)%num] /\
  let ng := N.of_nat (length (p_gates circ)) in
  let nb := (N.of_nat (length (p_inputs circ)) + ng)%num in
  let ni := ProtoIdModel.num_inp_blocks (p_gates circ) in
  [/\ (0 < nb <= 2 ^ 48)%num, (ni <= 2 ^ 48)%num &
  (forall x, In x [:: 4 + ng; nb; ni; (nb + N.of_nat l - 1) / N.of_nat l; (ni + N.of_nat l - 1) / N.of_nat l]%num ->
     ~ exists k, x = (256 ^ k)%num)].
Proof.
  eexists. split; [|split].
  - split; [by vm_compute|exact: source3_wf|by vm_compute|by []|by []].
  - by split; vm_compute.
  - split; [by split; vm_compute|by vm_compute|].
    have X k : (256 ^ k = 1 \/ 256 <= 256 ^ k)%num.
    { case: (N.eq_dec k 0) => [->|Hk]; [by left|right]. rewrite -{1}[256%num]N.pow_1_r. apply: N.pow_le_mono_r; lia. }
    move=> x Hx [k Ek]. have := X k. rewrite -Ek. clear X Ek. simpl in Hx. 
    by repeat (case: Hx => [<-|Hx]; first by vm_compute => -[]).
Qed.

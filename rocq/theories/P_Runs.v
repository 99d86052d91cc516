(** Property theorems C75: for which packing parameters [garble] returns, in
    particular on the circuits shipped. *)

From Coq Require Import NArith String List Ascii.
From Verif Require Import CircuitModel CircuitSpec Shipped Sub64File P_Shipped LpnModel LpnSpec.
From mathcomp Require Import all_ssreflect all_algebra zify.
From Verif Require Import MathModel MathProofs MatProofs SharingModel SharingSpec SharingProofs.
From Verif Require Import MachineModel MachineProofs MachineBuild Realize CoreModel CoreSpec CoreProofs.
From Verif Require Import PreprocModel PreprocSpec GarbleModel GarbleSpec GarbleRun PipeModel BinModel Never.
From Verif Require Import GFField GFCodec P_Math P_Core P_Garble P_Bin.
From Verif Require Import RouteModel StackModel StackSpec StackRun StackNets P_Stack.
From Verif Require ProtoIdModel ProtoIdProofs P_ProtoId.
Set Implicit Arguments.
Unset Strict Implicit.
Unset Printing Implicit Defensive.

Notation pid := [eqType of seq N].

(** If ids run out, a party that runs [garble] never returns, whatever the other
    parties do and whatever material it is given. *)
Theorem C75_never_returns : forall (F : fieldType) (emb : nat -> F) (D : eqType) ser de
    (H : eqType) (sha : seq N -> H) h0 draws hash circ c p g id pp coins k n (P : nat -> proc pid D (val F)) i,
  gctx_new emb sha h0 draws circ c p = Some g -> ProtoIdModel.garble_ids id circ (N.of_nat (c_l c)) = None ->
  P i = garble emb ser de hash g id pp coins k ->
  forall m cf v, gsteps n m (start P) cf -> procs cf i <> Ret v.
Proof.
  move=> F emb D ser de H sha h0 draws hash circ c p g id pp coins k n P i Hg Hids HP m cf v S.
  apply: (never_gsteps S). rewrite /= HP. by apply: (garble_never _ _ _ _ _ _ Hg Hids).
Qed.
Print Assumptions C75_never_returns.

(** A machine whose runs all end has a run that ends. *)
Lemma some_run_ends (I D : eqType) V n (c : cfg I D V) Q : every_run_ends n c Q -> exists k c', gsteps n k c c' /\ Q c'.
Proof.
  move=> [B HB]. suff: forall m, exists k c', gsteps n k c c' /\ (k = m \/ Q c').
  { move=> /(_ B.+1) [k [c' [S [E|E]]]]; last by exists k, c'. by have [] := HB k c' S; rewrite E ltnn. }
  elim=> [|m [k [c' [S [E|E]]]]]; first by exists 0%N, c; split; [constructor|left].
  - have [_ [[c2 S2]|E2]] := HB k c' S; last by exists k, c'; split; [|right].
    exists k.+1, c2. split; last by left; rewrite E. clear -S S2.
    elim: S S2 => [c0|j c0 c1 c3 S1 _ IH] S2; [apply: GSS S2 _; constructor|exact: GSS S1 (IH S2)].
  - by exists k, c'; split; [|right].
Qed.

(** With matching material all runs of [garble] end, with all parties done,
    exactly if none of the five numbers of ids it asks for is a power of 256. *)
Theorem C75_returns_iff : forall (F : fieldType) (emb : nat -> F) (D : eqType) ser de fits n t l P Pn circ K M
    (H : eqType) (sha : seq N -> H) h0 draws hash d id (pp : nat -> preproc_data F) mk ks rs es,
  @garble_setting F emb D ser de fits n t l P Pn circ K M ->
  describe circ n t l (Lpn K M) = Some d -> material emb n t l d pp mk ks rs es ->
  let ng := N.of_nat (size (p_gates circ)) in
  let nb := (N.of_nat (size (p_inputs circ)) + ng)%num in
  let ni := ProtoIdModel.num_inp_blocks (p_gates circ) in
  (nb <= 2 ^ 62)%num -> (ni <= 2 ^ 62)%num ->
  exists g, (forall i, (i < n)%N -> gctx_new emb sha h0 draws circ (Ctx i n t l P Pn) (Lpn K M) = Some (g i)) /\
  ((forall coins, every_run_ends n (start (fun i => garble emb ser de hash (g i) id (pp i) (coins i) (fun y => Ret (garble_val y))))
      (fun c => exists res, all_done n res c)) <->
   forall x, In x [:: 4 + ng; nb; ni; (nb + N.of_nat l - 1) / N.of_nat l; (ni + N.of_nat l - 1) / N.of_nat l]%num ->
     ~ exists k, x = (256 ^ k)%num).
Proof.
  move=> F emb D ser de fits n t l P Pn circ K M H sha h0 draws hash d id pp mk ks rs es HS Hd Hm ng nb ni Hb Hi.
  have [[serK HSS F2 Hwf Hinj] [Hl0 /andP [Hn _] _ _ _]] := HS.
  have X : (exists ids, ProtoIdModel.garble_ids id circ (N.of_nat l) = Some ids) <->
     forall x, In x [:: 4 + ng; nb; ni; (nb + N.of_nat l - 1) / N.of_nat l; (ni + N.of_nat l - 1) / N.of_nat l]%num -> ~ exists k, x = (256 ^ k)%num.
  { apply: P_ProtoId.C21_garble_names_subprotocols_iff => //; first by move: Hl0; clear; lia.
    move: Hb; rewrite /nb /ng -[length _]/(size _); clear; lia. }
  case E: (ProtoIdModel.garble_ids id circ (N.of_nat l)) => [ids|].
  - have [g [Hg R]] := C48_garble sha h0 draws hash HS Hd Hm E. exists g; split=> //. split=> _; last first.
    { move=> coins. apply: ends_mono (R coins) => c [tabs [rest [A _]]]. eexists. exact: A. }
    apply/X. by exists ids.
  - have HKl : (t + l + l <= n)%N by move: Hn; clear; lia.
    have [B1 [B2 [HB1 HB2 _ _ _]]] := describeE Hd.
    have [g [enc [_ Hg]]] := gctx_newE HSS Hl0 HKl Hwf Hinj sha h0 draws K M HB1 HB2.
    exists g; split=> [i Hi'|]; first by have [] := Hg i Hi'.
    split=> [R|/X [ids]]; last by rewrite E.
    have H0 : (0 < n)%N by move: Hn Hl0; clear; lia.
    have [k [c' [S [res [Dn _]]]]] := some_run_ends (R (fun _ => GCoins (fun _ _ _ => 0%R) (fun _ _ _ => 0%R) (fun _ _ _ => 0%R) (fun _ _ _ => 0%R))).
    have [Hg0 _ _ _] := Hg 0%N H0. case: (C75_never_returns Hg0 E erefl S (Dn 0%N H0)).
Qed.
Print Assumptions C75_returns_iff.

(** ** The circuits shipped *)

(** Numbers of ids and the numbers of gates and input wires of the circuit. *)
Lemma ids_counts c k pc id : pack c k = Some pc ->
  (4 + 2 * kind_count is_and (c_gates c) + 2 * kind_count is_xor (c_gates c) + kind_count is_inv (c_gates c) + input_wires c < 16777216)%num ->
  (ProtoIdModel.garble_ids id pc k = None <->
   run_out (kind_count is_and (c_gates c)) (kind_count is_xor (c_gates c)) (kind_count is_inv (c_gates c)) (input_wires c) k).
Proof.
  move=> Hp L. have [Hk [H1 [H2 H3]]] := pack_counts _ _ _ Hp.
  move: (kind_count is_and _) (kind_count is_xor _) (kind_count is_inv _) (input_wires c) L H1 H2 H3 => a x i p L H1 H2 H3.
  have C y : (y <= 16777216 -> y <= 2 ^ 62)%num by move=> Hy; apply: N.le_trans Hy _; apply/N.leb_le.
  have B := id_counts_bound a x i p k _ Hk.
  have X := P_ProtoId.C21_garble_names_subprotocols_iff id pc k Hk. rewrite H1 H2 H3 in X.
  have {}X := X (C _ _) (C _ _) (C _ _).
  have E : (exists ids, ProtoIdModel.garble_ids id pc k = Some ids) <-> ~ run_out a x i p k.
  { rewrite X.
    - split=> [Y [v [Hv Ev]]|Y v Hv Ev]; [exact: (Y v Hv Ev)|apply: Y; by exists v].
    - have := B (cdiv p k + (cdiv a k + cdiv x k + cdiv i k))%num (or_intror (or_introl erefl)). clear -L; lia.
    - have := B (2 * cdiv a k + 2 * cdiv x k + cdiv i k)%num (or_intror (or_intror (or_introl erefl))). clear -L; lia.
    - have := B (4 + (cdiv a k + cdiv x k + cdiv i k))%num (or_introl erefl). clear -L; lia. }
  have D : run_out a x i p k \/ ~ run_out a x i p k.
  { have RP := run_outP a x i p k Hk L. by case Er: (run_outb a x i p k) RP => RP; [left; apply/RP|right=> /RP]. }
  case: (ProtoIdModel.garble_ids id pc k) E => [ids|] E; split=> //.
  - move=> R. case: (proj1 E _ R). by exists ids.
  - move=> _. case: D => // N. by have [ids] := proj2 E N.
Qed.

(** sub64.txt can be garbled exactly with packing parameters up to 24. *)
Theorem C75_sub64_iff : forall l circ id, (0 < l)%num -> BinModel.load_circuit (str sub64_txt) (N.to_nat l) = Some circ ->
  (ProtoIdModel.garble_ids id circ l = None <-> (25 <= l)%num).
Proof.
  move=> l circ id Hl. rewrite /load_circuit. have [c [-> [_ [[Ka [Kx Ki]] [_ [Ei _]]]]]] := sub64_read. rewrite N2Nat.id => Hp.
  have Kp : input_wires c = 128%num by rewrite /input_wires Ei.
  have := ids_counts id Hp. rewrite Ka Kx Ki Kp => /(_ erefl) ->.
  have -> := run_out_iff 63 313 63 128 25 [::] erefl erefl _ erefl _ erefl l Hl.
  - by split; [case|right].
  - by apply/N.leb_le; vm_compute.
  - by vm_compute.
Qed.
Print Assumptions C75_sub64_iff.

(** Circuits with the numbers of gates of aes_128.txt (6400 AND, 28176 XOR, 2087
    INV, 256 inputs; counted in the file, which is not part of this development):
    all packing parameters up to 192 but 146. *)
Theorem C75_aes_iff : forall c l circ id, pack c l = Some circ ->
  kind_count is_and (c_gates c) = 6400%num -> kind_count is_xor (c_gates c) = 28176%num -> kind_count is_inv (c_gates c) = 2087%num ->
  input_wires c = 256%num -> (ProtoIdModel.garble_ids id circ l = None <-> l = 146%num \/ (193 <= l)%num).
Proof.
  move=> c l circ id Hp Ka Kx Ki Kp. have [Hl _] := pack_counts _ _ _ Hp.
  have := ids_counts id Hp. rewrite Ka Kx Ki Kp => /(_ erefl) ->.
  have -> := run_out_iff 6400 28176 2087 256 193 [:: 146]%num erefl erefl _ erefl _ erefl l Hl.
  - split=> [[[->|//]|H]|[->|H]]; [by left|by right|by left; left|by right].
  - by apply/N.leb_le; vm_compute.
  - by vm_compute.
Qed.
Print Assumptions C75_aes_iff.

(** Those of sha256.txt (22573 AND, 110644 XOR, 1856 INV, 768 inputs): all up to 370. *)
Theorem C75_sha_iff : forall c l circ id, pack c l = Some circ ->
  kind_count is_and (c_gates c) = 22573%num -> kind_count is_xor (c_gates c) = 110644%num -> kind_count is_inv (c_gates c) = 1856%num ->
  input_wires c = 768%num -> (ProtoIdModel.garble_ids id circ l = None <-> (371 <= l)%num).
Proof.
  move=> c l circ id Hp Ka Kx Ki Kp. have [Hl _] := pack_counts _ _ _ Hp.
  have := ids_counts id Hp. rewrite Ka Kx Ki Kp => /(_ erefl) ->.
  have -> := run_out_iff 22573 110644 1856 768 371 [::] erefl erefl _ erefl _ erefl l Hl.
  - by split; [case|right].
  - by apply/N.leb_le; vm_compute.
  - by vm_compute.
Qed.
Print Assumptions C75_sha_iff.

(** ** The program *)

Lemma garble_bin_never (F : fieldType) (emb : nat -> F) (D : eqType) ser de (syn : D) (H : eqType) (sha : seq N -> H) h0 draws hash
    (G : Type) (seed_from : N -> G) gf_rand gen_bool text i n t l p reps coins k :
  (forall circ, load_circuit text l = Some circ -> ProtoIdModel.garble_ids [::] circ (N.of_nat l) = None) -> (0 < reps)%N ->
  never (garble_bin emb ser de syn sha h0 draws hash seed_from gf_rand gen_bool text i n t l p reps coins k).
Proof.
  rewrite /garble_bin. case: (load_circuit text l) => // circ /(_ _ erefl) Hids Hr. case Ec: (party_ctx _ _ _ _ _) => [c|] //.
  case: describe => // d. case Eg: (gctx_new _ _ _ _ _ _ _) => [g|] //.
  apply: bench_never => [r pp k'|]; last by rewrite size_iota.
  apply: (garble_never _ _ _ _ _ _ Eg).
  suff -> : c_l c = l by [].
  move: Ec; rewrite /party_ctx; case: (t + l)%N => // tl; case: n => // n1; case: pss_new => // p1; case: pss_new => // p2.
  by case=> <-.
Qed.

(** bin/garble.rs on sub64.txt with a packing parameter above 24: a party never
    gets to its end, whatever the parameters and whatever the other parties do. *)
Theorem C75_program_never_returns : forall (w : width) (H : eqType) (sha : seq N -> H) h0 draws hash
    (G : Type) (seed_from : N -> G) gf_rand gen_bool (syn : bytes) n t l K M reps coins k (P : nat -> proc pid [eqType of bytes] (val (gf_fieldType w))) i,
  (25 <= l)%N -> (0 < reps)%N ->
  P i = garble_bin (gf_of w) (@bser w) (@bde w) syn sha h0 draws hash seed_from gf_rand gen_bool
       (str sub64_txt) i n t l (Lpn K M) reps coins k ->
  forall m cf v, gsteps n m (start P) cf -> procs cf i <> Ret v.
Proof.
  move=> w H sha h0 draws hash G seed_from gf_rand gen_bool syn n t l K M reps coins k P i Hl Hr HP m cf v S.
  have X : never (P i).
  { rewrite HP. apply: garble_bin_never Hr => circ El.
    have Hl' : (25 <= N.of_nat l)%num by move: Hl; clear; lia.
    apply/(C75_sub64_iff [::] _ _); [by move: Hl; clear; lia|by rewrite Nat2N.id; exact: El|exact: Hl']. }
  clear HP. exact: (never_gsteps S X).
Qed.
Print Assumptions C75_program_never_returns.

(** With up to 24 all executions on TCP end, and all parties have their tables:
    [reps] times [garbled] from the material [dummy] makes. *)
Theorem C75_program_returns : forall (w : width) (H : eqType) (sha : seq N -> H) h0 draws hash
    (G : Type) (seed_from : N -> G) gf_rand gen_bool (syn : bytes) n t l K M reps coins,
  (0 < l <= 24)%N -> (t + 2 * l <= n <= 2 ^ 16)%N -> (2 * (t + l - 1) <= n - 1)%N ->
  (N.of_nat n + N.of_nat l + 567 <= 2 ^ w)%num -> (N.of_nat M < 2 ^ w)%num ->
  (8 + N.of_nat (4 * K + 3) * ((w + 7) / 8) < 2 ^ 62)%num ->
  exists circ, load_circuit (str sub64_txt) l = Some circ /\
  ends_in (sstep n raw (tnstep n) t_out)
    (fun s => exists d (pp : nat -> nat -> preproc_data (gf_fieldType w)) mk ks rs es tabs rest,
      [/\ stack_done n t_out (fun i => Node [seq garble_val ([seq tabs r gid i | gid <- iota 0 (size (p_gates circ))], rest r i)
                                    | r <- iota 0 reps]) s,
          describe circ n t l (Lpn K M) = Some d &
          forall r, (r < reps)%N ->
            [/\ forall i, (i < n)%N -> dummy (gf_of w) seed_from gf_rand gen_bool i n t l (200 + N.of_nat r) d = Some (pp r i),
                material (gf_of w) n t l d (pp r) (mk r) (ks r) (rs r) (es r) &
                garbled (gf_of w) sha draws circ n t l K M (mk r) (ks r) (es r) (tabs r)]])
    (stack_start n tinit (fun i => garble_bin (gf_of w) (@bser w) (@bde w) syn sha h0 draws hash seed_from gf_rand gen_bool
       (str sub64_txt) i n t l (Lpn K M) reps (fun r => coins r i) (fun ys => Ret (Node [seq garble_val y | y <- ys])))).
Proof.
  move=> w H sha h0 draws hash G seed_from gf_rand gen_bool syn n t l K M reps coins /andP [Hl HL] Hn Hd Hw HM HK.
  have [c [Et [Hwf [[Ka [Kx Ki]] [Ew [Ei _]]]]]] := sub64_read.
  have Hl1 : (1 <= N.of_nat l)%num by move: Hl; clear; lia.
  have [circ [Hp _]] := P_Circuit.C19_pack_preserves_the_circuit c (N.of_nat l) Hl1.
  exists circ; split; first by rewrite /load_circuit Et.
  move: (str sub64_txt) Et => text Et.
  have Kp : input_wires c = 128%num by rewrite /input_wires Ei.
  have [_ [H1 [H2 H3]]] := pack_counts _ _ _ Hp. rewrite Ka Kx Ki Kp in H1 H2 H3.
  have Hk : (0 < N.of_nat l)%num by move: Hl; clear; lia.
  have R := run_out_iff 63 313 63 128 25 [::] erefl erefl _ erefl _ erefl _ Hk.
  have {}R : ~ run_out 63 313 63 128 (N.of_nat l).
  { rewrite R; [by case=> //; move: HL; clear; lia|by apply/N.leb_le; vm_compute|by vm_compute]. }
  have B := id_counts_bound 63 313 63 128 _ _ Hk.
  have C y : (y <= 947 -> y <= 2 ^ 48)%num by move=> Hy; apply: N.le_trans Hy _; apply/N.leb_le.
  have P1 : (0 < cdiv 128 (N.of_nat l))%num.
  { rewrite /cdiv. apply: N.div_str_pos. move: Hl HL; clear; lia. }
  apply: (@C65_garble_program w H sha h0 draws hash G seed_from gf_rand gen_bool syn text c circ n t l K M reps coins Et Hwf Hp Hl Hn Hd _ HM HK).
  - by rewrite Ew.
  - rewrite H1 H2. split; first by move: P1; clear; lia. apply: C. exact: (B _ (or_intror (or_introl erefl))).
  - rewrite H3. apply: C. exact: (B _ (or_intror (or_intror (or_introl erefl)))).
  - rewrite H1 H2 H3 => x Hx Hpow. apply: R. exists x. by split.
Qed.
Print Assumptions C75_program_returns.

(** The example of the README: 16 parties, threshold 5, packing parameter 3, LPN
    lengths 3 and 5, the field of the programs. *)
Definition w18 : width := @Width 18%num isT.
Example C75_readme : let n := 16%N in let t := 5%N in let l := 3%N in let K := 3%N in let M := 5%N in let w := w18 in
  [/\ (0 < l <= 24)%N, (t + 2 * l <= n <= 2 ^ 16)%N & (2 * (t + l - 1) <= n - 1)%N] /\
  [/\ (N.of_nat n + N.of_nat l + 567 <= 2 ^ w)%num, (N.of_nat M < 2 ^ w)%num &
      (8 + N.of_nat (4 * K + 3) * ((w + 7) / 8) < 2 ^ 62)%num].
Proof. by split; split; vm_compute. Qed.

(** Three parties over GF(16): all runs of the circuit of [C48_example] end, and
    a circuit of a single inverter meets the same hypotheses but no party ever
    returns, for one id is asked for. *)
Definition circ1 : pcircuit := PCircuit [:: PInv [:: 0] [:: 1]]%num [:: [:: 0]]%num [:: [:: 1]]%num 2 1.
Example C75_example : forall circ, circ = circ3 \/ circ = circ1 -> exists P Pn pp d mk ks rs es,
  [/\ garble_setting g4 (@gser w4) (@gde w4) len_ok 3 1 1 P Pn circ 1 2, describe circ 3 1 1 (Lpn 1 2) = Some d &
      material g4 3 1 1 d pp mk ks rs es].
Proof.
  move=> circ Hc. have [P [Pn HS]] := setting4.
  have [d Hd] : exists d, describe circ 3 1 1 (Lpn 1 2) = Some d by case: Hc => ->; eexists; vm_compute; reflexivity.
  have [pp [Hm _]] := @material_exists _ g4 3 1 1 P Pn d (fun j => [:: 0%R]) (fun j => [:: g4 j])
     (fun _ => [:: 1%R]) (fun j => [:: g4 (j %% 3)]) HS (fun _ => erefl)
     (fun j y H => or_introl (eqP (eq_trans (esym (mem_seq1 y 0%R)) H)))
     (fun _ => erefl) (fun _ => erefl) (fun _ => erefl).
  exists P, Pn, pp, d. do 4 eexists. split; [|exact: Hd|exact: Hm].
  by apply: setting_16 => //; case: Hc => -> //; vm_compute.
Qed.
Example C75_counts :
  (forall id, ProtoIdModel.garble_ids id circ1 1 = None) /\ exists ids, ProtoIdModel.garble_ids [:: 7]%num circ3 1 = Some ids.
Proof. by split=> [id|]; [|eexists; vm_compute]. Qed.

(** Any counts are those of some circuit, which can be packed with any parameter. *)
Example C75_counts_exist : forall a x i p l, (0 < l)%num -> exists c circ,
  [/\ pack c l = Some circ, kind_count is_and (c_gates c) = a, kind_count is_xor (c_gates c) = x,
      kind_count is_inv (c_gates c) = i & input_wires c = p].
Proof.
  move=> a x i p l Hl.
  have K f g b m : f g = b -> filter f (nseq m g) = nseq (if b then m else 0) g by move=> E; rewrite filter_nseq E; case: b {E}; rewrite ?mul1n ?mul0n.
  pose gs := (nseq (N.to_nat a) (And 0 0 1) ++ nseq (N.to_nat x) (Xor 0 0 1) ++ nseq (N.to_nat i) (CircuitModel.Inv 0 1))%num.
  pose c := Circuit gs [:: nseq (N.to_nat p) 0%num] [::] 2.
  have [circ [Hp _]] := P_Circuit.C19_pack_preserves_the_circuit c l ltac:(move: Hl; clear; lia).
  have E f (s : seq gate) : List.length (List.filter f s) = size (filter f s) by elim: s => [|y s IH] //=; case: (f y) => //=; rewrite IH.
  exists c, circ. split=> //; rewrite /kind_count ?E /= /gs ?filter_cat ?size_cat.
  - by rewrite (K _ _ (And _ _ _) true) // !(K _ _ _ false) // !size_nseq /=; clear; lia.
  - by rewrite (K _ _ (Xor _ _ _) true) // !(K _ _ _ false) // !size_nseq /=; clear; lia.
  - by rewrite (K _ _ (CircuitModel.Inv _ _) true) // !(K _ _ _ false) // !size_nseq /=; clear; lia.
  - rewrite /input_wires /= List.app_nil_r -[List.length _]/(size _) size_nseq. clear; lia.
Qed.

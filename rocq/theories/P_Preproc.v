(** Property theorems C34, C35, C36, C38, C39: preprocessing. *)

From Coq Require Import NArith List.
From mathcomp Require Import all_ssreflect all_algebra zify.
From Verif Require Import MathModel MathProofs MatProofs SharingModel SharingSpec SharingProofs.
From Verif Require Import MachineModel MachineProofs MachineBuild Realize CoreModel CoreSpec CoreProofs.
From Verif Require Import RandTransProofs PreprocModel PreprocSpec PreprocProofs PreprocRun DummyProofs PreprocCodec.
From Verif Require Import GaloisModel GFField GFCodec P_Math P_Core.
From Verif Require ProtoIdModel P_ProtoId.
Set Implicit Arguments.
Unset Strict Implicit.
Unset Printing Implicit Defensive.
Import GRing.Theory.
Local Open Scope ring_scope.

(** ** Helpers *)

Lemma steps_snoc n (I D : eqType) (V : Type) k (c c' c'' : cfg I D V) :
  gsteps n k c c' -> gstep n c' c'' -> gsteps n k.+1 c c''.
Proof. move=> S. elim: S => [c0|k0 c0 c1 c2 S0 _ IH] S'; [exact: GSS S' (GS0 _ _)|exact: GSS S0 (IH S')]. Qed.

(** Two properties of all runs hold together at some final state. *)
Lemma ends_both n (I D : eqType) (V : Type) (c : cfg I D V) (Q Q' : cfg I D V -> Prop) :
  every_run_ends n c Q -> every_run_ends n c Q' -> exists c', Q c' /\ Q' c'.
Proof.
  move=> [B HB] [B' HB'].
  have H m k c' : gsteps n k c c' -> (B < m + k)%N -> exists c', Q c' /\ Q' c'.
  { elim: m k c' => [|m IH] k c' S L; first by have [] := HB k c' S; lia.
    have [_ [[c'' S']|q]] := HB k c' S.
    - apply: (IH k.+1 c''); last by lia. exact: steps_snoc S S'.
    - have [_ [[c'' S']|q']] := HB' k c' S; last by exists c'.
      apply: (IH k.+1 c''); last by lia. exact: steps_snoc S S'. }
  apply: (H B.+1 0%N c); [exact: GS0|lia].
Qed.

Section Bits.
Variable F : fieldType.
Hypothesis char2 : 1 + 1 = 0 :> F.

Lemma bit_add (a b : F) : a = 0 \/ a = 1 -> b = 0 \/ b = 1 -> a + b = 0 \/ a + b = 1.
Proof. by move=> [->|->] [->|->]; rewrite ?add0r ?addr0 ?char2; auto. Qed.

Lemma bit_mul (a b : F) : a = 0 \/ a = 1 -> b = 0 \/ b = 1 -> a * b = 0 \/ a * b = 1.
Proof. by move=> [->|->] [->|->]; rewrite ?mul0r ?mulr0 ?mul1r; auto. Qed.

Lemma bit_entry (M : mat F) r s : binary M -> entry M r s = 0 \/ entry M r s = 1.
Proof.
  move=> H. rewrite /entry. case: (ltnP r (size (rows M))) => Hr; last by rewrite (nth_default _ Hr) nth_nil; left.
  case: (ltnP s (size (nth [::] (rows M) r))) => Hs; last by rewrite nth_default //; left.
  apply: (H (nth [::] (rows M) r)); exact: mem_nth.
Qed.

(** Bits combined with a binary matrix are bits. *)
Lemma mixed_bits (emb : nat -> F) n k pos M b (bit : nat -> nat -> nat -> bool) coin p idx :
  binary M -> secret_polys emb n k pos (fun s j q => if bit s j q then 1 else 0) coin p ->
  bits [seq (mixed n M b p idx).[x] | x <- pos].
Proof.
  move=> HM Hp y /mapP [x Hx ->]. rewrite mixed_eval. elim/big_ind: _ => [|a c|s _]; first by left.
  - exact: bit_add.
  - apply: bit_mul; first exact: bit_entry. have [_ H2 _] := Hp s (idx %% b)%N (ltn_ord s).
    rewrite -(nth_index 0 Hx) H2 ?index_mem //. by case: (bit _ _ _); auto.
Qed.
End Bits.

Lemma gf_char2 (w : width) : 1 + 1 = 0 :> gf w.
Proof. apply: gf_inj. exact: N.lxor_nilpotent. Qed.

(** ** C34 *)

(** In each theorem: the batch size is the number of rows of the matrix [M]
    (at least one, with a column per party); [b] is the number of batches,
    [ceil(num / B)].  All schedules are finite and end with party [i] holding
    share [i] of the same list of [B * b] polynomials; no message is left
    over.  The polynomials are the combinations by [M] of those fixed by the
    parties' coins. *)
Theorem C34_rand : forall (F : fieldType) (emb : nat -> F) (I D : eqType) ser de fits n t l P Pn
    (M : mat F) (id : I) num b (coin : nat -> nat -> nat -> F),
  @codec_ok F D ser de fits -> setting emb n t l P Pn ->
  let B := size (rows M) in
  (0 < B)%N -> ncols M = n -> (num <= B * b < num + B)%N -> fits b ->
  every_run_ends n
    (start (fun i => rand ser de (Ctx i n t l P Pn) M id num (coin i) (fun x => Ret (Leaf [:: x]))))
    (fun c => exists p res, [/\ rand_polys emb n (t + l) coin p, all_done n (fun i => Leaf [:: res i]) c,
       forall i, (i < n)%N -> res i = held emb (mixed n M b p) (B * b) i &
       sharings emb n (t + l).-1 (default_pos emb n l) (B * b) res
         (fun j => [seq (mixed n M b p j).[x] | x <- default_pos emb n l])]).
Proof.
  move=> F emb I D ser de fits n t l P Pn M id num b coin serK HS B HB HM Hb Hf.
  have Hn := setting_n HS. have /andP [Ht _] := tl_le Hn HS.
  have [b' [Eb Hb']] := num_batchesE num HB. have E : b' = b by nia. subst b'.
  have [rd [p [Hp R]]] := rand_realizes serK Hn HS id coin Eb HM Hf.
  apply: ends_mono (one_round (ser [::]) (fun y => Leaf [:: y]) Hn R) => c Hc.
  exists p, (held emb (mixed n M b p) (B * b)). split=> //.
  apply: held_sharings => j _. rewrite prednK //. apply: mixed_size => s i Hs. exact: (Hp s i Hs).1.
Qed.
Print Assumptions C34_rand.

Theorem C34_zero : forall (F : fieldType) (emb : nat -> F) (I D : eqType) ser de fits n t l P Pn
    (M : mat F) (id : I) num b (coin : nat -> nat -> nat -> F),
  @codec_ok F D ser de fits -> setting emb n t l P Pn ->
  let B := size (rows M) in
  (0 < B)%N -> ncols M = n -> (num <= B * b < num + B)%N -> fits b ->
  every_run_ends n
    (start (fun i => zero ser de (Ctx i n t l P Pn) M id num (coin i) (fun x => Ret (Leaf [:: x]))))
    (fun c => exists p res,
       [/\ secret_polys emb n n (default_pos emb n l) (fun _ _ _ => 0) coin p,
           all_done n (fun i => Leaf [:: res i]) c,
           forall i, (i < n)%N -> res i = held emb (mixed n M b p) (B * b) i &
           sharings emb n n.-1 (default_pos emb n l) (B * b) res (fun _ => nseq l 0)]).
Proof.
  move=> F emb I D ser de fits n t l P Pn M id num b coin serK HS B HB HM Hb Hf.
  have Hn := setting_n HS.
  have [b' [Eb Hb']] := num_batchesE num HB. have E : b' = b by nia. subst b'.
  have [rd [p [Hp R]]] := zero_realizes serK Hn HS id coin Eb HM Hf.
  apply: ends_mono (one_round (ser [::]) (fun y => Leaf [:: y]) Hn R) => c Hc.
  exists p, (held emb (mixed n M b p) (B * b)). split=> //.
  apply: sharings_ext (held_sharings emb n (default_pos emb n l) (d := n.-1) (p := mixed n M b p) _) => // [j _|j _].
  - exact: mixed_zero Hp.
  - rewrite prednK //. apply: mixed_size => s i Hs. by have [] := Hp s i Hs.
Qed.
Print Assumptions C34_zero.

(** With a matrix of bits in characteristic two the secrets are bits: the
    combinations of the drawn bits. *)
Theorem C34_randbit : forall (F : fieldType) (emb : nat -> F) (I D : eqType) ser de fits n t l P Pn
    (M : mat F) (id : I) num b (bit : nat -> nat -> nat -> bool) (coin : nat -> nat -> nat -> F),
  @codec_ok F D ser de fits -> setting emb n t l P Pn ->
  let B := size (rows M) in
  (0 < B)%N -> ncols M = n -> (num <= B * b < num + B)%N -> fits b -> 1 + 1 = 0 :> F -> binary M ->
  every_run_ends n
    (start (fun i => randbit ser de (Ctx i n t l P Pn) M id num (bit i) (coin i) (fun x => Ret (Leaf [:: x]))))
    (fun c => exists p res sec,
       [/\ secret_polys emb n (t + l) (default_pos emb n l) (fun s j q => if bit s j q then 1 else 0) coin p,
           all_done n (fun i => Leaf [:: res i]) c,
           forall i, (i < n)%N -> res i = held emb (mixed n M b p) (B * b) i,
           sharings emb n (t + l).-1 (default_pos emb n l) (B * b) res sec &
           forall j, (j < B * b)%N -> bits (sec j) /\ forall q, (q < l)%N ->
             nth 0 (sec j) q = \sum_(s < n) entry M (j %/ b) s * (if bit s (j %% b)%N q then 1 else 0)]).
Proof.
  move=> F emb I D ser de fits n t l P Pn M id num b bit coin serK HS B HB HM Hb Hf C2 HMb.
  have Hn := setting_n HS. have /andP [Ht _] := tl_le Hn HS.
  have [b' [Eb Hb']] := num_batchesE num HB. have E : b' = b by nia. subst b'.
  have [rd [p [Hp R]]] := randbit_realizes serK Hn HS id bit coin Eb HM Hf.
  apply: ends_mono (one_round (ser [::]) (fun y => Leaf [:: y]) Hn R) => c Hc.
  exists p, (held emb (mixed n M b p) (B * b)), (fun j => [seq (mixed n M b p j).[x] | x <- default_pos emb n l]).
  split=> //.
  - apply: held_sharings => j _. rewrite prednK //. apply: mixed_size => s i Hs. by have [] := Hp s i Hs.
  - move=> j Hj. split; first exact: mixed_bits HMb Hp.
    move=> q Hq. rewrite (nth_map 0) ?size_default // mixed_eval. apply: eq_bigr => s _.
    have [_ H2 _] := Hp s (j %% b)%N (ltn_ord s). by rewrite H2 ?size_default.
Qed.
Print Assumptions C34_randbit.

(** Three parties over GF(16), the 2x3 matrix of the code, two batches for
    three sharings. *)
Example C34_example : exists P Pn M,
  [/\ setting g4 3 1 1 P Pn, codec_ok (@gser w4) (@gde w4) len_ok, super_inv_matrix g4 3 2 = Some M &
  [/\ size (rows M) = 2%N, ncols M = 3%N, (3 <= 2 * 2 < 3 + 2)%N & len_ok 2]].
Proof.
  have [P [Pn HS]] := setting4. exists P, Pn. eexists. split; [exact: HS|exact: gserK|reflexivity|]. by split.
Qed.

Example C34_bits_example : exists M : mat (gf_fieldType w4), [/\ (0 < size (rows M))%N, ncols M = 3%N, binary M & 1 + 1 = 0 :> gf w4].
Proof.
  exists (Mat 3 [:: [:: 1; 0; 1]; [:: 0; 1; 1]]). split=> //; last exact: gf_char2.
  move=> r. rewrite !inE => /orP [] /eqP -> y; rewrite !inE => /or3P [] /eqP ->; auto.
Qed.

(** ** C35 *)

(** Whatever the other parties contribute, any [B] parties' coins reach every
    tuple of polynomials, and two different choices give different outputs. *)
Theorem C35_every_output_reached : forall (F : fieldType) (emb : nat -> F) (I D : eqType) ser de fits n t l P Pn
    (M : mat F) (id : I) num B b (A : seq nat) (coin : nat -> nat -> nat -> F) (g : nat -> {poly F}),
  @codec_ok F D ser de fits -> setting emb n t l P Pn ->
  good_nodes emb n -> (0 < B <= n)%N -> super_inv_matrix emb n B = Some M ->
  (num <= B * b < num + B)%N -> fits b ->
  uniq A -> size A = B -> all (fun s => (s < n)%N) A ->
  (forall j, (j < B * b)%N -> (size (g j) <= t + l)%N) ->
  exists coin' : nat -> nat -> nat -> F, (forall s, s \notin A -> coin' s = coin s) /\
    every_run_ends n
      (start (fun i => rand ser de (Ctx i n t l P Pn) M id num (coin' i) (fun x => Ret (Leaf [:: x]))))
      (all_done n (fun i => Leaf [:: [seq (g j).[emb i] | j <- iota 0 (B * b)]])).
Proof.
  move=> F emb I D ser de fits n t l P Pn M id num B b A coin g serK HS Hg HB HM Hb Hf UA SA Al Sg.
  have Hn := setting_n HS. have /andP [Ht Htn] := tl_le Hn HS. have [_ _ _ Hpos] := HS. have Us := U_sh Hpos.
  have [M' []] := C08_super_invertible Hg HB. rewrite HM => -[<-] [Hc [Hr [_ Hx]]].
  pose K := (b * (t + l))%N.
  have CH : forall e, (e < K)%N -> exists x : seq F, size x = n /\
      (forall s, (s < n)%N -> s \notin A -> x`_s = coin s (e %/ (t + l))%N (e %% (t + l))%N) /\
      mat_apply M x = [seq (g (r * b + e %/ (t + l))%N).[emb (e %% (t + l))%N] | r <- iota 0 B].
  { move=> e He.
    have [|x [[H1 [H2 H3]] _]] := Hx A [seq coin s (e %/ (t + l))%N (e %% (t + l))%N | s <- iota 0 n]
      [seq (g (r * b + e %/ (t + l))%N).[emb (e %% (t + l))%N] | r <- iota 0 B] UA SA Al; first by rewrite size_map size_iota.
    exists x. split=> //. split=> // s Hs Hs'. by rewrite H2 // (nth_map 0%N) ?size_iota // nth_iota. }
  have [xs Hxs] := fin_choice [::] CH.
  pose coin' s j i := if (s \in A) && (j < b)%N && (i < t + l)%N then (xs (j * (t + l) + i)%N)`_s else coin s j i.
  have IX j i : (j < b)%N -> (i < t + l)%N -> [/\ (j * (t + l) + i < K)%N, ((j * (t + l) + i) %/ (t + l) = j)%N &
      ((j * (t + l) + i) %% (t + l) = i)%N].
  { move=> Hj Hi. split; first by rewrite /K; nia.
    - by rewrite divnMDl // divn_small ?addn0.
    - by rewrite modnMDl modn_small. }
  have E' s j i : (s < n)%N -> (j < b)%N -> (i < t + l)%N -> coin' s j i = (xs (j * (t + l) + i)%N)`_s.
  { move=> Hs Hj Hi. rewrite /coin' Hj Hi !andbT. case: ifP => // /negbT HA.
    have [H1 H2 H3] := IX j i Hj Hi. have [_ [-> //]] := Hxs _ H1. by rewrite H2 H3. }
  pose coin2 s := if s \in A then coin' s else coin s.
  exists coin2. split=> [s HA|]; first by rewrite /coin2 (negbTE HA).
  have E2 s j i : (s < n)%N -> (j < b)%N -> (i < t + l)%N -> coin2 s j i = (xs (j * (t + l) + i)%N)`_s.
  { move=> Hs Hj Hi. rewrite -E' // /coin2. case: ifP => // HA. by rewrite /coin' HA. }
  have [b' [Eb Hb']] := num_batchesE num (proj1 (andP HB)). have E : b' = b by nia. subst b'.
  have Eb2 : num_batches num (size (rows M)) = Some b by rewrite Hr.
  have [rd [p [Hp R]]] := rand_realizes serK Hn HS id coin2 Eb2 Hc Hf.
  apply: ends_mono (one_round (ser [::]) (fun y => Leaf [:: y]) Hn R) => c [H1 H2]. split=> // i Hi.
  rewrite H1 // Hr /held. congr (Ret (Leaf [:: _])). apply/eq_in_map => idx. rewrite mem_iota /= add0n => Hidx.
  have b0 : (0 < b)%N by move: Hidx; case: (b) => //; rewrite muln0.
  have Eq : mixed n M b p idx = g idx.
  { apply: (@poly_agree _ _ _ (take (t + l) (share_pos emb n))).
    - exact: take_uniq.
    - rewrite size_takel ?size_share_pos //. apply: mixed_size => s j Hs. exact: (Hp s j Hs).1.
    - rewrite size_takel ?size_share_pos //. exact: Sg.
    - rewrite /evals /share_pos -map_take take_iota (minn_idPl Htn) -!map_comp. apply/eq_in_map => a.
      rewrite mem_iota add0n /= => Ha. rewrite mixed_eval.
      have Hq : (idx %/ b < B)%N by rewrite ltn_divLR.
      have Hm : (idx %% b < b)%N by rewrite ltn_mod.
      have [I1 I2 I3] := IX _ _ Hm Ha. have [X1 [_ X3]] := Hxs _ I1.
      have := congr1 (fun s => nth 0 s (idx %/ b)) X3.
      rewrite /mat_apply (nth_map [::]) ?Hr // (nth_map 0%N) ?size_iota // nth_iota // add0n I2 I3 X1 -divn_eq => <-.
      apply: eq_bigr => s _. rewrite /entry. congr (_ * _).
      have [_ H3] := Hp s (idx %% b)%N (ltn_ord s). by rewrite H3 // E2. }
  by rewrite Eq.
Qed.
Print Assumptions C35_every_output_reached.

Theorem C35_distinct_coins_distinct_outputs : forall (F : fieldType) (emb : nat -> F) (I D : eqType) ser de fits n t l P Pn
    (M : mat F) (id : I) num B b (A : seq nat) (coin coin' : nat -> nat -> nat -> F) (res : nat -> seq F),
  @codec_ok F D ser de fits -> setting emb n t l P Pn ->
  good_nodes emb n -> (0 < B <= n)%N -> super_inv_matrix emb n B = Some M ->
  (num <= B * b < num + B)%N -> fits b ->
  uniq A -> size A = B -> all (fun s => (s < n)%N) A ->
  (forall s j i, s \notin A -> coin s j i = coin' s j i) ->
  (forall z, z = coin \/ z = coin' ->
     every_run_ends n (start (fun i => rand ser de (Ctx i n t l P Pn) M id num (z i) (fun x => Ret (Leaf [:: x]))))
       (all_done n (fun i => Leaf [:: res i]))) ->
  forall s j i, s \in A -> (j < b)%N -> (i < t + l)%N -> coin s j i = coin' s j i.
Proof.
  move=> F emb I D ser de fits n t l P Pn M id num B b A coin coin' res serK HS Hg HB HM Hb Hf UA SA Al Ho HR s j i Hs Hj Hi.
  have Hn := setting_n HS. have /andP [Ht Htn] := tl_le Hn HS.
  have [M' []] := C08_super_invertible Hg HB. rewrite HM => -[<-] [Hc [Hr [_ Hx]]].
  have Hsn : (s < n)%N by apply: (allP Al).
  have OUT (z : nat -> nat -> nat -> F) : z = coin \/ z = coin' ->
    mat_apply M [seq z s j i | s <- iota 0 n] = [seq (res i)`_(r * b + j) | r <- iota 0 B].
  { move=> Hz.
    have C34 := @C34_rand F emb I D ser de fits n t l P Pn M id num b z serK HS. rewrite /= Hr in C34.
    have [c [H1 [p [res' [Hp H2 H3 _]]]]] := ends_both (HR z Hz) (C34 (proj1 (andP HB)) Hc Hb Hf).
    have Hin : (i < n)%N by apply: leq_trans Htn.
    have : res i = res' i by have := H1.1 i Hin; rewrite (H2.1 i Hin) => -[].
    rewrite H3 // => ->. rewrite /mat_apply.
    apply: (@eq_from_nth _ 0); first by rewrite !size_map size_iota Hr.
    move=> r Hr'. have HrB : (r < B)%N by move: Hr'; rewrite !size_map Hr.
    rewrite (nth_map [::]) ?Hr // (nth_map 0%N) ?size_iota // nth_iota // add0n size_map size_iota.
    have Hl : (r * b + j < B * b)%N by nia.
    rewrite /held (nth_map 0%N) ?size_iota // nth_iota // add0n mixed_eval.
    rewrite divnMDl ?(leq_ltn_trans _ Hj) // divn_small // addn0 modnMDl modn_small //.
    apply: eq_bigr => q _. rewrite (nth_map 0%N) ?size_iota // nth_iota // add0n. congr (_ * _).
    by rewrite (Hp q j (ltn_ord q)).2. }
  have Szy : size [seq (res i)`_(r * b + j) | r <- iota 0 B] = B by rewrite size_map size_iota.
  have [x [_ U]] := Hx A [seq coin s j i | s <- iota 0 n] _ UA SA Al Szy.
  have Sn (z : nat -> nat -> nat -> F) : size [seq z s j i | s <- iota 0 n] = n by rewrite size_map size_iota.
  have N (z : nat -> nat -> nat -> F) q : (q < n)%N -> [seq z s j i | s <- iota 0 n]`_q = z q j i.
  { move=> Hq. by rewrite (nth_map 0%N) ?size_iota // nth_iota. }
  have U1 := U [seq coin s j i | s <- iota 0 n] (conj (Sn _) (conj (fun _ _ _ => erefl) (OUT coin (or_introl erefl)))).
  have U2 : x = [seq coin' s j i | s <- iota 0 n].
  { apply: U. split=> //. split; last by apply: OUT; right. move=> q Hq HA. by rewrite !N // Ho. }
  by rewrite -(N coin) // -U1 U2 N.
Qed.
Print Assumptions C35_distinct_coins_distinct_outputs.

Example C35_example : exists P Pn M (A : seq nat),
  [/\ setting g4 3 1 1 P Pn, good_nodes g4 3, super_inv_matrix g4 3 2 = Some M &
  [/\ uniq A, size A = 2%N & all (fun s => (s < 3)%N) A]].
Proof.
  have [P [Pn HS]] := setting4. exists P, Pn. eexists. exists [:: 2; 0]%N.
  split; [exact: HS| |reflexivity|by []]. apply: C08_field_has_enough_points. by vm_compute.
Qed.

(** ** C36 *)

(** The polynomials the parties deal, as given by their coins, and the data
    [pp] made of them. *)
Definition preprocessed_as (F : fieldType) (emb : nat -> F) n t l (M Mb : mat F) (d : count) (r : nat -> coins F) bR bZ bB
    (pp : nat -> preproc_data F) (mk ks rs es : nat -> seq F) : Prop :=
  exists pr pz pb (b0 b1 sc : nat -> nat),
  let e := n_errors d in
  let sec p := [seq (p : {poly F}).[x] | x <- default_pos emb n l] in
  let R j := sec (mixed n M bR pr j) in
  let Z j := mixed n M bZ pz j in
  let S j := sec (mixed n Mb bB pb j) in
  [/\ rand_polys emb n (t + l) (fun s => k_rand (r s)) pr,
      secret_polys emb n n (default_pos emb n l) (fun _ _ _ => 0) (fun s => k_zero (r s)) pz,
      secret_polys emb n (t + l) (default_pos emb n l) (fun s j q => if k_bit (r s) j q then 1 else 0)
        (fun s => k_bitrand (r s)) pb,
      [/\ mk = (fun j => S (2 * e + j)%N), ks = (fun j => R (3 * e + j)%N),
          rs = (fun j => R (3 * e + keys_total d + j)%N) & es = (fun j => vmul (vmul (S (b0 j)) (S (b1 j))) (R (sc j)))] &
  [/\ material emb n t l d pp mk ks rs es,
      uniq ([seq b0 j | j <- iota 0 e] ++ [seq b1 j | j <- iota 0 e]), uniq [seq sc j | j <- iota 0 e],
      forall j, (j < e)%N -> [/\ (b0 j < 2 * e)%N, (b1 j < 2 * e)%N & (sc j < 3 * e)%N] &
      forall i, (i < n)%N ->
        pp_zeros (pp i) = held emb (fun j => Z (2 * e + j)%N) (size (rows M) * bZ - 2 * e) i /\
        pp_randoms (pp i) = held emb (fun j => mixed n M bR pr (3 * e + keys_total d + j)%N)
          (size (rows M) * bR - (3 * e + keys_total d)) i]].

Definition preprocessed (F : fieldType) (emb : nat -> F) n t l (M Mb : mat F) (d : count) (r : nat -> coins F) bR bZ bB
    (pp : nat -> preproc_data F) : Prop :=
  exists mk ks rs es, preprocessed_as emb n t l M Mb d r bR bZ bB pp mk ks rs es.

Lemma preproc_rounds (F : fieldType) (emb : nat -> F) (D : eqType) ser de fits n t l P Pn
    (M Mb : mat F) (id : seq N) (d : count) (r : nat -> coins F) bR bZ bB :
  @codec_ok F D ser de fits -> setting emb n t l P Pn -> (N.of_nat n <= 2 ^ 32)%num ->
  (2 * (t + l).-1 <= n.-1)%N ->
  (0 < size (rows M))%N -> (0 < size (rows Mb))%N -> ncols M = n -> ncols Mb = n ->
  binary Mb -> 1 + 1 = 0 :> F ->
  let e := n_errors d in
  let B := size (rows M) in let BB := size (rows Mb) in
  (keys_total d + n_randoms d + 3 * e <= B * bR < keys_total d + n_randoms d + 3 * e + B)%N ->
  (n_zeros d + 2 * e <= B * bZ < n_zeros d + 2 * e + B)%N ->
  (n_masks d + 2 * e <= BB * bB < n_masks d + 2 * e + BB)%N ->
  (forall m, (m <= maxn (maxn bR bZ) (maxn bB e))%N -> fits m) ->
  exists rds pp chans, [/\ ProtoIdModel.preproc_ids id (N.of_nat n) = Some chans, ids rds = chans, uniq chans, size chans = (3 + 2 * n)%N &
    realizes n rds (fun i k => preproc ser de (Ctx i n t l P Pn) M Mb id d (r i) k) pp] /\
    preprocessed emb n t l M Mb d r bR bZ bB pp.
Proof.
  move=> serK HS Hn32 Hdeg B0 BB0 HM HMb Hbin C2 e B BB LR LZ LB Hf.
  have Hn := setting_n HS. have /andP [Ht Htn] := tl_le Hn HS.
  have [b1 [Eb1 Hb1]] := num_batchesE (keys_total d + n_randoms d + 3 * e) B0.
  have E1 : b1 = bR by rewrite -/B in Hb1; nia. subst b1.
  have [b2 [Eb2 Hb2]] := num_batchesE (n_zeros d + 2 * e) B0.
  have E2 : b2 = bZ by rewrite -/B in Hb2; nia. subst b2.
  have [b3 [Eb3 Hb3]] := num_batchesE (n_masks d + 2 * e) BB0.
  have E3 : b3 = bB by rewrite -/BB in Hb3; nia. subst b3.
  have [chans Hids] := P_ProtoId.C21_preproc_names_subprotocols id _ Hn32.
  have [ND Hlen] := P_ProtoId.C20_preproc_ids_distinct _ _ _ Hids.
  have Hsz : size chans = (3 + 2 * n)%N by rewrite -[size chans]/(length chans) Hlen Nat2N.id.
  have Hu : uniq chans.
  { elim: chans ND {Hids Hlen Hsz} => //= a s IH H. inversion H as [|? ? H1 H2]; subst. rewrite (IH H2) andbT.
    apply/negP => Ha. apply: H1. elim: s Ha {IH H H2} => //= b s IH. rewrite inE => /orP [/eqP ->|H]; [by left|right; exact: IH]. }
  have [rds [pr [pz [pb [es [Hi Hpr Hpz Hpb [Ses R]]]]]]] := preproc_realizes serK HS Hdeg r Eb1 Eb2 Eb3 HM HMb Hf Hids Hsz
    (proj1 (andP Hb1)) (proj1 (andP Hb2)) (proj1 (andP Hb3)).
  have Ebs : sumn (err_sizes e n) = e by apply: sumn_err_sizes.
  have IJ j j' := @idx_inj (err_sizes e n) j j'. rewrite Ebs in IJ.
  exists rds, (fun i => PreProc (held emb (fun j => mixed n Mb bB pb (2 * e + j)) (n_masks d) i) (n_keys d)
       (held emb (fun j => mixed n M bR pr (3 * e + j)) (keys_total d) i)
       (held emb (fun j => mixed n M bR pr (3 * e + keys_total d + j)) (B * bR - (3 * e + keys_total d)) i)
       (held emb (fun j => mixed n M bZ pz (2 * e + j)) (B * bZ - 2 * e) i) (es i)), chans.
  split; first by split.
  eexists _, _, _, _, pr, pz, pb, (b0_idx (err_sizes e n)), (b1_idx (err_sizes e n)), (sc_idx (err_sizes e n)).
  have Ek : ((t + l).-1.+1 = t + l)%N by rewrite prednK.
  have szR j : (size (mixed n M bR pr j) <= (t + l).-1.+1)%N.
  { rewrite Ek. apply: mixed_size => s i Hs. exact: (Hpr s i Hs).1. }
  split=> //. split.
  - split.
    + split; last by move=> j _; apply: mixed_bits Hbin Hpb.
      apply: held_sharings => j _. rewrite Ek. apply: mixed_size => s i Hs. by have [] := Hpb s i Hs.
    + split=> //. exact: held_sharings.
    + exists (B * bR - (3 * e + keys_total d))%N. split; last exact: held_sharings. rewrite /B in LR *. lia.
    + exists (B * bZ - 2 * e)%N. split; first by rewrite /B in LZ *; lia.
      apply: sharings_ext (held_sharings emb n (default_pos emb n l) (d := n.-1)
        (p := fun j => mixed n M bZ pz (2 * e + j)) _) => // [j _|j _]; first exact: mixed_zero Hpz.
      rewrite prednK //. apply: mixed_size => s i Hs. by have [] := Hpz s i Hs.
    + exact: Ses.
  - rewrite cat_uniq. apply/and3P. split.
    + rewrite map_inj_in_uniq ?iota_uniq // => j j'. rewrite !mem_iota !add0n /= => Hj Hj'. by have [] := IJ j j' Hj Hj'.
    + apply/hasPn => x /mapP [j Hj ->]. apply/negP => /mapP [j' Hj' E]. move: Hj Hj'.
      rewrite !mem_iota !add0n /= => Hj Hj'. have [_ _ _ NE] := IJ j' j Hj' Hj. exact: (NE (esym E)).
    + rewrite map_inj_in_uniq ?iota_uniq // => j j'. rewrite !mem_iota !add0n /= => Hj Hj'. by have [] := IJ j j' Hj Hj'.
  - rewrite map_inj_in_uniq ?iota_uniq // => j j'. rewrite !mem_iota !add0n /= => Hj Hj'. by have [] := IJ j j' Hj Hj'.
  - move=> j Hj. have := @idx_bound (err_sizes e n) j. rewrite Ebs. exact.
  - by [].
Qed.

(** For every description, all schedules of [preproc] are finite and end with
    the material described.  The masks, keys, randoms and zeros are sharings
    fixed by the parties' coins; the errors are slotwise products of two bits
    and a random element, and no bit or random sharing is used twice ([b0],
    [b1], [sc] number the sharings used; the masks start at [2 * errors], keys
    and then randoms at [3 * errors]). *)
Theorem C36_preproc : forall (F : fieldType) (emb : nat -> F) (D : eqType) ser de fits n t l P Pn
    (M Mb : mat F) (id : seq N) (d : count) (r : nat -> coins F) bR bZ bB,
  @codec_ok F D ser de fits -> setting emb n t l P Pn -> (N.of_nat n <= 2 ^ 32)%num ->
  (2 * (t + l).-1 <= n.-1)%N ->
  (0 < size (rows M))%N -> (0 < size (rows Mb))%N -> ncols M = n -> ncols Mb = n ->
  binary Mb -> 1 + 1 = 0 :> F ->
  let e := n_errors d in
  let B := size (rows M) in let BB := size (rows Mb) in
  (keys_total d + n_randoms d + 3 * e <= B * bR < keys_total d + n_randoms d + 3 * e + B)%N ->
  (n_zeros d + 2 * e <= B * bZ < n_zeros d + 2 * e + B)%N ->
  (n_masks d + 2 * e <= BB * bB < n_masks d + 2 * e + BB)%N ->
  (forall m, (m <= maxn (maxn bR bZ) (maxn bB e))%N -> fits m) ->
  every_run_ends n
    (start (fun i => preproc ser de (Ctx i n t l P Pn) M Mb id d (r i) (fun x => Ret (pp_val x))))
    (fun c => exists pr pz pb pp (b0 b1 sc : nat -> nat),
      let sec p := [seq (p : {poly F}).[x] | x <- default_pos emb n l] in
      let R j := sec (mixed n M bR pr j) in
      let Z j := mixed n M bZ pz j in
      let S j := sec (mixed n Mb bB pb j) in
      [/\ rand_polys emb n (t + l) (fun s => k_rand (r s)) pr,
          secret_polys emb n n (default_pos emb n l) (fun _ _ _ => 0) (fun s => k_zero (r s)) pz,
          secret_polys emb n (t + l) (default_pos emb n l) (fun s j q => if k_bit (r s) j q then 1 else 0)
            (fun s => k_bitrand (r s)) pb,
          all_done n (fun i => pp_val (pp i)) c &
      [/\ material emb n t l d pp (fun j => S (2 * e + j)%N) (fun j => R (3 * e + j)%N)
            (fun j => R (3 * e + keys_total d + j)%N) (fun j => vmul (vmul (S (b0 j)) (S (b1 j))) (R (sc j))),
          uniq ([seq b0 j | j <- iota 0 e] ++ [seq b1 j | j <- iota 0 e]), uniq [seq sc j | j <- iota 0 e],
          forall j, (j < e)%N -> [/\ (b0 j < 2 * e)%N, (b1 j < 2 * e)%N & (sc j < 3 * e)%N] &
          forall i, (i < n)%N ->
            pp_zeros (pp i) = held emb (fun j => Z (2 * e + j)%N) (B * bZ - 2 * e) i /\
            pp_randoms (pp i) = held emb (fun j => mixed n M bR pr (3 * e + keys_total d + j)%N)
              (B * bR - (3 * e + keys_total d)) i]]).
Proof.
  move=> F emb D ser de fits n t l P Pn M Mb id d r bR bZ bB serK HS Hn32 Hdeg B0 BB0 HM HMb Hbin C2 e B BB LR LZ LB Hf.
  have [rds [pp [chans [[_ Ei U _ R] [mk [ks [rs [es [pr [pz [pb [b0 [b1 [sc [H1 H2 H3 [-> -> -> ->] [H4 H5 H6 H7 H8]]]]]]]]]]]]]]]] :=
    preproc_rounds id r serK HS Hn32 Hdeg B0 BB0 HM HMb Hbin C2 LR LZ LB Hf.
  rewrite -Ei in U. apply: ends_mono (realizes_runs (setting_n HS) (ser [::]) (@pp_val F) U R) => c Hc.
  by exists pr, pz, pb, pp, b0, b1, sc.
Qed.
Print Assumptions C36_preproc.

(** Three parties over GF(16), matrices of the two kinds used by the code, and
    the description of a circuit. *)
Example C36_example : exists P Pn (M Mb : mat (gf_fieldType w4)) d,
  [/\ setting g4 3 1 1 P Pn, (N.of_nat 3 <= 2 ^ 32)%num, (2 * (1 + 1).-1 <= 3.-1)%N,
      super_inv_matrix g4 3 2 = Some M &
  [/\ size (rows M) = 2%N, ncols M = 3%N, binary Mb, (0 < size (rows Mb))%N /\ ncols Mb = 3%N &
      describe (CircuitModel.PCircuit [:: CircuitModel.PAnd [:: 0%num] [:: 1%num] [:: 2%num]]
        [:: [:: 0%num]; [:: 1%num]] [:: [:: 2%num]] 3%num 1) 3 1 1 (Lpn 2 2) = Some d
      /\ (n_masks d, keys_total d, n_errors d) = (3, 12, 8)%N]].
Proof.
  have [P [Pn HS]] := setting4. have [Mb [H1 H2 H3 _]] := C34_bits_example.
  exists P, Pn. eexists. exists Mb. eexists. split; [exact: HS|by []|by []|reflexivity|].
  by split.
Qed.

(** ** C38 *)

(** For every seed and every generator (any state type and functions), the
    parties calling [dummy] with a common seed obtain the described material. *)
Theorem C38_dummy : forall (F : fieldType) (emb : nat -> F) n t l (G : Type) (seed_from : N -> G) gf_rand gen_bool
    (seed : N) (d : count),
  good_pos emb n (default_pos emb n l) -> (0 < t + l <= n)%N ->
  exists (pp : nat -> preproc_data F) mk ks rs es,
    (forall i, (i < n)%N -> dummy emb seed_from gf_rand gen_bool i n t l seed d = Some (pp i)) /\
    material emb n t l d pp mk ks rs es.
Proof.
  move=> F emb n t l G seed_from gf_rand gen_bool seed d Hg /andP [Ht Htn].
  set ps := N.to_nat POOL_SIZE.
  have Hps : (0 < ps)%N by rewrite lt0n; apply/eqP => /(f_equal N.of_nat); rewrite N2Nat.id.
  case E1 : (fill gf_rand (t + l)%N ps (seed_from seed)) => [inp1 g1].
  case E2 : (fill gf_rand (n - l)%N ps g1) => [inp2 g2].
  case E3 : (fill gen_bool l ps g2) => [inp3 g3].
  case E4 : (fill gf_rand t ps g3) => [inp4 g4].
  have S1 : size inp1 = (t + l)%N by have := (fill_shape gf_rand (t + l) ps (seed_from seed)).1; rewrite E1.
  have S2 : size inp2 = (n - l)%N by have := (fill_shape gf_rand (n - l) ps g1).1; rewrite E2.
  have S3 : size inp3 = l by have := (fill_shape gen_bool l ps g2).1; rewrite E3.
  have S4 : size inp4 = t by have := (fill_shape gf_rand t ps g3).1; rewrite E4.
  have Hl : (l <= n)%N by lia.
  have [|//|pr [Sr _ Hr]] := @pool_held F emb n l Hg (t + l) ps inp1; first by lia.
  have [||pz [Sz Ez Hz]] := @pool_held F emb n l Hg n ps (nseq l (nseq ps 0) ++ inp2); first by lia.
  { rewrite size_cat size_nseq S2. lia. }
  have [||pb [Sb Eb Hb]] := @pool_held F emb n l Hg (t + l) ps ([seq [seq (if b then 1 else 0) | b <- row] | row <- inp3] ++ inp4).
  { lia. } { rewrite size_cat size_map S3 S4. lia. }
  have Ek : ((t + l).-1.+1 = t + l)%N by rewrite prednK.
  exists (fun i => PreProc (held emb (fun j => pb ((0 + j) %% ps)%N) (n_masks d) i) (n_keys d)
    (held emb (fun j => pr ((0 + j) %% ps)%N) (keys_total d) i)
    (held emb (fun j => pr ((keys_total d + j) %% ps)%N) (n_randoms d) i)
    (held emb (fun j => pz ((0 + j) %% ps)%N) (n_zeros d) i)
    (held emb (fun j => pr ((keys_total d + n_randoms d + j) %% ps)%N) (n_errors d) i)).
  do 4 eexists. split.
  - move=> i Hi. rewrite /dummy -/ps. clearbody ps. rewrite Hi size_cat size_share_pos size_default Hl.
    have -> : (t + l <= l + n)%N by lia. rewrite [_ && _]/=.
    rewrite E1 E2 E3 E4. rewrite Hr // Hz // Hb // [obind _ _]/=. by rewrite !cycled_held.
  - split.
    + split; first by apply: held_sharings => j _; rewrite Ek; exact: Sb.
      move=> j _ y /mapP [x Hx ->]. rewrite -(nth_index 0 Hx).
      have Hq : (index x (default_pos emb n l) < l)%N by move: Hx; rewrite -index_mem size_default.
      have := Eb ((0 + j) %% ps)%N (index x (default_pos emb n l)). rewrite nth_cat size_default Hq => ->; last by lia.
      rewrite nth_cat size_map S3 Hq (nth_map [::]) ?S3 //.
      set row := nth [::] inp3 _. set k := ((0 + j) %% ps)%N.
      case: (ltnP k (size row)) => Hk; last by rewrite nth_default ?size_map //; left.
      rewrite (nth_map false) //. by case: (nth _ _ _); auto.
    + split=> //. apply: held_sharings => j _; rewrite Ek; exact: Sr.
    + exists (n_randoms d). split=> //. apply: held_sharings => j _; rewrite Ek; exact: Sr.
    + exists (n_zeros d). split=> //.
      apply: sharings_ext (held_sharings emb n (default_pos emb n l) (d := n.-1)
        (p := fun j => pz ((0 + j) %% ps)%N) _) => // [j _|j _]; last by rewrite prednK //; lia.
      rewrite -[RHS](mkseq_nth 0) size_nseq -[default_pos _ _ _ in LHS](mkseq_nth 0) size_default /mkseq -map_comp.
      apply/eq_in_map => q. rewrite mem_iota /= => Hq. rewrite nth_nseq Hq.
      have := Ez ((0 + j) %% ps)%N q. rewrite nth_cat size_default Hq => ->; last by lia.
      by rewrite nth_cat size_nseq Hq nth_nseq Hq nth_nseq if_same.
    + apply: held_sharings => j _; rewrite Ek; exact: Sr.
Qed.
Print Assumptions C38_dummy.

Example C38_example : good_pos g4 3 (default_pos g4 3 1) /\ (0 < 1 + 1 <= 3)%N.
Proof. by split. Qed.

(** ** C39 *)

(** Encoding and decoding give back the same elements, but the key array gets
    another shape: it comes back as (masks, 2, keys / (2 * masks)). *)
Theorem C39_roundtrip_partial : forall (w : width) (p : preproc_data (gf_fieldType w)) K B,
  pp_kshape p = (2%N, K, B) -> size (pp_keys p) = (2 * K * B)%N -> size (pp_masks p) = B -> (0 < B)%N ->
  len_ok (size (pp_masks p)) -> len_ok (size (pp_keys p)) -> len_ok (size (pp_randoms p)) ->
  len_ok (size (pp_zeros p)) -> len_ok (size (pp_errors p)) ->
  exists q, obind (@from_ser _) (read_pp w (write_pp (to_ser p))) = Some q /\
    [/\ pp_masks q = pp_masks p, pp_keys q = pp_keys p, pp_randoms q = pp_randoms p, pp_zeros q = pp_zeros p &
        pp_errors q = pp_errors p] /\ pp_kshape q = (B, 2%N, K).
Proof.
  move=> w p K B Hk Sk Sm B0 L1 L2 L3 L4 L5. rewrite read_write_pp //= /from_ser /to_ser /= Sm Sk.
  have E : ((2 * K * B) %/ (2 * B) = K)%N by rewrite (mulnC 2%N K) -mulnA mulnK // muln_gt0.
  case: B Sm Sk B0 E Hk => // B Sm Sk _ E Hk. rewrite E.
  have -> : (2 * K * B.+1 == B.+1 * 2 * K)%N by apply/eqP; lia.
  by eexists; split; [reflexivity|].
Qed.
Print Assumptions C39_roundtrip_partial.

(** So the full claim fails, for shapes that occur... *)
Theorem C39_roundtrip_refuted : ~ forall (w : width) (p : preproc_data (gf_fieldType w)) K B,
  pp_kshape p = (2%N, K, B) -> size (pp_keys p) = (2 * K * B)%N -> size (pp_masks p) = B ->
  len_ok (size (pp_masks p)) -> len_ok (size (pp_keys p)) -> len_ok (size (pp_randoms p)) ->
  len_ok (size (pp_zeros p)) -> len_ok (size (pp_errors p)) ->
  obind (@from_ser _) (read_pp w (write_pp (to_ser p))) = Some p.
Proof.
  move=> H. pose p := PreProc (nseq 3 0) (2, 1, 3)%N (nseq 6 0) [::] [::] ([::] : seq (gf w4)).
  have E := H w4 p 1%N 3%N. have [|||||||||q [Eq [_ Sq]]] := @C39_roundtrip_partial w4 p 1%N 3%N => //.
  move: Sq. rewrite E // in Eq. by case: Eq => <-.
Qed.
Print Assumptions C39_roundtrip_refuted.

(** ... exactly when the number of key elements or of blocks is not two; and
    with no masks the conversion panics. *)
Theorem C39_shape_kept_iff : forall (w : width) (p : preproc_data (gf_fieldType w)) K B,
  pp_kshape p = (2%N, K, B) -> size (pp_keys p) = (2 * K * B)%N -> size (pp_masks p) = B ->
  (from_ser (to_ser p) = Some p <-> B = 2%N /\ K = 2%N).
Proof.
  move=> w p K B Hk Sk Sm. rewrite /from_ser /to_ser /= Sm Sk. case: B Hk Sk Sm => [|B] Hk Sk Sm; first by split=> // -[].
  have E : ((2 * K * B.+1) %/ (2 * B.+1) = K)%N by rewrite (mulnC 2%N K) -mulnA mulnK // muln_gt0.
  rewrite E. have -> : (2 * K * B.+1 == B.+1 * 2 * K)%N by apply/eqP; lia.
  split=> [[E1]|[[E1] E2]].
  - move: Hk. rewrite -E1 /= => -[-> EK _]. by rewrite -EK.
  - congr Some. move: Hk. subst B K. by case: p {Sk Sm E} => a k b c d e /= ->.
Qed.
Print Assumptions C39_shape_kept_iff.

Theorem C39_empty_panics_refuted : forall (F : fieldType) (p : preproc_data F), pp_masks p = [::] -> from_ser (to_ser p) = None.
Proof. by move=> F p H; rewrite /from_ser /to_ser /= H. Qed.
Print Assumptions C39_empty_panics_refuted.

Example C39_example : exists p : preproc_data (gf_fieldType w4),
  [/\ pp_kshape p = (2, 2, 1)%N, size (pp_keys p) = (2 * 2 * 1)%N, size (pp_masks p) = 1%N & len_ok (size (pp_keys p))].
Proof. by exists (PreProc [:: 1] (2, 2, 1)%N [:: g4 1; g4 2; g4 3; g4 4] [:: 1] [::] [::]). Qed.

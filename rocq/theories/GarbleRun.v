(** Proofs about the whole of [garble] (garble.rs:33-97, 132-353). *)

From Coq Require Import NArith List.
From Verif Require Import CircuitModel LpnModel LpnSpec.
From mathcomp Require Import all_ssreflect all_algebra zify.
From Verif Require Import MathModel MathProofs MatProofs SharingModel SharingSpec SharingProofs.
From Verif Require Import MachineModel MachineProofs MachineBuild Realize CoreModel CoreSpec CoreProofs.
From Verif Require Import RandTransProofs PreprocModel PreprocSpec PreprocProofs GarbleModel GarbleSpec GarbleGates GarbleTf GarbleWires.
From Verif Require ProtoIdModel ProtoIdProofs P_ProtoId P_Lpn.
Set Implicit Arguments.
Unset Strict Implicit.
Unset Printing Implicit Defensive.
Import GRing.Theory.
Local Open Scope ring_scope.

Notation g0 := (PInv [::] [::]).

(** ** Counting *)
Definition offs (f : pgate -> nat) (gs : seq pgate) (i : nat) : nat := sumn [seq f x | x <- take i gs].

Lemma offs_S f x gs i : offs f (x :: gs) i.+1 = (f x + offs f gs i)%N. Proof. by []. Qed.

Lemma offs_all f gs i : (i < size gs)%N -> (offs f gs i + f (nth g0 gs i) <= offs f gs (size gs))%N.
Proof.
  elim: gs i => [|x gs IH] [|i] //= Hi; rewrite /offs /= -/(offs f gs _) ?take0 /=; first lia.
  have := IH i Hi. rewrite /offs. lia.
Qed.

Notation ninps := (fun x => size (gate_inps x)).

Lemma offs_inps gs : offs ninps gs (size gs) = size (flatten [seq gate_inps x | x <- gs]).
Proof. by rewrite /offs take_size size_flatten /shape -map_comp. Qed.

Lemma nth_inps gs i s : (i < size gs)%N -> (s < size (gate_inps (nth g0 gs i)))%N ->
  nth [::] (flatten [seq gate_inps x | x <- gs]) (offs ninps gs i + s) = nth [::] (gate_inps (nth g0 gs i)) s.
Proof.
  elim: gs i => [|x gs IH] [|i] //= Hi Hs; first by rewrite nth_cat Hs.
  by rewrite offs_S nth_cat -addnA ltnNge leq_addr /= addKn IH.
Qed.

Lemma counts gs p : let: (a, x, v) := get_gate_counts gs in
  [/\ offs ninps gs (size gs) = (a * 2 + x * 2 + v)%N,
      offs (gate_mults p) gs (size gs) = (a * (3 * (lpn_key_len p + 1) + 1) + x * (lpn_key_len p + 1) + v * (lpn_key_len p + 1))%N &
      offs (fun x => gate_rows x * lpn_mssg_len p)%N gs (size gs) = (a * 4 * lpn_mssg_len p + x * 4 * lpn_mssg_len p + v * 2 * lpn_mssg_len p)%N].
Proof.
  elim: gs => [|y gs] //=. case: (get_gate_counts gs) => [[a x] v] [E1 E2 E3].
  rewrite !offs_S E1 E2 E3. case: y => [? ? ?|? ? ?|? ?] /=; split; nia.
Qed.

(** ** Handing out *)
Section HandOut.
Variable F : fieldType.
Variable p : lpn.

Lemma drainE k (q : seq F) : (k <= size q)%N -> drain k q = Some (take k q, drop k q).
Proof. by rewrite /drain => ->. Qed.

Definition slice_of (shape : nat * nat * nat) (keys : seq F) (b : nat) : seq (seq F) :=
  [seq [seq nth 0 keys ((i * shape.1.2 + c) * shape.2 + b)%N | c <- iota 0 shape.1.2] | i <- iota 0 shape.1.1].

Notation erows := (fun x => gate_rows x * lpn_mssg_len p)%N.

Definition given (gs : seq pgate) (b : nat) (rws : seq (seq F)) (masks : seq F) shape (keys : seq F) (q : queues F) (i : nat) : gate_inp F :=
  let x := nth g0 gs i in
  GateInp (take (size (gate_inps x)) (drop (offs ninps gs i) rws)) (nth 0 masks (b + i)) (slice_of shape keys (b + i))
    (take (gate_mults p x) (drop (offs (gate_mults p) gs i) (q_randoms q)))
    (take (gate_mults p x) (drop (offs (gate_mults p) gs i) (q_zeros q)))
    (take (erows x) (drop (offs erows gs i) (q_errors q))).

Lemma hand_outE gs b rws masks shape keys q :
  (offs ninps gs (size gs) <= size rws)%N -> (b + size gs <= size masks)%N -> (b + size gs <= shape.2)%N ->
  (offs (gate_mults p) gs (size gs) <= size (q_randoms q))%N -> (offs (gate_mults p) gs (size gs) <= size (q_zeros q))%N ->
  (offs erows gs (size gs) <= size (q_errors q))%N ->
  hand_out p gs b rws masks shape keys q =
    Some ([seq given gs b rws masks shape keys q i | i <- iota 0 (size gs)],
          Queues (drop (offs (gate_mults p) gs (size gs)) (q_randoms q)) (drop (offs (gate_mults p) gs (size gs)) (q_zeros q))
                 (drop (offs erows gs (size gs)) (q_errors q))).
Proof.
  elim: gs b rws q => [|x gs IH] b rws [qr qz qe] /=; first by rewrite /offs /= !drop0.
  case: shape IH => -[d0 d1] d2 IH. rewrite !offs_S /= => H1 H2 H3 H4 H5 H6.
  rewrite !ifT; [|lia|lia]. rewrite !drainE; [|lia..]. rewrite IH /= ?size_drop; [|lia..].
  rewrite (iotaDl 1 0 (size gs)) -!map_comp. congr (Some (_, _)); last first.
  { by rewrite !drop_drop ![(offs _ gs _ + _)%N]addnC. }
  rewrite /given /= /offs !take0 /= !drop0 addn0. congr (_ :: _).
  apply: eq_map => i /=. rewrite !drop_drop !addnS. rewrite -!addSn. 
  by rewrite ![(sumn _ + _)%N]addnC.
Qed.
End HandOut.

Section TableLemmas.
Variable F : fieldType.
Variable emb : nat -> F.

Lemma table_shared_take n d pos k R M (tb : nat -> seq (seq F)) val val' : (k <= size pos)%N ->
  (forall r m q, (r < R)%N -> (m < M)%N -> (q < k)%N -> val r m q = val' r m q) ->
  table_shared emb n d pos R M tb val -> table_shared emb n d (take k pos) R M tb val'.
Proof.
  move=> Hk E [H1 H2]. split=> // r m Hr Hm. have [p [Hp E1 E2]] := H2 r m Hr Hm. exists p. split=> //.
  have := congr1 (take k) E2. rewrite -!map_take size_takel // take_iota (minn_idPl Hk) => <-.
  apply/eq_in_map => q. rewrite mem_iota => /andP [_ Hq]. by rewrite E.
Qed.

Lemma encrypted_ext K (A A' key key' E E' msg msg' : nat -> F) err err' :
  (forall k, (k < K)%N -> A k = A' k) -> (forall k, (k < K)%N -> key k = key' k) -> (forall k, (k < K.+1)%N -> E k = E' k) ->
  (forall k, (k < K.+1)%N -> msg k = msg' k) -> err = err' -> encrypted K A key E msg err = encrypted K A' key' E' msg' err'.
Proof.
  move=> H1 H2 H3 H4 ->. rewrite /encrypted. congr (_ + _ + _); apply: eq_bigr => k _; first by rewrite H1 ?H2.
  by rewrite H3 ?H4.
Qed.

Lemma plaintext_ext' K (lab lab' : nat -> nat -> F) mask mask' v v' c :
  (forall b c, (b < 2)%N -> (c < K)%N -> lab b c = lab' b c) -> mask = mask' -> v = v' ->
  plaintext K lab mask v c = plaintext K lab' mask' v' c.
Proof. move=> H -> ->. rewrite /plaintext. case: ltnP => Hc //. by rewrite !H. Qed.
End TableLemmas.

Section Run.
Variable F : fieldType.
Variable emb : nat -> F.
Variable D : eqType.
Variable ser : seq F -> D.
Variable de : D -> option (seq F).
Variable fits : nat -> Prop.
Hypothesis serK : codec_ok ser de fits.
Variables (n t l : nat) (P Pn : pss F).
Hypothesis HS : setting emb n t l P Pn.
Hypothesis Hl0 : (0 < l)%N.
Hypothesis HKl : (t + l + l <= n)%N.
Hypothesis Hdeg : (2 * (t + l).-1 <= n.-1)%N.
Hypothesis Hn16 : (n <= 2 ^ 16)%N.
Hypothesis F2 : 1 + 1 = 0 :> F.
Notation mk me := (Ctx me n t l P Pn).
Notation pos := (default_pos emb n l).
Notation sharings := (sharings emb n).
Notation held := (held emb).
Notation pid := [eqType of seq N].
Notation realizes := (@realizes n pid D (val F)).
Variable circ : pcircuit.
Hypothesis Hwf : wf_packed circ l.
Hypothesis Hinj : distinct_positions emb n l circ.
Notation outs := (out_blocks circ).
Notation inps := (inp_blocks circ).
Notation gates := (p_gates circ).
Variable H : eqType.
Variable sha : seq N -> H.
Variable h0 : H.
Variable draws : H -> nat -> F.
Variable hash : seq N -> N.
Variables (K M : nat).
Notation prm := (Lpn K M).
Notation reps := (2 * K + 1)%N.
Variables (B1 B2 : nat).
Hypothesis HB1 : num_batches (size outs) l = Some B1.
Hypothesis HB2 : num_batches (size inps) l = Some B2.
Notation tfs_out := (tfs emb n t l (tf_out emb n l circ) B1).
Notation tfs_inp := (tfs emb n t l (tf_inp emb n l circ) B2).
Notation nonce gid := (sha (nonce_bytes gates l gid)).

(** ** The context *)
Lemma gctx_newE : exists (g : nat -> gctx F) enc, rs_gen_mat emb (K + 1) M = Some enc /\ forall me, (me < n)%N ->
  [/\ gctx_new emb sha h0 draws circ (mk me) prm = Some (g me),
      [/\ g_mpc (g me) = mk me, g_lpn (g me) = prm, g_circ (g me) = circ & [/\ g_lookup (g me) = block_map circ, g_out (g me) = tfs_out me & g_inp (g me) = tfs_inp me]],
      g_enc (g me) = enc &
      forall gid, (gid < size gates)%N -> gate_mat (g me) gid = lpn_matrix emb draws (mk me) prm (nonce gid)].
Proof.
  have [ns [lk [El Sl _ Hn _]]] := P_Lpn.C47_lookup_total_and_dense sha h0 gates l.
  exists (fun me => GCtx (tfs_out me) (tfs_inp me) (block_map circ) (Mat K.+1 [seq [seq x ^+ j.+1 | j <- iota 0 K.+1] | x <- nodes emb M])
      [seq lpn_matrix emb draws (mk me) prm h | h <- ns] lk circ (mk me) prm), (Mat K.+1 [seq [seq x ^+ j.+1 | j <- iota 0 K.+1] | x <- nodes emb M]).
  split; first by rewrite addn1 rs_gen_matE.
  move=> me Hm. split=> //.
  - rewrite /gctx_new /= -/(out_blocks circ) -/(inp_blocks circ) tf_outE // tf_inpE //=.
    rewrite (transforms_newE HS Hl0 HKl (tf_out_ok Hl0 HKl Hwf Hinj) (HB1' emb n HB1) Hm) (transforms_newE HS Hl0 HKl (tf_inp_ok Hl0 HKl Hwf Hinj) (HB2' emb n HB2) Hm) /=.
    by rewrite addn1 rs_gen_matE /= El /= Hm.
  - move=> gid Hgid. have [Hs E] := Hn gid Hgid. by rewrite /gate_mat /= (nth_map h0) // E.
Qed.

Variable g : nat -> gctx F.
Variable enc : mat F.
Hypothesis Eenc : rs_gen_mat emb (K + 1) M = Some enc.
Hypothesis Hg : forall me, (me < n)%N ->
  [/\ g_mpc (g me) = mk me, g_lpn (g me) = prm, g_circ (g me) = circ & [/\ g_lookup (g me) = block_map circ, g_out (g me) = tfs_out me & g_inp (g me) = tfs_inp me]].
Hypothesis Hge : forall me, (me < n)%N -> g_enc (g me) = enc.
Hypothesis Hgm : forall me gid, (me < n)%N -> (gid < size gates)%N -> gate_mat (g me) gid = lpn_matrix emb draws (mk me) prm (nonce gid).
Hypothesis Hfits : forall m, (m <= 4 * K + 3)%N -> fits m.

(** ** One gate *)
Variables (ms ks es : nat -> seq F) (pp : nat -> preproc_data F).
Hypothesis Sm : sharings (t + l).-1 pos (size outs) (fun i => pp_masks (pp i)) ms.
Hypothesis Sk : sharings (t + l).-1 pos (2 * K * size outs) (fun i => pp_keys (pp i)) ks.
Hypothesis Eshape : forall i, (i < n)%N -> pp_kshape (pp i) = (2%N, K, size outs).
Notation erows := (fun x => gate_rows x * M)%N.
Variable q2 : nat -> queues F.
Variables (nr nz : nat) (rs : nat -> seq F).
Hypothesis Sr : sharings (t + l).-1 pos nr (fun i => q_randoms (q2 i)) rs.
Hypothesis Sz : sharings n.-1 pos nz (fun i => q_zeros (q2 i)) (fun _ => nseq l 0).
Hypothesis Hnr : (offs (gate_mults prm) gates (size gates) <= nr)%N.
Hypothesis Hnz : (offs (gate_mults prm) gates (size gates) <= nz)%N.
Hypothesis Se : sharings (t + l).-1 pos (offs erows gates (size gates)) (fun i => q_errors (q2 i)) es.
Variable inp_shares : nat -> seq (seq F).
Hypothesis Zi : forall me, (me < n)%N -> size (inp_shares me) = size inps.
Hypothesis Si : forall i, (i < size inps)%N -> let ws := nth [::] inps i in
  sharings (t + l).-1 (take (size ws) pos) reps (fun me => nth [::] (inp_shares me) i) (fun j => [seq wire_sec circ K ms ks w j | w <- ws]).

Notation ninp := (size (p_inputs circ)).
Definition gate_x (gid me : nat) : gate_inp F :=
  given prm gates ninp (inp_shares me) (pp_masks (pp me)) (pp_kshape (pp me)) (pp_keys (pp me)) (q2 me) gid.

(** The table of the specification, with the offset of the errors. *)
Definition the_entry (gid : nat) : nat -> nat -> nat -> F :=
  table_entry K (fun r m k q => draws (nonce gid) (((r * M + m) * K + k) * l + q)%N) (fun m c => nth 0 (nth [::] (rows enc) m) c)
    (wire_mask circ ms) (inp_label circ K ks) (out_label circ K ks)
    (fun r m q => nth 0 (es ((rows_before circ gid + r) * M + m)%N) q) (plaintext K) (@buf_number F) (nth g0 gates gid).

Lemma errs_before gid : offs erows gates gid = (rows_before circ gid * M)%N.
Proof. rewrite /offs /rows_before. elim: (take _ _) => //= x s ->. rewrite mulnDl. by case: x. Qed.

Lemma wire_sec_mask w : wire_sec circ K ms ks w (2 * K) = wire_mask circ ms w.
Proof. by rewrite /wire_sec /col_sec ltnn. Qed.
Lemma wire_sec_label w i c : (i < 2)%N -> (c < K)%N -> wire_sec circ K ms ks w (i * K + c) = inp_label circ K ks w i c.
Proof. move=> Hi Hc. rewrite /wire_sec /col_sec ifT //. nia. Qed.

Section OneGate.
Variable gid : nat.
Hypothesis Hgid : (gid < size gates)%N.
Notation x := (nth g0 gates gid).

Lemma out_block : nth [::] outs (ninp + gid) = gate_out x.
Proof. by rewrite /out_blocks nth_cat ltnNge leq_addr /= addKn (nth_map g0). Qed.
Lemma out_lt : (ninp + gid < size outs)%N. Proof. by rewrite nbE ltn_add2l. Qed.

Lemma out_wire q : (q < size (gate_out x))%N -> let w := nth 0%num (gate_out x) q in
  block_of circ w = (ninp + gid)%N /\ slot_of circ w = q.
Proof.
  move=> Hq w. have Hw : w \in nth [::] outs (ninp + gid) by rewrite out_block mem_nth.
  have E := block_of_uniq Hwf out_lt Hw. split=> //. rewrite /slot_of E out_block index_uniq //.
  have [U _] := out_uniq Hwf (ninp + gid). by rewrite out_block in U.
Qed.

Lemma gate_wires s : (s < size (gate_inps x))%N -> size (nth [::] (gate_inps x) s) = size (gate_out x).
Proof.
  move=> Hs. have /and4P [_ _ _ /(all_nthP g0) /(_ gid Hgid) /(all_nthP [::]) /(_ s Hs) /andP [/eqP -> _]] := Hwf. by [].
Qed.

Lemma out_size : (size (gate_out x) <= l)%N.
Proof. have := outs_size Hwf (ninp + gid). by rewrite out_block. Qed.

(** What the gate is given are evaluations of polynomials with these values. *)
Lemma gate_given : exists (xr : nat -> nat -> {poly F}) (pm : {poly F}) (pk : nat -> nat -> {poly F}) (pe : nat -> {poly F}),
  [/\ gate_ready emb n t l K M (size (gate_inps x)) (gate_mults prm x) (gate_rows x) (gate_x gid) xr pm pk pe,
      forall s q j, (s < size (gate_inps x))%N -> (q < size (gate_out x))%N -> (j < reps)%N ->
        (xr s j).[nth 0 pos q] = wire_sec circ K ms ks (nth 0%num (nth [::] (gate_inps x) s) q) j,
      forall q, (q < size (gate_out x))%N -> pm.[nth 0 pos q] = wire_mask circ ms (nth 0%num (gate_out x) q),
      forall q b c, (q < size (gate_out x))%N -> (b < 2)%N -> (c < K)%N ->
        (pk b c).[nth 0 pos q] = out_label circ K ks (nth 0%num (gate_out x) q) b c &
      forall q r m, (q < size (gate_out x))%N -> (r < gate_rows x)%N -> (m < M)%N ->
        (pe (r * M + m)%N).[nth 0 pos q] = nth 0 (es ((rows_before circ gid + r) * M + m)%N) q].
Proof.
  have [Ht _ _ _] := HS. have Ek : ((t + l).-1.+1 = t + l)%N by rewrite prednK.
  have Hso := out_size. have Hol := out_lt.
  have Hpos q : (q < size (gate_out x))%N -> (q < size pos)%N by move=> Hq; rewrite size_map size_iota (leq_trans Hq).
  have [pm [Hpm Em]] := sharings_polys Sm. have [pk [Hpk Ekk]] := sharings_polys Sk. have [pe [Hpe Ee]] := sharings_polys Se.
  have Hin s : (s < size (gate_inps x))%N -> (offs ninps gates gid + s < size inps)%N.
  { move=> Hs. rewrite /inp_blocks -offs_inps. have := offs_all ninps Hgid. move=> /=. lia. }
  have [xr Hxr] : exists xr : nat -> nat -> {poly F}, forall s, (s < size (gate_inps x))%N ->
     (forall j, (j < reps)%N -> (size (xr s j) <= t + l)%N /\ forall q, (q < size (gate_out x))%N ->
        (xr s j).[nth 0 pos q] = wire_sec circ K ms ks (nth 0%num (nth [::] (gate_inps x) s) q) j) /\
     forall me, (me < n)%N -> nth [::] (inp_shares me) (offs ninps gates gid + s) = held (xr s) reps me.
  { apply: (@fin_choice (nat -> {poly F}) (size (gate_inps x)) (fun s (p : nat -> {poly F}) =>
      (forall j, (j < reps)%N -> (size (p j) <= t + l)%N /\ forall q, (q < size (gate_out x))%N ->
        (p j).[nth 0 pos q] = wire_sec circ K ms ks (nth 0%num (nth [::] (gate_inps x) s) q) j) /\
     forall me, (me < n)%N -> nth [::] (inp_shares me) (offs ninps gates gid + s) = held p reps me) (fun _ => 0)).
    move=> s Hs. have /= S := Si (Hin s Hs). rewrite nth_inps // in S. rewrite gate_wires // in S.
    have [p [Hp Ep]] := sharings_polys S. exists p. split=> // j Hj. have [Hsz Es] := Hp j Hj. rewrite Ek in Hsz. split=> // q Hq.
    have := congr1 (fun z => nth 0 z q) Es. rewrite (nth_map 0%num) ?gate_wires // (nth_map 0) ?size_takel ?nth_take //.
    by rewrite size_map size_iota. }
  exists xr, (pm (ninp + gid)%N), (fun b c => pk ((b * K + c) * size outs + (ninp + gid))%N), (fun j => pe (offs erows gates gid + j)%N).
  have Hkey b c : (b < 2)%N -> (c < K)%N -> ((b * K + c) * size outs + (ninp + gid) < 2 * K * size outs)%N.
  { move=> Hb Hc. have : (b * K + c < 2 * K)%N by nia. move: Hol. move: (size outs) (b * K + c)%N (ninp + gid)%N. nia. }
  have Herr j : (j < gate_rows x * M)%N -> (offs erows gates gid + j < offs erows gates (size gates))%N.
  { move=> Hj. have := offs_all erows Hgid. move=> /=. lia. }
  have Hmul := offs_all (gate_mults prm) Hgid.
  split.
  - split.
    + move=> i Hi. rewrite /gate_x /given.
      exists (take (gate_mults prm x) (drop (offs (gate_mults prm) gates gid) (q_randoms (q2 i)))),
             (take (gate_mults prm x) (drop (offs (gate_mults prm) gates gid) (q_zeros (q2 i)))).
      rewrite Em // nth_held //. congr GateInp.
      * apply: (@eq_from_nth _ [::]) => [|s].
        { rewrite size_takel ?size_map ?size_iota // size_drop Zi // /inp_blocks -offs_inps. have := offs_all ninps Hgid. move=> /=. lia. }
        rewrite size_takel ?size_drop ?Zi //; last first.
        { rewrite /inp_blocks -offs_inps. have := offs_all ninps Hgid. move=> /=. lia. }
        move=> Hs. rewrite nth_take // nth_drop (nth_map 0%N) ?size_iota // nth_iota // add0n. exact: (Hxr s Hs).2.
      * rewrite /slice_of Eshape //=. congr [:: _; _]; apply/eq_in_map => c; rewrite mem_iota add0n => /andP [_ Hc]; rewrite Ekk // nth_held //; exact: Hkey.
      * rewrite Ee //. apply: (@eq_from_nth _ 0) => [|j]; rewrite size_takel ?size_drop ?size_held //;
          try (have := offs_all erows Hgid; move=> /=; lia).
        move=> Hj. rewrite nth_take // nth_drop nth_held ?nth_held //. exact: Herr.
    + exists (fun j => rs (offs (gate_mults prm) gates gid + j)%N). apply: sharings_slice Sr _. lia.
    + apply: (sharings_slice Sz). lia.
    + move=> s Hs j Hj. exact: ((Hxr s Hs).1 j Hj).1.
    + split.
      * have [] := Hpm _ Hol. by rewrite Ek.
      * move=> b Hb c Hc. have [] := Hpk _ (Hkey b c Hb Hc). by rewrite Ek.
      * move=> j Hj. have [] := Hpe _ (Herr j Hj). by rewrite Ek.
  - move=> s q j Hs Hq Hj. exact: ((Hxr s Hs).1 j Hj).2.
  - move=> q Hq. have [Eb Es] := out_wire Hq. rewrite /wire_mask Eb Es. have [_ ->] := Hpm _ Hol. by rewrite (nth_map 0) ?Hpos.
  - move=> q b c Hq Hb Hc. have [Eb Es] := out_wire Hq. rewrite /out_label Eb Es. have [_ ->] := Hpk _ (Hkey b c Hb Hc).
    by rewrite (nth_map 0) ?Hpos.
  - move=> q r m Hq Hr Hm. have Hj : (r * M + m < gate_rows x * M)%N by nia.
    have [_] := Hpe _ (Herr _ Hj). rewrite errs_before => Ep. rewrite mulnDl -addnA Ep (nth_map 0) ?Hpos //.
Qed.

Lemma gate_task_ok (id : pid) (cs : seq pid) (coins : nat -> gcoins F) : ProtoIdModel.gate_ids x id = Some cs ->
  exists rds res, ids rds = cs /\ realizes rds (fun me k => gate_task ser de hash (g me) id gid (gate_x gid me) (coins me) k) res /\ table_shared emb n (t + l + l - 2) (take (size (gate_out x)) pos) (table_rows x) M res (the_entry gid).
Proof.
  move=> Eid. have [xr [pm [pk [pe [Hr Vx Vm Vk Ve]]]]] := gate_given. have Hso := out_size.
  have Hsp : (size (gate_out x) <= size pos)%N by rewrite size_map size_iota.
  have [Ht _ _ _] := HS.
  have Ed : dT t l = (t + l + l - 2)%N by rewrite /dT; lia.
  have Hgg me : (me < n)%N -> [/\ g_mpc (g me) = mk me, g_lpn (g me) = prm, g_enc (g me) = enc & gate_mat (g me) gid = lpn_matrix emb draws (mk me) prm (nonce gid)].
  { move=> Hm. have [E1 E2 _ _] := Hg Hm. by rewrite E1 E2 Hge // Hgm. }
  have F1 : fits 1 by apply: Hfits; lia. have FK : fits (K + 1) by apply: Hfits; lia. have F3 : fits (3 * (K + 1)) by apply: Hfits; lia.
  have Et me : (me < n)%N -> gate_task ser de hash (g me) id gid (gate_x gid me) (coins me) =
    match x with
    | PAnd _ _ _ => garble_and ser de hash (g me) id gid (gate_x gid me) (gk_and (coins me) gid) (gk_gate (coins me) gid)
    | PXor _ _ _ => garble_xor ser de hash (g me) id gid (gate_x gid me) (gk_gate (coins me) gid)
    | PInv _ _ => garble_inv ser de hash (g me) id gid (gate_x gid me) (gk_gate (coins me) gid)
    end.
  { move=> Hm. have [_ _ Ec _] := Hg Hm. rewrite /gate_task Ec. by case: x. }
  have Lx s q i c : (s < size (gate_inps x))%N -> (q < size (gate_out x))%N -> (i < 2)%N -> (c < K)%N ->
     (xr s (i * K + c)%N).[nth 0 pos q] = inp_label circ K ks (nth 0%num (nth [::] (gate_inps x) s) q) i c.
  { move=> Hs Hq Hi Hc. rewrite Vx //; [exact: wire_sec_label|nia]. }
  have Mx s q : (s < size (gate_inps x))%N -> (q < size (gate_out x))%N ->
     (xr s (2 * K)%N).[nth 0 pos q] = wire_mask circ ms (nth 0%num (nth [::] (gate_inps x) s) q).
  { move=> Hs Hq. by rewrite Vx ?wire_sec_mask // addn1. }
  rewrite /the_entry. move: Eid Hr Vx Vm Vk Ve Hso Hsp Et Lx Mx.
  case Ex : x => [a b o|a b o|a o] /=.
  - move=> [Ecs] Hr Vx Vm Vk Ve Hso Hsp Et Lx Mx.
    have [rd [res [R T]]] := @garble_xor_ok _ emb D ser de fits serK n t l P Pn HS Hdeg H draws hash Hn16 K M enc Eenc Hl0 F2 g gid (nonce gid) Hgg FK
       id (gate_x gid) xr pm pk pe (fun me => gk_gate (coins me) gid) Hr.
    exists [:: (id, rd)], res. split; first by rewrite -Ecs. split; first by apply: realizes_eq R => // me k Hm; rewrite Et.
    rewrite -Ed. apply: table_shared_take T => // r m q Hr4 Hm Hq. rewrite /entry_value.
    have Hr2 : (r %/ 2 < 2)%N by lia. have Hr2' : (r %% 2 < 2)%N by lia.
    apply: encrypted_ext => // [k Hk|c Hc|].
    + rewrite hornerD (Lx 0%N) // (Lx 1%N) //.
    + apply: plaintext_ext' => [i c' Hi Hc'||]; [exact: Vk|exact: Vm|]. by rewrite (Mx 0%N) // (Mx 1%N) // Vm.
    + exact: Ve.
  - move=> [Ecs] Hr Vx Vm Vk Ve Hso Hsp Et Lx Mx. set id1 := (id ++ [:: 0%num])%list in Ecs.
    have Ei : ProtoIdModel.take_ids id 2 1 = Some [:: id1] by [].
    have [rd1 [rd2 [res [R T]]]] := @garble_and_ok _ emb D ser de fits serK n t l P Pn HS Hdeg H draws hash Hn16 K M enc Eenc Hl0 F2 g gid (nonce gid) Hgg F1 F3
       id id1 (gate_x gid) xr pm pk pe (fun me => gk_and (coins me) gid) (fun me => gk_gate (coins me) gid) Ei Hr.
    exists [:: (id1, rd1); (id, rd2)], res. split; first by rewrite -Ecs. split; first by apply: realizes_eq R => // me k Hm; rewrite Et.
    rewrite -Ed. apply: table_shared_take T => // r m q Hr4 Hm Hq. rewrite /entry_value.
    have Hr2 : (r %/ 2 < 2)%N by lia. have Hr2' : (r %% 2 < 2)%N by lia.
    apply: encrypted_ext => // [k Hk|c Hc|].
    + rewrite hornerD (Lx 0%N) // (Lx 1%N) //.
    + apply: plaintext_ext' => [i c' Hi Hc'||]; [exact: Vk|exact: Vm|]. by rewrite (Mx 0%N) // (Mx 1%N) // Vm.
    + exact: Ve.
  - move=> [Ecs] Hr Vx Vm Vk Ve Hso Hsp Et Lx Mx.
    have [rd [res [R T]]] := @garble_inv_ok _ emb D ser de fits serK n t l P Pn HS Hdeg H draws hash Hn16 K M enc Eenc Hl0 F2 g gid (nonce gid) Hgg FK
       id (gate_x gid) xr pm pk pe (fun me => gk_gate (coins me) gid) Hr.
    exists [:: (id, rd)], res. split; first by rewrite -Ecs. split; first by apply: realizes_eq R => // me k Hm; rewrite Et.
    rewrite -Ed. apply: table_shared_take T => // r m q Hr4 Hm Hq. rewrite /entry_value.
    apply: encrypted_ext => // [k Hk|c Hc|].
    + exact: (Lx 0%N).
    + apply: plaintext_ext' => [i c' Hi Hc'||]; [exact: Vk|exact: Vm|]. by rewrite (Mx 0%N) // Vm.
    + exact: Ve.
Qed.
End OneGate.
End Run.

(** ** Channels *)
Lemma NoDup_uniq (A : eqType) (s : seq A) : NoDup s -> uniq s.
Proof.
  elim: s => //= a s IH H. inversion H as [|? ? H1 H2]; subst. rewrite (IH H2) andbT.
  apply/negP => Ha. apply: H1. elim: s Ha {IH H H2} => //= b s IH. rewrite inE => /orP [/eqP ->|Hb]; [by left|right; exact: IH].
Qed.

Lemma omapM_combine A B C (f : A * B -> option C) a0 b0 c0 (xs : seq A) (ys : seq B) out :
  size xs = size ys -> CircuitModel.omapM f (combine xs ys) = Some out ->
  size out = size xs /\ forall i, (i < size xs)%N -> f (nth a0 xs i, nth b0 ys i) = Some (nth c0 out i).
Proof.
  elim: xs ys out => [|x xs IH] [|y ys] out //=; first by move=> _ [<-].
  move=> [Hs]. case E : (f (x, y)) => [c|] //=. case E2 : (CircuitModel.omapM _ _) => [cs|] //= [<-].
  have [Hz Hi] := IH ys cs Hs E2. split=> [|[|i] Hi'] //=; [by rewrite Hz|exact: Hi].
Qed.

Lemma num_batches_N a l B : num_batches a l = Some B -> ProtoIdModel.num_batches (N.of_nat a) (N.of_nat l) = Some (N.of_nat B).
Proof.
  case: l => // l. rewrite /num_batches => -[<-]. rewrite /ProtoIdModel.num_batches.
  case: N.eqb_spec => [|_]; first lia. congr Some. symmetry.
  have E := divn_eq (a + l.+1 - 1) l.+1. have L := ltn_pmod (a + l.+1 - 1) (ltn0Sn l).
  apply: (N.div_unique _ _ _ (N.of_nat ((a + l.+1 - 1) %% l.+1))); lia.
Qed.

Lemma num_inp_blocksE gs : ProtoIdModel.num_inp_blocks gs = N.of_nat (size (flatten [seq gate_inps x | x <- gs])).
Proof.
  elim: gs => // x gs IH.
  rewrite -[ProtoIdModel.num_inp_blocks (x :: gs)]/(N.add (ProtoIdModel.num_gate_inputs x) (ProtoIdModel.num_inp_blocks gs)) IH.
  rewrite -[flatten _ in RHS]/(gate_inps x ++ flatten [seq gate_inps x | x <- gs]) size_cat.
  move: (size (flatten _)) => m. have -> : ProtoIdModel.num_gate_inputs x = N.of_nat (size (gate_inps x)) by case: x. lia.
Qed.

Lemma garble_idsP id (circ : pcircuit) l B1 B2 chans :
  num_batches (size (out_blocks circ)) l = Some B1 -> num_batches (size (inp_blocks circ)) l = Some B2 ->
  ProtoIdModel.garble_ids id circ (N.of_nat l) = Some chans ->
  exists cids c0 c1 c2 c3 f,
    [/\ ProtoIdModel.take_ids id (4 + N.of_nat (size (p_gates circ)))%num (4 + size (p_gates circ)) = Some cids,
        ProtoIdModel.gen_rand_ids (nth [::] cids 0) (N.of_nat B1) = Some c0,
        ProtoIdModel.gen_rand_ids (nth [::] cids 1) (N.of_nat B2) = Some c1,
        ProtoIdModel.transform_ids (nth [::] cids 2) (N.of_nat (size (out_blocks circ))) = Some c2 &
    [/\ ProtoIdModel.transform_ids (nth [::] cids 3) (N.of_nat (size (inp_blocks circ))) = Some c3,
        size f = size (p_gates circ),
        forall gid, (gid < size (p_gates circ))%N ->
          ProtoIdModel.gate_ids (nth g0 (p_gates circ) gid) (nth [::] cids (4 + gid)) = Some (nth [::] f gid) &
        chans = c0 ++ c1 ++ c2 ++ c3 ++ flatten f]].
Proof.
  move=> H1 H2. rewrite /ProtoIdModel.garble_ids.
  have -> : (N.of_nat (length (p_inputs circ)) + N.of_nat (length (p_gates circ)) = N.of_nat (size (out_blocks circ)))%num.
  { rewrite /out_blocks size_cat size_map. by rewrite -[length (p_inputs circ)]/(size _) -[length (p_gates circ)]/(size _) -Nat2N.inj_add. }
  rewrite num_inp_blocksE (num_batches_N H1) (num_batches_N H2).
  rewrite {1}/CircuitModel.obind {1}/CircuitModel.obind.
  case Et : (ProtoIdModel.take_ids id _ _) => [cids|] //. rewrite {1}/CircuitModel.obind.
  have [_ [Hl _]] := ProtoIdProofs.take_ids_spec _ _ _ _ Et.
  case: cids Et Hl => [|i0 [|i1 [|i2 [|i3 gids]]]] // Et Hl.
  case E0 : (ProtoIdModel.gen_rand_ids i0 _) => [c0|] //. rewrite {1}/CircuitModel.obind.
  case E1 : (ProtoIdModel.gen_rand_ids i1 _) => [c1|] //. rewrite {1}/CircuitModel.obind.
  case E2 : (ProtoIdModel.transform_ids i2 _) => [c2|] //. rewrite {1}/CircuitModel.obind.
  case E3 : (ProtoIdModel.transform_ids i3 _) => [c3|] //. rewrite {1}/CircuitModel.obind.
  case Ef : (CircuitModel.omapM _ _) => [f|] //. rewrite /CircuitModel.obind => -[<-].
  have Hs : size (p_gates circ) = size gids by move: Hl => [].
  have [Zf Hf] := omapM_combine g0 [::] [::] Hs Ef.
  exists [:: i0, i1, i2, i3 & gids], c0, c1, c2, c3, f. by split.
Qed.

(** ** The whole *)
Section Whole.
Variable F : fieldType.
Variable emb : nat -> F.
Variable D : eqType.
Variable ser : seq F -> D.
Variable de : D -> option (seq F).
Variable fits : nat -> Prop.
Hypothesis serK : codec_ok ser de fits.
Variables (n t l : nat) (P Pn : pss F).
Hypothesis HS : setting emb n t l P Pn.
Hypothesis Hl0 : (0 < l)%N.
Hypothesis HKl : (t + l + l <= n)%N.
Hypothesis Hdeg : (2 * (t + l).-1 <= n.-1)%N.
Hypothesis Hn16 : (n <= 2 ^ 16)%N.
Hypothesis F2 : 1 + 1 = 0 :> F.
Notation mk me := (Ctx me n t l P Pn).
Notation pos := (default_pos emb n l).
Notation sharings := (sharings emb n).
Notation held := (held emb).
Notation pid := [eqType of seq N].
Notation realizes := (@realizes n pid D (val F)).
Variable circ : pcircuit.
Hypothesis Hwf : wf_packed circ l.
Hypothesis Hinj : distinct_positions emb n l circ.
Notation outs := (out_blocks circ).
Notation inps := (inp_blocks circ).
Notation gates := (p_gates circ).
Variable H : eqType.
Variable sha : seq N -> H.
Variable h0 : H.
Variable draws : H -> nat -> F.
Variable hash : seq N -> N.
Variables (K M : nat).
Notation prm := (Lpn K M).
Notation reps := (2 * K + 1)%N.
Notation erows := (fun x => gate_rows x * M)%N.

Lemma describeE d : describe circ n t l prm = Some d -> exists B1 B2,
  [/\ num_batches (size outs) l = Some B1, num_batches (size inps) l = Some B2,
      n_masks d = size outs, n_keys d = (2%N, K, size outs) &
  [/\ n_randoms d = ((B1 + B2) * reps * (n + t) + offs (gate_mults prm) gates (size gates))%N,
      n_zeros d = ((B1 + B2) * reps * 2 * n + offs (gate_mults prm) gates (size gates))%N &
      n_errors d = offs erows gates (size gates)]].
Proof.
  rewrite /describe -nbE. have := counts gates prm. case: (get_gate_counts gates) => [[a x] v] [E1 E2 E3].
  rewrite -E1 -E2 -E3 offs_inps -/inps.
  case EB1 : (num_batches (size outs) l) => [B1|] //=. case EB2 : (num_batches (size inps) l) => [B2|] //= [<-].
  by exists B1, B2.
Qed.

Variable d : count.
Hypothesis Hd : describe circ n t l prm = Some d.
Variable g : nat -> gctx F.
Hypothesis Hg : forall me, (me < n)%N -> gctx_new emb sha h0 draws circ (mk me) prm = Some (g me).
Variable enc : mat F.
Hypothesis Eenc : rs_gen_mat emb (K + 1) M = Some enc.
Hypothesis Hfits : forall m, (m <= 4 * K + 3)%N -> fits m.
Variables (ms ks rs es : nat -> seq F) (pp : nat -> preproc_data F) (nr nz : nat).
Hypothesis Sm : sharings (t + l).-1 pos (n_masks d) (fun i => pp_masks (pp i)) ms.
Hypothesis Sk : sharings (t + l).-1 pos (keys_total d) (fun i => pp_keys (pp i)) ks.
Hypothesis Eshape : forall i, (i < n)%N -> pp_kshape (pp i) = n_keys d.
Hypothesis Hnr : (n_randoms d <= nr)%N.
Hypothesis Hnz : (n_zeros d <= nz)%N.
Hypothesis Sr : sharings (t + l).-1 pos nr (fun i => pp_randoms (pp i)) rs.
Hypothesis Sz : sharings n.-1 pos nz (fun i => pp_zeros (pp i)) (fun _ => nseq l 0).
Hypothesis Se : sharings (t + l).-1 pos (n_errors d) (fun i => pp_errors (pp i)) es.

Lemma garble_realizes (id : pid) chans (coins : nat -> gcoins F) :
  ProtoIdModel.garble_ids id circ (N.of_nat l) = Some chans ->
  exists (rds : seq (pid * round D)) (tabs : nat -> nat -> seq (seq F)), perm_eq (ids rds) chans /\
    realizes rds (fun me k => garble emb ser de hash (g me) id (pp me) (coins me) k)
      (fun me => ([seq tabs gid me | gid <- iota 0 (size gates)],
                  Queues (drop (n_randoms d) (pp_randoms (pp me))) (drop (n_zeros d) (pp_zeros (pp me))) [::])) /\
    (forall gid, (gid < size gates)%N -> let x := nth g0 gates gid in
      table_shared emb n (t + l + l - 2) (take (size (gate_out x)) pos) (table_rows x) M (tabs gid)
        (the_entry l circ sha draws K M enc ms ks es gid)) /\
    exists B1 B2 c0 c1 c2 c3 f,
      [/\ num_batches (size outs) l = Some B1, num_batches (size inps) l = Some B2, chans = c0 ++ c1 ++ c2 ++ c3 ++ f,
          [/\ size c0 = B1, size c1 = B2, size c2 = size outs & size c3 = size inps] &
          wire_trace emb ser de n t l circ K c0 c1 c2 c3 pp ms ks rds].
Proof.
  move=> Hids. have [B1 [B2 [HB1 HB2 Em Ek [Er Ez Ee]]]] := describeE Hd.
  have [g' [enc' [Eenc' Hg']]] := gctx_newE HS Hl0 HKl Hwf Hinj sha h0 draws K M HB1 HB2.
  have Ee' : enc' = enc by move: Eenc'; rewrite Eenc => -[]. subst enc'.
  have Eg me : (me < n)%N -> g' me = g me by move=> Hm; have [E _ _ _] := Hg' me Hm; move: E; rewrite Hg // => -[].
  have G1 me : (me < n)%N -> [/\ g_mpc (g me) = mk me, g_lpn (g me) = prm, g_circ (g me) = circ &
     [/\ g_lookup (g me) = block_map circ, g_out (g me) = tfs emb n t l (tf_out emb n l circ) B1 me & g_inp (g me) = tfs emb n t l (tf_inp emb n l circ) B2 me]].
  { move=> Hm. have [_ E _ _] := Hg' me Hm. by rewrite Eg in E. }
  have G2 me : (me < n)%N -> g_enc (g me) = enc by move=> Hm; have [_ _ E _] := Hg' me Hm; rewrite Eg in E.
  have G3 me gid : (me < n)%N -> (gid < size gates)%N -> gate_mat (g me) gid = lpn_matrix emb draws (mk me) prm (sha (nonce_bytes gates l gid)).
  { move=> Hm Hgid. have [_ _ _ E] := Hg' me Hm. by rewrite -Eg // E. }
  have [cids [c0 [c1 [c2 [c3 [f [Et E0 E1 E2 [E3 Zf Hf Ec]]]]]]]] := garble_idsP HB1 HB2 Hids.
  pose mults := offs (gate_mults prm) gates (size gates).
  pose nr1 := (B1 * ((n + t) * reps))%N. pose nr2 := (B2 * ((n + t) * reps))%N.
  pose nz1 := (B1 * (2 * n * reps))%N. pose nz2 := (B2 * (2 * n * reps))%N.
  have Er' : n_randoms d = (nr1 + nr2 + mults)%N by rewrite Er /nr1 /nr2 -/mults; nia.
  have Ez' : n_zeros d = (nz1 + nz2 + mults)%N by rewrite Ez /nz1 /nz2 -/mults; nia.
  pose r1 me := take nr1 (pp_randoms (pp me)). pose r2 me := take nr2 (drop nr1 (pp_randoms (pp me))).
  pose z1 me := take nz1 (pp_zeros (pp me)). pose z2 me := take nz2 (drop nz1 (pp_zeros (pp me))).
  pose q2 me := Queues (drop (nr1 + nr2) (pp_randoms (pp me))) (drop (nz1 + nz2) (pp_zeros (pp me))) (pp_errors (pp me)).
  have Sr1 : sharings (t + l).-1 pos nr1 r1 (fun j => rs (0 + j)%N).
  { apply: sharings_ext (@sharings_slice _ emb _ _ _ _ _ _ 0 nr1 Sr _) => // [i Hi|]; [by rewrite drop0|lia]. }
  have Sr2 : sharings (t + l).-1 pos nr2 r2 (fun j => rs (nr1 + j)%N) by apply: (sharings_slice Sr); lia.
  have Sz1 : sharings n.-1 pos nz1 z1 (fun _ => nseq l 0).
  { apply: sharings_ext (@sharings_slice _ emb _ _ _ _ _ _ 0 nz1 Sz _) => // [i Hi|]; [by rewrite drop0|lia]. }
  have Sz2 : sharings n.-1 pos nz2 z2 (fun _ => nseq l 0) by apply: (sharings_slice Sz); lia.
  have Sr3 : sharings (t + l).-1 pos (nr - (nr1 + nr2)) (fun i => q_randoms (q2 i)) (fun j => rs (nr1 + nr2 + j)%N).
  { apply: sharings_ext (@sharings_slice _ emb _ _ _ _ _ _ (nr1 + nr2)%N (nr - (nr1 + nr2))%N Sr _) => // [i Hi|]; [|lia].
    rewrite take_oversize // size_drop Sr.1 //. }
  have Sz3 : sharings n.-1 pos (nz - (nz1 + nz2)) (fun i => q_zeros (q2 i)) (fun _ => nseq l 0).
  { apply: sharings_ext (@sharings_slice _ emb _ _ _ _ _ _ (nz1 + nz2)%N (nz - (nz1 + nz2))%N Sz _) => // [i Hi|]; [|lia].
    rewrite take_oversize // size_drop Sz.1 //. }
  have Sm' : sharings (t + l).-1 pos (size outs) (fun i => pp_masks (pp i)) ms by rewrite -Em.
  have Ekt : keys_total d = (2 * K * size outs)%N by rewrite /keys_total Ek.
  have Sk' : sharings (t + l).-1 pos (2 * K * size outs) (fun i => pp_keys (pp i)) ks by rewrite -Ekt.
  have Sk'' : sharings (t + l).-1 pos (size outs * (2 * K)) (fun i => pp_keys (pp i)) ks by rewrite mulnC.
  have Es' i : (i < n)%N -> pp_kshape (pp i) = (2%N, K, size outs) by move=> Hi; rewrite Eshape.
  have Se' : sharings (t + l).-1 pos (offs erows gates (size gates)) (fun i => q_errors (q2 i)) es by rewrite -Ee.
  have Fa : fits (2 * reps) by apply: Hfits; lia. have Fb : fits reps by apply: Hfits; lia.
  have [rdw [ish [Iw [Rw [Zi [Si Tw]]]]]] := wire_shares_ok serK HS Hl0 HKl Hwf Hinj HB1 HB2 G1 coins Fa Fb E0 E1 E2 E3 Sm' Sk'' Sr1 Sz1 Sr2 Sz2.
  have Hnr' : (offs (gate_mults prm) gates (size gates) <= nr - (nr1 + nr2))%N by rewrite -/mults; lia.
  have Hnz' : (offs (gate_mults prm) gates (size gates) <= nz - (nz1 + nz2))%N by rewrite -/mults; lia.
  have T gid (Hgid : (gid < size gates)%N) := gate_task_ok serK HS Hl0 HKl Hdeg Hn16 F2 Hwf Hinj hash Eenc G1 G2 G3 Hfits Sm' Sk' Es' Sr3 Sz3 Hnr' Hnz' Se' Zi Si Hgid coins (Hf gid Hgid).
  pose gx gid me := gate_x circ K M pp q2 ish gid me.
  pose gtask gid (me : nat) (k : seq (seq F) -> proc pid D (val F)) :=
    gate_task ser de hash (g me) (nth [::] cids (4 + gid)) gid (gx gid me) (coins me) k.
  have [tt Htt] : exists tt : nat -> seq (pid * round D) * (nat -> seq (seq F)), forall gid, (gid < size gates)%N ->
    [/\ ids (tt gid).1 = nth [::] f gid, realizes (tt gid).1 (gtask gid) (tt gid).2 &
        table_shared emb n (t + l + l - 2) (take (size (gate_out (nth g0 gates gid))) pos) (table_rows (nth g0 gates gid)) M (tt gid).2
          (the_entry l circ sha draws K M enc ms ks es gid)].
  { apply: (@fin_choice (seq (pid * round D) * (nat -> seq (seq F)))%type (size gates) (fun gid tt =>
      [/\ ids tt.1 = nth [::] f gid, realizes tt.1 (gtask gid) tt.2 &
        table_shared emb n (t + l + l - 2) (take (size (gate_out (nth g0 gates gid))) pos) (table_rows (nth g0 gates gid)) M tt.2
          (the_entry l circ sha draws K M enc ms ks es gid)]) ([::], fun _ => [::])).
    move=> gid Hgid. have [rd [res [I1 [R1 T1]]]] := T gid Hgid. by exists (rd, res). }
  exists (rdw ++ flatten [seq (tt gid).1 | gid <- iota 0 (size gates)]), (fun gid => (tt gid).2).
  pose rds := rdw ++ flatten [seq (tt gid).1 | gid <- iota 0 (size gates)].
  suff : perm_eq (ids rds) chans /\ realizes rds (fun me k => garble emb ser de hash (g me) id (pp me) (coins me) k)
      (fun me => ([seq (tt gid).2 me | gid <- iota 0 (size gates)],
                  Queues (drop (n_randoms d) (pp_randoms (pp me))) (drop (n_zeros d) (pp_zeros (pp me))) [::])).
  { move=> [X1 X2]. split=> //. split=> //. split; first by move=> gid Hgid; have [_ _] := Htt gid Hgid.
    exists B1, B2, c0, c1, c2, c3, (flatten f). split=> //.
    - have Z id' num cs : ProtoIdModel.take_ids id' (N.of_nat num) (N.to_nat (N.of_nat num)) = Some cs -> size cs = num.
      { move=> /ProtoIdProofs.take_ids_spec [_ [E _]]. by rewrite -[size cs]/(length cs) E Nat2N.id. }
      by split; [exact: Z E0|exact: Z E1|exact: Z E2|exact: Z E3].
    - apply: wire_trace_sub Tw => x Hx. by apply: List.in_or_app; left. }
  rewrite /rds. split.
  { have -> : ids (rdw ++ flatten [seq (tt gid).1 | gid <- iota 0 (size gates)]) = (c1 ++ (c0 ++ c2) ++ c3) ++ flatten f.
    { rewrite ids_cat Iw. congr (_ ++ _). rewrite /ids map_flatten -map_comp. congr flatten.
      apply: (@eq_from_nth _ [::]) => [|gid]; rewrite size_map size_iota ?Zf // => Hgid.
      rewrite (nth_map 0%N) ?size_iota // nth_iota //=. by have [E _ _] := Htt gid Hgid. }
    by rewrite Ec -!catA perm_catCA. }
  pose dq me := Queues (drop (n_randoms d) (pp_randoms (pp me))) (drop (n_zeros d) (pp_zeros (pp me))) [::].
  have Zm me : (me < n)%N -> size (pp_masks (pp me)) = size outs by move=> Hm; exact: (Sm'.1 me Hm).
  have Ze me : (me < n)%N -> size (pp_errors (pp me)) = n_errors d by move=> Hm; exact: (Se.1 me Hm).
  have Zr me : (me < n)%N -> size (pp_randoms (pp me)) = nr by move=> Hm; exact: (Sr.1 me Hm).
  have Zz me : (me < n)%N -> size (pp_zeros (pp me)) = nz by move=> Hm; exact: (Sz.1 me Hm).
  have HO me : (me < n)%N -> hand_out prm gates (size (p_inputs circ)) (ish me) (pp_masks (pp me)) (pp_kshape (pp me)) (pp_keys (pp me)) (q2 me) =
     Some ([seq gx gid me | gid <- iota 0 (size gates)], dq me).
  { move=> Hm. rewrite hand_outE.
    - rewrite /dq /q2 /= !drop_drop Er' Ez' ![(mults + _)%N]addnC. rewrite -/mults -Ee. have -> : drop (n_errors d) (pp_errors (pp me)) = [::] by apply: drop_oversize; rewrite Ze. by [].
    - by rewrite Zi // offs_inps.
    - by rewrite Zm // nbE.
    - by rewrite Es' //= nbE.
    - by rewrite size_drop Zr.
    - by rewrite size_drop Zz.
    - by rewrite Ze // Ee. }
  pose Q (me : nat) (inp_shares : seq (seq F)) (k : seq (seq (seq F)) * queues F -> proc pid D (val F)) :=
    if hand_out prm gates (size (p_inputs circ)) inp_shares (pp_masks (pp me)) (pp_kshape (pp me)) (pp_keys (pp me)) (q2 me) is Some (xs, q3) then
      spawn_all
        [seq gate_task ser de hash (g me) (nth [::] cids (4 + gid)) gid (nth (GateInp [::] 0 [::] [::] [::] [::]) xs gid) (coins me)
               (fun tb => Ret (Leaf tb)) | gid <- iota 0 (size gates)]
        (fun vs => k ([seq (if v is Leaf tb then tb else [::]) | v <- vs], q3))
    else @Panic pid D (val F).
  have RQ : realizes (flatten [seq (tt gid).1 | gid <- iota 0 (size gates)] ++ [::]) (fun me => Q me (ish me))
     (fun me => ([seq (tt gid).2 me | gid <- iota 0 (size gates)], dq me)).
  { have RS := @realizes_spawn F pid D n nat_eqType (iota 0 (size gates)) _ _ gtask (fun gid => (tt gid).2) (fun tb => Leaf tb)
      (fun gid => (tt gid).1) [::] (fun me vs k => k ([seq (if v is Leaf tb then tb else [::]) | v <- vs], dq me))
      (fun me => ([seq (tt gid).2 me | gid <- iota 0 (size gates)], dq me)).
    apply: realizes_eq (RS _ _) => //.
    - move=> me k Hm. rewrite /Q HO //. congr spawn_all. apply/eq_in_map => gid. rewrite mem_iota add0n => /andP [_ Hgid].
      by rewrite (nth_map 0%N) ?size_iota // nth_iota.
    - move=> gid. rewrite mem_iota add0n => /andP [_ Hgid]. by have [] := Htt gid Hgid.
    - move=> plan ph A me k js v Hm Fk. by rewrite -map_comp. }
  rewrite cats0 in RQ.
  have RG := realizes_seq (Q := Q) Rw RQ. apply: realizes_eq RG => // me k Hm.
  have [X1 X2 X3 [X4 X5 X6]] := G1 me Hm. rewrite /garble X1 X2 X3 X5 X6.
  have D1 : drain_rtrans (mk me) (tfs emb n t l (tf_out emb n l circ) B1 me) reps (Queues (pp_randoms (pp me)) (pp_zeros (pp me)) (pp_errors (pp me))) =
    Some (r1 me, z1 me, Queues (drop nr1 (pp_randoms (pp me))) (drop nz1 (pp_zeros (pp me))) (pp_errors (pp me))).
  { rewrite /drain_rtrans /= size_map size_iota.
    have -> : (B1 * reps * (n + t) = nr1)%N by rewrite /nr1; nia. have -> : (B1 * reps * 2 * n = nz1)%N by rewrite /nz1; nia.
    rewrite !drainE ?Zr ?Zz //; lia. }
  have D2 : drain_rtrans (mk me) (tfs emb n t l (tf_inp emb n l circ) B2 me) reps (Queues (drop nr1 (pp_randoms (pp me))) (drop nz1 (pp_zeros (pp me))) (pp_errors (pp me))) =
    Some (r2 me, z2 me, q2 me).
  { rewrite /drain_rtrans /= size_map size_iota.
    have -> : (B2 * reps * (n + t) = nr2)%N by rewrite /nr2; nia. have -> : (B2 * reps * 2 * n = nz2)%N by rewrite /nz2; nia.
    rewrite !drainE ?size_drop ?Zr ?Zz //; [|lia|lia]. by rewrite !drop_drop /q2 (addnC nr2) (addnC nz2). }
  cbv zeta. rewrite -nbE Zm // Es' // !eqxx. rewrite [lpn_key_len _]/= D1 D2 Et. by rewrite /Q Es'.
Qed.
End Whole.

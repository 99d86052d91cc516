(** Proofs about [Circuit::eval] and [Circuit::pack]. *)

From Coq Require Import Arith NArith List Bool Lia Permutation Sorted RelationClasses.
From Verif Require Import CircuitModel CircuitSpec.
Import ListNotations.
Local Open Scope N_scope.

(** ** Evaluation *)

Definition val (ws : list bool) (w : N) : bool := nth (N.to_nat w) ws false.
Definition len (ws : list bool) : N := N.of_nat (length ws).

Lemma wget_ok ws w : w < len ws -> wget ws w = Some (val ws w).
Proof. intro H. unfold wget, val. apply nth_error_nth'. unfold len in H. lia. Qed.

Lemma upd_ok (A : Type) (l : list A) i v d : (i < length l)%nat ->
  exists l', upd l i v = Some l' /\ length l' = length l /\
    forall j, nth j l' d = if Nat.eqb j i then v else nth j l d.
Proof.
  revert i. induction l as [|x l IH]; intros i H; simpl in H; [lia|].
  destruct i as [|i]; simpl.
  - exists (v :: l). split; [reflexivity|]. split; [reflexivity|]. intros [|j]; reflexivity.
  - destruct (IH i ltac:(lia)) as (l' & E & L & V). rewrite E. simpl.
    exists (x :: l'). split; [reflexivity|]. simpl. split; [now rewrite L|]. intros [|j]; [reflexivity|]. apply V.
Qed.

Lemma wset_ok ws w v : w < len ws -> exists ws', wset ws w v = Some ws' /\ len ws' = len ws /\
  forall u, val ws' u = if u =? w then v else val ws u.
Proof.
  intro H. unfold wset, len in *. destruct (upd_ok bool ws (N.to_nat w) v false ltac:(lia)) as (l' & E & L & V).
  exists l'. split; [exact E|]. split; [now rewrite L|]. intro u. unfold val. rewrite V.
  destruct (N.eqb_spec u w) as [->|Hn]; [now rewrite Nat.eqb_refl|].
  destruct (Nat.eqb_spec (N.to_nat u) (N.to_nat w)); [lia|reflexivity].
Qed.

Lemma set_group_ok l : forall ws, Forall (fun x => fst x < len ws) l -> NoDup (map fst l) ->
  exists ws', set_group ws l = Some ws' /\ len ws' = len ws /\
    (forall w v, In (w, v) l -> val ws' w = v) /\
    (forall w, ~ In w (map fst l) -> val ws' w = val ws w).
Proof.
  induction l as [|[w v] l IH]; intros ws HB HD; simpl.
  - exists ws. repeat split; tauto.
  - inversion HB; subst. inversion HD; subst. simpl in *.
    destruct (wset_ok ws w v) as (ws1 & E1 & L1 & V1); [assumption|]. rewrite E1. simpl.
    destruct (IH ws1) as (ws2 & E2 & L2 & V2 & V3); [now rewrite L1|assumption|].
    exists ws2. split; [assumption|]. split; [congruence|]. split.
    + intros u x [E|HI]; [|now apply V2]. injection E as -> ->.
      rewrite V3 by assumption. rewrite V1, N.eqb_refl. reflexivity.
    + intros u Hu. rewrite V3 by tauto. rewrite V1.
      destruct (N.eqb_spec u w); [subst; tauto|reflexivity].
Qed.

(** Input groups flattened into (wire, value) pairs. *)
Lemma set_inputs_flat l : forall ws, set_inputs ws l = set_group ws (flat_map (fun x => combine (fst x) (snd x)) l).
Proof.
  assert (A : forall a b ws, set_group ws (a ++ b) = obind (set_group ws a) (fun ws' => set_group ws' b)).
  { induction a as [|[w v] a IH]; intros b ws; simpl; [reflexivity|].
    destruct (wset ws w v); simpl; [apply IH|reflexivity]. }
  induction l as [|[g v] l IH]; intro ws; simpl; [reflexivity|].
  rewrite A. destruct (set_group ws (combine g v)); simpl; [apply IH|reflexivity].
Qed.

Lemma map_fst_combine (A B : Type) (a : list A) (b : list B) : length a = length b -> map fst (combine a b) = a.
Proof. revert b. induction a as [|x a IH]; intros [|y b] H; simpl in *; try lia; [reflexivity|]. now rewrite IH by lia. Qed.

Lemma flat_pairs ins vals : Forall2 (fun (a : list N) (b : list bool) => length a = length b) ins vals ->
  map fst (flat_map (fun x => combine (fst x) (snd x)) (combine ins vals)) = concat ins.
Proof.
  induction 1 as [|a b ins vals H _ IH]; simpl; [reflexivity|].
  rewrite map_app, IH, map_fst_combine by assumption. reflexivity.
Qed.

Lemma flat_pairs_val (f : N -> bool) ins vals :
  Forall2 (fun (a : list N) (b : list bool) => length a = length b) ins vals ->
  (forall w v, In (w, v) (flat_map (fun x => combine (fst x) (snd x)) (combine ins vals)) -> f w = v) <->
  map (map f) ins = vals.
Proof.
  assert (A : forall a (b : list bool), length a = length b ->
     ((forall w v, In (w, v) (combine a b) -> f w = v) <-> map f a = b)).
  { induction a as [|x a IH]; intros [|y b] H; simpl in *; try lia; [split; [reflexivity|tauto]|].
    destruct (IH b ltac:(lia)) as [I1 I2]. split.
    - intro Hf. rewrite I1; [|auto]. rewrite (Hf x y); auto.
    - intros E w v [E'|HI]; [congruence|]. apply I2; [congruence|assumption]. }
  induction 1 as [|a b ins vals H _ IH]; simpl; [split; [reflexivity|tauto]|].
  destruct (A a b H) as [A1 A2]. split.
  - intro Hf. rewrite A1, (proj1 IH); [reflexivity| |]; intros w v HI; apply Hf, in_app_iff; auto.
  - intros E w v HI. injection E as E1 E2. apply in_app_iff in HI as [HI|HI]; [apply A2; assumption|].
    now apply (proj2 IH).
Qed.

Lemma nodup_app_l (A : Type) (a b : list A) : NoDup (a ++ b) -> NoDup a.
Proof.
  induction a as [|x a IH]; intro H; [constructor|]. inversion H; subst. constructor; [|now apply IH].
  intro HI. apply H2, in_app_iff. now left.
Qed.

Definition gate_fun (f : N -> bool) (g : gate) : bool :=
  match g with Xor a b _ => xorb (f a) (f b) | And a b _ => f a && f b | Inv a _ => negb (f a) end.

Lemma sat_fun f g : sat f g <-> f (gate_output g) = gate_fun f g.
Proof. destruct g; reflexivity. Qed.

Lemma gate_fun_ext f h g : (forall w, In w (gate_inputs g) -> f w = h w) -> gate_fun f g = gate_fun h g.
Proof. intro H. destruct g; simpl in *; rewrite ?(H l), ?(H r), ?(H a) by auto; reflexivity. Qed.

Lemma eval_gate_ok ws g : gate_output g < len ws -> Forall (fun w => w < len ws) (gate_inputs g) ->
  exists ws', eval_gate ws g = Some ws' /\ len ws' = len ws /\
    forall u, val ws' u = if u =? gate_output g then gate_fun (val ws) g else val ws u.
Proof.
  intros Ho Hi. destruct g as [a b o|a b o|a o]; simpl in *;
    repeat match goal with H : Forall _ (_ :: _) |- _ => inversion H; clear H; subst end;
    rewrite ?(wget_ok ws a), ?(wget_ok ws b) by assumption; cbn [obind].
  - replace (negb (Bool.eqb (val ws a) (val ws b))) with (xorb (val ws a) (val ws b))
      by (destruct (val ws a), (val ws b); reflexivity). now apply wset_ok.
  - now apply wset_ok.
  - now apply wset_ok.
Qed.

(** [D]: the wires defined so far. *)
Lemma eval_gates_ok gs : forall D ws,
  NoDup (D ++ map gate_output gs) -> Forall (fun w => w < len ws) (D ++ map gate_output gs) ->
  (forall pre g post, gs = pre ++ g :: post -> incl (gate_inputs g) (D ++ map gate_output pre)) ->
  exists ws', eval_gates ws gs = Some ws' /\ len ws' = len ws /\
    (forall w, ~ In w (map gate_output gs) -> val ws' w = val ws w) /\
    Forall (sat (val ws')) gs /\
    (forall f, (forall w, In w D -> f w = val ws w) -> Forall (sat f) gs ->
       forall w, In w (D ++ map gate_output gs) -> f w = val ws' w).
Proof.
  induction gs as [|g gs IH]; intros D ws ND RG TOP; simpl.
  - exists ws. repeat split; auto. intros f Hf _ w Hw. rewrite app_nil_r in Hw. auto.
  - assert (TG := TOP [] g gs eq_refl). simpl in TG. rewrite app_nil_r in TG.
    assert (EQ : D ++ map gate_output (g :: gs) = (D ++ [gate_output g]) ++ map gate_output gs)
      by now rewrite <- app_assoc.
    rewrite EQ in ND, RG.
    assert (RG' := RG). rewrite Forall_app in RG'. destruct RG' as [RGD _]. rewrite Forall_app in RGD.
    destruct RGD as [RGD RGo]. inversion RGo; subst.
    destruct (eval_gate_ok ws g) as (ws1 & E1 & L1 & V1); [assumption| |].
    { rewrite Forall_forall in RGD |- *. intros w Hw. apply RGD, TG, Hw. }
    rewrite E1. cbn [obind].
    destruct (IH (D ++ [gate_output g]) ws1) as (ws2 & E2 & L2 & V2 & S2 & U2).
    { assumption. } { now rewrite L1. }
    { intros pre g' post E w Hw. assert (T := TOP (g :: pre) g' post).
      simpl in T. rewrite E in T. specialize (T eq_refl w Hw). rewrite <- app_assoc. exact T. }
    assert (FR : ~ In (gate_output g) (map gate_output gs) /\ forall w, In w D -> ~ In w (map gate_output gs) /\ w <> gate_output g).
    { assert (X : forall w, In w (D ++ [gate_output g]) -> ~ In w (map gate_output gs)).
      { intros w HI HO. clear - ND HI HO. induction (D ++ [gate_output g]) as [|y l IHl]; [contradiction|].
        simpl in ND. inversion ND; subst. destruct HI as [->|HI]; [|now apply IHl].
        apply H1, in_app_iff. now right. }
      split; [apply X, in_app_iff; right; now left|]. intros w HI. split; [apply X, in_app_iff; now left|].
      intros ->. clear - ND HI. apply NoDup_remove_2 with (l := D) (l' := map gate_output gs) (a := gate_output g).
      - now rewrite <- app_assoc in ND.
      - apply in_app_iff. now left. }
    destruct FR as [FRg FRD].
    exists ws2. split; [assumption|]. split; [congruence|]. split; [|split].
    + intros w Hw. rewrite V2 by tauto. rewrite V1. destruct (N.eqb_spec w (gate_output g)); [subst; tauto|reflexivity].
    + constructor; [|assumption]. apply sat_fun. rewrite V2 by assumption. rewrite V1, N.eqb_refl.
      apply gate_fun_ext. intros w Hw. destruct (FRD w (TG w Hw)) as [F1 F2].
      rewrite V2 by assumption. rewrite V1. destruct (N.eqb_spec w (gate_output g)); [contradiction|reflexivity].
    + intros f Hf Hs w Hw. inversion Hs as [|g' gs' Hsg Hsr]; subst. apply U2; [|assumption|].
      * intros u Hu. rewrite V1. apply in_app_iff in Hu as [Hu|[Hu|[]]].
        -- destruct (FRD u Hu) as [_ F2]. destruct (N.eqb_spec u (gate_output g)); [contradiction|]. now apply Hf.
        -- subst u. rewrite N.eqb_refl. rewrite (proj1 (sat_fun f g) Hsg). apply gate_fun_ext.
           intros x Hx. apply Hf, TG, Hx.
      * rewrite in_app_iff in Hw |- *. simpl in Hw. rewrite in_app_iff. simpl. tauto.
Qed.

Lemma omapM_ok (A B : Type) (f : A -> option B) (h : A -> B) l :
  (forall a, In a l -> f a = Some (h a)) -> omapM f l = Some (map h l).
Proof.
  induction l as [|a l IH]; intro H; [reflexivity|]. simpl. rewrite H by now left. simpl.
  rewrite IH; [reflexivity|]. intros. apply H. now right.
Qed.

Lemma eval_ok c vals : well_formed c ->
  Forall2 (fun (a : list N) (b : list bool) => length a = length b) (c_inputs c) vals ->
  exists outs f, eval c vals = Some outs /\ sat_inputs f c vals /\ Forall (sat f) (c_gates c) /\
    outs = map (map f) (c_outputs c) /\
    forall h, sat_inputs h c vals -> Forall (sat h) (c_gates c) -> outs = map (map h) (c_outputs c).
Proof.
  intros (ND & RG & TOP & OUT) SH. unfold eval.
  set (ws0 := repeat false (N.to_nat (c_num_wires c))).
  assert (L0 : len ws0 = c_num_wires c) by (unfold len, ws0; rewrite repeat_length; lia).
  rewrite set_inputs_flat.
  destruct (set_group_ok (flat_map (fun x => combine (fst x) (snd x)) (combine (c_inputs c) vals)) ws0)
    as (ws1 & E1 & L1 & V1 & V1').
  { rewrite Forall_app in RG. destruct RG as [RG _]. rewrite L0. rewrite <- (flat_pairs _ _ SH) in RG.
    now rewrite Forall_map in RG. }
  { rewrite flat_pairs by assumption. now apply nodup_app_l in ND. }
  rewrite E1. cbn [obind].
  destruct (eval_gates_ok (c_gates c) (concat (c_inputs c)) ws1) as (ws2 & E2 & L2 & V2 & S2 & U2).
  { assumption. } { now rewrite L1, L0. } { assumption. }
  rewrite E2. cbn [obind].
  assert (DJ : forall w, In w (concat (c_inputs c)) -> ~ In w (map gate_output (c_gates c))).
  { intros w HI HO. clear - ND HI HO. induction (concat (c_inputs c)) as [|y l IHl]; [contradiction|].
    simpl in ND. inversion ND; subst. destruct HI as [->|HI]; [|now apply IHl]. apply H1, in_app_iff. now right. }
  exists (map (map (val ws2)) (c_outputs c)), (val ws2). split; [|split; [|split; [|split]]].
  - apply omapM_ok. intros g Hg. apply omapM_ok. intros w Hw. apply wget_ok.
    rewrite L2, L1, L0. rewrite Forall_forall in RG. apply RG, OUT, in_concat. eauto.
  - apply flat_pairs_val; [assumption|]. intros w v HI. rewrite V2; [now apply V1|].
    apply DJ. rewrite <- (flat_pairs _ _ SH). now apply (in_map fst) in HI.
  - assumption.
  - reflexivity.
  - intros h Hi Hs. symmetry. apply map_ext_in. intros g Hg. apply map_ext_in. intros w Hw. apply U2.
    + intros u Hu. rewrite <- (flat_pairs _ _ SH) in Hu. apply in_map_iff in Hu as ([u' v] & <- & HI). simpl.
      rewrite (proj2 (flat_pairs_val h _ _ SH) Hi u' v HI). symmetry. now apply V1.
    + assumption.
    + apply OUT, in_concat. eauto.
Qed.

(** ** Packing *)

Lemma chunks_aux_concat (A : Type) k : (1 <= k)%nat -> forall fuel (l : list A), (length l <= fuel)%nat ->
  concat (chunks_aux fuel k l) = l /\ full_blocks k (map (@length A) (chunks_aux fuel k l)).
Proof.
  intro Hk. induction fuel as [|f IH]; intros l Hl.
  - destruct l; simpl in *; [|lia]. split; [reflexivity|now left].
  - destruct l as [|x l]; cbn [chunks_aux]; [split; [reflexivity|now left]|].
    set (L := x :: l) in *. assert (HL : (1 <= length L)%nat) by (unfold L; simpl; lia).
    destruct (IH (skipn k L)) as [I1 I2]; [rewrite skipn_length; lia|].
    cbn [concat map]. split; [rewrite I1; apply firstn_skipn|].
    rewrite firstn_length. right. destruct I2 as [E|(m & last & E & Hlast)].
    + exists 0%nat, (Nat.min k (length L)). rewrite E. split; [reflexivity|]. lia.
    + exists (S m), last. rewrite E. cbn [repeat app]. split; [|assumption]. f_equal.
      destruct (Nat.le_gt_cases k (length L)) as [H|H]; [lia|].
      exfalso. rewrite skipn_all2 in E by lia. destruct f; simpl in E; destruct m; discriminate.
Qed.

Lemma chunks_ok (A : Type) k (l : list A) : 1 <= k -> exists bs, chunks k l = Some bs /\
  concat bs = l /\ full_blocks (N.to_nat k) (map (@length A) bs).
Proof.
  intro Hk. unfold chunks. destruct (N.eqb_spec k 0); [lia|]. eexists. split; [reflexivity|].
  apply chunks_aux_concat; lia.
Qed.

Lemma insert_perm (A : Type) leb (x : A) l : Permutation (x :: l) (insert leb x l).
Proof.
  induction l as [|y l IH]; simpl; [reflexivity|]. destruct (leb x y); [reflexivity|].
  rewrite perm_swap. now apply perm_skip.
Qed.
Lemma isort_perm (A : Type) leb (l : list A) : Permutation l (isort leb l).
Proof. induction l as [|x l IH]; simpl; [reflexivity|]. rewrite <- insert_perm. now apply perm_skip. Qed.

Lemma wt_leb_total a b : wt_leb a b = false -> wt_leb b a = true.
Proof.
  destruct a as [a1 a2], b as [b1 b2]. unfold wt_leb. simpl.
  destruct (N.ltb_spec a1 b1), (N.eqb_spec a1 b1), (N.leb_spec a2 b2), (N.ltb_spec b1 a1), (N.eqb_spec b1 a1), (N.leb_spec b2 a2);
    simpl; try discriminate; try reflexivity; lia.
Qed.
Lemma wt_leb_trans a b c : wt_leb a b = true -> wt_leb b c = true -> wt_leb a c = true.
Proof.
  destruct a as [a1 a2], b as [b1 b2], c as [c1 c2]. unfold wt_leb. simpl.
  destruct (N.ltb_spec a1 b1), (N.eqb_spec a1 b1), (N.leb_spec a2 b2), (N.ltb_spec b1 c1), (N.eqb_spec b1 c1), (N.leb_spec b2 c2),
    (N.ltb_spec a1 c1), (N.eqb_spec a1 c1), (N.leb_spec a2 c2); simpl; try discriminate; try reflexivity; lia.
Qed.

Lemma isort_sorted (A : Type) (key : A -> N * N) l :
  StronglySorted (fun x y => wt_leb (key x) (key y) = true) (isort (fun x y => wt_leb (key x) (key y)) l).
Proof.
  set (leb := fun x y => wt_leb (key x) (key y)).
  assert (INS : forall x s, StronglySorted (fun x y => leb x y = true) s ->
                 StronglySorted (fun x y => leb x y = true) (insert leb x s)).
  { intros x s HS. induction HS as [|y s HS IH HF]; simpl; [repeat constructor|].
    destruct (leb x y) eqn:E.
    - constructor; [now constructor|]. constructor; [assumption|]. eapply Forall_impl; [|exact HF].
      intros z Hz. eapply wt_leb_trans; eassumption.
    - constructor; [assumption|]. rewrite Forall_forall in *. intros z Hz.
      apply (Permutation_in z (Permutation_sym (insert_perm A leb x s))) in Hz. destruct Hz as [<-|Hz]; [|now apply HF].
      now apply wt_leb_total. }
  induction l as [|x l IH]; simpl; [constructor|]. now apply INS.
Qed.

Lemma pack_info_ok k gs : 1 <= k -> exists bs, pack_gate_info k gs = Some bs /\
  Permutation (concat bs) gs /\ full_blocks (N.to_nat k) (map (@length ginfo) bs) /\
  StronglySorted (fun x y => wt_leb (weight gs x) (weight gs y) = true) (concat bs).
Proof.
  intro Hk. unfold pack_gate_info.
  destruct (chunks_ok _ k (isort (fun g1 g2 => wt_leb (weight gs g1) (weight gs g2)) gs) Hk) as (bs & E & C & F).
  exists bs. rewrite E, C. repeat split; auto; [apply Permutation_sym, isort_perm|]. apply isort_sorted.
Qed.

(** Arity of gate infos. *)
Definition arity2 (g : ginfo) : Prop := exists a b o, g = ([a; b], o).
Definition arity1 (g : ginfo) : Prop := exists a o, g = ([a], o).

Lemma and_arity gs : Forall arity2 (and_infos gs).
Proof. induction gs as [|[] gs IH]; simpl; try assumption; [constructor|]. constructor; [unfold arity2; eauto|assumption]. Qed.
Lemma xor_arity gs : Forall arity2 (xor_infos gs).
Proof. induction gs as [|[] gs IH]; simpl; try assumption; [constructor|]. constructor; [unfold arity2; eauto|assumption]. Qed.
Lemma inv_arity gs : Forall arity1 (inv_infos gs).
Proof. induction gs as [|[] gs IH]; simpl; try assumption; [constructor|]. constructor; [unfold arity1; eauto|assumption]. Qed.

Definition to2 (f : N -> N -> N -> gate) (g : ginfo) : gate := f (nth 0 (fst g) 0) (nth 1 (fst g) 0) (snd g).
Definition to1 (g : ginfo) : gate := Inv (nth 0 (fst g) 0) (snd g).

Lemma zip3_cols f b : zip3 (inp_col 0 b) (inp_col 1 b) (out_col b) f = map (to2 f) b.
Proof. induction b as [|g b IH]; simpl; [reflexivity|]. f_equal. exact IH. Qed.
Lemma combine_cols b : map (fun x => Inv (fst x) (snd x)) (combine (inp_col 0 b) (out_col b)) = map to1 b.
Proof. induction b as [|g b IH]; simpl; [reflexivity|]. f_equal. exact IH. Qed.

Lemma kinds_perm gs :
  Permutation (map (to2 And) (and_infos gs) ++ map (to2 Xor) (xor_infos gs) ++ map to1 (inv_infos gs)) gs.
Proof.
  induction gs as [|g gs IH]; [reflexivity|]. destruct g as [a b o|a b o|a o]; simpl.
  - rewrite <- Permutation_middle. apply perm_skip. exact IH.
  - apply perm_skip. exact IH.
  - rewrite app_assoc, <- Permutation_middle. apply perm_skip. rewrite <- app_assoc. exact IH.
Qed.

Lemma map_concat_map (A B : Type) (f : A -> B) (l : list (list A)) : concat (map (map f) l) = map f (concat l).
Proof. symmetry. apply concat_map. Qed.

Lemma sat_block_iff f b : block_wf b -> (sat_block f b <-> Forall (sat f) (block_gates b)).
Proof.
  assert (Z : forall (g : N -> N -> N -> gate) (P : N -> N -> N -> Prop),
    (forall x y z, sat f (g x y z) <-> P x y z) ->
    forall o l r, length l = length o -> length r = length o ->
    ((forall i, (i < length o)%nat -> P (nth i l 0) (nth i r 0) (nth i o 0)) <-> Forall (sat f) (zip3 l r o g))).
  { intros g P HP. induction o as [|z o IH]; intros [|x l] [|y r] H1 H2; simpl in *; try lia.
    - split; [constructor|intros; lia].
    - destruct (IH l r ltac:(lia) ltac:(lia)) as [I1 I2]. split.
      + intro H. constructor; [apply HP, (H 0%nat); lia|]. apply I1. intros i Hi. apply (H (S i)). lia.
      + intros H i Hi. inversion H; subst. destruct i as [|i]; [now apply HP|]. apply I2; [assumption|lia]. }
  destruct b as [l r o|l r o|a o]; simpl.
  - intros [H1 H2]. apply (Z Xor (fun x y z => f z = xorb (f x) (f y))); [reflexivity|assumption|assumption].
  - intros [H1 H2]. apply (Z And (fun x y z => f z = f x && f y)); [reflexivity|assumption|assumption].
  - intro H. revert a H. induction o as [|z o IH]; intros [|x a] H; simpl in *; try lia.
    + split; [constructor|intros; lia].
    + destruct (IH a ltac:(lia)) as [I1 I2]. split.
      * intro HH. constructor; [apply (HH 0%nat); lia|]. apply I1. intros i Hi. apply (HH (S i)). lia.
      * intros HH i Hi. inversion HH; subst. destruct i as [|i]; [assumption|]. apply I2; [assumption|lia].
Qed.

Lemma counts_app a b : get_gate_counts (a ++ b) =
  let '(a1, x1, n1) := get_gate_counts a in let '(a2, x2, n2) := get_gate_counts b in
  (a1 + a2, x1 + x2, n1 + n2)%nat.
Proof.
  induction a as [|g a IH]; simpl.
  - now destruct (get_gate_counts b) as [[]].
  - rewrite IH. destruct (get_gate_counts a) as [[]], (get_gate_counts b) as [[]]. now destruct g.
Qed.

(** The shape of the packed circuit. *)
Lemma pack_ok c k : 1 <= k -> exists a x n inputs outputs,
  pack c k = Some (PCircuit
    (map (fun b => PAnd (inp_col 0 b) (inp_col 1 b) (out_col b)) a ++
     map (fun b => PXor (inp_col 0 b) (inp_col 1 b) (out_col b)) x ++
     map (fun b => PInv (inp_col 0 b) (out_col b)) n) inputs outputs (c_num_wires c) k) /\
  pack_gate_info k (and_infos (c_gates c)) = Some a /\
  pack_gate_info k (xor_infos (c_gates c)) = Some x /\
  pack_gate_info k (inv_infos (c_gates c)) = Some n /\
  concat inputs = concat (c_inputs c) /\ full_blocks (N.to_nat k) (map (@length N) inputs) /\
  concat outputs = concat (c_outputs c) /\ full_blocks (N.to_nat k) (map (@length N) outputs).
Proof.
  intro Hk. unfold pack.
  destruct (pack_info_ok k (and_infos (c_gates c)) Hk) as (a & Ea & _).
  destruct (pack_info_ok k (xor_infos (c_gates c)) Hk) as (x & Ex & _).
  destruct (pack_info_ok k (inv_infos (c_gates c)) Hk) as (n & En & _).
  destruct (chunks_ok _ k (concat (c_inputs c)) Hk) as (i & Ei & C1 & F1).
  destruct (chunks_ok _ k (concat (c_outputs c)) Hk) as (o & Eo & C2 & F2).
  rewrite Ea, Ex, En, Ei, Eo. cbn [obind]. exists a, x, n, i, o. repeat split; assumption.
Qed.

(** ** Weights *)

Lemma fold_max (key : N -> N * N) l : forall m,
  let r := fold_left (fun m i => if wt_leb m (key i) then key i else m) l m in
  (r = m \/ exists i, In i l /\ r = key i) /\ wt_leb m r = true /\ forall i, In i l -> wt_leb (key i) r = true.
Proof.
  assert (R : forall x, wt_leb x x = true).
  { intros [a b]. unfold wt_leb. simpl. rewrite N.eqb_refl, N.leb_refl. now rewrite orb_true_r. }
  induction l as [|i l IH]; intro m; simpl.
  - repeat split; [now left|apply R|tauto].
  - destruct (wt_leb m (key i)) eqn:E.
    + destruct (IH (key i)) as (H1 & H2 & H3). repeat split.
      * right. destruct H1 as [->|(j & Hj & ->)]; [exists i; auto|exists j; auto].
      * eapply wt_leb_trans; eassumption.
      * intros j [->|Hj]; [assumption|now apply H3].
    + destruct (IH m) as (H1 & H2 & H3). repeat split.
      * destruct H1 as [->|(j & Hj & ->)]; [now left|right; exists j; auto].
      * assumption.
      * intros j [->|Hj]; [|now apply H3]. eapply wt_leb_trans; [|exact H2]. now apply wt_leb_total.
Qed.

Lemma weight_max gs g : fst g <> [] ->
  (exists i, In i (fst g) /\ weight gs g = (fan_out gs i, i)) /\
  forall i, In i (fst g) -> wt_leb (fan_out gs i, i) (weight gs g) = true.
Proof.
  intro Hne. unfold weight. destruct (fst g) as [|i l]; [contradiction|].
  assert (Z : wt_leb (0, 0) (fan_out gs i, i) = true).
  { unfold wt_leb. simpl. destruct (N.ltb_spec 0 (fan_out gs i)); [reflexivity|].
    replace (fan_out gs i) with 0 by lia. simpl. apply N.leb_le. lia. }
  cbn [fold_left]. rewrite Z.
  destruct (fold_max (fun i => (fan_out gs i, i)) l (fan_out gs i, i)) as (H1 & H2 & H3).
  split.
  - destruct H1 as [->|(j & Hj & ->)]; [exists i; split; [now left|reflexivity]|exists j; split; [now right|reflexivity]].
  - intros j [->|Hj]; [exact H2|now apply H3].
Qed.

(** Step-by-step form of the topological order condition. *)
Fixpoint topo (D : list N) (gs : list gate) : Prop :=
  match gs with [] => True | g :: r => incl (gate_inputs g) D /\ topo (D ++ [gate_output g]) r end.
Lemma topo_ok gs : forall D, topo D gs -> forall pre g post, gs = pre ++ g :: post ->
  incl (gate_inputs g) (D ++ map gate_output pre).
Proof.
  induction gs as [|h gs IH]; intros D H pre g post E; [destruct pre; discriminate|].
  destruct H as [H1 H2]. destruct pre as [|p pre]; injection E as <- E.
  - simpl. now rewrite app_nil_r.
  - assert (T := IH _ H2 pre g post E). rewrite <- app_assoc in T. exact T.
Qed.

(** Proofs about src/circuit.rs: parsing, evaluation, packing. *)

From Coq Require Import Arith NArith List Bool Ascii String Lia Permutation Sorted.
From Verif Require Import CircuitModel CircuitSpec.
Import ListNotations.
Local Open Scope N_scope.

(** ** Tokens and lines *)

Lemma blank_ws c : blank c -> is_ws c = true /\ c <> nl.
Proof.
  unfold blank. simpl. intros [<-|[<-|[<-|[<-|[]]]]]; split; try reflexivity; discriminate.
Qed.

Lemma not_blank_ws c : ~ blank c -> c <> newline -> is_ws c = false.
Proof.
  intros H1 H2. unfold is_ws. assert (E := ascii_nat_embedding c).
  assert (NI : forall k, nat_of_ascii c = k -> c = ascii_of_nat k) by (intros; subst; congruence).
  destruct (Nat.eq_dec (nat_of_ascii c) 9) as [H|N1]; [apply NI in H; exfalso; apply H1; rewrite H; unfold blank; cbn; tauto|].
  destruct (Nat.eq_dec (nat_of_ascii c) 10) as [H|N2]; [apply NI in H; contradiction|].
  destruct (Nat.eq_dec (nat_of_ascii c) 12) as [H|N3]; [apply NI in H; exfalso; apply H1; rewrite H; unfold blank; cbn; tauto|].
  destruct (Nat.eq_dec (nat_of_ascii c) 13) as [H|N4]; [apply NI in H; exfalso; apply H1; rewrite H; unfold blank; cbn; tauto|].
  destruct (Nat.eq_dec (nat_of_ascii c) 32) as [H|N5]; [apply NI in H; exfalso; apply H1; rewrite H; unfold blank; cbn; tauto|].
  clear H1 H2 E NI. generalize dependent (nat_of_ascii c). intros n N1 N2 N3 N4 N5.
  do 33 (destruct n as [|n]; [lia || reflexivity|]). reflexivity.
Qed.

Lemma split_blanks ws t : Forall blank ws -> split_ws (ws ++ t) = split_ws t.
Proof.
  induction 1 as [|c ws H _ IH]; [reflexivity|]. simpl.
  unfold split_ws in *. simpl. destruct (blank_ws _ H) as [-> _]. exact IH.
Qed.

Lemma split_aux_tok cur t s : Forall (fun c => is_ws c = false) t ->
  split_ws_aux cur (t ++ s) = split_ws_aux (rev t ++ cur) s.
Proof.
  intro H. revert cur. induction H as [|c t Hc _ IH]; intro cur; [reflexivity|].
  simpl. rewrite Hc, IH. simpl. now rewrite <- app_assoc.
Qed.

Lemma token_chars t : token t -> Forall (fun c => is_ws c = false) t.
Proof. intros [_ H]. eapply Forall_impl; [|exact H]. intros c [H1 H2]. now apply not_blank_ws. Qed.

Lemma rev_ne (A : Type) (t : list A) : t <> [] -> rev t <> [].
Proof. intros H E. apply H. rewrite <- (rev_involutive t), E. reflexivity. Qed.

Lemma split_tok_sep t b s : token t -> is_ws b = true -> split_ws (t ++ b :: s) = t :: split_ws s.
Proof.
  intros Ht Hb. unfold split_ws. rewrite split_aux_tok by now apply token_chars.
  rewrite app_nil_r. simpl. rewrite Hb.
  assert (R := rev_ne _ t (proj1 Ht)). destruct (rev t) eqn:E; [contradiction|].
  rewrite <- E, rev_involutive. reflexivity.
Qed.

Lemma split_tok_end t : token t -> split_ws t = [t].
Proof.
  intro Ht. unfold split_ws. rewrite <- (app_nil_r t) at 1. rewrite split_aux_tok by now apply token_chars.
  rewrite app_nil_r. simpl. assert (R := rev_ne _ t (proj1 Ht)). destruct (rev t) eqn:E; [contradiction|].
  rewrite <- E, rev_involutive. reflexivity.
Qed.

Lemma split_layout toks l : layout toks l ->
  split_ws l = toks /\ forall s, split_ws (l ++ newline :: s) = toks ++ split_ws s.
Proof.
  induction 1 as [ws H|ws t H Ht|ws t b toks rest H Ht Hb HL [IH1 IH2]]; split; try intro s.
  - rewrite <- (app_nil_r ws), split_blanks by assumption. reflexivity.
  - rewrite split_blanks by assumption. reflexivity.
  - rewrite split_blanks by assumption. now apply split_tok_end.
  - rewrite <- app_assoc, split_blanks by assumption. now apply split_tok_sep.
  - rewrite split_blanks by assumption. rewrite split_tok_sep; [now rewrite IH1|easy|apply (blank_ws _ Hb)].
  - rewrite <- !app_assoc, split_blanks by assumption. simpl.
    rewrite split_tok_sep; [now rewrite IH2|easy|apply (blank_ws _ Hb)].
Qed.

Lemma layout_no_nl toks l : layout toks l -> ~ In newline l.
Proof.
  assert (B : forall ws, Forall blank ws -> ~ In newline ws).
  { intros ws H HI. rewrite Forall_forall in H. now destruct (blank_ws _ (H _ HI)). }
  assert (T : forall t, token t -> ~ In newline t).
  { intros t [_ H] HI. rewrite Forall_forall in H. now destruct (H _ HI). }
  induction 1 as [ws H|ws t H Ht|ws t b toks rest H Ht Hb HL IH]; rewrite ?in_app_iff; simpl.
  - now apply B.
  - intros [HI|HI]; [now apply (B ws)|now apply (T t)].
  - intros [HI|[HI|[HI|HI]]]; [now apply (B ws)|now apply (T t)| |now apply IH].
    subst b. now destruct (blank_ws _ Hb).
Qed.

Lemma read_line_nl l s : ~ In newline l -> read_line (l ++ newline :: s) = (l ++ [newline], s).
Proof.
  induction l as [|c l IH]; intro H; [reflexivity|]. simpl.
  destruct (Ascii.eqb_spec c nl) as [->|_]; [exfalso; apply H; now left|].
  rewrite IH; [reflexivity|]. intro. apply H. now right.
Qed.

Lemma read_line_end l : ~ In newline l -> read_line l = (l, []).
Proof.
  induction l as [|c l IH]; intro H; [reflexivity|]. simpl.
  destruct (Ascii.eqb_spec c nl) as [->|_]; [exfalso; apply H; now left|].
  rewrite IH; [reflexivity|]. intro. apply H. now right.
Qed.

(** ** Numbers *)

Lemma digit_val_ok d : d < 10 -> digit_val (ascii_of_N (48 + d)) = Some d.
Proof.
  intro H. assert (E : d = 0 \/ d = 1 \/ d = 2 \/ d = 3 \/ d = 4 \/ d = 5 \/ d = 6 \/ d = 7 \/ d = 8 \/ d = 9) by lia.
  repeat (destruct E as [->|E]; [reflexivity|]). subst d. reflexivity.
Qed.

Lemma parse_digits_ok ds acc : Forall (fun d => d < 10) ds ->
  acc * 10 ^ N.of_nat (List.length ds) + dec_value ds < u32_bound ->
  parse_digits acc (map (fun d => ascii_of_N (48 + d)) ds) =
  Some (acc * 10 ^ N.of_nat (List.length ds) + dec_value ds).
Proof.
  intro H. revert acc. induction H as [|d ds Hd _ IH]; intros acc HB.
  - simpl. f_equal. lia.
  - cbn [map parse_digits]. rewrite digit_val_ok by assumption. cbn [obind].
    cbn [List.length dec_value] in *. rewrite Nat2N.inj_succ, N.pow_succ_r' in *.
    set (P := 10 ^ N.of_nat (List.length ds)) in *.
    assert (HP : 1 <= P). { unfold P. assert (0 < 10 ^ N.of_nat (List.length ds)); [|lia]. apply N.neq_0_lt_0, N.pow_nonzero. lia. }
    destruct (N.ltb_spec (acc * 10 + d) u32_bound) as [_|HX]; [|nia].
    rewrite IH by (unfold P in *; nia). fold P. f_equal. lia.
Qed.

Lemma digit_not_plus d : d < 10 -> Ascii.eqb (ascii_of_N (48 + d)) "+"%char = false.
Proof.
  intro H. assert (E : d = 0 \/ d = 1 \/ d = 2 \/ d = 3 \/ d = 4 \/ d = 5 \/ d = 6 \/ d = 7 \/ d = 8 \/ d = 9) by lia.
  repeat (destruct E as [->|E]; [reflexivity|]). subst d. reflexivity.
Qed.

Lemma parse_num v t : num_tok v t -> v < u32_bound -> parse_u32 t = Some v.
Proof.
  intros (ds & Hne & Hd & Hv & ->) HB. destruct ds as [|d ds]; [contradiction|].
  assert (P := parse_digits_ok (d :: ds) 0 Hd). rewrite N.mul_0_l, N.add_0_l in P.
  rewrite Hv in P. specialize (P HB). cbn [map] in *. unfold parse_u32.
  rewrite digit_not_plus by now inversion Hd. exact P.
Qed.

Lemma digit_not_white d : d < 10 -> is_white (ascii_of_N (48 + d)) = false.
Proof.
  intro H. assert (E : d = 0 \/ d = 1 \/ d = 2 \/ d = 3 \/ d = 4 \/ d = 5 \/ d = 6 \/ d = 7 \/ d = 8 \/ d = 9) by lia.
  repeat (destruct E as [->|E]; [reflexivity|]). subst d. reflexivity.
Qed.

Lemma trim_start_id t : Forall (fun c => is_white c = false) t -> trim_start t = t.
Proof. intros [|c r H _]; [reflexivity|]. simpl. now rewrite H. Qed.

Lemma trim_id t : Forall (fun c => is_white c = false) t -> trim t = t.
Proof.
  intro H. unfold trim. rewrite (trim_start_id t) by assumption.
  rewrite trim_start_id by now apply Forall_rev. apply rev_involutive.
Qed.

Lemma trim_num v t : num_tok v t -> trim t = t.
Proof.
  intros (ds & _ & Hd & _ & ->). apply trim_id. apply Forall_map.
  eapply Forall_impl; [|exact Hd]. intros; now apply digit_not_white.
Qed.

Lemma trim_nums vs ts : Forall2 num_tok vs ts -> map trim ts = ts.
Proof. induction 1 as [|v t vs ts H _ IH]; [reflexivity|]. simpl. now rewrite IH, (trim_num v t). Qed.

Lemma next_num_ok v t r : num_tok v t -> v < u32_bound -> next_num (t :: r) = Some (v, r).
Proof. intros H HB. simpl. now rewrite (parse_num v t). Qed.

Lemma next_nums_ok vs ts r : Forall2 num_tok vs ts -> Forall (fun v => v < u32_bound) vs ->
  next_nums (List.length vs) (ts ++ r) = Some (vs, r).
Proof.
  induction 1 as [|v t vs ts H _ IH]; intro HB; [reflexivity|]. inversion HB; subst.
  cbn [List.length next_nums app]. rewrite (next_num_ok v t) by assumption. cbn [obind].
  rewrite IH by assumption. reflexivity.
Qed.

(** ** Gates *)

Lemma chars_eqb_refl a : chars_eqb a a = true.
Proof. unfold chars_eqb. destruct (list_eq_dec ascii_dec a a); congruence. Qed.

Lemma parse_gate_ok g toks : Forall2 num_tok (gate_numbers g) toks ->
  Forall (fun v => v < u32_bound) (gate_numbers g) ->
  parse_gate_toks (toks ++ [gate_kind g]) = Some g.
Proof.
  intros H HB. unfold parse_gate_toks. rewrite rev_app_distr. cbn [rev app].
  rewrite rev_involutive.
  assert (L : forall w, Forall (fun v => v < u32_bound) w -> True) by trivial. clear L.
  destruct g as [a b o|a b o|a o]; cbn [gate_numbers] in *;
    repeat match goal with
           | H : Forall2 _ (_ :: _) _ |- _ => inversion H; clear H; subst
           | H : Forall2 _ [] _ |- _ => inversion H; clear H; subst
           | H : Forall _ (_ :: _) |- _ => inversion H; clear H; subst
           end;
    repeat (erewrite next_num_ok by eassumption; cbn [obind]).
  - change (N.to_nat 2) with 2%nat. cbn [next_nums].
    repeat (erewrite next_num_ok by eassumption; cbn [obind]). reflexivity.
  - change (N.to_nat 2) with 2%nat. cbn [next_nums].
    repeat (erewrite next_num_ok by eassumption; cbn [obind]). reflexivity.
  - change (N.to_nat 1) with 1%nat. cbn [next_nums].
    repeat (erewrite next_num_ok by eassumption; cbn [obind]). reflexivity.
Qed.

Definition gate_bounded (g : gate) : Prop := Forall (fun v => v < u32_bound) (gate_numbers g).

Lemma parse_gates_ok gates gls body : Forall2 gate_line gates gls -> lines_of gls body ->
  Forall gate_bounded gates -> parse_gates (List.length gates) body = Some gates.
Proof.
  intros H. revert body. induction H as [|g l gates gls (toks & HT & HL) H2 IH]; intros body HB HG; [reflexivity|].
  inversion HG; subst. cbn [List.length parse_gates].
  destruct (split_layout _ _ HL) as [S1 S2]. assert (NI := layout_no_nl _ _ HL).
  inversion HB; subst.
  - (* last line without newline *)
    rewrite read_line_end by assumption.
    inversion H2; subst. rewrite S1, parse_gate_ok by assumption. reflexivity.
  - rewrite read_line_nl by assumption.
    assert (S3 := S2 []). change (split_ws []) with (@nil (list ascii)) in S3. rewrite app_nil_r in S3.
    rewrite S3, parse_gate_ok by assumption. cbn [obind]. rewrite IH by assumption. reflexivity.
Qed.

(** ** Header *)

Lemma scan_inputs_ok lens st : st + total lens < u32_bound -> scan_inputs st lens = Some (groups st lens).
Proof.
  revert st. induction lens as [|v r IH]; intros st H; [reflexivity|]. cbn [scan_inputs groups total fold_right] in *.
  fold (total r) in H. destruct (N.ltb_spec (st + v) u32_bound) as [_|HX]; [|lia].
  rewrite IH by lia. reflexivity.
Qed.

Lemma total_app a b : total (a ++ b) = total a + total b.
Proof. induction a as [|x a IH]; [reflexivity|]. simpl. unfold total in *. simpl. rewrite IH. lia. Qed.

Lemma groups_app st a b : groups st (a ++ b) = groups st a ++ groups (st + total a) b.
Proof.
  revert st. induction a as [|x a IH]; intro st; simpl; [now rewrite N.add_0_r|].
  rewrite IH. replace (st + x + total a) with (st + total (x :: a)); [reflexivity|].
  change (total (x :: a)) with (x + total a). lia.
Qed.

Lemma scan_outputs_ok lens st : total lens <= st ->
  scan_outputs st (rev lens) = Some (rev (groups (st - total lens) lens)).
Proof.
  revert st. induction lens as [|v r IH] using rev_ind; intros st H; [reflexivity|].
  rewrite total_app in H. change (total [v]) with (v + 0) in H.
  rewrite rev_app_distr. cbn [rev app scan_outputs].
  destruct (N.leb_spec v st) as [_|HX]; [|lia].
  rewrite IH by lia. cbn [obind]. rewrite groups_app, rev_app_distr, total_app.
  change (total [v]) with (v + 0). cbn [groups rev app].
  replace (st - (total r + (v + 0)) + total r) with (st - v) by lia.
  replace (st - v - total r) with (st - (total r + (v + 0))) by lia. reflexivity.
Qed.

Lemma read_header t1 t2 t3 t4 h1 h2 h3 h4 body :
  layout t1 h1 -> layout t2 h2 -> layout t3 h3 -> layout t4 h4 ->
  exists meta, read_lines 4 (h1 ++ newline :: h2 ++ newline :: h3 ++ newline :: h4 ++ newline :: body) = (meta, body) /\
    split_ws meta = t1 ++ t2 ++ t3 ++ t4.
Proof.
  intros L1 L2 L3 L4. cbn [read_lines].
  rewrite (read_line_nl h1) by now apply layout_no_nl in L1.
  rewrite (read_line_nl h2) by now apply layout_no_nl in L2.
  rewrite (read_line_nl h3) by now apply layout_no_nl in L3.
  rewrite (read_line_nl h4) by now apply layout_no_nl in L4.
  eexists. split; [reflexivity|].
  rewrite <- !app_assoc. cbn [app].
  rewrite (proj2 (split_layout _ _ L1)), (proj2 (split_layout _ _ L2)),
    (proj2 (split_layout _ _ L3)), (proj2 (split_layout _ _ L4)).
  change (split_ws []) with (@nil (list ascii)). now rewrite app_nil_r.
Qed.

Lemma parse_ok gates num_wires inp_lens out_lens text :
  bristol gates num_wires inp_lens out_lens text ->
  N.of_nat (List.length gates) < u32_bound -> num_wires < u32_bound ->
  N.of_nat (List.length inp_lens) < u32_bound -> N.of_nat (List.length out_lens) < u32_bound ->
  total inp_lens < u32_bound -> total out_lens <= num_wires ->
  Forall gate_bounded gates ->
  from_bristol_fashion text =
    Some (Circuit gates (groups 0 inp_lens) (rev (groups (num_wires - total out_lens) out_lens)) num_wires).
Proof.
  intros (t1 & t2 & t3 & t4 & h1 & h2 & h3 & h4 & body & gls & L1 & L2 & L3 & L4 & HN & HG & HL & ->)
    B1 B2 B3 B4 BI BO BG.
  assert (LE : forall lens, Forall (fun v => v <= total lens) lens).
  { induction lens as [|v r IH]; constructor; unfold total in *; simpl; [lia|].
    eapply Forall_impl; [|exact IH]. intros; simpl in *; lia. }
  assert (BI' : Forall (fun v => v < u32_bound) inp_lens).
  { eapply Forall_impl; [|apply LE]. intros; simpl in *; lia. }
  assert (BO' : Forall (fun v => v < u32_bound) out_lens).
  { eapply Forall_impl; [|apply LE]. intros; simpl in *; lia. }
  destruct (read_header t1 t2 t3 t4 h1 h2 h3 h4 body L1 L2 L3 L4) as (meta & E1 & E2).
  unfold from_bristol_fashion. rewrite E1, E2, (trim_nums _ _ HN). clear E1 E2.
  remember (t1 ++ t2 ++ t3 ++ t4) as toks.
  apply Forall2_app_inv_l in HN as (ta & tb & HA & HB & Et). rewrite Et in *. clear Heqtoks Et.
  repeat match goal with
         | H : Forall2 _ (_ :: _) _ |- _ => inversion H; clear H; subst
         | H : Forall2 _ [] _ |- _ => inversion H; clear H; subst
         end.
  apply Forall2_app_inv_l in HB as (tc & td & HC & HD & ->).
  inversion HD as [|no tno ol tol Hno Hol]; subst. cbn [app].
  rewrite (next_num_ok (N.of_nat (List.length gates))) by assumption. cbn [obind].
  rewrite (next_num_ok num_wires) by assumption. cbn [obind].
  rewrite (next_num_ok (N.of_nat (List.length inp_lens))) by assumption. cbn [obind].
  rewrite Nat2N.id, next_nums_ok by assumption. cbn [obind].
  rewrite scan_inputs_ok by lia. cbn [obind].
  rewrite (next_num_ok (N.of_nat (List.length out_lens))) by assumption. cbn [obind].
  cbn [app] in Hol. rewrite Nat2N.id. rewrite <- (app_nil_r tol). rewrite next_nums_ok by assumption. cbn [obind].
  rewrite scan_outputs_ok by assumption. cbn [obind].
  rewrite Nat2N.id, (parse_gates_ok gates gls) by assumption. reflexivity.
Qed.

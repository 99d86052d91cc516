(** The reader of circuits accepts exactly the texts of [ParseSpec]. *)

From Coq Require Import Arith NArith List Bool Ascii String Lia.
From Verif Require Import CircuitModel CircuitSpec CircuitProofs ParseSpec.
Import ListNotations.
Local Open Scope N_scope.

Lemma ws_blank c : is_ws c = true -> c <> newline -> blank c.
Proof.
  intros H N. destruct (in_dec ascii_dec c (map ascii_of_nat [9; 12; 13; 32])%nat) as [I|NI]; [exact I|].
  exfalso. rewrite (not_blank_ws c) in H; [discriminate|exact NI|exact N].
Qed.

Lemma not_ws_char c : is_ws c = false -> ~ blank c /\ c <> newline.
Proof.
  intro H. split; intro X.
  - destruct (blank_ws c X). congruence.
  - subst c. discriminate.
Qed.

Lemma lay_blank c toks l : blank c -> layout toks l -> layout toks (c :: l).
Proof.
  intros Hc HL. destruct HL as [ws H|ws t H Ht|ws t b toks rest H Ht Hb HL].
  - apply lay_nil. now constructor.
  - apply (lay_last (c :: ws)); [now constructor|assumption].
  - apply (lay_cons (c :: ws)); try assumption. now constructor.
Qed.

Lemma layout_aux l : ~ In newline l -> forall cur, Forall (fun c => is_ws c = false) cur ->
  layout (split_ws_aux cur l) (rev cur ++ l).
Proof.
  assert (TK : forall cur, cur <> [] -> Forall (fun c => is_ws c = false) cur -> token (rev cur)).
  { intros cur H0 H. split; [now apply rev_ne|]. apply Forall_rev. eapply Forall_impl; [|exact H].
    intros a Ha. now apply not_ws_char. }
  induction l as [|c l IH]; intros NI cur HC; simpl.
  - rewrite app_nil_r. destruct cur as [|x cur]; [apply lay_nil; constructor|].
    apply (lay_last []); [constructor|]. now apply TK.
  - assert (NL : ~ In newline l) by (intro; apply NI; now right).
    assert (Nc : c <> newline) by (intro; apply NI; now left).
    destruct (is_ws c) eqn:E.
    + apply ws_blank in E; [|assumption]. destruct cur as [|x cur].
      * apply lay_blank; [assumption|]. apply (IH NL []). constructor.
      * apply (lay_cons [] (rev (x :: cur)) c); [constructor|now apply TK|assumption|].
        apply (IH NL []). constructor.
    + replace (rev cur ++ c :: l) with (rev (c :: cur) ++ l) by (simpl; now rewrite <- app_assoc).
      apply (IH NL). now constructor.
Qed.

Lemma layout_split l : ~ In newline l -> layout (split_ws l) l.
Proof. intro H. apply (layout_aux l H []). constructor. Qed.

Lemma layout_iff toks l : layout toks l <-> ~ In newline l /\ split_ws l = toks.
Proof.
  split; [|intros [H <-]; now apply layout_split].
  intro H. split; [now apply (layout_no_nl toks)|]. now apply split_layout.
Qed.

Lemma split_nl l s : ~ In newline l -> split_ws (l ++ newline :: s) = split_ws l ++ split_ws s.
Proof. intro H. now apply (split_layout _ _ (layout_split l H)). Qed.

(** ** Lines *)

Lemma line_cases t : (exists l r, t = l ++ newline :: r /\ ~ In newline l) \/ ~ In newline t.
Proof.
  destruct (in_dec ascii_dec newline t) as [H|H]; [left|now right].
  induction t as [|c t IH]; [destruct H|].
  destruct (ascii_dec c newline) as [->|N]; [exists [], t; split; [reflexivity|intros []]|].
  destruct H as [H|H]; [congruence|]. destruct (IH H) as (l & r & -> & NI).
  exists (c :: l), r. split; [reflexivity|]. intros [?|?]; [congruence|contradiction].
Qed.

Lemma first_lines_nil k ls r : first_lines k [] ls r -> r = [] /\ List.concat (map split_ws ls) = [].
Proof.
  remember (@nil ascii) as t eqn:Et. intro H. revert Et.
  induction H as [t|k l t ls r NI H IH|k l ls r NI H IH]; intro E; [now split| |].
  - destruct l; discriminate.
  - subst l. destruct (IH eq_refl) as [-> E]. split; [reflexivity|]. simpl. exact E.
Qed.

Lemma read_lines_nil k : read_lines k [] = ([], []).
Proof. induction k as [|k IH]; [reflexivity|]. simpl. now rewrite IH. Qed.

Lemma read_lines_first k t ls r : first_lines k t ls r ->
  exists meta, read_lines k t = (meta, r) /\ split_ws meta = List.concat (map split_ws ls).
Proof.
  induction 1 as [t|k l t ls r NI H (m & E & IH)|k l ls r NI H (m & E & IH)].
  - exists []. split; reflexivity.
  - exists ((l ++ [newline]) ++ m). cbn [read_lines]. rewrite read_line_nl by assumption. rewrite E.
    split; [reflexivity|]. rewrite <- app_assoc. cbn [app map List.concat]. rewrite split_nl by assumption.
    now rewrite IH.
  - exists (l ++ m). cbn [read_lines]. rewrite read_line_end by assumption. rewrite E. split; [reflexivity|].
    rewrite read_lines_nil in E. injection E as <- <-. rewrite app_nil_r. cbn [map List.concat].
    rewrite <- IH. now rewrite app_nil_r.
Qed.

Lemma first_lines_ex k : forall t, exists ls r, first_lines k t ls r.
Proof.
  induction k as [|k IH]; intro t; [exists [], t; constructor|].
  destruct (line_cases t) as [(l & r & -> & NI)|NI].
  - destruct (IH r) as (ls & r' & H). exists (l :: ls), r'. now constructor.
  - destruct (IH []) as (ls & r' & H). exists (t :: ls), r'. now constructor.
Qed.

Lemma first_lines_no_nl k t ls r : first_lines k t ls r -> Forall (fun l => ~ In newline l) ls.
Proof. induction 1; constructor; assumption. Qed.

Lemma line_eq l l' t t' : ~ In newline l -> ~ In newline l' -> l ++ newline :: t = l' ++ newline :: t' -> l = l' /\ t = t'.
Proof.
  intros N N' E. pose proof (read_line_nl l t N) as R. rewrite E, (read_line_nl l' t' N') in R.
  injection R as R ->. apply app_inj_tail in R as [-> _]. now split.
Qed.

Lemma first_lines_fun k : forall t ls r ls' r', first_lines k t ls r -> first_lines k t ls' r' -> ls = ls' /\ r = r'.
Proof.
  assert (NL : forall l t, ~ ~ In newline (l ++ newline :: t)).
  { intros l t H. apply H. apply in_or_app. right. now left. }
  induction k as [|k IH]; intros t ls r ls' r' H H'.
  - inversion H; subst. inversion H'; subst. now split.
  - inversion H as [|? l s ms ? N F|? l ms ? N F]; subst; inversion H' as [|? l' s' ms' ? N' F' E|? l' ms' ? N' F' E]; subst.
    + match goal with E : _ ++ newline :: _ = _ ++ newline :: _ |- _ => apply line_eq in E as [? ?]; try assumption; subst end. destruct (IH _ _ _ _ _ F F') as [-> ->]. now split.
    + now apply NL in N'.
    + now apply NL in N.
    + destruct (IH _ _ _ _ _ F F') as [-> ->]. now split.
Qed.

(** ** Numbers *)

Lemma digit_inv c d : digit_val c = Some d -> d < 10 /\ c = ascii_of_N (48 + d).
Proof.
  unfold digit_val. destruct ((48 <=? N_of_ascii c) && (N_of_ascii c <=? 57)) eqn:E; [|discriminate].
  intros [= <-]. apply andb_prop in E as [E1 E2]. apply N.leb_le in E1, E2. split; [lia|].
  replace (48 + (N_of_ascii c - 48)) with (N_of_ascii c) by lia. now rewrite ascii_N_embedding.
Qed.

Lemma digits_inv t : forall acc v, parse_digits acc t = Some v ->
  exists ds, Forall (fun d => d < 10) ds /\ t = map (fun d => ascii_of_N (48 + d)) ds /\
    v = acc * 10 ^ N.of_nat (List.length ds) + dec_value ds /\ (t <> [] -> v < u32_bound).
Proof.
  induction t as [|c t IH]; intros acc v H.
  - injection H as <-. exists []. repeat split; [constructor|simpl; lia|contradiction].
  - cbn [parse_digits] in H. destruct (digit_val c) as [d|] eqn:D; [|discriminate]. cbn [obind] in H.
    destruct (N.ltb_spec (acc * 10 + d) u32_bound) as [B|]; [|discriminate].
    destruct (IH _ _ H) as (ds & F & -> & E & BV). apply digit_inv in D as [D ->].
    exists (d :: ds). repeat split; [now constructor| |].
    + rewrite E. cbn [List.length dec_value]. rewrite Nat2N.inj_succ, N.pow_succ_r'. lia.
    + intros _. destruct ds as [|x ds]; [|now apply BV]. simpl in E. lia.
Qed.

Lemma parse_u32_iff t v : parse_u32 t = Some v <-> u32_tok v t.
Proof.
  unfold u32_tok. change (2 ^ 32) with u32_bound. split.
  - assert (P : forall t, t <> [] -> parse_digits 0 t = Some v -> v < u32_bound /\ num_tok v t).
    { intros s Ns E. destruct (digits_inv _ _ _ E) as (ds & F & -> & E' & B). split; [now apply B|].
      exists ds. repeat split; [|assumption|now rewrite E'].
      intros ->. now apply Ns. }
    destruct t as [|c t]; [discriminate|]. unfold parse_u32.
    destruct (Ascii.eqb_spec c "+"%char) as [->|_].
    + destruct t as [|c t]; [discriminate|]. intro E. apply P in E as [B E]; [|discriminate].
      split; [assumption|]. right. now exists (c :: t).
    + intro E. apply P in E as [B E]; [|discriminate]. split; [assumption|now left].
  - intros [B [H|(t' & -> & H)]]; [now apply parse_num|].
    pose proof (parse_num v t' H B) as E. destruct H as (ds & Hne & Hd & _ & Et).
    destruct ds as [|d ds]; [contradiction|]. cbn [map] in Et. subst t'.
    unfold parse_u32 in *. rewrite digit_not_plus in E by now inversion Hd. exact E.
Qed.

Lemma white_iff c : white c <-> is_white c = true.
Proof.
  unfold white. split.
  - cbn [map In]. intros [<-|[<-|[<-|[<-|[<-|[<-|[]]]]]]]; reflexivity.
  - unfold is_white. assert (E := ascii_nat_embedding c). intro H. apply in_map_iff. exists (nat_of_ascii c).
    split; [assumption|]. clear E. revert H. generalize (nat_of_ascii c). intros n.
    do 33 (destruct n as [|n]; [cbn; intro; try discriminate; tauto|]). cbn. discriminate.
Qed.

Lemma trim_start_split t : exists a, t = a ++ trim_start t /\ Forall white a.
Proof.
  induction t as [|c t (a & E & H)]; [exists []; now split|]. simpl. destruct (is_white c) eqn:W.
  - exists (c :: a). split; [simpl; now rewrite <- E|]. constructor; [now apply white_iff|assumption].
  - exists []. now split.
Qed.

Lemma trim_start_white a t : Forall white a -> trim_start (a ++ t) = trim_start t.
Proof. induction 1 as [|c a H _ IH]; [reflexivity|]. simpl. apply white_iff in H. now rewrite H. Qed.

Lemma u32_tok_black v m : u32_tok v m -> m <> [] /\ Forall (fun c => is_white c = false) m.
Proof.
  intros [_ H].
  assert (P : forall m, num_tok v m -> m <> [] /\ Forall (fun c => is_white c = false) m).
  { intros s (ds & Hne & Hd & _ & ->). split; [destruct ds; [contradiction|discriminate]|].
    apply Forall_map. eapply Forall_impl; [|exact Hd]. intros; now apply digit_not_white. }
  destruct H as [H|(t' & -> & H)]; [now apply P|]. split; [discriminate|]. constructor; [reflexivity|now apply P].
Qed.

Lemma trim_start_app m b : m <> [] -> Forall (fun c => is_white c = false) m -> trim_start (m ++ b) = m ++ b.
Proof. intros N F. destruct F as [|c m' H _]; [now destruct N|]. simpl. now rewrite H. Qed.

Lemma parse_trim_iff t v : parse_u32 (trim t) = Some v <-> meta_tok v t.
Proof.
  split.
  - intro H. apply parse_u32_iff in H. unfold meta_tok.
    destruct (trim_start_split t) as (a & E & Ha). destruct (trim_start_split (rev (trim_start t))) as (b & E' & Hb).
    exists a, (trim t), (rev b). split; [|split; [assumption|split; [now apply Forall_rev|assumption]]].
    unfold trim. rewrite <- rev_app_distr, <- E', rev_involutive. exact E.
  - intros (a & m & b & -> & Ha & Hb & H). apply parse_u32_iff.
    destruct (u32_tok_black v m H) as [Nm Bm]. unfold trim. rewrite trim_start_white by assumption.
    rewrite trim_start_app by assumption. rewrite rev_app_distr, trim_start_white by now apply Forall_rev.
    rewrite (trim_start_id (rev m)) by now apply Forall_rev. now rewrite rev_involutive.
Qed.

Section Tokens.
Variables (f : list ascii -> list ascii) (P : N -> list ascii -> Prop).
Hypothesis fP : forall t v, parse_u32 (f t) = Some v <-> P v t.

Lemma next_num_iff toks v r : next_num (map f toks) = Some (v, r) <->
  exists t r', toks = t :: r' /\ r = map f r' /\ P v t.
Proof.
  destruct toks as [|t toks]; simpl.
  - split; [discriminate|]. intros (? & ? & ? & _). discriminate.
  - split.
    + destruct (parse_u32 (f t)) as [x|] eqn:E; [|discriminate]. intros [= <- <-].
      exists t, toks. repeat split. now apply fP.
    + intros (t' & r' & [= <- <-] & -> & H). apply fP in H. now rewrite H.
Qed.

Lemma next_nums_iff k : forall toks vs r, next_nums k (map f toks) = Some (vs, r) <->
  exists ts r', toks = ts ++ r' /\ r = map f r' /\ Forall2 P vs ts /\ List.length vs = k.
Proof.
  induction k as [|k IH]; intros toks vs r; cbn [next_nums].
  - split.
    + intros [= <- <-]. exists [], toks. repeat split. constructor.
    + intros (ts & r' & -> & -> & F & L). destruct vs; [|discriminate]. inversion F; subst. reflexivity.
  - split.
    + destruct (next_num (map f toks)) as [[v r1]|] eqn:E; [|discriminate]. cbn [obind].
      apply next_num_iff in E as (t & r' & -> & -> & H).
      destruct (next_nums k (map f r')) as [[ws r2]|] eqn:E; [|discriminate]. cbn [obind].
      apply IH in E as (ts & r'' & -> & -> & F & L). intros [= <- <-].
      exists (t :: ts), r''. repeat split; [now constructor|simpl; now rewrite L].
    + intros (ts & r' & -> & -> & F & L). destruct F as [|v t vs ts H F]; [discriminate|].
      assert (E : next_num (map f ((t :: ts) ++ r')) = Some (v, map f (ts ++ r'))).
      { apply next_num_iff. exists t, (ts ++ r'). repeat split. assumption. }
      rewrite E. cbn [obind].
      assert (E' : next_nums k (map f (ts ++ r')) = Some (vs, map f r')).
      { apply IH. exists ts, r'. repeat split; [assumption|]. now injection L. }
      rewrite E'. reflexivity.
Qed.
End Tokens.

(** ** Gates *)

Lemma chars_eqb_iff a b : chars_eqb a b = true <-> a = b.
Proof. unfold chars_eqb. destruct (list_eq_dec ascii_dec a b); split; congruence. Qed.

Definition loose_toks (g : gate) (all : list (list ascii)) : Prop :=
  exists fan_out inps toks extra,
    Forall2 u32_tok ([N.of_nat (List.length inps); fan_out] ++ inps ++ [gate_output g]) toks /\
    takes g inps /\ all = toks ++ extra ++ [gate_kind g].

Definition nn := next_num_iff (fun t => t) u32_tok parse_u32_iff.
Definition nns := next_nums_iff (fun t => t) u32_tok parse_u32_iff.

Lemma gate_toks_iff all g : parse_gate_toks all = Some g <-> loose_toks g all.
Proof.
  unfold parse_gate_toks, loose_toks. split.
  - destruct (rev all) as [|ty rbody] eqn:R; [discriminate|].
    assert (EA : all = rev rbody ++ [ty]) by (rewrite <- (rev_involutive all), R; reflexivity).
    destruct (next_num (rev rbody)) as [[fi r1]|] eqn:E1; [|discriminate]. cbn [obind].
    destruct (next_num r1) as [[fo r2]|] eqn:E2; [|discriminate]. cbn [obind].
    destruct (next_nums (N.to_nat fi) r2) as [[inps r3]|] eqn:E3; [|discriminate]. cbn [obind].
    destruct (next_num r3) as [[out r4]|] eqn:E4; [|discriminate]. cbn [obind].
    rewrite <- (map_id (rev rbody)) in E1. apply nn in E1 as (t1 & r1' & B1 & -> & P1). rewrite map_id in E2.
    rewrite <- (map_id r1') in E2. apply nn in E2 as (t2 & r2' & B2 & -> & P2). rewrite map_id in E3.
    rewrite <- (map_id r2') in E3. apply nns in E3 as (t3 & r3' & B3 & -> & P3 & L3). rewrite map_id in E4.
    rewrite <- (map_id r3') in E4. apply nn in E4 as (t4 & r4' & B4 & _ & P4).
    assert (HF : Forall2 u32_tok ([N.of_nat (List.length inps); fo] ++ inps ++ [out]) ([t1; t2] ++ t3 ++ [t4])).
    { cbn [app]. constructor; [rewrite L3, N2Nat.id; assumption|]. constructor; [assumption|].
      apply Forall2_app; [assumption|]. constructor; [assumption|constructor]. }
    assert (HA : all = ([t1; t2] ++ t3 ++ [t4]) ++ r4' ++ [ty]).
    { rewrite EA, B1, B2, B3, B4. cbn [app]. rewrite <- !app_assoc. reflexivity. }
    clear - HF HA. intro H.
    destruct (chars_eqb ty (str "AND")) eqn:K1; [|destruct (chars_eqb ty (str "XOR")) eqn:K2;
      [|destruct (chars_eqb ty (str "INV")) eqn:K3; [|discriminate]]];
      (match goal with K : chars_eqb _ _ = true |- _ => apply chars_eqb_iff in K; subst ty end);
      (destruct inps as [|a [|b more]]; try discriminate; cbn [idx nth_error obind] in H; injection H as <-);
      exists fo; eexists; exists ([t1; t2] ++ t3 ++ [t4]), r4'; (split; [exact HF|]); (split; [|exact HA]);
      cbn [takes]; eexists; reflexivity.
  - intros (fo & inps & toks & extra & HF & HT & ->).
    apply Forall2_app_inv_l in HF as (ta & tb & HA & HB & ->).
    apply Forall2_app_inv_l in HB as (tc & td & HC & HD & ->).
    inversion HA as [|? t1 ? ta' P1 HA']; subst. inversion HA' as [|? t2 ? ta'' P2 HA'']; subst.
    inversion HA''; subst. inversion HD as [|? t4 ? td' P4 HD']; subst. inversion HD'; subst.
    replace (([t1; t2] ++ tc ++ [t4]) ++ extra ++ [gate_kind g]) with ((t1 :: t2 :: tc ++ t4 :: extra) ++ [gate_kind g])
      by (cbn [app]; rewrite <- !app_assoc; reflexivity).
    rewrite rev_unit. cbv beta iota. rewrite rev_involutive.
    assert (E1 : next_num (t1 :: t2 :: tc ++ t4 :: extra) = Some (N.of_nat (List.length inps), t2 :: tc ++ t4 :: extra)).
    { rewrite <- (map_id (t1 :: _)). apply nn. exists t1. eexists. split; [reflexivity|split; [symmetry; apply map_id|assumption]]. }
    rewrite E1. cbn [obind].
    assert (E2 : next_num (t2 :: tc ++ t4 :: extra) = Some (fo, tc ++ t4 :: extra)).
    { rewrite <- (map_id (t2 :: _)). apply nn. exists t2. eexists. split; [reflexivity|split; [symmetry; apply map_id|assumption]]. }
    rewrite E2. cbn [obind].
    assert (E3 : next_nums (N.to_nat (N.of_nat (List.length inps))) (tc ++ t4 :: extra) = Some (inps, t4 :: extra)).
    { rewrite <- (map_id (tc ++ _)). apply nns. exists tc, (t4 :: extra).
      repeat split; [symmetry; apply map_id|assumption|now rewrite Nat2N.id]. }
    rewrite E3. cbn [obind].
    assert (E4 : next_num (t4 :: extra) = Some (gate_output g, extra)).
    { rewrite <- (map_id (t4 :: _)). apply nn. exists t4. eexists. split; [reflexivity|split; [symmetry; apply map_id|assumption]]. }
    rewrite E4. cbn [obind]. clear - HT.
    destruct g; cbn [takes gate_kind] in *; destruct HT as (more & ->); reflexivity.
Qed.

Lemma loose_line_iff g l : loose_line g l <-> ~ In newline l /\ loose_toks g (split_ws l).
Proof.
  split.
  - intros (fo & inps & toks & extra & HF & HT & HL). apply layout_iff in HL as [NI E]. split; [assumption|].
    exists fo, inps, toks, extra. auto.
  - intros (NI & fo & inps & toks & extra & HF & HT & E). exists fo, inps, toks, extra.
    split; [assumption|]. split; [assumption|]. now apply layout_iff.
Qed.

Lemma gates_iff k : forall t gs, parse_gates k t = Some gs <->
  List.length gs = k /\ exists gls r, first_lines k t gls r /\ Forall2 loose_line gs gls.
Proof.
  induction k as [|k IH]; intros t gs.
  - cbn [parse_gates]. split.
    + intros [= <-]. split; [reflexivity|]. exists [], t. split; constructor.
    + intros (L & gls & r & FL & F). destruct gs; [reflexivity|discriminate].
  - cbn [parse_gates].
    assert (RL : forall l g, ~ In newline l -> parse_gate_toks (split_ws l) = Some g -> loose_line g l).
    { intros l g NI E. apply loose_line_iff. split; [assumption|now apply gate_toks_iff]. }
    split.
    + destruct (line_cases t) as [(l & r & -> & NI)|NI].
      * rewrite read_line_nl by assumption. rewrite split_nl by assumption.
        change (split_ws []) with (@nil (list ascii)). rewrite app_nil_r.
        destruct (parse_gate_toks (split_ws l)) as [g|] eqn:E; [|discriminate]. cbn [obind].
        destruct (parse_gates k r) as [gs'|] eqn:E'; [|discriminate]. intros [= <-].
        apply IH in E' as (L & gls & r' & FL & F). split; [simpl; now rewrite L|].
        exists (l :: gls), r'. split; [now constructor|]. constructor; [|assumption]. now apply RL.
      * rewrite read_line_end by assumption.
        destruct (parse_gate_toks (split_ws t)) as [g|] eqn:E; [|discriminate]. cbn [obind].
        destruct (parse_gates k []) as [gs'|] eqn:E'; [|discriminate]. intros [= <-].
        apply IH in E' as (L & gls & r' & FL & F). split; [simpl; now rewrite L|].
        exists (t :: gls), r'. split; [now constructor|]. constructor; [|assumption]. now apply RL.
    + intros (L & gls & r & FL & F). destruct gs as [|g gs]; [discriminate|]. injection L as L.
      inversion F as [|? l ? gls' HG F']; subst. pose proof HG as HG'. apply loose_line_iff in HG as [NI HT].
      apply gate_toks_iff in HT. inversion FL as [|? ? t' ? ? NI' FL' |? ? ? ? NI' FL']; subst.
      * rewrite read_line_nl by assumption. rewrite split_nl by assumption.
        change (split_ws []) with (@nil (list ascii)). rewrite app_nil_r, HT. cbn [obind].
        assert (E : parse_gates (List.length gs) t' = Some gs).
        { apply IH. split; [reflexivity|]. now exists gls', r. }
        now rewrite E.
      * rewrite read_line_end by assumption. rewrite HT. cbn [obind].
        assert (E : parse_gates (List.length gs) [] = Some gs).
        { apply IH. split; [reflexivity|]. now exists gls', r. }
        now rewrite E.
Qed.

(** ** The header *)

Lemma scan_inputs_inv lens : forall st x, st < u32_bound -> scan_inputs st lens = Some x ->
  st + total lens < u32_bound /\ x = groups st lens.
Proof.
  induction lens as [|v lens IH]; intros st x B H; cbn [scan_inputs groups] in *.
  - injection H as <-. unfold total. simpl. split; [lia|reflexivity].
  - destruct (N.ltb_spec (st + v) u32_bound) as [B'|]; [|discriminate].
    destruct (scan_inputs (st + v) lens) as [y|] eqn:E; [|discriminate]. injection H as <-.
    apply IH in E as [BT ->]; [|assumption]. change (total (v :: lens)) with (v + total lens).
    split; [lia|reflexivity].
Qed.

Lemma scan_outputs_inv lens : forall st x, scan_outputs st (rev lens) = Some x -> total lens <= st.
Proof.
  induction lens as [|v lens IH] using rev_ind; intros st x H; [unfold total; simpl; lia|].
  rewrite rev_app_distr in H. cbn [rev app scan_outputs] in H.
  destruct (N.leb_spec v st) as [B|]; [|discriminate].
  destruct (scan_outputs (st - v) (rev lens)) as [y|] eqn:E; [|discriminate].
  apply IH in E. rewrite total_app. change (total [v]) with (v + 0). lia.
Qed.

Definition mn := next_num_iff trim meta_tok parse_trim_iff.
Definition mns := next_nums_iff trim meta_tok parse_trim_iff.

Lemma reader_iff text c : from_bristol_fashion text = Some c <-> loose_file text c.
Proof.
  unfold from_bristol_fashion, loose_file. split.
  - destruct (first_lines_ex 4 text) as (hls & body & FL).
    destruct (read_lines_first 4 text hls body FL) as (meta & E & ES). rewrite E, ES. clear E ES meta.
    assert (HL : Forall2 layout (map split_ws hls) hls).
    { apply first_lines_no_nl in FL. clear - FL. induction FL; simpl; constructor; [|assumption]. now apply layout_split. }
    remember (map split_ws hls) as htoks eqn:EH. clear EH.
    destruct (next_num (map trim (List.concat htoks))) as [[ng r1]|] eqn:E1; [|discriminate]. cbn [obind].
    apply mn in E1 as (t1 & r1' & B1 & -> & P1).
    destruct (next_num (map trim r1')) as [[nw r2]|] eqn:E2; [|discriminate]. cbn [obind].
    apply mn in E2 as (t2 & r2' & B2 & -> & P2).
    destruct (next_num (map trim r2')) as [[ni r3]|] eqn:E3; [|discriminate]. cbn [obind].
    apply mn in E3 as (t3 & r3' & B3 & -> & P3).
    destruct (next_nums (N.to_nat ni) (map trim r3')) as [[il r4]|] eqn:E4; [|discriminate]. cbn [obind].
    apply mns in E4 as (t4 & r4' & B4 & -> & P4 & L4).
    destruct (scan_inputs 0 il) as [inputs|] eqn:SI; [|discriminate]. cbn [obind].
    destruct (next_num (map trim r4')) as [[no r5]|] eqn:E5; [|discriminate]. cbn [obind].
    apply mn in E5 as (t5 & r5' & B5 & -> & P5).
    destruct (next_nums (N.to_nat no) (map trim r5')) as [[ol r6]|] eqn:E6; [|discriminate]. cbn [obind].
    apply mns in E6 as (t6 & r6' & B6 & -> & P6 & L6).
    destruct (scan_outputs nw (rev ol)) as [outputs|] eqn:SO; [|discriminate]. cbn [obind].
    destruct (parse_gates (N.to_nat ng) body) as [gs|] eqn:EG; [|discriminate]. cbn [obind].
    intros [= <-]. cbn [c_gates c_inputs c_outputs c_num_wires].
    apply scan_inputs_inv in SI as [BI ->]; [|reflexivity]. pose proof (scan_outputs_inv _ _ _ SO) as BO.
    rewrite scan_outputs_ok in SO by assumption. injection SO as <-.
    apply gates_iff in EG as (LG & gls & rest & FG & GG).
    exists il, ol, hls, htoks, ([t1; t2; t3] ++ t4 ++ [t5] ++ t6), r6', body, gls, rest.
    split; [assumption|]. split; [assumption|]. split.
    { rewrite B1, B2, B3, B4, B5, B6. cbn [app]. rewrite <- !app_assoc. reflexivity. }
    split.
    { rewrite LG, N2Nat.id, L4, N2Nat.id, L6, N2Nat.id. cbn [app]. do 3 (constructor; [assumption|]).
      apply Forall2_app; [assumption|]. constructor; assumption. }
    rewrite LG. split; [exact BI|]. split; [exact BO|]. auto.
  - intros (il & ol & hls & htoks & toks & extra & body & gls & rest & FL & HL & EC & HN & BI & BO & EI & EO & FG & GG).
    destruct (read_lines_first 4 text hls body FL) as (meta & E & ES). rewrite E, ES. clear E ES meta FL.
    assert (EH : map split_ws hls = htoks).
    { clear - HL. induction HL as [|ts l htoks hls H _ IH]; [reflexivity|]. simpl. rewrite IH.
      now rewrite (proj1 (split_layout _ _ H)). }
    rewrite EH, EC. clear EH EC HL.
    apply Forall2_app_inv_l in HN as (ta & tb & HA & HB & ->).
    apply Forall2_app_inv_l in HB as (tc & td & HC & HD & ->).
    inversion HA as [|? t1 ? ta' P1 HA']; subst. inversion HA' as [|? t2 ? ta'' P2 HA'']; subst.
    inversion HA'' as [|? t3 ? ta3 P3 HA3]; subst. inversion HA3; subst.
    inversion HD as [|? t5 ? td' P5 HD']; subst. cbn [app] in HD'. rewrite <- !app_assoc. cbn [app].
    assert (E1 : forall v t r, meta_tok v t -> next_num (map trim (t :: r)) = Some (v, map trim r)).
    { intros v t r H. apply mn. now exists t, r. }
    assert (E2 : forall vs ts r, Forall2 meta_tok vs ts ->
      next_nums (N.to_nat (N.of_nat (List.length vs))) (map trim (ts ++ r)) = Some (vs, map trim r)).
    { intros vs ts r H. apply mns. exists ts, r. repeat split; [assumption|]. now rewrite Nat2N.id. }
    rewrite (E1 _ _ _ P1). cbn [obind]. rewrite (E1 _ _ _ P2). cbn [obind]. rewrite (E1 _ _ _ P3). cbn [obind].
    rewrite (E2 _ _ _ HC). cbn [obind]. rewrite scan_inputs_ok by exact BI. cbn [obind].
    rewrite (E1 _ _ _ P5). cbn [obind]. rewrite (E2 _ _ _ HD'). cbn [obind].
    rewrite scan_outputs_ok by exact BO. cbn [obind].
    assert (EG : parse_gates (N.to_nat (N.of_nat (List.length (c_gates c)))) body = Some (c_gates c)).
    { rewrite Nat2N.id. apply gates_iff. split; [reflexivity|]. now exists gls, rest. }
    rewrite EG. cbn [obind]. rewrite <- EI, <- EO. now destruct c.
Qed.

(** Property theorems C05 and C06, continued: what [init] and [rand] do in every
    history of calls, over any widths, with any outcomes of allocations; what the
    decoder accepts. *)

From Coq Require Import ZArith NArith List Bool Lia.
From Verif Require Import GaloisModel GF2Poly GaloisOrder GaloisProofs GaloisSpec GaloisHist
  CodecModel CodecProofs P_Galois.
Import ListNotations.
Local Open Scope N_scope.

(** The first [init] of a history (whether memory sufficed, and its width), and
    the width of the first [rand]. *)
Fixpoint first_init (cs : list gcall) : option (bool * N) :=
  match cs with
  | [] => None
  | CallInit m1 m2 w :: _ => Some (m1 && m2, w)
  | CallRand _ _ :: cs' => first_init cs'
  end.
Fixpoint first_rand (cs : list gcall) : option N :=
  match cs with
  | [] => None
  | CallRand w _ :: _ => Some w
  | CallInit _ _ _ :: cs' => first_rand cs'
  end.

(** Any supported width, any outcome of the allocations, any coins. *)
Definition supported_call (c : gcall) : Prop :=
  match c with CallInit _ _ w | CallRand w _ => 1 <= w <= 29 end.

(** Arithmetic of width [w] is that of GF(2^w): products are products of
    polynomials modulo [field_poly w], quotients undo products. *)
Definition field_works (w : N) (g : gstate) : Prop :=
  forall a b, a < 2 ^ w -> b < 2 ^ w ->
  (exists m q, gf_mul g w a b = Done m /\ m < 2 ^ w /\ clmul a b = N.lxor (clmul q (field_poly w)) m) /\
  (b <> 0 -> exists q, gf_div g w a b = Done q /\ q < 2 ^ w /\ gf_mul g w q b = Done a).

(** Nothing but zeros can be multiplied, and nothing but zero divided. *)
Definition field_broken (w : N) (g : gstate) : Prop :=
  forall a b, a < 2 ^ w -> b < 2 ^ w -> a <> 0 -> b <> 0 -> gf_mul g w a b = UB /\ gf_div g w a b = UB.

(** What the [i]-th call returns, given the calls before it: [init] fails only if
    it is the first one and lacks memory, [rand] samples below the order of the
    field of the first [rand]. *)
Definition call_out (before : list gcall) (c : gcall) : gout :=
  match c with
  | CallInit m1 m2 _ => OutInit (match first_init before with None => m1 && m2 | Some _ => true end)
  | CallRand w coin => OutRand (coin (2 ^ match first_rand before with None => w | Some v => v end))
  end.

Definition state_is (before : list gcall) (g : gstate) : Prop :=
  g_once g = (match first_init before with None => false | Some _ => true end) /\
  g_dist g = (match first_rand before with None => None | Some w => Some (2 ^ w) end) /\
  forall v, match first_init before with
            | Some (true, w) => if v =? w then exists lg il, g_tabs g v = Some (lg, il) /\ tables_ok w lg il else g_tabs g v = None
            | _ => g_tabs g v = None
            end.

Lemma first_init_app a b : first_init (a ++ b) = match first_init a with None => first_init b | Some x => Some x end.
Proof. induction a as [|[m1 m2 w|w coin] a IH]; cbn; auto. Qed.
Lemma first_rand_app a b : first_rand (a ++ b) = match first_rand a with None => first_rand b | Some x => Some x end.
Proof. induction a as [|[m1 m2 w|w coin] a IH]; cbn; auto. Qed.

Lemma history_from cs : forall before g, Forall supported_call cs -> state_is before g ->
  exists g' outs, run_calls cs g = Done (g', outs) /\ state_is (before ++ cs) g' /\ length outs = length cs /\
    forall i c, nth_error cs i = Some c -> nth_error outs i = Some (call_out (before ++ firstn i cs) c).
Proof.
  induction cs as [|c cs IH]; intros before g Hs Hg.
  - exists g, []. rewrite app_nil_r. repeat split; try apply Hg. intros [|i] c H; discriminate.
  - inversion Hs as [|? ? Hc Hs']; subst.
    enough (exists g1, run_calls (c :: cs) g = cbind (run_calls cs g1) (fun q => Done (fst q, call_out before c :: snd q)) /\
              state_is (before ++ [c]) g1) as (g1 & E & S1).
    { destruct (IH (before ++ [c]) g1 Hs' S1) as (g' & outs & R & S & L & O).
      exists g', (call_out before c :: outs). rewrite E, R. cbn [cbind fst snd].
      rewrite <- app_assoc in S. split; [reflexivity|]. split; [exact S|]. split; [cbn; now rewrite L|].
      intros [|i] x Hx; cbn [nth_error firstn] in *.
      - injection Hx as <-. now rewrite app_nil_r.
      - rewrite (O i x Hx), <- app_assoc. reflexivity. }
    destruct Hg as (G1 & G2 & G3). unfold state_is. rewrite first_init_app, first_rand_app.
    destruct c as [m1 m2 w|w coin]; cbn [supported_call] in Hc; cbn [run_calls call_out first_init first_rand].
    + unfold gf_init. rewrite G1. destruct (first_init before) as [[mem w0]|] eqn:Ef; cbn [cbind fst snd].
      * exists g. split; [reflexivity|]. split; [exact G1|]. split; [now destruct (first_rand before)|exact G3].
      * unfold create_log_tables_g. destruct (N.ltb_spec 30 w); [lia|]. rewrite (G3 w).
        destruct (m1 && m2) eqn:Em.
        -- apply andb_true_iff in Em as [-> ->]. destruct (create_ok w Hc) as (lg & il & E & T). rewrite E. cbn [cbind fst snd].
           eexists. split; [reflexivity|]. cbn [g_once g_dist g_tabs]. split; [reflexivity|].
           split; [now rewrite G2; destruct (first_rand before)|]. intros v. destruct (N.eqb_spec v w) as [->|]; [eauto|apply G3].
        -- assert (E : create_log_tables m1 m2 w = Fail).
           { unfold create_log_tables. destruct (N.ltb_spec 30 w); [lia|]. now destruct m1, m2. }
           rewrite E. cbn [cbind fst snd].
           eexists. split; [reflexivity|]. cbn [g_once g_dist g_tabs]. split; [reflexivity|].
           split; [now rewrite G2; destruct (first_rand before)|exact G3].
    + unfold gf_rand. rewrite G2. destruct (first_rand before) as [w0|] eqn:Ef; cbn [fst snd].
      * exists g. split; [reflexivity|]. split; [now rewrite G1; destruct (first_init before)|]. split; [exact G2|].
        intros v. specialize (G3 v). destruct (first_init before) as [[[] w1]|]; exact G3.
      * eexists. split; [reflexivity|]. cbn [g_once g_dist g_tabs]. split; [now rewrite G1; destruct (first_init before)|].
        split; [reflexivity|]. intros v. specialize (G3 v). destruct (first_init before) as [[[] w1]|]; exact G3.
Qed.

Lemma tables_work w g lg il : 1 <= w <= 29 -> g_tabs g w = Some (lg, il) -> tables_ok w lg il -> field_works w g.
Proof.
  intros Hw E T a b Ha Hb. assert (W : 1 <= w) by lia. split.
  - destruct (gmul_clmul w (prim_poly w) W a b Ha Hb) as [q Hq]. rewrite field_poly_modulus in Hq by lia.
    exists (gmul w (prim_poly w) a b), q. split; [now apply (mul_ok w Hw lg il T g E)|]. split; [now apply gmul_lt|assumption].
  - intros Hn. destruct (div_ok w Hw lg il T g E a b Ha Hb Hn) as (q & Eq & Lq & Mq).
    exists q. split; [assumption|]. split; [assumption|]. rewrite (mul_ok w Hw lg il T g E) by assumption. now rewrite Mq.
Qed.

Lemma no_tables_broken w g : 1 <= w <= 29 -> g_tabs g w = None -> field_broken w g.
Proof.
  intros Hw E a b Ha Hb Na Nb. assert (Sm := small w Hw). unfold gf_mul, gf_div. rewrite !as_i32_small by (apply Sm; assumption).
  unfold logtable_multiply, logtable_divide. rewrite E.
  destruct (Z.eqb_spec (Z.of_N a) 0); [lia|]. destruct (Z.eqb_spec (Z.of_N b) 0); [lia|]. split; reflexivity.
Qed.

(** Every history runs to its end.  Arithmetic of a width works afterwards if the
    first [init] of all was for this width and had memory, and otherwise reads
    through a null pointer.  Every [init] but a failed first one returns Ok. *)
Theorem C05_every_history : forall cs, Forall supported_call cs ->
  exists g outs, run_calls cs g_start = Done (g, outs) /\ length outs = length cs /\
    (forall i c, nth_error cs i = Some c -> nth_error outs i = Some (call_out (firstn i cs) c)) /\
    forall v, 1 <= v <= 29 ->
      (first_init cs = Some (true, v) -> field_works v g) /\ (first_init cs <> Some (true, v) -> field_broken v g).
Proof.
  intros cs Hs.
  assert (S0 : state_is [] g_start) by (repeat split).
  destruct (history_from cs [] g_start Hs S0) as (g & outs & R & (_ & _ & S) & L & O).
  exists g, outs. split; [exact R|]. split; [exact L|]. split; [exact O|].
  intros v Hv. specialize (S v). cbn [app] in S. split.
  - intros E. rewrite E, N.eqb_refl in S. destruct S as (lg & il & E' & T). now apply (tables_work v g lg il).
  - intros N. apply no_tables_broken; [exact Hv|]. destruct (first_init cs) as [[[] w]|]; auto.
    destruct (N.eqb_spec v w) as [->|]; [contradiction|exact S].
Qed.
Print Assumptions C05_every_history.

(** The claim of C05 for one history: wherever [init] of a width returns Ok,
    arithmetic of this width works from then on.  It holds exactly if all [init]
    calls of the history, but a failed first one if it is the only one, are for
    the width of the first. *)
Definition ok_means_works (cs : list gcall) : Prop :=
  forall i m1 m2 v g outs, nth_error cs i = Some (CallInit m1 m2 v) ->
    run_calls cs g_start = Done (g, outs) -> nth_error outs i = Some (OutInit true) -> field_works v g.

(** Widths of the calls of [init]. *)
Fixpoint init_widths (cs : list gcall) : list N :=
  match cs with
  | [] => []
  | CallInit _ _ w :: cs' => w :: init_widths cs'
  | CallRand _ _ :: cs' => init_widths cs'
  end.

Lemma works_not_broken v g : 1 <= v -> field_works v g -> ~ field_broken v g.
Proof.
  intros Hv W B. assert (P : 1 < 2 ^ v) by (change 1 with (2 ^ 0); apply N.pow_lt_mono_r; lia).
  destruct (W 1 1 P P) as [(m & q & E & _) _]. destruct (B 1 1 P P) as [E' _]; [lia|lia|]. congruence.
Qed.

Lemma first_init_none cs : first_init cs = None <-> init_widths cs = [].
Proof. induction cs as [|[m1 m2 w|w coin] cs IH]; cbn; [tauto|split; discriminate|exact IH]. Qed.

Lemma nth_init_width cs : forall i m1 m2 v, nth_error cs i = Some (CallInit m1 m2 v) -> In v (init_widths cs).
Proof.
  induction cs as [|c cs IH]; intros [|i] m1 m2 v H; try discriminate; cbn [nth_error] in H.
  - injection H as ->. now left.
  - apply IH in H. destruct c; [now right|exact H].
Qed.

Lemma later_init cs : forall mem w v r, first_init cs = Some (mem, w) -> init_widths cs = w :: r -> In v r ->
  exists i m1 m2, nth_error cs i = Some (CallInit m1 m2 v) /\ first_init (firstn i cs) = Some (mem, w).
Proof.
  assert (N : forall cs v, In v (init_widths cs) -> exists i m1 m2, nth_error cs i = Some (CallInit m1 m2 v)).
  { induction cs0 as [|[m1 m2 w|w coin] cs0 IH]; intros v Hv; [destruct Hv| |].
    - destruct Hv as [<-|Hv]; [now exists O, m1, m2|]. destruct (IH v Hv) as (i & a & b & E). now exists (S i), a, b.
    - destruct (IH v Hv) as (i & a & b & E). now exists (S i), a, b. }
  induction cs as [|[m1 m2 w'|w' coin] cs IH]; intros mem w v r E R Hv; try discriminate; cbn [first_init init_widths] in *.
  - injection E as <- <-. injection R as <-. destruct (N cs v Hv) as (i & a & b & Ei). exists (S i), a, b. split; [exact Ei|reflexivity].
  - destruct (IH mem w v r E R Hv) as (i & a & b & Ei & Ef). exists (S i), a, b. split; [exact Ei|exact Ef].
Qed.

Theorem C05_ok_means_works_iff : forall cs, Forall supported_call cs ->
  (ok_means_works cs <->
   match first_init cs with
   | None => True
   | Some (true, w) => forall v, In v (init_widths cs) -> v = w
   | Some (false, w) => init_widths cs = [w]
   end).
Proof.
  intros cs Hs. destruct (C05_every_history cs Hs) as (g & outs & R & L & O & F).
  assert (Hw : forall i m1 m2 v, nth_error cs i = Some (CallInit m1 m2 v) -> 1 <= v <= 29).
  { intros i m1 m2 v Hi. rewrite Forall_forall in Hs. exact (Hs _ (nth_error_In _ _ Hi)). }
  assert (Head : forall mem w, first_init cs = Some (mem, w) -> exists r, init_widths cs = w :: r).
  { clear. induction cs as [|[m1 m2 w'|w' coin] cs IH]; intros mem w E; try discriminate; cbn in *; [injection E as _ <-; eauto|eauto]. }
  (* a later init reports Ok *)
  assert (Later : forall mem w r v, first_init cs = Some (mem, w) -> init_widths cs = w :: r -> In v r -> ok_means_works cs ->
            1 <= v <= 29 /\ first_init cs = Some (true, v)).
  { intros mem w r v E Er Hv OK. destruct (later_init cs mem w v r E Er Hv) as (i & m1 & m2 & Hi & Hf).
    assert (Hv' := Hw _ _ _ _ Hi). split; [exact Hv'|].
    assert (Oi := O _ _ Hi). cbn [call_out] in Oi. rewrite Hf in Oi.
    assert (W := OK i m1 m2 v g outs Hi R Oi).
    destruct (first_init cs) as [[m0 w0]|] eqn:E0; [|discriminate].
    destruct m0; [destruct (N.eq_dec w0 v) as [->|Ne]; [reflexivity|]|];
      exfalso; apply (works_not_broken v g); [lia|exact W|apply (F v Hv'); congruence|lia|exact W|apply (F v Hv'); congruence]. }
  destruct (first_init cs) as [[mem w]|] eqn:E.
  - destruct (Head mem w eq_refl) as (r & Er). destruct mem.
    + split.
      * intros OK v Hv. rewrite Er in Hv. destruct Hv as [->|Hv]; [reflexivity|].
        destruct (Later true w r v eq_refl Er Hv OK) as [_ E']. now injection E'.
      * intros Hall i m1 m2 v g' outs' Hi R' Ho. rewrite R in R'. injection R' as <- <-.
        apply (F v (Hw _ _ _ _ Hi)). now rewrite (Hall v (nth_init_width cs i m1 m2 v Hi)).
    + split.
      * intros OK. destruct r as [|v r]; [exact Er|]. destruct (Later false w (v :: r) v eq_refl Er (or_introl eq_refl) OK) as [_ E']. discriminate.
      * intros Hone i m1 m2 v g' outs' Hi R' Ho. rewrite R in R'. injection R' as <- <-. exfalso.
        assert (Oi := O _ _ Hi). rewrite Ho in Oi. cbn [call_out] in Oi. injection Oi as Oi.
        clear -E Hone Hi Oi. revert i Hi Oi. induction cs as [|[a b w'|w' coin] cs IH]; intros i Hi Oi; try discriminate.
        -- cbn in E, Hone. injection E as E1 E2. injection Hone as _ Hn. destruct i as [|i]; cbn in *.
           ++ injection Hi as -> -> ->. congruence.
           ++ apply nth_init_width in Hi. rewrite Hn in Hi. exact Hi.
        -- destruct i as [|i]; [discriminate|]. exact (IH E Hone i Hi Oi).
  - split; [auto|]. intros _ i m1 m2 v g' outs' Hi _ _. apply first_init_none in E. apply nth_init_width in Hi. rewrite E in Hi. destruct Hi.
Qed.
Print Assumptions C05_ok_means_works_iff.

(** Samples: those of [rand] for width [v] are below the order of its field for
    all coins exactly if the first [rand] was for a width that is at most [v], and
    all elements of the field can come up exactly if it was at least [v]. *)
Theorem C05_samples_iff : forall cs i v coin w, nth_error cs i = Some (CallRand v coin) -> Forall supported_call cs ->
  first_rand cs = Some w ->
  exists g outs, run_calls cs g_start = Done (g, outs) /\
    nth_error outs i = Some (OutRand (coin (2 ^ w))) /\
    ((forall x, x < 2 ^ w -> x < 2 ^ v) <-> w <= v) /\ ((forall x, x < 2 ^ v -> x < 2 ^ w) <-> v <= w).
Proof.
  assert (P : forall a b, (forall x, x < 2 ^ a -> x < 2 ^ b) <-> a <= b).
  { intros a b. assert (P := pow2_pos a). split.
    - intros H. specialize (H (2 ^ a - 1) ltac:(lia)). destruct (N.le_gt_cases a b) as [|C]; [assumption|].
      assert (2 ^ b < 2 ^ a) by (apply N.pow_lt_mono_r; lia). lia.
    - intros H x Hx. assert (2 ^ a <= 2 ^ b) by (apply N.pow_le_mono_r; lia). lia. }
  intros cs i v coin w Hi Hs Hw. destruct (C05_every_history cs Hs) as (g & outs & R & _ & O & _).
  exists g, outs. split; [exact R|]. split; [|split; apply P].
  rewrite (O i _ Hi). cbn [call_out]. do 3 f_equal.
  clear -Hi Hw. revert i Hi. induction cs as [|[a b w'|w' c] cs IH]; intros i Hi; [discriminate| |].
  - destruct i as [|i]; [discriminate|]. exact (IH Hw i Hi).
  - cbn in Hw. injection Hw as ->. destruct i as [|i]; cbn in *; [now injection Hi as -> ->|reflexivity].
Qed.
Print Assumptions C05_samples_iff.

(** A history with three widths: only arithmetic of the first works, samples are
    those of GF(2^8). *)
Example C05_history_example :
  let cs := [CallRand 8 (fun b => b - 1); CallInit true true 4; CallInit false false 18; CallRand 18 (fun b => b / 2)] in
  Forall supported_call cs /\ first_init cs = Some (true, 4) /\ first_rand cs = Some 8 /\ init_widths cs = [4; 18] /\ ~ ok_means_works cs.
Proof.
  cbn zeta. assert (Hs : Forall supported_call [CallRand 8 (fun b => b - 1); CallInit true true 4; CallInit false false 18; CallRand 18 (fun b => b / 2)])
    by (repeat constructor; cbn; lia).
  split; [exact Hs|]. do 3 (split; [reflexivity|]). intros OK. apply (C05_ok_means_works_iff _ Hs) in OK. cbn in OK.
  specialize (OK 18 ltac:(auto)). discriminate.
Qed.

(** ** C06 *)

(** The decoder accepts every buffer that is long enough, and is the inverse of
    the encoder on the bytes it takes. *)
Theorem C06_decoder_exact : forall w bs v rest, Forall (fun b => b < 256) bs ->
  (de_gf w bs = Some (v, rest) <-> exists h, bs = h ++ rest /\ h = ser_gf w v /\ v < 256 ^ ((w + 7) / 8)).
Proof.
  intros w bs v rest Hb. unfold de_gf, ser_gf. change ((w + 7) / 8) with (gf_num_bytes w). split.
  - destruct (take_bytes _ bs) as [[h t]|] eqn:T; [|discriminate]. intros E. injection E as <- <-.
    apply take_bytes_spec in T as [-> Lh]. apply Forall_app in Hb as [Hh _].
    exists h. split; [reflexivity|]. split; [now rewrite <- Lh, le_bytes_value|].
    assert (L := le_value_lt h Hh). now rewrite Lh, N2Nat.id in L.
  - intros (h & -> & -> & L). rewrite <- (le_bytes_length (N.to_nat (gf_num_bytes w)) v) at 1.
    rewrite take_bytes_app, le_value_bytes; [reflexivity|]. now rewrite N2Nat.id.
Qed.
Print Assumptions C06_decoder_exact.

(** Everything the decoder accepts is in the field exactly if the width is a
    multiple of 8 (that of the programs, 18, is not). *)
Theorem C06_range_iff : forall w,
  (forall bs v rest, Forall (fun b => b < 256) bs -> de_gf w bs = Some (v, rest) -> v < 2 ^ w) <-> w mod 8 = 0.
Proof.
  intros w. assert (P : 256 ^ ((w + 7) / 8) = 2 ^ (8 * ((w + 7) / 8))) by (change 256 with (2 ^ 8); now rewrite <- N.pow_mul_r).
  assert (D := N.div_mod' w 8). assert (M := N.mod_lt w 8 ltac:(lia)).
  split.
  - intros H. destruct (N.eq_dec (w mod 8) 0) as [E|E]; [exact E|]. exfalso.
    assert (Q : (w + 7) / 8 = w / 8 + 1).
    { symmetry. apply (N.div_unique _ _ _ (w mod 8 - 1)); clear - D M E; revert D M E; generalize (w / 8) (w mod 8); intros; lia. }
    assert (L : 2 ^ w < 256 ^ ((w + 7) / 8)) by (rewrite P; apply N.pow_lt_mono_r; lia).
    assert (B := le_bytes_ok (N.to_nat (gf_num_bytes w)) (2 ^ w)).
    specialize (H (ser_gf w (2 ^ w)) (2 ^ w) [] B). apply N.lt_irrefl with (2 ^ w), H.
    apply C06_decoder_exact; [exact B|]. exists (ser_gf w (2 ^ w)). now rewrite app_nil_r.
  - intros E bs v rest Hb H. apply C06_decoder_exact in H as (_ & _ & _ & L); [|exact Hb]. rewrite P in L.
    replace (8 * ((w + 7) / 8)) with w in L; [exact L|].
    assert (Q : (w + 7) / 8 = w / 8) by (symmetry; apply (N.div_unique _ _ _ 7); lia). lia.
Qed.
Print Assumptions C06_range_iff.

(** What is decoded outside the field cannot be multiplied. *)
Theorem C06_out_of_range : forall w g bs v rest, 1 <= w <= 29 -> initialised w g -> Forall (fun b => b < 256) bs ->
  de_gf w bs = Some (v, rest) -> 2 ^ w <= v -> gf_mul g w v 1 = UB.
Proof.
  intros w g bs v rest Hw HI Hb H Hv. apply C06_decoder_exact in H as (_ & _ & _ & L); [|exact Hb].
  assert (F := C04_from_out_of_range_refuted w g v Hw HI). unfold gf_from, gf_order in F.
  destruct (N.leb_spec (2 ^ w) v); [|lia]. apply F. split; [exact Hv|]. eapply N.lt_le_trans; [exact L|].
  change 4294967296 with (256 ^ 4). apply N.pow_le_mono_r; [lia|]. enough ((w + 7) / 8 < 5) by lia. apply N.div_lt_upper_bound; lia.
Qed.
Print Assumptions C06_out_of_range.

Example C06_range_example : 18 mod 8 <> 0 /\ 16 mod 8 = 0 /\ de_gf 18 [0; 0; 4] = Some (2 ^ 18, []).
Proof. repeat split; discriminate. Qed.

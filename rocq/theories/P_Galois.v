(** Property theorems C01-C06: the field GF(2^W) and its encoding. *)

From Coq Require Import ZArith NArith List Bool Lia.
From Verif Require Import GaloisModel GF2Poly GaloisOrder GaloisProofs GaloisSpec GaloisHist
  CodecModel CodecProofs.
Import ListNotations.
Local Open Scope N_scope.

(** ** C01 *)

(** Multiplication of in-range elements is multiplication of binary
    polynomials reduced modulo the width's polynomial. *)
Theorem C01_mul_is_polynomial_product : forall w g a b,
  1 <= w <= 29 -> initialised w g -> a < 2 ^ w -> b < 2 ^ w ->
  exists m q, gf_mul g w a b = Done m /\ m < 2 ^ w /\
              clmul a b = N.lxor (clmul q (field_poly w)) m.
Proof.
  intros w g a b Hw HI Ha Hb.
  destruct (initialised_tables w g Hw HI) as (lg & il & E & T).
  assert (W : 1 <= w) by lia.
  destruct (gmul_clmul w (prim_poly w) W a b Ha Hb) as [q Hq].
  rewrite field_poly_modulus in Hq by lia.
  exists (gmul w (prim_poly w) a b), q.
  split; [now apply (mul_ok w Hw lg il T g E)|]. split; [now apply gmul_lt|assumption].
Qed.
Print Assumptions C01_mul_is_polynomial_product.

(** Field axioms, as equations between the results the library returns. *)
Theorem C01_field_laws : forall w g a b c,
  1 <= w <= 29 -> initialised w g -> a < 2 ^ w -> b < 2 ^ w -> c < 2 ^ w ->
  gf_add a b < 2 ^ w /\
  gf_add a b = gf_add b a /\
  gf_add (gf_add a b) c = gf_add a (gf_add b c) /\
  gf_add a 0 = a /\ gf_add a a = 0 /\ gf_add (gf_sub a b) b = a /\
  gf_mul g w a b = gf_mul g w b a /\
  cbind (gf_mul g w a b) (fun m => gf_mul g w m c)
    = cbind (gf_mul g w b c) (fun m => gf_mul g w a m) /\
  gf_mul g w 1 a = Done a /\ gf_mul g w 0 a = Done 0 /\
  gf_mul g w a (gf_add b c)
    = cbind (gf_mul g w a b) (fun x => cbind (gf_mul g w a c) (fun y => Done (gf_add x y))) /\
  (a <> 0 -> b <> 0 -> gf_mul g w a b <> Done 0) /\
  (gf_mul g w a b = gf_mul g w a c -> a <> 0 -> b = c).
Proof.
  intros w g a b c Hw HI Ha Hb Hc.
  destruct (initialised_tables w g Hw HI) as (lg & il & E & T).
  assert (W : 1 <= w) by lia.
  assert (M := mul_ok w Hw lg il T g E).
  assert (L := gmul_lt w (prim_poly w)).
  assert (Cancel : forall u v, u < 2 ^ w -> v < 2 ^ w -> a <> 0 ->
            gmul w (prim_poly w) a u = gmul w (prim_poly w) a v -> u = v).
  { intros u v Hu Hv Hn H.
    destruct (gmul_inv w a) as (ai & Hai & Ei); [lia|lia|].
    rewrite <- (gmul_1_l w (prim_poly w) W u), <- (gmul_1_l w (prim_poly w) W v), <- Ei.
    rewrite (gmul_comm w _ W a ai) by assumption.
    rewrite <- !gmul_assoc by assumption. now rewrite H. }
  unfold gf_sub, gf_add.
  repeat match goal with |- _ /\ _ => split end.
  - now apply lxor_lt.
  - apply N.lxor_comm.
  - apply N.lxor_assoc.
  - apply N.lxor_0_r.
  - apply N.lxor_nilpotent.
  - rewrite N.lxor_assoc, N.lxor_nilpotent. apply N.lxor_0_r.
  - rewrite !M by assumption. f_equal. now apply gmul_comm.
  - rewrite !M by assumption. cbn [cbind]. rewrite !M by auto. f_equal.
    symmetry. now apply gmul_assoc.
  - rewrite M by (auto; now apply one_lt). f_equal. now apply gmul_1_l.
  - rewrite M by (auto; apply pow2_pos). f_equal. now apply gmul_0_l.
  - rewrite !M by (auto; now apply lxor_lt). cbn [cbind]. f_equal. now apply gmul_lxor_r.
  - intros Hna Hnb H. rewrite M in H by assumption. injection H as H.
    apply Hnb. apply (Cancel b 0); auto; [apply pow2_pos|]. rewrite H. symmetry. now apply gmul_0_r.
  - intros H Hn. rewrite !M in H by assumption. injection H as H. now apply Cancel.
Qed.
Print Assumptions C01_field_laws.

(** Division is the inverse of multiplication. *)
Theorem C01_division : forall w g a b,
  1 <= w <= 29 -> initialised w g -> a < 2 ^ w -> b < 2 ^ w -> b <> 0 ->
  exists q, gf_div g w a b = Done q /\ q < 2 ^ w /\ gf_mul g w q b = Done a.
Proof.
  intros w g a b Hw HI Ha Hb Hn.
  destruct (initialised_tables w g Hw HI) as (lg & il & E & T).
  destruct (div_ok w Hw lg il T g E a b Ha Hb Hn) as (q & Eq & Lq & Mq).
  exists q. split; [assumption|]. split; [assumption|].
  rewrite (mul_ok w Hw lg il T g E) by assumption. now rewrite Mq.
Qed.
Print Assumptions C01_division.

(** Non-vacuity: width 4 after init; 6 * 7 = 1 in GF(16). *)
Lemma example_initialised : forall w, 1 <= w <= 29 -> exists g, initialised w g.
Proof.
  intros w Hw.
  assert (F : Forall (good_call w) [CallInit true true w]) by (repeat constructor).
  destruct (hist_run w _ Hw F g_start (hist_start w)) as (g & outs & R & _).
  exists g, [CallInit true true w], outs. split; [assumption|]. split; [|assumption].
  left. exact I.
Qed.

Example C01_example : exists g, initialised 4 g /\ gf_mul g 4 6 7 = Done 1 /\
  exists q, gf_div g 4 1 7 = Done q /\ gf_mul g 4 q 7 = Done 1.
Proof.
  assert (Hw : 1 <= 4 <= 29) by lia.
  destruct (example_initialised 4 Hw) as (g & HI). exists g. split; [exact HI|].
  destruct (initialised_tables 4 g Hw HI) as (lg & il & E & T).
  assert (A : 6 < 2 ^ 4) by reflexivity. assert (B : 7 < 2 ^ 4) by reflexivity.
  assert (C : 1 < 2 ^ 4) by reflexivity. assert (D : 7 <> 0) by discriminate.
  split; [rewrite (mul_ok 4 Hw lg il T g E _ _ A B); reflexivity|].
  destruct (C01_division 4 g 1 7 Hw HI C B D) as (q & Eq & _ & M).
  exists q. split; [exact Eq|exact M].
Qed.

(** The documentation allows W up to 30 in one place; at W = 30 building the
    tables runs into signed overflow of an index (undefined behaviour). *)
Theorem C01_width_30_refuted : forall w, w = 30 -> run_calls [CallInit true true w] g_start = UB.
Proof.
  intros w Hw. cbn [run_calls]. unfold gf_init. cbn [g_once g_start].
  unfold create_log_tables_g. destruct (N.ltb_spec 30 w); [lia|].
  cbn [g_tabs g_start]. now rewrite (create_30_ub w Hw).
Qed.
Print Assumptions C01_width_30_refuted.

(** ** C02 *)

(** In every single-width history every init returns Ok and every sample is
    in range; in particular table construction never exits, never touches
    memory out of bounds and never reports failure. *)
Theorem C02_init_succeeds : forall w cs,
  1 <= w <= 29 -> Forall (good_call w) cs ->
  exists g outs, run_calls cs g_start = Done (g, outs) /\
    Forall (fun o => match o with OutInit ok => ok = true | OutRand v => v < 2 ^ w end) outs.
Proof.
  intros w cs Hw F. destruct (hist_run w cs Hw F g_start (hist_start w)) as (g & outs & R & _ & _ & O).
  now exists g, outs.
Qed.
Print Assumptions C02_init_succeeds.

Example C02_example : Forall (good_call 18) [CallRand 18 (fun b => b - 1); CallInit true true 18; CallInit true true 18].
Proof. repeat constructor. intros b Hb. lia. Qed.

(** Unsupported widths are rejected by the first init. *)
Theorem C02_large_width_fails : forall m1 m2 w,
  30 < w -> exists g, gf_init m1 m2 w g_start = Done (g, false).
Proof.
  intros m1 m2 w H. unfold gf_init. cbn [g_once g_start]. unfold create_log_tables_g.
  destruct (N.ltb_spec 30 w); [|lia]. eexists. reflexivity.
Qed.
Print Assumptions C02_large_width_fails.

(** The tables really are complete: the entry written for the j-th power of x
    is found at index j, for all 2^w-1 powers, and the powers are all the
    nonzero elements. *)
Theorem C02_tables_complete : forall w,
  1 <= w <= 29 ->
  exists lg il, create_log_tables true true w = Done (lg, il) /\
    forall a, 0 < a < 2 ^ w ->
      exists j, (0 <= j < 2 ^ Z.of_N w - 1)%Z /\
        tread lg (Z.of_N a) = Done j /\ tread il j = Done (Z.of_N a).
Proof.
  intros w Hw. destruct (create_ok w Hw) as (lg & il & E & L & I & _ & _).
  exists lg, il. split; [assumption|]. intros a Ha.
  destruct (order_facts w ltac:(lia)) as (_ & _ & _ & _ & S).
  destruct (S a ltac:(lia) ltac:(lia)) as (i & Hi & <-).
  assert (P : Z.of_N (2 ^ w) = (2 ^ Z.of_N w)%Z) by apply N2Z.inj_pow.
  exists (Z.of_nat i). split; [lia|]. split; [now apply L|].
  rewrite I by lia. rewrite Z.mod_small by lia. now rewrite Nat2Z.id.
Qed.
Print Assumptions C02_tables_complete.

(** ** C03 *)

(** No table access made on in-range operands is out of bounds (or reads an
    uninitialised cell or a NULL table). *)
Theorem C03_in_range_arithmetic_is_memory_safe : forall w g a b,
  1 <= w <= 29 -> initialised w g -> a < 2 ^ w -> b < 2 ^ w ->
  gf_mul g w a b <> UB /\ gf_div g w a b <> UB.
Proof.
  intros w g a b Hw HI Ha Hb.
  destruct (initialised_tables w g Hw HI) as (lg & il & E & T). split.
  - now rewrite (mul_ok w Hw lg il T g E).
  - destruct (N.eq_dec b 0) as [->|Hn]; [now rewrite nodiv0|].
    destruct (div_ok w Hw lg il T g E a b Ha Hb Hn) as (q & Eq & _). now rewrite Eq.
Qed.
Print Assumptions C03_in_range_arithmetic_is_memory_safe.

(** Division by zero does not signal an error; it returns u32::MAX, which is
    outside every supported field. *)
Theorem C03_division_by_zero_escapes_the_field : forall w g a,
  1 <= w <= 29 -> gf_div g w a 0 = Done 4294967295 /\ ~ 4294967295 < 2 ^ w.
Proof.
  intros w g a Hw. split; [apply nodiv0|]. generalize (pow_bound29 w Hw). lia.
Qed.
Print Assumptions C03_division_by_zero_escapes_the_field.

Example C03_example : 1 <= 18 <= 29 /\ (exists g, initialised 18 g) /\ 262143 < 2 ^ 18.
Proof. split; [lia|]. split; [apply example_initialised; lia|reflexivity]. Qed.

(** ** C04 *)

Theorem C04_from_in_range : forall w g v, v < 2 ^ w -> gf_from g w v = Done v.
Proof.
  intros w g v H. unfold gf_from, gf_order. destruct (N.leb_spec (2 ^ w) v); [lia|reflexivity].
Qed.
Print Assumptions C04_from_in_range.

(** GF::from never reduces: every u32 outside the field is an out-of-bounds
    table read, for every supported width. *)
Theorem C04_from_out_of_range_refuted : forall w g v,
  1 <= w <= 29 -> initialised w g -> 2 ^ w <= v < 4294967296 -> gf_from g w v = UB.
Proof.
  intros w g v Hw HI Hv. destruct (initialised_tables w g Hw HI) as (lg & il & E & T).
  now apply (from_oob w Hw lg il T g E).
Qed.
Print Assumptions C04_from_out_of_range_refuted.

Example C04_example : 15 < 2 ^ 4 /\ 2 ^ 4 <= 16 < 4294967296 /\ exists g, initialised 4 g.
Proof. split; [reflexivity|]. split; [lia|]. apply example_initialised. lia. Qed.

(** ** C05 *)

(** With a single width any history of init and rand calls is fine
    (C02_init_succeeds and C01-C03).  With two widths it is not: the second
    init returns Ok without creating any table and multiplication then
    dereferences NULL; and samples can fall outside the field. *)
Theorem C05_two_widths_refuted :
  (exists g, run_calls [CallInit true true 4; CallInit true true 5] g_start
               = Done (g, [OutInit true; OutInit true]) /\ gf_mul g 5 2 3 = UB) /\
  (exists g v, run_calls [CallRand 5 (fun b => b - 1); CallRand 4 (fun b => b - 1)] g_start
               = Done (g, [OutRand 31; OutRand v]) /\ ~ v < 2 ^ 4).
Proof.
  split.
  - assert (X : match run_calls [CallInit true true 4; CallInit true true 5] g_start with
                | Done (g, outs) => outs = [OutInit true; OutInit true] /\ gf_mul g 5 2 3 = UB
                | _ => False end) by (vm_compute; split; reflexivity).
    destruct (run_calls _ g_start) as [[g outs]| | |]; try contradiction.
    destruct X as [-> X]. exists g. split; [reflexivity|exact X].
  - eexists _, 31. split; [vm_compute; reflexivity|]. vm_compute. discriminate.
Qed.
Print Assumptions C05_two_widths_refuted.

(** A failed first init makes every later init (of any width) report Ok
    although no table exists. *)
Theorem C05_retry_after_failure_refuted : forall w v m1 m2,
  1 <= w <= 29 -> exists g, run_calls [CallInit false m1 w; CallInit true m2 v] g_start
            = Done (g, [OutInit false; OutInit true]) /\ gf_mul g v 1 1 = UB.
Proof.
  intros w v m1 m2 Hw. cbn [run_calls]. unfold gf_init at 1. cbn [g_once g_start].
  unfold create_log_tables_g. destruct (N.ltb_spec 30 w); [lia|].
  cbn [g_tabs g_start]. unfold create_log_tables. destruct (N.ltb_spec 30 w); [lia|].
  cbn [negb cbind fst snd g_tabs g_start g_dist]. unfold gf_init. cbn [g_once cbind fst snd].
  eexists. split; [reflexivity|]. reflexivity.
Qed.
Print Assumptions C05_retry_after_failure_refuted.

(** ** C06 *)

Theorem C06_element_round_trip : forall w v rest,
  v < 2 ^ w ->
  length (ser_gf w v) = N.to_nat ((w + 7) / 8) /\
  Forall (fun b => b < 256) (ser_gf w v) /\
  de_gf w (ser_gf w v ++ rest) = Some (v, rest).
Proof.
  intros w v rest H. split; [apply ser_gf_length|]. split; [apply le_bytes_ok|].
  now apply de_ser_gf.
Qed.
Print Assumptions C06_element_round_trip.

Theorem C06_vector_round_trip : forall w vs rest,
  Forall (fun v => v < 2 ^ w) vs -> N.of_nat (length vs) < 2 ^ 64 ->
  de_vec w (ser_vec w vs ++ rest) = Some vs.
Proof. intros. now apply de_ser_vec. Qed.
Print Assumptions C06_vector_round_trip.

(** Two different vectors never share an encoding. *)
Theorem C06_vector_encoding_injective : forall w vs vs',
  Forall (fun v => v < 2 ^ w) vs -> Forall (fun v => v < 2 ^ w) vs' ->
  N.of_nat (length vs) < 2 ^ 64 -> N.of_nat (length vs') < 2 ^ 64 ->
  ser_vec w vs = ser_vec w vs' -> vs = vs'.
Proof.
  intros w vs vs' H H' L L' E.
  assert (A := de_ser_vec w vs [] H L). assert (B := de_ser_vec w vs' [] H' L').
  rewrite E in A. congruence.
Qed.
Print Assumptions C06_vector_encoding_injective.

Theorem C06_truncation_detected : forall w vs k,
  N.of_nat (length vs) < 2 ^ 64 -> (k < length (ser_vec w vs))%nat ->
  de_vec w (firstn k (ser_vec w vs)) = None.
Proof. intros. now apply de_vec_truncated. Qed.
Print Assumptions C06_truncation_detected.

Example C06_example :
  Forall (fun v => v < 2 ^ 18) [262143; 0; 77] /\
  ser_vec 18 [262143; 77] = [2;0;0;0;0;0;0;0; 255;255;3; 77;0;0] /\
  de_vec 18 [2;0;0;0;0;0;0;0; 255;255;3; 77;0;0] = Some [262143; 77].
Proof. split; [repeat constructor|]. split; vm_compute; reflexivity. Qed.

(** The decoder does not validate: three bytes decode to a value outside
    GF(2^18), and multiplying it reads out of bounds. *)
Theorem C06_range_check_refuted : exists bs v,
  Forall (fun b => b < 256) bs /\ de_gf 18 bs = Some (v, []) /\ ~ v < 2 ^ 18 /\
  forall g, initialised 18 g -> gf_mul g 18 v 1 = UB.
Proof.
  exists [255; 255; 255], 16777215. split; [repeat constructor|]. split; [reflexivity|].
  split; [vm_compute; discriminate|]. intros g HI.
  assert (F := C04_from_out_of_range_refuted 18 g 16777215 ltac:(lia) HI ltac:(vm_compute; split; [discriminate|reflexivity])).
  unfold gf_from in F. exact F.
Qed.
Print Assumptions C06_range_check_refuted.

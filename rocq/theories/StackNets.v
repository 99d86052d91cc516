(** The two networks of the crate as networks in the sense of StackRounds, loops
    of repetitions on them, and messages whose length fits a Rust buffer. *)

From Coq Require Import NArith List.
From mathcomp Require Import all_ssreflect all_algebra zify.
From Verif Require Import MachineModel MachineProofs MachineBuild Realize FrameModel RouterModel RouteModel RouteSpec RouteProofs P_Route.
From Verif Require Import StackModel StackSpec StackProofs StackRun StackRounds PipeModel P_Phase CoreSpec CodecModel CodecProofs GaloisModel GFField GFCodec.
Set Implicit Arguments.
Unset Strict Implicit.
Unset Printing Implicit Defensive.

(** ** The networks *)

Definition tcp_ok n (m : smsg) : Prop := recipient_ok n m /\ sizes_ok m.

Lemma range_recipient n to pl : in_range n to -> recipient_ok n (to, pl).
Proof. by case: to. Qed.

Lemma local_network n : network n (lnstep n) l_out linit (recipient_ok n).
Proof.
split=> //; first exact: C27_local_network_delivers.
- by move=> x i m x' S j; inversion S.
- move=> x x' S; inversion S; subst; try by left.
  by right; exists r, x0; split=> // j' /=; rewrite /upd; case: eqP => // ->.
- by move=> x i m Hi; eexists; exact: LnCall.
Qed.

Lemma tcp_network n : network n (tnstep n) t_out tinit (tcp_ok n).
Proof.
split=> //; first exact: C27_tcp_network_delivers.
- by move=> x i m x' S j; inversion S.
- move=> x x' S; inversion S; subst; try by left.
  + by right; exists i, (i, pl); split=> // j' /=; rewrite /upd; case: eqP => // ->.
  + by right; exists j, (i, pl); split=> // j' /=; rewrite /upd; case: eqP => // ->.
- by move=> x i m Hi; eexists; exact: TnCall.
Qed.

(** ** Ends *)

Lemma ends_in_mono (S : Type) (step : S -> S -> Prop) (Q Q' : S -> Prop) s : (forall s', Q s' -> Q' s') ->
  ends_in step Q s -> ends_in step Q' s.
Proof. by move=> H; elim=> {}s _ IH HQ; constructor=> // /HQ /H. Qed.

(** An invariant that excludes the wanted end. *)
Lemma ends_in_not (S : Type) (step : S -> S -> Prop) (Q J : S -> Prop) s : (forall a b, J a -> step a b -> J b) ->
  (forall a, J a -> ~ Q a) -> J s -> ~ ends_in step Q s.
Proof.
move=> HJ HQ Hs E; elim: E Hs => {}s _ IH Hst Hs; apply: (HQ s Hs); apply: Hst => s' S'.
exact: IH S' (HJ _ _ Hs S').
Qed.

Lemma ends_in_step (S : Type) (step : S -> S -> Prop) (Q : S -> Prop) s s' : step s s' -> ends_in step Q s -> ends_in step Q s'.
Proof. by move=> St [H _]; exact: H. Qed.

(** ** Repetitions *)

Section Loops.
Variables (n : nat) (D : eqType) (enc : D -> seq N) (V T : Type).
Hypothesis enc_inj : injective enc.
Notation I := [eqType of seq N].
Variables (X : Type) (nstep : X -> label -> X -> Prop) (out : X -> nat -> seq (nat * payload)) (x0 : X) (ok : smsg -> Prop).
Hypothesis NX : network n nstep out x0 ok.

Lemma loops_on_stack (named : I -> Prop) (b : I) (d : D) R (Q : nat -> (seq T -> proc I D V) -> proc I D V) res (rt : seq T -> V) :
  loops_in n named b d R Q res ->
  (forall id to d', id = b \/ named id -> in_range n to -> ok (to, (id, enc d'))) ->
  ends_in (sstep n enc nstep out) (stack_done n out (fun i => rt [seq res r i | r <- iota 0 R]))
    (stack_start n x0 (fun i => Q i (fun ys => Ret (rt ys)))).
Proof.
move=> [S [prep [body [mat [rds [Hn Hp Hb Hr HQ]]]]]] Hok.
have A : alternating (loop_rounds b d rds (iota 0 R)).
  by apply: loop_alternating => r; rewrite mem_iota => Hi; have [] := Hr r Hi.
have U : unfolds n (loop_rounds b d rds (iota 0 R)) (fun me k => bench_loop n b d (prep me) (body me) (iota 0 R) k)
    (fun me => [seq res r me | r <- iota 0 R]).
  by apply: (loop_unfolds Hn (mat := mat)) => [me r Hm|r]; rewrite mem_iota => Hi; [exact: Hp|exact: Hb].
have U' : unfolds n (loop_rounds b d rds (iota 0 R)) Q (fun me => [seq res r me | r <- iota 0 R]).
  by apply: unfolds_eq U => // i k Hi; rewrite HQ.
apply: (unfolds_on_stack Hn enc_inj NX d rt A U') => k id to d' Hk.
rewrite (nth_loop_rounds 0 Hk); case: ifP => _ Hid Hto; apply: Hok => //; last first.
  by left; move: Hid; rewrite /ids /= inE => /eqP.
right; have [|_ _ _] := Hr (nth 0 (iota 0 R) k./2); last exact.
have Hk2 : k./2 < R by move: Hk; rewrite size_loop_rounds size_iota; lia.
by rewrite nth_iota.
Qed.

End Loops.

(** ** Messages *)

(** A [Vec<u8>] of less than 2^62 bytes (the language has a limit of 2^63 - 1). *)
Definition bytes : Type := {b : seq N | (N.of_nat (size b) <? 2 ^ 62)%num}.
Canonical bytes_eqType := [eqType of bytes].
Definition raw (b : bytes) : seq N := sval b.

Lemma raw_inj : injective raw.
Proof. exact: val_inj. Qed.

Lemma raw_short b : (N.of_nat (size (raw b)) < 2 ^ 62)%num.
Proof. by case: b => b /= /N.ltb_lt. Qed.

Definition no_bytes : bytes := exist _ [::] isT.

Section Codec.
Variable w : width.

(** [gser] and [gde] on such buffers. *)
Definition bser (x : seq (gf_fieldType w)) : bytes := insubd no_bytes (gser x).
Definition bde (b : bytes) : option (seq (gf_fieldType w)) := gde w (raw b).

(** A sequence of [m] elements fits. *)
Definition bfits (m : nat) : Prop := (8 + N.of_nat m * ((w + 7) / 8) < 2 ^ 62)%num.

Lemma bfits_le m m' : m <= m' -> bfits m' -> bfits m.
Proof.
rewrite /bfits => H; apply: N.le_lt_trans; have := N.mul_le_mono_r (N.of_nat m) (N.of_nat m') ((w + 7) / 8); lia.
Qed.

Lemma raw_bser x : bfits (size x) -> raw (bser x) = gser x.
Proof.
move=> H; rewrite /raw /bser; apply: (@insubdK _ _ [subType of bytes]); apply/N.ltb_lt.
have -> : size (gser x) = length (gser x) by [].
rewrite /gser ser_vec_length map_length -[length x]/(size x) /gf_num_bytes.
by move: H; rewrite /bfits; lia.
Qed.

Lemma bserK : codec_ok bser bde bfits.
Proof.
move=> x H; rewrite /bde raw_bser //; apply: gserK; rewrite /len_ok.
have : (1 <= (w + 7) / 8)%num by case: (w) => W HW /=; apply: N.div_le_lower_bound; lia.
move: H; rewrite /bfits; have : (2 ^ 62 < 2 ^ 64)%num by apply/N.ltb_lt.
move: (2 ^ 62)%num (2 ^ 64)%num ((w + 7) / 8)%num (N.of_nat (size x)) => A B c m; clear; nia.
Qed.

End Codec.

Lemma tcp_sizes n to id b : in_range n to -> size id <= 255 -> tcp_ok n (to, (id, raw b)).
Proof.
move=> Hto Hid; split; first exact: range_recipient.
split=> //=; have := raw_short b; have : (2 ^ 62 + 256 < 2 ^ 63)%num by apply/N.ltb_lt.
by move: (size (raw b)) => m; lia.
Qed.

(** Code that never returns, and when [garble] is such code. *)

From Coq Require Import NArith List.
From Verif Require Import CircuitModel LpnModel LpnSpec.
From mathcomp Require Import all_ssreflect all_algebra zify.
From Verif Require Import MathModel MatProofs SharingModel MachineModel CoreModel PreprocModel GarbleModel GarbleSpec GarbleRun PipeModel BillProto.
From Verif Require ProtoIdModel ProtoIdProofs.
Set Implicit Arguments.
Unset Strict Implicit.
Unset Printing Implicit Defensive.

Section Never.
Variables (I D : eqType) (V : Type).
Notation proc := (proc I D V).

(** Whatever is received, the code does not come to a [Ret]. *)
Fixpoint never (p : proc) : Prop :=
  match p with
  | Ret _ => False
  | Panic => True
  | Send _ _ _ k => never k
  | Recv _ k => forall s d, never (k s d)
  | Gath _ _ k => forall ds, never (k ds)
  | Fork p q k => [\/ never p, never q | forall a b, never (k a b)]
  end.

Lemma never_lstep p a q : lstep p a q -> never p -> never q.
Proof.
elim=> {p a q} //=.
- move=> id got k s d _ H; rewrite /gath_step; case: ifP => // _; case: (nth _ _ _) => //=; exact: H.
- move=> p a p' q k _ IH [/IH|H|H]; [exact: Or31|exact: Or32|exact: Or33].
- move=> p q a q' k _ IH [H|/IH|H]; [exact: Or31|exact: Or32|exact: Or33].
- by move=> a b k [].
Qed.

Variable n : nat.

Lemma never_gstep (c c' : cfg I D V) i : gstep n c c' -> never (procs c i) -> never (procs c' i).
Proof.
by case=> //= [j p Hj L|j to id d p Hj L|j id s d p x y Hj _ _ L] H; rewrite /upd; case: eqP => // E; subst j;
   apply: (never_lstep L).
Qed.

Lemma never_gsteps k (c c' : cfg I D V) i : gsteps n k c c' -> never (procs c i) -> forall v, procs c' i <> Ret v.
Proof.
move=> S H; suff: never (procs c' i) by case: (procs c' i) => // v [] ? [].
by elim: S H => // k0 c0 c1 c2 S1 _ IH /(never_gstep S1) /IH.
Qed.
End Never.

Section Garble.
Variable F : fieldType.
Variable emb : nat -> F.
Variable D : eqType.
Variable ser : seq F -> D.
Variable de : D -> option (seq F).
Variable H : eqType.
Variable sha : seq N -> H.
Variable h0 : H.
Variable draws : H -> nat -> F.
Variable hash : seq N -> N.
Notation pid := [eqType of seq N].
Notation pproc := (proc pid D (val F)).

Lemma never_spawn (ps : seq pproc) k : (forall vs, never (k vs)) -> never (spawn_all ps k).
Proof. by case: ps => [|p ps] Hk /=; [exact: Hk|apply: Or33 => a [] //= vs]. Qed.

Lemma never_rand c tf id reps rs zs k : (forall y, never (k y)) -> never (gen_rand_shares ser de c tf id reps rs zs k).
Proof.
move=> Hk; rewrite /gen_rand_shares; case: ProtoIdModel.gen_rand_ids => // ids; case: drain_each => // a; case: drain_each => // b.
by apply: never_spawn => vs; case: append_rows => // u; case: append_rows.
Qed.

Lemma rand_no_ids c tf id reps rs zs k : ProtoIdModel.gen_rand_ids id (N.of_nat (size (tf_rtrans tf))) = None ->
  never (gen_rand_shares ser de c tf id reps rs zs k).
Proof. by rewrite /gen_rand_shares => ->. Qed.

Lemma transform_no_ids c tf id reps x y z coin k : ProtoIdModel.transform_ids id (N.of_nat (size (tf_trans tf))) = None ->
  never (transform emb ser de c tf id reps x y z coin k).
Proof. by rewrite /transform => ->; case: ifP. Qed.

Lemma transforms_new_sizes c tf x : transforms_new emb c tf = Some x ->
  size (tf_trans x) = size tf /\ num_batches (size tf) (c_l c) = Some (size (tf_rtrans x)).
Proof.
rewrite /transforms_new; case: (num_batches _ _) => // b /=; case E: (all_some _) => [r|] //= [<-] /=; rewrite size_map; split=> //.
by rewrite (all_some_size E) size_map size_iota.
Qed.

Lemma gctx_new_sizes circ c p g : gctx_new emb sha h0 draws circ c p = Some g ->
  [/\ g_circ g = circ, g_mpc g = c, g_lpn g = p,
      size (tf_trans (g_out g)) = size (out_blocks circ) /\ num_batches (size (out_blocks circ)) (c_l c) = Some (size (tf_rtrans (g_out g))) &
      size (tf_trans (g_inp g)) = size (inp_blocks circ) /\ num_batches (size (inp_blocks circ)) (c_l c) = Some (size (tf_rtrans (g_inp g)))].
Proof.
rewrite /gctx_new -/(out_blocks circ) -/(inp_blocks circ).
case E1: (all_some [seq out_tf _ _ _ _ | _ <- _]) => [a|] //=.
case E2: (transforms_new emb c a) => [x|] //=.
case E3: (all_some [seq inp_tf _ _ _ _ | _ <- _]) => [b|] //=.
case E4: (transforms_new emb c b) => [y|] //=.
case: rs_gen_mat => // m /=; case: compute_lookup => // nl /=; case: ifP => // _ [<-] /=.
have := transforms_new_sizes E2; have := transforms_new_sizes E4.
by rewrite (all_some_size E1) (all_some_size E3) !size_map.
Qed.

(** When ids run out, [garble] never returns. *)
Lemma garble_never circ c p g id pp r k : gctx_new emb sha h0 draws circ c p = Some g ->
  ProtoIdModel.garble_ids id circ (N.of_nat (c_l c)) = None -> never (garble emb ser de hash g id pp r k).
Proof.
move=> /gctx_new_sizes [Ec Em Ep [So Bo] [Si Bi]].
rewrite /ProtoIdModel.garble_ids.
have -> : (N.of_nat (length (p_inputs circ)) + N.of_nat (length (p_gates circ)) = N.of_nat (size (out_blocks circ)))%num.
  by rewrite /out_blocks size_cat size_map -[length (p_inputs circ)]/(size _) -[length (p_gates circ)]/(size _) -Nat2N.inj_add.
rewrite num_inp_blocksE -/(inp_blocks circ) (num_batches_N Bo) (num_batches_N Bi).
rewrite {1}/CircuitModel.obind {1}/CircuitModel.obind => E.
rewrite /garble Ec Em; case: ifP => // _.
case Et: (ProtoIdModel.take_ids id _ _) E => [ids|] // E.
have [_ [Hl _]] := ProtoIdProofs.take_ids_spec _ _ _ _ Et.
case: drain_rtrans => // -[[r1 z1] q1]; case: drain_rtrans => // -[[r2 z2] q2].
move: E; case: ids Et Hl => [|i0 [|i1 [|i2 [|i3 gids]]]] // Et Hl; rewrite {1}/CircuitModel.obind /=.
rewrite /wire_shares Ec Em /=.
case E0: (ProtoIdModel.gen_rand_ids i0 _) => [c0|] /= => [|_]; last by apply: Or32; apply: rand_no_ids.
case E1: (ProtoIdModel.gen_rand_ids i1 _) => [c1|] /= => [|_]; last by apply: Or31; apply: rand_no_ids.
case E2: (ProtoIdModel.transform_ids i2 _) => [c2|] /= => [|_].
  case E3: (ProtoIdModel.transform_ids i3 _) => [c3|] /= => [|_].
    suff [f ->] : exists f, CircuitModel.omapM (fun x => ProtoIdModel.gate_ids x.1 x.2) (combine (p_gates circ) gids) = Some f by [].
    elim: (p_gates circ) {Et Hl} gids => [|x gs IH] [|y gids] /=; try by eexists.
    by have [f ->] := IH gids; case: x => *; eexists.
  apply: Or33 => a [] // v; apply: transform_no_ids; by rewrite Si.
apply: Or32; apply: never_rand => y; case: label_rows => // inp; apply: transform_no_ids; by rewrite So.
Qed.

(** Nor does the benchmark around it, unless it makes no repetition. *)
Lemma bench_never (n : nat) (S T : Type) b d (prep : nat -> option S) (body : nat -> S -> (T -> pproc) -> pproc) rs k :
  (forall r s k, never (body r s k)) -> (0 < size rs)%N -> never (bench_loop n b d prep body rs k).
Proof.
by case: rs => // r rs Hb _ /=; case: (prep r) => //= s _; apply: Hb.
Qed.
End Garble.

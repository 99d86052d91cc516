(** Property theorems C62: what a coalition cannot learn from garbling. *)

From Coq Require Import NArith List.
From Verif Require Import CircuitModel LpnModel LpnSpec.
From mathcomp Require Import all_ssreflect all_algebra zify.
From Verif Require Import MathModel MathProofs SharingModel SharingSpec SharingProofs.
From Verif Require Import MachineModel MachineProofs MachineBuild Realize CoreModel CoreSpec CoreProofs ViewSpec.
From Verif Require Import RandTransProofs PreprocModel PreprocSpec GarbleModel GarbleSpec GarbleGates GarbleTf GarbleWires GarbleRun.
From Verif Require Import TwinProofs TwinCore TwinWires TwinRun.
From Verif Require Import GFField GFCodec P_Math P_Core P_Preproc P_Garble P_View P_Leak.
From Verif Require ProtoIdModel P_ProtoId.
Set Implicit Arguments.
Unset Strict Implicit.
Unset Printing Implicit Defensive.
Import GRing.Theory.
Local Open Scope ring_scope.

(** ** C62 *)

(** The condition on a coalition: for each block of gate inputs that has [o]
    different wires among its [p], either the party who leads its transformation
    is not in the coalition, or the coalition learns nothing from the mask shares
    that repeat (C61): with [m], if [p + m < l], it also contains [p + m - o]. *)
Definition shielded (n l : nat) (A : seq nat) (circ : pcircuit) : Prop :=
  forall i, (i < size (inp_blocks circ))%N -> let ws := nth [::] (inp_blocks circ) i in
    (i %% n)%N \notin A \/
    forall m, m \in A -> (size ws + m < l)%N -> (size ws + m - size (undup ws))%N \in A.

Lemma size_distinct ws : size (sorted_wires ws) = size (undup ws).
Proof. apply: perm_size. apply: uniq_perm; [exact: uniq_sorted_wires|exact: undup_uniq|] => w. by rewrite mem_sorted_wires mem_undup. Qed.

Section Secrecy.
Variables (F : fieldType) (emb : nat -> F) (n t l : nat) (P Pn : pss F) (A : seq nat).
Hypothesis HSS : setting emb n t l P Pn.
Hypothesis HC : coalition n t A.
Notation pos := (default_pos emb n l).

(** Sharings of other secrets with the same shares for the coalition. *)
Lemma reshare num (p : nat -> {poly F}) (s : nat -> seq F) : low t l num p -> (forall j, (j < num)%N -> size (s j) = l) ->
  exists p', [/\ low t l num p', agree emb A num p p' & forall j, (j < num)%N -> s j = [seq (p' j).[x] | x <- pos]].
Proof.
  move=> Lp Zs. have [UA HA tA] := HC. have [Ht _ _ Hg] := HSS.
  have [|p' Hp'] := @fin_choice {poly F} num (fun j p' => [/\ (size p' <= t + l)%N, forall a, a \in A -> (p j).[emb a] = p'.[emb a] & s j = [seq p'.[x] | x <- pos]]) 0.
  { move=> j Hj. have [|//|q [Sq Eq Nq]] := hide UA HA (fun k => nth 0 (s j) k - (p j).[nth 0 pos k]) (d := (t + l)%N) Hg.
    { by rewrite size_pos addnC leq_add2r. }
    exists (p j + q). split.
    - apply: leq_trans (size_add _ _) _. by rewrite geq_max Sq Lp.
    - move=> a Ha. by rewrite hornerD Nq // addr0.
    - apply: (@eq_from_nth _ 0) => [|k]; rewrite Zs //; [by rewrite !size_map size_iota|move=> Hk].
      rewrite (nth_map 0) ?size_pos // hornerD Eq ?size_pos // addrC subrK //. }
  exists p'. split=> [j Hj|j a Hj Ha|j Hj]; have [H1 H2 H3] := Hp' j Hj => //. exact: H2.
Qed.
End Secrecy.

(** Under this condition at most [t] parties who compare notes learn nothing about
    the masks, labels and errors from a run of [garble]: for whatever they see,
    and for all other masks, labels and errors, there are random sharings, sharings
    of zeros and coins of the others with which they see the same.  What they see is
    their shares of the material, their coins, and all messages sent to them in
    all executions. *)
Theorem C62_coalition_learns_nothing : forall (F : fieldType) (emb : nat -> F) (D : eqType) ser de fits n t l P Pn circ K M
    (H : eqType) (sha : seq N -> H) h0 draws hash d id chans g,
  @garble_setting F emb D ser de fits n t l P Pn circ K M ->
  describe circ n t l (Lpn K M) = Some d ->
  ProtoIdModel.garble_ids id circ (N.of_nat l) = Some chans ->
  (forall i, (i < n)%N -> gctx_new emb sha h0 draws circ (Ctx i n t l P Pn) (Lpn K M) = Some (g i)) ->
  let code pp coins := fun i => garble emb ser de hash (g i) id (pp i) (coins i) (fun y => Ret (garble_val y)) in
  forall A, coalition n t A -> shielded n l A circ ->
  forall pp mk ks rs es coins, material emb n t l d pp mk ks rs es ->
  forall mk' ks' es', (forall j, size (mk' j) = l /\ bits (mk' j)) -> (forall j, size (ks' j) = l) -> (forall j, size (es' j) = l) ->
  exists pp' rs' coins',
    [/\ material emb n t l d pp' mk' ks' rs' es', forall a, a \in A -> coins' a = coins a &
        same_view n A pp pp' (code pp coins) (code pp' coins')].
Proof.
  move=> F emb D ser de fits n t l P Pn circ K M H sha h0 draws hash d id chans g HS Hd Hids Hg code A HC Hsh
    pp mk ks rs es coins HM mk' ks' es' Hmk' Hks' Hes'.
  have [[serK HSS F2 Hwf Hinj] [Hl0 /andP [HKl Hn16] Hdeg _ Hf]] := HS. have Hn := setting_n HSS.
  have HKl' : (t + l + l <= n)%N by clear -HKl; lia.
  rewrite !subn1 in Hdeg.
  have [Ht _ _ Hgp] := HSS. have [UA HA tA] := HC.
  have [B1 [B2 [HB1 HB2 Em Ek [Er Ez Ee]]]] := describeE Hd.
  have [g' [enc [Eenc Hg']]] := gctx_newE HSS Hl0 HKl' Hwf Hinj sha h0 draws K M HB1 HB2.
  have Eg me : (me < n)%N -> g' me = g me by move=> Hm; have [E _ _ _] := Hg' me Hm; move: E; rewrite Hg // => -[].
  have G1 me (Hm : (me < n)%N) : [/\ g_mpc (g me) = Ctx me n t l P Pn, g_lpn (g me) = Lpn K M, g_circ (g me) = circ &
     [/\ g_lookup (g me) = block_map circ, g_out (g me) = tfs emb n t l (tf_out emb n l circ) B1 me & g_inp (g me) = tfs emb n t l (tf_inp emb n l circ) B2 me]].
  { have [_ E _ _] := Hg' me Hm. by rewrite Eg in E. }
  have [[Sm Bm] [Sk Es] [nr [Hnr Sr]] [nz [Hnz Sz]] Se] := HM.
  have Ekt : keys_total d = (2 * K * size (out_blocks circ))%N by rewrite /keys_total Ek.
  rewrite Em in Sm. rewrite Ekt in Sk. rewrite Ee in Se.
  have Etl : (t + l).-1.+1 = (t + l)%N by clear -Ht; lia.
  have [pm [Xm Vm]] := sharings_polys Sm. have [pk [Xk Vk]] := sharings_polys Sk. have [pr [Xr Vr]] := sharings_polys Sr.
  have [pz [Xz Vz]] := sharings_polys Sz. have [pe [Xe Ve]] := sharings_polys Se.
  have lowE num p s : (forall j, (j < num)%N -> (size (p j : {poly F}) <= (t + l).-1.+1)%N /\ s j = [seq (p j).[x] | x <- default_pos emb n l]) -> low t l num p.
  { move=> X j Hj. rewrite -Etl. by have [] := X j Hj. }
  have Lz : zero_at emb n l nz pz.
  { move=> j Hj. have [S1 S2] := Xz j Hj. rewrite prednK // in S1. split=> // x Hx.
    have := congr1 (fun s => nth 0 s (index x (default_pos emb n l))) S2. rewrite nth_nseq if_same (nth_map 0) ?index_mem // nth_index //. }
  have [pm' [Lm' Am Xm']] := reshare HSS HC (lowE _ _ _ Xm) (fun j _ => (Hmk' j).1).
  have [pk' [Lk' Ak Xk']] := reshare HSS HC (lowE _ _ _ Xk) (fun j _ => Hks' j).
  have [pe' [Le' Ae Xe']] := reshare HSS HC (lowE _ _ _ Xe) (fun j _ => Hes' j).
  have Hsh' : blocks_shielded n l A circ.
  { move=> i Hi. cbv zeta. rewrite size_distinct. exact: Hsh. }
  pose o := Polys pm pk pr pz pe.
  have Ho : holds emb n circ K M nr nz pp o.
  { move=> me Hm. rewrite Vm // Vk // Vr // Vz // Ve // Es // Ek. }
  have Hnr' : (B1 * ((n + t) * (2 * K + 1)) + B2 * ((n + t) * (2 * K + 1)) + offs (gate_mults (Lpn K M)) (p_gates circ) (size (p_gates circ)) <= nr)%N.
  { apply: leq_trans Hnr. rewrite Er leq_add2r. clear. nia. }
  have Hnz' : (B1 * (2 * n * (2 * K + 1)) + B2 * (2 * n * (2 * K + 1)) + offs (gate_mults (Lpn K M)) (p_gates circ) (size (p_gates circ)) <= nz)%N.
  { apply: leq_trans Hnz. rewrite Ez leq_add2r. clear. nia. }
  have [pr' [pz' [coins' [rds [rds' [[Lr' Lz' Ar Az] Hco [Hper Htw] [res R] R2]]]]]] :=
    garble_twin serK HSS Hl0 HKl' Hdeg Hn16 UA HA tA Hwf Hinj HB1 HB2 hash G1 Hf pe' coins Hsh' Hids Ho Hnr' Hnz'
      (lowE _ _ _ Xm) (lowE _ _ _ Xk) (lowE _ _ _ Xr) Lz Lm' Lk' Am Ak.
  pose ne := offs (fun x => gate_rows x * M)%N (p_gates circ) (size (p_gates circ)).
  pose pp' me := if me \in A then pp me else
    PreProc (held emb pm' (size (out_blocks circ)) me) (2%N, K, size (out_blocks circ)) (held emb pk' (2 * K * size (out_blocks circ)) me)
      (held emb pr' nr me) (held emb pz' nz me) (held emb pe' ne me).
  have Ho' : holds emb n circ K M nr nz pp' (Polys pm' pk' pr' pz' pe').
  { move=> me Hm. rewrite /pp'. case: ifP => HAm; last by split.
    have [-> -> -> [-> -> ->]] := Ho me Hm. split=> //=; rewrite ?(agree_held Am HAm) ?(agree_held Ak HAm) //.
    by rewrite (agree_held Ar HAm) (agree_held Az HAm) (agree_held Ae HAm). }
  have [res' R'] := R2 pp' Ho'.
  have U : uniq (ids rds) by rewrite (perm_uniq Hper); apply: NoDup_uniq; exact: (P_ProtoId.C20_garble_ids_distinct _ _ _ _ Hids).1.
  exists pp', (fun j => [seq (pr' j).[x] | x <- default_pos emb n l]), coins'. split.
  - split.
    + split; last by move=> j _; exact: (Hmk' j).2. rewrite Em.
      apply: sharings_ext (sh_low HSS Lm') => [i Hi|j Hj]; [by have [-> _ _ _] := Ho' i Hi|by rewrite Xm'].
    + split; last by move=> i Hi; have [_ -> _ _] := Ho' i Hi. rewrite Ekt.
      apply: sharings_ext (sh_low HSS Lk') => [i Hi|j Hj]; [by have [_ _ -> _] := Ho' i Hi|by rewrite Xk'].
    + exists nr. split=> //. apply: sharings_ext (sh_low HSS Lr') => [i Hi|j Hj] //. by have [_ _ _ [-> _ _]] := Ho' i Hi.
    + exists nz. split=> //. apply: sharings_ext (sh_zero HSS Lz') => [i Hi|j Hj] //. by have [_ _ _ [_ -> _]] := Ho' i Hi.
    + rewrite Ee. apply: sharings_ext (sh_low HSS Le') => [i Hi|j Hj]; [by have [_ _ _ [_ _ ->]] := Ho' i Hi|by rewrite Xe'].
  - exact: Hco.
  - split=> [a Ha|s r c x Hs Hr]; first by rewrite /pp' Ha.
    exact: (@twin_view n _ D A Hn HA (val F) _ _ rds rds' (fun i k => garble emb ser de hash (g i) id (pp i) (coins i) k) res (@garble_val F)
       (fun i k => garble emb ser de hash (g i) id (pp' i) (coins' i) k) res' (@garble_val F) (ser [::]) s r c x U R R' Htw Hr).
Qed.
Print Assumptions C62_coalition_learns_nothing.

(** The condition holds for every coalition if only full blocks name a wire
    twice, and in all circuits for coalitions without the first [l] parties and
    for coalitions of parties who lead no transformation of gate inputs. *)
Theorem C62_shielded : forall n l A circ,
  (forall i, (i < size (inp_blocks circ))%N -> let ws := nth [::] (inp_blocks circ) i in (l <= size ws)%N \/ uniq ws) \/
  (forall m, m \in A -> (l <= m)%N) \/ (forall m, m \in A -> (size (inp_blocks circ) <= m)%N /\ (m < n)%N) ->
  shielded n l A circ.
Proof.
  move=> n l A circ H i Hi ws. case: H => [/(_ i Hi) [Hf|Hu]|[Ha|Ha]].
  - right=> m _. rewrite -/ws in Hf. clear -Hf. lia.
  - right=> m Hm _. by rewrite undup_id // addKn.
  - right=> m /Ha. clear. lia.
  - left. apply/negP => /Ha [H1 H2]. have : (i %% n <= i)%N by exact: leq_mod. move: H1 Hi. clear. lia.
Qed.
Print Assumptions C62_shielded.

(** The circuit of C61: each party but the first learns nothing, though its first
    gate block has a wire twice.  The masks are seen by no party but the first. *)
Example C62_example : exists P Pn d chans,
  [/\ garble_setting g5 (@gser w5) (@gde w5) len_ok 7 1 3 P Pn circ7 1 2, describe circ7 7 1 3 (Lpn 1 2) = Some d,
      ProtoIdModel.garble_ids [:: 7]%num circ7 (N.of_nat 3) = Some chans &
   [/\ exists pp mk ks rs es, material g5 7 1 3 d pp mk ks rs es,
      forall a, (0 < a < 7)%N -> coalition 7 1 [:: a] /\ shielded 7 3 [:: a] circ7 &
      coalition 7 1 [:: 0%N] /\ ~ shielded 7 3 [:: 0%N] circ7]].
Proof.
  have [P [Pn HS]] := setting7. have [_ [P' [Pn' [d [_ Hd HM]]]]] := C61_example.
  have [chans Hids] : exists chans, ProtoIdModel.garble_ids [:: 7]%num circ7 (N.of_nat 3) = Some chans by eexists; vm_compute; reflexivity.
  exists P, Pn, d, chans. split=> //. split.
  - pose mk (_ : nat) : seq (gf w5) := nseq 3 0. have Hmk j : size (mk j) = 3%N /\ bits (mk j).
    { split=> // y. rewrite mem_nseq => /andP [_ /eqP ->]. by left. }
    have [pp [ks [rs [es Hm]]]] := HM mk Hmk. by exists pp, mk, ks, rs, es.
  - move=> a /andP [Ha0 Ha]. split; first by split=> //=; rewrite Ha.
    move=> [|i] Hi; first by left; rewrite inE /= eq_sym -lt0n.
    right=> m Hm Hlt. have E : uniq (nth [::] (inp_blocks circ7) i.+1) by case: i Hi {Hlt} => [|[|[|[|i]]]].
    by rewrite undup_id // addKn.
  - split; first by split. move=> /(_ 0%N isT) /=. case=> [|/(_ 0%N isT isT)] //.
Qed.

(** The whole of [garble] (garble.rs:132-353) in two executions that look the
    same to a set of parties. *)

From Coq Require Import NArith List.
From Verif Require Import CircuitModel LpnModel.
From mathcomp Require Import all_ssreflect all_algebra zify.
From Verif Require Import MathModel MathProofs MatProofs SharingModel SharingSpec SharingProofs.
From Verif Require Import MachineModel MachineProofs MachineBuild Realize CoreModel CoreSpec CoreProofs.
From Verif Require Import RandTransProofs PreprocModel PreprocSpec PreprocProofs GarbleModel GarbleSpec GarbleGates GarbleTf GarbleWires GarbleRun.
From Verif Require Import ViewProofs TwinProofs TwinCore TwinRand TwinTf TwinWires TwinGates.
From Verif Require ProtoIdModel ProtoIdProofs.
Set Implicit Arguments.
Unset Strict Implicit.
Unset Printing Implicit Defensive.
Import GRing.Theory.
Local Open Scope ring_scope.

(** ** Segments: where an item of a queue goes. *)
Section Seg.
Variable f : pgate -> nat.

Fixpoint seg (gs : seq pgate) (j : nat) : nat * nat :=
  if gs is x :: gs' then if (j < f x)%N then (0%N, j) else let: (a, b) := seg gs' (j - f x) in (a.+1, b) else (0%N, j).

Lemma seg_offs gs gid q : (gid < size gs)%N -> (q < f (nth g0 gs gid))%N -> seg gs (offs f gs gid + q) = (gid, q).
Proof.
  elim: gs gid => [|x gs IH] [|gid] //= Hg Hq; first by rewrite /offs /= add0n Hq.
  rewrite offs_S -addnA ltnNge leq_addr /= addKn. by rewrite IH.
Qed.

Lemma seg_ok gs j : (j < offs f gs (size gs))%N ->
  [/\ ((seg gs j).1 < size gs)%N, ((seg gs j).2 < f (nth g0 gs (seg gs j).1))%N & j = (offs f gs (seg gs j).1 + (seg gs j).2)%N].
Proof.
  elim: gs j => [|x gs IH] j //=. rewrite offs_S => Hj. case: (ltnP j (f x)) => Hc /=; first by split; rewrite ?/offs /=.
  have Hj' : (j - f x < offs f gs (size gs))%N by rewrite ltn_subLR.
  have [H1 H2 H3] := IH _ Hj'. case: (seg gs _) H1 H2 H3 => a b /= H1 H2 H3. split=> //.
  by rewrite offs_S -addnA -H3 subnKC.
Qed.
End Seg.

Section Twin.
Variable F : fieldType.
Variable emb : nat -> F.
Variable D : eqType.
Variable ser : seq F -> D.
Variable de : D -> option (seq F).
Variable fits : nat -> Prop.
Hypothesis serK : codec_ok ser de fits.
Variables (n t l : nat) (P Pn : pss F).
Hypothesis HS : setting emb n t l P Pn.
Hypothesis Hl0 : (0 < l)%N.
Hypothesis HKl : (t + l + l <= n)%N.
Hypothesis Hdeg : (2 * (t + l).-1 <= n.-1)%N.
Hypothesis Hn16 : (n <= 2 ^ 16)%N.
Variable A : seq nat.
Hypothesis UA : uniq A.
Hypothesis HA : all (fun i => (i < n)%N) A.
Hypothesis tA : (size A <= t)%N.
Notation mk me := (Ctx me n t l P Pn).
Notation pos := (default_pos emb n l).
Notation sharings := (sharings emb n).
Notation held := (held emb).
Notation pid := [eqType of seq N].
Notation realizes := (@realizes n pid D (val F)).
Notation low := (low t l).
Notation zero_at := (zero_at emb n l).
Notation agree := (agree emb A).
Variable circ : pcircuit.
Hypothesis Hwf : wf_packed circ l.
Hypothesis Hinj : distinct_positions emb n l circ.
Notation outs := (out_blocks circ).
Notation inps := (inp_blocks circ).
Notation gates := (p_gates circ).
Notation ninp := (size (p_inputs circ)).
Variables (B1 B2 : nat).
Hypothesis HB1 : num_batches (size outs) l = Some B1.
Hypothesis HB2 : num_batches (size inps) l = Some B2.
Variable hash : seq N -> N.
Variables (K M : nat).
Notation prm := (Lpn K M).
Notation reps := (2 * K + 1)%N.
Notation erows := (fun x => gate_rows x * M)%N.
Variable g : nat -> gctx F.
Hypothesis Hg : forall me, (me < n)%N ->
  [/\ g_mpc (g me) = mk me, g_lpn (g me) = prm, g_circ (g me) = circ &
   [/\ g_lookup (g me) = block_map circ, g_out (g me) = tfs emb n t l (tf_out emb n l circ) B1 me & g_inp (g me) = tfs emb n t l (tf_inp emb n l circ) B2 me]].
Hypothesis Hfits : forall m, (m <= 4 * K + 3)%N -> fits m.

Let nr1 := (B1 * ((n + t) * reps))%N. Let nr2 := (B2 * ((n + t) * reps))%N.
Let nz1 := (B1 * (2 * n * reps))%N. Let nz2 := (B2 * (2 * n * reps))%N.
Notation moff := (offs (gate_mults prm) gates).
Notation eoff := (offs erows gates).
Notation mults := (moff (size gates)).

(** What the parties hold, as polynomials. *)
Record polys := Polys { o_mask : nat -> {poly F}; o_key : nat -> {poly F}; o_rand : nat -> {poly F}; o_zero : nat -> {poly F}; o_err : nat -> {poly F} }.

Definition holds (nr nz : nat) (pp : nat -> preproc_data F) (o : polys) : Prop := forall me, (me < n)%N ->
  [/\ pp_masks (pp me) = held (o_mask o) (size outs) me, pp_kshape (pp me) = (2%N, K, size outs), pp_keys (pp me) = held (o_key o) (2 * K * size outs) me &
   [/\ pp_randoms (pp me) = held (o_rand o) nr me, pp_zeros (pp me) = held (o_zero o) nz me & pp_errors (pp me) = held (o_err o) (eoff (size gates)) me]].

Definition from (p : nat -> {poly F}) (a j : nat) : {poly F} := p (a + j)%N.

(** What gate [gid] is handed. *)
Definition gate_gi (o : polys) (w : nat -> nat -> {poly F}) (gid me : nat) : gate_inp F :=
  let x := nth g0 gates gid in
  gi emb K M (size (gate_inps x)) (gate_mults prm x) (gate_rows x) (fun s => w (offs ninps gates gid + s)%N) (o_mask o (ninp + gid)%N)
    (fun b c => o_key o ((b * K + c) * size outs + (ninp + gid))%N) (from (from (o_rand o) (nr1 + nr2)) (moff gid)) (from (from (o_zero o) (nz1 + nz2)) (moff gid))
    (from (o_err o) (eoff gid)) me.

Lemma held_take p N m me : (m <= N)%N -> take m (held p N me) = held p m me.
Proof. move=> H. by rewrite -[X in take _ X]drop0 held_slice. Qed.

Lemma held_drop p N a me : drop a (held p N me) = held (from p a) (N - a) me.
Proof.
  apply: (@eq_from_nth _ 0); rewrite size_drop !size_held // => j Hj.
  have Hj' : (a + j < N)%N by rewrite -ltn_subRL. by rewrite nth_drop !nth_held.
Qed.

Lemma givenE nr nz pp o (w : nat -> nat -> {poly F}) me gid : (me < n)%N -> holds nr nz pp o -> (nr1 + nr2 + mults <= nr)%N -> (nz1 + nz2 + mults <= nz)%N -> (gid < size gates)%N ->
  given prm gates ninp [seq held (w i) reps me | i <- iota 0 (size inps)] (pp_masks (pp me)) (pp_kshape (pp me)) (pp_keys (pp me))
     (Queues (drop (nr1 + nr2) (pp_randoms (pp me))) (drop (nz1 + nz2) (pp_zeros (pp me))) (pp_errors (pp me))) gid = gate_gi o w gid me.
Proof.
  move=> Hm Ho Hnr Hnz Hgid. have [E1 E2 E3 [E4 E5 E6]] := Ho me Hm. have Hol : (ninp + gid < size outs)%N by rewrite nbE ltn_add2l.
  have Hmul := offs_all (gate_mults prm) Hgid. have Herr := offs_all erows Hgid. have Hin := offs_all ninps Hgid. rewrite /= in Hmul Herr Hin.
  rewrite /given E1 E2 E3 E4 E5 E6 /gate_gi /gi nth_held //=. congr GateInp.
  - have Hle : (offs ninps gates gid + size (gate_inps (nth g0 gates gid)) <= size inps)%N by rewrite /inp_blocks -offs_inps.
    rewrite -map_drop -map_take drop_iota take_iota add0n (minn_idPl _); last by clear -Hle; lia.
    by rewrite -[X in [seq _ | _ <- iota X _] = _]addn0 iotaDl -map_comp.
  - rewrite /slice_of /=. congr [:: _; _]; apply/eq_in_map => c; rewrite mem_iota add0n => /andP [_ Hc]; rewrite nth_held //.
    + have : (0 * K + c < 2 * K)%N by clear -Hc; lia. clear -Hol. move: (size outs) (0 * K + c)%N (ninp + gid)%N Hol => a b e. nia.
    + have : (1 * K + c < 2 * K)%N by clear -Hc; lia. clear -Hol. move: (size outs) (1 * K + c)%N (ninp + gid)%N Hol => a b e. nia.
  - rewrite !held_drop held_take //. move: Hnr Hmul. clear. move: (gate_mults _ _) (moff gid) mults => a b c. lia.
  - rewrite !held_drop held_take //. move: Hnz Hmul. clear. move: (gate_mults _ _) (moff gid) mults => a b c. lia.
  - rewrite !held_drop held_take //. move: Herr. clear. move: (gate_rows _ * M)%N (eoff gid) (eoff _) => a b c. lia.
Qed.

(** One execution, given its parts. *)
Lemma garble_from (id : pid) cids nr nz pp o (w : nat -> nat -> {poly F}) (coins : nat -> gcoins F) rdw (tt : nat -> seq (pid * round D) * (nat -> seq (seq F))) :
  ProtoIdModel.take_ids id (4 + N.of_nat (size gates))%num (4 + size gates) = Some cids ->
  holds nr nz pp o -> (nr1 + nr2 + mults <= nr)%N -> (nz1 + nz2 + mults <= nz)%N ->
  realizes rdw (fun me k => wire_shares emb ser de (g me) cids (pp me) (held (o_rand o) nr1 me, held (o_zero o) nz1 me)
    (held (from (o_rand o) nr1) nr2 me, held (from (o_zero o) nz1) nz2 me) (coins me) k) (fun me => [seq held (w i) reps me | i <- iota 0 (size inps)]) ->
  (forall gid, (gid < size gates)%N -> realizes (tt gid).1 (fun me k => gate_task ser de hash (g me) (nth [::] cids (4 + gid)) gid (gate_gi o w gid me) (coins me) k) (tt gid).2) ->
  exists res, realizes (rdw ++ flatten [seq (tt gid).1 | gid <- iota 0 (size gates)]) (fun me k => garble emb ser de hash (g me) id (pp me) (coins me) k) res.
Proof.
  move=> Et Ho Hnr Hnz Rw Rg.
  pose ish me := [seq held (w i) reps me | i <- iota 0 (size inps)].
  pose q2 me := Queues (drop (nr1 + nr2) (pp_randoms (pp me))) (drop (nz1 + nz2) (pp_zeros (pp me))) (pp_errors (pp me)).
  pose dq me := Queues (drop mults (q_randoms (q2 me))) (drop mults (q_zeros (q2 me))) (drop (eoff (size gates)) (q_errors (q2 me))).
  have HO me : (me < n)%N -> hand_out prm gates ninp (ish me) (pp_masks (pp me)) (pp_kshape (pp me)) (pp_keys (pp me)) (q2 me) =
     Some ([seq gate_gi o w gid me | gid <- iota 0 (size gates)], dq me).
  { move=> Hm. have [E1 E2 E3 [E4 E5 E6]] := Ho me Hm. rewrite hand_outE.
    - congr (Some (_, _)). apply/eq_in_map => gid. rewrite mem_iota add0n => /andP [_ Hgid]. exact: (givenE w Hm Ho).
    - by rewrite size_map size_iota offs_inps.
    - by rewrite E1 size_held nbE.
    - by rewrite E2 /= nbE.
    - rewrite /q2 /= E4 size_drop size_held. move: Hnr. clear. move: mults => a. lia.
    - rewrite /q2 /= E5 size_drop size_held. move: Hnz. clear. move: mults => a. lia.
    - by rewrite /q2 /= E6 size_held. }
  pose Q (me : nat) (inp_shares : seq (seq F)) (k : seq (seq (seq F)) * queues F -> proc pid D (val F)) :=
    if hand_out prm gates ninp inp_shares (pp_masks (pp me)) (pp_kshape (pp me)) (pp_keys (pp me)) (q2 me) is Some (xs, q3) then
      spawn_all
        [seq gate_task ser de hash (g me) (nth [::] cids (4 + gid)) gid (nth (GateInp [::] 0 [::] [::] [::] [::]) xs gid) (coins me)
               (fun tb => Ret (Leaf tb)) | gid <- iota 0 (size gates)]
        (fun vs => k ([seq (if v is Leaf tb then tb else [::]) | v <- vs], q3))
    else @Panic pid D (val F).
  have RQ : realizes (flatten [seq (tt gid).1 | gid <- iota 0 (size gates)] ++ [::]) (fun me => Q me (ish me))
     (fun me => ([seq (tt gid).2 me | gid <- iota 0 (size gates)], dq me)).
  { have RS := @realizes_spawn F pid D n nat_eqType (iota 0 (size gates)) _ _
      (fun gid me k => gate_task ser de hash (g me) (nth [::] cids (4 + gid)) gid (gate_gi o w gid me) (coins me) k) (fun gid => (tt gid).2) (fun tb => Leaf tb)
      (fun gid => (tt gid).1) [::] (fun me vs k => k ([seq (if v is Leaf tb then tb else [::]) | v <- vs], dq me))
      (fun me => ([seq (tt gid).2 me | gid <- iota 0 (size gates)], dq me)).
    apply: realizes_eq (RS _ _) => //.
    - move=> me k Hm. rewrite /Q HO //. congr spawn_all. apply/eq_in_map => gid. rewrite mem_iota add0n => /andP [_ Hgid].
      by rewrite (nth_map 0%N) ?size_iota // nth_iota.
    - move=> gid. rewrite mem_iota add0n => /andP [_ Hgid]. exact: Rg.
    - move=> plan ph A0 me k js v Hm Fk. by rewrite -map_comp. }
  rewrite cats0 in RQ. eexists.
  have RG := realizes_seq (Q := Q) Rw RQ. apply: realizes_eq RG => // me k Hm.
  have [X1 X2 X3 [X4 X5 X6]] := Hg Hm. have [E1 E2 E3 [E4 E5 E6]] := Ho me Hm. rewrite /garble X1 X2 X3 X5 X6.
  have L1 : (nr1 + nr2 <= nr)%N by apply: leq_trans Hnr; exact: leq_addr. have L2 : (nz1 + nz2 <= nz)%N by apply: leq_trans Hnz; exact: leq_addr.
  have L1' : (nr1 <= nr)%N by apply: leq_trans L1; exact: leq_addr. have L2' : (nz1 <= nz)%N by apply: leq_trans L2; exact: leq_addr.
  have D1 : drain_rtrans (mk me) (tfs emb n t l (tf_out emb n l circ) B1 me) reps (Queues (pp_randoms (pp me)) (pp_zeros (pp me)) (pp_errors (pp me))) =
    Some (held (o_rand o) nr1 me, held (o_zero o) nz1 me, Queues (drop nr1 (pp_randoms (pp me))) (drop nz1 (pp_zeros (pp me))) (pp_errors (pp me))).
  { rewrite /drain_rtrans /= size_map size_iota.
    have -> : (B1 * reps * (n + t) = nr1)%N by rewrite /nr1; clear; nia. have -> : (B1 * reps * 2 * n = nz1)%N by rewrite /nz1; clear; nia.
    by rewrite !drainE ?E4 ?E5 ?size_held // !held_take. }
  have D2 : drain_rtrans (mk me) (tfs emb n t l (tf_inp emb n l circ) B2 me) reps (Queues (drop nr1 (pp_randoms (pp me))) (drop nz1 (pp_zeros (pp me))) (pp_errors (pp me))) =
    Some (held (from (o_rand o) nr1) nr2 me, held (from (o_zero o) nz1) nz2 me, q2 me).
  { rewrite /drain_rtrans /= size_map size_iota.
    have -> : (B2 * reps * (n + t) = nr2)%N by rewrite /nr2; clear; nia. have -> : (B2 * reps * 2 * n = nz2)%N by rewrite /nz2; clear; nia.
    have M1 : (nr2 <= nr - nr1)%N by move: L1; clear; move: nr1 nr2 => a b; lia. have M2 : (nz2 <= nz - nz1)%N by move: L2; clear; move: nz1 nz2 => a b; lia.
    rewrite !drainE ?size_drop ?E4 ?E5 ?size_held // !drop_drop !held_drop !held_take // /q2 E4 E5 !held_drop.
    by rewrite (addnC nr2) (addnC nz2). }
  cbv zeta. rewrite -nbE E1 size_held E2 !eqxx. rewrite [lpn_key_len _]/= D1 D2 Et. by rewrite /Q E2 E1.
Qed.

(** ** One gate *)
(** What changes in the products of a gate; the first product of an AND gate
    has a leader and coins of its own. *)
Definition and_leader (id : pid) : nat := odflt 0%N (leader_from_proto_id hash (id ++ [:: 0%num])%list n).
Definition gate_dl (x : pgate) (id : pid) (c : nat -> nat -> nat -> F) (xr xr' : nat -> nat -> {poly F}) (pm pm' : {poly F}) (pk pk' : nat -> nat -> {poly F}) (r : {poly F}) : nat -> {poly F} :=
  match x with
  | PXor _ _ _ => xor_dl K xr xr' pm pm' pk pk'
  | PAnd _ _ _ => and_dl emb n t l A K xr xr' pm pm' pk pk' r (c (and_leader id))
  | PInv _ _ => inv_dl K xr xr' pm pm' pk pk'
  end.
Notation mpr := (mpr emb n l A).
Notation mpz := (mpz emb n l A).

Lemma gate_exact gid (id : pid) (cs : seq pid) xr xr' pm pm' pk pk' pr pz (coins : nat -> gcoins F) x : nth g0 gates gid = x ->
  ProtoIdModel.gate_ids x id = Some cs -> gate_pair emb t l A K (size (gate_inps x)) xr xr' pm pm' pk pk' ->
  low (gate_mults prm x) pr -> zero_at (gate_mults prm x) pz ->
  let dl := gate_dl x id (fun me => gk_and (coins me) gid) xr xr' pm pm' pk pk' (pr (3 * (K + 1))%N) in let pr' := mpr pr dl in let pz' := mpz pz dl in
  exists rds,
   [/\ [/\ low (gate_mults prm x) pr', zero_at (gate_mults prm x) pz', agree (gate_mults prm x) pr pr' & agree (gate_mults prm x) pz pz'],
     ids rds = cs, twins n A rds rds,
     forall pe, exists res, realizes rds (fun me k => gate_task ser de hash (g me) id gid (gi emb K M (size (gate_inps x)) (gate_mults prm x) (gate_rows x) xr pm pk pr pz pe me) (coins me) k) res &
     forall pe (coins' : nat -> gcoins F), (forall me, gk_and (coins' me) = gk_and (coins me) /\ gk_gate (coins' me) = gk_gate (coins me)) ->
       exists res, realizes rds (fun me k => gate_task ser de hash (g me) id gid (gi emb K M (size (gate_inps x)) (gate_mults prm x) (gate_rows x) xr' pm' pk' pr' pz' pe me) (coins' me) k) res].
Proof.
  move=> Ex Eid GP Lr Lz.
  have F1 : fits 1 by apply: Hfits; lia. have FK : fits (K + 1) by apply: Hfits; lia. have F3 : fits (3 * (K + 1)) by apply: Hfits; lia.
  have Hgg me : (me < n)%N -> g_mpc (g me) = mk me /\ g_lpn (g me) = prm by move=> Hm; have [E1 E2 _ _] := Hg Hm.
  have Et y (co : gcoins F) me : (me < n)%N -> gate_task ser de hash (g me) id gid y co =
    match x with
    | PAnd _ _ _ => garble_and ser de hash (g me) id gid y (gk_and co gid) (gk_gate co gid)
    | PXor _ _ _ => garble_xor ser de hash (g me) id gid y (gk_gate co gid)
    | PInv _ _ => garble_inv ser de hash (g me) id gid y (gk_gate co gid)
    end.
  { move=> Hm. have [_ _ Ec _] := Hg Hm. rewrite /gate_task Ec Ex. by case: (x). }
  clear Ex. move: Eid GP Lr Lz Et. case: x => [a b o|a b o|a o].
  - move=> [Ecs] GP Lr Lz Et dl pr' pz'.
    have [rd [G Al R R']] := xor_exact serK HS Hdeg Hl0 UA HA tA hash Hn16 gid Hgg FK id (fun me => gk_gate (coins me) gid) GP Lr Lz.
    exists [:: (id, rd)]. split=> //.
    + move=> pe. have [res Rs] := R pe. exists res. apply: realizes_eq Rs => // me k Hm. by rewrite Et.
    + move=> pe coins' Hc. have [res Rs] := R' pe. exists res. apply: realizes_eq Rs => // me k Hm. by rewrite Et // (Hc me).2.
  - move=> [Ecs] GP Lr Lz Et dl pr' pz'. set id1 := (id ++ [:: 0%num])%list in Ecs.
    have Ei : ProtoIdModel.take_ids id 2 1 = Some [:: id1] by [].
    have [L1 EL1 _] := leader_ok HS Hdeg hash Hn16 Hl0 id1.
    have EL : and_leader id = L1 by rewrite /and_leader -/id1 EL1.
    have [rd1 [rd2 [G [Al1 Al2] R R']]] := and_exact serK HS Hdeg Hl0 UA HA tA Hn16 gid Hgg F1 F3 (fun me => gk_and (coins me) gid) (fun me => gk_gate (coins me) gid) Ei EL1 GP Lr Lz.
    rewrite -EL in G R'.
    exists [:: (id1, rd1); (id, rd2)]. split=> //.
    + move=> pe. have [res Rs] := R pe. exists res. apply: realizes_eq Rs => // me k Hm. by rewrite Et.
    + move=> pe coins' Hc. have [res Rs] := R' pe. exists res. apply: realizes_eq Rs => // me k Hm. by rewrite Et // (Hc me).1 (Hc me).2.
  - move=> [Ecs] GP Lr Lz Et dl pr' pz'.
    have [rd [G Al R R']] := inv_exact serK HS Hdeg Hl0 UA HA tA hash Hn16 gid Hgg FK id (fun me => gk_gate (coins me) gid) GP Lr Lz.
    exists [:: (id, rd)]. split=> //.
    + move=> pe. have [res Rs] := R pe. exists res. apply: realizes_eq Rs => // me k Hm. by rewrite Et.
    + move=> pe coins' Hc. have [res Rs] := R' pe. exists res. apply: realizes_eq Rs => // me k Hm. by rewrite Et // (Hc me).2.
Qed.

(** ** The queues of the other world *)
Section Glue.
Variables (n1 n2 : nat) (p1 p2 : nat -> {poly F}) (G : nat -> nat -> {poly F}).

(** Changes of a queue: by what is taken for the output blocks, for the input
    blocks, and for the gates. *)
Definition glue (j : nat) : {poly F} :=
  if (j < n1)%N then p1 j else if (j < n1 + n2)%N then p2 (j - n1)%N else
  if (j < n1 + n2 + mults)%N then let: (gid, q) := seg (gate_mults prm) gates (j - (n1 + n2)) in G gid q else 0.
Variable base : nat -> {poly F}.
Notation plus j := (base j + glue j).

Lemma glue1 me : held (fun j => plus j) n1 me = held (fun j => base j + p1 j) n1 me.
Proof. apply: held_ext => j Hj. by rewrite /glue Hj. Qed.

Lemma glue2 me : held (from (fun j => plus j) n1) n2 me = held (fun j => from base n1 j + p2 j) n2 me.
Proof. apply: held_ext => j Hj. by rewrite /from /glue ltnNge leq_addr /= ltn_add2l Hj addKn. Qed.

Lemma glue3 gid me : (gid < size gates)%N ->
  held (from (from (fun j => plus j) (n1 + n2)) (moff gid)) (gate_mults prm (nth g0 gates gid)) me =
  held (fun q => from (from base (n1 + n2)) (moff gid) q + G gid q) (gate_mults prm (nth g0 gates gid)) me.
Proof.
  move=> Hgid. apply: held_ext => j Hj. have Hmul := offs_all (gate_mults prm) Hgid. rewrite /= in Hmul.
  have Hm : (moff gid + j < mults)%N by apply: leq_trans Hmul; rewrite ltn_add2l.
  have Ej : (n1 + n2 + (moff gid + j) - (n1 + n2) = moff gid + j)%N by rewrite addKn.
  have C1 : (n1 + n2 + (moff gid + j) < n1)%N = false by clear; lia.
  have C2 : (n1 + n2 + (moff gid + j) < n1 + n2)%N = false by clear; lia.
  by rewrite /from /glue C1 C2 ltn_add2l Hm Ej seg_offs.
Qed.

Lemma glue_all (Q : nat -> {poly F} -> Prop) N :
  (forall j, (j < n1)%N -> Q j (base j + p1 j)) -> (forall j, (j < n2)%N -> Q (n1 + j)%N (base (n1 + j)%N + p2 j)) ->
  (forall gid q, (gid < size gates)%N -> (q < gate_mults prm (nth g0 gates gid))%N -> Q (n1 + n2 + (moff gid + q))%N (base (n1 + n2 + (moff gid + q))%N + G gid q)) ->
  (forall j, (j < N)%N -> Q j (base j)) -> forall j, (j < N)%N -> Q j (plus j).
Proof.
  move=> H1 H2 H3 H4 j Hj. rewrite /glue. case: ltnP => C1; first exact: H1.
  case: ltnP => C2.
  { have := H2 (j - n1)%N. rewrite subnKC // ltn_subLR //. exact. }
  case: ltnP => C3; last by rewrite addr0; exact: H4.
  have Hm : (j - (n1 + n2) < mults)%N by rewrite ltn_subLR.
  have [S1 S2 S3] := seg_ok Hm. have := H3 _ _ S1 S2. rewrite -S3 subnKC //. by case: (seg _ _ _).
Qed.
End Glue.

(** Whether a gate is AND. *)
Definition is_and (x : pgate) : bool := if x is PAnd _ _ _ then true else false.

(** ** What changes in an execution *)
(** [cids] are the channels of garble.rs:153-158 and the gates; [r3] has the mask
    of the first product of each AND gate. *)
Section Change.
Variables (cids : seq pid) (pm pk pm' pk' : nat -> {poly F}) (pr1 pz1 pr2 pz2 r3 : nat -> {poly F}) (kout kinp kand : nat -> nat -> nat -> nat -> F).
Definition ex_po := wi_po emb n t l circ B1 K pm pk pr1 pz1 kout.
Definition ex_po' := wi_po' emb n t l A circ B1 K pm pk pm' pk' pr1 pz1 kout.
Definition ex_w := wi_w emb n t l circ B2 K ex_po pr2 pz2 kinp.
Definition ex_w' := wi_w' emb n t l A circ B2 K ex_po ex_po' pr2 pz2 kinp.
Definition ex_co1 := wi_co1 emb n l A circ K pm pk pm' pk'.
Definition ex_co2 := wi_co2 emb n l A circ ex_po ex_po'.
Definition gkey (p : nat -> {poly F}) (gid b c : nat) : {poly F} := p ((b * K + c) * size outs + (ninp + gid))%N.
Definition ex_gdl (gid : nat) : nat -> {poly F} :=
  gate_dl (nth g0 gates gid) (nth [::] cids (4 + gid)) (fun me => kand me gid) (fun s => ex_w (offs ninps gates gid + s)%N) (fun s => ex_w' (offs ninps gates gid + s)%N)
    (pm (ninp + gid)%N) (pm' (ninp + gid)%N) (gkey pk gid) (gkey pk' gid) (r3 gid).
Definition ex_rand := glue nr1 nr2 (wi_h1 emb n t l A circ K pm pk pm' pk') (wi_h2 emb n t l A circ K ex_po ex_po') (fun gid q => offp emb n l A (ex_gdl gid q)).
Definition ex_zero := glue nz1 nz2 (fun q => - wi_z1 emb n t l A circ K pm pk pm' pk' q) (fun q => - wi_z2 emb n t l A circ K ex_po ex_po' q)
  (fun gid q => ex_gdl gid q - offp emb n l A (ex_gdl gid q)).
End Change.

Lemma garble_exact (id : pid) chans nr nz (pp : nat -> preproc_data F) (o : polys) pm' pk' pe' pr1 pz1 pr2 pz2 r3 (coins : nat -> gcoins F) (k1 k2 : nat -> nat -> nat -> nat -> F) :
  blocks_shielded n l A circ ->
  ProtoIdModel.garble_ids id circ (N.of_nat l) = Some chans ->
  holds nr nz pp o -> (nr1 + nr2 + mults <= nr)%N -> (nz1 + nz2 + mults <= nz)%N ->
  low (size outs) (o_mask o) -> low (2 * K * size outs) (o_key o) -> low nr (o_rand o) -> zero_at nz (o_zero o) ->
  low (size outs) pm' -> low (2 * K * size outs) pk' -> agree (size outs) (o_mask o) pm' -> agree (2 * K * size outs) (o_key o) pk' ->
  (forall j, (j < nr1)%N -> pr1 j = o_rand o j) -> (forall j, (j < nz1)%N -> pz1 j = o_zero o j) ->
  (forall j, (j < nr2)%N -> pr2 j = o_rand o (nr1 + j)%N) -> (forall j, (j < nz2)%N -> pz2 j = o_zero o (nz1 + j)%N) ->
  (forall gid, (gid < size gates)%N -> is_and (nth g0 gates gid) -> r3 gid = o_rand o (nr1 + nr2 + (moff gid + 3 * (K + 1)))%N) ->
  (forall me i j c, (me < n)%N -> (i < size outs)%N -> (j < reps)%N -> (c < t + l)%N -> gk_out (coins me) i j c = k1 me i j c) ->
  (forall me i j c, (me < n)%N -> (i < size inps)%N -> (j < reps)%N -> (c < t + l)%N -> gk_inp (coins me) i j c = k2 me i j c) ->
  exists cids (rds rds' : seq (pid * round D)), ProtoIdModel.take_ids id (4 + N.of_nat (size gates))%num (4 + size gates) = Some cids /\
   let pm := o_mask o in let pk := o_key o in let k3 me := gk_and (coins me) in
   let pr' j := o_rand o j + ex_rand cids pm pk pm' pk' pr1 pz1 pr2 pz2 r3 k1 k2 k3 j in
   let pz' j := o_zero o j + ex_zero cids pm pk pm' pk' pr1 pz1 pr2 pz2 r3 k1 k2 k3 j in
   [/\ [/\ low nr pr', zero_at nz pz', agree nr (o_rand o) pr' & agree nz (o_zero o) pz'],
      perm_eq (ids rds) chans /\ twins n A rds rds',
      exists res, realizes rds (fun me k => garble emb ser de hash (g me) id (pp me) (coins me) k) res &
      forall pp' (coins' : nat -> gcoins F), holds nr nz pp' (Polys pm' pk' pr' pz' pe') ->
        (forall me, gk_and (coins' me) = gk_and (coins me) /\ gk_gate (coins' me) = gk_gate (coins me)) ->
        (forall me i j c, (me < n)%N -> (i < size outs)%N -> (j < reps)%N -> (c < t + l)%N ->
          gk_out (coins' me) i j c = k1 me i j c + ex_co1 pm pk pm' pk' me i j c) ->
        (forall me i j c, (me < n)%N -> (i < size inps)%N -> (j < reps)%N -> (c < t + l)%N ->
          gk_inp (coins' me) i j c = k2 me i j c + ex_co2 pm pk pm' pk' pr1 pz1 k1 me i j c) ->
        exists res, realizes rds' (fun me k => garble emb ser de hash (g me) id (pp' me) (coins' me) k) res].
Proof.
  move=> Hsh Hids Ho Hnr Hnz Lm Lk Lr Lz Lm' Lk' Am Ak Er1 Ez1 Er2 Ez2 Er3 Hk1 Hk2.
  pose k3 me := gk_and (coins me).
  have [cids [c0 [c1 [c2 [c3 [f [Et E0 E1 E2 [E3 Zf Hf Ec]]]]]]]] := garble_idsP HB1 HB2 Hids.
  have Fa : fits (2 * reps) by apply: Hfits; clear; lia. have Fb : fits reps by apply: Hfits; clear; lia.
  have Hn1 : (nr1 + nr2 <= nr)%N by apply: leq_trans Hnr; exact: leq_addr. have Hn2 : (nz1 + nz2 <= nz)%N by apply: leq_trans Hnz; exact: leq_addr.
  have Lr1 : low nr1 pr1 by move=> j Hj; rewrite Er1 //; apply: Lr; apply: leq_trans Hn1; apply: leq_trans Hj _; exact: leq_addr.
  have Lz1 : zero_at nz1 pz1 by move=> j Hj; rewrite Ez1 //; apply: Lz; apply: leq_trans Hn2; apply: leq_trans Hj _; exact: leq_addr.
  have Lr2 : low nr2 pr2 by move=> j Hj; rewrite Er2 //; apply: Lr; apply: leq_trans Hn1; rewrite ltn_add2l.
  have Lz2 : zero_at nz2 pz2 by move=> j Hj; rewrite Ez2 //; apply: Lz; apply: leq_trans Hn2; rewrite ltn_add2l.
  have Ekc : (2 * K * size outs = size outs * (2 * K))%N by rewrite mulnC.
  have Em me : (me < n)%N -> pp_masks (pp me) = held (o_mask o) (size outs) me by move=> /Ho [].
  have Ek me : (me < n)%N -> pp_keys (pp me) = held (o_key o) (size outs * (2 * K)) me by move=> /Ho []; rewrite -Ekc.
  have Lk2 : low (size outs * (2 * K)) (o_key o) by rewrite -Ekc. have Lk2' : low (size outs * (2 * K)) pk' by rewrite -Ekc.
  have Ak2 : agree (size outs * (2 * K)) (o_key o) pk' by rewrite -Ekc.
  have [rdw [rdw' [[X1 X2 X3 X4] [Y1 Y2 Y3 Y4] [Iw Iw' Tw] [Lw Rw Rw']]]] :=
    wire_exact serK HS Hl0 HKl UA HA tA Hwf Hinj HB1 HB2 Hg Hsh Fa Fb E0 E1 E2 E3 Lm Lm' Am Lk2 Lk2' Ak2 Lr1 Lz1 Lr2 Lz2 Em Ek Hk1 Hk2.
  pose w := ex_w (o_mask o) (o_key o) pr1 pz1 pr2 pz2 k1 k2. pose w' := ex_w' (o_mask o) (o_key o) pm' pk' pr1 pz1 pr2 pz2 k1 k2.
  (* the gates *)
  pose xr gid s := w (offs ninps gates gid + s)%N. pose xr' gid s := w' (offs ninps gates gid + s)%N.
  pose nm gid := gate_mults prm (nth g0 gates gid).
  pose ggi gid xr pm pk pr pz pe := gi emb K M (size (gate_inps (nth g0 gates gid))) (nm gid) (gate_rows (nth g0 gates gid)) xr pm pk pr pz pe.
  pose pr gid := from (from (o_rand o) (nr1 + nr2)) (moff gid). pose pz gid := from (from (o_zero o) (nz1 + nz2)) (moff gid).
  pose dl := ex_gdl cids (o_mask o) (o_key o) pm' pk' pr1 pz1 pr2 pz2 r3 k1 k2 k3.
  pose rel gid (rds : seq (pid * round D)) :=
    [/\ [/\ low (nm gid) (mpr (pr gid) (dl gid)), zero_at (nm gid) (mpz (pz gid) (dl gid)), agree (nm gid) (pr gid) (mpr (pr gid) (dl gid)) & agree (nm gid) (pz gid) (mpz (pz gid) (dl gid))],
     ids rds = nth [::] f gid, twins n A rds rds,
     forall pe, exists res, realizes rds (fun me k => gate_task ser de hash (g me) (nth [::] cids (4 + gid)) gid
        (ggi gid (xr gid) (o_mask o (ninp + gid)%N) (gkey (o_key o) gid) (pr gid) (pz gid) pe me) (coins me) k) res &
     forall pe (coins' : nat -> gcoins F), (forall me, gk_and (coins' me) = gk_and (coins me) /\ gk_gate (coins' me) = gk_gate (coins me)) ->
       exists res, realizes rds (fun me k => gate_task ser de hash (g me) (nth [::] cids (4 + gid)) gid
        (ggi gid (xr' gid) (pm' (ninp + gid)%N) (gkey pk' gid) (mpr (pr gid) (dl gid)) (mpz (pz gid) (dl gid)) pe me) (coins' me) k) res].
  have [y Hy] : exists y : nat -> seq (pid * round D), forall gid, (gid < size gates)%N -> rel gid (y gid).
  { apply: (@fin_choice _ (size gates) rel [::]) => gid Hgid.
    have Hmul := offs_all (gate_mults prm) Hgid. have Hin := offs_all ninps Hgid. rewrite /= in Hmul Hin.
    have Hol : (ninp + gid < size outs)%N by rewrite nbE ltn_add2l.
    have Hkey b c : (b < 2)%N -> (c < K)%N -> ((b * K + c) * size outs + (ninp + gid) < 2 * K * size outs)%N.
    { move=> Hb Hc. have : (b * K + c < 2 * K)%N by clear -Hb Hc; nia. move: Hol. clear. move: (size outs) (b * K + c)%N (ninp + gid)%N. nia. }
    have GP : gate_pair emb t l A K (size (gate_inps (nth g0 gates gid))) (xr gid) (xr' gid) (o_mask o (ninp + gid)%N) (pm' (ninp + gid)%N) (gkey (o_key o) gid) (gkey pk' gid).
    { split.
      - move=> s Hs. apply: Lw. rewrite /inp_blocks -offs_inps. apply: leq_trans Hin. by rewrite ltn_add2l.
      - split; [exact: Lm|exact: Lm'|by move=> a Ha; exact: Am].
      - move=> b Hb. split=> [c Hc|c Hc|c a Hc Ha]; [apply: Lk|apply: Lk'|apply: Ak => //]; exact: Hkey. }
    have Hin3 q : (q < nm gid)%N -> (moff gid + q < mults)%N by move=> Hq; apply: leq_trans Hmul; rewrite ltn_add2l.
    have Lrg : low (nm gid) (pr gid).
    { move=> q /Hin3 Hq. apply: Lr. apply: leq_trans Hnr. by rewrite ltn_add2l. }
    have Lzg : zero_at (nm gid) (pz gid).
    { move=> q /Hin3 Hq. apply: Lz. apply: leq_trans Hnz. by rewrite ltn_add2l. }
    have [rds [G1 G2 G3 G4 G5]] := gate_exact coins erefl (Hf gid Hgid) GP Lrg Lzg.
    have Edl : gate_dl (nth g0 gates gid) (nth [::] cids (4 + gid)) (fun me => gk_and (coins me) gid) (xr gid) (xr' gid) (o_mask o (ninp + gid)%N) (pm' (ninp + gid)%N)
        (gkey (o_key o) gid) (gkey pk' gid) (pr gid (3 * (K + 1))%N) = dl gid.
    { rewrite /dl /ex_gdl /gate_dl. case Eg : (nth g0 gates gid) => //. rewrite Er3 // Eg //. }
    rewrite Edl in G1 G5. exists rds. split; [exact: G1|exact: G2|exact: G3|exact: G4|exact: G5]. }
  pose rand' j := o_rand o j + ex_rand cids (o_mask o) (o_key o) pm' pk' pr1 pz1 pr2 pz2 r3 k1 k2 k3 j.
  pose zero' j := o_zero o j + ex_zero cids (o_mask o) (o_key o) pm' pk' pr1 pz1 pr2 pz2 r3 k1 k2 k3 j.
  have [tt Htt] : exists tt : nat -> nat -> seq (seq F), forall gid, (gid < size gates)%N ->
    realizes (y gid) (fun me k => gate_task ser de hash (g me) (nth [::] cids (4 + gid)) gid (gate_gi o w gid me) (coins me) k) (tt gid).
  { apply: (@fin_choice _ (size gates) (fun gid tt => realizes (y gid) (fun me k => gate_task ser de hash (g me) (nth [::] cids (4 + gid)) gid (gate_gi o w gid me) (coins me) k) tt) (fun _ => [::])) => gid Hgid.
    have [_ _ _ H _] := Hy gid Hgid. exact: H. }
  exists cids, (rdw ++ flatten [seq y gid | gid <- iota 0 (size gates)]), (rdw' ++ flatten [seq y gid | gid <- iota 0 (size gates)]).
  have Yg gid : (gid < size gates)%N -> [/\ low (nm gid) (mpr (pr gid) (dl gid)), zero_at (nm gid) (mpz (pz gid) (dl gid)), agree (nm gid) (pr gid) (mpr (pr gid) (dl gid)) & agree (nm gid) (pz gid) (mpz (pz gid) (dl gid))].
  { by move=> Hgid; have [] := Hy gid Hgid. }
  split; first exact: Et. cbv zeta. split.
  - split.
    + apply: (glue_all (Q := fun _ p => (size p <= t + l)%N)) => // [j Hj|j Hj|gid q Hgid Hq].
      * rewrite -Er1 //. exact: X1.
      * rewrite -Er2 //. exact: Y1.
      * have [H _ _ _] := Yg gid Hgid. exact: H.
    + apply: (glue_all (Q := fun _ p => (size p <= n)%N /\ forall x, x \in pos -> p.[x] = 0)) => // [j Hj|j Hj|gid q Hgid Hq].
      * rewrite -Ez1 //. exact: X2.
      * rewrite -Ez2 //. exact: Y2.
      * have [_ H _ _] := Yg gid Hgid. exact: H.
    + move=> j a Hj Ha. move: j Hj. apply: (glue_all (Q := fun j p => (o_rand o j).[emb a] = p.[emb a])) => //.
      * move=> j Hj. rewrite -Er1 //. exact: X3.
      * move=> j Hj. rewrite -Er2 //. exact: Y3.
      * move=> gid q Hgid Hq. have [_ _ H _] := Yg gid Hgid. exact: H.
    + move=> j a Hj Ha. move: j Hj. apply: (glue_all (Q := fun j p => (o_zero o j).[emb a] = p.[emb a])) => //.
      * move=> j Hj. rewrite -Ez1 //. exact: X4.
      * move=> j Hj. rewrite -Ez2 //. exact: Y4.
      * move=> gid q Hgid Hq. have [_ _ _ H] := Yg gid Hgid. exact: H.
  - have Ig : ids (flatten [seq y gid | gid <- iota 0 (size gates)]) = flatten f.
    { rewrite /ids map_flatten -map_comp. congr flatten.
      apply: (@eq_from_nth _ [::]) => [|gid]; rewrite size_map size_iota ?Zf // => Hgid.
      rewrite (nth_map 0%N) ?size_iota // nth_iota //=. by have [] := Hy gid Hgid. }
    split; first by rewrite ids_cat Iw Ig Ec -!catA perm_catCA.
    apply: twins_cat => //. apply: twins_flat => gid /In_iota_lt Hgid. by have [] := Hy gid Hgid.
  - have Rw0 : realizes rdw (fun me k => wire_shares emb ser de (g me) cids (pp me) (held (o_rand o) nr1 me, held (o_zero o) nz1 me)
      (held (from (o_rand o) nr1) nr2 me, held (from (o_zero o) nz1) nz2 me) (coins me) k) (fun me => [seq held (w i) reps me | i <- iota 0 (size inps)]).
    { apply: realizes_eq Rw => // me k Hm. congr wire_shares; congr (_, _); apply: held_ext => j Hj; by rewrite ?Er1 ?Ez1 ?Er2 ?Ez2. }
    exact: (@garble_from id cids nr nz pp o w coins rdw (fun gid => (y gid, tt gid)) Et Ho Hnr Hnz Rw0 Htt).
  - move=> pp' coins' Ho' Hc0 Hc1 Hc2. set o' := Polys _ _ _ _ _ in Ho'.
    have Em' me : (me < n)%N -> pp_masks (pp' me) = held pm' (size outs) me by move=> /Ho' [].
    have Ek' me : (me < n)%N -> pp_keys (pp' me) = held pk' (size outs * (2 * K)) me by move=> /Ho' []; rewrite -Ekc.
    have Rw2 := Rw' pp' coins' Em' Ek' Hc1 Hc2.
    have [tt' Htt'] : exists tt : nat -> nat -> seq (seq F), forall gid, (gid < size gates)%N ->
      realizes (y gid) (fun me k => gate_task ser de hash (g me) (nth [::] cids (4 + gid)) gid (gate_gi o' w' gid me) (coins' me) k) (tt gid).
    { apply: (@fin_choice _ (size gates) (fun gid tt => realizes (y gid) (fun me k => gate_task ser de hash (g me) (nth [::] cids (4 + gid)) gid (gate_gi o' w' gid me) (coins' me) k) tt) (fun _ => [::])) => gid Hgid.
      have Hx me : gate_gi o' w' gid me = ggi gid (xr' gid) (pm' (ninp + gid)%N) (gkey pk' gid) (mpr (pr gid) (dl gid)) (mpz (pz gid) (dl gid)) (from pe' (eoff gid)) me.
      { rewrite /gate_gi /ggi /gi. cbn [o_mask o_key o_rand o_zero o_err o']. by rewrite !glue3. }
      have [_ _ _ _ H] := Hy gid Hgid. have [res R] := H (from pe' (eoff gid)) coins' Hc0. exists res.
      apply: realizes_eq R => // me k Hm. by rewrite Hx. }
    apply: (@garble_from id cids nr nz pp' o' w' coins' rdw' (fun gid => (y gid, tt' gid)) Et Ho' Hnr Hnz _ Htt').
    apply: realizes_eq Rw2 => // me k Hm. cbn [o_rand o_zero o']. rewrite !glue1 !glue2.
    congr wire_shares; congr (_, _); apply: held_ext => j Hj; by rewrite ?Er1 ?Ez1 ?Er2 ?Ez2.
Qed.

Lemma ex_coA pm pk pm' pk' rand zero k1 a i j c : a \in A -> ex_co1 pm pk pm' pk' a i j c = 0 /\ ex_co2 pm pk pm' pk' rand zero k1 a i j c = 0.
Proof. move=> Ha. by rewrite /ex_co1 /ex_co2 /wi_co1 /wi_co2 /tf_co /tco !Ha !if_same. Qed.

Lemma garble_twin (id : pid) chans nr nz (pp : nat -> preproc_data F) (o : polys) pm' pk' pe' (coins : nat -> gcoins F) :
  blocks_shielded n l A circ ->
  ProtoIdModel.garble_ids id circ (N.of_nat l) = Some chans ->
  holds nr nz pp o -> (nr1 + nr2 + mults <= nr)%N -> (nz1 + nz2 + mults <= nz)%N ->
  low (size outs) (o_mask o) -> low (2 * K * size outs) (o_key o) -> low nr (o_rand o) -> zero_at nz (o_zero o) ->
  low (size outs) pm' -> low (2 * K * size outs) pk' -> agree (size outs) (o_mask o) pm' -> agree (2 * K * size outs) (o_key o) pk' ->
  exists pr' pz' coins' (rds rds' : seq (pid * round D)),
   [/\ [/\ low nr pr', zero_at nz pz', agree nr (o_rand o) pr' & agree nz (o_zero o) pz'],
      forall a, a \in A -> coins' a = coins a,
      perm_eq (ids rds) chans /\ twins n A rds rds',
      exists res, realizes rds (fun me k => garble emb ser de hash (g me) id (pp me) (coins me) k) res &
      forall pp', holds nr nz pp' (Polys pm' pk' pr' pz' pe') ->
        exists res, realizes rds' (fun me k => garble emb ser de hash (g me) id (pp' me) (coins' me) k) res].
Proof.
  move=> Hsh Hids Ho Hnr Hnz Lm Lk Lr Lz Lm' Lk' Am Ak.
  pose k1 me := gk_out (coins me). pose k2 me := gk_inp (coins me). pose k3 me := gk_and (coins me).
  have [cids [rds [rds' [_ [H1 H2 H3 H4]]]]] := @garble_exact id chans nr nz pp o pm' pk' pe' (o_rand o) (o_zero o) (from (o_rand o) nr1) (from (o_zero o) nz1)
    (fun gid => o_rand o (nr1 + nr2 + (moff gid + 3 * (K + 1)))%N) coins k1 k2 Hsh Hids Ho Hnr Hnz Lm Lk Lr Lz Lm' Lk' Am Ak
    (fun _ _ => erefl) (fun _ _ => erefl) (fun _ _ => erefl) (fun _ _ => erefl) (fun _ _ _ => erefl) (fun _ _ _ _ _ _ _ _ => erefl) (fun _ _ _ _ _ _ _ _ => erefl).
  pose co1 := ex_co1 (o_mask o) (o_key o) pm' pk'. pose co2 := ex_co2 (o_mask o) (o_key o) pm' pk' (o_rand o) (o_zero o) k1.
  pose coins' me := if me \in A then coins me else
    GCoins (fun i j c => gk_out (coins me) i j c + co1 me i j c) (fun i j c => gk_inp (coins me) i j c + co2 me i j c) (gk_and (coins me)) (gk_gate (coins me)).
  exists (fun j => o_rand o j + ex_rand cids (o_mask o) (o_key o) pm' pk' (o_rand o) (o_zero o) (from (o_rand o) nr1) (from (o_zero o) nz1) (fun gid => o_rand o (nr1 + nr2 + (moff gid + 3 * (K + 1)))%N) k1 k2 k3 j),
    (fun j => o_zero o j + ex_zero cids (o_mask o) (o_key o) pm' pk' (o_rand o) (o_zero o) (from (o_rand o) nr1) (from (o_zero o) nz1) (fun gid => o_rand o (nr1 + nr2 + (moff gid + 3 * (K + 1)))%N) k1 k2 k3 j), coins', rds, rds'.
  split; [exact: H1|by move=> a Ha; rewrite /coins' Ha|exact: H2|exact: H3|].
  move=> pp' Ho'. apply: (H4 pp' coins' Ho').
  - by move=> me; rewrite /coins'; case: ifP.
  - move=> me i j c _ _ _ _. rewrite /coins'. case: ifP => // Ha. by rewrite (ex_coA _ _ _ _ (o_rand o) (o_zero o) k1 i j c Ha).1 addr0.
  - move=> me i j c _ _ _ _. rewrite /coins'. case: ifP => // Ha. by rewrite (ex_coA _ _ _ _ _ _ _ i j c Ha).2 addr0.
Qed.

End Twin.

(** The gates (garble.rs:355-628) in two executions that look the same to a set
    of parties. *)

From Coq Require Import NArith List.
From Verif Require Import CircuitModel LpnModel.
From mathcomp Require Import all_ssreflect all_algebra zify.
From Verif Require Import MathModel MathProofs MatProofs SharingModel SharingSpec SharingProofs.
From Verif Require Import MachineModel MachineProofs MachineBuild Realize CoreModel CoreSpec CoreProofs.
From Verif Require Import RandTransProofs PreprocModel PreprocSpec PreprocProofs GarbleModel GarbleSpec GarbleGates.
From Verif Require Import ViewProofs TwinProofs TwinCore.
From Verif Require ProtoIdModel ProtoIdProofs.
Set Implicit Arguments.
Unset Strict Implicit.
Unset Printing Implicit Defensive.
Import GRing.Theory.
Local Open Scope ring_scope.

Section Twin.
Variable F : fieldType.
Variable emb : nat -> F.
Variable D : eqType.
Variable ser : seq F -> D.
Variable de : D -> option (seq F).
Variable fits : nat -> Prop.
Hypothesis serK : codec_ok ser de fits.
Variables (n t l : nat) (P Pn : pss F).
Hypothesis HS : setting emb n t l P Pn.
Hypothesis Hdeg : (2 * (t + l).-1 <= n.-1)%N.
Hypothesis Hl0 : (0 < l)%N.
Variable A : seq nat.
Hypothesis UA : uniq A.
Hypothesis HA : all (fun i => (i < n)%N) A.
Hypothesis tA : (size A <= t)%N.
Notation mk me := (Ctx me n t l P Pn).
Notation held := (held emb).
Notation pid := [eqType of seq N].
Notation realizes := (@realizes n pid D (val F)).
Notation low := (low t l).
Notation zero_at := (zero_at emb n l).
Notation agree := (agree emb A).
Variable hash : seq N -> N.
Hypothesis Hn16 : (n <= 2 ^ 16)%N.
Variables (K M : nat).
Notation prm := (Lpn K M).
Notation reps := (2 * K + 1)%N.
Variable g : nat -> gctx F.
Variable gid : nat.
Hypothesis Hg : forall me, (me < n)%N -> g_mpc (g me) = mk me /\ g_lpn (g me) = prm.
Hypothesis Hfit1 : fits 1.
Hypothesis HfitK : fits (K + 1).
Hypothesis Hfit3 : fits (3 * (K + 1)).

(** What the parties hold at a gate. *)
Definition gi (ni nm R : nat) (xr : nat -> nat -> {poly F}) (pm : {poly F}) (pk : nat -> nat -> {poly F}) (pr pz pe : nat -> {poly F}) (me : nat) : gate_inp F :=
  GateInp [seq held (xr s) reps me | s <- iota 0 ni] pm.[emb me] [seq held (pk b) K me | b <- iota 0 2] (held pr nm me) (held pz nm me) (held pe (R * M) me).

(** Two worlds of it. *)
Record gate_pair (ni : nat) (xr xr' : nat -> nat -> {poly F}) (pm pm' : {poly F}) (pk pk' : nat -> nat -> {poly F}) : Prop := GatePair {
  gp_row : forall s, (s < ni)%N -> [/\ low reps (xr s), low reps (xr' s) & agree reps (xr s) (xr' s)];
  gp_mask : [/\ (size pm <= t + l)%N, (size pm' <= t + l)%N & forall a, a \in A -> pm.[emb a] = pm'.[emb a]];
  gp_keys : forall b, (b < 2)%N -> [/\ low K (pk b), low K (pk' b) & agree K (pk b) (pk' b)] }.

Lemma ext_agree pk pk' (pm pm' : {poly F}) b : (b < 2)%N -> agree K (pk b) (pk' b) -> (forall a, a \in A -> pm.[emb a] = pm'.[emb a]) ->
  agree (K + 1) (ext_poly K pk pm b) (ext_poly K pk' pm' b).
Proof.
  move=> Hb Ha Hm c a Hc Hin. rewrite /ext_poly. case: ltnP => Hc'; first exact: Ha.
  case: eqP => _; first exact: Hm. by rewrite !hornerD Hm.
Qed.

Definition dkey (pk : nat -> nat -> {poly F}) pm c : {poly F} := ext_poly K pk pm 1 c - ext_poly K pk pm 0 c.

Lemma dkey_low pk (pm : {poly F}) num : (0 < t + l)%N -> (forall b, (b < 2)%N -> low K (pk b)) -> (size pm <= t + l)%N -> low num (dkey pk pm).
Proof. move=> Ht Hk Hm c _. rewrite /dkey sz_sub //; apply: ext_size => // *; exact: Hk. Qed.

Lemma dkey_agree pk pk' (pm pm' : {poly F}) : (forall b, (b < 2)%N -> agree K (pk b) (pk' b)) -> (forall a, a \in A -> pm.[emb a] = pm'.[emb a]) ->
  agree (K + 1) (dkey pk pm) (dkey pk' pm').
Proof.
  move=> Ha Hm c a Hc Hin. rewrite /dkey !hornerD !hornerN. by rewrite !(@ext_agree pk pk' pm pm') //; apply: Ha.
Qed.

Notation good nm pr pz pr' pz' := ([/\ low nm pr', zero_at nm pz', agree nm pr pr' & agree nm pz pz']).

(** One gate from its multiplication. *)
Lemma xor_from (id : pid) L rd xr pm pk pr pz pe w (coin : nat -> nat -> nat -> F) : leader_from_proto_id hash id n = Some L ->
  realizes [:: (id, rd)] (fun me k => mult ser de (mk me) id (held (fun _ => xr 0%N (2 * K)%N + xr 1%N (2 * K)%N + pm) (K + 1) me)
    (held (dkey pk pm) (K + 1) me) (held pr (K + 1) me) (held pz (K + 1) me) L (coin me) k) (held w (K + 1)) ->
  exists res, realizes [:: (id, rd)] (fun me k => garble_xor ser de hash (g me) id gid (gi 2 (K + 1) 4 xr pm pk pr pz pe me) (coin me) k) res.
Proof.
  move=> EL R. pose ek b := ext_poly K pk pm b. eexists.
  have R' := realizes_map (f := fun me sel => let: (mssg1, mssg2) := (zipw +%R sel (held (ek 0%N) (K + 1) me), zipw +%R sel (held (ek 1%N) (K + 1) me)) in
      table4 (gate_mat (g me) gid) K M (held (xr 0%N) (2 * K + 1) me) (held (xr 1%N) (2 * K + 1) me)
           [seq mdot (g_enc (g me)) p | p <- [:: mssg1; mssg2; mssg2; mssg1]] (held pe (4 * M) me)) R.
  apply: realizes_eq R' => // i k Hi. have [E1 E2] := Hg Hi.
  rewrite /garble_xor E1 E2 /gi /= !size_held !eqxx /= /mult_leader /= EL.
  by rewrite !row_maskE -!hornerD held_nseq !ext_labelE // held_sub.
Qed.

Lemma inv_from (id : pid) L rd xr pm pk pr pz pe w (coin : nat -> nat -> nat -> F) : leader_from_proto_id hash id n = Some L ->
  realizes [:: (id, rd)] (fun me k => mult ser de (mk me) id (held (fun _ => xr 0%N (2 * K)%N + pm) (K + 1) me)
    (held (dkey pk pm) (K + 1) me) (held pr (K + 1) me) (held pz (K + 1) me) L (coin me) k) (held w (K + 1)) ->
  exists res, realizes [:: (id, rd)] (fun me k => garble_inv ser de hash (g me) id gid (gi 1 (K + 1) 2 xr pm pk pr pz pe me) (coin me) k) res.
Proof.
  move=> EL R. pose ek b := ext_poly K pk pm b. eexists.
  have R' := realizes_map (f := fun me sel => let mssg1 := zipw +%R sel (held (ek 0%N) (K + 1) me) in
       let mssg2 := zipw +%R (zipw +%R (held (ek 0%N) (K + 1) me) (held (ek 1%N) (K + 1) me)) mssg1 in
      table2 (gate_mat (g me) gid) K M (held (xr 0%N) (2 * K + 1) me) [seq mdot (g_enc (g me)) p | p <- [:: mssg1; mssg2]] (held pe (2 * M) me)) R.
  apply: realizes_eq R' => // i k Hi. have [E1 E2] := Hg Hi.
  rewrite /garble_inv E1 E2 /gi /= !size_held !eqxx /= /mult_leader /= EL.
  by rewrite !row_maskE -!hornerD held_nseq !ext_labelE // held_sub.
Qed.

(** The selectors and differences of the second multiplication of AND. *)
Definition and_sel (xr : nat -> nat -> {poly F}) (pm w1 : {poly F}) (j : nat) : {poly F} :=
  let S := w1 + pm in nth 0 [:: S; S + xr 0%N (2 * K)%N; S + xr 1%N (2 * K)%N] (j %/ (K + 1))%N.
Definition and_key pk pm (j : nat) : {poly F} := dkey pk pm (j %% (K + 1))%N.

Lemma and_from (id id1 : pid) L1 L2 rd1 rd2 xr pm pk pr pz pe w1 w (coin1 coin2 : nat -> nat -> nat -> F) :
  ProtoIdModel.take_ids id 2 1 = Some [:: id1] ->
  leader_from_proto_id hash id1 n = Some L1 -> leader_from_proto_id hash id n = Some L2 ->
  realizes [:: (id1, rd1)] (fun me k => mult ser de (mk me) id1 (held (fun _ => xr 0%N (2 * K)%N) 1 me) (held (fun _ => xr 1%N (2 * K)%N) 1 me)
    (held (fun j => pr (3 * (K + 1) + j)%N) 1 me) (held (fun j => pz (3 * (K + 1) + j)%N) 1 me) L1 (coin1 me) k) (held w1 1) ->
  realizes [:: (id, rd2)] (fun me k => mult ser de (mk me) id (held (and_sel xr pm (w1 0%N)) (3 * (K + 1)) me) (held (and_key pk pm) (3 * (K + 1)) me)
    (held pr (3 * (K + 1)) me) (held pz (3 * (K + 1)) me) L2 (coin2 me) k) (held w (3 * (K + 1))) ->
  exists res, realizes [:: (id1, rd1); (id, rd2)]
    (fun me k => garble_and ser de hash (g me) id gid (gi 2 (3 * (K + 1) + 1) 4 xr pm pk pr pz pe me) (coin1 me) (coin2 me) k) res.
Proof.
  move=> Eid EL1 EL2 R1 R2. pose ek b := ext_poly K pk pm b.
  have HK1 : (0 < K + 1)%N by rewrite addn1.
  pose fin me (sel : seq (seq F)) := let key0 := held (ek 0%N) (K + 1) me in let key1 := held (ek 1%N) (K + 1) me in
            let r3 := zipw (fun a b => a - b)
                        (zipw +%R (zipw +%R (zipw +%R (nth [::] sel 0) (nth [::] sel 1)) (nth [::] sel 2)) key1) key0 in
            let plain := [seq zipw +%R r key0 | r <- rcons sel r3] in
            table4 (gate_mat (g me) gid) K M (held (xr 0%N) reps me) (held (xr 1%N) reps me) [seq mdot (g_enc (g me)) p | p <- plain] (held pe (4 * M) me).
  pose Q me prod (k : seq (seq F) -> proc pid D (val F)) :=
    let s := nth 0 prod 0 + pm.[emb me] in
    let selector := nseq (K + 1) s ++ nseq (K + 1) (s + (xr 0%N (2 * K)%N).[emb me]) ++ nseq (K + 1) (s + (xr 1%N (2 * K)%N).[emb me]) in
    let key0 := held (ek 0%N) (K + 1) me in
    let key1 := held (ek 1%N) (K + 1) me in
    let d := zipw (fun a b => a - b) key1 key0 in
    mult_leader hash (mk me) id (fun L2 =>
    mult ser de (mk me) id selector (d ++ d ++ d) (take (3 * (K + 1)) (held pr (3 * (K + 1) + 1) me)) (take (3 * (K + 1)) (held pz (3 * (K + 1) + 1) me)) L2 (coin2 me) (fun sel =>
          if to_mat 3 (K + 1) sel is Some sel then k (fin me sel) else Panic)).
  pose res me := fin me [seq held (fun c => w (r * (K + 1) + c)%N) (K + 1) me | r <- iota 0 3].
  have RQ : realizes [:: (id, rd2)] (fun me => Q me (held w1 1 me)) res.
  { move=> plan ph AP me k js v Hm Fk. rewrite /Q /mult_leader /= EL2. cbv zeta.
    have -> : nseq (K + 1) ((w1 0%N).[emb me] + pm.[emb me]) ++ nseq (K + 1) ((w1 0%N).[emb me] + pm.[emb me] + (xr 0%N (2 * K)%N).[emb me]) ++
       nseq (K + 1) ((w1 0%N).[emb me] + pm.[emb me] + (xr 1%N (2 * K)%N).[emb me]) = held (and_sel xr pm (w1 0%N)) (3 * (K + 1)) me.
    { rewrite -!hornerD !held_nseq held_flat /= cats0. congr (_ ++ (_ ++ _)); apply: held_ext => c Hc;
        by rewrite /and_sel divnMDl // divn_small. }
    rewrite held_sub.
    have -> : held (fun j => ek 1%N j - ek 0%N j) (K + 1) me ++ held (fun j => ek 1%N j - ek 0%N j) (K + 1) me ++
       held (fun j => ek 1%N j - ek 0%N j) (K + 1) me = held (and_key pk pm) (3 * (K + 1)) me.
    { rewrite held_flat /= cats0. congr (_ ++ (_ ++ _)); apply: held_ext => c Hc;
        by rewrite /and_key modnMDl modn_small. }
    have Etk p : take (3 * (K + 1)) (held p (3 * (K + 1) + 1) me) = held p (3 * (K + 1)) me.
    { by rewrite -[X in take _ X]drop0 held_slice // leq_addr. }
    rewrite !Etk. apply: (R2 plan ph AP me _ js v Hm). rewrite to_mat_held. exact: Fk. }
  exists res. apply: (realizes_eq _ _ (realizes_seq R1 RQ)) => // i k Hi. rewrite /Q. have [E1 E2] := Hg Hi.
  have El p : [:: last 0 (held p (3 * (K + 1) + 1) i)] = held (fun j => p (3 * (K + 1) + j)%N) 1 i.
  { by rewrite (addn1 (3 * (K + 1))) last_held /held /= addn0. }
  rewrite /garble_and Eid E1 E2 /gi. cbn [gi_randoms gi_zeros gi_errors gi_rows gi_mask gi_keys lpn_key_len lpn_mssg_len].
  rewrite !size_held !eqxx. cbn [andb]. rewrite /mult_leader. cbn [c_n]. rewrite EL1.
  rewrite !El !ext_labelE // ![nth [::] (map _ _) _]/=. by rewrite !row_maskE.
Qed.

(** ** Two worlds *)
(** What changes in the products of a gate. *)
Definition xor_dl (xr xr' : nat -> nat -> {poly F}) (pm pm' : {poly F}) (pk pk' : nat -> nat -> {poly F}) : nat -> {poly F} :=
  mdl (fun _ => xr 0%N (2 * K)%N + xr 1%N (2 * K)%N + pm) (dkey pk pm) (fun _ => xr' 0%N (2 * K)%N + xr' 1%N (2 * K)%N + pm') (dkey pk' pm').
Definition inv_dl (xr xr' : nat -> nat -> {poly F}) (pm pm' : {poly F}) (pk pk' : nat -> nat -> {poly F}) : nat -> {poly F} :=
  mdl (fun _ => xr 0%N (2 * K)%N + pm) (dkey pk pm) (fun _ => xr' 0%N (2 * K)%N + pm') (dkey pk' pm').
Definition and_d1 (xr xr' : nat -> nat -> {poly F}) : {poly F} := xr 0%N (2 * K)%N * xr 1%N (2 * K)%N - xr' 0%N (2 * K)%N * xr' 1%N (2 * K)%N.
Definition and_w1 (xr : nat -> nat -> {poly F}) (r : {poly F}) (c : nat -> nat -> F) : {poly F} :=
  mout emb n t l (fun _ => xr 0%N (2 * K)%N) (fun _ => xr 1%N (2 * K)%N) (fun _ => r) c 0%N.
Definition and_dl (xr xr' : nat -> nat -> {poly F}) (pm pm' : {poly F}) (pk pk' : nat -> nat -> {poly F}) (r : {poly F}) (c : nat -> nat -> F) (j : nat) : {poly F} :=
  if (j < 3 * (K + 1))%N then
    let w1 := and_w1 xr r c in
    mdl (and_sel xr pm w1) (and_key pk pm) (and_sel xr' pm' (w1 - offp emb n l A (and_d1 xr xr'))) (and_key pk' pm') j
  else and_d1 xr xr'.
Notation mpr := (mpr emb n l A).
Notation mpz := (mpz emb n l A).

Lemma xor_exact (id : pid) xr xr' pm pm' pk pk' pr pz (coin : nat -> nat -> nat -> F) : gate_pair 2 xr xr' pm pm' pk pk' -> low (K + 1) pr -> zero_at (K + 1) pz ->
  let dl := xor_dl xr xr' pm pm' pk pk' in let pr' := mpr pr dl in let pz' := mpz pz dl in
  exists rd, [/\ good (K + 1) pr pz pr' pz', alike n A rd rd,
    forall pe, exists res, realizes [:: (id, rd)] (fun me k => garble_xor ser de hash (g me) id gid (gi 2 (K + 1) 4 xr pm pk pr pz pe me) (coin me) k) res &
    forall pe, exists res, realizes [:: (id, rd)] (fun me k => garble_xor ser de hash (g me) id gid (gi 2 (K + 1) 4 xr' pm' pk' pr' pz' pe me) (coin me) k) res].
Proof.
  move=> [Hr [H1 H2 H3] Hk] Lr Lz dl pr' pz'. have [L EL HL] := leader_ok HS Hdeg hash Hn16 Hl0 id. have [Ht _ _ _] := HS.
  have [L0 L0' A0] := Hr 0%N isT. have [L1 L1' A1] := Hr 1%N isT.
  have H2K : (2 * K < reps)%N by rewrite addn1.
  have [||||||rd [G _ Al R R']] := mult_exact serK HS UA HA tA id coin Hdeg HL HfitK
     (px := fun _ => xr 0%N (2 * K)%N + xr 1%N (2 * K)%N + pm) (px' := fun _ => xr' 0%N (2 * K)%N + xr' 1%N (2 * K)%N + pm')
     (py := dkey pk pm) (py' := dkey pk' pm') _ _ _ _ _ _ Lr Lz.
  - by move=> j _; rewrite !sz_add ?L0 ?L1.
  - by apply: dkey_low => // b Hb; have [] := Hk b Hb.
  - by move=> j _; rewrite !sz_add ?L0' ?L1'.
  - by apply: dkey_low => // b Hb; have [] := Hk b Hb.
  - by move=> j a _ Ha; rewrite !hornerD A0 // A1 // H3.
  - by apply: dkey_agree => // b Hb; have [] := Hk b Hb.
  - exists rd. split=> // pe; [exact: xor_from EL R|exact: xor_from EL R'].
Qed.

Lemma inv_exact (id : pid) xr xr' pm pm' pk pk' pr pz (coin : nat -> nat -> nat -> F) : gate_pair 1 xr xr' pm pm' pk pk' -> low (K + 1) pr -> zero_at (K + 1) pz ->
  let dl := inv_dl xr xr' pm pm' pk pk' in let pr' := mpr pr dl in let pz' := mpz pz dl in
  exists rd, [/\ good (K + 1) pr pz pr' pz', alike n A rd rd,
    forall pe, exists res, realizes [:: (id, rd)] (fun me k => garble_inv ser de hash (g me) id gid (gi 1 (K + 1) 2 xr pm pk pr pz pe me) (coin me) k) res &
    forall pe, exists res, realizes [:: (id, rd)] (fun me k => garble_inv ser de hash (g me) id gid (gi 1 (K + 1) 2 xr' pm' pk' pr' pz' pe me) (coin me) k) res].
Proof.
  move=> [Hr [H1 H2 H3] Hk] Lr Lz dl pr' pz'. have [L EL HL] := leader_ok HS Hdeg hash Hn16 Hl0 id. have [Ht _ _ _] := HS.
  have [L0 L0' A0] := Hr 0%N isT.
  have H2K : (2 * K < reps)%N by rewrite addn1.
  have [||||||rd [G _ Al R R']] := mult_exact serK HS UA HA tA id coin Hdeg HL HfitK
     (px := fun _ => xr 0%N (2 * K)%N + pm) (px' := fun _ => xr' 0%N (2 * K)%N + pm')
     (py := dkey pk pm) (py' := dkey pk' pm') _ _ _ _ _ _ Lr Lz.
  - by move=> j _; rewrite !sz_add ?L0.
  - by apply: dkey_low => // b Hb; have [] := Hk b Hb.
  - by move=> j _; rewrite !sz_add ?L0'.
  - by apply: dkey_low => // b Hb; have [] := Hk b Hb.
  - by move=> j a _ Ha; rewrite !hornerD A0 // H3.
  - by apply: dkey_agree => // b Hb; have [] := Hk b Hb.
  - exists rd. split=> // pe; [exact: inv_from EL R|exact: inv_from EL R'].
Qed.

Lemma and_exact (id id1 : pid) L1 xr xr' pm pm' pk pk' pr pz (coin1 coin2 : nat -> nat -> nat -> F) : ProtoIdModel.take_ids id 2 1 = Some [:: id1] ->
  leader_from_proto_id hash id1 n = Some L1 ->
  gate_pair 2 xr xr' pm pm' pk pk' -> low (3 * (K + 1) + 1) pr -> zero_at (3 * (K + 1) + 1) pz ->
  let dl := and_dl xr xr' pm pm' pk pk' (pr (3 * (K + 1))%N) (coin1 L1) in let pr' := mpr pr dl in let pz' := mpz pz dl in
  exists rd1 rd2, [/\ good (3 * (K + 1) + 1) pr pz pr' pz', alike n A rd1 rd1 /\ alike n A rd2 rd2,
    forall pe, exists res, realizes [:: (id1, rd1); (id, rd2)] (fun me k => garble_and ser de hash (g me) id gid (gi 2 (3 * (K + 1) + 1) 4 xr pm pk pr pz pe me) (coin1 me) (coin2 me) k) res &
    forall pe, exists res, realizes [:: (id1, rd1); (id, rd2)] (fun me k => garble_and ser de hash (g me) id gid (gi 2 (3 * (K + 1) + 1) 4 xr' pm' pk' pr' pz' pe me) (coin1 me) (coin2 me) k) res].
Proof.
  set N3 := (3 * (K + 1))%N. move=> Eid EL1 [Hr [H1 H2 H3] Hk] Lr Lz dl pr' pz'. have [L1' EL1' HL1] := leader_ok HS Hdeg hash Hn16 Hl0 id1. have [L2 EL2 HL2] := leader_ok HS Hdeg hash Hn16 Hl0 id. have [Ht _ _ _] := HS.
  move: EL1'. rewrite EL1 => - [EL1']. rewrite -{}EL1' {L1'} in HL1.
  have [X0 X0' A0] := Hr 0%N isT. have [X1 X1' A1] := Hr 1%N isT.
  have H2K : (2 * K < reps)%N by rewrite addn1. have HK1 : (0 < K + 1)%N by rewrite addn1.
  have Edl j : dl j = if (j < N3)%N then mdl (and_sel xr pm (and_w1 xr (pr N3) (coin1 L1))) (and_key pk pm)
     (and_sel xr' pm' (and_w1 xr (pr N3) (coin1 L1) - offp emb n l A (and_d1 xr xr'))) (and_key pk' pm') j else and_d1 xr xr' by [].
  have Hlast j : (j < 1)%N -> (N3 + j < N3 + 1)%N by move=> Hj; rewrite ltn_add2l.
  have Hinit j : (j < N3)%N -> (j < N3 + 1)%N by move=> Hj; apply: leq_trans Hj _; exact: leq_addr.
  have [||||||||rd1] := mult_exact serK HS UA HA tA id1 coin1 Hdeg HL1 Hfit1
     (px := fun _ => xr 0%N (2 * K)%N) (px' := fun _ => xr' 0%N (2 * K)%N) (py := fun _ => xr 1%N (2 * K)%N) (py' := fun _ => xr' 1%N (2 * K)%N)
     (pr := fun j => pr (N3 + j)%N) (pz := fun j => pz (N3 + j)%N).
  - by move=> j _; exact: X0.
  - by move=> j _; exact: X1.
  - by move=> j _; exact: X0'.
  - by move=> j _; exact: X1'.
  - by move=> j a _ Ha; exact: A0.
  - by move=> j a _ Ha; exact: A1.
  - by move=> j Hj; apply: Lr; exact: Hlast.
  - by move=> j Hj; apply: Lz; exact: Hlast.
  move=> [[Gr1 Gz1 Ar1 Az1] [W1 W1' Aw1] Al1 R1 R1'].
  set w1 := mout _ _ _ _ _ _ _ _ in W1 W1' Aw1 R1 R1'.
  have Ew1 : w1 0%N = and_w1 xr (pr N3) (coin1 L1) by rewrite /w1 /and_w1 /mout /mdeal addn0.
  have S1 : (size (w1 0%N) <= t + l)%N by exact: W1. have S1' := W1' 0%N isT. have Aw0 a Ha := Aw1 0%N a isT Ha.
  rewrite -[mdl _ _ _ _ 0%N]/(and_d1 xr xr') in S1' Aw0.
  have Hsel (y : nat -> nat -> {poly F}) (p q : {poly F}) : (size (y 0%N (2 * K)%N) <= t + l)%N -> (size (y 1%N (2 * K)%N) <= t + l)%N -> (size p <= t + l)%N -> (size q <= t + l)%N ->
     low N3 (and_sel y p q).
  { move=> Y0 Y1 Hp Hq j Hj. rewrite /and_sel. have : (j %/ (K + 1) < 3)%N by rewrite ltn_divLR.
    by case: (j %/ _)%N => [|[|[|]]] // _ /=; rewrite ?sz_add. }
  have [||||||||rd2] := mult_exact serK HS UA HA tA id coin2 Hdeg HL2 Hfit3
     (px := and_sel xr pm (w1 0%N)) (px' := and_sel xr' pm' (w1 0%N - offp emb n l A (and_d1 xr xr'))) (py := and_key pk pm) (py' := and_key pk' pm') (pr := pr) (pz := pz).
  - by apply: Hsel => //; [exact: X0|exact: X1].
  - by move=> j Hj; apply: (dkey_low Ht _ H1 (num := (j %% (K + 1)).+1)) => // b Hb; have [] := Hk b Hb.
  - by apply: Hsel => //; [exact: X0'|exact: X1'].
  - by move=> j Hj; apply: (dkey_low Ht _ H2 (num := (j %% (K + 1)).+1)) => // b Hb; have [] := Hk b Hb.
  - move=> j a Hj Ha. rewrite /and_sel. have : (j %/ (K + 1) < 3)%N by rewrite ltn_divLR.
    case: (j %/ _)%N => [|[|[|]]] // _; rewrite [nth _ _ _]/= [in RHS]/=; rewrite [in LHS]hornerD [in RHS]hornerD ?[(w1 0%N + pm).[_]]hornerD ?[(_ + pm').[_]]hornerD ?Aw0 // H3 // ?A0 ?A1 //.
  - move=> j a Hj Ha. apply: dkey_agree => //; last by rewrite ltn_mod. by move=> b Hb; have [] := Hk b Hb.
  - by move=> j Hj; apply: Lr; exact: Hinit.
  - by move=> j Hj; apply: Lz; exact: Hinit.
  move=> [[Gr2 Gz2 Ar2 Az2] _ Al2 R2 R2'].
  have Hge j : (j < N3 + 1)%N -> (N3 <= j)%N -> j = (N3 + 0)%N.
  { move=> H H'. rewrite addn0. apply/eqP. rewrite eqn_leq H' andbT. by move: H; rewrite addn1. }
  have E2 j : (j < N3)%N -> dl j = mdl (and_sel xr pm (w1 0%N)) (and_key pk pm) (and_sel xr' pm' (w1 0%N - offp emb n l A (and_d1 xr xr'))) (and_key pk' pm') j.
  { by move=> Hj; rewrite Edl Hj Ew1. }
  have E1 j : dl (N3 + j)%N = and_d1 xr xr' by rewrite Edl ltnNge leq_addr.
  exists rd1, rd2. split=> //.
  - split=> [j Hj|j Hj|j a Hj Ha|j a Hj Ha]; rewrite /pr' /pz' /TwinCore.mpr /TwinCore.mpz; case: (ltnP j N3) => Hc.
    + rewrite E2 //. exact: Gr2. + rewrite (Hge j Hj Hc) E1. exact: Gr1.
    + rewrite E2 //. exact: Gz2. + rewrite (Hge j Hj Hc) E1. exact: Gz1.
    + rewrite E2 //. exact: Ar2. + rewrite (Hge j Hj Hc) E1. exact: (Ar1 0%N a isT Ha).
    + rewrite E2 //. exact: Az2. + rewrite (Hge j Hj Hc) E1. exact: (Az1 0%N a isT Ha).
  - move=> pe. exact: and_from Eid EL1 EL2 R1 R2.
  - move=> pe. apply: (and_from pe Eid EL1 EL2).
    + apply: realizes_eq R1' => // me k Hm. congr mult; apply: held_ext => j Hj; by rewrite /pr' /pz' /TwinCore.mpr /TwinCore.mpz E1.
    + apply: realizes_eq R2' => // me k Hm. congr mult; apply: held_ext => j Hj; by rewrite /pr' /pz' /TwinCore.mpr /TwinCore.mpz E2.
Qed.

End Twin.

(** Property theorem C57: the sizes printed by bin/preproc_size.rs. *)

From Coq Require Import NArith String List Ascii.
From Verif Require Import CircuitModel CircuitSpec LpnModel LpnSpec.
From mathcomp Require Import all_ssreflect all_algebra zify.
From Verif Require Import MathModel MathProofs MatProofs MatFileModel SharingModel SharingSpec SharingProofs.
From Verif Require Import MachineModel MachineProofs MachineBuild Realize CoreModel CoreSpec CoreProofs.
From Verif Require Import RandTransProofs PreprocModel PreprocSpec PreprocProofs GarbleModel GarbleSpec GarbleRun PipeModel BinModel.
From Verif Require Import GaloisModel CodecModel CodecProofs GFField GFCodec PreprocCodec P_Math P_Sharing P_Core P_Preproc P_Garble P_MatFile P_Phase P_Bin P_BinPre P_Pipeline.
From Verif Require ProtoIdModel ProtoIdProofs P_ProtoId IdLength PackWf CircuitEval.
Set Implicit Arguments.
Unset Strict Implicit.
Unset Printing Implicit Defensive.
Import GRing.Theory.
Local Open Scope ring_scope.

(** ** C57 *)

Lemma flat_map_length A (f : A -> list N) k s : (forall x, length (f x) = k) -> length (flat_map f s) = (length s * k)%N.
Proof. by move=> H; elim: s => //= a s IH; rewrite app_length H IH mulSn. Qed.

Lemma length_gser (w : width) (x : seq (gf w)) : length (gser x) = (8 + size x * N.to_nat ((w + 7) / 8)%num)%N.
Proof.
  rewrite /gser /ser_vec app_length le_bytes_length (flat_map_length (k := N.to_nat ((w + 7) / 8)%num)).
  - have -> : length [seq gval v | v <- x] = size x by elim: x => //= a x ->. lia.
  - move=> v. by rewrite /ser_gf le_bytes_length.
Qed.

(** The bytes of material made of five vectors of field elements. *)
Lemma length_write_pp (w : width) (s : preproc_ser (gf_fieldType w)) :
  length (write_pp s) =
  (40 + N.to_nat ((w + 7) / 8)%num * (size (s_masks s) + size (s_keys s) + size (s_randoms s) + size (s_zeros s) + size (s_errors s)))%N.
Proof.
  have E (a b : seq N) : length (a ++ b) = (length a + length b)%N by exact: app_length.
  have A a b c d e k : (8 + a * k + (8 + b * k + (8 + c * k + (8 + d * k + (8 + e * k)))) = 40 + k * (a + b + c + d + e))%N by lia.
  rewrite /write_pp !E !length_gser. exact: A.
Qed.

(** The program ends for every accepted circuit; what it prints is the
    description, the number of bytes that serializing one party's material
    takes, and the numbers of sharings [preproc] makes in batches. *)
Theorem C57_report : forall (w : width) (G : Type) (seed_from : N -> G) gf_rand gen_bool text c circ n t l p,
  from_bristol_fashion text = Some c -> pack c (N.of_nat l) = Some circ -> (0 < l)%N -> (t + l <= n)%N ->
  (N.of_nat n + N.of_nat l <= 2 ^ w)%num ->
  exists d, describe circ n t l p = Some d /\
  preproc_size (gf_of w) seed_from gf_rand gen_bool (fun s => length (write_pp s)) text n t l p =
    Some (SizeReport (n_masks d) (keys_total d) (n_randoms d) (n_zeros d) (n_errors d)
      (40 + N.to_nat ((w + 7) / 8)%num * (n_masks d + keys_total d + n_randoms d + n_zeros d + n_errors d))%N
      (keys_total d + n_randoms d + 3 * n_errors d)%N (n_zeros d + 2 * n_errors d)%N (n_masks d + 2 * n_errors d)%N).
Proof.
  move=> w G seed_from gf_rand gen_bool text c circ n t l p Ht Hp Hl Htl Hw.
  have Htl' : (0 < t + l <= n)%N by lia.
  have [P [Pn [HS HC]]] := party_ctxE Htl' Hw. have [d Ed] := describe_some circ n t p Hl.
  have Hn := setting_n HS. have [_ _ _ U] := HS.
  exists d. split=> //. rewrite /preproc_size /load_circuit Ht Hp HC Ed.
  have [pp [mk [ks [rs [es [Hd Hm]]]]]] := C38_dummy seed_from gf_rand gen_bool 0 d U Htl'.
  rewrite Hd // length_write_pp /=.
  have [Er Ez] : size (pp_randoms (pp 0%N)) = n_randoms d /\ size (pp_zeros (pp 0%N)) = n_zeros d.
  { move: (Hd 0%N Hn). rewrite /dummy. move: (N.to_nat POOL_SIZE) => ps. case: ifP => // _.
    case: (fill _ _ _ _) => i1 g1. case: (fill _ _ _ _) => i2 g2. case: (fill _ _ _ _) => i3 g3. case: (fill _ _ _ _) => i4 g4.
    case: (pool _ _ i1) => [rp|//] /=. do 2 (case: (pool _ _ _) => [? |] //=). case=> <- /=.
    by rewrite !size_map !size_iota. }
  have [[Sm _] [Sk _] _ _ Se] := Hm. by rewrite Er Ez Sm.1 // Sk.1 // Se.1.
Qed.
Print Assumptions C57_report.

(** The material that [preproc] makes is never smaller than reported, and
    larger by less than two batches of sharings. *)
Theorem C57_generated : forall (w : width) n t l (Ms Mb : mat (gf_fieldType w)) d r bR bZ bB pp i,
  preprocessed (gf_of w) n t l Ms Mb d r bR bZ bB pp -> (i < n)%N ->
  let e := n_errors d in
  let B := size (rows Ms) in
  let bytes := N.to_nat ((w + 7) / 8)%num in
  let reported := (40 + bytes * (n_masks d + keys_total d + n_randoms d + n_zeros d + e))%N in
  (keys_total d + n_randoms d + 3 * e <= B * bR < keys_total d + n_randoms d + 3 * e + B)%N ->
  (n_zeros d + 2 * e <= B * bZ < n_zeros d + 2 * e + B)%N ->
  length (write_pp (to_ser (pp i))) = (40 + bytes * (n_masks d + (B * bR - 3 * e) + (B * bZ - 2 * e) + e))%N /\
  (reported <= length (write_pp (to_ser (pp i))) <= reported + bytes * 2 * (B - 1))%N.
Proof.
  move=> w n t l Ms Mb d r bR bZ bB pp i [mk [ks [rs [es [pr [pz [pb [b0 [b1 [sc [_ _ _ _ [Hm _ _ _ Hz]]]]]]]]]]]] Hi.
  move=> e B bytes reported LR LZ. have [[Sm _] [Sk _] _ _ Se] := Hm. have [Ez Er] := Hz i Hi.
  have E : length (write_pp (to_ser (pp i))) = (40 + bytes * (n_masks d + (B * bR - 3 * e) + (B * bZ - 2 * e) + e))%N.
  { rewrite length_write_pp /= Ez Er /held !size_map !size_iota Sm.1 // Sk.1 // Se.1 // -/bytes -/B -/e. congr addn. congr muln. lia. }
  split=> //. rewrite E /reported. clear -LR LZ. have A k x y z : (x <= y -> y <= x + 2 * z -> 40 + k * x <= 40 + k * y <= 40 + k * x + k * 2 * z)%N.
  { move=> H1 H2. by rewrite leq_add2l leq_mul // -addnA leq_add2l -mulnA -mulnDr leq_mul. }
  apply: A; lia.
Qed.
Print Assumptions C57_generated.

(** It is not always as large as reported. *)
Theorem C57_generated_as_reported_refuted : ~ forall (w : width) n t l (Ms Mb : mat (gf_fieldType w)) d r bR bZ bB pp i,
  preprocessed (gf_of w) n t l Ms Mb d r bR bZ bB pp -> (i < n)%N ->
  let e := n_errors d in
  let B := size (rows Ms) in
  (keys_total d + n_randoms d + 3 * e <= B * bR < keys_total d + n_randoms d + 3 * e + B)%N ->
  (n_zeros d + 2 * e <= B * bZ < n_zeros d + 2 * e + B)%N ->
  length (write_pp (to_ser (pp i))) =
    (40 + N.to_nat ((w + 7) / 8)%num * (n_masks d + keys_total d + n_randoms d + n_zeros d + e))%N.
Proof.
  move=> H. have [P [Pn [Ms [Mb [d [chans [bR [bZ [bB [[HG Ed EM [B0 BB0 NM NMb Hb] _] [LR LZ LB Hf]]]]]]]]]]] := C56_example.
  have [[serK HS F2 _ _] [_ _ _ _ _]] := HG.
  have H32 : (N.of_nat 3 <= 2 ^ 32)%num by vm_compute.
  have [rds [pp [ch [_ Hpp]]]] := preproc_rounds [::]
    (fun _ => Coins (fun _ _ => 0) (fun _ _ => 0) (fun _ _ => false) (fun _ _ => 0) (fun _ _ _ => 0) (fun _ _ _ => 0))
    serK HS H32 isT B0 BB0 NM NMb Hb F2 LR LZ LB Hf.
  have E1 := H _ _ _ _ _ _ _ _ _ _ _ _ 0%N Hpp isT LR LZ.
  have [E2 _] := C57_generated Hpp (isT : (0 < 3)%N) LR LZ.
  have EB : size (rows Ms) = 2%N by case: EM => <-.
  rewrite EB in LR LZ E1 E2. case: Ed E1 E2 LR LZ => <- /= -> E2 LR LZ. 
  have b1 : bR = 101%N by lia. have b2 : bZ = 116%N by lia. by rewrite b1 b2 in E2.
Qed.
Print Assumptions C57_generated_as_reported_refuted.

Example C57_example : exists circ, let w := w4 in
  [/\ from_bristol_fashion text3 = Some source3, pack source3 (N.of_nat 1) = Some circ, (1 + 1 <= 3)%N &
      (N.of_nat 3 + N.of_nat 1 <= 2 ^ w)%num].
Proof. eexists. by split; vm_compute. Qed.

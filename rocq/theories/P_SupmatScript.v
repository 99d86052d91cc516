(** Property theorems C73: the script that makes the binary matrices. *)

From Coq Require Import NArith.
From mathcomp Require Import all_ssreflect all_algebra zify.
From Verif Require Import MathModel MatFileModel SharingModel SharingSpec CoreSpec HideSpec SupmatModel SupmatScriptModel SupmatSearch SupmatScriptProofs BchBound.
From Verif Require Import GFField SupmatBases P_MatFile P_View P_Leak P_Supmat.
Set Implicit Arguments.
Unset Strict Implicit.
Unset Printing Implicit Defensive.
Import GRing.Theory.
Local Open Scope ring_scope.

(** ** C73 *)

(** The search finds parameters iff there are some: an inner code of length
    [2^m] and designed distance [2 t + 2], and an outer code of length [n] and distance
    [d] over the inner code's words, together for at least [np] parties and with a
    designed distance of at least a [T]-th of the length.  What it finds has the most
    rows. *)
Theorem C73_search : forall np T : N, (0 < np)%num -> (0 < T)%num ->
  match find_bch_rs np T with
  | Some c =>
      (exists m t, [/\ feasible np T m t (c_nrs c) (c_drs c), c_nbin c = (2 ^ m)%num, c_kbin c = (2 ^ m - 1 - m * t)%num,
                       c_dbin c = (2 * t + 2)%num & (c_krs c + c_drs c = c_nrs c + 1)%num]) /\
      forall m t n d, feasible np T m t n d -> ((n - d + 1) * (2 ^ m - 1 - m * t) <= c_krs c * c_kbin c)%num
  | None => forall m t n d, ~ feasible np T m t n d
  end.
Proof.
  move=> np T Hnp HT. move: (find_bch_rs np T) (find_bch_rsP Hnp HT) => [c|] [].
  - rewrite /fine [fst _]/= [snd _]/=. move=> [[m [t [E1 [E2 [E3 [E4 [E5 _]]]]]]] _] B. split; [by exists m, t|exact: B].
  - move=> _ B m t n d Hf. have := B m t n d Hf. move: Hf. rewrite /feasible. move=> [_ [_ [Hk [_ [_ [_ Hd]]]]]].
    have : (0 < (n - d + 1) * (2 ^ m - 1 - m * t))%num by apply: N.mul_pos_pos; lia. lia.
Qed.
Print Assumptions C73_search.

(** So the file is for at least as many parties as asked for, and the number of
    corruptions printed is at least a [T]-th of them, less one. *)
Theorem C73_printed : forall np T c, (0 < np)%num -> (0 < T)%num -> find_bch_rs np T = Some c ->
  (np <= c_nrs c * c_nbin c)%num /\ (c_nrs c * c_nbin c <= T * (c_drs c * c_dbin c))%num.
Proof.
  move=> np T c Hnp HT E. have := C73_search Hnp HT. rewrite E => -[[m [t [Hf -> _ -> _]]] _]. move: Hf. rewrite /feasible. lia.
Qed.
Print Assumptions C73_printed.

(** It can be for many more parties: for 1024 when asked for 256, one in six of them
    corrupt; and less one it can be: 31 of 128 when one in four may be corrupt. *)
Example C73_printed_example :
  find_bch_rs 256 6 = Some (Codes 1 1 1 1024 173 172) /\ find_bch_rs 128 4 = Some (Codes 16 9 8 8 4 4) /\
  find_bch_rs 256 2 = None.
Proof. by vm_compute. Qed.

(** Four of the shipped files have the parameters found, for one corrupt party in
    three, four, five and four; see [C73_shipped]. *)
Example C73_found_example :
  [/\ find_bch_rs 256 3 = Some (Codes 16 2 15 16 7 6), find_bch_rs 256 4 = Some (Codes 16 6 11 16 7 6),
      find_bch_rs 256 5 = Some (Codes 16 8 9 16 7 6) & find_bch_rs 512 4 = Some (Codes 32 11 22 16 7 6)].
Proof. by vm_compute. Qed.

(** The search allows [2^k] symbols, the generator one fewer: with these parameters
    the script stops with a failed assertion. *)
Theorem C73_generates_what_it_finds_refuted :
  find_bch_rs 128 4 = Some (Codes 16 9 8 8 4 4) /\
  forall (L : fieldType) (el : seq bool -> L) (vec : L -> seq bool) G, gen_file 4 el vec 16 9 G = None.
Proof. by split; [vm_compute|]. Qed.
Print Assumptions C73_generates_what_it_finds_refuted.

Lemma file_withP (F L : fieldType) k (el : seq bool -> L) (vec : L -> seq bool) n_rs k_rs g n :
  (0 < k)%N -> (0 < k_rs)%N -> (0 < n_rs < 2 ^ k)%N -> size g = k -> all (fun row => size row == n.+1) g ->
  exists bs (M : mat F), [/\ file_with k el vec n_rs k_rs g = Some bs, size bs = (n_rs * n.+1)%N, all (fun line => size line == (k_rs * k)%N) bs,
    binary_super_inv_matrix F (file_of bs) = Some M & size (rows M) = (k_rs * k)%N /\ ncols M = (n_rs * n.+1)%N].
Proof.
  move=> Hk Hkr /andP [Hn0 Hn] SG Hall. rewrite /file_with /gen_mat_rs Hn /=. set bs := map _ _.
  have Ew : size (head [::] g) = n.+1.
  { move: SG Hall Hk. case: (g) => [<- //|r g'] _ /= /andP [/eqP Er _] _. by rewrite Er. }
  have S1 : size bs = (n_rs * n.+1)%N by rewrite size_map size_iota Ew.
  have S2 : all (fun line => size line == (k_rs * k)%N) bs by apply/allP => l /mapP [s _ ->]; rewrite !size_map size_iota.
  have N0 : bs <> [::] by move=> E; move: S1; rewrite E /=; clear -Hn0; lia.
  have HK : (0 < k_rs * k)%N by rewrite muln_gt0 Hkr.
  have [|M [E E1 E2 _]] := C52_transpose F (es := nseq (size bs) [:: 10%num]) _ N0 (file_ends N0) HK S2; first by rewrite size_nseq.
  exists bs, M. by rewrite E1 E2 S1.
Qed.

Lemma bch_rows G n : all (fun row => size row == n) G -> all (fun row => size row == n.+1) (gen_mat_bch G).
Proof. move=> /allP H. apply/allP => r /mapP [row Hr ->]. by rewrite size_rcons (eqP (H row Hr)). Qed.

(** In all other cases there is a file, with a line for each party and as many
    columns as the product of the dimensions; the library loads it. *)
Theorem C73_generates : forall (F L : fieldType) k (el : seq bool -> L) (vec : L -> seq bool) n_rs k_rs G n,
  (0 < k)%N -> (0 < k_rs)%N -> (0 < n_rs < 2 ^ k)%N -> size G = k -> all (fun row => size row == n) G ->
  exists bs (M : mat F), [/\ gen_file k el vec n_rs k_rs G = Some bs, size bs = (n_rs * n.+1)%N, all (fun line => size line == (k_rs * k)%N) bs,
    binary_super_inv_matrix F (file_of bs) = Some M & size (rows M) = (k_rs * k)%N /\ ncols M = (n_rs * n.+1)%N].
Proof.
  move=> F L k el vec n_rs k_rs G n Hk Hkr Hn SG Hall. by apply: file_withP => //; rewrite ?size_map // bch_rows.
Qed.
Print Assumptions C73_generates.

(** Whatever the inner matrix. *)
Lemma file_hides (F L : fieldType) k (el : seq bool -> L) (vec : L -> seq bool) n_rs k_rs g n d t bs (M : mat F) A :
  1 + 1 = 0 :> F -> bit_vectors k el vec -> (0 < k)%N -> (0 < k_rs <= n_rs)%N -> size g = k -> all (fun row => size row == n.+1) g ->
  (forall v, size v = k -> true \in v -> (d <= seq.count (fun b => dot v [seq nth false row b | row <- g]) (iota 0 n.+1))%N) ->
  file_with k el vec n_rs k_rs g = Some bs -> binary_super_inv_matrix F (file_of bs) = Some M ->
  (t < (n_rs - k_rs + 1) * d)%N -> coalition (size bs) t A -> hides_bits (size bs) M A.
Proof.
  move=> C2 HB Hk Hkr Sg Hall Hd Eb EM Ht.
  have Hn : (n_rs < 2 ^ k)%N by move: Eb; rewrite /file_with /gen_mat_rs; case: ifP.
  have [bs' [M' [Eb' S1 S2 _ _]]] := file_withP F el vec Hk (proj1 (andP Hkr)) (ltac:(clear -Hkr Hn; lia) : (0 < n_rs < 2 ^ k)%N) Sg Hall.
  rewrite Eb in Eb'. case: Eb' => E'. subst bs'. have N0 : bs <> [::] by move=> E; move: S1; rewrite E /=; clear -Hkr; lia.
  have HK : (0 < k_rs * k)%N by clear -Hk Hkr; nia.
  apply: (C64_hides_iff_distance t C2 N0 HK S2 EM).2 => c Sc Hc. apply: leq_trans Ht _.
  have Ew : size (head [::] g) = n.+1.
  { move: Sg Hall Hk. case: (g) => [<- //|r g'] _ /= /andP [/eqP Er _] _. by rewrite Er. }
  have Hd' v : size v = k -> true \in v -> (d <= seq.count id (vecmat v g))%N.
  { move=> Sv Hv. apply: leq_trans (Hd v Sv Hv) _. by rewrite vecmat_par Ew count_map. }
  have W := enc_weight HB Hk Hkr Hn Sg Hd' Sc Hc. apply: leq_trans W _. apply: eq_leq.
  move: Eb. rewrite /file_with /gen_mat_rs Hn /= => -[<-]. rewrite count_map.
  set e := encode_concat _ _ _ _ _ _ _ _. have Se : size e = (n_rs * size (head [::] g))%N by apply: size_enc.
  rewrite -{1}(mkseq_nth false e) Se /mkseq count_map. apply: eq_count => s /=. rewrite /e (enc_line HB _ _ _ Sc). by [].
Qed.

Lemma inner_ones k n G v : size G = k -> all (fun row => size row == n) G ->
  seq.count (fun b => dot v [seq nth false row b | row <- gen_mat_bch G]) (iota 0 n.+1) =
  (seq.count (fun b => dot v [seq nth false row b | row <- G]) (iota 0 n) + dot v (nseq k true))%N.
Proof.
  move=> SG Hall. rewrite -addn1 iotaD count_cat /= !addn0 add0n. congr addn.
  - apply: eq_in_count => b. rewrite mem_iota /= => Hb. rewrite /gen_mat_bch -map_comp. congr dot.
    apply/eq_in_map => row /(allP Hall) /eqP Er /=. by rewrite nth_rcons Er Hb.
  - congr (nat_of_bool (dot v _)). rewrite -SG. elim: (G) Hall => //= row G' IH /andP [/eqP Er HG]. by rewrite nth_rcons Er ltnn eqxx IH.
Qed.

(** The file hides the sums of random bits from all coalitions smaller than the
    product of the distances: of the outer code, and of the words of the inner
    generator with the parity of the message at the end. *)
Theorem C73_generated_hides : forall (F L : fieldType) k (el : seq bool -> L) (vec : L -> seq bool) n_rs k_rs G n d t bs (M : mat F) A,
  1 + 1 = 0 :> F -> bit_vectors k el vec -> (0 < k)%N -> (0 < k_rs <= n_rs)%N -> size G = k -> all (fun row => size row == n) G ->
  (forall v, size v = k -> true \in v ->
     (d <= seq.count (fun b => dot v [seq nth false row b | row <- G]) (iota 0 n) + dot v (nseq k true))%N) ->
  gen_file k el vec n_rs k_rs G = Some bs -> binary_super_inv_matrix F (file_of bs) = Some M ->
  (t < (n_rs - k_rs + 1) * d)%N -> coalition (size bs) t A -> hides_bits (size bs) M A.
Proof.
  move=> F L k el vec n_rs k_rs G n d t bs M A C2 HB Hk Hkr SG Hall Hd Eb EM Ht.
  apply: (file_hides C2 HB Hk Hkr _ (bch_rows Hall) _ Eb EM Ht); first by rewrite size_map.
  move=> v Sv Hv. rewrite (inner_ones v SG Hall). exact: Hd.
Qed.
Print Assumptions C73_generated_hides.

(** ** The shipped files *)

(** GF(2^7) and GF(2^11) with the polynomials of [galois], x^7 + x + 1 and
    x^11 + x^2 + 1; the library has x^7 + x^3 + 1 for the first. *)
Definition w7 : width := @Width 7%num isT.
Definition basis7 : seq (gf w7) := [seq gf_of w7 x | x <- [:: 46; 50; 48; 110; 84; 14; 1]%N].
Definition masks7 : seq (seq bool) := [seq line_of 7 x | x <- [:: 112; 10; 22; 76; 12; 52; 1]%num].
Definition w11 : width := @Width 11%num isT.
Definition basis11 : seq (gf w11) := [seq gf_of w11 (2 ^ (10 - i))%N | i <- iota 0 11].
Definition masks11 : seq (seq bool) := [seq unit_inp 11 (10 - i)%N | i <- iota 0 11].

Lemma vectors7 : bit_vectors 7 (lin basis7) (vec_of 7 masks7).
Proof. by apply: basis_vectors => //; vm_compute. Qed.
Lemma vectors11 : bit_vectors 11 (lin basis11) (vec_of 11 masks11).
Proof. by apply: basis_vectors => //; vm_compute. Qed.

(** The basis is one of powers of a root of the polynomial. *)
Example basis7_powers : basis7 = [seq gf_of w7 14 ^+ (6 - i)%N | i <- iota 0 7] /\ gf_of w7 14 ^+ 7 + gf_of w7 14 + 1 = 0.
Proof. by split; [rewrite /basis7 /=; congr [:: _; _; _; _; _; _; _]|]; apply: gf_inj; vm_compute. Qed.

(** The generators of the two BCH codes. *)
Definition G7 : seq (seq bool) := [seq take 15 col | col <- columns 7 n16_t5].
Definition G11 : seq (seq bool) := [seq [seq nth false line (6 * j)%N | line <- take 15 n256_t43] | j <- iota 0 11].

(** All the files are what the script generates, the first for any field. *)
Theorem C73_shipped :
  (forall (L : fieldType) (el : seq bool -> L) (vec : L -> seq bool), bit_vectors 7 el vec -> gen_file 7 el vec 1 1 G7 = Some n16_t5) /\
  [/\ gen_file 7 (lin basis7) (vec_of 7 masks7) 8 2 G7 = Some n128_t31, gen_file 7 (lin basis7) (vec_of 7 masks7) 16 2 G7 = Some n256_t89,
      gen_file 7 (lin basis7) (vec_of 7 masks7) 16 6 G7 = Some n256_t65, gen_file 7 (lin basis7) (vec_of 7 masks7) 16 8 G7 = Some n256_t53 &
      gen_file 7 (lin basis7) (vec_of 7 masks7) 32 11 G7 = Some n512_t131 /\
      gen_file 11 (lin basis11) (vec_of 11 masks11) 16 6 G11 = Some n256_t43].
Proof.
  have E7 n k bs : (0 < k)%N -> (n < 2 ^ 7)%N -> block_file 7 (lin basis7) (vec_of 7 masks7) n k (gen_mat_bch G7) == bs ->
    gen_file 7 (lin basis7) (vec_of 7 masks7) n k G7 = Some bs by move=> Hk Hn /eqP <-; exact: (gen_fileE vectors7).
  have E11 n k bs : (0 < k)%N -> (n < 2 ^ 11)%N -> block_file 11 (lin basis11) (vec_of 11 masks11) n k (gen_mat_bch G11) == bs ->
    gen_file 11 (lin basis11) (vec_of 11 masks11) n k G11 = Some bs by move=> Hk Hn /eqP <-; exact: (gen_fileE vectors11).
  split; last first.
  { split; [by apply: E7; [| |vm_compute]..|split]; [by apply: E7; [| |vm_compute]|by apply: E11; [| |vm_compute]]. }
  move=> L el vec HB. rewrite (gen_fileE HB _ _ (erefl (gen_mat_bch G7))) // /block_file. apply: (f_equal Some).
  have [H1 _ _] := HB. have Hu j : vec (el (unit_inp 7 j) * num 7 el 1 ^+ 0) = unit_inp 7 j by rewrite expr0 mulr1 H1.
  rewrite [iota 0 1]/= [iota 0 7]/=. rewrite /= !Hu. by vm_compute.
Qed.
Print Assumptions C73_shipped.

(** What the inner codes have: their words with the parity have at least 5 and 3
    ones.  (The script takes 6 and 4: the column of ones is not a parity bit of the
    word, only of the message.) *)
Lemma inner7 v : size v = 7%N -> true \in v ->
  (5 <= seq.count (fun b => dot v [seq nth false row b | row <- G7]) (iota 0 15) + dot v (nseq 7 true))%N.
Proof.
  move=> Sv Hv. have SG : size G7 = 7%N by []. have Hall : all (fun row => size row == 15%N) G7 by vm_compute.
  rewrite -(inner_ones v SG Hall). have H : heavy 4 (gen_mat_bch G7) by vm_compute. exact: heavyP H _ Sv Hv.
Qed.

Lemma inner11 v : size v = 11%N -> true \in v ->
  (3 <= seq.count (fun b => dot v [seq nth false row b | row <- G11]) (iota 0 15) + dot v (nseq 11 true))%N.
Proof.
  move=> Sv Hv. have SG : size G11 = 11%N by []. have Hall : all (fun row => size row == 15%N) G11 by vm_compute.
  rewrite -(inner_ones v SG Hall). have H : heavy 2 (gen_mat_bch G11) by vm_compute.
  have Hall' : all (fun g => size g == 16%N) (gen_mat_bch G11) by vm_compute. exact: heavyP H Hall' Sv Hv.
Qed.

(** So the files for 256 and 512 parties hide from 54, 44, 32 and 109 of them, as
    against the 65, 53, 43 and 131 in their names.  For the first, exactly: *)
Lemma n256_t89_heavy : heavy 79 (columns 14 n256_t89).
Proof. by vm_compute. Qed.

Theorem C64_n256_t89_hides : forall (F : fieldType) (M : mat F) A, 1 + 1 = 0 :> F ->
  binary_super_inv_matrix F (file_of n256_t89) = Some M -> coalition 256 79 A -> hides_bits 256 M A.
Proof.
  move=> F M A C2 E. have N0 : n256_t89 <> [::] by []. have Hall : all (fun r => size r == 14%N) n256_t89 by vm_compute.
  apply: (C64_hides_iff_distance (k := 14) 79 C2 N0 isT Hall E).2 => c Sc Hc. exact: heavy_columns n256_t89_heavy Hall Sc Hc.
Qed.
Print Assumptions C64_n256_t89_hides.

Theorem C64_n256_t65_hides : forall (F : fieldType) (M : mat F) A, 1 + 1 = 0 :> F ->
  binary_super_inv_matrix F (file_of n256_t65) = Some M -> coalition 256 54 A -> hides_bits 256 M A.
Proof.
  move=> F M A C2 E. have [_ [_ _ Eg _ _]] := C73_shipped. have Hall : all (fun row => size row == 15%N) G7 by vm_compute.
  have Es : size n256_t65 = 256%N by vm_compute.
  have := (@C73_generated_hides F _ 7 _ _ 16 6 G7 15%N 5%N 54%N n256_t65 M A C2 vectors7 isT isT erefl Hall inner7 Eg E isT). by rewrite Es.
Qed.
Print Assumptions C64_n256_t65_hides.

Theorem C64_n256_t53_hides : forall (F : fieldType) (M : mat F) A, 1 + 1 = 0 :> F ->
  binary_super_inv_matrix F (file_of n256_t53) = Some M -> coalition 256 44 A -> hides_bits 256 M A.
Proof.
  move=> F M A C2 E. have [_ [_ _ _ Eg _]] := C73_shipped. have Hall : all (fun row => size row == 15%N) G7 by vm_compute.
  have Es : size n256_t53 = 256%N by vm_compute.
  have := (@C73_generated_hides F _ 7 _ _ 16 8 G7 15%N 5%N 44%N n256_t53 M A C2 vectors7 isT isT erefl Hall inner7 Eg E isT). by rewrite Es.
Qed.
Print Assumptions C64_n256_t53_hides.

Theorem C64_n512_t131_hides : forall (F : fieldType) (M : mat F) A, 1 + 1 = 0 :> F ->
  binary_super_inv_matrix F (file_of n512_t131) = Some M -> coalition 512 109 A -> hides_bits 512 M A.
Proof.
  move=> F M A C2 E. have [_ [_ _ _ _ [Eg _]]] := C73_shipped. have Hall : all (fun row => size row == 15%N) G7 by vm_compute.
  have Es : size n512_t131 = 512%N by vm_compute.
  have := (@C73_generated_hides F _ 7 _ _ 32 11 G7 15%N 5%N 109%N n512_t131 M A C2 vectors7 isT isT erefl Hall inner7 Eg E isT). by rewrite Es.
Qed.
Print Assumptions C64_n512_t131_hides.

Theorem C64_n256_t43_hides : forall (F : fieldType) (M : mat F) A, 1 + 1 = 0 :> F ->
  binary_super_inv_matrix F (file_of n256_t43) = Some M -> coalition 256 32 A -> hides_bits 256 M A.
Proof.
  move=> F M A C2 E. have [_ [_ _ _ _ [_ Eg]]] := C73_shipped. have Hall : all (fun row => size row == 15%N) G11 by vm_compute.
  have Hn : (0 < 6 <= 16)%N by []. have Ht : (32 < (16 - 6 + 1) * 3)%N by [].
  have Es : size n256_t43 = 256%N by vm_compute.
  have := (@C73_generated_hides F _ 11 _ _ 16 6 G11 15%N 3%N 32%N n256_t43 M A C2 vectors11 isT Hn erefl Hall inner11 Eg E Ht). by rewrite Es.
Qed.
Print Assumptions C64_n256_t43_hides.

(** The number of corruptions printed, one below the product of the designed
    distances, is too large: for 16 parties, one in three corrupt, the script prints 5, the
    file is the one shipped, and five parties know a sum of the bits. *)
Theorem C73_corruptions_refuted : exists c A,
  [/\ find_bch_rs 16 3 = Some c, (c_drs c * c_dbin c - 1)%num = 5%num, coalition 16 5 A &
      forall (F L : fieldType) (el : seq bool -> L) (vec : L -> seq bool) bs (M : mat F), 1 + 1 = 0 :> F ->
        bit_vectors 7 el vec -> gen_file 7 el vec (N.to_nat (c_nrs c)) (N.to_nat (c_krs c)) G7 = Some bs ->
        binary_super_inv_matrix F (file_of bs) = Some M -> ~ hides_bits 16 M A].
Proof.
  have [HA Hn] := C64_n16_t5_refuted. exists (Codes 1 1 1 16 7 6), [:: 0; 4; 11; 12; 13]%N.
  split; [by vm_compute|by []|exact: HA|]. move=> F L el vec bs M C2 HB. rewrite (C73_shipped.1 L el vec HB) => -[<-]. exact: Hn.
Qed.
Print Assumptions C73_corruptions_refuted.

(** ** With the BCH codes *)

(** [galois.BCH(n, k).G]: [k] independent rows of [n] bits, whose power sums up to
    [2 t] vanish at different points of some field of characteristic two.  (The
    points are the powers of a primitive element, in either order.) *)
Definition bch_generator (E : fieldType) (X : nat -> E) (k n t : nat) (G : seq (seq bool)) : Prop :=
  [/\ 1 + 1 = 0 :> E, size G = k /\ all (fun row => size row == n) G,
      (forall i j, (i < n)%N -> (j < n)%N -> X i = X j -> i = j) /\ (forall i, (i < n)%N -> X i != 0),
      forall row j, row \in G -> (0 < j <= 2 * t)%N -> \sum_(b < n) (if nth false row b then X b ^+ j else 0) = 0 &
      forall v, size v = k -> true \in v -> exists2 b, (b < n)%N & dot v [seq nth false row b | row <- G]].

Section Bch.
Variables (E : fieldType) (X : nat -> E) (k n t : nat) (G : seq (seq bool)).
Hypothesis HG : bch_generator X k n t G.

Lemma sum_word (f : nat -> E) v : size v = k ->
  \sum_(b < n) (if dot v [seq nth false row b | row <- G] then f b else 0) =
  \sum_(r < k) (if nth false v r then \sum_(b < n) (if nth false (nth [::] G r) b then f b else 0) else 0).
Proof.
  have [C2 [SG Hall] _ _ _] := HG. move=> Sv.
  transitivity (\sum_(b < n) \sum_(r < k) (if nth false v r then (if nth false (nth [::] G r) b then f b else 0) else 0)); last first.
  { rewrite exchange_big. apply: eq_bigr => r _. case: (nth false v r) => //. by rewrite big1. }
  apply: eq_bigr => b _. have := sum_dot C2 (nth false v) [seq nth false row b | row <- G]. rewrite size_map SG.
  have -> : [seq nth false v r | r <- iota 0 k] = v by rewrite -Sv; exact: (mkseq_nth false v).
  move=> Ed. have -> : (if dot v [seq nth false row b | row <- G] then f b else 0) = (dot v [seq nth false row b | row <- G])%:R * f b.
  { by case: (dot _ _); rewrite ?mul1r ?mul0r. }
  rewrite -Ed mulr_suml. apply: eq_bigr => r _. rewrite (nth_map [::]) ?SG //. case: (nth false v r); last by rewrite mul0r.
  by case: (nth _ _ _); rewrite ?mul1r ?mul0r.
Qed.

Lemma bch_distance v : size v = k -> true \in v ->
  (2 * t < seq.count (fun b => dot v [seq nth false row b | row <- G]) (iota 0 n))%N.
Proof.
  have [C2 [SG Hall] [HX X0] Hs Hi] := HG. move=> Sv Hv. apply: (bch_bound HX X0 _ (Hi v Sv Hv)) => j Hj.
  rewrite (sum_word (fun b => X b ^+ j) Sv) big1 // => r _. case: (nth false v r) => //. apply: Hs Hj. apply: mem_nth. by rewrite SG.
Qed.

(** The parity of a word is the parity of the message at the parities of the rows. *)
Definition parity (row : seq bool) : bool := odd (seq.count id row).

Lemma word_parity v : size v = k ->
  dot v [seq parity row | row <- G] = odd (seq.count (fun b => dot v [seq nth false row b | row <- G]) (iota 0 n)).
Proof.
  have [C2 [SG Hall] _ _ _] := HG. move=> Sv.
  have nat_odd m : m%:R = (odd m)%:R :> E.
  { rewrite -{1}(odd_double_half m) natrD -mul2n natrM mulr2n C2 mul0r addr0. by []. }
  have cnt (w : nat -> bool) : (seq.count w (iota 0 n))%:R = \sum_(b < n) (if w b then 1 else 0) :> E.
  { rewrite -sum1_count natr_sum big_mkcond /= -[n in iota 0 n]subn0 -/(index_iota 0 n) big_mkord. by []. }
  have B1 (a b : bool) : a%:R = b%:R :> E -> a = b.
  { case: a; case: b => // /eqP; rewrite ?oner_eq0 // eq_sym oner_eq0. by []. }
  apply: B1. rewrite -nat_odd cnt (sum_word (fun=> 1) Sv).
  have := sum_dot C2 (nth false v) [seq parity row | row <- G]. rewrite size_map SG.
  have -> : [seq nth false v r | r <- iota 0 k] = v by rewrite -Sv; exact: (mkseq_nth false v).
  move=> <-. apply: eq_bigr => r _. case: (nth false v r) => //. rewrite (nth_map [::]) ?SG // /parity -nat_odd.
  have Sr : size (nth [::] G r) = n by apply/eqP; apply: (allP Hall); apply: mem_nth; rewrite SG.
  rewrite -(cnt (nth false (nth [::] G r))). congr (_%:R). by rewrite -{1}(mkseq_nth false (nth [::] G r)) Sr /mkseq count_map.
Qed.
End Bch.

(** So for all parameters found for which there is a file, it hides from all
    coalitions with fewer than [d_rs * (d_bch - 1)] parties. *)
Theorem C73_found_hides : forall (F L E : fieldType) np T c (el : seq bool -> L) (vec : L -> seq bool) (X : nat -> E) n t s G bs (M : mat F) A,
  (0 < np)%num -> (0 < T)%num -> find_bch_rs np T = Some c -> 1 + 1 = 0 :> F -> bit_vectors (N.to_nat (c_kbin c)) el vec ->
  n.+1 = N.to_nat (c_nbin c) -> (2 * t + 2)%N = N.to_nat (c_dbin c) -> bch_generator X (N.to_nat (c_kbin c)) n t G ->
  gen_file (N.to_nat (c_kbin c)) el vec (N.to_nat (c_nrs c)) (N.to_nat (c_krs c)) G = Some bs ->
  binary_super_inv_matrix F (file_of bs) = Some M ->
  (s < N.to_nat (c_drs c) * (N.to_nat (c_dbin c) - 1))%N ->
  size bs = N.to_nat (c_nrs c * c_nbin c) /\ (coalition (size bs) s A -> hides_bits (size bs) M A).
Proof.
  move=> F L E np T c el vec X n t s G bs M A Hnp HT Ef C2 HB En Et HG Eb EM Hs.
  have := C73_search Hnp HT. rewrite Ef => -[[m [t' [Hf _ Ek _ Er]]] _]. move: Hf. rewrite /feasible => -[_ [_ [Hm [[Hn1 _] [_ [_ Hd]]]]]].
  have [_ [SG Hall] _ _ _] := HG.
  have Hk : (0 < N.to_nat (c_kbin c))%N by clear -Ek Hm; lia.
  have Hkr : (0 < N.to_nat (c_krs c) <= N.to_nat (c_nrs c))%N.
  { have : (0 < c_nrs c)%num by clear -Hn1 Hnp; nia. have : (c_drs c <> 0)%num by move=> E0; move: Hs; rewrite E0. clear -Er Hd. lia. }
  split.
  - have Hn : (N.to_nat (c_nrs c) < 2 ^ N.to_nat (c_kbin c))%N by move: Eb; rewrite /gen_file /file_with /gen_mat_rs; case: ifP.
    have [bs' [M' [Eb' S1 _ _ _]]] := C73_generates F el vec Hk (proj1 (andP Hkr)) (ltac:(clear -Hkr Hn; lia) : (0 < N.to_nat (c_nrs c) < 2 ^ N.to_nat (c_kbin c))%N) SG Hall.
    rewrite Eb in Eb'. case: Eb' => ->. rewrite S1 En. clear. lia.
  - apply: (C73_generated_hides (d := (2 * t).+1) C2 HB Hk Hkr SG Hall _ Eb EM).
    + move=> v Sv Hv. apply: leq_trans (bch_distance HG Sv Hv) _. exact: leq_addr.
    + apply: leq_trans Hs _. clear -Er Et Hd Hkr. have -> : (N.to_nat (c_dbin c) - 1 = (2 * t).+1)%N by lia. rewrite leq_mul2r. lia.
Qed.
Print Assumptions C73_found_hides.

(** With a parity bit at the end of each row instead of a one, the number printed
    would be right. *)
Theorem C73_parity_bit_would_do : forall (F L E : fieldType) np T c (el : seq bool -> L) (vec : L -> seq bool) (X : nat -> E) n t s G bs (M : mat F) A,
  (0 < np)%num -> (0 < T)%num -> find_bch_rs np T = Some c -> 1 + 1 = 0 :> F -> bit_vectors (N.to_nat (c_kbin c)) el vec ->
  (2 * t + 2)%N = N.to_nat (c_dbin c) -> bch_generator X (N.to_nat (c_kbin c)) n t G ->
  file_with (N.to_nat (c_kbin c)) el vec (N.to_nat (c_nrs c)) (N.to_nat (c_krs c)) [seq rcons row (parity row) | row <- G] = Some bs ->
  binary_super_inv_matrix F (file_of bs) = Some M ->
  (s <= N.to_nat (c_drs c * c_dbin c - 1))%N -> coalition (size bs) s A -> hides_bits (size bs) M A.
Proof.
  move=> F L E np T c el vec X n t s G bs M A Hnp HT Ef C2 HB Et HG Eb EM Hs.
  have := C73_search Hnp HT. rewrite Ef => -[[m [t' [Hf Enb Ek Ed Er]]] _]. move: Hf. rewrite /feasible => -[_ [_ [Hm [[Hn1 _] [_ [Hd1 Hd]]]]]].
  have [_ [SG Hall] _ _ _] := HG.
  have Hk : (0 < N.to_nat (c_kbin c))%N by clear -Ek Hm; lia.
  have Hn0 : (0 < c_nrs c)%num by clear -Hn1 Hnp; nia.
  have Hd0 : (0 < c_drs c)%num. { clear -Hd1 Hn1 Hnp. case: (N.eq_dec (c_drs c) 0) => [E|]; last lia. rewrite E in Hd1. lia. }
  have Hkr : (0 < N.to_nat (c_krs c) <= N.to_nat (c_nrs c))%N by clear -Er Hd Hn0 Hd0; lia.
  apply: (file_hides (n := n) (d := (2 * t).+2) C2 HB Hk Hkr _ _ _ Eb EM); rewrite ?size_map //.
  - apply/allP => r /mapP [row Hr ->]. by rewrite size_rcons (eqP (allP Hall _ Hr)).
  - move=> v Sv Hv. rewrite -(addn1 n) iotaD count_cat /= !addn0 add0n.
    rewrite (eq_in_count (a2 := fun b => dot v [seq nth false row b | row <- G])) => [|b]; last first.
    { rewrite mem_iota /= => Hb. rewrite -map_comp. congr dot. apply/eq_in_map => row /(allP Hall) /eqP Sr /=. by rewrite nth_rcons Sr Hb. }
    have -> : [seq nth false row n | row <- [seq rcons row (parity row) | row <- G]] = [seq parity row | row <- G].
    { rewrite -map_comp. apply/eq_in_map => row /(allP Hall) /eqP Sr /=. by rewrite nth_rcons Sr ltnn eqxx. }
    rewrite (word_parity HG Sv). have := bch_distance HG Sv Hv. move: (seq.count _ _) => x. clear. lia.
  - clear -Hs Et Er Hd Hd0. have E1 : (N.to_nat (c_nrs c) - N.to_nat (c_krs c) + 1 = N.to_nat (c_drs c))%N by lia. rewrite E1.
    have : (N.to_nat (c_drs c * c_dbin c - 1) < N.to_nat (c_drs c) * (2 * t).+2)%N; last by lia.
    have -> : ((2 * t).+2 = N.to_nat (c_dbin c))%N by lia. nia.
Qed.
Print Assumptions C73_parity_bit_would_do.

(** The generator of the [15, 7] code used by six of the files, with the powers of
    the root of x^4 + x + 1 in GF(16). *)
Definition f16 : width := @Width 4%num isT.
Definition X16 (b : nat) : gf f16 := gf_of f16 2 ^+ (14 - b)%N.

Lemma sum_fold (R : ringType) (f : nat -> R) n : \sum_(b < n) f b = foldr (fun b a => f b + a) 0 (iota 0 n).
Proof. rewrite -(big_mkord xpredT f) /index_iota subn0. elim: (iota 0 n) => [|b s IH]; by rewrite ?big_nil // big_cons IH. Qed.

Lemma G7_bch : bch_generator X16 7 15 2 G7.
Proof.
  split.
  - by apply: gf_inj.
  - by split; [|vm_compute].
  - split=> [i j Hi Hj E|i Hi].
    + have : all (fun i => all (fun j => (X16 i == X16 j) ==> (i == j)) (iota 0 15)) (iota 0 15) by vm_compute.
      move=> /allP /(_ i). rewrite mem_iota => /(_ Hi) /allP /(_ j). rewrite mem_iota => /(_ Hj). by rewrite E eqxx => /eqP.
    + have : all (fun i => X16 i != 0) (iota 0 15) by vm_compute. move=> /allP /(_ i). rewrite mem_iota. by apply.
  - move=> row j Hr Hj. rewrite (sum_fold (fun b => if nth false row b then X16 b ^+ j else 0)).
    have : all (fun row => all (fun j => foldr (fun b a => (if nth false row b then X16 b ^+ j else 0) + a) 0 (iota 0 15) == 0) (iota 1 4)) G7 by vm_compute.
    move=> /allP /(_ row Hr) /allP /(_ j). rewrite mem_iota. move=> H. apply/eqP. apply: H. clear -Hj. lia.
  - move=> v Sv Hv. have H : heavy 0 G7 by vm_compute. have Hall : all (fun g => size g == 15%N) G7 by vm_compute.
    have := heavyP H Hall Sv Hv. rewrite -has_count => /hasP [b]. rewrite mem_iota /= => Hb Hd. by exists b.
Qed.

(** All hypotheses of [C73_found_hides] for 256 parties, one in four corrupt; so the
    file that is shipped for 65 corrupt parties hides from 54. *)
Example C73_example : exists (M : mat (gf_fieldType w5)),
  [/\ find_bch_rs 256 4 = Some (Codes 16 6 11 16 7 6), 1 + 1 = 0 :> gf w5, bit_vectors 7 (lin basis7) (vec_of 7 masks7),
      bch_generator X16 7 15 2 G7 & gen_file 7 (lin basis7) (vec_of 7 masks7) 16 6 G7 = Some n256_t65 /\
      binary_super_inv_matrix (gf_fieldType w5) (file_of n256_t65) = Some M /\ (54 < 11 * (6 - 1))%N].
Proof.
  have [_ [_ _ Eg _ _]] := C73_shipped. have Hall : all (fun row => size row == 15%N) G7 by vm_compute.
  have [bs [M [Eb _ _ EM _]]] := C73_generates (gf_fieldType w5) (lin basis7) (vec_of 7 masks7) (isT : (0 < 7)%N) (isT : (0 < 6)%N) (isT : (0 < 16 < 2 ^ 7)%N) (erefl : size G7 = 7%N) Hall.
  rewrite Eg in Eb. case: Eb => E. exists M. split; [by vm_compute|by apply: gf_inj|exact: vectors7|exact: G7_bch|].
  split; first exact: Eg. split; [by rewrite E|by []].
Qed.

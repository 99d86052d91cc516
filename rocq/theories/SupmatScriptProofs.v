(** The matrices of gen_binary_supmat.py: the code they generate is linear, and
    its distance is at least the product of the distances. *)

From Coq Require Import NArith.
From mathcomp Require Import all_ssreflect all_algebra zify.
From Verif Require Import SupmatScriptModel.
Set Implicit Arguments.
Unset Strict Implicit.
Unset Printing Implicit Defensive.
Import GRing.Theory.
Local Open Scope ring_scope.

(** The sum of vectors of bits, and the parity of the places chosen. *)
Definition xor (u v : seq bool) : seq bool := [seq addb x.1 x.2 | x <- zip u v].
Definition par (c row : seq bool) : bool := foldr addb false [seq x.1 && x.2 | x <- zip c row].

(** What is used of [galois]: the vectors of a field with 2^k elements. *)
Definition bit_vectors (L : fieldType) (k : nat) (el : seq bool -> L) (vec : L -> seq bool) : Prop :=
  [/\ forall v, size v = k -> vec (el v) = v, forall x, size (vec x) = k /\ el (vec x) = x &
      forall u v, size u = k -> size v = k -> el (xor u v) = el u + el v].

Lemma size_xor k u v : size u = k -> size v = k -> size (xor u v) = k.
Proof. by move=> Hu Hv; rewrite size_map size_zip Hu Hv minnn. Qed.

Lemma nth_xor k u v i : size u = k -> size v = k -> nth false (xor u v) i = addb (nth false u i) (nth false v i).
Proof.
  move=> Hu Hv. case: (ltnP i k) => Hi.
  - by rewrite (nth_map (false, false)) ?size_zip ?Hu ?Hv ?minnn // nth_zip ?Hu ?Hv.
  - by rewrite !nth_default ?(size_xor Hu Hv) ?Hu ?Hv.
Qed.

Lemma xor_cat a b a' b' : size a = size a' -> xor (a ++ b) (a' ++ b') = xor a a' ++ xor b b'.
Proof. by move=> H; rewrite /xor zip_cat // map_cat. Qed.

Lemma xor_eq k u v w : size u = k -> size v = k -> size w = k ->
  (forall i, (i < k)%N -> nth false w i = addb (nth false u i) (nth false v i)) -> w = xor u v.
Proof.
  move=> Hu Hv Hw H. apply: (@eq_from_nth _ false); first by rewrite Hw (size_xor Hu Hv).
  move=> i. rewrite Hw => Hi. by rewrite H // (nth_xor _ Hu Hv).
Qed.

(** An additive function of bits is a parity of some of them. *)
Lemma additive_par K (f : seq bool -> bool) c : (forall u v, size u = K -> size v = K -> f (xor u v) = addb (f u) (f v)) ->
  size c = K -> f c = par c [seq f (unit_inp K i) | i <- iota 0 K].
Proof.
  elim: K f c => [|K IH] f c Hf; first by move/size0nil ->; have := Hf [::] [::] erefl erefl; rewrite /par /=; case: (f [::]).
  case: c => [//|b c] [Hc]. have HK : size (nseq K false) = K by rewrite size_nseq.
  have Ec : b :: c = xor (b :: nseq K false) (false :: c).
  { apply: (@xor_eq K.+1) => //=; rewrite ?Hc ?HK // => -[|i] _ /=; first by rewrite addbF.
    by rewrite nth_nseq if_same. }
  have E0 : f (nseq K.+1 false) = false.
  { have := Hf (nseq K.+1 false) (nseq K.+1 false). rewrite -(@xor_eq K.+1 _ _ (nseq K.+1 false)) ?size_nseq // => [|i Hi]; last first.
    - by rewrite nth_nseq Hi.
    - case: (f _) => // X. by have := X erefl erefl. }
  rewrite {1}Ec Hf /= ?Hc ?HK // /par /= (iotaDl 1 0) -map_comp. congr addb.
  - have -> : unit_inp K.+1 0 = true :: nseq K false.
    { rewrite /unit_inp /= (iotaDl 1 0) -map_comp. congr cons. apply: (@eq_from_nth _ false); rewrite size_map size_iota ?size_nseq // => i Hi.
      by rewrite (nth_map 0%N) ?size_iota // nth_nseq Hi nth_iota. }
    case: b {Ec} => /=; [by []|exact: E0].
  - rewrite (IH (fun c => f (false :: c)) c) // => [|u v Hu Hv]; last by rewrite -Hf /= ?Hu ?Hv.
    rewrite -/(par _ _). congr par. apply: eq_map => i /=. congr f. rewrite /unit_inp /= (iotaDl 1 0) -map_comp. congr cons.
Qed.

Lemma par_xor k u v row : size u = k -> size v = k -> par (xor u v) row = addb (par u row) (par v row).
Proof.
  elim: u v k row => [|a u IH] [|b v] [|k] [|r row] //= [Hu] [Hv]. rewrite /par /= -!/(par _ _) -/(xor u v) (IH v k row Hu Hv).
  case: a; case: b; case: r => //=; by case: (par u row); case: (par v row).
Qed.

Lemma vecmat_par v G : vecmat v G = [seq par v [seq nth false row b | row <- G] | b <- iota 0 (size (head [::] G))].
Proof.
  apply: eq_map => b. rewrite /par. congr foldr. elim: v G => [|x v IH] [|g G] //=. by rewrite IH.
Qed.

Lemma flatten_xor (I : Type) (s : seq I) (f g : I -> seq bool) : (forall i, size (f i) = size (g i)) ->
  flatten [seq xor (f i) (g i) | i <- s] = xor (flatten [seq f i | i <- s]) (flatten [seq g i | i <- s]).
Proof. move=> H. elim: s => //= i s ->. by rewrite xor_cat. Qed.

Section Gen.
Variables (L : fieldType) (k : nat) (el : seq bool -> L) (vec : L -> seq bool).
Hypothesis HB : bit_vectors k el vec.
Variables (n_rs k_rs : nat) (g : seq (seq bool)).
Hypotheses (Hk : (0 < k)%N) (Hkr : (0 < k_rs <= n_rs)%N) (Hn : (n_rs < 2 ^ k)%N) (Sg : size g = k).

Let w := size (head [::] g).
Let K := (k_rs * k)%N.
Let g_rs := [seq [seq num k el p.+1 ^+ i | p <- iota 0 n_rs] | i <- iota 0 k_rs].
Let enc := encode_concat k el vec n_rs k_rs g_rs g.

Lemma el_zeros : el (nseq k false) = 0.
Proof.
  have [_ _ Ha] := HB. have := Ha (nseq k false) (nseq k false). rewrite size_nseq => /(_ erefl erefl).
  rewrite -(@xor_eq k _ _ (nseq k false)) ?size_nseq // => [H|i Hi]; last by rewrite nth_nseq Hi.
  by apply: (addrI (el (nseq k false))); rewrite addr0.
Qed.

Lemma vec_add x y : vec (x + y) = xor (vec x) (vec y).
Proof.
  have [H1 H2 Ha] := HB. have [Sx Ex] := H2 x. have [Sy Ey] := H2 y.
  have -> : x + y = el (xor (vec x) (vec y)) by rewrite Ha // Ex Ey.
  by rewrite H1 // (size_xor Sx Sy).
Qed.

Lemma el_inj u v : size u = k -> size v = k -> el u = el v -> u = v.
Proof. have [H1 _ _] := HB. move=> Hu Hv E. by rewrite -(H1 u Hu) E H1. Qed.

Definition value (c : seq bool) (p : nat) : L := \sum_(i < k_rs) symbol k el k_rs c i * num k el p.+1 ^+ i.

Lemma encE c : enc c = flatten [seq vecmat (vec (value c p)) g | p <- iota 0 n_rs].
Proof.
  rewrite /enc /encode_concat. congr flatten. apply/eq_in_map => p. rewrite mem_iota /= => Hp. congr (vecmat (vec _) g).
  apply: eq_bigr => i _. rewrite (nth_map 0%N) ?size_iota // (nth_map 0%N) ?size_iota // !nth_iota //.
Qed.

Lemma value_add u v p : size u = K -> size v = K -> value (xor u v) p = value u p + value v p.
Proof.
  move=> Hu Hv. have [_ _ Ha] := HB. rewrite -big_split. apply: eq_bigr => i _ /=. rewrite -mulrDl. congr (_ * _).
  rewrite /symbol -Ha ?size_map ?size_iota //. congr el. apply: (@xor_eq k); rewrite ?size_map ?size_iota // => j Hj.
  rewrite !(nth_map 0%N) ?size_iota //. exact: nth_xor Hu Hv.
Qed.

Lemma enc_add u v : size u = K -> size v = K -> enc (xor u v) = xor (enc u) (enc v).
Proof.
  move=> Hu Hv. rewrite !encE -flatten_xor => [|p]; last by rewrite !size_map.
  congr flatten. apply: eq_map => p. rewrite (value_add _ Hu Hv) vec_add.
  have [_ H2 _] := HB. have [Sx _] := H2 (value u p). have [Sy _] := H2 (value v p).
  rewrite !vecmat_par. apply: (@xor_eq w); rewrite ?size_map ?size_iota // => b Hb.
  by rewrite !(nth_map 0%N) ?size_iota // (par_xor _ Sx Sy).
Qed.

Lemma size_enc c : size (enc c) = (n_rs * w)%N.
Proof.
  rewrite encE size_flatten /shape -map_comp. rewrite (eq_map (f2 := fun=> w)) => [|p]; last by rewrite /= size_map size_iota.
  elim: n_rs 0%N => //= n IH s. by rewrite IH mulSn.
Qed.

Lemma num_inj a b : (a < 2 ^ k)%N -> (b < 2 ^ k)%N -> num k el a = num k el b -> a = b.
Proof.
  move=> Ha Hb /el_inj. rewrite !size_map size_iota => /(_ erefl erefl) E.
  have Hbit j : (j < k)%N -> odd (a %/ 2 ^ j) = odd (b %/ 2 ^ j).
  { move=> Hj. have Hj' : (k.-1 - j < k)%N by lia. have := congr1 (nth false ^~ (k.-1 - j)%N) E.
    by rewrite !(nth_map 0%N) ?size_iota // nth_iota // add0n (_ : k.-1 - (k.-1 - j) = j)%N; last lia. }
  clear E. elim: k a b Ha Hb Hbit => [|m IH] a b; first by rewrite expn0; case: a; case: b.
  rewrite expnS => Ha Hb Hbit. have H0 := Hbit 0%N isT. rewrite expn0 !divn1 in H0.
  have : (a %/ 2 = b %/ 2)%N.
  { apply: IH; [lia|lia|]. move=> j Hj. have := Hbit j.+1 Hj. by rewrite expnS !divnMA. }
  move: (divn_eq a 2) (divn_eq b 2). rewrite !modn2 H0. lia.
Qed.

(** A sum of columns that is not empty gives a polynomial that is not zero. *)
Lemma symbol_neq0 c : size c = K -> true \in c -> exists2 i, (i < k_rs)%N & symbol k el k_rs c i != 0.
Proof.
  move=> Sc /(nthP false) [r]. rewrite Sc /K => Hr Er. have kr0 : (0 < k_rs)%N by lia.
  exists (r %% k_rs)%N; first by rewrite ltn_mod. apply/eqP. rewrite -el_zeros => /el_inj.
  rewrite size_map size_iota size_nseq => /(_ erefl erefl) E.
  have Hj : (r %/ k_rs < k)%N by rewrite ltn_divLR // mulnC.
  have := congr1 (nth false ^~ (r %/ k_rs)%N) E. rewrite (nth_map 0%N) ?size_iota // nth_iota // add0n nth_nseq Hj.
  by rewrite addnC -divn_eq Er.
Qed.

Lemma few_zeros c : size c = K -> true \in c -> (seq.count (fun p => value c p == 0%R) (iota 0 n_rs) < k_rs)%N.
Proof.
  move=> Sc Hc. pose P := \poly_(i < k_rs) symbol k el k_rs c i.
  have [i Hi Hs] := symbol_neq0 Sc Hc.
  have P0 : P != 0 by apply/eqP => E; have := congr1 (fun q : {poly L} => q`_i) E; rewrite coef_poly Hi coef0 => /eqP; rewrite (negbTE Hs).
  have EP p : P.[num k el p.+1] = value c p by rewrite horner_poly.
  rewrite -size_filter. set rs := filter _ _.
  have : (size [seq num k el p.+1 | p <- rs] < size P)%N.
  { apply: max_poly_roots => //.
    - apply/allP => x /mapP [p]. rewrite mem_filter => /andP [/eqP Hv _] ->. by rewrite rootE EP Hv.
    - rewrite map_inj_in_uniq ?filter_uniq ?iota_uniq // => a b. rewrite !mem_filter !mem_iota => /andP [_ Ha] /andP [_ Hb] E.
      have : a.+1 = b.+1 by apply: num_inj E; lia. lia. }
  rewrite size_map. move=> /leq_trans. apply. exact: size_poly.
Qed.

(** The ones of the sum of the columns of the outer matrix. *)
Lemma enc_weight d c : (forall v, size v = k -> true \in v -> (d <= seq.count id (vecmat v g))%N) ->
  size c = K -> true \in c -> ((n_rs - k_rs + 1) * d <= seq.count id (enc c))%N.
Proof.
  move=> Hd Sc Hc. have Hz := few_zeros Sc Hc. rewrite encE count_flatten -map_comp.
  have [_ H2 _] := HB.
  have H (s : seq nat) : (seq.count (fun p => value c p != 0%R) s * d <= sumn [seq (count_mem true \o (fun p => vecmat (vec (value c p)) g)) p | p <- s])%N.
  { elim: s => //= p s IH. rewrite mulnDl leq_add //. case: (boolP (value c p == 0%R)) => //= Hp. rewrite mul1n.
    rewrite (eq_count (a2 := id)) => [|b]; last by case: b. apply: Hd; first by case: (H2 (value c p)).
    apply: contraR Hp => Hn1. have [Sx Ex] := H2 (value c p). rewrite -Ex -el_zeros. apply/eqP. congr el.
    apply: (@eq_from_nth _ false); rewrite ?size_nseq // => i Hi. rewrite nth_nseq -{1}Sx Hi. apply: negbTE.
    apply: contra Hn1 => Hn1. rewrite -Hn1. exact: mem_nth. }
  have E : sumn [seq (seq.count id \o (fun p => vecmat (vec (value c p)) g)) p | p <- iota 0 n_rs] =
           sumn [seq (count_mem true \o (fun p => vecmat (vec (value c p)) g)) p | p <- iota 0 n_rs].
  { congr sumn. apply: eq_map => p /=. apply: eq_count => b. by case: b. }
  rewrite E. apply: leq_trans (H (iota 0 n_rs)). rewrite leq_mul2r. apply/orP. right.
  have := count_predC (fun p => value c p == 0%R) (iota 0 n_rs). rewrite size_iota.
  rewrite (eq_count (a1 := predC _) (a2 := fun p => value c p != 0%R)) // => X. lia.
Qed.

(** Line [s] of the file has bit [s] of the words for the units. *)
Lemma enc_line c s : size c = K ->
  nth false (enc c) s = par c [seq nth false row s | row <- gen_mat_concat k el vec n_rs k_rs g_rs g].
Proof.
  move=> Sc. rewrite (additive_par (f := fun c => nth false (enc c) s) (K := K)) // => [|u v Hu Hv].
  - by rewrite /gen_mat_concat -map_comp.
  - rewrite (enc_add Hu Hv). exact: nth_xor (size_enc _) (size_enc _).
Qed.
End Gen.

(** ** The file, block by block *)

Lemma nth_blocks (T : Type) (x0 : T) w n (h : nat -> seq T) p b : (forall q, size (h q) = w) -> (p < n)%N -> (b < w)%N ->
  nth x0 (flatten [seq h q | q <- iota 0 n]) (p * w + b)%N = nth x0 (h p) b.
Proof.
  move=> Hw Hp Hb. rewrite -[h p]/(h (0 + p)%N). elim: n 0%N p Hp => // n IH o [|p] Hp /=; rewrite nth_cat Hw.
  - by rewrite mul0n add0n Hb addn0.
  - rewrite mulSn -addnA ltnNge leq_addr addnC addnK -addSnnS. exact: IH.
Qed.

Lemma map_blocks (T : Type) (F : nat -> T) w n :
  [seq F s | s <- iota 0 (n * w)] = flatten [seq [seq F (p * w + b)%N | b <- iota 0 w] | p <- iota 0 n].
Proof.
  elim: n => // n IH. rewrite -addn1 mulnDl mul1n !iotaD !map_cat flatten_cat -IH /= cats0 !add0n. congr cat.
  by rewrite -{1}(addn0 (n * w)%N) iotaDl -map_comp.
Qed.

Section Blocks.
Variables (L : fieldType) (k : nat) (el : seq bool -> L) (vec : L -> seq bool).
Hypothesis HB : bit_vectors k el vec.
Variables (n_rs k_rs : nat) (g : seq (seq bool)).
Hypotheses (Hkr : (0 < k_rs)%N) (Hn : (n_rs < 2 ^ k)%N).

Definition block_file : seq (seq bool) :=
  flatten [seq (let x := num k el p.+1 in let pw := [seq x ^+ i | i <- iota 0 k_rs] in
                let us := [seq el (unit_inp k j) | j <- iota 0 k] in
                let blk := flatten [seq [seq vecmat (vec (u * y)) g | y <- pw] | u <- us] in
                [seq [seq nth false row b | row <- blk] | b <- iota 0 (size (head [::] g))]) | p <- iota 0 n_rs].

Lemma value_unit i j p : (i < k_rs)%N -> (j < k)%N ->
  value k el k_rs (unit_inp (k_rs * k) (j * k_rs + i)) p = el (unit_inp k j) * num k el p.+1 ^+ i.
Proof.
  move=> Hi Hj. have S i' : (i' < k_rs)%N -> symbol k el k_rs (unit_inp (k_rs * k) (j * k_rs + i)) i' =
    if i' == i then el (unit_inp k j) else 0.
  { move=> Hi'. have -> : (if i' == i then el (unit_inp k j) else 0) = el (if i' == i then unit_inp k j else nseq k false).
    - by case: (i' == i); rewrite ?(el_zeros HB).
    - rewrite /symbol. congr el. apply: (@eq_from_nth _ false).
      + by case: (i' == i); rewrite ?size_map ?size_nseq ?size_iota.
      + move=> a. rewrite size_map size_iota => Ha. rewrite (nth_map 0%N) ?size_iota // nth_iota // add0n.
        have Hb : (i' + a * k_rs < k_rs * k)%N by clear -Hi' Ha; nia.
        rewrite (nth_map 0%N) ?size_iota // nth_iota // add0n. case: (eqVneq i' i) => [->|Ne].
        * rewrite (nth_map 0%N) ?size_iota // nth_iota // add0n addnC eqn_add2r eqn_mul2r. by rewrite eqn0Ngt Hkr.
        * rewrite nth_nseq Ha. apply/eqP => E. case/eqP: Ne. have := congr1 (modn ^~ k_rs) E.
          by rewrite addnC !modnMDl !modn_small. }
  rewrite /value (bigD1 (Ordinal Hi)) //= S // eqxx big1 ?addr0 // => i' Ne. rewrite S // ifN ?mul0r //.
Qed.

Lemma gen_fileE G : gen_mat_bch G = g -> gen_file k el vec n_rs k_rs G = Some block_file.
Proof.
  move=> EG. rewrite /gen_file EG /file_with /gen_mat_rs Hn /= map_blocks. congr Some. congr flatten.
  apply/eq_in_map => p. rewrite mem_iota /= => Hp. apply/eq_in_map => b. rewrite mem_iota /= => Hb.
  have -> : flatten [seq [seq vecmat (vec (u * y)) g | y <- [seq num k el p.+1 ^+ i | i <- iota 0 k_rs]] | u <- [seq el (unit_inp k j) | j <- iota 0 k]]
    = [seq vecmat (vec (el (unit_inp k (e %/ k_rs)) * num k el p.+1 ^+ (e %% k_rs))) g | e <- iota 0 (k_rs * k)].
  { rewrite mulnC map_blocks. congr flatten. rewrite -map_comp. apply/eq_in_map => j. rewrite mem_iota /= => Hj.
    rewrite -map_comp. apply/eq_in_map => i. rewrite mem_iota /= => Hi.
    by rewrite divnMDl // divn_small // addn0 modnMDl modn_small. }
  rewrite /gen_mat_concat -!map_comp. apply/eq_in_map => e. rewrite mem_iota /= => He.
  rewrite encE. rewrite (nth_blocks _ _ Hp Hb) => [|q]; last by rewrite size_map size_iota.
  congr (nth _ (vecmat (vec _) _) _). rewrite {1}(divn_eq e k_rs) value_unit ?ltn_mod //. by rewrite ltn_divLR // mulnC.
Qed.
End Blocks.

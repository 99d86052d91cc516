(** The library's fields with vectors of bits along a basis, as in [galois]. *)

From Coq Require Import NArith.
From mathcomp Require Import all_ssreflect all_algebra zify.
From Verif Require Import GFField SupmatScriptModel SupmatScriptProofs.
Set Implicit Arguments.
Unset Strict Implicit.
Unset Printing Implicit Defensive.
Import GRing.Theory.
Local Open Scope ring_scope.

Lemma size_unit k i : size (unit_inp k i) = k.
Proof. by rewrite size_map size_iota. Qed.

Lemma additive_eq k (f g : seq bool -> bool) c :
  (forall u v, size u = k -> size v = k -> f (xor u v) = addb (f u) (f v)) ->
  (forall u v, size u = k -> size v = k -> g (xor u v) = addb (g u) (g v)) ->
  (forall i, (i < k)%N -> f (unit_inp k i) = g (unit_inp k i)) -> size c = k -> f c = g c.
Proof.
  move=> Hf Hg H Sc. rewrite (additive_par Hf Sc) (additive_par Hg Sc). congr par. apply/eq_in_map => i. rewrite mem_iota /=. exact: H.
Qed.

Section Basis.
Variables (w : width) (k : nat) (basis : seq (gf w)) (masks : seq (seq bool)).
Hypothesis Hk : N.to_nat w = k.

Definition coords (x : gf w) : seq bool := [seq N.testbit (gval x) (N.of_nat i) | i <- iota 0 k].
Definition lin (v : seq bool) : gf w := foldr (fun y a => (if y.1 then y.2 else 0) + a) 0 (zip v basis).
Definition masked (u : seq bool) : seq bool := [seq par u m | m <- masks].
Definition vec_of (x : gf w) : seq bool := masked (coords x).

Definition basis_ok : bool :=
  [&& size basis == k, size masks == k,
      all (fun i => vec_of (lin (unit_inp k i)) == unit_inp k i) (iota 0 k) &
      all (fun i => coords (lin (masked (unit_inp k i))) == unit_inp k i) (iota 0 k)].

Lemma size_coords x : size (coords x) = k.
Proof. by rewrite size_map size_iota. Qed.

Lemma coords_add x y : coords (x + y) = xor (coords x) (coords y).
Proof.
  apply: (@xor_eq k); rewrite ?size_coords // => i Hi. rewrite !(nth_map 0%N) ?size_iota //.
  have -> : gval (x + y) = N.lxor (gval x) (gval y) by []. rewrite N.lxor_spec. by case: (N.testbit _ _); case: (N.testbit _ _).
Qed.

Lemma coords_inj x y : coords x = coords y -> x = y.
Proof.
  move=> E. apply: gf_inj. apply: N.bits_inj => i. case: (ltnP (N.to_nat i) k) => Hi.
  - have := congr1 (nth false ^~ (N.to_nat i)) E. by rewrite !(nth_map 0%N) ?size_iota // nth_iota // add0n N2Nat.id.
  - have Hw : (wv w <= i)%num by clear -Hi Hk; lia.
    by rewrite (GF2Poly.lt_pow2_bits _ _ (gf_lt x) i Hw) (GF2Poly.lt_pow2_bits _ _ (gf_lt y) i Hw).
Qed.

Lemma gf_double (x : gf w) : x + x = 0.
Proof. apply: gf_inj. exact: N.lxor_nilpotent. Qed.

Lemma lin_xor u v n : size u = n -> size v = n -> lin (xor u v) = lin u + lin v.
Proof.
  rewrite /lin. set F := foldr _. have FS (y : bool * gf w) s : F 0 (y :: s) = (if y.1 then y.2 else 0) + F 0 s by [].
  elim: u v n (basis) => [|a u IH] [|b v] [|n] // B.
  - move=> _ _. by case: B => [|y B]; apply/esym/addr0.
  - move=> [Hu] [Hv]. case: B => [|y B]; first by apply/esym/addr0.
    rewrite -[zip (xor _ _) _]/((addb a b, y) :: zip (xor u v) B) -[zip (a :: _) _]/((a, y) :: zip u B) -[zip (b :: _) _]/((b, y) :: zip v B) !FS.
    rewrite (IH v n B Hu Hv) -/F [RHS]addrACA. congr (_ + _). rewrite ![fst _]/= ![snd _]/=. case: a; case: b => //.
    + exact/esym/gf_double.
    + exact/esym/addr0.
    + exact/esym/add0r.
    + exact/esym/add0r.
Qed.

Lemma size_masked u : size (masked u) = size masks.
Proof. by rewrite size_map. Qed.

Lemma masked_xor u v : size u = k -> size v = k -> masked (xor u v) = xor (masked u) (masked v).
Proof.
  move=> Hu Hv. apply: (@xor_eq (size masks)); rewrite ?size_masked // => i Hi. by rewrite !(nth_map [::]) // (par_xor _ Hu Hv).
Qed.

Lemma basis_vectors : basis_ok -> bit_vectors k lin vec_of.
Proof.
  move=> /and4P [/eqP Sb /eqP Sm /allP H1 /allP H2]. split; last by move=> u v Hu Hv; apply: (lin_xor Hu Hv).
  - move=> v Sv. apply: (@eq_from_nth _ false); first by rewrite size_masked Sm Sv. rewrite size_masked Sm => a Ha.
    apply: (@additive_eq k (fun v => nth false (vec_of (lin v)) a) (nth false ^~ a) v _ _ _ Sv).
    + move=> x y Hx Hy. rewrite (lin_xor Hx Hy) /vec_of coords_add masked_xor ?size_coords //. by apply: (@nth_xor k); rewrite size_masked.
    + move=> x y Hx Hy. exact: nth_xor Hx Hy.
    + move=> i Hi. have Hin : i \in iota 0 k by rewrite mem_iota. by rewrite (eqP (H1 i Hin)).
  - move=> x. split; first by rewrite size_masked Sm. apply: coords_inj. rewrite /vec_of.
    apply: (@eq_from_nth _ false); rewrite ?size_coords // => a Ha.
    apply: (@additive_eq k (fun u => nth false (coords (lin (masked u))) a) (nth false ^~ a) (coords x) _ _ _ (size_coords x)).
    + move=> u v Hu Hv. rewrite (masked_xor Hu Hv) (@lin_xor _ _ k) ?size_masked // coords_add. by apply: (@nth_xor k); rewrite size_coords.
    + move=> u v Hu Hv. exact: nth_xor Hu Hv.
    + move=> i Hi. have Hin : i \in iota 0 k by rewrite mem_iota. by rewrite (eqP (H2 i Hin)).
Qed.
End Basis.

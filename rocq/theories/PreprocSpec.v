(** What the preprocessing is to produce. *)

From mathcomp Require Import all_ssreflect all_algebra.
From Verif Require Import MathModel SharingModel SharingSpec CoreSpec PreprocModel.
Set Implicit Arguments.
Unset Strict Implicit.
Unset Printing Implicit Defensive.
Import GRing.Theory.
Local Open Scope ring_scope.

Section Spec.
Variable F : fieldType.
Variable emb : nat -> F.

(** The polynomials [p s j] dealt by party [s] in batch [j], given its coins. *)

(** Random polynomials: the coins are the first shares. *)
Definition rand_polys (n k : nat) (coin : nat -> nat -> nat -> F) (p : nat -> nat -> {poly F}) : Prop :=
  forall s j, (s < n)%N -> (size (p s j) <= k)%N /\ forall i, (i < k)%N -> (p s j).[emb i] = coin s j i.

(** Polynomials with given secrets; the other coins are the first shares. *)
Definition secret_polys (n k : nat) (pos : seq F) (sec : nat -> nat -> nat -> F) (coin : nat -> nat -> nat -> F)
    (p : nat -> nat -> {poly F}) : Prop :=
  forall s j, (s < n)%N ->
    [/\ (size (p s j) <= k)%N, forall q, (q < size pos)%N -> (p s j).[nth 0 pos q] = sec s j q &
        forall i, (i < k - size pos)%N -> (p s j).[emb i] = coin s j i].

(** Entry of a matrix. *)
Definition entry (M : mat F) (r s : nat) : F := nth 0 (nth [::] (rows M) r) s.

(** Result [idx] of combining [b] batches with the matrix: row [idx / b]
    applied to the polynomials dealt in batch [idx mod b]. *)
Definition mixed (n : nat) (M : mat F) (b : nat) (p : nat -> nat -> {poly F}) (idx : nat) : {poly F} :=
  \sum_(s < n) entry M (idx %/ b) s *: p s (idx %% b)%N.

(** Party [i] holds the shares number [i] of the polynomials. *)
Definition held (p : nat -> {poly F}) (num : nat) (i : nat) : seq F := [seq (p j).[emb i] | j <- iota 0 num].

(** All entries are bits. *)
Definition bits (x : seq F) : Prop := forall y, y \in x -> y = 0 \/ y = 1.
Definition binary (M : mat F) : Prop := forall r, r \in rows M -> bits r.

(** The material a description asks for: mask bits, keys, at least the
    described number of random and zero sharings, errors; [mk], [ks], [rs] and
    [es] are the secrets. *)
Definition material (n t l : nat) (d : count) (pp : nat -> preproc_data F) (mk ks rs es : nat -> seq F) : Prop :=
  let pos := default_pos emb n l in
  let low := (t + l).-1 in
  [/\ sharings emb n low pos (n_masks d) (fun i => pp_masks (pp i)) mk /\ (forall j, (j < n_masks d)%N -> bits (mk j)),
      sharings emb n low pos (keys_total d) (fun i => pp_keys (pp i)) ks /\
        (forall i, (i < n)%N -> pp_kshape (pp i) = n_keys d),
      (exists nr, (n_randoms d <= nr)%N /\ sharings emb n low pos nr (fun i => pp_randoms (pp i)) rs),
      (exists nz, (n_zeros d <= nz)%N /\ sharings emb n n.-1 pos nz (fun i => pp_zeros (pp i)) (fun _ => nseq l 0)) &
      sharings emb n low pos (n_errors d) (fun i => pp_errors (pp i)) es].

End Spec.

(** Preprocessing and coins drawn at random: all random field elements of a run
    of [garble] and of the dealing of its material, as one finite family. *)

From Coq Require Import NArith List.
From Verif Require Import CircuitModel LpnModel.
From mathcomp Require Import all_ssreflect all_algebra.
From Verif Require Import SharingModel CoreModel PreprocModel GarbleModel GarbleSpec.
Set Implicit Arguments.
Unset Strict Implicit.
Unset Printing Implicit Defensive.
Import GRing.Theory.
Local Open Scope ring_scope.

Section Dice.
Variables (F : fieldType) (B : nat).

(** A die has a kind and four indices up to [B].  In the first family, kinds 0,
    1 and 2 are the coins for sharing the masks, the keys and the errors (number
    of the sharing, coin), 3 and 4 those of the random sharings and the sharings
    of zeros, 5 and 6 the coins of a party who leads the transformation of an
    output block or an input block (party, block, repetition, coin).  In the
    second family, kinds 0 and 1 are the coins of a party who leads the first
    and the last multiplication of a gate (party, gate, product, coin). *)
Definition slot (m : nat) : finType := [finType of 'I_m.+1 * 'I_B.+1 * 'I_B.+1 * 'I_B.+1 * 'I_B.+1].
Definition dice : Type := ({ffun slot 6 -> F} * {ffun slot 1 -> F})%type.

Definition die m (w : {ffun slot m -> F}) (k a b c d : nat) : F := w (inord k, inord a, inord b, inord c, inord d).

(** What party [i] is dealt: sharings of given secrets, random sharings, and
    sharings of zeros, by the code's own functions (sharing.rs:126-139). *)
Definition cast_material (P Pn : pss F) (l : nat) (cnt : count) (mk ks es : nat -> seq F) (w : dice) (i : nat) : preproc_data F :=
  let part sh := nth 0 (odflt [::] sh) i in
  let shares k num s := [seq part (pss_share P (s j) (fun c => die w.1 k j c 0 0)) | j <- iota 0 num] in
  PreProc (shares 0%N (n_masks cnt) mk) (n_keys cnt) (shares 1%N (keys_total cnt) ks)
    [seq part (pss_rand P (fun c => die w.1 3 j c 0 0)) | j <- iota 0 (n_randoms cnt)]
    [seq part (pss_share Pn (nseq l 0) (fun c => die w.1 4 j c 0 0)) | j <- iota 0 (n_zeros cnt)]
    (shares 2%N (n_errors cnt) es).

(** Its coins in [garble]. *)
Definition cast_coins (w : dice) (i : nat) : gcoins F :=
  GCoins (die w.1 5 i) (die w.1 6 i) (die w.2 0 i) (die w.2 1 i).

(** Indices do not collide: there is a die of its own for everything. *)
Definition enough (n : nat) (circ : pcircuit) (p : lpn) (cnt : count) : Prop :=
  [/\ (n_masks cnt <= B)%N /\ (keys_total cnt <= B)%N, (n_randoms cnt <= B)%N /\ (n_zeros cnt <= B)%N, (n_errors cnt <= B)%N /\ (n <= B)%N &
   [/\ (size (out_blocks circ) <= B)%N, (size (inp_blocks circ) <= B)%N, (size (p_gates circ) <= B)%N & (3 * (lpn_key_len p + 1) <= B)%N]].

(** Two families of coins are the same for party [a]. *)
Definition same_coins (c c' : gcoins F) : Prop :=
  forall i j k, [/\ gk_out c i j k = gk_out c' i j k, gk_inp c i j k = gk_inp c' i j k, gk_and c i j k = gk_and c' i j k & gk_gate c i j k = gk_gate c' i j k].
End Dice.

(** Bytes of serialized preprocessing material. *)

From Coq Require Import NArith List.
From mathcomp Require Import all_ssreflect all_algebra.
From Verif Require Import GaloisModel CodecModel CodecProofs GFField GFCodec PreprocModel.
Set Implicit Arguments.
Unset Strict Implicit.
Unset Printing Implicit Defensive.

Section Codec.
Variable w : width.

(** bincode reading one vector of a struct: as [de_vec] (CodecModel), keeping
    the rest of the buffer; values outside the field are rejected as in
    [gde]. *)
Definition read_vec (bs : seq N) : option (seq (gf w) * seq N) :=
  if take_bytes 8 bs is Some (h, t) then
    if de_elems w (N.to_nat (le_value h)) t is Some (vs, rest) then
      omap (fun x => (x, rest))
        (foldr (fun v acc => if insub v is Some x then omap (cons x) acc else None) (Some [::]) vs)
    else None
  else None.

(** preproc.rs:462-469: derived [Serialize]/[Deserialize] of [PreProcSer] in
    bincode, fields in order. *)
Definition write_pp (s : preproc_ser (gf_fieldType w)) : seq N :=
  gser (s_masks s) ++ gser (s_keys s) ++ gser (s_randoms s) ++ gser (s_zeros s) ++ gser (s_errors s).

Definition read_pp (bs : seq N) : option (preproc_ser (gf_fieldType w)) :=
  obind (fun a => obind (fun b => obind (fun c => obind (fun d => omap (fun e =>
    @PreProcSer (gf_fieldType w) a.1 b.1 c.1 d.1 e.1) (read_vec d.2)) (read_vec c.2)) (read_vec b.2)) (read_vec a.2)) (read_vec bs).

Lemma read_write_vec (x : seq (gf w)) rest : len_ok (size x) -> read_vec (gser x ++ rest) = Some (x, rest).
Proof.
  move=> Hs. rewrite /read_vec /gser /ser_vec.
  have L : length [seq gval v | v <- x] = size x by elim: x {Hs} => //= a x ->.
  set h := le_bytes 8 _. set b := flat_map _ _.
  have -> : (app h b ++ rest)%SEQ = app h (app b rest) by symmetry; exact: app_assoc.
  rewrite -{1}(le_bytes_length 8 (N.of_nat (length [seq gval v | v <- x]))).
  rewrite take_bytes_app /h /b le_value_bytes; last by rewrite L; exact: Hs.
  rewrite Nat2N.id de_ser_elems /=; last first.
  { elim: x {Hs L h b} => [|a x IH] /=; first by constructor. constructor=> //. exact: gf_lt. }
  elim: x {Hs L h b} => //= a x. case: (foldr _ _ _) => //= y [->]. by rewrite valK.
Qed.

Lemma read_write_pp (s : preproc_ser (gf_fieldType w)) : len_ok (size (s_masks s)) -> len_ok (size (s_keys s)) ->
  len_ok (size (s_randoms s)) -> len_ok (size (s_zeros s)) -> len_ok (size (s_errors s)) ->
  read_pp (write_pp s) = Some s.
Proof.
  move=> H1 H2 H3 H4 H5. rewrite /read_pp /write_pp -[gser (s_errors s)]cats0.
  rewrite read_write_vec //=. rewrite read_write_vec //=. rewrite read_write_vec //=. rewrite read_write_vec //=.
  rewrite read_write_vec //=. by case: s {H1 H2 H3 H4 H5}.
Qed.
End Codec.

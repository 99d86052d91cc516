(** Byte-level encodings: [Serialize]/[Deserialize] of [GF<W>]
    (src/math/galois/mod.rs:302-347) and bincode's encoding of [Vec<GF<W>>]
    as used by src/protocol/core.rs and src/protocol/preproc.rs.
    A byte is an [N] below 256; a buffer is a list of bytes. *)

From Coq Require Import NArith List Bool.
From Verif Require Import GaloisModel.
Import ListNotations.
Local Open Scope N_scope.

Definition byte_ok (b : N) : Prop := b < 256.

(** Rust [to_le_bytes], first [n] bytes.  The integer format of bincode,
    src/math/galois/mod.rs ([Serialize] of [GF]) through core.rs:47, 73. *)
Fixpoint le_bytes (n : nat) (v : N) : list N :=
  match n with
  | O => []
  | S n' => (v mod 256) :: le_bytes n' (v / 256)
  end.

(** Rust [from_le_bytes] (missing high bytes are zero).  As [le_bytes], for reading:
    core.rs:54, 79. *)
Fixpoint le_value (bs : list N) : N :=
  match bs with
  | [] => 0
  | b :: bs' => b + 256 * le_value bs'
  end.

(** Reading [n] bytes from the front of the buffer; [None] = unexpected end.  The
    reader of bincode, core.rs:54, 79. *)
Fixpoint take_bytes (n : nat) (bs : list N) : option (list N * list N) :=
  match n with
  | O => Some ([], bs)
  | S n' =>
      match bs with
      | [] => None
      | b :: bs' =>
          match take_bytes n' bs' with
          | Some (h, t) => Some (b :: h, t)
          | None => None
          end
      end
  end.

(** galois/mod.rs:302-314 [Serialize for GF<W>] in bincode: the NUM_BYTES
    low bytes, little endian, no length prefix (tuple). *)
Definition ser_gf (w v : N) : list N := le_bytes (N.to_nat (gf_num_bytes w)) v.

(** galois/mod.rs:316-347 [Deserialize for GF<W>] in bincode: no range check. *)
Definition de_gf (w : N) (bs : list N) : option (N * list N) :=
  match take_bytes (N.to_nat (gf_num_bytes w)) bs with
  | Some (h, t) => Some (le_value h, t)
  | None => None
  end.

(** bincode [serialize] of a slice or Vec of field elements: 8-byte
    little-endian length, then the elements (core.rs:47,73,142,186,341;
    preproc.rs:59,121,181). *)
Definition ser_vec (w : N) (v : list N) : list N :=
  le_bytes 8 (N.of_nat (length v)) ++ flat_map (ser_gf w) v.

Fixpoint de_elems (w : N) (n : nat) (bs : list N) : option (list N * list N) :=
  match n with
  | O => Some ([], bs)
  | S n' =>
      match de_gf w bs with
      | None => None
      | Some (v, t) =>
          match de_elems w n' t with
          | None => None
          | Some (vs, t') => Some (v :: vs, t')
          end
      end
  end.

(** bincode [deserialize::<Vec<GF<W>>>] (core.rs:54,79,160,192,349;
    preproc.rs:67,128,188).  Trailing bytes are ignored, as bincode 1.x does. *)
Definition de_vec (w : N) (bs : list N) : option (list N) :=
  match take_bytes 8 bs with
  | None => None
  | Some (h, t) =>
      match de_elems w (N.to_nat (le_value h)) t with
      | None => None
      | Some (vs, _) => Some vs
      end
  end.

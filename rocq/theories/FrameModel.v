(** Message framing on a TCP stream: [party_sender] and [party_receiver]
    (src/protocol/network.rs:314-376), with the encoding of the vint64 crate
    (version 1.0.1, written from its documentation and source as published;
    it is not part of /repo).  A byte is an [N] below 256. *)

From Coq Require Import PeanoNat NArith List Bool.
From Verif Require Import CodecModel.
Import ListNotations.
Local Open Scope N_scope.

(** ** vint64 *)

(** [vint64::encoded_len]: 57 or more leading zeros: 1 byte, 50 to 56: 2, ..., 8 to
    14: 8 bytes, fewer: 9.  network.rs:326-327. *)
Definition encoded_len (v : N) : N :=
  if v <? 2 ^ 7 then 1 else if v <? 2 ^ 14 then 2 else if v <? 2 ^ 21 then 3 else
  if v <? 2 ^ 28 then 4 else if v <? 2 ^ 35 then 5 else if v <? 2 ^ 42 then 6 else
  if v <? 2 ^ 49 then 7 else if v <? 2 ^ 56 then 8 else 9.

(** [vint64::encode] followed by [as_ref].  network.rs:327. *)
Definition vint_encode (v : N) : list N :=
  let len := encoded_len v in
  if len =? 9 then 0 :: le_bytes 8 v
  else le_bytes (N.to_nat len) ((v * 2 + 1) * 2 ^ (len - 1)).

(** [u8::trailing_zeros], 8 for zero.  network.rs:349, inside
    [vint64::decoded_len]. *)
Fixpoint trailing_zeros (bits : nat) (b : N) : nat :=
  match bits with
  | O => O
  | S k => if N.odd b then O else S (trailing_zeros k (b / 2))
  end.

(** [vint64::decoded_len].  network.rs:349. *)
Definition decoded_len (b : N) : nat := S (trailing_zeros 8 b).

(** [vint64::decode] of a slice of exactly the decoded length; [None] is the error for
    an encoding that is longer than necessary.  network.rs:356. *)
Definition vint_decode (bs : list N) : option N :=
  let len := N.of_nat (length bs) in
  let v := if len =? 9 then le_value (skipn 1 bs) else le_value bs / 2 ^ len in
  if (1 <? len) && (v <? 2 ^ (7 * (len - 1))) then None else Some v.

(** ** Sending *)

(** network.rs:319-330: the buffer written for one message (id, data);
    [None] is the panic for an id of more than 255 bytes. *)
Definition frame (m : list N * list N) : option (list N) :=
  let '(id, data) := m in
  if (length id <=? 255)%nat then
    Some (vint_encode (N.of_nat (length id + length data + 1)) ++ N.of_nat (length id) :: id ++ data)
  else None.

(** network.rs:318-337: all messages of the channel. *)
Fixpoint send_all (ms : list (list N * list N)) : option (list N) :=
  match ms with
  | [] => Some []
  | m :: ms' =>
      match frame m, send_all ms' with
      | Some b, Some bs => Some (b ++ bs)
      | _, _ => None
      end
  end.

(** ** Receiving *)

(** [AsyncReadExt::read_exact] on a stream whose bytes become available in chunks and
    which then ends: the bytes read and what remains, [None] if the stream ends
    before.  network.rs:347, 352, 361. *)
Fixpoint read_exact (chs : list (list N)) (k : N) : option (list N * list (list N)) :=
  if k =? 0 then Some ([], chs)
  else
    match chs with
    | [] => None
    | c :: chs' =>
        if k <=? N.of_nat (length c) then Some (firstn (N.to_nat k) c, skipn (N.to_nat k) c :: chs')
        else
          match read_exact chs' (k - N.of_nat (length c)) with
          | Some (h, t) => Some (c ++ h, t)
          | None => None
          end
    end.

(** One iteration of the loop network.rs:347-375. *)
Inductive received :=
| RMsg (m : list N * list N) (rest : list (list N))
| REnd
| RPanic.

(** network.rs:347-374.  [vec![0; mssg_len]] panics above [isize::MAX]; not
    enough memory for a smaller buffer is not modelled. *)
Definition recv_one (chs : list (list N)) : received :=
  match read_exact chs 1 with
  | None => REnd
  | Some (bs0, chs1) =>
      let b0 := hd 0 bs0 in
      match read_exact chs1 (N.of_nat (decoded_len b0) - 1) with
      | None => RPanic
      | Some (bs, chs2) =>
          match vint_decode (b0 :: bs) with
          | None => RPanic
          | Some mssg_len =>
              if 2 ^ 63 <=? mssg_len then RPanic
              else
                match read_exact chs2 mssg_len with
                | None => RPanic
                | Some ([], _) => RPanic
                | Some (il :: r, chs3) =>
                    let id_len := N.to_nat il in
                    if (id_len <=? length r)%nat then RMsg (firstn id_len r, skipn id_len r) chs3
                    else RPanic
                end
          end
      end
  end.

Inductive outcome := Closed | Panicked.

(** The messages handed to the router and how the task ends. Every iteration consumes
    a byte, so [fuel] is never exhausted when it exceeds the number of bytes.
    network.rs:347-375. *)
Fixpoint recv_loop (fuel : nat) (chs : list (list N)) : list (list N * list N) * outcome :=
  match fuel with
  | O => ([], Panicked)
  | S f =>
      match recv_one chs with
      | REnd => ([], Closed)
      | RPanic => ([], Panicked)
      | RMsg m rest => let '(ms, o) := recv_loop f rest in (m :: ms, o)
      end
  end.

(** network.rs:340-376. *)
Definition party_receiver (chs : list (list N)) : list (list N * list N) * outcome :=
  recv_loop (S (length (concat chs))) chs.

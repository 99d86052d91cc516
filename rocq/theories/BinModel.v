(** Model of the programs bin/garble.rs and bin/preproc.rs at one party, from the
    texts of their input files to the end of the repetitions.

    Not modelled: reading the command line and the files, connecting to the
    network, [GF::init] (GaloisModel), the thread pool, [Stats] and printing.
    The final exchange with party 0 is in SaveModel.  [u32]
    arithmetic on the options does not overflow here; where it would underflow
    the program is made to panic (in a release build [t + l - 1] wraps around
    and [PackedSharing::new] panics). *)

From Coq Require Import NArith List Ascii.
From Verif Require Import CircuitModel LpnModel.
From mathcomp Require Import all_ssreflect all_algebra.
From Verif Require Import MathModel MatFileModel SharingModel MachineModel CoreModel PreprocModel GarbleModel PipeModel.
Set Implicit Arguments.
Unset Strict Implicit.
Unset Printing Implicit Defensive.
Import GRing.Theory.
Local Open Scope ring_scope.

(** bin/garble.rs:95: the bytes of "garble_benchmark". *)
Definition garble_bench_id : seq N :=
  [:: 103; 97; 114; 98; 108; 101; 95; 98; 101; 110; 99; 104; 109; 97; 114; 107]%num.

(** bin/preproc.rs:111: the bytes of "benchmark communication protocol". *)
Definition preproc_bench_id : seq N :=
  [:: 98; 101; 110; 99; 104; 109; 97; 114; 107; 32; 99; 111; 109; 109; 117; 110; 105; 99; 97; 116; 105; 111; 110; 32;
      112; 114; 111; 116; 111; 99; 111; 108]%num.

Section Bin.
Variable F : fieldType.
Variable emb : nat -> F.
Variable D : eqType.
Variable ser : seq F -> D.
Variable de : D -> option (seq F).
(** The data of the messages of [sync]: the bytes of "sync". *)
Variable syn : D.

Notation pid := [eqType of seq N].
Notation pproc := (proc pid D (val F)).
Notation panic := (@Panic pid D (val F)).

(** bin/garble.rs:200-204, bin/preproc.rs:204-208: the packed circuit. *)
Definition load_circuit (text : list ascii) (l : nat) : option pcircuit :=
  if from_bristol_fashion text is Some c then pack c (N.of_nat l) else None.

(** bin/garble.rs:73-91, bin/preproc.rs:76-104 [MPCContext] without its LPN
    parameters. *)
Definition party_ctx (id n t l : nat) : option (ctx F) :=
  let defpos := default_pos emb n l in
  if ((t + l)%N, n) is (tl.+1, n1.+1) then
    if (pss_new emb tl n defpos, pss_new emb n1 n defpos) is (Some P, Some Pn) then Some (Ctx id n t l P Pn) else None
  else None.

Section Garble.
Variable H : eqType.
Variable sha : seq N -> H.
Variable h0 : H.
Variable draws : H -> nat -> F.
Variable hash : seq N -> N.
Variable G : Type.
Variable seed_from_u64 : N -> G.
Variable gf_rand : G -> F * G.
Variable gen_bool : G -> bool * G.

(** bin/garble.rs:62-141 and 200-204.  Repetition [r] takes its coins from
    [coins r]. *)
Definition garble_bin (text : list ascii) (id n t l : nat) (p : lpn) (reps : nat) (coins : nat -> gcoins F)
    (k : seq (seq (seq (seq F)) * queues F) -> pproc) : pproc :=
  if load_circuit text l is Some circ then
    if party_ctx id n t l is Some c then
      if describe circ n t l p is Some desc then
        if gctx_new emb sha h0 draws circ c p is Some g then
          bench_loop n garble_bench_id syn
            (fun i => dummy emb seed_from_u64 gf_rand gen_bool id n t l (200 + N.of_nat i) desc)
            (fun i pp k => garble emb ser de hash g [::] pp (coins i) k)
            (iota 0 reps) k
        else panic
      else panic
    else panic
  else panic.
End Garble.

(** bin/preproc.rs:65-145 and 204-208.  The matrix file is its list of bytes. *)
Definition preproc_bin (text : list ascii) (file : seq N) (id n t l : nat) (p : lpn) (reps : nat) (r : nat -> coins F)
    (k : seq (preproc_data F) -> pproc) : pproc :=
  if load_circuit text l is Some circ then
    if party_ctx id n t l is Some c then
      if binary_super_inv_matrix F file is Some Mb then
        if (t <= n)%N then
          if super_inv_matrix emb n (n - t) is Some M then
            if describe circ n t l p is Some desc then
              bench_loop n preproc_bench_id syn (fun _ => Some tt)
                (fun i _ k => preproc ser de c M Mb [::] desc (r i) k) (iota 0 reps) k
            else panic
          else panic
        else panic
      else panic
    else panic
  else panic.

End Bin.

(** What bin/preproc_size.rs prints: the numbers of the description, the size in
    bytes of one party's material and the numbers of sharings to generate. *)
Record size_report := SizeReport {
  s_mask_shares : nat; s_key_shares : nat; s_random_shares : nat; s_zero_shares : nat; s_error_shares : nat;
  s_bytes : nat; g_random : nat; g_zero : nat; g_bit : nat }.

(** bin/preproc_size.rs:43-100 for party 0; [size_of] stands for
    [bincode::serialized_size] of the material ([PreProcSer]), and the context
    only serves to panic on bad parameters. *)
Definition preproc_size (F : fieldType) (emb : nat -> F) (G : Type) (seed_from_u64 : N -> G)
    (gf_rand : G -> F * G) (gen_bool : G -> bool * G) (size_of : preproc_ser F -> nat)
    (text : list ascii) (n t l : nat) (p : lpn) : option size_report :=
  if load_circuit text l is Some circ then
    if party_ctx emb 0 n t l is Some _ then
      if describe circ n t l p is Some d then
        if dummy emb seed_from_u64 gf_rand gen_bool 0 n t l 0 d is Some pp then
          Some (SizeReport (n_masks d) (keys_total d) (n_randoms d) (n_zeros d) (n_errors d) (size_of (to_ser pp))
                  (keys_total d + n_randoms d + 3 * n_errors d)%N (n_zeros d + 2 * n_errors d)%N
                  (n_masks d + 2 * n_errors d)%N)
        else None
      else None
    else None
  else None.

(** Model of the rest of scripts/communication_estimates.py (the estimate of the
    malicious protocol) and of scripts/computation_estimates.py.

    Simplified: [math.ceil(a / b)] is exact ([EstModel.ceil]; they agree below 2^53,
    P_Float).  The numbers are those passed to [print_stat], which divides and
    formats them.  A pair of [numpy] integers (additions, multiplications) is a pair
    of unbounded integers.  The counters [ncons], [nmac] and [nzero] of the first
    script are never read and left out.  The Python lists of counts are keyed by the
    names of four protocols; here they are a record, and a protocol that was never
    called counts 0 (its line, which is then 0, is not printed). *)

From Coq Require Import ZArith.
From mathcomp Require Import all_ssreflect.
From Verif Require Import EstModel.
Set Implicit Arguments.
Unset Strict Implicit.
Unset Printing Implicit Defensive.

(** communication_estimates.py:5-29 and computation_estimates.py:6-29 [Params]. *)
Record mparams := MParams { base : params; lenmac : nat; lencheck : nat }.

(** communication_estimates.py:33-41 [ProtoCtr.counts]. *)
Record counts := Counts { q_rand : nat; q_zero : nat; q_bitrand : nat; q_mackey : nat }.

(** ** scripts/communication_estimates.py *)

(** A method of [ProtoCtr] returns bytes and updates the counts.
    communication_estimates.py:32-182. *)
Definition cmeth : Type := counts -> nat * counts.
(** communication_estimates.py:32-182: one call after another, bytes added. *)
Definition cseq (a b : cmeth) : cmeth := fun c => let (x, c1) := a c in let (y, c2) := b c1 in (x + y, c2).
(** communication_estimates.py:32-182: bytes without a change of the counts. *)
Definition cret (x : nat) : cmeth := fun c => (x, c).
Notation "a ;; b" := (cseq a b) (at level 52, left associativity).

Section Communication.
Variable mp : mparams.
Notation p := (base mp).

(** communication_estimates.py:51-53, 60-62, 69-71, 94-96. *)
Definition m_rand (num : nat) : cmeth := fun c => (0, Counts (q_rand c + num) (q_zero c) (q_bitrand c) (q_mackey c)).
Definition m_zero (num : nat) : cmeth := fun c => (0, Counts (q_rand c) (q_zero c + num) (q_bitrand c) (q_mackey c)).
Definition m_bitrand (num : nat) : cmeth := fun c => (0, Counts (q_rand c) (q_zero c) (q_bitrand c + num) (q_mackey c)).
Definition m_mackeygen (num : nat) : cmeth := fun c => (0, Counts (q_rand c) (q_zero c) (q_bitrand c) (q_mackey c + num)).

(** communication_estimates.py:81-92. *)
Definition m_randshare (num : nat) : cmeth :=
  let batches := ceil num (e_l p) in
  m_zero (batches * 2 * e_n p) ;; m_rand (batches * (e_n p + e_t p)) ;; cret (allrecon p (2 * batches)).

(** communication_estimates.py:107-110: 128 bits for a key of AES. *)
Definition m_coin : cmeth :=
  let num := ceil 128 (e_field_bits p) in m_rand num ;; cret (allrecon p num).

(** communication_estimates.py:112-125. *)
Definition m_mult (num : nat) : cmeth := m_rand num ;; m_zero num ;; cret (degreduce p num).
Definition m_authmult (num : nat) : cmeth := m_mult ((lenmac mp + 1) * num).
Definition m_trans (num : nat) : cmeth := m_randshare num ;; cret (degreduce p num).
Definition m_authtrans (num : nat) : cmeth := m_trans ((lenmac mp + 1) * num).
Definition m_auth (num : nat) : cmeth := m_mult (lenmac mp * num).

(** communication_estimates.py:135-148. *)
Definition m_checkbit (num : nat) : cmeth := m_authmult num.
Definition m_autherror (num : nat) : cmeth :=
  m_bitrand (num * e_noise p) ;; m_auth (num * e_noise p) ;; m_checkbit (num * e_noise p) ;;
  m_authmult (num * (e_noise p - 1)) ;; m_rand num ;; m_mult (num * (lenmac mp + 1)).

(** communication_estimates.py:148-163. *)
Definition m_checkcons : cmeth := m_rand (lencheck mp) ;; m_coin ;; cret (allrecon p (lencheck mp)).
Definition m_checkmac : cmeth := m_coin ;; cret (allrecon p (lenmac mp)) ;; cret (allrecon p (lenmac mp)).
Definition m_checkzero : cmeth := m_coin ;; cret (allrecon p (lencheck mp)).

(** communication_estimates.py:98-105. *)
Definition mackeygen_comm (num : nat) : nat :=
  let batches := ceil num (2 * e_l p) in
  allshare p batches + batches * e_n p * 2 * e_t p * e_fcomm p.

(** What the script prints (times [n]), and the counts.
    communication_estimates.py:199-267. *)
Record mreport := MReport {
  mr_transform : nat; mr_plaintexts : nat; mr_ciphertexts : nat; mr_verification : nat; mr_garbling : nat;
  mr_mackeys : nat; mr_keys : nat; mr_masks : nat; mr_errors : nat;
  mr_rand : nat; mr_zero : nat; mr_bitrand : nat; mr_mackeygen : nat; mr_preproc : nat; mr_counts : counts }.

(** communication_estimates.py:199-267 [malicious_protocol] and 165-181
    [get_circ_ind_preproc]. *)
Definition malicious_comm (num_inp num_and num_xor : nat) : mreport :=
  let K := e_key_len p in let M := e_ctx_len p in
  let num_and_blocks := ceil num_and (e_l p) in
  let num_xor_blocks := ceil num_xor (e_l p) in
  let num_wire_blocks := ceil num_inp (e_l p) + num_and_blocks + num_xor_blocks in
  let num_gate_blocks := num_and_blocks + num_xor_blocks in
  let (mackeys, c1) := m_mackeygen (lenmac mp) (Counts 0 0 0 0) in
  let (keys, c2) := (m_rand (num_wire_blocks * 2 * K) ;; m_auth (num_wire_blocks * 2 * K)) c1 in
  let (masks, c3) := (m_bitrand num_wire_blocks ;; m_auth num_wire_blocks ;; m_checkbit num_wire_blocks) c2 in
  let (errors, c4) := m_autherror (num_gate_blocks * 4 * M) c3 in
  let (tr, c5) := (m_authtrans (num_wire_blocks * (2 * K + 1)) ;; m_authtrans (2 * num_gate_blocks * (2 * K + 1))) c4 in
  let num_plaintext_selection_mult := num_and_blocks * (3 * (K + 1) + 1) + num_xor_blocks * (K + 1) in
  let (pl, c6) := m_authmult num_plaintext_selection_mult c5 in
  let (ct, c7) := m_authmult (4 * num_gate_blocks * M) c6 in
  let (ver, c8) := (m_checkcons ;; m_checkmac ;; m_checkzero) c7 in
  let r := allshare p (ceil (q_rand c8) (e_n p - e_t p)) in
  let z := allshare p (ceil (q_zero c8) (e_n p - e_t p)) in
  let b := allshare p (ceil (q_bitrand c8) (e_binsup_dim p)) in
  let k := mackeygen_comm (q_mackey c8) in
  MReport tr pl ct ver (tr + pl + ct + ver) mackeys keys masks errors r z b k
          (mackeys + keys + masks + errors + r + z + b + k) c8.

End Communication.

(** ** scripts/computation_estimates.py *)

Local Open Scope Z_scope.

(** [np.array([additions, multiplications])].  computation_estimates.py:50, 60, 65,
    76, 80. *)
Record ops := Ops { adds : Z; mults : Z }.
(** computation_estimates.py:98, 110: [+] on arrays. *)
Definition oplus (a b : ops) : ops := Ops (adds a + adds b) (mults a + mults b).
(** computation_estimates.py:50, 60: a number times an array. *)
Definition oscale (k : Z) (a : ops) : ops := Ops (k * adds a) (k * mults a).
(** computation_estimates.py:91, 103, 115, 147. *)
Definition zero_ops : ops := Ops 0 0.
Infix "+o" := oplus (at level 50, left associativity).
Infix "*o" := oscale (at level 40, left associativity).

(** The counters of [ProtoCtr] (computation_estimates.py:33-41). *)
Record cctr := CCtr { cq : counts; ncons : Z; nmac : Z; nzero : Z }.

Definition pmeth : Type := cctr -> ops * cctr.
Definition pseq (a b : pmeth) : pmeth := fun c => let (x, c1) := a c in let (y, c2) := b c1 in (x +o y, c2).
Definition pret (x : ops) : pmeth := fun c => (x, c).
Notation "a ;> b" := (pseq a b) (at level 52, left associativity).

Section Computation.
Variable mp : mparams.
Notation p := (base mp).
Notation n := (Z.of_nat (e_n p)).
Notation t := (Z.of_nat (e_t p)).
Notation l := (Z.of_nat (e_l p)).
Notation K := (Z.of_nat (e_key_len p)).
Notation M := (Z.of_nat (e_ctx_len p)).
Notation "'#' x" := (Z.of_nat x) (at level 1, format "# x").

(** computation_estimates.py:43-60: [rand_share] and [share]; [degree] is [None] when
    not given, and the degree 0 counts as not given ([if not degree]). *)
Definition the_degree (degree : option Z) : Z :=
  match degree with Some d => if d =? 0 then t + l - 1 else d | None => t + l - 1 end.
Definition p_rand_share (num : Z) (degree : option Z) : ops :=
  let d := the_degree degree in let num_interp := n - d - 1 in
  num *o Ops (num_interp * d) (num_interp * (d + 1)).
Definition p_share (num : Z) (degree : option Z) : ops :=
  let d := the_degree degree in let num_interp := n + l - d - 1 in
  num *o Ops (num_interp * d) (num_interp * (d + 1)).

(** computation_estimates.py:62-87. *)
Definition p_recon (num : Z) : ops := num *o Ops (l * (n - 1)) (l * n).
Definition p_robustrecon (num : Z) : ops :=
  let d := t + l - 1 in let num_interp := n - d - 1 + l in
  num *o Ops (num_interp * d) (num_interp * (d + 1)).
Definition p_select (num : Z) : ops := num *o Ops (l - 1) l.
Definition p_ecc (num : Z) : ops := num * M *o Ops K (K + 1).

(** computation_estimates.py:89-91, 101-103, 113-115, 145-147. *)
Definition on_counts (f : counts -> counts) : pmeth := fun c => (zero_ops, CCtr (f (cq c)) (ncons c) (nmac c) (nzero c)).
Definition p_rand (num : nat) : pmeth :=
  on_counts (fun c => Counts (q_rand c + num) (q_zero c) (q_bitrand c) (q_mackey c)).
Definition p_zero (num : nat) : pmeth :=
  on_counts (fun c => Counts (q_rand c) (q_zero c + num) (q_bitrand c) (q_mackey c)).
Definition p_bitrand (num : nat) : pmeth :=
  on_counts (fun c => Counts (q_rand c) (q_zero c) (q_bitrand c + num) (q_mackey c)).
Definition p_mackeygen (num : nat) : pmeth :=
  on_counts (fun c => Counts (q_rand c) (q_zero c) (q_bitrand c) (q_mackey c + num)).

(** [self.ncons += ...], [self.nmac += ...], [self.nzero += ...].
    computation_estimates.py:173, 181, 185. *)
Definition add_cons (num : nat) : pmeth := fun c => (zero_ops, CCtr (cq c) (ncons c + #num) (nmac c) (nzero c)).
(** computation_estimates.py:174, 186. *)
Definition add_mac (num : nat) : pmeth := fun c => (zero_ops, CCtr (cq c) (ncons c) (nmac c + #num) (nzero c)).
(** computation_estimates.py:198. *)
Definition add_zero (num : nat) : pmeth := fun c => (zero_ops, CCtr (cq c) (ncons c) (nmac c) (nzero c + #num)).

(** computation_estimates.py:93-99, 105-111, 117-124, 149-158. *)
Definition rand_comp (num : nat) : ops :=
  let batches := #(ceil num (e_n p - e_t p)) in
  p_rand_share batches None +o (batches * (n - t)) *o Ops (n - 1) n.
Definition zero_comp (num : nat) : ops :=
  let batches := #(ceil num (e_n p - e_t p)) in
  p_share batches (Some (n - 1)) +o (batches * (n - t)) *o Ops (n - 1) n.
Definition bitrand_comp (num : nat) : ops :=
  let batches := #(ceil num (e_binsup_dim p)) in
  p_share batches None +o (batches * #(e_binsup_dim p)) *o Ops (n - 1) n.
Definition mackeygen_comp (num : nat) : ops :=
  let batches := #(ceil num (2 * e_l p)) in
  p_share batches None +o (batches * n) *o Ops (n - 1) n +o p_robustrecon batches.

(** computation_estimates.py:126-129: degree reductions are spread over the parties. *)
Definition p_degreduce (num : nat) : ops :=
  let share := #((num + e_n p - 1) %/ e_n p) in p_recon share +o p_share share None.

(** computation_estimates.py:131-143. *)
Definition p_randshare (num : nat) : pmeth :=
  let batches := ceil num (e_l p) in let d := t + l - 1 in
  p_zero (batches * 2 * e_n p) ;> p_rand (batches * (e_n p + e_t p)) ;>
  pret (#batches * l *o Ops (n - 1) n) ;> pret (#batches * (n + l - d - 1) *o Ops d (d + 1)) ;>
  pret (p_recon (2 * #batches)).

(** computation_estimates.py:160-162. *)
Definition p_coin : pmeth :=
  let num := ceil 128 (e_field_bits p) in p_rand num ;> pret (p_robustrecon #num).

(** computation_estimates.py:164-187. *)
Definition p_mult (num : nat) : pmeth :=
  p_rand num ;> p_zero num ;> pret (#num *o Ops 3 1) ;> pret (p_degreduce num).
Definition p_authmult (num : nat) : pmeth :=
  add_cons (num * (lenmac mp + 1)) ;> add_mac num ;> p_mult ((lenmac mp + 1) * num).
Definition p_trans (num : nat) : pmeth := p_randshare num ;> pret (#num *o Ops 2 0) ;> pret (p_degreduce num).
Definition p_authtrans (num : nat) : pmeth :=
  add_cons (num * (lenmac mp + 1)) ;> p_trans ((lenmac mp + 1) * num).
Definition p_auth (num : nat) : pmeth :=
  add_cons (num * lenmac mp) ;> add_mac num ;> p_mult (lenmac mp * num).

(** computation_estimates.py:189-209. *)
Definition p_error (num : nat) : pmeth :=
  p_bitrand (num * e_noise p) ;> p_mult (num * (e_noise p - 1)) ;> p_rand num ;> p_mult num.
Definition p_checkbit (num : nat) : pmeth := add_zero num ;> p_authmult num ;> pret (#num *o Ops 1 0).
Definition p_autherror (num : nat) : pmeth :=
  p_bitrand (num * e_noise p) ;> p_auth (num * e_noise p) ;> p_checkbit (num * e_noise p) ;>
  p_authmult (num * (e_noise p - 1)) ;> p_rand num ;> p_mult (num * (lenmac mp + 1)).

(** computation_estimates.py:211-235. *)
Definition p_checkcons : pmeth := fun c =>
  let m := ncons c in let k := #(lencheck mp) in
  (p_rand (lencheck mp) ;> p_coin ;> pret (k *o Ops m (m + 1)) ;> pret (p_robustrecon k)) c.
Definition p_checkmac : pmeth := fun c =>
  let m := nmac c in let k := #(lenmac mp) in
  (p_coin ;> pret (p_robustrecon k) ;> pret (2 * k *o Ops (m - 1) m) ;> pret (Ops 1 1) ;> pret (p_robustrecon k)) c.
Definition p_checkzero : pmeth := fun c =>
  let m := nzero c in let k := #(lencheck mp) in
  (p_coin ;> pret (p_robustrecon k) ;> pret (k *o Ops (m - 1) m)) c.

Record preport := PReport {
  pr_transform : ops; pr_plaintexts : ops; pr_ciphertexts : ops; pr_verification : ops; pr_garbling : ops;
  pr_mackeys : ops; pr_keys : ops; pr_masks : ops; pr_errors : ops;
  pr_rand : ops; pr_zero : ops; pr_bitrand : ops; pr_mackeygen : ops; pr_preproc : ops; pr_counts : counts }.

Definition start : cctr := CCtr (Counts 0 0 0 0) 0 0 0.

(** computation_estimates.py:270-351 [malicious_protocol] and 237-253. *)
Definition malicious_comp (num_inp num_and num_xor : nat) : preport :=
  let K' := e_key_len p in let M' := e_ctx_len p in
  let num_and_blocks := ceil num_and (e_l p) in
  let num_xor_blocks := ceil num_xor (e_l p) in
  let num_wire_blocks := (ceil num_inp (e_l p) + num_and_blocks + num_xor_blocks)%N in
  let num_gate_blocks := (num_and_blocks + num_xor_blocks)%N in
  let (mackeys, c1) := p_mackeygen (lenmac mp) start in
  let (keys, c2) := (p_rand (num_wire_blocks * 2 * K') ;> add_cons (num_wire_blocks * 2 * K') ;>
                     p_auth (num_wire_blocks * 2 * K')) c1 in
  let (masks, c3) := (p_bitrand num_wire_blocks ;> add_cons num_wire_blocks ;> p_auth num_wire_blocks ;>
                      p_checkbit num_wire_blocks) c2 in
  let (errors, c4) := p_autherror (num_gate_blocks * 4 * M') c3 in
  let (tr, c5) := (p_authtrans (num_wire_blocks * (2 * K' + 1)) ;>
                   pret (p_select #(2 * num_gate_blocks * (2 * K' + 1))) ;>
                   p_authtrans (2 * num_gate_blocks * (2 * K' + 1)) ;>
                   add_mac (2 * num_gate_blocks + 2 * num_gate_blocks * 2 * K')) c4 in
  let num_plaintext_selection_mult := (num_and_blocks * (3 * (K' + 1) + 1) + num_xor_blocks * (K' + 1))%N in
  let (pl, c6) := (p_authmult num_plaintext_selection_mult ;> pret (#num_and_blocks *o Ops 7 0) ;>
                   pret (#num_xor_blocks *o Ops 4 0) ;> pret (#(num_gate_blocks * 4 * K') *o Ops 2 0)) c5 in
  let (ct, c7) := (pret (p_ecc #(4 * num_gate_blocks)) ;> pret (#(4 * num_gate_blocks * M') *o Ops (K + 1) K) ;>
                   p_authmult (4 * num_gate_blocks * M')) c6 in
  let (ver, c8) := (p_checkcons ;> p_checkmac ;> p_checkzero) c7 in
  let q := cq c8 in
  let r := rand_comp (q_rand q) in let z := zero_comp (q_zero q) in
  let b := bitrand_comp (q_bitrand q) in let k := mackeygen_comp (q_mackey q) in
  PReport tr pl ct ver (tr +o pl +o ct +o ver) mackeys keys masks errors r z b k
          (mackeys +o keys +o masks +o errors +o r +o z +o b +o k) q.

(** computation_estimates.py:354-421 [semihon_protocol]. *)
Definition semihon_comp (num_inp num_and num_xor : nat) : preport :=
  let K' := e_key_len p in let M' := e_ctx_len p in
  let num_and_blocks := ceil num_and (e_l p) in
  let num_xor_blocks := ceil num_xor (e_l p) in
  let num_wire_blocks := (ceil num_inp (e_l p) + num_and_blocks + num_xor_blocks)%N in
  let num_gate_blocks := (num_and_blocks + num_xor_blocks)%N in
  let (keys, c1) := p_rand (num_wire_blocks * 2 * K') start in
  let (masks, c2) := p_bitrand num_wire_blocks c1 in
  let (errors, c3) := p_error (num_gate_blocks * 4 * M') c2 in
  let (tr, c4) := (p_trans (num_wire_blocks + num_wire_blocks * 2 * K') ;>
                   pret (p_select #(2 * num_gate_blocks + 2 * num_gate_blocks * 2 * K')) ;>
                   p_trans (2 * num_gate_blocks + 2 * num_gate_blocks * 2 * K')) c3 in
  let num_plaintext_selection_mult := (num_and_blocks * (3 * (K' + 1) + 1) + num_xor_blocks * (K' + 1))%N in
  let (pl, c5) := (p_mult num_plaintext_selection_mult ;> pret (#num_and_blocks *o Ops 7 0) ;>
                   pret (#num_xor_blocks *o Ops 4 0) ;> pret (#(num_gate_blocks * 4 * K') *o Ops 2 0)) c4 in
  let (ct, c6) := (pret (p_ecc #(4 * num_gate_blocks)) ;> pret (#(4 * num_gate_blocks * M') *o Ops (K + 1) K)) c5 in
  let q := cq c6 in
  let r := rand_comp (q_rand q) in let z := zero_comp (q_zero q) in let b := bitrand_comp (q_bitrand q) in
  PReport tr pl ct zero_ops (tr +o pl +o ct) zero_ops keys masks errors r z b zero_ops
          (keys +o masks +o errors +o r +o z +o b) q.

End Computation.

(** Model of the C log-table library (extern/galois/galois.c) and of [GF<W>]
    (src/math/galois/mod.rs).

    C [int]s are [Z] with an explicit check that index arithmetic stays in the
    32-bit range; Rust [u32]s are [N].  Undefined behaviour (out-of-bounds or
    NULL table access, reading an uninitialised cell, signed overflow) is the
    explicit result [UB]; [exit(1)] is [Exit1]; [return -1] is [Fail]. *)

From Coq Require Import ZArith NArith List Bool.
Import ListNotations.
Local Open Scope Z_scope.

Inductive cres (A : Type) : Type :=
| Done (a : A)
| Fail
| Exit1
| UB.
Arguments Done {A} a.
Arguments Fail {A}.
Arguments Exit1 {A}.
Arguments UB {A}.

Definition cbind {A B} (m : cres A) (k : A -> cres B) : cres B :=
  match m with
  | Done a => k a
  | Fail => Fail
  | Exit1 => Exit1
  | UB => UB
  end.

(** galois.c:42-75 [prim_poly] (octal literals of the source converted to
    decimal); entry 0 and entries above 30 are never used by
    [galois_create_log_tables]. *)
Definition prim_poly_table : list N :=
  [ 0; 1; 7; 11; 19; 37; 67; 137; 285; 529; 1033; 2053; 4179; 8219; 17475;
    32771; 69643; 131081; 262273; 524327; 1048585; 2097157; 4194307; 8388641;
    16777351; 33554441; 67108935; 134217767; 268435465; 536870917;
    1082130439 ]%N.

Definition prim_poly (w : N) : N := nth (N.to_nat w) prim_poly_table 0%N.

(** galois.c:111-116 [nw] for 1 <= w <= 30. *)
Definition nw (w : N) : N := N.shiftl 1 w.

(** galois.c:118-123 [nwm1] for 1 <= w <= 30. *)
Definition nwm1 (w : N) : N := (nw w - 1)%N.

(** A malloc'ed int array seen through a possibly shifted pointer: valid indices are
    [t_lo <= i < t_hi]; [None] cells are uninitialised.  galois.c:126-133, 152,
    155. *)
Record table := mkTable { t_lo : Z; t_hi : Z; t_cell : Z -> option Z }.

(** galois.c:189-210: the range of [int]. *)
Definition int_ok (z : Z) : bool := (- 2 ^ 31 <=? z) && (z <? 2 ^ 31).

(** C array read [t[i]].  galois.c:169, 180-181, 193, 196, 206, 208. *)
Definition tread (t : table) (i : Z) : cres Z :=
  if int_ok i && (t_lo t <=? i) && (i <? t_hi t) then
    match t_cell t i with Some v => Done v | None => UB end
  else UB.

(** C array write [t[i] = v].  galois.c:163-164, 174-175, 180-181. *)
Definition twrite (t : table) (i v : Z) : cres table :=
  if int_ok i && (t_lo t <=? i) && (i <? t_hi t) then
    Done (mkTable (t_lo t) (t_hi t)
                  (fun k => if k =? i then Some v else t_cell t k))
  else UB.

(** [malloc(sizeof(int)*size)].  galois.c:152, 155. *)
Definition tmalloc (size : Z) : table := mkTable 0 size (fun _ => None).

(** Pointer increment [t += k].  galois.c:183. *)
Definition tshift (t : table) (k : Z) : table :=
  mkTable (t_lo t - k) (t_hi t - k) (fun i => t_cell t (i + k)).

(** [for (j = from; j < from+n; j++) body].  galois.c:162, 168, 179. *)
Fixpoint cfor {S} (n : nat) (j : Z) (body : Z -> S -> cres S) (s : S) : cres S :=
  match n with
  | O => Done s
  | S n' => cbind (body j s) (cfor n' (j + 1) body)
  end.

(** galois.c:175-176: one step of the generator loop,
    [b = b << 1; if (b & nw[w]) b = (b ^ prim_poly[w]) & nwm1[w];] *)
Definition c_step (w : N) (b : N) : N :=
  let b2 := N.shiftl b 1 in
  if N.eqb (N.land b2 (nw w)) 0 then b2
  else N.land (N.lxor b2 (prim_poly w)) (nwm1 w).

(** galois.c:161-164: first initialisation loop body. *)
Definition init_body (w : N) (j : Z) (s : table * table) : cres (table * table) :=
  let '(lg, il) := s in
  cbind (twrite lg j (Z.of_N (nwm1 w))) (fun lg' =>
  cbind (twrite il j 0) (fun il' => Done (lg', il'))).

(** galois.c:167-177: generator loop body; the state also carries [b]. *)
Definition gen_body (w : N) (j : Z) (s : table * table * N) : cres (table * table * N) :=
  let '(lg, il, b) := s in
  cbind (tread lg (Z.of_N b)) (fun v =>
  if negb (v =? Z.of_N (nwm1 w)) then Exit1 else
  cbind (twrite lg (Z.of_N b) j) (fun lg' =>
  cbind (twrite il j (Z.of_N b)) (fun il' =>
  Done (lg', il', c_step w b)))).

(** galois.c:178-181: replication loop body. *)
Definition rep_body (w : N) (j : Z) (il : table) : cres table :=
  let m := Z.of_N (nwm1 w) in
  cbind (tread il j) (fun v =>
  cbind (twrite il (j + m) v) (fun il1 =>
  cbind (tread il1 j) (fun v2 =>
  twrite il1 (j + m * 2) v2))).

(** galois.c:146-185 [galois_create_log_tables] when no table for [w] exists
    yet.  [m1], [m2]: whether the two mallocs succeed.  For w = 0 the source
    has nw[0] = nwm1[0] = 0, which the [w =? 0] case reproduces: nothing is
    written and 0 is returned. *)
Definition create_log_tables (m1 m2 : bool) (w : N) : cres (table * table) :=
  if (30 <? w)%N then Fail else
  if negb m1 then Fail else
  if negb m2 then Fail else
  if (w =? 0)%N then Done (tmalloc 0, tmalloc 0) else
  let m := Z.of_N (nwm1 w) in
  cbind (cfor (N.to_nat (nw w)) 0 (init_body w)
              (tmalloc (Z.of_N (nw w)), tmalloc (Z.of_N (nw w) * 3))) (fun s1 =>
  cbind (cfor (N.to_nat (nwm1 w)) 0 (gen_body w) (s1, 1%N)) (fun s2 =>
  let '(lg, il, _) := s2 in
  cbind (cfor (N.to_nat (nwm1 w)) 0 (rep_body w) il) (fun il' =>
  Done (lg, tshift il' m)))).

(** galois.c:187-197 [galois_logtable_multiply]; [tb] is the pair of tables
    of the width in use ([None] = NULL). *)
Definition logtable_multiply (tb : option (table * table)) (x y : Z) : cres Z :=
  if (x =? 0) || (y =? 0) then Done 0 else
  match tb with
  | None => UB
  | Some (lg, il) =>
      cbind (tread lg x) (fun lx =>
      cbind (tread lg y) (fun ly =>
      tread il (lx + ly)))
  end.

(** galois.c:199-210 [galois_logtable_divide]. *)
Definition logtable_divide (tb : option (table * table)) (x y : Z) : cres Z :=
  if y =? 0 then Done (-1) else
  if x =? 0 then Done 0 else
  match tb with
  | None => UB
  | Some (lg, il) =>
      cbind (tread lg x) (fun lx =>
      cbind (tread lg y) (fun ly =>
      tread il (lx - ly)))
  end.

(** Rust [as i32] on a u32, and [as u32] on an i32.  galois/mod.rs:81, 89, 235,
    243. *)
Definition as_i32 (v : N) : Z :=
  let z := Z.of_N v mod 2 ^ 32 in if z <? 2 ^ 31 then z else z - 2 ^ 32.
(** galois/mod.rs:81, 89, 235, 243. *)
Definition as_u32 (z : Z) : N := Z.to_N (z mod 2 ^ 32).

(** Process-global state touched by [GF<W>]: the C tables (one slot per
    width), the [Once] of galois/mod.rs:37 and the [OnceLock] of
    galois/mod.rs:30.  The two statics live inside a generic impl and are
    therefore a single cell each, shared by all widths.  [g_dist] stores the
    exclusive upper bound of the uniform distribution. *)
Record gstate := mkG {
  g_tabs : N -> option (table * table);
  g_once : bool;
  g_dist : option N
}.

(** State at process start.  galois.c:126-133: all tables NULL. *)
Definition g_start : gstate := mkG (fun _ => None) false None.

(** galois/mod.rs:18 [ORDER], as a mathematical integer. *)
Definition gf_order (w : N) : N := (2 ^ w)%N.

(** galois/mod.rs:21 [NUM_BYTES]. *)
Definition gf_num_bytes (w : N) : N := ((w + 7) / 8)%N.

(** galois.c:150-151: [galois_create_log_tables] including the early return
    when the table already exists. *)
Definition create_log_tables_g (m1 m2 : bool) (w : N) (g : gstate) : cres gstate :=
  if (30 <? w)%N then Fail else
  match g_tabs g w with
  | Some _ => Done g
  | None =>
      cbind (create_log_tables m1 m2 w) (fun tb =>
      Done (mkG (fun v => if (v =? w)%N then Some tb else g_tabs g v)
                (g_once g) (g_dist g)))
  end.

(** galois/mod.rs:36-52 [GF::<W>::init].  The boolean result is [is_ok()].
    [call_once] runs the closure only if no call (of any width) ran before. *)
Definition gf_init (m1 m2 : bool) (w : N) (g : gstate) : cres (gstate * bool) :=
  if g_once g then Done (g, true) else
  match create_log_tables_g m1 m2 w g with
  | Done g' => Done (mkG (g_tabs g') true (g_dist g'), true)
  | Fail => Done (mkG (g_tabs g) true (g_dist g), false)
  | Exit1 => Exit1
  | UB => UB
  end.

(** galois/mod.rs:55-57 [GF::rand] with 29-33 [get_dist].  [coin bound] is the
    sample drawn by the generator from the uniform distribution on 0..bound. *)
Definition gf_rand (w : N) (coin : N -> N) (g : gstate) : N * gstate :=
  match g_dist g with
  | Some b => (coin b, g)
  | None => (coin (2 ^ w)%N, mkG (g_tabs g) (g_once g) (Some (2 ^ w)%N))
  end.

(** galois/mod.rs:131-180 [Add]/[AddAssign] (all four variants). *)
Definition gf_add (a b : N) : N := N.lxor a b.

(** galois/mod.rs:182-230 [Sub]/[SubAssign]: delegates to addition. *)
Definition gf_sub (a b : N) : N := gf_add a b.

(** galois/mod.rs:78-129 [Mul]/[MulAssign]; the variants that swap operands
    (lines 122-129) multiply [b] by [a]. *)
Definition gf_mul (g : gstate) (w : N) (a b : N) : cres N :=
  cbind (logtable_multiply (g_tabs g w) (as_i32 a) (as_i32 b)) (fun z => Done (as_u32 z)).

(** galois/mod.rs:232-284 [Div]/[DivAssign]. *)
Definition gf_div (g : gstate) (w : N) (a b : N) : cres N :=
  cbind (logtable_divide (g_tabs g w) (as_i32 a) (as_i32 b)) (fun z => Done (as_u32 z)).

(** galois/mod.rs:60-70 [From<u32>]. *)
Definition gf_from (g : gstate) (w : N) (v : N) : cres N :=
  if (gf_order w <=? v)%N then gf_mul g w v 1 else Done v.

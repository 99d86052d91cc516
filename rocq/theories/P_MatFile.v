(** Property theorems C52: loading the binary super-invertible matrix. *)

From Coq Require Import NArith.
From mathcomp Require Import all_ssreflect all_algebra zify.
From Verif Require Import MathModel MatFileModel PreprocSpec GFField P_Math.
Set Implicit Arguments.
Unset Strict Implicit.
Unset Printing Implicit Defensive.
Import GRing.Theory.
Local Open Scope ring_scope.

(** ** Texts of matrices *)

(** The line of a row: 0 (48) or 1 (49) for every entry, one space (32) between. *)
Definition digit (b : bool) : N := if b then 49%num else 48%num.
Definition row_text (r : seq bool) : seq N :=
  if r is b :: r' then digit b :: flatten [seq [:: 32%num; digit x] | x <- r'] else [::].

(** A line ends with line feed or carriage return and line feed; the last one
    may have no end. *)
Definition ends_ok (es : seq (seq N)) : bool :=
  all (fun e => e \in [:: [:: 10]; [:: 13; 10]]%num) (take (size es).-1 es) &&
  (last [::] es \in [:: [::]; [:: 10]; [:: 13; 10]]%num).

Definition matrix_text (m : seq (seq bool)) (es : seq (seq N)) : seq N :=
  flatten [seq row_text x.1 ++ x.2 | x <- zip m es].

(** ** Splitting *)

Lemma split_on_nil c t : split_on c t != [::].
Proof. by case: t => //= x t; case: ifP. Qed.

Lemma split_on_free c p : c \notin p -> split_on c p = [:: p].
Proof. elim: p => //= x p IH. rewrite inE negb_or eq_sym => /andP [/negPf -> /IH ->] //. Qed.

Lemma split_on_cat c p t : c \notin p -> split_on c (p ++ c :: t) = p :: split_on c t.
Proof.
  elim: p => [|x p IH] /=; first by rewrite eqxx.
  rewrite inE negb_or eq_sym => /andP [/negPf -> /IH -> //].
Qed.

(** A text is a piece without the character, or such a piece, the character and
    another text. *)
Lemma split_case (c : N) (t : seq N) : (c \notin t) \/ exists p t', [/\ c \notin p, t = p ++ c :: t' & (size t' < size t)%N].
Proof.
  elim: t => [|x t IH]; first by left.
  case: (x =P c) => [->|Hx]; first by right; exists [::], t.
  case: IH => [H|[p [t' [H1 -> H2]]]].
  - left. rewrite inE negb_or H andbT. by apply/eqP => E; apply: Hx.
  - right. exists (x :: p), t'. rewrite inE negb_or H1 andbT. split=> //; first by apply/eqP => E; apply: Hx.
    rewrite /= size_cat /=. lia.
Qed.

Lemma lines_step p t : 10%num \notin p -> file_lines (p ++ 10%num :: t) = strip_cr p :: file_lines t.
Proof.
  move=> Hp. rewrite /file_lines split_on_cat // [LHS]/=.
  by have := split_on_nil 10 t; case: (split_on 10 t).
Qed.

Lemma strip_cr_free p : 13%num \notin p -> strip_cr p = p.
Proof. rewrite /strip_cr. case: eqP => // E. case: p E => [|x p] //= E. by rewrite -E mem_last. Qed.

Lemma strip_cr_rcons p : strip_cr (rcons p 13%num) = p.
Proof. by rewrite /strip_cr last_rcons eqxx size_rcons -cats1 take_size_cat. Qed.

Lemma strip_cr_cases p : p = strip_cr p \/ p = strip_cr p ++ [:: 13%num].
Proof.
  case: (lastP p) => [|q x]; first by left.
  case: (x =P 13%num) => [->|Hx]; first by right; rewrite strip_cr_rcons cats1.
  left. rewrite /strip_cr last_rcons. by case: eqP.
Qed.

(** ** Lines of a matrix *)

Lemma digit_free b (c : N) : c \notin [:: 48; 49]%num -> c != digit b.
Proof. by rewrite !inE negb_or => /andP [H1 H2]; case: b. Qed.

Lemma row_text_free r (c : N) : c \notin [:: 32; 48; 49]%num -> c \notin row_text r.
Proof.
  move=> Hc. have Hd : c \notin [:: 48; 49]%num by move: Hc; rewrite !inE !negb_or => /andP [].
  have Hs : c != 32%num by move: Hc; rewrite !inE !negb_or => /andP [].
  case: r => //= b r. rewrite inE negb_or digit_free //=. apply/flattenP => -[s /mapP [x _ ->]].
  by rewrite !inE (negPf Hs) (negPf (digit_free x Hd)).
Qed.

Section Load.
Variable F : fieldType.

Lemma split_row b r : split_on 32 (row_text (b :: r)) = [seq [:: digit x] | x <- b :: r].
Proof.
  rewrite /=. elim: r b => [|y r IH] b /=; first by case: b.
  have E : split_on 32 (digit y :: flatten [seq [:: 32%num; digit x] | x <- r]) = [seq [:: digit x] | x <- y :: r] by rewrite /= IH.
  move: E => /= ->. by case: b.
Qed.

Lemma bin_line_row r : r != [::] -> bin_line F (row_text r) = Some [seq (b : bool)%:R | b <- r].
Proof.
  case: r => // b r _. rewrite /bin_line split_row. move: (b :: r) => s {b r}. elim: s => //= b s.
  case: (all_some _) => // v [->]. by case: b.
Qed.

Lemma bin_line_inv l v : bin_line F l = Some v -> exists r : seq bool, [/\ r != [::], l = row_text r & v = [seq (b : bool)%:R | b <- r]].
Proof.
  rewrite /bin_line. elim: {l}(size l).+1 {-2}l (ltnSn (size l)) v => // m IH l Hl v.
  case: (split_case 32 l) => [H|[p [t' [H1 E Ht]]]].
  - rewrite split_on_free //= /bin_token. case: (l =P _) => [-> [<-]|_]; first by exists [:: false].
    case: (l =P _) => [-> [<-]|//]. by exists [:: true].
  - rewrite E split_on_cat //=. have Hm : (size t' < m)%N by apply: leq_trans Ht _.
    have X := IH t' Hm. rewrite /bin_token.
    case: (p =P _) => [->|_]; [|case: (p =P _) => [->|//]];
      case: (all_some _) X => [w|] //= /(_ _ erefl) [r [Hr -> ->]] [<-];
      [exists (false :: r)|exists (true :: r)]; split=> //; by case: r Hr.
Qed.

(** ** The file *)

Lemma all_some_cons (A B : Type) (f : A -> option B) x s :
  all_some [seq f y | y <- x :: s] = if f x is Some a then omap (cons a) (all_some [seq f y | y <- s]) else None.
Proof. by []. Qed.

Lemma read_rows m es : size m = size es -> all (fun r => r != [::]) m -> ends_ok es ->
  all_some [seq bin_line F l | l <- file_lines (matrix_text m es)] = Some [seq [seq (b : bool)%:R | b <- r] | r <- m].
Proof.
  elim: m es => [|r m IH] [|e es] //= [Hs] /andP [Hr Hm]. rewrite /ends_ok /matrix_text /= => /andP [He Hl].
  rewrite -/(matrix_text m es).
  have F10 : 10%num \notin row_text r by exact: row_text_free.
  have F13 : 13%num \notin row_text r by exact: row_text_free.
  have [E|Hne] : (es = [::] /\ e = [::]) \/ e \in [:: [:: 10]; [:: 13; 10]]%num.
  { case: es Hs He Hl {IH} => [|e' es] Hs /=; last by move=> /andP [] *; right.
    rewrite [_ \in [:: [::] & _]]inE => _ /orP [/eqP ->|]; [by left|by right]. }
  - case: E Hs => -> -> /size0nil ->. rewrite /matrix_text /= !cats0 /file_lines split_on_free //.
    case: r Hr {F10 F13} => // b r Hr. by rewrite -[lines_of _]/([:: row_text (b :: r)]) /= -[_ :: _]/(row_text (b :: r)) bin_line_row.
  - have Ees : ends_ok es.
    { case: es Hs He Hl {IH} => [|e' es] // Hs /=. rewrite /ends_ok /= => /andP [_ ->] ->. by []. }
    have -> : file_lines ((row_text r ++ e) ++ matrix_text m es) = row_text r :: file_lines (matrix_text m es).
    { move: Hne. rewrite !inE => /orP [] /eqP ->; rewrite -catA.
      - by rewrite lines_step // strip_cr_free.
      - rewrite -cat1s -[[:: 13%num, 10%num & [::]] ++ _]/([:: 13%num] ++ 10%num :: _) catA lines_step.
        + by rewrite cats1 strip_cr_rcons.
        + by rewrite mem_cat negb_or F10. }
    rewrite all_some_cons bin_line_row // IH //.
Qed.

Lemma read_inv t rs : all_some [seq bin_line F l | l <- file_lines t] = Some rs ->
  exists m es, [/\ size m = size es, all (fun r => r != [::]) m, ends_ok es, t = matrix_text m es &
                   rs = [seq [seq (b : bool)%:R | b <- r] | r <- m]].
Proof.
  elim: {t}(size t).+1 {-2}t (ltnSn (size t)) rs => // k IH t Ht rs.
  case: (split_case 10 t) => [H|[p [t' [H1 E Hs]]]].
  - rewrite /file_lines split_on_free //. case: t Ht H => [|x t] Ht H; first by move=> [<-]; exists [::], [::].
    rewrite [lines_of _]/= all_some_cons. case El : (bin_line F (x :: t)) => [v|] //= [<-].
    have [r [Hr -> ->]] := bin_line_inv El. exists [:: r], [:: [::]]. by rewrite /matrix_text /= !cats0 Hr.
  - rewrite E lines_step // all_some_cons. case El : (bin_line F _) => [v|] //.
    case Er : (all_some _) => [rs'|] //= [<-].
    have [m [es [Sm Hm He -> ->]]] := IH t' (leq_trans Hs Ht) rs' Er.
    have [r [Hr Es ->]] := bin_line_inv El.
    have [e [He' Ep]] : exists e, e \in [:: [:: 10]; [:: 13; 10]]%num /\ p ++ 10%num :: matrix_text m es = (row_text r ++ e) ++ matrix_text m es.
    { case: (strip_cr_cases p); rewrite Es => ->; [exists [:: 10%num]|exists [:: 13%num; 10%num]]; by rewrite -!catA. }
    exists (r :: m), (e :: es). rewrite /= Sm Hr Hm. split=> //.
    rewrite /ends_ok /=. case: es Sm He {Ep} => [|e' es] Sm /=.
    + move=> _. move: He'. rewrite !inE. by move=> /orP [] ->; rewrite ?orbT.
    + rewrite He'. by rewrite /ends_ok /= => /andP [-> ->].
Qed.
End Load.

(** ** C52 *)

(** A file is accepted exactly if it is the text of a nonempty list of nonempty
    rows of bits whose total number is a multiple [c] of the number [r] of rows;
    the result has [c] rows and [r] columns, and its entry (i,j) is bit number
    [j * c + i] of the file. *)
Theorem C52_loads_exactly : forall (F : fieldType) (t : seq N) (m : mat F),
  binary_super_inv_matrix F t = Some m <->
  exists (bs : seq (seq bool)) es c,
    [/\ size bs = size es, bs <> [::], all (fun r => r != [::]) bs, ends_ok es & t = matrix_text bs es] /\
    size (flatten bs) = (size bs * c)%N /\
    [/\ ncols m = size bs, size (rows m) = c, forall i, (i < c)%N -> size (nth [::] (rows m) i) = size bs &
        forall i j, (i < c)%N -> (j < size bs)%N -> entry m i j = (nth false (flatten bs) (j * c + i))%:R].
Proof.
  move=> F t m. rewrite /binary_super_inv_matrix.
  have Core (bs : seq (seq bool)) c : (0 < size bs)%N -> size (flatten bs) = (size bs * c)%N ->
    let rs := [seq [seq (b : bool)%:R : F | b <- r] | r <- bs] in
    exists m', (if size rs == 0%N then None
     else omap (@reversed_axes F) (from_shape_vec (size rs) (size (flatten rs) %/ size rs)%N (flatten rs))) = Some m' /\
     [/\ ncols m' = size bs, size (rows m') = c, forall i, (i < c)%N -> size (nth [::] (rows m') i) = size bs &
        forall i j, (i < c)%N -> (j < size bs)%N -> entry m' i j = (nth false (flatten bs) (j * c + i))%:R].
  { move=> Hb Hs rs. rewrite /rs -map_flatten !size_map Hs mulKn // eqn0Ngt Hb /from_shape_vec size_map Hs eqxx.
    eexists. split; first reflexivity. rewrite /reversed_axes /= !size_map !size_iota. split=> // i.
    - move=> Hi. by rewrite (nth_map 0%N) ?size_iota // !size_map size_iota.
    - move=> j Hi Hj. rewrite /entry (nth_map 0%N) ?size_iota // nth_iota // (nth_map [::]) ?size_map ?size_iota //.
      rewrite (nth_map 0%N) ?size_iota // nth_iota // nth_take // nth_drop add0n (nth_map false) //. rewrite Hs. nia. }
  split.
  - case Er : (all_some _) => [rs|] //= E. have [bs [es [H1 H2 H3 H4 H5]]] := read_inv Er. subst rs.
    have Hb : (0 < size bs)%N by case: (bs) E.
    have Hs : size (flatten bs) = (size bs * (size (flatten bs) %/ size bs))%N.
    { move: E. rewrite -map_flatten !size_map. case: ifP => // _. by rewrite /from_shape_vec size_map; case: eqP. }
    exists bs, es, (size (flatten bs) %/ size bs)%N. split; first by split=> //; case: bs Hb {H1 H2 H4 E Er Hs}.
    split=> //. have [m' [E' P]] := Core bs _ Hb Hs. move: E. rewrite E' => -[<-]. exact: P.
  - move=> [bs [es [c [[H1 H2 H3 H4 ->] [Hs [P1 P2 P3 P4]]]]]]. rewrite read_rows //=.
    have Hb : (0 < size bs)%N by case: bs H2 {H1 H3 H4 Hs P1 P3 P4}.
    have [m' [-> [Q1 Q2 Q3 Q4]]] := Core bs c Hb Hs. congr Some.
    have EE : rows m' = rows m.
    { apply: (@eq_from_nth _ [::]); rewrite ?Q2 ?P2 // => i Hi. apply: (@eq_from_nth _ 0); rewrite ?Q3 ?P3 // => j Hj.
      by rewrite -/(entry m' i j) -/(entry m i j) Q4 ?P4. }
    move: EE. by case: m m' P1 Q1 {P2 P3 P4 Q2 Q3 Q4} => a b [a' b'] /= -> -> ->.
Qed.
Print Assumptions C52_loads_exactly.

(** The text of an [r] by [c] matrix gives its transpose. *)
Theorem C52_transpose : forall (F : fieldType) (bs : seq (seq bool)) es c,
  size bs = size es -> bs <> [::] -> ends_ok es -> (0 < c)%N -> all (fun r => size r == c) bs ->
  exists m : mat F, [/\ binary_super_inv_matrix F (matrix_text bs es) = Some m, ncols m = size bs, size (rows m) = c &
    forall i j, (i < c)%N -> (j < size bs)%N -> entry m i j = (nth false (nth [::] bs j) i)%:R].
Proof.
  move=> F bs es c H1 H2 H3 Hc Hall.
  have Hne : all (fun r => r != [::]) bs.
  { apply: sub_all Hall => r /eqP. case: r => // E. by rewrite -E in Hc. }
  have Hs : size (flatten bs) = (size bs * c)%N.
  { rewrite size_flatten /shape. elim: bs Hall {H1 H2 Hne} => //= r bs IH /andP [/eqP -> /IH ->]. by rewrite mulSn. }
  have Hn i j : (i < c)%N -> (j < size bs)%N -> nth false (flatten bs) (j * c + i) = nth false (nth [::] bs j) i.
  { move=> Hi. elim: bs j Hall {H1 H2 Hne Hs} => //= r bs IH [|j] /andP [/eqP Er Hall] Hj; rewrite nth_cat Er; first by rewrite Hi.
    rewrite ifF; last by lia. rewrite -IH //. congr nth. lia. }
  pose m := Mat (size bs) [seq [seq ((nth false (flatten bs) (j * c + i))%:R : F) | j <- iota 0 (size bs)] | i <- iota 0 c].
  have En i j : (i < c)%N -> (j < size bs)%N -> entry m i j = (nth false (flatten bs) (j * c + i))%:R.
  { move=> Hi Hj. rewrite /entry /m (nth_map 0%N) ?size_iota // nth_iota // (nth_map 0%N) ?size_iota // nth_iota //. }
  exists m. split=> //; last by move=> i j Hi Hj; rewrite En ?Hn.
  - apply/C52_loads_exactly. exists bs, es, c. split=> //. split=> //. split=> // [|i Hi]; first by rewrite size_map size_iota.
    by rewrite (nth_map 0%N) ?size_iota // size_map size_iota.
  - by rewrite size_map size_iota.
Qed.
Print Assumptions C52_transpose.

(** Whatever is loaded is a matrix of bits. *)
Theorem C52_only_bits : forall (F : fieldType) t (m : mat F), binary_super_inv_matrix F t = Some m -> binary m.
Proof.
  move=> F t m /C52_loads_exactly [bs [es [c [_ [_ [H1 H2 H3 H4]]]]]] r Hr y Hy.
  move/(nthP [::]): Hr => [i Hi Er]. move/(nthP 0): Hy => [j Hj Ey]. rewrite H2 in Hi.
  rewrite -Er H3 // in Hj. have := H4 i j Hi Hj. rewrite /entry Er Ey => ->. by case: (nth _ _ _); [right|left].
Qed.
Print Assumptions C52_only_bits.

Lemma all_flat (T : Type) (a : pred T) ss : all a (flatten ss) = all (all a) ss.
Proof. by elim: ss => //= s ss IH; rewrite all_cat IH. Qed.

(** Any other character, and an empty file, panic. *)
Theorem C52_other_characters_panic : forall (F : fieldType) (t : seq N),
  t = [::] \/ ~~ all (fun c => c \in [:: 48; 49; 32; 10; 13]%num) t -> binary_super_inv_matrix F t = None.
Proof.
  move=> F t H. case E: (binary_super_inv_matrix F t) => [m|] //. move/C52_loads_exactly: E => [bs [es [c [[H1 H2 H3 H4 Et] _]]]].
  have Hrow (r : seq bool) : all (fun c => c \in [:: 48; 49; 32; 10; 13]%num) (row_text r).
  { case: r => //= b r. rewrite all_flat all_map. apply/andP. split; first by case: b. by apply/allP => x _ /=; case: x. }
  have Hends : all (all (fun c => c \in [:: 10; 13]%num)) es.
  { move: H4 => /andP [A B]. move: A B. case/lastP: es {H1 Et} => // es e. rewrite size_rcons /= -cats1 take_size_cat // last_cat all_cat /=.
    move=> A B. apply/andP. split; first by apply: sub_all A => x; rewrite !inE => /orP [] /eqP ->.
    by move: B; rewrite !inE andbT => /or3P [] /eqP ->. }
  case: H => [E0|].
  - move: Et. rewrite E0. case: bs H1 H2 H3 => // r bs. case: es {H4 Hends} => // e es _ _ /= /andP [Hr _]. by case: r Hr.
  - rewrite Et /matrix_text all_flat. move/negP. case. elim: bs es Hends {H1 H2 H3 H4 Et} => [|r bs IH] [|e es] //= /andP [He Hes].
    rewrite all_cat Hrow IH // andbT. apply: sub_all He => x. by rewrite !inE => /orP [] /eqP ->.
Qed.
Print Assumptions C52_other_characters_panic.

(** Rows whose lengths do not add up to a multiple of their number are refused... *)
Theorem C52_ragged_panics : forall (F : fieldType) (bs : seq (seq bool)) es,
  size bs = size es -> all (fun r => r != [::]) bs -> ends_ok es -> ~~ (size bs %| size (flatten bs))%N ->
  binary_super_inv_matrix F (matrix_text bs es) = None.
Proof.
  move=> F bs es H1 H2 H3 H4. rewrite /binary_super_inv_matrix read_rows //= -map_flatten !size_map.
  case: eqP => // _. rewrite /from_shape_vec size_map. case: eqP => // E. move: H4. by rewrite E dvdn_mulr.
Qed.
Print Assumptions C52_ragged_panics.

(** ... but other ragged texts are accepted: "every ragged text panics" is false. *)
Theorem C52_every_ragged_panics_refuted : ~ forall (F : fieldType) (bs : seq (seq bool)) es,
  size bs = size es -> all (fun r => r != [::]) bs -> ends_ok es ->
  (forall c, ~~ all (fun r => size r == c) bs) -> binary_super_inv_matrix F (matrix_text bs es) = None.
Proof.
  move=> H. have := H (gf_fieldType w4) [:: [:: true]; [:: false; true; true]] [:: [:: 10]; [:: 10]]%num erefl isT isT.
  have X c : ~~ all (fun r : seq bool => size r == c) [:: [:: true]; [:: false; true; true]] by case: c => [|[|]].
  move=> /(_ X). rewrite /binary_super_inv_matrix read_rows //.
Qed.
Print Assumptions C52_every_ragged_panics_refuted.

Example C52_example :
  let bs := [:: [:: true; false; true]; [:: false; true; true]] in
  let es := [:: [:: 13; 10]; [::]]%num in
  [/\ size bs = size es, ends_ok es, all (fun r => size r == 3%N) bs &
      matrix_text bs es = [:: 49; 32; 48; 32; 49; 13; 10; 48; 32; 49; 32; 49]%num] /\
  ~~ (size (rcons bs [:: true]) %| size (flatten (rcons bs [:: true])))%N.
Proof. by []. Qed.

(** Model of the part of scripts/lpn_param.py that gen_lpn_params.py uses: the
    estimate [analysisforq] of the security of LPN over a large field, with
    [sec_lpn] of gen_lpn_params.py around it.  Numbers are exact reals: the script
    computes with 170 decimal digits and with floating point.  Base two logarithms
    are one function ([x.log10() / log10Two] and [np.log2] in the script).  The
    number of queries [N] is at least the length [k] of the secret, which is at
    least 1, and the size [q] of the field is at least 2. *)

From Coq Require Import ZArith Reals List.
Import ListNotations.
Local Open Scope Z_scope.

(** Numbers as [np.log2] can make them ([np.log2(0)] and [np.log2] of a negative
    number), with Python's comparisons: those with a NaN are false.  lpn_param.py:41,
    436, 445. *)
Inductive num := Fin (x : R) | NInf | NaN.
(** lpn_param.py:383-401: the comparisons of the searches. *)
Definition lt_num (a b : num) : bool :=
  match a, b with
  | Fin x, Fin y => if Rlt_dec x y then true else false
  | NInf, Fin _ => true
  | _, _ => false
  end.
(** lpn_param.py:383-401: the comparisons of the searches. *)
Definition le_num (a b : num) : bool :=
  match a, b with
  | Fin x, Fin y => if Rle_dec x y then true else false
  | NInf, Fin _ => true
  | NInf, NInf => true
  | _, _ => false
  end.
(** lpn_param.py:436, 445. *)
Definition add_num (a : num) (c : R) : num := match a with Fin x => Fin (x + c) | _ => a end.

(** Python's [range(a, b)].  lpn_param.py:21, 383, 395. *)
Definition range (a b : Z) : list Z := map (fun i => a + Z.of_nat i) (seq 0 (Z.to_nat (b - a))).

(** lpn_param.py:41, 335, 436: [np.log2]. *)
Definition lg (x : R) : R := (ln x / ln 2)%R.

(** lpn_param.py:16-24. *)
Definition com (n m : Z) : R :=
  let Min := Z.min m (n - m) in
  fold_left (fun result j => result * IZR (n - j) / IZR (Min - j))%R (range 0 Min) 1%R.

(** lpn_param.py:28-41.  [pow(0, 2.8)] is 0. *)
Definition Guass (N k t : Z) : num :=
  let pp := (lg (com (N - k) t) - lg (com N t))%R in
  let base := if k <? N - k then k else N - k in
  if base =? 0 then NInf else Fin (lg (Rpower (IZR base) (28 / 10)) - pp)%R.

(** lpn_param.py:312-350.  [None] is an exception: a division by
    [np.log2(1)].  Divided by [np.log2(0)], minus infinity, the numerator of
    [Tgauss] gives 0; [np.log2] of a negative number is a NaN. *)
Definition sub_SD_ISDq (N k t q l0 p0 : Z) : option num :=
  let l := Z.quot (k + l0) 2 * 2 - k + 2 in
  let p := Z.quot p0 2 * 2 in
  let L0 := (com (Z.quot (k + l) 2) (Z.quot p 2) * IZR ((q - 1) ^ Z.quot p 2))%R in
  let logL0 := (lg (com (Z.quot (k + l) 2) (Z.quot p 2)) + IZR (Z.quot p 2) * lg (IZR (q - 1)))%R in
  let logS := (2 * logL0 - IZR l * lg (IZR q))%R in
  let S := Rpower 2 logS in
  if Rlt_dec 230 logS then Some (Fin 230)
  else if Rlt_dec 230 logL0 then Some (Fin 230)
  else if N - k - l =? 1 then None
  else
    let Tgauss := if N - k - l =? 0 then 0%R else (IZR ((N - k - l) * N) / lg (IZR (N - k - l)))%R in
    let T1 := ((Tgauss + 2 * L0 + 2 * S) * IZR N)%R in
    let logT1 := lg T1 in
    let pp := (lg (com (N - k - l) (t - p)) - lg (com N t))%R in
    let pp := (pp + IZR l * lg (IZR q))%R in
    let pp := (pp - IZR p * lg (IZR (q - 1)))%R in
    let pp := (pp + logS)%R in
    if Rle_dec 0 pp then Some (Fin 230)
    else if N - k - l <? 0 then Some NaN
    else Some (Fin (logT1 - pp)%R).

(** lpn_param.py:355-388 for a function [f] of [l].  The loop of lines
    364-377, at most [fuel] rounds; it returns [start], [end] and [min]. *)
Fixpoint ternary (f : Z -> option num) (fuel : nat) (start end' : Z) (min : num) : option (Z * Z * num) :=
  match fuel with
  | O => Some (start, end', min)
  | S fuel' =>
      if 30 <? end' - start then
        let mid1 := Z.quot (end' - start) 3 + start in
        let mid2 := end' - Z.quot (end' - start) 3 in
        match f mid1, f mid2 with
        | Some Tmid1, Some Tmid2 =>
            if lt_num Tmid2 Tmid1 then ternary f fuel' mid1 end' Tmid2 else ternary f fuel' start mid2 Tmid1
        | _, _ => None
        end
      else Some (start, end', min)
  end.

(** Lines 384-387. *)
Fixpoint scan (f : Z -> option num) (ls : list Z) (min : num) : option num :=
  match ls with
  | [] => Some min
  | l :: ls' =>
      match f l with
      | Some T => scan f ls' (if le_num T min then T else min)
      | None => None
      end
  end.

Definition min_search (f : Z -> option num) (end' : Z) : option num :=
  match f 1 with
  | Some Tstart =>
      match ternary f (Z.to_nat end') 1 end' Tstart with
      | Some (start, end', min) =>
          let start := if start <? 10 then 0 else start - 10 in
          scan f (range start (end' + 10)) min
      | None => None
      end
  | None => None
  end.
Definition min_SD_ISDq (N k t q p : Z) : option num :=
  min_search (fun l => sub_SD_ISDq N k t q l p) (N - k - 8).

(** lpn_param.py:395-401: the loop over [p] with its [break]. *)
Fixpoint over_p (g : Z -> option num) (ps : list Z) (wholemin : num) : option num :=
  match ps with
  | [] => Some wholemin
  | p :: ps' =>
      match g p with
      | Some min =>
          let wholemin := if le_num min wholemin then min else wholemin in
          if lt_num (add_num wholemin 30) min then Some wholemin else over_p g ps' wholemin
      | None => None
      end
  end.

(** lpn_param.py:393-406. *)
Definition SD_ISD_q (N k t q : Z) : option num :=
  match sub_SD_ISDq N k t q 0 0 with
  | Some wholemin =>
      match over_p (fun p => min_SD_ISDq N k t q p) (range 0 (Z.quot t 2)) wholemin with
      | Some wholemin => let T1 := Guass N k t in Some (if lt_num T1 wholemin then T1 else wholemin)
      | None => None
      end
  | None => None
  end.

(** lpn_param.py:440-445. *)
Definition Ourparitycheckforq (N k t : Z) : num :=
  let pp := (lg (com N t) - lg (com (N - k - 1) t))%R in
  Fin (lg (IZR (k + 1)) + 2 * pp)%R.

(** lpn_param.py:493-501. *)
Definition analysisforq (N k t q : Z) : option num :=
  match SD_ISD_q N k t q with
  | Some T1 => let T2 := Ourparitycheckforq N k t in Some (if lt_num T2 T1 then T2 else T1)
  | None => None
  end.

(** gen_lpn_params.py:13: the number of errors the estimate is made for. *)
Definition num_errors (N tau q : Z) : Z := (N * (q - 1)) / (2 ^ tau * q).

(** gen_lpn_params.py:12-17: any exception makes the estimate 0. *)
Definition sec_lpn (N k tau q : Z) : num :=
  match analysisforq N k (num_errors N tau q) q with Some x => x | None => Fin 0 end.

(** gen_lpn_params.py:61 ([sec_lpn(..) >= sec]) and 50 ([s_mid < sec]). *)
Definition at_least (N k tau q sec : Z) : bool := le_num (Fin (IZR sec)) (sec_lpn N k tau q).
Definition below (N k tau q sec : Z) : bool := lt_num (sec_lpn N k tau q) (Fin (IZR sec)).

(** Property theorems C11-C16: packed secret sharing (src/sharing.rs). *)

From Coq Require Import NArith.
From mathcomp Require Import all_ssreflect all_algebra zify.
From Verif Require Import GaloisModel GaloisSpec GFField MathModel MathProofs MatProofs P_Math.
From Verif Require P_Galois.
From Verif Require Import SharingModel SharingSpec SharingProofs PrivacyProofs.
Set Implicit Arguments.
Unset Strict Implicit.
Unset Printing Implicit Defensive.
Import GRing.Theory.
Local Open Scope ring_scope.

(** ** C11 *)

Theorem C11_share_then_reconstruct : forall (F : fieldType) (emb : nat -> F) n d pos secrets (r : nat -> F),
  good_pos emb n pos -> (size pos <= d.+1)%N -> (d < n)%N -> size secrets = size pos ->
  exists P sh, pss_new emb d n pos = Some P /\ pss_share P secrets r = Some sh /\
    is_sharing emb n d pos secrets sh /\
    pss_semihon_recon P sh = Some secrets /\
    pss_recon P sh = Some (ROk secrets).
Proof.
  move=> F emb n d pos secrets r U Hl Hd Ss.
  have [P EP] : exists P, pss_new emb d n pos = Some P by rewrite /pss_new Hd; eexists.
  have [sh [Es IS]] := share_ok U Hd Hl secrets r.
  rewrite Ss subnn /= cats0 -Ss take_size in IS.
  exists P, sh. split=> //. split; first by move: EP; rewrite /pss_new Hd => -[<-].
  split=> //. split; first exact: (semihon_ok U Hd EP IS).
  have Sz := sharing_size IS. case: (recon_iff U Hd EP (proj1 Sz)) => [[sec IS' ->]|[N _]].
  - by rewrite (is_sharing_fun U Hd IS IS').
  - by case: (N secrets).
Qed.
Print Assumptions C11_share_then_reconstruct.

(** The free functions [compute_share_coeffs]/[share_using_coeffs] and
    [compute_recon_coeffs]/[recon_using_coeffs] agree. *)
Theorem C11_coefficient_functions : forall (F : fieldType) (emb : nat -> F) n d pos secrets (r : nat -> F),
  good_pos emb n pos -> (size pos <= d.+1)%N -> (d < n)%N -> size secrets = size pos ->
  exists sh, share_using_coeffs secrets (compute_share_coeffs emb d n pos) (size pos) r = Some sh /\
    is_sharing emb n d pos secrets sh /\
    recon_using_coeffs sh (compute_recon_coeffs emb d n pos) = Some secrets.
Proof.
  move=> F emb n d pos secrets r U Hl Hd Ss.
  have [sh [Es IS]] := share_ok U Hd Hl secrets r.
  rewrite Ss subnn /= cats0 -Ss take_size in IS.
  exists sh. split=> //. split=> //. exact: (recon_coeffs_ok U Hd IS).
Qed.
Print Assumptions C11_coefficient_functions.

(** With fewer secrets than positions the missing ones are filled from the
    generator; the given ones still come first. *)
Theorem C11_fewer_secrets : forall (F : fieldType) (emb : nat -> F) n d pos secrets (r : nat -> F) P,
  good_pos emb n pos -> (size pos <= d.+1)%N -> (size secrets <= size pos)%N ->
  pss_new emb d n pos = Some P ->
  exists sh filler, pss_share P secrets r = Some sh /\
    is_sharing emb n d pos (secrets ++ filler) sh.
Proof.
  move=> F emb n d pos secrets r P U Hl Ss. rewrite /pss_new. case: leqP => // Hd [<-].
  have [sh [Es IS]] := share_ok U Hd Hl secrets r.
  exists sh, [seq r (d.+1 - size pos + i)%N | i <- iota 0 (size pos - size secrets)].
  split=> //. rewrite take_oversize // in IS. by rewrite size_cat size_map size_iota subnKC.
Qed.
Print Assumptions C11_fewer_secrets.

(** Which parameters panic. *)
Theorem C11_too_few_parties_panics : forall (F : fieldType) (emb : nat -> F) n d pos,
  (n <= d)%N <-> pss_new emb d n pos = None.
Proof. move=> F emb n d pos. rewrite /pss_new. by case: leqP; split. Qed.
Print Assumptions C11_too_few_parties_panics.

Definition pos4 : seq (gf w4) := [:: e4 7; e4 8].

Lemma good_pos4 : good_pos (gf_of w4) 7 pos4.
Proof. by vm_compute. Qed.

Example C11_example :
  good_pos (gf_of w4) 7 pos4 /\ (size pos4 <= 4)%N /\ (3 < 7)%N /\
  (if pss_new (gf_of w4) 3 7 pos4 is Some P then
     if pss_share P [:: e4 3; e4 12] (gf_of w4) is Some sh then
       ([seq gval x | x <- sh], if pss_semihon_recon P sh is Some s then [seq gval x | x <- s] else [::])
     else ([::], [::])
   else ([::], [::])) = ([:: 0; 1; 3; 0; 12; 1; 12], [:: 3; 12])%num.
Proof. split; first exact: good_pos4. by vm_compute. Qed.

(** ** C12 *)

Theorem C12_recon_accepts_exactly_sharings : forall (F : fieldType) (emb : nat -> F) n d pos P shares,
  good_pos emb n pos -> pss_new emb d n pos = Some P ->
  (forall secrets, pss_recon P shares = Some (ROk secrets) <->
     is_sharing emb n d pos secrets shares) /\
  (pss_recon P shares = Some (@RMalicious F) <->
     size shares = n /\ forall secrets, ~ is_sharing emb n d pos secrets shares) /\
  (pss_recon P shares = Some (@RWrongNumber F) <-> size shares <> n).
Proof.
  move=> F emb n d pos P shares U EP.
  have Hd : (d < n)%N by move: EP; rewrite /pss_new; case: leqP.
  case: (size shares =P n) => Ss.
  - case: (recon_iff U Hd EP Ss) => [[sec IS ->]|[N ->]].
    + split.
      { move=> s. split=> [[<-] //|IS']. by rewrite (is_sharing_fun U Hd IS IS'). }
      split; first by split=> // -[_ /(_ sec)].
      by split.
    + split; first by move=> s; split=> // /N.
      split; first by split. by split.
  - rewrite (recon_wrong_size Hd EP Ss). split.
    { move=> s. split=> // /sharing_size [/Ss]. by []. }
    split; by split=> // -[].
Qed.
Print Assumptions C12_recon_accepts_exactly_sharings.

Theorem C12_corruption_detected : forall (F : fieldType) (emb : nat -> F) n d pos P secrets sh sh',
  good_pos emb n pos -> pss_new emb d n pos = Some P ->
  is_sharing emb n d pos secrets sh -> size sh' = n ->
  (1 <= count (fun x : F * F => x.1 != x.2) (zip sh sh') <= n - d - 1)%N ->
  pss_recon P sh' = Some (@RMalicious F).
Proof.
  move=> F emb n d pos P secrets sh sh' U EP IS Ss Hc.
  have Hd : (d < n)%N by move: EP; rewrite /pss_new; case: leqP.
  apply C12_recon_accepts_exactly_sharings with (pos := pos) (n := n) (emb := emb) (d := d) => //.
  split=> //. apply: (corruption U Hd IS Ss). by rewrite -subnDA addn1 in Hc.
Qed.
Print Assumptions C12_corruption_detected.

Example C12_example :
  let sh := [:: e4 0; e4 1; e4 3; e4 0; e4 12; e4 1; e4 12] in
  let out sh := if pss_new (gf_of w4) 3 7 pos4 is Some P then
     match pss_recon P sh with
     | Some (ROk s) => [seq gval x | x <- s] | Some (RMalicious) => [:: 100%num] | _ => [::] end
   else [::] in
  out sh = [:: 3; 12]%num /\ out (set_nth 0 sh 5 (e4 6)) = [:: 100%num] /\
  out (set_nth 0 sh 0 (e4 6)) = [:: 100%num].
Proof. by vm_compute. Qed.

(** ** C13 *)

Definition pointwise (F : fieldType) (f : F -> F -> F) (a b : seq F) : seq F :=
  [seq f x.1 x.2 | x <- zip a b].

Theorem C13_sum_and_scale : forall (F : fieldType) (emb : nat -> F) n d pos s1 s2 h1 h2 (c : F),
  is_sharing emb n d pos s1 h1 -> is_sharing emb n d pos s2 h2 ->
  is_sharing emb n d pos (pointwise +%R s1 s2) (pointwise +%R h1 h2) /\
  is_sharing emb n d pos [seq c * x | x <- s1] [seq c * x | x <- h1].
Proof.
  move=> F emb n d pos s1 s2 h1 h2 c H1 H2. split; first exact: sharing_add. exact: sharing_scale.
Qed.
Print Assumptions C13_sum_and_scale.

Theorem C13_product_reconstructs : forall (F : fieldType) (emb : nat -> F) n d1 d2 pos s1 s2 h1 h2 P,
  good_pos emb n pos -> (d1 + d2 <= n.-1)%N ->
  pss_new emb n.-1 n pos = Some P ->
  is_sharing emb n d1 pos s1 h1 -> is_sharing emb n d2 pos s2 h2 ->
  is_sharing emb n (d1 + d2) pos (pointwise *%R s1 s2) (pointwise *%R h1 h2) /\
  pss_semihon_recon P (pointwise *%R h1 h2) = Some (pointwise *%R s1 s2).
Proof.
  move=> F emb n d1 d2 pos s1 s2 h1 h2 P U Hd EP H1 H2.
  have M := sharing_mul H1 H2. split=> //.
  have Hn : (n.-1 < n)%N by move: EP; rewrite /pss_new; case: leqP.
  apply: (semihon_ok U Hn EP). exact: (sharing_degree Hd M).
Qed.
Print Assumptions C13_product_reconstructs.

Example C13_example :
  good_pos (gf_of w4) 7 pos4 /\ (3 + 3 <= 7.-1)%N /\ pss_new (gf_of w4) 7.-1 7 pos4 <> None /\
  exists h, is_sharing (gf_of w4) 7 3 pos4 [:: e4 3; e4 12] h.
Proof.
  split; first exact: good_pos4. split=> //. split; first by rewrite /pss_new.
  have [//|//|//|_ [sh [_ [_ [IS _]]]]] := @C11_share_then_reconstruct _ (gf_of w4) 7 3 pos4 [:: e4 3; e4 12] (gf_of w4) good_pos4.
  by exists sh.
Qed.

(** ** C14 *)

(** For uniformly random coins the shares at any [a <= d + 1 - l] positions
    take each value with probability [|F|^-a], whatever the secrets: exactly
    [|F|^(d+1-l-a)] of the [|F|^(d+1-l)] coin vectors give the view [v]. *)
Theorem C14_view_independent_of_secrets : forall (F : finFieldType) (emb : nat -> F) n d pos P
    (A : seq nat) (v secrets : seq F),
  good_pos emb n pos -> (size pos <= d.+1)%N -> pss_new emb d n pos = Some P ->
  uniq A -> all (fun i => (i < n)%N) A -> (size A <= d.+1 - size pos)%N ->
  size v = size A -> size secrets = size pos ->
  #|[set c : (d.+1 - size pos).-tuple F |
      omap (fun sh => [seq nth 0 sh i | i <- A]) (pss_share P secrets (nth 0 c)) == Some v]|
  = (#|F| ^ (d.+1 - size pos - size A))%N.
Proof.
  move=> F emb n d pos P A v secrets U Hl EP UA AA SA Sv Ss.
  have Hd : (d < n)%N by move: EP; rewrite /pss_new; case: leqP.
  rewrite -(view_count U Hd Hl Ss UA AA SA Sv). congr (#|pred_of_set _|).
  apply/setP => c. rewrite !inE. have [p [_ E _ _ _]] := sh_ofP U Hd Hl c Ss.
  move: EP. rewrite /pss_new Hd => -[<-]. rewrite /pss_share /=.
  rewrite /compute_share_coeffs in E. by rewrite E.
Qed.
Print Assumptions C14_view_independent_of_secrets.

(** In particular at exactly [d+1-l] positions every view is explained by
    exactly one coin vector, for every choice of secrets (any field). *)
Theorem C14_unique_explanation : forall (F : fieldType) (emb : nat -> F) n d pos P
    (A : seq nat) (v secrets : seq F),
  good_pos emb n pos -> (size pos <= d.+1)%N -> pss_new emb d n pos = Some P ->
  uniq A -> all (fun i => (i < n)%N) A -> size A = (d.+1 - size pos)%N ->
  size v = size A -> size secrets = size pos ->
  exists! c : seq F, size c = (d.+1 - size pos)%N /\
    omap (fun sh => [seq nth 0 sh i | i <- A]) (pss_share P secrets (nth 0 c)) = Some v.
Proof.
  move=> F emb n d pos P A v secrets U Hl EP UA AA SA Sv Ss.
  have Hd : (d < n)%N by move: EP; rewrite /pss_new; case: leqP.
  move: EP. rewrite /pss_new Hd => -[<-]. rewrite /pss_share /=.
  have VW (p : {poly F}) : [seq (evals p (share_pos emb n))`_i | i <- A] = [seq p.[emb i] | i <- A].
  { apply/eq_in_map => i Hi. have Hin : (i < n)%N by move/allP: AA; apply.
    by rewrite (nth_map 0) ?size_share_pos // (nth_map 0%N) ?size_iota // nth_iota. }
  have SP (c : seq F) : size c = (d.+1 - size pos)%N -> exists p : {poly F}, [/\ (size p <= d.+1)%N,
      share_using_coeffs secrets (compute_share_coeffs emb d n pos) (size pos) (nth 0 c)
        = Some (evals p (share_pos emb n)), evals p pos = secrets
      & evals p (take (d.+1 - size pos) (share_pos emb n)) = c].
  { move=> Sc. have [p Hp [E1 E2]] := share_points U Hd Hl Ss Sc. exists p. split=> //.
    apply: (share_of_poly U Hd Hl) => //.
    - by rewrite E1 Ss subnn /= cats0 -Ss take_size.
    - rewrite E2 -{1}Sc. by rewrite map_nth_iota0 // take_size. }
  have [p Hp [E1 E2]] : exists2 p : {poly F}, (size p <= d.+1)%N &
      evals p pos = secrets /\ [seq p.[emb i] | i <- A] = v.
  { have SL : (size pos + size A)%N = d.+1 by rewrite SA; lia.
    exact: (poly_with_view U UA AA SL Ss Sv). }
  exists (evals p (take (d.+1 - size pos) (share_pos emb n))).
  have Sc0 : size (evals p (take (d.+1 - size pos) (share_pos emb n))) = (d.+1 - size pos)%N.
  { rewrite size_map size_takel // size_share_pos. lia. }
  split.
  - split=> //. have [q [Hq Eq Q1 Q2]] := SP _ Sc0.
    rewrite /compute_share_coeffs in Eq. rewrite Eq /= VW.
    have -> : q = p; last by rewrite E2.
    have UT : uniq (iota 0 (d.+1 - size pos)) by exact: iota_uniq.
    apply: (poly_from_view U Hd Hl UT _ _ Hq Hp); rewrite ?size_iota; first last.
    + move: Q2. rewrite /share_pos -map_take -/(evals _ _) take_iota.
      have -> : minn (d.+1 - size pos) n = (d.+1 - size pos)%N by apply/minn_idPl; lia.
      by rewrite /evals -!map_comp.
    + by rewrite Q1 E1.
    + lia.
    + apply/allP => i. rewrite mem_iota. lia.
  - move=> c [Sc]. have [q [Hq Eq Q1 Q2]] := SP _ Sc.
    rewrite /compute_share_coeffs in Eq. rewrite Eq /= VW => -[V].
    have -> : p = q; last by [].
    apply: (poly_from_view U Hd Hl UA AA _ Hp Hq).
    + rewrite SA; lia.
    + by rewrite Q1 E1.
    + by rewrite E2 V.
Qed.
Print Assumptions C14_unique_explanation.

(** Non-vacuity, and sharpness: with one share more the view fixes the secrets. *)
Example C14_example :
  good_pos (gf_of w4) 7 pos4 /\ pss_new (gf_of w4) 3 7 pos4 <> None /\
  uniq [:: 5; 2]%N /\ all (fun i => (i < 7)%N) [:: 5; 2]%N /\ size [:: 5; 2]%N = (4 - size pos4)%N.
Proof. split; first exact: good_pos4. by rewrite /pss_new. Qed.

(** ** C15 *)

Theorem C15_rand_is_a_sharing : forall (F : fieldType) (emb : nat -> F) n d pos P (r : nat -> F),
  good_pos emb n pos -> pss_new emb d n pos = Some P ->
  exists sh secrets, pss_rand P r = Some sh /\ is_sharing emb n d pos secrets sh /\
    take d.+1 sh = [seq r i | i <- iota 0 d.+1].
Proof.
  move=> F emb n d pos P r U EP. have Us := U_sh U.
  have Hd : (d < n)%N by move: EP; rewrite /pss_new; case: leqP.
  move: EP. rewrite /pss_new Hd => -[<-]. rewrite /pss_rand [ps_np _]/= [ps_rand _]/=.
  move: (@size_map _ _ r (iota 0 d.+1)). rewrite size_iota. move: [seq r i | i <- _] => c Sc.
  have ST : size (take d.+1 (share_pos emb n)) = d.+1 by rewrite size_takel // size_share_pos.
  have UT : uniq (take d.+1 (share_pos emb n)) by apply: take_uniq.
  have [p [Hp E]] : exists p : {poly F}, (size p <= d.+1)%N /\ evals p (take d.+1 (share_pos emb n)) = c.
  { have := @interp_exists _ (take d.+1 (share_pos emb n)) c UT. rewrite ST Sc => /(_ erefl) [p Hp E].
    by exists p. }
  exists (evals p (share_pos emb n)), (evals p pos). split.
  - rewrite /mdot_chk [ncols _]/= ST Sc eqxx /=. congr Some. rewrite -E lagrange_eval ?ST //.
    by rewrite -evals_cat cat_take_drop.
  - split; first by apply/is_sharingE; exists p.
    by rewrite take_evals.
Qed.
Print Assumptions C15_rand_is_a_sharing.

(** The [d+1] coins and the polynomials of degree at most [d] correspond one to one. *)
Theorem C15_rand_bijective : forall (F : fieldType) (emb : nat -> F) n d pos P (p : {poly F}),
  good_pos emb n pos -> pss_new emb d n pos = Some P -> (size p <= d.+1)%N ->
  exists! c : seq F, size c = d.+1 /\
    pss_rand P (nth 0 c) = Some [seq p.[emb i] | i <- iota 0 n].
Proof.
  move=> F emb n d pos P p U EP Hp. have Us := U_sh U.
  have Hd : (d < n)%N by move: EP; rewrite /pss_new; case: leqP.
  have TC (c : seq F) : size c = d.+1 -> [seq nth 0 c i | i <- iota 0 d.+1] = c.
  { move=> Sc. by rewrite -{1}Sc map_nth_iota0 // take_size. }
  exists (take d.+1 [seq p.[emb i] | i <- iota 0 n]).
  have S0 : size (take d.+1 [seq p.[emb i] | i <- iota 0 n]) = d.+1.
  { by rewrite size_takel // size_map size_iota. }
  split.
  - split=> //. have [sh [sec [E [IS T]]]] := C15_rand_is_a_sharing (nth 0 (take d.+1 [seq p.[emb i] | i <- iota 0 n])) U EP.
    rewrite E. congr Some. case/is_sharingE: IS => q [Hq Eq _]. rewrite Eq.
    have -> : q = p; last by rewrite evals_share_pos.
    apply: (poly_agree (take_uniq d.+1 Us)); rewrite ?size_takel ?size_share_pos //.
    rewrite -!take_evals -Eq T TC //. by rewrite evals_share_pos.
  - move=> c [Sc E]. have [sh [sec [E' [IS T]]]] := C15_rand_is_a_sharing (nth 0 c) U EP.
    move: E'. rewrite E => -[E']. by rewrite -E' TC in T.
Qed.
Print Assumptions C15_rand_bijective.

(** The packed secrets of a random sharing are uniform: for any secrets and
    any [d+1-l] further share values there is exactly one coin vector. *)
Theorem C15_rand_secrets_uniform : forall (F : fieldType) (emb : nat -> F) n d pos P secrets (v : seq F),
  good_pos emb n pos -> pss_new emb d n pos = Some P -> (size pos <= d.+1)%N ->
  size secrets = size pos -> size v = (d.+1 - size pos)%N ->
  exists! c : seq F, size c = d.+1 /\
    exists sh, [/\ pss_rand P (nth 0 c) = Some sh, is_sharing emb n d pos secrets sh &
      take (d.+1 - size pos) sh = v].
Proof.
  move=> F emb n d pos P secrets v U EP Hl Ss Sv.
  have Hd : (d < n)%N by move: EP; rewrite /pss_new; case: leqP.
  have [p Hp [E1 E2]] := share_points U Hd Hl Ss Sv.
  have [c [[Sc Ec] Uc]] := C15_rand_bijective U EP Hp. exists c. split.
  - split=> //. exists [seq p.[emb i] | i <- iota 0 n]. split=> //.
    + apply/is_sharingE. exists p. by rewrite -evals_share_pos.
    + by rewrite -evals_share_pos take_evals.
  - move=> c' [Sc' [sh [Es IS T]]]. apply: Uc. split=> //. rewrite Es. congr Some.
    case/is_sharingE: IS => q [Hq Eq Q]. rewrite Eq evals_share_pos.
    have -> : q = p; last by []. 
    have UT : uniq (iota 0 (d.+1 - size pos)) by exact: iota_uniq.
    apply: (poly_from_view U Hd Hl UT _ _ Hq Hp); rewrite ?size_iota; first last.
    + move: T. rewrite Eq take_evals -E2 /share_pos -map_take take_iota.
      have -> : minn (d.+1 - size pos) n = (d.+1 - size pos)%N by apply/minn_idPl; lia.
      by rewrite /evals -!map_comp.
    + by rewrite -Q E1.
    + lia.
    + apply/allP => i. rewrite mem_iota. lia.
Qed.
Print Assumptions C15_rand_secrets_uniform.

Example C15_example :
  good_pos (gf_of w4) 7 pos4 /\
  (if pss_new (gf_of w4) 3 7 pos4 is Some P then
     if pss_rand P (fun i => gf_of w4 (i * i)) is Some sh then [seq gval x | x <- sh] else [::]
   else [::]) = [:: 0; 1; 4; 9; 1; 14; 15]%num.
Proof. split; first exact: good_pos4. by vm_compute. Qed.

(** ** C16 *)

Lemma cat_uniq_l (T : eqType) (a b : seq T) : uniq (a ++ b) -> uniq a.
Proof. by rewrite cat_uniq => /and3P []. Qed.
Lemma cat_uniq_r (T : eqType) (a b : seq T) : uniq (a ++ b) -> uniq b.
Proof. by rewrite cat_uniq => /and3P []. Qed.

Theorem C16_positions_distinct : forall (w : width) n l num_wires (ws : seq nat),
  (n + l + num_wires <= N.to_nat (2 ^ w)%num)%N ->
  uniq ws -> all (fun x => (x < num_wires)%N) ws ->
  uniq (share_pos (gf_of w) n ++ default_pos (gf_of w) n l ++ wire_to_pos (gf_of w) n l ws) /\
  good_pos (gf_of w) n (default_pos (gf_of w) n l) /\
  good_pos (gf_of w) n (wire_to_pos (gf_of w) n l ws).
Proof.
  move=> w n l nw ws HB Uw /allP Aw.
  have I : {in gtn (n + l + nw)%N &, injective (gf_of w)}.
  { move=> i j Hi Hj. apply: gf_of_inj; exact: (leq_trans _ HB). }
  have U : uniq (share_pos (gf_of w) n ++ default_pos (gf_of w) n l ++ wire_to_pos (gf_of w) n l ws).
  { rewrite /share_pos /default_pos /wire_to_pos.
    rewrite (map_comp (gf_of w) (fun x => x + (n + l))%N) -!map_cat map_inj_in_uniq.
    - rewrite catA -iotaD cat_uniq iota_uniq map_inj_uniq ?Uw ?andbT /=; last by move=> i j /addIn.
      apply/hasPn => x /mapP [y _ ->]. rewrite /= mem_iota. lia.
    - have R : {subset iota 0 n ++ iota n l ++ [seq (x + (n + l))%N | x <- ws] <= gtn (n + l + nw)%N}.
      { move=> x. rewrite !mem_cat !mem_iota !inE => /or3P [|| /mapP [y /Aw Hy ->]]; lia. }
      move=> i j Hi Hj. by apply: I; apply: R. }
  split=> //. rewrite /good_pos -/(share_pos _ _). split; rewrite uniq_catC.
  - rewrite catA in U. exact: (cat_uniq_l U).
  - rewrite uniq_catCA in U. exact: (cat_uniq_r U).
Qed.
Print Assumptions C16_positions_distinct.

(** Beyond the bound [GF::from], hence [wire_to_pos], leaves the table. *)
Theorem C16_out_of_range_refuted : forall (w : width) (g : gstate) n l x,
  initialised w g -> (2 ^ w <= N.of_nat (x + (n + l)) < 4294967296)%num ->
  gf_from g w (N.of_nat (x + (n + l))) = UB.
Proof.
  move=> w g n l x HI H. exact: (P_Galois.C04_from_out_of_range_refuted w g _ (width_bounds w) HI H).
Qed.
Print Assumptions C16_out_of_range_refuted.

Example C16_example :
  uniq (share_pos (gf_of w4) 7 ++ default_pos (gf_of w4) 7 2 ++ wire_to_pos (gf_of w4) 7 2 [:: 6; 0; 3]%N) /\
  (7 + 2 + 7 <= N.to_nat (2 ^ w4)%num)%N.
Proof. split; by vm_compute. Qed.

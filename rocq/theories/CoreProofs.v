(** Proofs about the core protocols. *)

From mathcomp Require Import all_ssreflect all_algebra zify.
From Verif Require Import MathModel MathProofs MatProofs SharingModel SharingSpec SharingProofs.
From Verif Require Import MachineModel MachineProofs MachineBuild Realize CoreModel CoreSpec.
Set Implicit Arguments.
Unset Strict Implicit.
Unset Printing Implicit Defensive.
Import GRing.Theory.
Local Open Scope ring_scope.

Section Vec.
Variable F : fieldType.
Variable emb : nat -> F.

Lemma size_zipw (f : F -> F -> F) a b : size (zipw f a b) = minn (size a) (size b).
Proof. by rewrite /zipw size_map size_zip. Qed.

Lemma nth_zipw (f : F -> F -> F) a b j : size a = size b -> (j < size a)%N ->
  nth 0 (zipw f a b) j = f (nth 0 a j) (nth 0 b j).
Proof. by move=> E H; rewrite /zipw (nth_map (0, 0)) ?size_zip -?E ?minnn // nth_zip. Qed.

Lemma zipw_map (T : Type) (f : F -> F -> F) (g h : T -> F) s :
  zipw f [seq g x | x <- s] [seq h x | x <- s] = [seq f (g x) (h x) | x <- s].
Proof. by rewrite /zipw zip_map -map_comp. Qed.

Lemma vsub_evals (p q : {poly F}) s : vsub (evals p s) (evals q s) = evals (p - q) s.
Proof. rewrite /vsub zip_map -map_comp. apply: eq_map => x /=. by rewrite hornerD hornerN. Qed.

Lemma sharing_sub n d pos s1 s2 h1 h2 : is_sharing emb n d pos s1 h1 -> is_sharing emb n d pos s2 h2 ->
  is_sharing emb n d pos (vsub s1 s2) (vsub h1 h2).
Proof.
  case/is_sharingE => p [Hp -> ->] /is_sharingE [q [Hq -> ->]].
  apply/is_sharingE. exists (p - q). split; rewrite ?vsub_evals //.
  apply: (leq_trans (size_add _ _)). by rewrite size_opp geq_max Hp Hq.
Qed.

Section Sharings.
Variables (n : nat) (pos : seq F) (num : nat).
Notation sharings d := (sharings emb n d pos num).

Lemma colv_zipw (f : F -> F -> F) (v w : nat -> seq F) j : (forall i, (i < n)%N -> size (v i) = num) ->
  (forall i, (i < n)%N -> size (w i) = num) -> (j < num)%N ->
  [seq nth 0 (zipw f (v i) (w i)) j | i <- iota 0 n] =
  zipw f [seq nth 0 (v i) j | i <- iota 0 n] [seq nth 0 (w i) j | i <- iota 0 n].
Proof.
  move=> Hv Hw Hj. rewrite zipw_map. apply/eq_in_map => i. rewrite mem_iota /= => Hi.
  by rewrite nth_zipw ?Hv ?Hw.
Qed.

Lemma sharings_ext d v v' s s' : (forall i, (i < n)%N -> v i = v' i) -> (forall j, (j < num)%N -> s j = s' j) ->
  sharings d v s -> sharings d v' s'.
Proof.
  move=> Ev Es [H1 H2]. split=> [i Hi|j Hj]; first by rewrite -Ev ?H1.
  rewrite -Es //. have := H2 j Hj. congr is_sharing. apply/eq_in_map => i. rewrite mem_iota => Hi. by rewrite Ev.
Qed.

Lemma sharings_add d v s w u : sharings d v s -> sharings d w u ->
  sharings d (fun i => zipw +%R (v i) (w i)) (fun j => vadd (s j) (u j)).
Proof.
  move=> [H1 H2] [K1 K2]. split=> [i Hi|j Hj]; first by rewrite size_zipw H1 // K1 // minnn.
  rewrite colv_zipw //. by apply: sharing_add; [apply: H2|apply: K2].
Qed.

Lemma sharings_sub d v s w u : sharings d v s -> sharings d w u ->
  sharings d (fun i => zipw (fun a b => a - b) (v i) (w i)) (fun j => vsub (s j) (u j)).
Proof.
  move=> [H1 H2] [K1 K2]. split=> [i Hi|j Hj]; first by rewrite size_zipw H1 // K1 // minnn.
  rewrite colv_zipw //. by apply: sharing_sub; [apply: H2|apply: K2].
Qed.

Lemma sharings_mul d e v s w u : sharings d v s -> sharings e w u ->
  sharings (d + e) (fun i => zipw *%R (v i) (w i)) (fun j => vmul (s j) (u j)).
Proof.
  move=> [H1 H2] [K1 K2]. split=> [i Hi|j Hj]; first by rewrite size_zipw H1 // K1 // minnn.
  rewrite colv_zipw //. by apply: sharing_mul; [apply: H2|apply: K2].
Qed.

Lemma sharings_degree d d' v s : (d <= d')%N -> sharings d v s -> sharings d' v s.
Proof. move=> Hd [H1 H2]. split=> // j Hj. exact: sharing_degree (H2 j Hj). Qed.

Lemma sharings_size d v s j : sharings d v s -> (j < num)%N -> size (s j) = size pos.
Proof. move=> [_ H] Hj. by have [] := sharing_size (H j Hj). Qed.
End Sharings.

(** Slotwise identities. *)
Lemma vadd0 (a : seq F) : vadd a (nseq (size a) 0) = a.
Proof. rewrite /vadd. elim: a => [|x a IH] //=. by rewrite IH addr0. Qed.

Lemma vsubK (a b : seq F) : size a = size b -> vsub (vadd a b) b = a.
Proof. rewrite /vsub /vadd. elim: a b => [|x a IH] [|y b] //= [E]. by rewrite IH // addrK. Qed.

Lemma vaddC (a b : seq F) : size a = size b -> vadd a b = vadd b a.
Proof. rewrite /vadd. elim: a b => [|x a IH] [|y b] //= [E]. by rewrite IH // addrC. Qed.

Lemma size_vadd (a b : seq F) : size (vadd a b) = minn (size a) (size b).
Proof. by rewrite /vadd size_map size_zip. Qed.

Lemma pick_vadd f (a b : seq F) : size a = size b -> all (fun i => (i < size a)%N) f ->
  pick f (vadd a b) = vadd (pick f a) (pick f b).
Proof.
  move=> E Hf. rewrite /pick /vadd zip_map -map_comp. apply/eq_in_map => i Hi /=.
  have Hia := allP Hf i Hi. rewrite (nth_map (0, 0)) ?size_zip -?E ?minnn // nth_zip //.
Qed.

(** Reshaping what was flattened. *)
Lemma to_mat_flatten (s : seq (seq F)) r c : size s = r -> (forall x, x \in s -> size x = c) ->
  to_mat r c (flatten s) = Some s.
Proof.
  move=> Hr Hc. have E : shape s = nseq r c.
  { rewrite -Hr. elim: s Hc {Hr} => [|x s IH] //= H. rewrite H ?inE ?eqxx // IH // => y Hy. by rewrite H // inE Hy orbT. }
  rewrite /to_mat size_flatten E sumn_nseq mulnC eqxx. congr Some. by rewrite -E flattenK.
Qed.

Lemma col_map (T : Type) (f : T -> seq F) s j : col j [seq f x | x <- s] = [seq nth 0 (f x) j | x <- s].
Proof. by rewrite /col -map_comp. Qed.
End Vec.

Section Core.
Variable F : fieldType.
Variable emb : nat -> F.
Variables I D : eqType.
Variable ser : seq F -> D.
Variable de : D -> option (seq F).
(** Lengths the encoding can represent. *)
Variable fits : nat -> Prop.
Hypothesis serK : forall x, fits (size x) -> de (ser x) = Some x.

Variables (n t l : nat) (P Pn : pss F).
Hypothesis n_pos : (0 < n)%N.
Notation proc := (proc I D (val F)).
Notation realizes := (@realizes n I D (val F)).
Notation mk me := (Ctx me n t l P Pn).
Notation sharings := (sharings emb n).

Lemma unpack_ser num (v : nat -> seq F) : fits num -> (forall i, (i < n)%N -> size (v i) = num) ->
  unpack de n num [seq ser (v s) | s <- iota 0 n] = Some [seq v s | s <- iota 0 n].
Proof.
  move=> Hf Hv. rewrite /unpack -map_comp (@all_some_map_in _ _ _ v) => [|i]; last first.
  { rewrite mem_iota /= => Hi. by rewrite serK ?Hv. }
  rewrite /= to_mat_flatten ?size_map ?size_iota // => x /mapP [i Hi ->]. move: Hi. by rewrite mem_iota => /Hv.
Qed.

(** Sharing columns and sending them out. *)
Lemma col_iota num (sh : nat -> seq F) i :
  col i [seq sh j | j <- iota 0 num] = [seq nth 0 (sh j) i | j <- iota 0 num].
Proof. exact: col_map. Qed.

Section Lead.
(** The common shape of [reduce_degree] and [trans]: everybody sends a vector
    to the leader, who answers with column [i] of a matrix; each party removes
    its mask. *)
Variables (id : I) (num L : nat) (up : nat -> seq F) (sh : nat -> seq F) (random : nat -> seq F).
Variable g : seq D -> option (seq (seq F)).
Hypothesis HL : (L < n)%N.
Hypothesis Hf : fits num.
Hypothesis Hr : forall i, (i < n)%N -> size (random i) = num.
Hypothesis Hg : g [seq ser (up s) | s <- iota 0 n] = Some [seq sh j | j <- iota 0 num].

Definition lead_down (i : nat) : seq F := [seq nth 0 (sh j) i | j <- iota 0 num].

Lemma lead_realizes :
  realizes [:: (id, Lead L (fun i => ser (up i)) (fun i => ser (lead_down i)))]
    (fun me k => Send (One L) id (ser (up me))
       (if me == L then gather n id (fun ds => answer ser (mk me) id (g ds) (unmask de id (random me) k))
        else unmask de id (random me) k))
    (fun me => zipw (fun a b => a - b) (lead_down me) (random me)).
Proof.
  move=> plan ph /= [Hp _] me k js v Hm Fk. rewrite /unmask.
  pose kk := fun (_ : nat) (d : D) => if de d is Some shares then
      if size shares == size (random me) then k (zipw (fun a b => a - b) shares (random me)) else @Panic I D (val F)
    else @Panic I D (val F).
  apply: (@follows_lead_g n I D (val F) n_pos plan me (ph, id) L (fun i => ser (up i)) (fun i => ser (lead_down i))
    (fun ds => answer ser (mk me) id (g ds) (Recv id kk)) kk js v Hp HL Hm).
  - move=> E. rewrite Hg /answer /= /send_each.
    have E' : forall i, col i [seq sh j | j <- iota 0 num] = lead_down i by move=> i; apply: col_iota.
    elim: (iota 0 n) => [|a s IH] //=. by rewrite IH E'.
  - rewrite /kk serK; last by rewrite size_map size_iota.
    by rewrite Hr // size_map size_iota eqxx.
Qed.
End Lead.

Section RD.
Variable pos : seq F.
Hypothesis HP : pss_new emb (t + l).-1 n pos = Some P.
Hypothesis HPn : pss_new emb n.-1 n pos = Some Pn.
Hypothesis Hpos : good_pos emb n pos.
Hypothesis Hl : (size pos <= (t + l).-1.+1)%N.

Lemma P_facts : ((t + l).-1.+1 <= n)%N /\ pss_share P = fun s r =>
  share_using_coeffs s (compute_share_coeffs emb (t + l).-1 n pos) (size pos) r.
Proof. move: HP. rewrite /pss_new. case: ifP => // Hn [<-]. by split. Qed.

Lemma pss_share_ok sec r : size sec = size pos ->
  exists2 sh, pss_share P sec r = Some sh & is_sharing emb n (t + l).-1 pos sec sh.
Proof.
  move=> Hs. have [Hn ->] := P_facts.
  have [sh [E S]] := @share_ok _ emb n _ pos Hpos Hn Hl sec r.
  exists sh => //. move: S. by rewrite Hs subnn /= cats0 -Hs take_size.
Qed.

(** The sharing the leader deals. *)
Definition dealt (sec : seq F) (r : nat -> F) : seq F := odflt [::] (pss_share P sec r).

Lemma dealtE sec r : size sec = size pos -> pss_share P sec r = Some (dealt sec r) /\
  is_sharing emb n (t + l).-1 pos sec (dealt sec r).
Proof. move=> Hs. have [sh E S] := pss_share_ok r Hs. by rewrite /dealt E. Qed.

Lemma semihon_n sec sh : is_sharing emb n n.-1 pos sec sh -> pss_semihon_recon Pn sh = Some sec.
Proof.
  apply: semihon_ok => //; first by rewrite prednK.
Qed.

Lemma lead_down_sharings (num : nat) (y : nat -> seq F) (r : nat -> nat -> F) d p sh :
  (forall j, (j < num)%N -> is_sharing emb n d p (y j) (sh j)) ->
  sharings d p num (lead_down num sh) y.
Proof.
  move=> H. split=> [i Hi|j Hj]; first by rewrite size_map size_iota.
  have [Hs _] := sharing_size (H j Hj).
  have -> : [seq nth 0 (lead_down num sh i) j | i <- iota 0 n] = sh j.
  { rewrite -[RHS](mkseq_nth 0) /mkseq Hs. apply: eq_map => i.
    by rewrite /lead_down (nth_map 0%N) ?size_iota // nth_iota. }
  exact: H.
Qed.

Lemma reduce_degree_ok id num L coin vx x random r zero : (L < n)%N -> fits num ->
  sharings n.-1 pos num vx x -> sharings (t + l).-1 pos num random r ->
  sharings n.-1 pos num zero (fun _ => nseq (size pos) 0) ->
  exists rd res, realizes [:: (id, rd)]
      (fun me k => reduce_degree ser de (mk me) id (vx me) (random me) (zero me) L (coin me) k) res /\
    sharings (t + l).-1 pos num res x.
Proof.
  move=> HL Hf Sx Sr Sz.
  have [Hn _] := P_facts.
  have Hd : ((t + l).-1 <= n.-1)%N by lia.
  pose up i := zipw +%R (zipw +%R (vx i) (random i)) (zero i).
  pose y j := vadd (x j) (r j).
  have Su : sharings n.-1 pos num up y.
  { have := sharings_add (sharings_add Sx (sharings_degree Hd Sr)) Sz. apply: sharings_ext => // j Hj.
    have -> : size pos = size (vadd (x j) (r j)).
    { by rewrite size_vadd (sharings_size Sx Hj) (sharings_size Sr Hj) minnn. }
    by rewrite vadd0. }
  pose sh j := dealt (y j) (coin L j).
  have Hsh : forall j, (j < num)%N -> pss_share P (y j) (coin L j) = Some (sh j) /\
      is_sharing emb n (t + l).-1 pos (y j) (sh j).
  { move=> j Hj. apply: dealtE. exact: (sharings_size Su Hj). }
  have Hg : reduce_leader de (mk L) num (coin L) [seq ser (up s) | s <- iota 0 n] =
      Some [seq sh j | j <- iota 0 num].
  { rewrite /reduce_leader /= unpack_ser //=; last by move=> i Hi; apply: Su.1.
    rewrite (@all_some_map_in _ _ _ sh) => [|j]; last first.
    { rewrite mem_iota /= => Hj. rewrite col_map (semihon_n (Su.2 j Hj)) /=. exact: (Hsh j Hj).1. }
    rewrite /= to_mat_flatten ?size_map ?size_iota // => z /mapP [j]. rewrite mem_iota /= => Hj ->.
    have [Hs _] := sharing_size (Hsh j Hj).2. exact: Hs. }
  eexists. exists (fun me => zipw (fun a b => a - b) (lead_down num sh me) (random me)). split.
  - apply: realizes_eq; last exact: (@lead_realizes id num L up sh random _ HL Hf Sr.1 Hg).
    + move=> i k Hi. rewrite /reduce_degree Sx.1 // Sr.1 // Sz.1 // eqxx /=.
      by case: eqP => [->|].
    + by [].
  - have Sd : sharings (t + l).-1 pos num (lead_down num sh) y.
    { apply: lead_down_sharings => // j Hj. exact: (Hsh j Hj).2. }
    apply: sharings_ext (sharings_sub Sd Sr) => // j Hj.
    by rewrite vsubK // (sharings_size Sx Hj) (sharings_size Sr Hj).
Qed.

Lemma mult_ok id num L coin d1 d2 vx x vy y random r zero : (L < n)%N -> fits num -> (d1 + d2 <= n.-1)%N ->
  sharings d1 pos num vx x -> sharings d2 pos num vy y -> sharings (t + l).-1 pos num random r ->
  sharings n.-1 pos num zero (fun _ => nseq (size pos) 0) ->
  exists rd res, realizes [:: (id, rd)]
      (fun me k => mult ser de (mk me) id (vx me) (vy me) (random me) (zero me) L (coin me) k) res /\
    sharings (t + l).-1 pos num res (fun j => vmul (x j) (y j)).
Proof.
  move=> HL Hf Hd Sx Sy Sr Sz.
  have Sm := sharings_degree Hd (sharings_mul Sx Sy).
  have [rd [res [R S]]] := reduce_degree_ok id coin HL Hf Sm Sr Sz.
  exists rd, res. split=> //. apply: realizes_eq R => // i k Hi.
  by rewrite /mult Sx.1 // Sy.1 // eqxx.
Qed.
End RD.

(** ** trans *)
Section Trans.
Variables (opos npos : seq F) (f : seq nat).
Hypothesis Hn : ((t + l).-1 < n)%N.
Hypothesis Ho : good_pos emb n opos.
Hypothesis Hnp : good_pos emb n npos.
Hypothesis Hl : (size npos <= (t + l).-1.+1)%N.
Hypothesis Hfn : size f = size npos.
Hypothesis Hfo : all (fun i => (i < size opos)%N) f.
Notation tr := (ST opos npos f).

Definition dealt_tr (sec : seq F) (r : nat -> F) : seq F :=
  odflt [::] (share_using_coeffs sec (compute_share_coeffs emb (t + l).-1 n npos) (size npos) r).

Lemma dealt_trE sec r : size sec = size npos ->
  share_using_coeffs sec (compute_share_coeffs emb (t + l).-1 n npos) (size npos) r = Some (dealt_tr sec r) /\
  is_sharing emb n (t + l).-1 npos sec (dealt_tr sec r).
Proof.
  move=> Hs. have [sh [E S]] := @share_ok _ emb n _ npos Hnp Hn Hl sec r.
  rewrite /dealt_tr E. split=> //. move: S. by rewrite Hs subnn /= cats0 -Hs take_size.
Qed.

Lemma col_recon sec (m : seq (seq F)) num j : is_sharing emb n n.-1 opos sec (col j m) -> (j < num)%N ->
  col j (mmul (compute_recon_coeffs emb n.-1 n opos) num m) = sec.
Proof.
  case/is_sharingE => p [Hp E ->] Hj. rewrite /mmul /col -map_comp.
  rewrite /compute_recon_coeffs prednK // addnK drop_size_cat // take_size_cat // -/(col j m).
  rewrite prednK // in Hp.
  have U : uniq (share_pos emb n) by move: Ho; rewrite /good_pos cat_uniq => /and3P [].
  rewrite -(@lagrange_eval _ (share_pos emb n) opos p U) ?size_share_pos //.
  rewrite /mdot. apply: eq_map => row /=. by rewrite (nth_map 0%N) ?size_iota // nth_iota // add0n -E.
Qed.

Lemma trans_rd id num L coin vx x random random_n r : (L < n)%N -> fits num ->
  sharings n.-1 opos num vx x ->
  sharings n.-1 opos num random_n r -> sharings (t + l).-1 npos num random (fun j => pick f (r j)) ->
  exists dn : nat -> seq F, [/\ forall i, size (dn i) = num,
      realizes [:: (id, Lead L (fun i => ser (zipw +%R (random_n i) (vx i))) (fun i => ser (dn i)))]
      (fun me k => trans emb ser de (mk me) id (vx me) (random me) (random_n me) tr L (coin me) k)
      (fun me => zipw (fun a b => a - b) (dn me) (random me)) &
    sharings (t + l).-1 npos num (fun me => zipw (fun a b => a - b) (dn me) (random me)) (fun j => pick f (x j))].
Proof.
  move=> HL Hf Sx Srn Sr.
  pose up i := zipw +%R (random_n i) (vx i).
  pose y j := vadd (r j) (x j).
  have Su : sharings n.-1 opos num up y by apply: sharings_add.
  pose sh j := dealt_tr (pick f (y j)) (coin L j).
  have Hsh : forall j, share_using_coeffs (pick f (y j)) (compute_share_coeffs emb (t + l).-1 n npos) (size npos) (coin L j)
      = Some (sh j) /\ is_sharing emb n (t + l).-1 npos (pick f (y j)) (sh j).
  { move=> j. apply: dealt_trE. by rewrite size_map. }
  have Hg : trans_leader emb de (mk L) tr num (coin L) [seq ser (up s) | s <- iota 0 n] =
      Some [seq sh j | j <- iota 0 num].
  { rewrite /trans_leader unpack_ser //=; last by move=> i Hi; apply: Su.1.
    rewrite (@all_some_map_in _ _ _ sh) => [|j]; last first.
    { rewrite mem_iota /= => Hj. rewrite (@col_recon (y j)) //; last by rewrite col_map; apply: Su.2.
      rewrite (comb_apply_ok 0) /=; first exact: (Hsh j).1.
      by rewrite (sharings_size Su Hj). }
    rewrite /= to_mat_flatten ?size_map ?size_iota // => z /mapP [j]. rewrite mem_iota /= => Hj ->.
    have [Hs _] := sharing_size (Hsh j).2. exact: Hs. }
  exists (lead_down num sh). split.
  - by move=> i; rewrite size_map size_iota.
  - apply: realizes_eq; last exact: (@lead_realizes id num L up sh random _ HL Hf Sr.1 Hg).
    + move=> i k Hi. rewrite /trans Sx.1 // Srn.1 // eqxx /=.
      by case: eqP => [->|].
    + by [].
  - have Sd : sharings (t + l).-1 npos num (lead_down num sh) (fun j => pick f (y j)).
    { apply: lead_down_sharings => // j Hj. exact: (Hsh j).2. }
    apply: sharings_ext (sharings_sub Sd Sr) => // j Hj.
    have E1 := sharings_size Srn Hj. have E2 := sharings_size Sx Hj.
    rewrite pick_vadd ?E1 ?E2 // vaddC ?size_map // vsubK // !size_map. by [].
Qed.

Lemma trans_ok id num L coin vx x random random_n r : (L < n)%N -> fits num ->
  sharings n.-1 opos num vx x ->
  sharings n.-1 opos num random_n r -> sharings (t + l).-1 npos num random (fun j => pick f (r j)) ->
  exists rd res, realizes [:: (id, rd)]
      (fun me k => trans emb ser de (mk me) id (vx me) (random me) (random_n me) tr L (coin me) k) res /\
    sharings (t + l).-1 npos num res (fun j => pick f (x j)).
Proof.
  move=> HL Hf Sx Srn Sr. have [dn [_ R S]] := @trans_rd id num L coin vx x random random_n r HL Hf Sx Srn Sr.
  eexists. eexists. split; [exact: R|exact: S].
Qed.
End Trans.
End Core.

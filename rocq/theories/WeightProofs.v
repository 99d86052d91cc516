(** How many functions have a given weight. *)

From mathcomp Require Import all_ssreflect zify.
Set Implicit Arguments.
Unset Strict Implicit.
Unset Printing Implicit Defensive.

Section Weight.
Variables (I X : finType) (J : {set I}).

(** Where, in [J], the values satisfy [P]. *)
Definition spots (P : pred X) (f : {ffun I -> X}) : {set I} := [set i in J | P (f i)].

Lemma spots_sub P f : spots P f \subset J.
Proof. apply/subsetP => i. by rewrite inE => /andP []. Qed.

Lemma card_spots P (S : {set I}) : S \subset J ->
  #|[pred f | spots P f == S]| = #|P| ^ #|S| * (#|X| - #|P|) ^ (#|J| - #|S|) * #|X| ^ (#|I| - #|J|).
Proof.
  move=> HS. pose Fm (i : I) : pred X := if i \in S then P else if i \in J then [predC P] else predT.
  have -> : #|[pred f | spots P f == S]| = #|(family Fm : simpl_pred {ffun I -> X})|.
  { apply: eq_card => f. rewrite inE. apply/eqP/familyP => [E i|H].
    - rewrite /Fm. case Hi: (i \in S); first by move: Hi; rewrite -E inE => /andP [].
      case Hj: (i \in J) => //. rewrite inE. apply/negP => HP. by move: Hi; rewrite -E inE Hj [P _]HP.
    - apply/setP => i. rewrite inE. have := H i. rewrite /Fm. case Hi: (i \in S).
      + move=> HP. by rewrite (subsetP HS _ Hi) [P _]HP.
      + case Hj: (i \in J) => //. rewrite inE /= => /negbTE HP. by rewrite [P _]HP. }
  have CC : #|[predC P]| = #|X| - #|P| by rewrite -(cardC P) addKn.
  rewrite card_family foldrE big_map big_enum /=.
  rewrite (eq_bigr (fun i => if i \in S then #|P| else if i \in J then #|X| - #|P| else #|X|)); last first.
  { move=> i _. rewrite /Fm. by case: (i \in S); [|case: (i \in J)]. }
  rewrite (bigID (mem S)) /= (eq_bigr (fun _ => #|P|)); last by move=> i ->.
  rewrite prod_nat_const -mulnA. congr muln.
  rewrite (bigID (mem J)) /= (eq_bigr (fun _ => #|X| - #|P|)); last by move=> i /andP [/negbTE -> ->].
  rewrite prod_nat_const [X in _ * X](eq_bigr (fun _ => #|X|)); last by move=> i /andP [/negbTE -> /negbTE ->].
  rewrite prod_nat_const. congr (_ ^ _ * _ ^ _).
  - rewrite -[#|S|](_ : #|J :&: S| = _); last by rewrite (setIidPr HS). rewrite -cardsD. apply: eq_card => i. by rewrite !inE.
  - rewrite -[RHS](_ : #|~: J| = _); last by rewrite cardsCs setCK. apply: eq_card => i. rewrite !inE.
    rewrite unfold_in. case Hi: (i \in S) => //=. by rewrite (subsetP HS _ Hi).
Qed.

Lemma card_weight P h : #|[pred f | #|spots P f| == h]| = 'C(#|J|, h) * (#|P| ^ h * (#|X| - #|P|) ^ (#|J| - h)) * #|X| ^ (#|I| - #|J|).
Proof.
  rewrite -[LHS]sum1_card (partition_big (spots P) (fun S : {set I} => (S \subset J) && (#|S| == h))) /=; last by move=> f Hf; rewrite spots_sub.
  rewrite (eq_bigr (fun _ => #|P| ^ h * (#|X| - #|P|) ^ (#|J| - h) * #|X| ^ (#|I| - #|J|))).
  - rewrite sum_nat_const mulnA. congr (_ * _ * _). rewrite -cards_draws. apply: eq_card => S. by rewrite !inE.
  - move=> S /andP [HS /eqP Hh]. rewrite -Hh -card_spots // -[RHS]sum1_card. apply: eq_bigl => f. rewrite !inE. case: (spots P f =P S) => [->|]; by rewrite ?eqxx ?andbF.
Qed.

Lemma card_heavy P T : #|[pred f | T < #|spots P f|]| = \sum_(h < #|J|.+1 | T < h) #|[pred f | #|spots P f| == h]|.
Proof.
  have Hs f : #|spots P f| < #|J|.+1 by rewrite ltnS; apply: subset_leq_card; exact: spots_sub.
  rewrite -[LHS]sum1_card (partition_big (fun f => inord #|spots P f| : 'I_(#|J|.+1)) (fun h : 'I_(#|J|.+1) => T < h)) /=; last by move=> f; rewrite inE inordK.
  apply: eq_bigr => h Hh. rewrite -[RHS]sum1_card. apply: eq_bigl => f. rewrite !inE.
  have -> : (inord #|spots P f| == h) = (#|spots P f| == h) by rewrite -val_eqE /= inordK.
  case: eqP => [->|]; by rewrite ?Hh ?andbF.
Qed.
End Weight.

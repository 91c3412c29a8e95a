(** Proofs: averages of products of signs, the trace and the spread of the quadratic form. *)
From mathcomp Require Import all_ssreflect all_algebra.
From Verif Require Import GaugeModel StochSpec.
Import GRing.Theory Num.Theory.
Set Implicit Arguments.
Unset Strict Implicit.
Unset Printing Implicit Defensive.
Local Open Scope ring_scope.

Section Avg.
Variable C : numClosedFieldType.
Variable T : finType.
Implicit Types f g : T -> C.
Notation average := (@average C _).
Lemma avg_ext f g : f =1 g -> average f = average g.
Proof. by move=> h; rewrite /average (eq_bigr g). Qed.
Lemma avg_sum (I : finType) (P : pred I) (F : I -> T -> C) :
  average (fun t => \sum_(i | P i) F i t) = \sum_(i | P i) average (F i).
Proof. by rewrite /average exchange_big mulr_suml. Qed.
Lemma avgZ a f : average (fun t => a * f t) = a * average f.
Proof. by rewrite /average -mulr_sumr mulrA. Qed.
Lemma avgZr a f : average (fun t => f t * a) = average f * a.
Proof. by rewrite /average -mulr_suml mulrAC. Qed.
Lemma avgD f g : average (fun t => f t + g t) = average f + average g.
Proof. by rewrite /average big_split mulrDl. Qed.
Lemma avgN f : average (fun t => - f t) = - average f.
Proof. by rewrite /average sumrN mulNr. Qed.
Lemma avgB f g : average (fun t => f t - g t) = average f - average g.
Proof. by rewrite /average sumrB mulrBl. Qed.
Lemma avgK a : (0 < #|T|)%N -> average (fun _ : T => a) = a.
Proof.
move=> h; rewrite /average sumr_const -[X in X / _]mulr_natr mulfK // pnatr_eq0 -lt0n //.
Qed.
Lemma avg_conj f : (average f)^* = average (fun t => (f t)^*).
Proof. by rewrite /average rmorphM rmorph_sum fmorphV rmorph_nat. Qed.
End Avg.

Section Signs.
Variable C : numClosedFieldType.
Variable T : finType.
Notation average := (@average C _).
Notation tape := {ffun T -> bool}.
Implicit Types (t : tape) (i j k l p : T).
Definition sg t i : C := if t i then 1 else -1.
Definition flip p t : tape := [ffun i => t i (+) (i == p)].
Lemma flipK p : involutive (flip p).
Proof. by move=> t; apply/ffunP => i; rewrite !ffunE -addbA addbb addbF. Qed.
Lemma sg_flip p t i : sg (flip p t) i = if i == p then - sg t i else sg t i.
Proof. by rewrite /sg ffunE; case: (t i); case: (i == p) => //=; rewrite ?opprK. Qed.
Lemma sg_sq t i : sg t i * sg t i = 1.
Proof. by rewrite /sg; case: (t i); rewrite ?mulrNN mulr1. Qed.
Lemma sg_conj t i : (sg t i)^* = sg t i.
Proof. by rewrite /sg; case: (t i); rewrite ?rmorphN rmorph1. Qed.
Lemma card_tape : (0 < #|[finType of tape]|)%N.
Proof. by apply/card_gt0P; exists [ffun=> true]. Qed.
(** A function that changes sign under a flip has average zero. *)
Lemma avg_odd p (f : tape -> C) : (forall t, f (flip p t) = - f t) -> average f = 0.
Proof.
move=> h; rewrite /average; set s := \sum_t _.
have e : s = - s.
  rewrite {1}/s (reindex_inj (inv_inj (flipK p))) /= -sumrN; apply: eq_bigr => t _; exact: h.
have : s *+ 2 == 0 by rewrite mulr2n {1}e addNr.
by rewrite mulrn_eq0 /= => /eqP ->; rewrite mul0r.
Qed.
Lemma avg2 i j : average (fun t => sg t i * sg t j) = (i == j)%:R.
Proof.
case: (altP (i =P j)) => [->|ne].
  by rewrite (avg_ext (fun t => sg_sq t j)) avgK // card_tape.
apply: (@avg_odd i) => t; by rewrite !sg_flip eqxx eq_sym (negPf ne) mulNr.
Qed.
Lemma avg4 i j k l : i != j -> k != l ->
  average (fun t => (sg t i * sg t j) * (sg t k * sg t l)) = ((i == k) && (j == l))%:R + ((i == l) && (j == k))%:R.
Proof.
move=> nij nkl.
have [ik|nik] := altP (i =P k).
  have nil : i != l by rewrite ik.
  rewrite (negPf nil) /= addr0 -ik.
  have [jl|njl] := altP (j =P l).
    rewrite -jl (@avg_ext _ _ _ (fun _ => 1)) ?avgK ?card_tape // => t.
    by rewrite mulrACA !sg_sq mulr1.
  apply: (@avg_odd j) => t; rewrite !sg_flip eqxx (negPf nij) [l == j]eq_sym (negPf njl).
  by rewrite !(mulrN, mulNr).
have [il|nil] := altP (i =P l); rewrite /= add0r.
  rewrite -il; have [jk|njk] := altP (j =P k).
    rewrite -jk (@avg_ext _ _ _ (fun _ => 1)) ?avgK ?card_tape // => t.
    by rewrite [X in _ * X]mulrC mulrACA !sg_sq mulr1.
  apply: (@avg_odd j) => t; rewrite !sg_flip eqxx (negPf nij) [k == j]eq_sym (negPf njk).
  by rewrite !(mulrN, mulNr).
apply: (@avg_odd i) => t; rewrite !sg_flip eqxx ![_ == i]eq_sym (negPf nij) (negPf nik) (negPf nil).
by rewrite !mulNr.
Qed.
(** The quadratic form of a matrix restricted to a set of components. *)
Variable P : pred T.
Variable A : T -> T -> C.
Definition form t : C := \sum_(i | P i) \sum_(j | P j) sg t i * (A i j * sg t j).
Lemma avg_form : average form = \sum_(i | P i) A i i.
Proof.
rewrite avg_sum; apply: eq_bigr => i Pi; rewrite avg_sum (bigD1 i) //= [X in _ + X]big1 => [|j /andP [_ ne]].
  rewrite addr0 (@avg_ext _ _ _ (fun _ => A i i)) ?avgK ?card_tape // => t.
  by rewrite mulrCA sg_sq mulr1.
rewrite (@avg_ext _ _ _ (fun t => A i j * (sg t i * sg t j))) ?avgZ ?avg2; last by move=> t; rewrite mulrCA.
by rewrite eq_sym (negPf ne) mulr0.
Qed.
Lemma form_split t : form t - average form = \sum_(i | P i) \sum_(j | P j && (j != i)) A i j * (sg t i * sg t j).
Proof.
rewrite avg_form /form -sumrB; apply: eq_bigr => i Pi.
rewrite (bigD1 i) //= mulrCA sg_sq mulr1 addrC addKr; apply: eq_bigr => j _; by rewrite mulrCA.
Qed.
Lemma spread_form : spread form =
  \sum_(i | P i) \sum_(j | P j && (j != i)) (`|A i j| ^+ 2 + A i j * (A j i)^*).
Proof.
rewrite /spread (@avg_ext _ _ _ (fun t => \sum_(i | P i) \sum_(j | P j && (j != i)) \sum_(k | P k) \sum_(l | P l && (l != k))
   A i j * (A k l)^* * ((sg t i * sg t j) * (sg t k * sg t l)))); last first.
  move=> t; rewrite normCK form_split rmorph_sum mulr_suml; apply: eq_bigr => i _.
  rewrite mulr_suml; apply: eq_bigr => j _; rewrite mulr_sumr; apply: eq_bigr => k _.
  rewrite rmorph_sum mulr_sumr; apply: eq_bigr => l _; rewrite !rmorphM !sg_conj.
  by rewrite mulrACA.
rewrite avg_sum; apply: eq_bigr => i Pi; rewrite avg_sum; apply: eq_bigr => j /andP [Pj ne].
rewrite avg_sum.
have E k : P k -> average (fun t => \sum_(l | P l && (l != k)) A i j * (A k l)^* * (sg t i * sg t j * (sg t k * sg t l)))
   = \sum_(l | P l && (l != k)) A i j * (A k l)^* * (((i == k) && (j == l))%:R + ((i == l) && (j == k))%:R).
  move=> Pk; rewrite avg_sum; apply: eq_bigr => l /andP [Pl nl]; rewrite avgZ avg4 //; first by rewrite eq_sym.
  by rewrite eq_sym.
rewrite (eq_bigr _ E).
have F k : P k -> \sum_(l | P l && (l != k)) A i j * (A k l)^* * (((i == k) && (j == l))%:R + ((i == l) && (j == k))%:R)
   = (if k == i then `|A i j| ^+ 2 else 0) + (if k == j then A i j * (A j i)^* else 0).
  have nij : (i == j) = false by rewrite eq_sym (negPf ne).
  move=> Pk; have [->|nki] := altP (k =P i).
    rewrite nij addr0 (bigD1 j) /= ?Pj ?ne // !eqxx nij /= addr0 mulr1 -normCK.
    rewrite big1 ?addr0 // => l /andP [/andP [_ li] lj]; rewrite [j == l]eq_sym (negPf lj) (negPf ne) andbF addr0 mulr0 //.
  rewrite add0r; have [->|nkj] := altP (k =P j).
    rewrite (bigD1 i) /= ?Pi ?nij // !eqxx /= ?nij /= add0r mulr1.
    rewrite big1 ?addr0 // => l /andP [_ li]; rewrite [i == l]eq_sym (negPf li) addr0 mulr0 //.
  by rewrite big1 // => l _; rewrite [i == k]eq_sym (negPf nki) [j == k]eq_sym (negPf nkj) andbF addr0 mulr0.
rewrite (eq_bigr _ F) big_split /= -!big_mkcondr /=.
have G p : P p -> (fun k => P k && (k == p)) =1 pred1 p by move=> Pp k /=; case: (altP (k =P p)) => [->|]; rewrite ?Pp ?andbF.
by rewrite (big_pred1 i (G i Pi)) (big_pred1 j (G j Pj)).
Qed.
End Signs.

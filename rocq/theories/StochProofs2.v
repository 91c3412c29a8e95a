(** Proofs: independent repetitions, their mean and their standard deviation. *)
From Coq Require Import Ring.
From mathcomp Require Import all_ssreflect all_algebra.
From Verif Require Import GaugeModel GaugeProofs StochModel StochSpec StochProofs.
Import GRing.Theory Num.Theory.
Set Implicit Arguments.
Unset Strict Implicit.
Unset Printing Implicit Defensive.
Local Open Scope ring_scope.

Section Repeat.
Variable C : numClosedFieldType.
Variable T : finType.
Add Ring CringSt : (Crth C).
Hypothesis T0 : (0 < #|T|)%N.
Variable N : nat.
Notation runs := {ffun 'I_N -> T}.
Implicit Types (f g : T -> C) (s : runs).
Lemma runs_card : #|[finType of runs]| = (#|T| ^ N)%N. Proof. by rewrite card_ffun card_ord. Qed.
Lemma runs0 : (0 < #|[finType of runs]|)%N. Proof. by rewrite runs_card expn_gt0 T0. Qed.
Lemma avg_prod (F : 'I_N -> T -> C) : average (fun s : runs => \prod_i F i (s i)) = \prod_i average (F i).
Proof.
rewrite /average -(bigA_distr_bigA F) runs_card natrX.
by rewrite big_split /= prodr_const card_ord exprVn.
Qed.
Lemma avg_one f (i : 'I_N) : average (fun s : runs => f (s i)) = average f.
Proof.
have e s : f (s i) = \prod_k (if k == i then f else fun=> 1) (s k).
  by rewrite (bigD1 i) //= eqxx big1 ?mulr1 // => k /negPf ->.
rewrite (avg_ext e) (avg_prod (fun k => if k == i then f else fun=> 1)) (bigD1 i) //= eqxx big1 ?mulr1 // => k /negPf ->; exact: avgK.
Qed.
Lemma avg_two f g (i j : 'I_N) : i != j -> average (fun s : runs => f (s i) * g (s j)) = average f * average g.
Proof.
move=> ne; have nji : (j == i) = false by rewrite eq_sym (negPf ne).
have e s : f (s i) * g (s j) = \prod_k (if k == i then f else if k == j then g else fun=> 1) (s k).
  rewrite (bigD1 i) //= eqxx (bigD1 j) /= ?nji // eqxx.
  by rewrite big1 ?mulr1 // => k /andP [/negPf -> /negPf ->].
rewrite (avg_ext e) (avg_prod (fun k => if k == i then f else if k == j then g else fun=> 1)) (bigD1 i) //= eqxx (bigD1 j) /= ?nji // eqxx.
rewrite big1 ?mulr1 // => k /andP [/negPf -> /negPf ->]; exact: avgK.
Qed.
Definition total f s : C := \sum_i f (s i).
Hypothesis N0 : (0 < N)%N.
Lemma NC0 : N%:R != 0 :> C. Proof. by rewrite pnatr_eq0 -lt0n. Qed.
Lemma avg_total f : average (total f) = N%:R * average f.
Proof.
rewrite avg_sum (eq_bigr (fun=> average f)); last by move=> i _; exact: avg_one.
by rewrite sumr_const card_ord mulr_natl.
Qed.
(** The average of the product of two centred totals. *)
Lemma avg_totals f g : average f = 0 -> average (fun s => total f s * total g s) = N%:R * average (fun t => f t * g t).
Proof.
move=> f0; rewrite (@avg_ext _ _ _ (fun s => \sum_i \sum_j f (s i) * g (s j))); last first.
  by move=> s; rewrite /total mulr_suml; apply: eq_bigr => i _; rewrite mulr_sumr.
rewrite avg_sum (eq_bigr (fun=> average (fun t => f t * g t))).
  by rewrite sumr_const card_ord mulr_natl.
move=> i _; rewrite avg_sum (bigD1 i) //= (avg_one (fun t => f t * g t)) big1 ?addr0 // => j ne.
by rewrite avg_two ?f0 ?mul0r // eq_sym.
Qed.
Definition centred f t := f t - average f.
Lemma avg_centred f : average (centred f) = 0.
Proof. by rewrite /centred (avgB f (fun=> average f)) avgK // subrr. Qed.
Lemma total_centred f s : total (centred f) s = total f s - N%:R * average f.
Proof. by rewrite /total /centred sumrB sumr_const card_ord mulr_natl. Qed.
Definition the_mean f s : C := total f s / N%:R.
Lemma avg_mean f : average (the_mean f) = average f.
Proof. by rewrite /the_mean avgZr avg_total mulrAC mulfV ?mul1r ?NC0. Qed.
Lemma mean_centred f s : the_mean f s - average f = total (centred f) s / N%:R.
Proof. by rewrite total_centred mulrBl mulrAC mulfV ?NC0 // mul1r. Qed.
Lemma spread_mean f : spread (the_mean f) = spread f / N%:R.
Proof.
rewrite /spread avg_mean (@avg_ext _ _ _ (fun s => total (centred f) s * total (fun t => (centred f t)^*) s * (N%:R^-1 * N%:R^-1))); last first.
  move=> s; rewrite normCK mean_centred rmorphM fmorphV rmorph_nat mulrACA; congr (_ * _ * _).
  by rewrite /total rmorph_sum.
rewrite avgZr avg_totals ?avg_centred //.
rewrite [N%:R * _]mulrC -mulrA [N%:R * _]mulrA mulfV ?NC0 // mul1r; congr (_ * _).
by apply: avg_ext => t; rewrite normCK.
Qed.
(** The sum of the squares of the distances from the mean. *)
Definition squares f s : C := \sum_i (f (s i) - the_mean f s) * (f (s i) - the_mean f s).
Lemma squaresE f s : squares f s = total (fun t => centred f t * centred f t) s - total (centred f) s * total (centred f) s / N%:R.
Proof.
set S := total (centred f) s.
have e i : (f (s i) - the_mean f s) * (f (s i) - the_mean f s)
   = centred f (s i) * centred f (s i) - (centred f (s i) * (S / N%:R) + centred f (s i) * (S / N%:R)) + S / N%:R * (S / N%:R).
  have -> : f (s i) - the_mean f s = centred f (s i) - S / N%:R.
    by rewrite /S -mean_centred /centred opprB addrA subrK.
  by move: (centred f (s i)) (S / N%:R) => p q; cring_fold C; ring.
rewrite /squares (eq_bigr _ (fun i _ => e i)) big_split /= sumr_const card_ord sumrB big_split /= -mulr_suml.
rewrite -/(total (fun t => centred f t * centred f t) s) -/(total (centred f) s) -/S.
have -> : S / N%:R * (S / N%:R) *+ N = S * (S / N%:R).
  by rewrite -mulr_natr -mulrA mulfVK ?NC0 // mulrC.
rewrite mulrA; move: (total _ s) (S * S / N%:R) => p q; cring_fold C; ring.
Qed.
Lemma avg_squares f : average (squares f) = (N - 1)%:R * average (fun t => centred f t * centred f t).
Proof.
rewrite (avg_ext (squaresE f)) avgB avg_total avgZr avg_totals ?avg_centred //.
by rewrite [X in _ - X]mulrAC mulfV ?NC0 // natrB // mulrBl.
Qed.
End Repeat.

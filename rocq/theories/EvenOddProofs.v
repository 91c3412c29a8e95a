(** The even-odd operator is the Schur complement of the clover operator. *)
From Coq Require Import ZArith Field.
From mathcomp Require Import all_ssreflect all_algebra.
From Verif Require Import GaugeModel GaugeSpec GaugeProofs GaugeProofs2 GaugeProofs3 LoopModel GammaModel DiracModel DiracSpec.
From Verif Require Import DiracProofs DiracProofs2 DiracProofs3 CloverModel CloverSpec CloverProofs CloverProofs2 ScalarModel.
From Verif Require ScalarSpec ScalarProofs2.
From Verif Require FForceProofs2.
From Verif Require Import EvenOddModel EvenOddSpec.
Import GRing.Theory Num.Theory.
Set Implicit Arguments.
Unset Strict Implicit.
Unset Printing Implicit Defensive.
Local Open Scope ring_scope.

Section Proofs.
Variable C : numClosedFieldType.
Add Ring Cring_eo : (Crth C).
Variable n : nat.
Variable G : grid.
Notation field := (G -> 'I_4 -> 'I_n -> C) (only parsing).
Notation matrices := (G -> 'M[C]_(4 * n)) (only parsing).
Implicit Types (U : G -> 'I_4 -> 'M[C]_n) (v w : field) (x : G) (o : improved C n G) (W : matrices).

Lemma parity_even x : (parity x == 0%N) = even_site x.
Proof. by rewrite /parity /even_site modn2 eqb0. Qed.
Lemma parity_odd x : (parity x == 1%N) = ~~ even_site x.
Proof. by rewrite /parity /even_site modn2 negbK; case: odd. Qed.
Lemma even_sup x mu : even_extents G -> even_site (sup mu x) = ~~ even_site x.
Proof. by move=> ev; rewrite /even_site; congr negb; exact: (ScalarProofs2.odd_sup x (ev mu)). Qed.
Lemma even_sdn x mu : even_extents G -> even_site (sdn mu x) = ~~ even_site x.
Proof. by move=> ev; rewrite -{2}(sdnK mu x) even_sup // negbK. Qed.

(** The hopping lines. *)
Lemma hop_outputE k U v x a c : hop_output k (basic_plus U v x) (basic_minus U v x) a c = - (k * hopping U v x a c).
Proof.
have E := basic_correct k false U v x a c; rewrite /basic_multiply basic_outE /= /dirac /sg5 /= in E.
have -> : - (k * hopping U v x a c) = basic_multiply k false U v x a c - v x a c.
  by rewrite basic_correct /= /dirac addrC addrA addNr add0r.
rewrite /basic_multiply basic_outE /sg5 /= /hop_output.
have F (p q r s : C) : mkc (- k * ('Re p + 'Re q + 'Re r + 'Re s)) (- k * ('Im p + 'Im q + 'Im r + 'Im s)) = - (k * (p + q + r + s)).
  by have := out_plus k 0 p q r s; rewrite !raddf0 !sub0r !mulNr => ->; rewrite ?sub0r.
have F2 (p q r s : C) := out_two k 0 p q r s; have F3 (p q r s : C) := out_three k 0 p q r s.
move: F2 F3; rewrite !raddf0; move: a {E}; apply: ord4P => F2 F3 /=; rewrite [RHS]addrC addKr ?F //.
- by have := F2 (basic_minus U v x d0 1%N c) (basic_minus U v x d1 1%N c) (basic_minus U v x d2 0%N c) (basic_minus U v x d3 0%N c); rewrite !add0r.
by have := F3 (basic_minus U v x d0 0%N c) (basic_minus U v x d1 0%N c) (basic_minus U v x d2 1%N c) (basic_minus U v x d3 1%N c); rewrite !add0r.
Qed.
(** The hopping term only reads the neighbours. *)
Lemma hopping_local U v w x a c : (forall mu b e, v (sup mu x) b e = w (sup mu x) b e) ->
  (forall mu b e, v (sdn mu x) b e = w (sdn mu x) b e) -> hopping U v x a c = hopping U w x a c.
Proof.
move=> h h'; apply: eq_bigr => mu _; apply: eq_bigr => b _; congr (_ * _ + _ * _); apply: eq_bigr => e _.
  by rewrite h.
by rewrite h'.
Qed.
Lemma hopping_parity U v w x a c : even_extents G ->
  (forall y b e, even_site y = ~~ even_site x -> v y b e = w y b e) -> hopping U v x a c = hopping U w x a c.
Proof. by move=> ev h; apply: hopping_local => mu b e; apply: h; rewrite ?even_sup ?even_sdn. Qed.
Lemma even_odd_siteE o part v x a c : even_odd_site o part v x a c =
  if parity x == part then - (im_kappa o * hopping (im_lattice o) v x a c) else v x a c.
Proof. by rewrite /even_odd_site; case: ifP => // _; exact: hop_outputE. Qed.
(** In place the order of the sites has no influence. *)
Lemma in_place o order v : even_extents G -> (forall x, x \in order) ->
  feq (multiply_even_odd_in_place o 1 order v) (multiply_even_odd o 1 v).
Proof.
move=> ev full; rewrite /multiply_even_odd_in_place.
suff H (s : seq G) w : (forall y a c, w y a c = v y a c \/ (~~ even_site y /\ w y a c = even_odd_site o 1 v y a c)) ->
   forall y a c, (foldl (fun w x => fun y => if y == x then even_odd_site o 1 w x else w y) w s) y a c
     = if y \in s then even_odd_site o 1 v y a c else w y a c.
  by move=> x a c; rewrite H ?full //; move=> *; left.
elim: s w => [|x s IH] w Hw y a c //=; rewrite IH.
  rewrite inE; case: ifP => ys; first by rewrite orbT.
  rewrite orbF; case: eqP => // ->; rewrite !even_odd_siteE parity_odd; case E: (even_site x) => /=.
    by case: (Hw x a c) => // -[]; rewrite E.
  congr (- (_ * _)); apply: hopping_parity => // z b e; rewrite E /= => ez.
  by case: (Hw z b e) => // -[]; rewrite ez.
move=> z b e; case: eqP => [->|_]; last exact: Hw.
case E: (even_site x).
  by left; rewrite even_odd_siteE parity_odd E /=; case: (Hw x b e) => // -[]; rewrite E.
right; split=> //; rewrite !even_odd_siteE parity_odd E /=; congr (- (_ * _)); apply: hopping_parity => // t b' e'; rewrite E /= => et.
by case: (Hw t b' e') => // -[]; rewrite et.
Qed.

(** The diagonal part. *)
Lemma clover_term_lin U alpha v w : feq (clover_term U (combine alpha v w)) (combine alpha (clover_term U v) (clover_term U w)).
Proof.
move=> x a c; rewrite /combine /clover_term [alpha * _]mulrCA -mulrDr; congr (_ * _).
rewrite mulr_sumr -big_split; apply: eq_bigr => mu _ /=; rewrite mulr_sumr -big_split; apply: eq_bigr => nu _ /=.
rewrite mulr_sumr -big_split; apply: eq_bigr => b _ /=; rewrite [alpha * _]mulrCA -mulrDr; congr (_ * _).
by rewrite mulr_sumr -big_split; apply: eq_bigr => e _ /=; rewrite mulrDr; congr (_ + _); rewrite mulrCA.
Qed.
Lemma diagonal_lin k c U alpha v w : feq (diagonal_part k c U (combine alpha v w)) (combine alpha (diagonal_part k c U v) (diagonal_part k c U w)).
Proof.
move=> x a e; rewrite /diagonal_part clover_term_lin /combine; move: (clover_term U v x a e) (clover_term U w x a e) => p q.
cring_fold C; ring.
Qed.
Lemma clover_term_site U v w x : (forall a c, v x a c = w x a c) -> forall a c, clover_term U v x a c = clover_term U w x a c.
Proof.
move=> h a c; congr (_ * _); apply: eq_bigr => mu _; apply: eq_bigr => nu _; apply: eq_bigr => b _; congr (_ * _).
by apply: eq_bigr => e _; rewrite h.
Qed.
Lemma diagonal_site k c U v w x : (forall a e, v x a e = w x a e) -> forall a e, diagonal_part k c U v x a e = diagonal_part k c U w x a e.
Proof. by move=> h a e; rewrite /diagonal_part h (clover_term_site U h). Qed.
Lemma clover_diracE k c U v x a e : clover_dirac k c U v x a e = diagonal_part k c U v x a e - k * hopping U v x a e.
Proof. by rewrite /clover_dirac /diagonal_part /dirac addrAC. Qed.
Lemma odd_oddE adj o out v x a c : coherent o -> odd_odd_minus_identity adj o 1 out v x a c =
  if even_site x then out x a c else diagonal_part (im_kappa o) (im_csw o) (im_lattice o) v x a c - out x a c.
Proof.
move=> H; rewrite /odd_odd_minus_identity parity_odd; case: (even_site x) => //=; rewrite H the_cloverE cloverT /diagonal_part.
have -> : sgn C a = if (a < 2)%N then 1 else -1 by [].
by case: (a < 2)%N; rewrite ?mul1r ?mulN1r ?mulrN ?opprK.
Qed.

(** The rest for an array of matrices that inverts the diagonal part at the even sites. *)
Section Good.
Variables (adj : bool) (o : improved C n G) (W : matrices) (order : seq G).
Hypothesis co : coherent o.
Hypothesis ev : even_extents G.
Hypothesis full : forall x, x \in order.
Let k := im_kappa o.
Let cs := im_csw o.
Let U := im_lattice o.
Hypothesis right_inverse : forall v x a c, even_site x -> diagonal_part k cs U (even_even_inverse W v) x a c = v x a c.
Hypothesis reg : regular_diagonal k cs U.
Lemma inverse_odd v x a c : ~~ even_site x -> even_even_inverse W v x a c = v x a c.
Proof. by rewrite /even_even_inverse parity_even => /negbTE ->. Qed.
Lemma diagonal_inj v w x : even_site x -> (forall a c, diagonal_part k cs U v x a c = diagonal_part k cs U w x a c) ->
  forall a c, v x a c = w x a c.
Proof.
move=> ex h a c; have := reg (v := combine (-1) v w) ex; rewrite /combine.
move=> /(_ _ a c) /= E; apply/eqP; rewrite -subr_eq0 -mulN1r; apply/eqP; apply: E => b e.
by rewrite (diagonal_lin k cs U (-1) v w) /combine h mulN1r subrr.
Qed.
(** The field that solves the even equations. *)
Definition fill v : field := fun x a c =>
  if even_site x then - even_even_inverse W (multiply_even_odd o 0 v) x a c else v x a c.
Lemma fill_eliminated v : eliminated k cs U v (fill v).
Proof.
split=> x a c ex; first by rewrite /fill (negbTE ex).
rewrite clover_diracE.
have -> : diagonal_part k cs U (fill v) x a c = - diagonal_part k cs U (even_even_inverse W (multiply_even_odd o 0 v)) x a c.
  rewrite (diagonal_site _ _ _ (w := combine (-1) (fun _ _ _ => 0) (even_even_inverse W (multiply_even_odd o 0 v)))); last first.
    by move=> b e; rewrite /fill ex /combine add0r mulN1r.
  rewrite diagonal_lin /combine mulN1r {1}/diagonal_part [clover_term _ _ _ _ _](_ : _ = 0) ?mulr0 ?addr0 ?add0r //.
  rewrite /clover_term big1 ?mulr0 // => mu _; rewrite big1 // => nu _; rewrite big1 // => b _.
  by rewrite big1 ?mulr0 // => e _; rewrite mulr0.
rewrite right_inverse // /multiply_even_odd even_odd_siteE parity_even ex opprK.
rewrite (hopping_parity (v := fill v) (w := v) U a c ev) ?subrr // => y b e ey.
by rewrite /fill ey ex.
Qed.
Lemma eliminated_unique v w : eliminated k cs U v w -> feq w (fill v).
Proof.
move=> [h1 h2]; have [f1 f2] := fill_eliminated v; move=> x a c; case ex: (even_site x); last first.
  by rewrite h1 ?ex // f1 // ex.
move: a c; apply: diagonal_inj => // a c.
have := h2 x a c ex; have := f2 x a c ex; rewrite !clover_diracE => /eqP; rewrite subr_eq0 => /eqP -> /eqP; rewrite subr_eq0 => /eqP ->.
by congr (_ * _); apply: hopping_parity => // y b e; rewrite ex /= => ey; rewrite h1 ?ey // f1 // ey.
Qed.
(** The operator. *)
Lemma eo_coreE v : feq (eo_core adj o W order v) (reduced_operator k cs (im_gamma5 o) U v (fill v)).
Proof.
move=> x a c; rewrite /eo_core /reduced_operator parity_even; case ex: (even_site x) => //.
rewrite maybe5E /sg5.
have -> : odd_odd_minus_identity adj o 1 (multiply_even_odd_in_place o 1 order
    (even_even_inverse W (multiply_even_odd o 0 v))) v x a c = clover_dirac k cs U (fill v) x a c; last by [].
rewrite odd_oddE // ex in_place // /multiply_even_odd even_odd_siteE parity_odd ex opprK clover_diracE.
have -> : diagonal_part k cs U (fill v) x a c = diagonal_part k cs U v x a c.
  by apply: diagonal_site => b e; rewrite /fill ex.
congr (_ + _); rewrite -mulrN; congr (_ * _).
have -> : hopping U (fill v) x a c = hopping U (combine (-1) (fun _ _ _ => 0) (even_even_inverse W (multiply_even_odd o 0 v))) x a c.
  by apply: hopping_parity => // y b e; rewrite ex /= => ey; rewrite /fill ey /combine add0r mulN1r.
rewrite FForceProofs2.hopping_linear /combine mulN1r [hopping U _ x a c](_ : _ = 0) ?sub0r ?opprK //.
rewrite /hopping big1 // => mu _; rewrite big1 // => b _.
by rewrite !big1 ?mulr0 ?addr0 // => e _; rewrite mulr0.
Qed.
End Good.
End Proofs.

(** Gauge covariance, the mass, the propagators and the chiral rotations. *)
From Coq Require Import List Ring.
From Verif Require Import Base SolverModel.
From mathcomp Require Import all_ssreflect all_algebra.
From Verif Require Import GaugeModel GaugeSpec GaugeProofs GaugeProofs2 GammaModel DiracModel DiracSpec DiracProofs DiracProofs2 SolverSpec SolverProofs
  PertProofs VecProofs FForceModel FForceSpec FForceProofs2 ExpSpec EigProofs OverlapModel OverlapSpec OverlapProofs OverlapProofs2 OverlapProofs3.
Import GRing.Theory Num.Theory Order.POrderTheory.
Set Implicit Arguments.
Unset Strict Implicit.
Unset Printing Implicit Defensive.
Local Open Scope ring_scope.

Lemma polymx_between (C : numClosedFieldType) m (q : {poly C}) (A A' B : 'M[C]_m) :
  A' *m B = B *m A -> polymx q A' *m B = B *m polymx q A.
Proof.
move=> h; have I i : iter i (mulmx A') 1%:M *m B = B *m iter i (mulmx A) 1%:M.
  elim: i => [|i IH] /=; first by rewrite mul1mx mulmx1.
  by rewrite -mulmxA IH mulmxA h mulmxA.
by rewrite /polymx mulmx_suml mulmx_sumr; apply: eq_bigr => i _; rewrite -scalemxAl -scalemxAr I.
Qed.

Section Gauge.
Variable C : numClosedFieldType.
Variable n : nat.
Variable L : lattice.
Notation field := (L -> 'I_4 -> 'I_n -> C) (only parsing).
Notation links := (L -> 'I_4 -> 'M[C]_n) (only parsing).
Notation T := [finType of L * 'I_4 * 'I_n].
Notation N := #|T|.
Notation e0 := ((0, fun _ _ _ => 0) : C * (L -> 'I_4 -> 'I_n -> C)).
Implicit Types (U : links) (v w : field) (es : seq (C * (L -> 'I_4 -> 'I_n -> C))).
Variables (k : C).
Notation Sm := (Sm k).
Notation Qm := (Qm k).
Notation Gm := (Gm C n L).
Variable om : L -> 'M[C]_n.
Hypothesis uom : forall x, unitary (om x).
Definition Rot : 'M[C]_N := opmx (rotate om).
Lemma rotate_lin : linear_op (rotate om).
Proof.
split=> [v w e|al v w]; first exact: rotate_ext.
by move=> x a c; rewrite /rotate /combine mulr_sumr -big_split; apply: eq_bigr => e _; rewrite mulrDr mulrCA.
Qed.
Lemma vec_rot v : vec (rotate om v) = Rot *m vec v.
Proof. by rewrite vec_op //; exact: rotate_lin. Qed.
Lemma Rot_Q U : Qm (gauge_transform om U) *m Rot = Rot *m Qm U.
Proof.
apply: mx_ext => v; rewrite -!mulmxA -vec_Q -!vec_rot -vec_Q; apply: vec_ext => x a c.
rewrite /hermitian_dirac (g5_ext (dirac_gauge k U v uom)); exact: g5_rotate.
Qed.
Lemma Rot_G : Gm *m Rot = Rot *m Gm.
Proof. by apply: mx_ext => v; rewrite -!mulmxA -vec_g5 -!vec_rot -vec_g5; apply: vec_ext; exact: g5_rotate. Qed.
Lemma Rot_S U q : Sm (gauge_transform om U) q *m Rot = Rot *m Sm U q.
Proof.
rewrite /OverlapProofs.Sm -mulmxA (@polymx_between _ _ q (Qm U *m Qm U)); first by rewrite !mulmxA Rot_Q.
by rewrite -mulmxA Rot_Q mulmxA Rot_Q mulmxA.
Qed.
Lemma Dm_between (S S' B : 'M[C]_N) ms g : Gm *m B = B *m Gm -> S' *m B = B *m S -> Dm S' ms g *m B = B *m Dm S ms g.
Proof.
move=> h e; rewrite /Dm; case: g.
  by rewrite mulmxDl mulmxDr -!scalemxAl -!scalemxAr h e.
rewrite mulmxDl mulmxDr -!scalemxAl -!scalemxAr mul_scalar_mx mul_mx_scalar -mulmxA e mulmxA h mulmxA //.
Qed.
Lemma Rot_unitary : htrans Rot *m Rot = 1%:M.
Proof.
apply: quad_ext => u w; rewrite -mulmxA mul1mx.
have -> : quad u (htrans Rot *m (Rot *m w)) = quad (Rot *m u) (Rot *m w) by rewrite /quad htransM mulmxA.
rewrite -(unvecK u) -(unvecK w) -!vec_rot -!innerE; move: (unvec u) (unvec w) => v v'.
apply: eq_bigr => x _; apply: eq_bigr => a _; rewrite /rotate.
have h : forall i j : 'I_n, \sum_c (om x c i)^* * om x c j = (i == j)%:R.
  move=> i j; have /matrixP/(_ i j) := mulmx1C (uom x); rewrite !mxE => <-.
  by apply: eq_bigr => c _; rewrite !mxE.
under eq_bigr => c _ do rewrite rmorph_sum big_distrlr /=.
rewrite exchange_big /=; apply: eq_bigr => i _.
rewrite exchange_big /=.
rewrite (bigD1 i) //= [X in _ + X]big1 ?addr0 => [|j ji].
  under eq_bigr => c _ do rewrite rmorphM mulrACA.
  by rewrite -mulr_suml h eqxx mul1r.
under eq_bigr => c _ do rewrite rmorphM mulrACA.
by rewrite -mulr_suml h eq_sym (negbTE ji) mul0r.
Qed.
(** The eigenvectors rotated with the links. *)
Definition rotated es := [seq (p.1, rotate om p.2) | p <- es].
Lemma Em_rot es : Pi (rotated es) = Rot *m Pi es *m htrans Rot /\ Sg (rotated es) = Rot *m Sg es *m htrans Rot.
Proof.
have H (f : C * field -> C) : (forall p q : C * field, p.1 = q.1 -> f p = f q) ->
  (Em (rotated es) *m diag_mx (\row_j f (nth e0 (rotated es) j)) *m htrans (Em (rotated es)))
  = Rot *m (Em es *m diag_mx (\row_j f (nth e0 es j)) *m htrans (Em es)) *m htrans Rot.
  move=> hf; apply/matrixP => a b.
  pose g p := f p * vec p.2 a ord0 * (vec p.2 b ord0)^*.
  have E es' : (Em es' *m diag_mx (\row_j f (nth e0 es' j)) *m htrans (Em es')) a b = \sum_(p <- es') g p.
    rewrite big_es mxE; apply: eq_bigr => j _; by rewrite mul_mx_diag !mxE [_ * f _]mulrC /g !mxE.
  rewrite E /rotated big_map /g.
  have -> : Rot *m (Em es *m diag_mx (\row_j f (nth e0 es j)) *m htrans (Em es)) *m htrans Rot
    = (Rot *m Em es) *m diag_mx (\row_j f (nth e0 es j)) *m htrans (Rot *m Em es) by rewrite htransM !mulmxA.
  rewrite big_es [RHS]mxE; apply: eq_bigr => j _.
  rewrite mul_mx_diag [X in _ = X * _]mxE [X in _ = (_ * X) * _]mxE [X in _ = _ * X]mxE [X in _ = _ * X]mxE.
  rewrite (hf (_, _) (nth e0 es j)) // [_ * f _]mulrC; congr (_ * _ * _^*);
    by rewrite vec_rot -[LHS]/((_ *m _) _ _) -col_Em !mxE; apply: eq_bigr => i _; rewrite !mxE.
split; last by apply: (H (@sg _ _ _)) => p q; rewrite /sg => ->.
have := H (fun _ => 1) (fun _ _ _ => erefl).
have D m : diag_mx (\row_(j < m) (1 : C)) = 1%:M :> 'M[C]_m by apply/matrixP => i j; rewrite !mxE.
by rewrite !D !mulmx1.
Qed.
Lemma Rot_De es U q : De (rotated es) (Sm (gauge_transform om U) q) *m Rot = Rot *m De es (Sm U q).
Proof.
have [hP hS] := Em_rot es; have uR := Rot_unitary; have := Rot_S U q; rewrite /De hP hS.
move: (Sm _ q) (Sm U q) (Sg es) (Pi es) (Rot) uR => S' S G P O uR h.
rewrite mulmxDl [RHS]mulmxDr -(mulmxA (O *m G)) uR mulmx1; congr (_ + _).
rewrite -(mulmxA S') mulmxBl mul1mx -(mulmxA (O *m P)) uR mulmx1.
have -> : O - O *m P = O *m (1%:M - P) by rewrite mulmxBr mulmx1.
by rewrite mulmxA h -mulmxA.
Qed.
End Gauge.

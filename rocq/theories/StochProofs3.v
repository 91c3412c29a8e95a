(** Proofs: linear operators on fields, the trace, the inverse, the estimators. *)
From Coq Require Import ZArith.
From mathcomp Require Import all_ssreflect all_algebra.
From Verif Require Import GaugeModel GaugeProofs LoopModel GammaModel GammaSpec GammaProofs DiracModel DiracSpec DiracProofs DiracProofs2.
From Verif Require Import PertProofs VecProofs StochModel StochSpec StochProofs StochProofs2.
Import GRing.Theory Num.Theory.
Set Implicit Arguments.
Unset Strict Implicit.
Unset Printing Implicit Defensive.
Local Open Scope ring_scope.

Section Field.
Variable C : numClosedFieldType.
Variable n : nat.
Variable L : lattice.
Notation field := (L -> 'I_4 -> 'I_n -> C) (only parsing).
Notation T := [finType of L * 'I_4 * 'I_n].
Implicit Types (A B D S : field -> field) (v w : field) (i j : T).
Definition at_ v j : C := v j.1.1 j.1.2 j.2.
Lemma inner_at v w : inner v w = \sum_j (at_ v j)^* * at_ w j.
Proof. by rewrite /inner pair_big /= pair_big /=; apply: eq_bigr => [[[x a] c]] _. Qed.
Lemma unit_delta j : feq (unvec (delta_mx (enum_rank j) ord0)) (unit_field C j).
Proof. by move=> x a c; rewrite /unvec mxE eqxx andbT (inj_eq enum_rank_inj). Qed.
Lemma op_expand A v i : linear_on A -> at_ (A v) i = \sum_j element A i j * at_ v j.
Proof.
move=> lin; have e := vec_op v lin.
have -> : at_ (A v) i = vec (A v) (enum_rank i) ord0 by case: i => [[x a] c]; rewrite vecE.
rewrite e mxE (reindex (fun t : T => enum_rank t)) /=; last by exists enum_val => k _; rewrite ?enum_rankK ?enum_valK.
apply: eq_bigr => j _; congr (_ * _); last by case: j => [[x a] c]; rewrite vecE.
by rewrite /opmx mxE (vec_ext (lin.1 _ _ (unit_delta j))); case: i => [[x a] c]; rewrite vecE.
Qed.
(** Sums of linear operators and products. *)
Lemma lin_comp A B : linear_on A -> linear_on B -> linear_on (fun v => A (B v)).
Proof.
move=> [ea la] [eb lb]; split=> [v w h|al v w]; first by apply: ea; exact: eb.
move=> x a c; rewrite (ea _ _ (lb al v w)) la //.
Qed.
Lemma lin_iter A h : linear_on A -> linear_on (iter h A).
Proof.
move=> lin; elim: h => [|h IH]; first by split.
exact: (lin_comp lin IH).
Qed.
Lemma lin_g5 : linear_on (@g5 C n L).
Proof.
split=> [v w h|al v w] x a c; first by apply: eq_bigr => b _; rewrite h.
by rewrite !g5E /combine !g5E mulrDr [X in _ + X]mulrCA.
Qed.
Lemma lin_spin k : linear_on (@spin_product C n L k).
Proof.
split=> [v w h|al v w] x a c; first by apply: eq_bigr => b _; rewrite h.
rewrite /combine mulr_sumr -big_split; apply: eq_bigr => b _ /=; by rewrite mulrDr [X in _ + X]mulrCA.
Qed.
Lemma lin_minus A : linear_on A -> linear_on (minus_one A).
Proof.
move=> [e l]; split=> [v w h|al v w] x a c; first by rewrite /minus_one (e _ _ h) h.
by rewrite /minus_one l /combine opprD mulrBr addrACA.
Qed.
(** The noise and the quadratic form. *)
Implicit Types t : tape n L.
Lemma noise_sg t j : at_ (noise C t) j = sg C t j.
Proof. by case: j => [[x a] c]. Qed.
Lemma dot_form A t : linear_on A -> dot (noise C t) (A (noise C t)) = form predT (element A) t.
Proof.
move=> lin; rewrite dotE inner_at; apply: eq_bigr => i _; rewrite noise_sg sg_conj op_expand // mulr_sumr.
by apply: eq_bigr => j _; rewrite noise_sg.
Qed.
Lemma trace_average A : linear_on A ->
  average (fun t => dot (noise C t) (A (noise C t))) = trace_of A
  /\ spread (fun t => dot (noise C t) (A (noise C t))) = \sum_i \sum_(j | j != i) (`|element A i j| ^+ 2 + element A i j * (element A j i)^*).
Proof.
move=> lin; split; first by rewrite (avg_ext (fun t => dot_form t lin)) avg_form.
have -> : spread (fun t => dot (noise C t) (A (noise C t))) = spread (form predT (element A)).
  rewrite /spread (avg_ext (fun t => dot_form t lin)); apply: avg_ext => t; by rewrite dot_form.
by rewrite spread_form.
Qed.
(** A solver of the equations of a linear operator is its inverse. *)
Section Inverse.
Variables D S : field -> field.
Hypothesis linD : linear_on D.
Hypothesis sol : solves D S.
Definition smx : 'M[C]_(#|T|) := \matrix_(i, j) vec (S (unvec (delta_mx j ord0))) i ord0.
Lemma smx_right : opmx D *m smx = 1%:M.
Proof.
apply/matrixP => i j; have := congr1 (fun u : 'cV_(#|T|) => u i ord0) (vec_op (S (unvec (delta_mx j ord0))) linD).
rewrite (vec_ext (sol _)) unvecK [LHS]mxE eqxx andbT => e; rewrite [RHS]mxE e !mxE; apply: eq_bigr => k _.
by rewrite [smx k j]mxE.
Qed.
Lemma smx_left : smx *m opmx D = 1%:M.
Proof. exact: mulmx1C smx_right. Qed.
Lemma vec_solve v : vec (S v) = smx *m vec v.
Proof. by rewrite -[LHS]mul1mx -smx_left -mulmxA -(vec_op _ linD) (vec_ext (sol v)). Qed.
Lemma lin_solve : linear_on S.
Proof.
split=> [v w h|al v w].
  by apply: vec_inj; rewrite !vec_solve (vec_ext h).
apply: vec_inj; rewrite vec_solve.
have vc p q : vec (combine al p q) = vec p + al *: vec q by apply/matrixP => i k; rewrite !mxE.
by rewrite !vc !vec_solve mulmxDr scalemxAr.
Qed.
Lemma solve_left : solves S D.
Proof. by move=> v; apply: vec_inj; rewrite vec_solve vec_op // mulmxA smx_left mul1mx. Qed.
Lemma solve_unique S' : solves D S' -> forall v, feq (S' v) (S v).
Proof.
move=> sol' v x a c; rewrite -(solve_left (S' v) x a c); exact: (lin_solve.1 _ _ (sol' v)).
Qed.
End Inverse.
(** The hopping expansion. *)
Lemma hop_step D S v : solves D S -> feq (S v) (combine (-1) v (minus_one D (S v))).
Proof. by move=> sol x a c; rewrite /combine /minus_one mulN1r opprB (sol v) addrCA subrr addr0. Qed.
Lemma inner_combine al v w p : inner p (combine al v w) = inner p v + al * inner p w.
Proof.
rewrite !inner_at mulr_sumr -big_split; apply: eq_bigr => j _ /=.
by rewrite {1}/at_ /combine mulrDr [X in _ + X]mulrCA.
Qed.
Lemma gamma_spin k v : (k < 16)%N -> feq (gamma_multiply k v) (spin_product k v).
Proof.
move=> k16 x a c; have n0 : (0 < n)%coq_nat by apply/ltP; case: n c => [[]|m _].
apply: eq_bigr => b _; congr (_ * _).
have := @copy_blocks_eq (List.nth k chroma_table nil) n 0 0 a b n0 n0 (elimT ltP (ltn_ord a)) (elimT ltP (ltn_ord b)).
rewrite /= /gamma_chroma => ->; congr (gc C _).
exact: (@chroma_eq k (elimT ltP k16) a b (elimT ltP (ltn_ord a)) (elimT ltP (ltn_ord b))).
Qed.
End Field.

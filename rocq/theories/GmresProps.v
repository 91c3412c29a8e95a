(** C77: the minimal residual solver GMRESR. *)
From mathcomp Require Import all_ssreflect all_algebra all_field.
From Verif Require Import GaugeModel GaugeProofs3 DiracModel DiracSpec VecProofs GmresModel GmresSpec GmresProofs GmresProofs2 GmresProofs3.
Import GRing.Theory Num.Theory Order.POrderTheory.
Set Implicit Arguments.
Unset Strict Implicit.
Unset Printing Implicit Defensive.
Local Open Scope ring_scope.

(** With any preconditioner, linear or not, any dimension of the conjugate space and any first guess: success means that
    the true residual is below the precision, and the residual of the vector returned never exceeds that of the guess. *)
Theorem C77_success (C : numClosedFieldType) m (o : gm_object) (cs us : seq 'cV[C]_m) maxSteps (eps : C) (M : 'M[C]_m)
    (P : option ('cV[C]_m -> 'cV[C]_m)) (b rnd : 'cV[C]_m) guess :
  let x0 := gm_start eps b rnd guess in
  match gm_solve o cs us maxSteps eps (mulmx M) P b rnd guess with
  | GConverged x last => [/\ residual2 M b x < eps, residual2 M b x <= residual2 M b x0 & (last < maxSteps)%N]
  | GFailed x => residual2 M b x <= residual2 M b x0
  | _ => True end.
Proof.
have := loop_spec P eps maxSteps (start_inv o M b (gm_start eps b rnd guess) cs us).
by rewrite /gm_solve; case: gm_loop => //= [x l|x]; rewrite !residual2E.
Qed.

(** Without a preconditioner a cycle is optimal: no polynomial in M, applied to the first residual, with as many
    coefficients as steps were made gives a smaller residual. *)
Theorem C77_optimal (C : numClosedFieldType) m (o : gm_object) (cs us : seq 'cV[C]_m) maxSteps (eps : C) (M : 'M[C]_m)
    (b rnd : 'cV[C]_m) guess :
  let x0 := gm_start eps b rnd guess in
  match gm_solve o cs us maxSteps eps (mulmx M) None b rnd guess with
  | GConverged x last => (last < dimension o)%N ->
      forall p : 'I_last.+1 -> C, residual2 M b x <= residual2 M b (krylov M b x0 p)
  | GFailed x => (maxSteps <= dimension o)%N ->
      forall p : 'I_maxSteps -> C, residual2 M b x <= residual2 M b (krylov M b x0 p)
  | _ => True end.
Proof. exact: solve_optimal. Qed.

(** If the Hermitian part of M is positive definite and the first guess is not a solution, there is no division by zero
    and every run ends closer to a solution than it began. *)
Theorem C77_progress (C : numClosedFieldType) m (o : gm_object) (cs us : seq 'cV[C]_m) maxSteps (eps : C) (M : 'M[C]_m)
    (b rnd : 'cV[C]_m) guess :
  let x0 := gm_start eps b rnd guess in
  positive_part M -> M *m x0 != b -> 0 < eps -> (0 < dimension o)%N -> (dimension o <= allocated o)%N -> (0 < maxSteps)%N ->
  exists x, residual2 M b x < residual2 M b x0 /\
    (gm_solve o cs us maxSteps eps (mulmx M) None b rnd guess = GFailed x \/
     exists last, gm_solve o cs us maxSteps eps (mulmx M) None b rnd guess = GConverged x last).
Proof. exact: solve_progress. Qed.

(** With bounds on M the residual falls geometrically, whatever the dimension of the conjugate space. *)
Theorem C77_rate (C : numClosedFieldType) m (o : gm_object) (cs us : seq 'cV[C]_m) maxSteps (eps : C) (M : 'M[C]_m)
    (b rnd : 'cV[C]_m) guess (lambda Lambda : C) x :
  0 <= lambda -> 0 < Lambda ->
  (forall v : 'cV[C]_m, lambda * (\sum_i `|v i ord0| ^+ 2) <= 'Re (\sum_i (v i ord0)^* * (M *m v) i ord0)) ->
  (forall v : 'cV[C]_m, \sum_i `|(M *m v) i ord0| ^+ 2 <= Lambda * (\sum_i `|v i ord0| ^+ 2)) ->
  gm_solve o cs us maxSteps eps (mulmx M) None b rnd guess = GFailed x ->
  residual2 M b x <= (1 - lambda ^+ 2 / Lambda) ^+ maxSteps * residual2 M b (gm_start eps b rnd guess).
Proof.
move=> l0 L0 low high E.
have low' v : lambda * gnorm v <= 'Re (gdot v (M *m v)) by rewrite gnormE; exact: low.
have high' v : gnorm (M *m v) <= Lambda * gnorm v by rewrite !gnormE; exact: high.
have := loop_rate l0 L0 low' high' eps maxSteps (start_inv o M b (gm_start eps b rnd guess) cs us).
by move: E; rewrite /gm_solve => ->; rewrite !residual2E.
Qed.

(** The memory: a dimension from one to the number of vectors allocated is safe for every operator, and every copy of a
    solver is. *)
Theorem C77_defined (C : numClosedFieldType) m (o : gm_object) (cs us : seq 'cV[C]_m) maxSteps (eps : C) A P b rnd guess :
  (0 < dimension o)%N -> (dimension o <= allocated o)%N ->
  gm_solve o cs us maxSteps eps A P b rnd guess <> GUndefined C m.
Proof. by move=> d0 da; exact: loop_defined. Qed.

(** setConjugateSpaceDimension does not allocate: every dimension above the thirteen vectors of the constructor has runs
    that write outside the arrays, and dimension zero always divides by zero. *)
Theorem C77_dimension_refuted (C : numClosedFieldType) d :
  (13 < d)%N -> exists (M : 'M[C]_14) (P : 'cV[C]_14 -> 'cV[C]_14) (b rnd x0 : 'cV[C]_14), forall cs us n,
  gm_solve (gm_set_dimension d gm_new) cs us (14 + n) 1 (mulmx M) (Some P) b rnd (Some x0) = GUndefined C 14.
Proof. exact: dimension_refuted. Qed.
Theorem C77_dimension_zero_refuted (C : numClosedFieldType) m o (cs us : seq 'cV[C]_m) n eps A P b rnd guess :
  gm_solve (gm_set_dimension 0 o) cs us n.+1 eps A P b rnd guess = GUndefined C m.
Proof. by []. Qed.

(** There is no test before the first step: a first guess which is already the solution is turned into NaNs. *)
Theorem C77_exact_guess_refuted (C : numClosedFieldType) m (o : gm_object) (cs us : seq 'cV[C]_m) n (eps : C) (M : 'M[C]_m)
    (b rnd : 'cV[C]_m) guess :
  (0 < dimension o)%N -> (dimension o <= allocated o)%N -> M *m gm_start eps b rnd guess = b ->
  gm_solve o cs us n.+1 eps (mulmx M) None b rnd guess = GNotANumber C m.
Proof. by move=> d0 da E; apply: exact_nan => //; rewrite ?mulmx0 //= E subrr. Qed.

(** This happens in the Schwarz preconditioner: its block operators (gamma5 off) leave a source outside the block
    unchanged, so the default guess solves the equation and the block solver returns NaNs. *)
Theorem C77_block_source_refuted (C : numClosedFieldType) n (L : lattice) (blk : L -> bool) (kappa : C)
    (U : L -> 'I_4 -> 'M[C]_n) (b : L -> 'I_4 -> 'I_n -> C) cs us steps eps rnd :
  (forall x a c, blk x -> b x a c = 0) -> eps < gnorm (vec b) ->
  feq (block_multiply blk kappa 0 false U b) b /\
  gm_solve gm_new cs us steps.+1 eps (fun w => vec (block_multiply blk kappa 0 false U (unvec w))) None (vec b) rnd None
    = GNotANumber C _.
Proof. exact: block_refuted. Qed.

(** The matrix ((1, 1), (-1, 1)): its Hermitian part is 1 and it doubles squared norms, so every step at least halves the
    squared residual. *)
Definition case_matrix : 'M[algC]_2 := \matrix_(i, j) (if (j < i)%N then -1 else 1).
Lemma case_low (v : 'cV[algC]_2) : 'Re (\sum_i (v i ord0)^* * (case_matrix *m v) i ord0) = \sum_i `|v i ord0| ^+ 2.
Proof.
rewrite !big_ord_recl !big_ord0 !mxE !big_ord_recl !big_ord0 !mxE /= !addr0 !mul1r mulN1r.
rewrite (_ : lift ord0 ord0 = ord_max); last exact: val_inj.
move: (v ord0 ord0) (v ord_max ord0) => x y.
have -> : x^* * (x + y) + y^* * (- x + y) = (`|x| ^+ 2 + `|y| ^+ 2) + (x^* * y - (x^* * y)^*).
  by rewrite alg_low !normCK rmorphM conjCK.
rewrite (raddfD (Re_additive _)) (raddfB (Re_additive _)) /= Re_conj subrr addr0.
by apply/Creal_ReP; rewrite ger0_real // addr_ge0 ?exprn_ge0.
Qed.
Lemma case_high (v : 'cV[algC]_2) : \sum_i `|(case_matrix *m v) i ord0| ^+ 2 = 2%:R * \sum_i `|v i ord0| ^+ 2.
Proof.
rewrite !big_ord_recl !big_ord0 !mxE !big_ord_recl !big_ord0 !mxE /= !addr0 !mul1r mulN1r.
rewrite (_ : lift ord0 ord0 = ord_max); last exact: val_inj.
move: (v ord0 ord0) (v ord_max ord0) => x y.
by rewrite !normCK !rmorphD !rmorphN alg_high.
Qed.
Example C77_case (b : 'cV[algC]_2) (o := gm_set_dimension 2 gm_new) cs us x :
  gm_solve o cs us 10 (10%:R^-1) (mulmx case_matrix) None b 0 (Some 0) = GFailed x ->
  residual2 case_matrix b x <= (1 - 1 ^+ 2 / 2%:R) ^+ 10 * residual2 case_matrix b 0.
Proof.
apply: C77_rate; rewrite ?ler01 ?ltr0n // => v; first by rewrite mul1r case_low.
by rewrite case_high.
Qed.
Example C77_case_positive : positive_part case_matrix.
Proof.
move=> v v0; rewrite case_low -gnormE lt_def gnorm_ge0 andbT; apply: contraNneq v0 => /gnorm_eq0 ->; exact: eqxx.
Qed.
(** A source of norm 4 outside the block of the first site of two. *)
Example C77_case_block :
  let blk : box 1 0 0 0 -> bool := fun x => x == (ord0, ord0, ord0, ord0) in
  let b : box 1 0 0 0 -> 'I_4 -> 'I_2 -> algC := fun x a c => if blk x then 0 else 1 in
  forall x a c, blk x -> b x a c = 0.
Proof. by move=> blk b x a c h; rewrite /b h. Qed.

Print Assumptions C77_success.
Print Assumptions C77_optimal.
Print Assumptions C77_progress.
Print Assumptions C77_rate.
Print Assumptions C77_defined.
Print Assumptions C77_dimension_refuted.
Print Assumptions C77_dimension_zero_refuted.
Print Assumptions C77_exact_guess_refuted.
Print Assumptions C77_block_source_refuted.

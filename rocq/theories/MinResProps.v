(** C92: the minimal residual and the chronological multishift solvers. *)
From Coq Require Import List.
From Verif Require Import Base.
From mathcomp Require Import all_ssreflect all_algebra all_field.
From Verif Require Import SolverModel SolverSpec SolverProofs SolverProofs2 GmresModel MgSolveModel MgSolveProofs2 MinResModel MinResSpec MinResProofs.
Import GRing.Theory Num.Theory Order.POrderTheory.
Set Implicit Arguments.
Unset Strict Implicit.
Unset Printing Implicit Defensive.
Local Open Scope ring_scope.

(** minimal_residual: with negative shifts first and the smallest of the others last, success means that every shift is
    solved, although only the residual of the last one is tested. *)
Theorem C92_solved (C : numClosedFieldType) m maxSteps (A : 'cV[C]_m -> 'cV[C]_m) mad (eps : C) (b : 'cV[C]_m) size (negative middle : seq C) last xs :
  linear_op A -> adds A mad -> nonnegative_op A ->
  all (fun s => s < 0) negative -> all (fun s => last <= s) middle -> 0 <= last ->
  mm_solve maxSteps mad eps b size (negative ++ middle ++ [:: last]) = Ok (true, xs) ->
  List.Forall2 (solved A eps b) (negative ++ middle ++ [:: last]) xs.
Proof. exact: solve_sound. Qed.
(** And it succeeds: the residual falls by 1 - 399/400 mu^2/Lambda in every step, if mu |v|^2 <= <v, (A + last) v> and
    |(A + last) v|^2 <= Lambda |v|^2. *)
Theorem C92_converges (C : numClosedFieldType) m maxSteps (A : 'cV[C]_m -> 'cV[C]_m) mad (eps : C) (b : 'cV[C]_m) size (middle : seq C) last mu Lambda :
  linear_op A -> adds A mad -> nonnegative_op A ->
  all (fun s => last <= s) middle -> 0 <= last -> (seq.size middle < size)%N ->
  spectrum_within (shifted A last) mu Lambda -> 0 < mu -> 0 < eps -> b != 0 -> (0 < maxSteps)%N ->
  (1 - 399%:R / 400%:R * (mu ^+ 2 / Lambda)) ^+ maxSteps * (\sum_i `|b i ord0| ^+ 2) < eps ->
  exists2 xs, mm_solve maxSteps mad eps b size (middle ++ [:: last]) = Ok (true, xs)
    & List.Forall2 (solved A eps b) (middle ++ [:: last]) xs.
Proof.
move=> lA aA pA hm t0 hs sw m0 e0 b0 n0 hq.
have [|xs h] := solve_converges lA aA pA hm t0 hs sw m0 e0 b0 n0 (mad := mad).
  by apply: le_lt_trans hq; rewrite (_ : scalar_product b b = \sum_i `|b i ord0| ^+ 2) //; apply: eq_bigr => i _; rewrite normCK mulrC.
by exists xs => //; exact: (@C92_solved C m maxSteps A mad eps b size [::] middle last xs).
Qed.
(** For every order of the shifts and every linear operator the residual of the last shift does not exceed the source,
    and success means that this shift is solved. *)
Theorem C92_last (C : numClosedFieldType) m maxSteps (A : 'cV[C]_m -> 'cV[C]_m) mad (eps : C) (b : 'cV[C]_m) size (shifts : seq C) last ok xs x :
  linear_op A -> adds A mad -> mm_solve maxSteps mad eps b size (rcons shifts last) = Ok (ok, rcons xs (Some x)) ->
  residual_norm (shifted A last) b x <= \sum_i `|b i ord0| ^+ 2 /\ (ok -> residual_norm (shifted A last) b x < eps).
Proof.
move=> lA aA h; have := solve_last lA aA h.
by rewrite (_ : scalar_product b b = \sum_i `|b i ord0| ^+ 2) //; apply: eq_bigr => i _; rewrite normCK mulrC.
Qed.
(** But not the others: with A = 1 and the shifts 0 and 19, in this order, success is reported for a precision that the
    solution of the first shift misses. *)
Theorem C92_unordered_refuted (C : numClosedFieldType) m maxSteps (eps : C) (b : 'cV[C]_m) size : (1 < size)%N -> b != 0 ->
  let norm := \sum_i `|b i ord0| ^+ 2 in
  400%:R^-1 * norm < eps -> eps <= (20%:R / 39%:R) ^+ 2 * norm ->
  exists x y, mm_solve maxSteps.+1 (fun v w a => v + a *: w) eps b size [:: 0; 19%:R] = Ok (true, [:: Some x; Some y])
    /\ ~~ (residual_norm (shifted id 0) b x < eps).
Proof.
move=> hs b0 norm h1 h2.
have nE : scalar_product b b = norm by apply: eq_bigr => i _; rewrite normCK mulrC.
exists ((19%:R / 39%:R) *: b), ((19%:R / 400%:R) *: b); split; first by apply: unordered => //; rewrite nE.
have d0 : 39%:R != 0 :> C by rewrite pnatr_eq0.
have e : 1 - 19%:R / 39%:R = 20%:R / 39%:R :> C.
  by apply: (mulIf d0); rewrite mulrBl mul1r !divfK // -(natrB _ (_ : 19 <= 39)%N).
rewrite residualE /shifted scale0r addr0 -{1 3}[b]scale1r -scalerBl e spZr spZl nE.
rewrite (geC0_conj (_ : 0 <= 20%:R / 39%:R)) ?divr_ge0 ?ler0n // mulrA -expr2.
by rewrite le_gtF.
Qed.
(** If all the shifts are negative, or there is none, the solver reads past their end. *)
Theorem C92_negative_refuted (C : numClosedFieldType) m maxSteps mad (eps : C) (b : 'cV[C]_m) size (shifts : seq C) :
  all (fun s => s < 0) shifts -> mm_solve maxSteps mad eps b size shifts = UB.
Proof. exact: solve_undefined. Qed.

(** chronological_mass_estrapolation: the guess for a shift is the best combination of the two vectors it is made of. *)
Theorem C92_guess (C : numClosedFieldType) m (A : 'cV[C]_m -> 'cV[C]_m) mad (b : 'cV[C]_m) s x h g : linear_op A -> adds A mad ->
  chrono_guess mad b s x h = Some g ->
  forall a c, residual_norm (shifted A s) b g <= residual_norm (shifted A s) b (a *: x + c *: h).
Proof. exact: guess_best. Qed.
(** There is none exactly if the operator makes them linearly dependent. *)
Theorem C92_guess_exists (C : numClosedFieldType) m (A : 'cV[C]_m -> 'cV[C]_m) mad (b : 'cV[C]_m) s x h : linear_op A -> adds A mad ->
  (chrono_guess mad b s x h = None <->
   exists a c, ((a != 0) || (c != 0)) /\ a *: shifted A s x + c *: shifted A s h = 0).
Proof. exact: guess_none. Qed.
(** Whatever was in the memory of the solutions, success means that every shift is solved. *)
Theorem C92_chronological (C : numClosedFieldType) m maxSteps (A : 'cV[C]_m -> 'cV[C]_m) mad (eps : C) (b : 'cV[C]_m) size (shifts : seq C) olds xs :
  linear_op A -> adds A mad -> chrono_solve maxSteps.+1 mad eps b size shifts olds = Ok (true, xs) ->
  List.Forall2 (solved A eps b) shifts xs.
Proof. exact: chrono_sound. Qed.
(** But the second vector of the guess is such memory, which nothing has written.  If it holds zeros the solver fails for
    every operator and source: all the solutions after the first one are NaN. *)
Theorem C92_memory_refuted (C : numClosedFieldType) m maxSteps (A : 'cV[C]_m -> 'cV[C]_m) mad (eps : C) (b : 'cV[C]_m) size s s' (shifts : seq C) k :
  linear_op A -> adds A mad -> (seq.size shifts + 2 <= size)%N ->
  exists x, chrono_solve maxSteps.+1 mad eps b size [:: s, s' & shifts] (nseq k (Some 0))
    = Ok (false, x :: map (fun _ => None) (s' :: shifts)).
Proof. exact: chrono_zero. Qed.

(** Cases. *)
Section Case.
Let K := algCnumClosedField.
Let one : 'cV[K]_3 := const_mx 1.
Let mad (v w : 'cV[K]_3) a := v + a *: w.
Lemma id_linear : linear_op (id : 'cV[K]_3 -> 'cV[K]_3). Proof. by []. Qed.
Lemma id_adds : adds (id : 'cV[K]_3 -> 'cV[K]_3) mad. Proof. by []. Qed.
Lemma id_nonnegative : nonnegative_op (id : 'cV[K]_3 -> 'cV[K]_3). Proof. by move=> v; exact: sp_ge0. Qed.
Lemma one_neq0 : one != 0.
Proof. by apply/eqP => /matrixP /(_ 0 0) /eqP; rewrite !mxE oner_eq0. Qed.
Lemma one_norm : \sum_i `|one i ord0| ^+ 2 = 3%:R.
Proof. by rewrite (eq_bigr (fun _ => 1)) ?sumr_const ?card_ord // => i _; rewrite mxE normr1 expr1n. Qed.
Lemma two_norm (v : 'cV[K]_3) : scalar_product (shifted id 1 v) (shifted id 1 v) = 4%:R * scalar_product v v.
Proof.
have -> : shifted id 1 v = 2%:R *: v by rewrite /shifted scale1r scaler_nat mulr2n.
by rewrite spZl spZr conjC_nat mulrA -natrM.
Qed.
Example C92_case_converges : exists2 xs, mm_solve 1 mad 1 one 5 ([:: 4%:R; 2%:R] ++ [:: 1]) = Ok (true, xs)
  & List.Forall2 (solved id 1 one) ([:: 4%:R; 2%:R] ++ [:: 1]) xs.
Proof.
apply: (@C92_converges K 3 1 id mad 1 one 5 [:: 4%:R; 2%:R] 1 2%:R 4%:R id_linear id_adds id_nonnegative _ ler01) => //=.
- by rewrite !ler1n.
- move=> v; rewrite two_norm lexx; split=> //.
  by rewrite /shifted scale1r spDr mulr_natl mulr2n lexx.
- by rewrite ltr0n.
- exact: ltr01.
- exact: one_neq0.
rewrite one_norm expr1 -natrX divff ?pnatr_eq0 // mulr1 mulrBl mul1r.
have -> : 3%:R - 399%:R / 400%:R * 3%:R = 3%:R / 400%:R :> K.
  have d0 : 400%:R != 0 :> K by rewrite pnatr_eq0.
  apply: (mulIf d0); rewrite divfK // mulrBl mulrAC divfK // -!natrM -(natrB _ (_ : 399 * 3 <= 3 * 400)%N) //.
by rewrite ltr_pdivr_mulr ?ltr0n // mul1r ltr_nat.
Qed.
Example C92_case_unordered : exists x y, mm_solve 7 (fun v w a => v + a *: w) (100%:R^-1 * 3%:R) one 2 [:: 0; 19%:R] = Ok (true, [:: Some x; Some y])
    /\ ~~ (residual_norm (shifted id 0) one x < 100%:R^-1 * 3%:R).
Proof.
apply: C92_unordered_refuted => //; first exact: one_neq0; rewrite one_norm.
  by rewrite ltr_pmul2r ?ltr0n // ltf_pinv ?qualifE ?ltr0n // ltr_nat.
rewrite ler_pmul2r ?ltr0n // expr_div_n -!natrX ler_pdivl_mulr ?ltr0n // mulrC ler_pdivr_mulr ?ltr0n //.
by rewrite -natrM ler_nat.
Qed.
Example C92_case_negative : mm_solve 7 mad 1 one 2 [:: -1; -2%:R] = UB.
Proof. by apply: C92_negative_refuted => /=; rewrite !oppr_lt0 ltr01 ltr0n. Qed.
Example C92_case_memory : exists x, chrono_solve 7 mad 1 one 2 [:: 2%:R; 1] (nseq 1 (Some 0)) = Ok (false, [:: x; None]).
Proof. exact: (@C92_memory_refuted K 3 6 id mad 1 one 2 2%:R 1 [::] 1 id_linear id_adds). Qed.
(** One shift and any memory: the chronological solver succeeds. *)
Example C92_case_chronological olds : exists2 xs, chrono_solve 3 mad 1 one 2 [:: 1] olds = Ok (true, xs)
  & List.Forall2 (solved id 1 one) [:: 1] xs.
Proof.
have hA : hermitian_op (shifted id (1 : K) : 'cV[K]_3 -> _) by move=> u v; rewrite /shifted !scale1r spDl spDr.
have pA : positive_op (shifted id (1 : K) : 'cV[K]_3 -> _).
  by move=> v v0; rewrite /shifted scale1r spDr addr_gt0 // lt0r sp_eq0 v0 sp_ge0.
have [|y Ey] := @cg_complete K 3 3 (shifted id 1) 1 one (Some 0) (shifted_linear 1 id_linear) hA pA ltr01 _ isT.
  by rewrite /shifted scaler0 addr0 one_neq0.
have E : chrono_solve 3 mad 1 one 2 [:: 1] olds = Ok (true, [:: Some y]).
  rewrite /chrono_solve /shift_solve (shift_cg _ _ _ _ _ _ id_adds hA).
  by move: Ey; rewrite /cg_solve [cg_loop]lock /= -lock /shifted scaler0 addr0 subr0 => ->.
by exists [:: Some y] => //; exact: (C92_chronological id_linear id_adds E).
Qed.
(** Two vectors that are not multiples of each other have a guess. *)
Example C92_case_guess : exists g, chrono_guess mad one 1 one (delta_mx 0 0) = Some g.
Proof.
case E: (chrono_guess _ _ _ _ _) => [g|]; first by exists g.
move/(C92_guess_exists one 1 one (delta_mx 0 0) id_linear id_adds): E => [a [c [nz /matrixP e]]].
have d2 : (2%:R : K) != 0 by rewrite pnatr_eq0.
have a0 : a = 0.
  have := e 1 0; rewrite /shifted !mxE /= !mulr1 !mulr0 addr0 mulr0 addr0 -(natrD _ 1 1) => /eqP.
  by rewrite mulf_eq0 (negbTE d2) orbF => /eqP.
have c0 : c = 0.
  have := e 0 0; rewrite a0 /shifted !mxE /= mul0r add0r !mulr1 -(natrD _ 1 1) => /eqP.
  by rewrite mulf_eq0 (negbTE d2) orbF => /eqP.
by move: nz; rewrite a0 c0 eqxx.
Qed.
End Case.

Print Assumptions C92_solved.
Print Assumptions C92_converges.
Print Assumptions C92_last.
Print Assumptions C92_unordered_refuted.
Print Assumptions C92_negative_refuted.
Print Assumptions C92_guess.
Print Assumptions C92_guess_exists.
Print Assumptions C92_chronological.
Print Assumptions C92_memory_refuted.

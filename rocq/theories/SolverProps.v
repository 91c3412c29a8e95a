(** C45 to C49, C63: Chebyshev recursion, polynomials and rational functions of an operator, and the solvers. *)
From Coq Require Import List.
From Coq Require Import QArith Qcanon.
From Verif Require Import Base.
From mathcomp Require Import all_ssreflect all_algebra all_field.
From Verif Require Import SolverModel SolverSpec SolverProofs SolverProofs2.
Import GRing.Theory Num.Theory.
Set Implicit Arguments.
Unset Strict Implicit.
Unset Printing Implicit Defensive.
Local Open Scope ring_scope.

(** C45: the specification's polynomials are the Chebyshev polynomials: on y = (z + 1/z)/2 (y = cos t for z = exp(it)) the
    value is (z^k + z^-k)/2 (cos(k t)), and the degree is k. *)
Theorem C45_chebyshev_value : forall (C : numClosedFieldType) k (z : C), z != 0 ->
  (chebyshev C k).[(z + z^-1) / 2%:R] = (z ^+ k + z^-1 ^+ k) / 2%:R.
Proof. exact chebyshev_value. Qed.
(** The recursion with parameters a, b, n computes the Chebyshev polynomial of degree n + 1 of (2 x - a - b)/(b - a), on
    operators and on numbers. *)
Theorem C45_operator : forall (C : numClosedFieldType) m (a b : C) n (A : 'cV[C]_m -> 'cV[C]_m) v, linear_op A -> a != b ->
  cheb_evaluate (exact C m) a b n A v
  = Some (poly_apply (chebyshev C n.+1 \Po ((2%:R / (b - a))%:P * 'X - ((a + b) / (b - a))%:P)) A v).
Proof. exact cheb_evaluateE. Qed.
Theorem C45_scalar : forall (C : numClosedFieldType) m (a b x : C) n, a != b ->
  cheb_scalar (exact C m) a b n x = Some (chebyshev C n.+1).[2%:R * x / (b - a) - (a + b) / (b - a)].
Proof. exact cheb_scalarE. Qed.
Theorem C45_agree : forall (C : numClosedFieldType) m (a b lam : C) n (A : 'cV[C]_m -> 'cV[C]_m) v, linear_op A -> a != b ->
  A v = lam *: v ->
  exists2 r, cheb_scalar (exact C m) a b n lam = Some r & cheb_evaluate (exact C m) a b n A v = Some (r *: v).
Proof.
move=> C m a b lam n A v HA ab Hv; rewrite cheb_evaluateE // cheb_scalarE //.
by exists (chebyshev C n.+1).[2%:R * lam / (b - a) - (a + b) / (b - a)] => //;
   rewrite (poly_apply_eigen _ HA Hv) horner_comp affine_eval.
Qed.
(** With equal ends the code divides by zero. *)
Theorem C45_equal_ends : forall (C : numClosedFieldType) m (a x : C) n (A : 'cV[C]_m -> 'cV[C]_m) v,
  cheb_evaluate (exact C m) a a n A v = None /\ cheb_scalar (exact C m) a a n x = None.
Proof. by move=> *; rewrite /cheb_evaluate /cheb_scalar /= subrr eqxx. Qed.
(** The degree is not the order n that the caller asks for: order n gives the polynomial of degree n + 1, for every n; so
    the constant polynomial cannot be asked for. *)
Theorem C45_degree_refuted : forall (C : numClosedFieldType) m (a b : C) n, a != b ->
  exists q : {poly C}, size q = n.+2 /\
    (forall A (v : 'cV[C]_m), linear_op A -> cheb_evaluate (exact C m) a b n A v = Some (poly_apply q A v)) /\
    (forall x, cheb_scalar (exact C m) a b n x = Some q.[x]).
Proof.
move=> C m a b n ab; exists (chebyshev C n.+1 \Po affine (2%:R / (b - a)) ((a + b) / (b - a))).
split; first exact: size_cheb_comp; split=> [A v HA|x]; first exact: cheb_evaluateE.
by rewrite cheb_scalarE // horner_comp affine_eval.
Qed.
(** A case, run in rational arithmetic: on [0, 2], order 1, the operator diag(3, 0) and the vector (1, 1):
    T_2(x - 1) = 2 (x-1)^2 - 1 is 7 at 3 and 1 at 0. *)
Example C45_case : cheb_evaluate q2 0%Qc (Q2Qc 2) 1 (qmat (Q2Qc 3) 0 0 0) (1%Qc, 1%Qc) = Some (Q2Qc 7, Q2Qc 1).
Proof. by vm_compute. Qed.
Example C45_case_eigen : exists2 r, cheb_scalar (exact algCnumClosedField 2) 0 2%:R 5 3%:R = Some r &
  cheb_evaluate (exact algCnumClosedField 2) 0 2%:R 5 (fun v => 3%:R *: v) (const_mx 1) = Some (r *: const_mx 1).
Proof.
apply: C45_agree => //; last by rewrite eq_sym pnatr_eq0.
by move=> a u v; rewrite scalerDr !scalerA mulrC.
Qed.

(** C46: the polynomial of the operator; its leading coefficient is sign(Re scaling) |Re scaling|^degree. *)
Theorem C46_polynomial : forall (C : numClosedFieldType) m (A : 'cV[C]_m -> 'cV[C]_m) mad roots scaling old v,
  linear_op A -> adds A mad -> roots <> nil ->
  poly_evaluate (exact C m) roots scaling mad old v
  = Ok (poly_apply (root_poly ((if 'Re scaling < 0 then -1 else 1) * `|'Re scaling| ^+ size roots) roots) A v).
Proof. exact poly_evaluateE. Qed.
Theorem C46_scalar : forall (C : numClosedFieldType) m roots (scaling x : C), roots <> nil ->
  poly_scalar (exact C m) roots scaling x
  = Ok ((if 'Re scaling < 0 then -1 else 1) * `|'Re scaling| ^+ size roots * \prod_(z <- roots) (x - z)).
Proof.
move=> C m roots scaling x Hr; rewrite poly_scalarE // /root_poly hornerM hornerC horner_prod; congr (Ok (_ * _)).
by apply: eq_bigr => z _; rewrite hornerXsubC.
Qed.
Theorem C46_agree : forall (C : numClosedFieldType) m (A : 'cV[C]_m -> 'cV[C]_m) mad roots scaling old lam v,
  linear_op A -> adds A mad -> roots <> nil -> A v = lam *: v ->
  exists2 r, poly_scalar (exact C m) roots scaling lam = Ok r &
             poly_evaluate (exact C m) roots scaling mad old v = Ok (r *: v).
Proof.
move=> C m A mad roots scaling old lam v HA Hm Hr Hv; rewrite (poly_evaluateE _ _ _ HA Hm Hr) poly_scalarE //.
by exists (root_poly (lead scaling (size roots)) roots).[lam] => //; rewrite (poly_apply_eigen _ HA Hv).
Qed.
(** With a preconditioner P the result is P q(P A). *)
Theorem C46_preconditioned : forall (C : numClosedFieldType) m (A P : 'cV[C]_m -> 'cV[C]_m) pmad roots scaling v,
  linear_op A -> linear_op P -> adds P pmad -> roots <> nil ->
  ppoly_evaluate (exact C m) roots scaling A P pmad v
  = Ok (P (poly_apply (root_poly ((if 'Re scaling < 0 then -1 else 1) * `|'Re scaling| ^+ size roots) roots)
                      (fun w => P (A w)) v)).
Proof. exact ppoly_evaluateE. Qed.
(** An empty list of roots is undefined. *)
Theorem C46_no_roots : forall (F : arith) (scaling x : num F) mad old v mul pmul,
  poly_evaluate F nil scaling mad old v = UB /\ ppoly_evaluate F nil scaling mul pmul mad v = UB /\
  poly_scalar F nil scaling x = UB.
Proof. by []. Qed.
(** The rational function: with the solutions y of (A + beta) y = v, an eigenvector is multiplied by the value of the
    scalar version, which does not divide by zero. *)
Theorem C46_rational : forall (C : numClosedFieldType) m (A : 'cV[C]_m -> 'cV[C]_m) (lam : C) v alphas betas solve,
  linear_op A -> A v = lam *: v -> v != 0 -> length alphas = length betas ->
  (forall b : C, List.In b betas -> forall y, shifted A b y = 0 -> y = 0) ->
  List.Forall2 (fun (b : C) y => shifted A b y = v) betas (solve v betas) ->
  exists2 r, rational_scalar (exact C m) alphas betas lam 0 = Ok (Some r) &
             @rational_evaluate (exact C m) solve alphas betas v = Ok (r *: v).
Proof. move=> C m A lam v alphas betas solve; exact: rational_eigen. Qed.
Theorem C46_rational_scalar : forall (C : numClosedFieldType) m (alphas betas : list C) x, length alphas = length betas ->
  (forall b, List.In b betas -> x + b != 0) ->
  rational_scalar (exact C m) alphas betas x 0 = Ok (Some (\sum_(p <- zip alphas betas) p.1 / (x + p.2))).
Proof. by move=> C m alphas betas x Hl Hb; rewrite rational_scalarE // add0r. Qed.
(** More solutions than coefficients: undefined. *)
Theorem C46_rational_mismatch : forall (F : arith) (alphas : list (num F)) tmp out,
  (length alphas < length tmp)%coq_nat -> rational_sum F alphas tmp out = UB.
Proof.
move=> F alphas tmp; elim: tmp alphas => [|v tmp IH] [|a alphas] out //= H; try by inversion H.
by apply: IH; apply/PeanoNat.Nat.succ_lt_mono.
Qed.
Example C46_case : poly_evaluate q2 (Q2Qc 1 :: Q2Qc 2 :: Q2Qc 5 :: nil) (Q2Qc (-(2))) (fun v w a => vadd q2 (qmat (Q2Qc 3) 0 0 0 v) (vscale q2 a w))
  (0%Qc, 0%Qc) (1%Qc, 1%Qc) = Ok (Q2Qc 32, Q2Qc 80)
  /\ poly_scalar q2 (Q2Qc 1 :: Q2Qc 2 :: Q2Qc 5 :: nil) (Q2Qc (-(2))) (Q2Qc 3) = Ok (Q2Qc 32).
Proof. by vm_compute. Qed.
Example C46_case_rational : exists2 r,
  rational_scalar (exact algCnumClosedField 2) [:: 3%:R; 5%:R] [:: 1; 2%:R] 1 0 = Ok (Some r) &
  @rational_evaluate (exact algCnumClosedField 2) (fun v l => [seq (1 + b)^-1 *: v | b : algC <- l])
    [:: 3%:R; 5%:R] [:: 1; 2%:R] (const_mx 1) = Ok (r *: const_mx 1).
Proof.
have H1 : (1 + 1 : algC) != 0 by rewrite -mulr2n pnatr_eq0.
have H2 : (1 + 2%:R : algC) != 0 by rewrite -(natrD _ 1 2) pnatr_eq0.
apply: (@C46_rational _ _ id) => //.
- by rewrite scale1r.
- by apply/eqP => /matrixP /(_ 0 0) /eqP; rewrite !mxE oner_eq0.
- move=> b [<-|[<-|[]]] y; rewrite /shifted -{1}(scale1r y) -scalerDl => /eqP; rewrite scaler_eq0 ?(negbTE H1) ?(negbTE H2) /= => /eqP //.
- by do ?constructor; rewrite /shifted -{1}[_^-1 *: _]scale1r -scalerDl scalerA divff // scale1r.
Qed.

(** C47: success means a small true residual. *)
Theorem C47_residual : forall (C : numClosedFieldType) m maxSteps (eps : C) (A : 'cV[C]_m -> 'cV[C]_m) b guess x, linear_op A ->
  cg_solve (exact C m) maxSteps eps A b guess = Converged x -> residual_norm A b x < eps.
Proof. exact cg_sound. Qed.
(** An initial vector that already solves the system makes the first step compute 0/0: the code never reports success,
    for any positive number of steps (with none it reports failure). *)
Theorem C47_exact_guess_refuted : forall (C : numClosedFieldType) m maxSteps (eps : C) (A : 'cV[C]_m -> 'cV[C]_m) x,
  @success (exact C m) (cg_solve (exact C m) maxSteps eps A (A x) (Some x)) = false
  /\ ((0 < maxSteps)%N -> cg_solve (exact C m) maxSteps eps A (A x) (Some x) = NotANumber).
Proof. by move=> C m [|n] eps A x; rewrite ?cg_exact. Qed.
(** C63: on a Hermitian positive definite operator conjugate gradient reaches every positive precision within as many
    steps as the vectors have components, from every initial vector that is not the exact solution. *)
Theorem C63_converges : forall (C : numClosedFieldType) m maxSteps (eps : C) (A : 'cV[C]_m -> 'cV[C]_m) b guess, linear_op A ->
  hermitian_op A -> positive_op A -> 0 < eps -> b != A (match guess with None => b | Some x => x end) -> (m <= maxSteps)%N ->
  exists2 x, cg_solve (exact C m) maxSteps eps A b guess = Converged x & residual_norm A b x < eps.
Proof.
move=> C m n eps A b g HA Hh Hp e0 Hb Hm; case: (cg_complete HA Hh Hp e0 Hb Hm) => x Hx.
by exists x => //; exact: cg_sound Hx.
Qed.
(** Together: on such operators failure for enough steps happens exactly for the exact initial vector. *)
Theorem C63_fails_iff_exact : forall (C : numClosedFieldType) m maxSteps (eps : C) (A : 'cV[C]_m -> 'cV[C]_m) b x, linear_op A ->
  hermitian_op A -> positive_op A -> 0 < eps -> (m <= maxSteps)%N ->
  @success (exact C m) (cg_solve (exact C m) maxSteps eps A b (Some x)) = (b != A x).
Proof.
move=> C m n eps A b x HA Hh Hp e0 Hm; case: (boolP (b == A x)) => [/eqP ->|Hb].
  by rewrite (proj1 (C47_exact_guess_refuted _ _ _ _)).
by case: (cg_complete (g := Some x) HA Hh Hp e0 Hb Hm) => y ->.
Qed.
(** Cases: a Hermitian positive definite operator that is not a multiple of the identity. *)
Definition diag12 : 'cV[algC]_2 -> 'cV[algC]_2 := mulmx (diag_mx (\row_(i < 2) (i.+1)%:R)).
Example C47_case : exists2 x, cg_solve (exact algCnumClosedField 2) 2 100%:R^-1 diag12 (const_mx 1) (Some 0) = Converged x
  & residual_norm diag12 (const_mx 1) x < 100%:R^-1.
Proof.
apply: C63_converges => //.
- exact: mulmx_linear.
- by apply: diag_hermitian => i; rewrite mxE realn.
- by apply: diag_positive => i; rewrite mxE ltr0Sn.
- by rewrite invr_gt0 ltr0Sn.
- rewrite /diag12 (lop0 (mulmx_linear _)).
  by apply/eqP => /matrixP /(_ 0 0) /eqP; rewrite !mxE oner_eq0.
Qed.
Definition fractions (r : result q2) : option (Q * Q) :=
  match r with Converged x => Some (this x.1, this x.2) | _ => None end.
Example C47_case_run : fractions (cg_solve q2 2 (Q2Qc (1 # 100)) (qmat 1 0 0 (Q2Qc 2)) (1%Qc, 1%Qc) (Some (0%Qc, 0%Qc))) = Some (1#1, 1#2)%Q
  /\ fractions (cg_solve q2 2 (Q2Qc (1 # 100)) (qmat 1 0 0 (Q2Qc 2)) (1%Qc, 1%Qc) (Some (1%Qc, Q2Qc (1 # 2)))) = None.
Proof. by vm_compute. Qed.

(** C48: without a preconditioner (the identity) success means a small true residual. *)
Theorem C48_residual_partial : forall (C : numClosedFieldType) m maxSteps (eps : C) (A P : 'cV[C]_m -> 'cV[C]_m) b guess random x,
  linear_op A -> (forall v, P v = v) ->
  bicg_solve (exact C m) maxSteps eps A P b guess random = Converged x -> residual_norm A b x < eps.
Proof. by move=> C m n eps A P b g r x HA HP; apply: bicg_loop_sound. Qed.
(** For other preconditioners it is false: the residual is advanced with A s, the solution with P s.  On a symmetric
    positive definite matrix, with the preconditioner 2 and precision 10^-6, the code reports success with |b - A x|^2 > 1/2. *)
Definition bicg_result : result q2 :=
  bicg_solve q2 7 (Q2Qc (1 # 1000000)) (qmat 1 (Q2Qc (-(1))) (Q2Qc (-(1))) (Q2Qc 2)) (vscale q2 (Q2Qc 2)) (1%Qc, 1%Qc) (Some (0%Qc, 0%Qc)) (0%Qc, 0%Qc).
Theorem C48_preconditioner_refuted : exists x, bicg_result = Converged x
  /\ (Q2Qc (1 # 2) < vnorm q2 (vsub q2 (1%Qc, 1%Qc) (qmat 1 (Q2Qc (-(1))) (Q2Qc (-(1))) (Q2Qc 2) x)))%Qc.
Proof.
have : match bicg_result with
  | Converged x => Qccompare (Q2Qc (1 # 2)) (vnorm q2 (vsub q2 (1%Qc, 1%Qc) (qmat 1 (Q2Qc (-(1))) (Q2Qc (-(1))) (Q2Qc 2) x))) = Lt
  | _ => False end by vm_compute.
by case: bicg_result => [x Hx|x []|[]]; exists x; split; [reflexivity|exact Hx].
Qed.
(** Cases: success is possible (the code asks for at least seven steps, so at least seven components). *)
Definition rotate8 (v : list Qc) : list Qc := match v with nil => nil | x :: r => r ++ (Qcopp x :: nil) end.
Definition bicg_ident : result (ql 8) :=
  let o := 0%Qc in let e := 1%Qc in
  bicg_solve (ql 8) 7 1%Qc (fun v => vsub (ql 8) v (rotate8 v)) (fun v => v)
    (e :: o :: o :: o :: o :: o :: e :: o :: nil) (Some (e :: o :: o :: e :: o :: o :: o :: o :: nil)) nil.
Example C48_case : @success (ql 8) bicg_ident = true.
Proof. by vm_cast_no_check (eq_refl true). Qed.

(** C49: with a positive number of steps success means that every shifted system is solved. *)
Theorem C49_residuals : forall (C : numClosedFieldType) m maxSteps (eps : C) (A : 'cV[C]_m -> 'cV[C]_m) mad b size shifts l,
  linear_op A -> adds A mad -> (0 < maxSteps)%N ->
  multishift_solve (exact C m) maxSteps mad eps b size shifts = Ok (true, l) ->
  List.Forall2 (fun s y => exists2 x, y = Some x & residual_norm (shifted A s) b x < eps) shifts l.
Proof. move=> C m [|n] // eps A mad b size shifts l HA Hm _; exact: multishift_sound. Qed.
(** For A >= 0 and positive shifts the returned vectors are then close to the solutions. *)
Theorem C49_errors : forall (C : numClosedFieldType) m maxSteps (eps : C) (A : 'cV[C]_m -> 'cV[C]_m) mad b size shifts l,
  linear_op A -> adds A mad -> hermitian_op A -> (forall v, 0 <= scalar_product v (A v)) -> (0 < maxSteps)%N ->
  (forall s, List.In s shifts -> 0 < s) ->
  multishift_solve (exact C m) maxSteps mad eps b size shifts = Ok (true, l) ->
  List.Forall2 (fun s y => exists2 x, y = Some x &
     forall z, shifted A s z = b -> s ^+ 2 * scalar_product (x - z) (x - z) < eps) shifts l.
Proof.
move=> C m n eps A mad b size shifts l HA Hm Hh Hp n0 Hs /(C49_residuals HA Hm n0) Hl.
elim: Hl Hs => [|s y ss ys [x Ey Hx] _ IH] Hs; constructor; last by apply: IH => s' Hs'; apply: Hs; right.
by exists x => // z Hz; apply: (shifted_solve_error HA Hh Hp _ Hx Hz); apply: Hs; left.
Qed.
(** With zero steps the code reports success without solving anything: for every operator, source and shifts it returns
    zero vectors. *)
Theorem C49_zero_steps_refuted : forall (F : arith) mad (eps : num F) b size shifts, shifts <> nil ->
  (length shifts <= size)%coq_nat ->
  multishift_solve F 0 mad eps b size shifts = Ok (true, List.map (fun _ => Some (vzero F)) shifts).
Proof.
move=> F mad eps b size [|s rest] // _ H; rewrite /multishift_solve.
have -> : Nat.ltb size (length (s :: rest)) = false by apply/PeanoNat.Nat.ltb_ge.
rewrite /shift_solve /=.
have -> : shift_rest F 0 mad eps b (Some (vzero F)) rest = (true, List.map (fun _ => Some (vzero F)) rest); last by [].
by elim: rest {H} => [|s' rest IH] //=; rewrite IH.
Qed.
Theorem C49_undefined : forall (F : arith) maxSteps mad (eps : num F) b size shifts, shifts = nil \/ (size < length shifts)%coq_nat ->
  multishift_solve F maxSteps mad eps b size shifts = UB.
Proof.
move=> F n mad eps b size [|s rest] // [//|H]; rewrite /multishift_solve.
by have -> : Nat.ltb size (length (s :: rest)) = true by apply/PeanoNat.Nat.ltb_lt.
Qed.
Definition all_fractions (r : outcome (bool * list (option (vec q2)))) : option (bool * list (option (Q * Q))) :=
  match r with Ok (b, l) => Some (b, List.map (option_map (fun x => (this x.1, this x.2))) l) | _ => None end.
Example C49_case : all_fractions (multishift_solve q2 2 (fun v w a => vadd q2 (qmat 1 0 0 (Q2Qc 2) v) (vscale q2 a w)) (Q2Qc (1 # 1000000)) (1%Qc, 1%Qc) 2
    (1%Qc :: Q2Qc 2 :: nil))
  = Some (true, Some (1#2, 1#3)%Q :: Some (1#3, 1#4)%Q :: nil).
Proof. by vm_compute. Qed.

Print Assumptions C45_chebyshev_value.
Print Assumptions C45_operator.
Print Assumptions C45_scalar.
Print Assumptions C45_agree.
Print Assumptions C45_equal_ends.
Print Assumptions C45_degree_refuted.
Print Assumptions C46_polynomial.
Print Assumptions C46_scalar.
Print Assumptions C46_agree.
Print Assumptions C46_preconditioned.
Print Assumptions C46_no_roots.
Print Assumptions C46_rational.
Print Assumptions C46_rational_scalar.
Print Assumptions C46_rational_mismatch.
Print Assumptions C47_residual.
Print Assumptions C47_exact_guess_refuted.
Print Assumptions C63_converges.
Print Assumptions C63_fails_iff_exact.
Print Assumptions C48_residual_partial.
Print Assumptions C48_preconditioner_refuted.
Print Assumptions C49_residuals.
Print Assumptions C49_errors.
Print Assumptions C49_zero_steps_refuted.
Print Assumptions C49_undefined.

(** Properties C35 and C65: the two-colour exponentials and the sampler of the heat bath. *)
From Coq Require Import Reals Lra List.
From Verif Require Import ComplexR Su2Model Su2Spec Su2Proofs.
Import ListNotations.
Open Scope R_scope.

(** ** C35.  The specification has exactly one solution. *)
Theorem C35_curve_exists : forall x, algebra2 x -> exists E, exponential_curve x E.
Proof. intros x H. exists (curve x). now apply curve_exponential. Qed.
Theorem C35_curve_unique : forall x E F, algebra2 x -> exponential_curve x E -> exponential_curve x F -> forall t, E t = F t.
Proof. exact curve_unique. Qed.
(** matrix_exp (MatrixToolkit.h, used by the integrators) is the exponential when the norm is not below 10^-7; then it is in
    the group and the exponential of the opposite matrix is its inverse. *)
Theorem C35_matrix_exp : forall x E, algebra2 x -> threshold <= norm2 x -> exponential_curve x E ->
  matrix_exp x = E 1 /\ su2 (matrix_exp x) /\ mul2 (matrix_exp x) (matrix_exp (opp2 x)) = one2.
Proof.
  intros x E H L HE. rewrite (curve_unique _ _ _ H HE (curve_exponential _ H)), (matrix_exp_curve _ H L).
  rewrite (matrix_exp_curve _ (algebra_opp _ H)) by (rewrite norm2_opp; exact L).
  repeat split; try apply (curve_su2 _ 1 H). rewrite (curve_opp _ _ H), <- (curve_add _ _ _ H).
  replace (1 + - (1)) with 0 by ring. apply (curve_exponential _ H).
Qed.
Theorem C35_matrix_exp_zero : matrix_exp zero2 = one2.
Proof. exact matrix_exp_zero. Qed.
(** Below the threshold a series is used: the result is never in the group, but for zero; it is within |x|^4 of the
    exponential. *)
Theorem C35_small_refuted : forall x, algebra2 x -> x <> zero2 -> norm2 x < threshold -> ~ su2 (matrix_exp x).
Proof. exact series_not_su2. Qed.
Theorem C35_small_error : forall x E, algebra2 x -> norm2 x < threshold -> exponential_curve x E ->
  Cnorm2 (m00 (matrix_exp x) - m00 (E 1)) + Cnorm2 (m01 (matrix_exp x) - m01 (E 1)) +
  Cnorm2 (m10 (matrix_exp x) - m10 (E 1)) + Cnorm2 (m11 (matrix_exp x) - m11 (E 1)) <= norm2 x ^ 8.
Proof. intros x E H L HE. rewrite (curve_unique _ _ _ H HE (curve_exponential _ H)). now apply series_error. Qed.
(** ExpMap::exp is the exponential for every matrix but zero, where it divides by zero. *)
Theorem C35_exp_map : forall x E, algebra2 x -> x <> zero2 -> exponential_curve x E ->
  exp_map x = Some (E 1) /\ su2 (E 1) /\ exists V, exp_map (opp2 x) = Some V /\ mul2 (E 1) V = one2.
Proof.
  intros x E H Z HE. rewrite (curve_unique _ _ _ H HE (curve_exponential _ H)), (exp_map_curve _ H Z).
  split; [reflexivity|]. split; [apply (curve_su2 _ 1 H)|]. exists (curve (opp2 x) 1). split.
  - apply exp_map_curve; [now apply algebra_opp|]. intro E0. apply Z. apply (f_equal opp2) in E0.
    replace (opp2 (opp2 x)) with x in E0 by (apply M2_eq; cbn; apply C_eq; cbn; ring). rewrite E0. apply M2_eq; cbn; apply C_eq; cbn; ring.
  - rewrite (curve_opp _ _ H), <- (curve_add _ _ _ H). replace (1 + - (1)) with 0 by ring. apply (curve_exponential _ H).
Qed.
Theorem C35_exp_map_zero_refuted : exp_map zero2 = None.
Proof. exact exp_map_zero. Qed.
(** Cases: a matrix above and one below the threshold. *)
Example C35_case : algebra2 (alg 0 (PI / 2) 0) /\ threshold <= norm2 (alg 0 (PI / 2) 0) /\
  matrix_exp (alg 0 (PI / 2) 0) = M2 C0 Ci Ci C0 /\
  algebra2 (alg 0 0 (threshold / 2)) /\ alg 0 0 (threshold / 2) <> zero2 /\ norm2 (alg 0 0 (threshold / 2)) < threshold.
Proof.
  pose proof threshold_pos as P. assert (T : threshold <= PI / 2) by (unfold threshold; pose proof PI2_1; lra).
  assert (N : forall n, 0 <= n -> sqrt (nsq 0 n 0) = n) by (intros n Hn; unfold nsq; rewrite <- (sqrt_square n Hn) at 3; f_equal; ring).
  assert (N' : forall n, 0 <= n -> sqrt (nsq 0 0 n) = n) by (intros n Hn; unfold nsq; rewrite <- (sqrt_square n Hn) at 3; f_equal; ring).
  split; [apply alg_algebra|]. split; [rewrite norm2_alg, N by lra; exact T|]. split.
  - rewrite matrix_exp_alg, N by lra. destruct (Rlt_dec (PI / 2) threshold); [lra|]. rewrite cos_PI2, sin_PI2.
    apply M2_eq; cbn; apply C_eq; cbn; field; pose proof PI2_1; lra.
  - split; [apply alg_algebra|]. split.
    + intro E. apply (f_equal (fun m => re (m01 m))) in E. cbn in E. lra.
    + rewrite norm2_alg, N' by lra. lra.
Qed.
Print Assumptions C35_curve_exists.
Print Assumptions C35_curve_unique.
Print Assumptions C35_matrix_exp.
Print Assumptions C35_matrix_exp_zero.
Print Assumptions C35_small_refuted.
Print Assumptions C35_small_error.
Print Assumptions C35_exp_map.
Print Assumptions C35_exp_map_zero_refuted.

(** ** C65: for a positive coupling every accepted draw is a point of the unit sphere; every value -1 <= u0 < 1 is reached. *)
Theorem C65_sphere : forall b draws v1 v2 u0 u1 u2 u3, 0 < b -> Forall draw_ok draws ->
  heatbath_draw b draws v1 v2 = Some (Some (u0, u1, u2, u3)) -> -1 <= u0 <= 1 /\ u0 * u0 + u1 * u1 + u2 * u2 + u3 * u3 = 1.
Proof.
  intros b draws v1 v2 u0 u1 u2 u3 Hb H E. pose proof (draw_sphere _ _ _ _ _ _ _ _ Hb H E) as S. split; [|exact S].
  assert (0 <= u1 * u1) by apply Rle_0_sqr. assert (0 <= u2 * u2) by apply Rle_0_sqr. assert (0 <= u3 * u3) by apply Rle_0_sqr.
  split; [apply Rnot_lt_le; intro L|apply Rnot_lt_le; intro L].
  - assert (1 * 1 < (- u0) * (- u0)) by (apply Rmult_le_0_lt_compat; lra). lra.
  - assert (1 * 1 < u0 * u0) by (apply Rmult_le_0_lt_compat; lra). lra.
Qed.
Theorem C65_defined : forall b draws v1 v2, 0 < b -> Forall draw_ok draws ->
  (forall u1 u2 u3 r, In (u1, u2, u3, r) draws -> u2 <> 0) -> heatbath_draw b draws v1 v2 <> Some None.
Proof. exact draw_defined. Qed.
Theorem C65_onto : forall b s, 0 < b -> -1 <= s < 1 -> exists d, draw_ok d /\ generate_radius b [d] = Some (Fin s).
Proof. exact radius_onto. Qed.
(** A uniform number that is exactly zero together with a vanishing cosine gives a value that is not a number and is
    accepted (in floating point the cosine does not vanish exactly). *)
Theorem C65_zero_draw_refuted : forall b u1 r v1 v2, heatbath_draw b [(u1, 0, 1 / 4, r)] v1 v2 = Some None.
Proof.
  intros. unfold heatbath_draw; cbn [generate_radius]. unfold candidate. replace (2 * PI * (1 / 4)) with (PI / 2) by field.
  rewrite cos_PI2. replace (0 ^ 2) with 0 by ring. destruct (Req_EM_T 0 0); [reflexivity|contradiction].
Qed.
(** For a negative beta no draw is ever valid: the loop goes on or the link is not a number. *)
Theorem C65_negative_beta : forall b draws v1 v2, b < 0 -> Forall draw_ok draws ->
  heatbath_draw b draws v1 v2 = None \/ heatbath_draw b draws v1 v2 = Some None.
Proof. exact negative_coupling. Qed.
Example C65_case : Forall draw_ok [(0, 1 / 2, 0, 0); (exp (-1), 1 / 2, 1 / 4, 0)] /\
  heatbath_draw 1 [(0, 1 / 2, 0, 0); (exp (-1), 1 / 2, 1 / 4, 0)] 0 1 = Some (Some (0, 0, 0, 1)).
Proof.
  pose proof (exp_neg_lt1 (-1) ltac:(lra)) as E. split; [repeat constructor; unfold uniform; lra|].
  unfold heatbath_draw; cbn [generate_radius]. unfold candidate.
  destruct (Req_EM_T (1 / 2) 0); [lra|]. destruct (Req_EM_T 0 0); [|contradiction]. destruct (Req_EM_T (exp (-1)) 0); [lra|].
  replace (2 * PI * (1 / 4)) with (PI / 2) by field. rewrite cos_PI2, ln_exp.
  replace (1 + 1 * (-1 + ln (1 / 2) * 0 ^ 2)) with 0 by ring.
  destruct (Rlt_dec (1 + 0 - 2 * 0 * 0) 0); [lra|]. destruct (Rlt_dec (1 - 0 * 0) 0); [lra|].
  unfold generate_vector. replace (2 * 1 - 1) with 1 by ring. rewrite acos_1, sin_0, cos_0.
  replace (1 - 0 * 0) with 1 by ring. rewrite sqrt_1. repeat f_equal; ring.
Qed.
Print Assumptions C65_sphere.
Print Assumptions C65_defined.
Print Assumptions C65_onto.
Print Assumptions C65_zero_draw_refuted.
Print Assumptions C65_negative_beta.

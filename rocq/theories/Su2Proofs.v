(** Proofs about the two-colour exponentials. *)
From Coq Require Import Reals Lra List.
From Verif Require Import ComplexR Su2Model Su2Spec.
Import ListNotations.
Open Scope R_scope.

Lemma M2_eq a b : m00 a = m00 b -> m01 a = m01 b -> m10 a = m10 b -> m11 a = m11 b -> a = b.
Proof. destruct a, b; cbn; intros -> -> -> ->; reflexivity. Qed.
Definition alg (n1 n2 n3 : R) : mat2 := M2 (mkC 0 n1) (mkC n3 n2) (mkC (- n3) n2) (mkC 0 (- n1)).
Lemma alg_of x : algebra2 x -> exists n1 n2 n3, x = alg n1 n2 n3.
Proof.
  destruct x as [[a a'] [b b'] [c c'] [d d']]. intros [H T]. unfold adj2, opp2 in H. cbn in *.
  injection H as H1 H2 H3 H4 H5 H6. unfold Cadd, C0 in T; cbn in T. injection T as T1 T2.
  exists a', b', b. unfold alg. repeat f_equal; lra.
Qed.
Lemma alg_algebra n1 n2 n3 : algebra2 (alg n1 n2 n3).
Proof. split; [apply M2_eq; cbn; apply C_eq; cbn; ring|apply C_eq; cbn; ring]. Qed.
Definition nsq (n1 n2 n3 : R) : R := n1 * n1 + n2 * n2 + n3 * n3.
Lemma nsq_ge0 n1 n2 n3 : 0 <= nsq n1 n2 n3.
Proof. unfold nsq. pose proof (Rle_0_sqr n1); pose proof (Rle_0_sqr n2); pose proof (Rle_0_sqr n3). unfold Rsqr in *. lra. Qed.
Lemma norm2_alg n1 n2 n3 : norm2 (alg n1 n2 n3) = sqrt (nsq n1 n2 n3).
Proof. unfold norm2, nsq; f_equal; unfold Cnorm2; cbn; field. Qed.
Lemma nsq_zero n1 n2 n3 : sqrt (nsq n1 n2 n3) = 0 -> n1 = 0 /\ n2 = 0 /\ n3 = 0.
Proof.
  intro H. apply sqrt_eq_0 in H; [|apply nsq_ge0]. unfold nsq in H.
  pose proof (Rle_0_sqr n1) as A1; pose proof (Rle_0_sqr n2) as A2; pose proof (Rle_0_sqr n3) as A3. unfold Rsqr in *.
  repeat split; apply Rsqr_0_uniq; unfold Rsqr; lra.
Qed.
(** Matrices c + s x. *)
Definition lin (c s n1 n2 n3 : R) : mat2 :=
  M2 (mkC c (s * n1)) (mkC (s * n3) (s * n2)) (mkC (- (s * n3)) (s * n2)) (mkC c (- (s * n1))).
Lemma lin_mul c s c' s' n1 n2 n3 : mul2 (lin c s n1 n2 n3) (lin c' s' n1 n2 n3)
  = lin (c * c' - s * s' * nsq n1 n2 n3) (c * s' + s * c') n1 n2 n3.
Proof. apply M2_eq; cbn; apply C_eq; cbn; unfold nsq; ring. Qed.
Lemma lin_adj c s n1 n2 n3 : adj2 (lin c s n1 n2 n3) = lin c (- s) n1 n2 n3.
Proof. apply M2_eq; cbn; apply C_eq; cbn; ring. Qed.
Lemma lin_det c s n1 n2 n3 : det2 (lin c s n1 n2 n3) = RtoC (c * c + s * s * nsq n1 n2 n3).
Proof. apply C_eq; cbn; unfold nsq; ring. Qed.
Lemma lin_one n1 n2 n3 : lin 1 0 n1 n2 n3 = one2.
Proof. apply M2_eq; cbn; apply C_eq; cbn; ring. Qed.
Lemma lin_su2 c s n1 n2 n3 : su2 (lin c s n1 n2 n3) <-> c * c + s * s * nsq n1 n2 n3 = 1.
Proof.
  unfold su2. rewrite lin_adj, !lin_mul, lin_det. split.
  - intros [_ [_ H]]. apply RtoC_inj. exact H.
  - intro H. replace (c * c - s * - s * nsq n1 n2 n3) with 1 by lra. replace (c * c - - s * s * nsq n1 n2 n3) with 1 by lra.
    replace (c * - s + s * c) with 0 by ring. replace (c * s + - s * c) with 0 by ring. rewrite lin_one, H. repeat split.
Qed.
Lemma matrix_exp_alg n1 n2 n3 : let n := sqrt (nsq n1 n2 n3) in
  matrix_exp (alg n1 n2 n3) = if Rlt_dec n threshold then lin (1 - n * n / 2) (1 - n * n / 6) n1 n2 n3
                              else lin (cos n) (sin n / n) n1 n2 n3.
Proof.
  cbv zeta. unfold matrix_exp, alg. cbn [m00 m01 re im]. fold (nsq n1 n2 n3).
  destruct (Rlt_dec (sqrt (nsq n1 n2 n3)) threshold); apply M2_eq; cbn; apply C_eq; cbn; unfold Rdiv; ring.
Qed.
Lemma threshold_pos : 0 < threshold.
Proof. unfold threshold. lra. Qed.
Lemma exp_map_alg n1 n2 n3 : let n := sqrt (nsq n1 n2 n3) in n <> 0 ->
  exp_map (alg n1 n2 n3) = Some (lin (cos n) (sin n / n) n1 n2 n3).
Proof.
  cbv zeta. unfold exp_map, alg. cbn [m00 m01 re im]. replace (n1 * n1 + n3 * n3 + n2 * n2) with (nsq n1 n2 n3) by (unfold nsq; ring).
  intro H. destruct (Req_EM_T (sqrt (nsq n1 n2 n3)) 0) as [E|N]; [contradiction|].
  f_equal. generalize dependent (sqrt (nsq n1 n2 n3)). intros n H _.
  apply M2_eq; cbn; apply C_eq; cbn; field; exact H.
Qed.
(** The exact exponential curve. *)
Definition curve (x : mat2) (t : R) : mat2 :=
  let n := norm2 x in
  let s := if Req_EM_T n 0 then t else sin (t * n) / n in
  lin (cos (t * n)) s (im (m00 x)) (im (m01 x)) (re (m01 x)).
Lemma curve_alg n1 n2 n3 t : let n := sqrt (nsq n1 n2 n3) in
  curve (alg n1 n2 n3) t = lin (cos (t * n)) (if Req_EM_T n 0 then t else sin (t * n) / n) n1 n2 n3.
Proof. cbv zeta. unfold curve. now rewrite norm2_alg. Qed.
Lemma sqrt_nsq n1 n2 n3 : sqrt (nsq n1 n2 n3) * sqrt (nsq n1 n2 n3) = nsq n1 n2 n3.
Proof. apply sqrt_sqrt, nsq_ge0. Qed.
Lemma alg_lin c s n1 n2 n3 : mul2 (alg n1 n2 n3) (lin c s n1 n2 n3) = lin (- s * nsq n1 n2 n3) c n1 n2 n3.
Proof. apply M2_eq; cbn; apply C_eq; cbn; unfold nsq; ring. Qed.
Lemma derivative_lin (c s : R -> R) c' s' n1 n2 n3 t : derivable_pt_lim c t c' -> derivable_pt_lim s t s' ->
  derivative2 (fun u => lin (c u) (s u) n1 n2 n3) t (lin c' s' n1 n2 n3).
Proof.
  intros Hc Hs. unfold derivative2, derivative_C, lin; cbn.
  assert (A : forall k, derivable_pt_lim (fun u => s u * k) t (s' * k)).
  { intro k. replace (s' * k) with (s' * k + s t * 0) by ring. apply (derivable_pt_lim_mult s (fun _ => k)); [exact Hs|apply derivable_pt_lim_const]. }
  assert (B : forall k, derivable_pt_lim (fun u => - (s u * k)) t (- (s' * k))).
  { intro k. apply (derivable_pt_lim_opp (fun u => s u * k)), A. }
  repeat split; auto.
Qed.
Lemma derivable_lin_comp (f : R -> R) l n t : derivable_pt_lim f (t * n) l -> derivable_pt_lim (fun u => f (u * n)) t (l * n).
Proof.
  intro H. apply (derivable_pt_lim_comp (fun u => u * n) f t n l); [|exact H].
  assert (E : 1 * n + t * 0 = n) by ring. apply (eq_ind _ (fun k => derivable_pt_lim (fun u => u * n) t k)) with (2 := E).
  apply (derivable_pt_lim_mult (fun u => u) (fun _ => n)); [apply derivable_pt_lim_id|apply derivable_pt_lim_const].
Qed.
Lemma derivable_ext (f g : R -> R) t l : (forall u, f u = g u) -> derivable_pt_lim f t l -> derivable_pt_lim g t l.
Proof. intros E H eps He. destruct (H eps He) as [d Hd]. exists d. intros h h0 hd. rewrite <- !E. now apply Hd. Qed.
Lemma derivative2_ext f g t d : (forall u, f u = g u) -> derivative2 f t d -> derivative2 g t d.
Proof.
  intros E H. unfold derivative2, derivative_C in *.
  repeat split; (eapply derivable_ext; [intro u; now rewrite <- E|]; tauto).
Qed.
Lemma curve_exponential x : algebra2 x -> exponential_curve x (curve x).
Proof.
  intro H. apply alg_of in H as [n1 [n2 [n3 ->]]]. split.
  - rewrite curve_alg. rewrite Rmult_0_l, cos_0, sin_0. 
    destruct (Req_EM_T _ 0); [apply lin_one|]. unfold Rdiv; rewrite Rmult_0_l. apply lin_one.
  - intro t. set (n := sqrt (nsq n1 n2 n3)).
    assert (E : forall u, curve (alg n1 n2 n3) u = lin (cos (u * n)) (if Req_EM_T n 0 then u else sin (u * n) / n) n1 n2 n3) by (intro; apply curve_alg).
    assert (D : derivative2 (fun u => lin (cos (u * n)) (if Req_EM_T n 0 then u else sin (u * n) / n) n1 n2 n3) t (mul2 (alg n1 n2 n3) (curve (alg n1 n2 n3) t))).
    { rewrite E, alg_lin. pose proof (sqrt_nsq n1 n2 n3) as Q. fold n in Q. rewrite <- Q.
      apply derivative_lin.
      - replace (- (if Req_EM_T n 0 then t else sin (t * n) / n) * (n * n)) with (- sin (t * n) * n).
        + apply derivable_lin_comp, derivable_pt_lim_cos.
        + destruct (Req_EM_T n 0) as [->|N]; [ring|field; exact N].
      - destruct (Req_EM_T n 0) as [Z|N].
        + rewrite Z, Rmult_0_r, cos_0. apply derivable_pt_lim_id.
        + replace (cos (t * n)) with (cos (t * n) * n * / n + sin (t * n) * 0) by (field; exact N).
          apply (derivable_pt_lim_mult (fun u => sin (u * n)) (fun _ => / n)); [apply derivable_lin_comp, derivable_pt_lim_sin|apply derivable_pt_lim_const]. }
    apply (derivative2_ext _ _ _ _ (fun u => eq_sym (E u)) D).
Qed.

(** The curve is unique. *)
Definition dist2 (a b : mat2) : R :=
  Cnorm2 (m00 a - m00 b) + Cnorm2 (m01 a - m01 b) + Cnorm2 (m10 a - m10 b) + Cnorm2 (m11 a - m11 b).
Lemma dist2_zero a b : dist2 a b = 0 -> a = b.
Proof.
  unfold dist2. intro H.
  pose proof (Cnorm2_ge0 (m00 a - m00 b)); pose proof (Cnorm2_ge0 (m01 a - m01 b)); pose proof (Cnorm2_ge0 (m10 a - m10 b)); pose proof (Cnorm2_ge0 (m11 a - m11 b)).
  assert (F : forall u v : C, Cnorm2 (u - v) = 0 -> u = v).
  { intros u v E. apply Cnorm2_eq0 in E. apply C_eq; [apply (f_equal re) in E|apply (f_equal im) in E]; cbn in E; lra. }
  apply M2_eq; apply F; lra.
Qed.
Lemma deriv_sq (f g : R -> R) t f' g' : derivable_pt_lim f t f' -> derivable_pt_lim g t g' ->
  derivable_pt_lim (fun u => (f u - g u) * (f u - g u)) t (2 * (f t - g t) * (f' - g')).
Proof.
  intros Hf Hg.
  assert (E : (f' - g') * (f t - g t) + (f t - g t) * (f' - g') = 2 * (f t - g t) * (f' - g')) by ring.
  rewrite <- E.
  apply (derivable_pt_lim_mult (fun u => f u - g u) (fun u => f u - g u)); apply (derivable_pt_lim_minus f g); assumption.
Qed.
Lemma deriv_cnorm (f g : R -> C) t f' g' : derivative_C f t f' -> derivative_C g t g' ->
  derivable_pt_lim (fun u => Cnorm2 (f u - g u)) t (2 * (re (f t) - re (g t)) * (re f' - re g') + 2 * (im (f t) - im (g t)) * (im f' - im g')).
Proof.
  intros [H1 H2] [H3 H4].
  apply (derivable_pt_lim_plus (fun u => (re (f u) - re (g u)) * (re (f u) - re (g u))) (fun u => (im (f u) - im (g u)) * (im (f u) - im (g u)))).
  - now apply (deriv_sq (fun u => re (f u)) (fun u => re (g u))).
  - now apply (deriv_sq (fun u => im (f u)) (fun u => im (g u))).
Qed.
Lemma const_of_null f : (forall t, derivable_pt_lim f t 0) -> forall a b, f a = f b.
Proof.
  intros H. assert (A : forall a b, a < b -> f a = f b).
  { intros a b L. destruct (MVT_cor2 f (fun _ => 0) a b L) as [c [E _]]; [intros; apply H|]. lra. }
  intros a b. destruct (Rtotal_order a b) as [L|[->|L]]; [auto|reflexivity|symmetry; auto].
Qed.
Lemma curve_unique x E F : algebra2 x -> exponential_curve x E -> exponential_curve x F -> forall t, E t = F t.
Proof.
  intros Hx [E0 HE] [F0 HF] t. apply alg_of in Hx as [n1 [n2 [n3 ->]]].
  apply dist2_zero. transitivity (dist2 (E 0) (F 0)).
  - apply (const_of_null (fun u => dist2 (E u) (F u))). intro u.
    destruct (HE u) as [A1 [A2 [A3 A4]]], (HF u) as [B1 [B2 [B3 B4]]].
    eapply eq_ind; [|].
    + exact (derivable_pt_lim_plus _ _ _ _ _ (derivable_pt_lim_plus _ _ _ _ _ (derivable_pt_lim_plus _ _ _ _ _ (deriv_cnorm _ _ _ _ _ A1 B1) (deriv_cnorm _ _ _ _ _ A2 B2)) (deriv_cnorm _ _ _ _ _ A3 B3)) (deriv_cnorm _ _ _ _ _ A4 B4)).
    + cbn. ring.
  - rewrite E0, F0. unfold dist2, Cnorm2; cbn; ring.
Qed.
Lemma curve_add x s t : algebra2 x -> curve x (s + t) = mul2 (curve x s) (curve x t).
Proof.
  intro H. apply alg_of in H as [n1 [n2 [n3 ->]]]. rewrite !curve_alg, lin_mul.
  pose proof (sqrt_nsq n1 n2 n3) as Q. set (n := sqrt (nsq n1 n2 n3)) in *. clearbody n. rewrite <- Q.
  rewrite !Rmult_plus_distr_r, cos_plus, sin_plus.
  destruct (Req_EM_T n 0) as [->|N].
  - rewrite !Rmult_0_r, cos_0, sin_0. f_equal; ring.
  - f_equal; field; exact N.
Qed.
Lemma curve_su2 x t : algebra2 x -> su2 (curve x t).
Proof.
  intro H. apply alg_of in H as [n1 [n2 [n3 ->]]]. rewrite curve_alg. apply lin_su2.
  pose proof (sqrt_nsq n1 n2 n3) as Q. set (n := sqrt (nsq n1 n2 n3)) in *. clearbody n. rewrite <- Q.
  pose proof (sin2_cos2 (t * n)) as S. unfold Rsqr in S.
  destruct (Req_EM_T n 0) as [->|N].
  - rewrite !Rmult_0_r, cos_0. ring.
  - rewrite <- S. field. exact N.
Qed.
Lemma curve_opp x t : algebra2 x -> curve (opp2 x) t = curve x (- t).
Proof.
  intro H. apply alg_of in H as [n1 [n2 [n3 ->]]].
  replace (opp2 (alg n1 n2 n3)) with (alg (- n1) (- n2) (- n3)) by (apply M2_eq; cbn; apply C_eq; cbn; ring).
  rewrite !curve_alg. replace (nsq (- n1) (- n2) (- n3)) with (nsq n1 n2 n3) by (unfold nsq; ring).
  set (n := sqrt (nsq n1 n2 n3)). clearbody n. replace (- t * n) with (- (t * n)) by ring. rewrite cos_neg, sin_neg.
  destruct (Req_EM_T n 0) as [E|N]; apply M2_eq; cbn; apply C_eq; cbn; try ring; field; exact N.
Qed.
Lemma norm2_opp x : norm2 (opp2 x) = norm2 x.
Proof. unfold norm2; f_equal; unfold Cnorm2; cbn; field. Qed.
Lemma algebra_opp x : algebra2 x -> algebra2 (opp2 x).
Proof.
  intro H. apply alg_of in H as [n1 [n2 [n3 ->]]].
  replace (opp2 (alg n1 n2 n3)) with (alg (- n1) (- n2) (- n3)) by (apply M2_eq; cbn; apply C_eq; cbn; ring).
  apply alg_algebra.
Qed.
Lemma matrix_exp_curve x : algebra2 x -> threshold <= norm2 x -> matrix_exp x = curve x 1.
Proof.
  intros H L. pose proof threshold_pos as P. apply alg_of in H as [n1 [n2 [n3 ->]]]. rewrite norm2_alg in L.
  rewrite matrix_exp_alg, curve_alg. rewrite Rmult_1_l.
  destruct (Rlt_dec (sqrt (nsq n1 n2 n3)) threshold); [lra|]. destruct (Req_EM_T (sqrt (nsq n1 n2 n3)) 0); [lra|reflexivity].
Qed.
Lemma exp_map_curve x : algebra2 x -> x <> zero2 -> exp_map x = Some (curve x 1).
Proof.
  intros H Z. apply alg_of in H as [n1 [n2 [n3 ->]]].
  assert (N : sqrt (nsq n1 n2 n3) <> 0).
  { intro E. apply nsq_zero in E as [-> [-> ->]]. apply Z. apply M2_eq; cbn; apply C_eq; cbn; ring. }
  rewrite exp_map_alg, curve_alg by exact N. rewrite Rmult_1_l. destruct (Req_EM_T (sqrt (nsq n1 n2 n3)) 0); [contradiction|reflexivity].
Qed.
Lemma exp_map_zero : exp_map zero2 = None.
Proof.
  unfold exp_map; cbn. replace (0 * 0 + 0 * 0 + 0 * 0) with 0 by ring. rewrite sqrt_0.
  destruct (Req_EM_T 0 0); [reflexivity|contradiction].
Qed.
Lemma matrix_exp_zero : matrix_exp zero2 = one2.
Proof.
  replace zero2 with (alg 0 0 0) by (apply M2_eq; cbn; apply C_eq; cbn; ring). rewrite matrix_exp_alg.
  replace (nsq 0 0 0) with 0 by (unfold nsq; ring). rewrite sqrt_0. pose proof threshold_pos.
  destruct (Rlt_dec 0 threshold); [|contradiction]. apply M2_eq; cbn; apply C_eq; cbn; field.
Qed.
(** The series branch. *)
Lemma series_det x : algebra2 x -> norm2 x < threshold ->
  det2 (matrix_exp x) = RtoC (1 - norm2 x ^ 4 / 12 + norm2 x ^ 6 / 36).
Proof.
  intros H L. apply alg_of in H as [n1 [n2 [n3 ->]]]. rewrite norm2_alg in *. rewrite matrix_exp_alg.
  destruct (Rlt_dec _ _); [|contradiction]. pose proof (sqrt_nsq n1 n2 n3) as Q. set (n := sqrt (nsq n1 n2 n3)) in *. rewrite lin_det, <- Q. f_equal. field.
Qed.
Lemma series_not_su2 x : algebra2 x -> x <> zero2 -> norm2 x < threshold -> ~ su2 (matrix_exp x).
Proof.
  intros H Z L [_ [_ D]]. rewrite series_det in D by assumption. apply RtoC_inj in D.
  assert (P : 0 < norm2 x).
  { apply alg_of in H as [n1 [n2 [n3 ->]]]. rewrite norm2_alg.
    destruct (Rle_lt_or_eq_dec _ _ (sqrt_pos (nsq n1 n2 n3))) as [P|E]; [exact P|]. exfalso.
    symmetry in E. apply nsq_zero in E as [-> [-> ->]]. apply Z. apply M2_eq; cbn; apply C_eq; cbn; ring. }
  set (n := norm2 x) in *. assert (n ^ 2 < 3). { unfold threshold in L. assert (n < 1) by lra. assert (n * n < 1 * 1) by (apply Rmult_le_0_lt_compat; lra). cbn; lra. }
  assert (0 < n ^ 4) by (apply pow_lt; exact P).
  assert (E : n ^ 4 * (3 - n ^ 2) = 0) by (replace (n ^ 4 * (3 - n ^ 2)) with (36 * (1 - (1 - n ^ 4 / 12 + n ^ 6 / 36))) by field; rewrite D; ring).
  apply Rmult_integral in E. lra.
Qed.
Lemma cos_two_terms n : 0 <= n <= 1 -> 0 <= cos n - (1 - n ^ 2 / 2) <= n ^ 4 / 24.
Proof.
  intro H. destruct (pre_cos_bound n 0) as [A B]; [lra|lra|]. unfold cos_approx, cos_term in *. cbn in *. 
  replace (INR 2) with 2 in * by (cbn; lra). split; [|]; cbn; lra.
Qed.
Lemma sin_two_terms n : 0 <= n <= 1 -> 0 <= sin n - (n - n ^ 3 / 6) <= n ^ 5 / 120.
Proof.
  intro H. destruct (pre_sin_bound n 0) as [A B]; [lra|lra|]. unfold sin_approx, sin_term in *. cbn in *. split; lra.
Qed.
Lemma sq_le a b : 0 <= a <= b -> a * a <= b * b.
Proof. intros. apply Rmult_le_compat; lra. Qed.
Lemma series_error x : algebra2 x -> norm2 x < threshold -> dist2 (matrix_exp x) (curve x 1) <= norm2 x ^ 8.
Proof.
  intros H L. apply alg_of in H as [n1 [n2 [n3 ->]]]. rewrite norm2_alg in *. rewrite matrix_exp_alg, curve_alg.
  pose proof (sqrt_nsq n1 n2 n3) as Q. pose proof (sqrt_pos (nsq n1 n2 n3)) as P. unfold threshold in *.
  set (n := sqrt (nsq n1 n2 n3)) in *. clearbody n.
  destruct (Rlt_dec _ _); [|contradiction]. rewrite Rmult_1_l.
  set (s := if Req_EM_T n 0 then 1 else sin n / n).
  replace (dist2 (lin (1 - n * n / 2) (1 - n * n / 6) n1 n2 n3) (lin (cos n) s n1 n2 n3))
    with (2 * ((cos n - (1 - n ^ 2 / 2)) * (cos n - (1 - n ^ 2 / 2))) + 2 * ((s * n - (n - n ^ 3 / 6)) * (s * n - (n - n ^ 3 / 6)))).
  2: { unfold dist2, Cnorm2; cbn. unfold nsq in Q. 
       replace (s * n - (n - n * (n * (n * 1)) / 6)) with (n * (s - (1 - n * n / 6))) by field.
       replace (n * (s - (1 - n * n / 6)) * (n * (s - (1 - n * n / 6)))) with ((n * n) * ((s - (1 - n * n / 6)) * (s - (1 - n * n / 6)))) by ring.
       
       assert (R1 : 1 - n * (n * 1) / 2 = 1 - n * n / 2) by field. rewrite R1.
       generalize (1 - n * n / 6); intro p. generalize (1 - n * n / 2); intro q. rewrite Q. ring. }
  assert (S : s * n = sin n). { unfold s. destruct (Req_EM_T n 0) as [->|N]; [rewrite sin_0; ring|field; exact N]. }
  rewrite S. assert (B : 0 <= n <= 1) by lra. pose proof (cos_two_terms n B) as Bc. pose proof (sin_two_terms n B) as Bs.
  apply sq_le in Bc. apply sq_le in Bs.
  assert (n8 : n ^ 4 / 24 * (n ^ 4 / 24) = n ^ 8 / 576) by field.
  assert (n10 : n ^ 5 / 120 * (n ^ 5 / 120) = n ^ 8 * (n * n) / 14400) by field.
  assert (0 <= n ^ 8) by (apply pow_le; lra).
  assert (n * n <= 1 * 1) by (apply sq_le; lra).
  assert (n ^ 8 * (n * n) <= n ^ 8 * 1) by (apply Rmult_le_compat_l; lra). lra.
Qed.

(** The sampler. *)
Definition uniform (u : R) : Prop := 0 <= u < 1.
Lemma ln_le0 u : 0 < u < 1 -> ln u <= 0.
Proof. intro H. rewrite <- ln_1. left. apply ln_increasing; lra. Qed.
Lemma candidate_le1 b u1 u2 u3 s : 0 < b -> uniform u1 -> uniform u2 -> candidate b u1 u2 u3 = Fin s -> s <= 1.
Proof.
  unfold candidate, uniform. intros Hb H1 H2. set (x3 := cos (2 * PI * u3) ^ 2).
  assert (0 <= x3) by (unfold x3; rewrite <- Rsqr_pow2; apply Rle_0_sqr).
  destruct (Req_EM_T u2 0) as [|N2]; [destruct (Req_EM_T x3 0); discriminate|].
  destruct (Req_EM_T u1 0) as [|N1]; [discriminate|]. intro E; injection E as <-.
  pose proof (ln_le0 u1 ltac:(lra)). pose proof (ln_le0 u2 ltac:(lra)).
  assert (0 <= - ln u2 * x3) by (apply Rmult_le_pos; lra).
  assert (0 <= b * (- ln u1 + - ln u2 * x3)) by (apply Rmult_le_pos; lra). lra.
Qed.
Definition draw_ok (d : R * R * R * R) : Prop := let '(u1, u2, u3, r) := d in uniform u1 /\ uniform u2 /\ uniform u3 /\ uniform r.
Lemma radius_range b draws s : 0 < b -> Forall draw_ok draws -> generate_radius b draws = Some (Fin s) -> -1 <= s <= 1.
Proof.
  intros Hb H. induction H as [|[[[u1 u2] u3] r] rest [H1 [H2 [H3 H4]]] _ IH]; [discriminate|]. cbn [generate_radius].
  destruct (candidate b u1 u2 u3) as [x| |] eqn:Ec; [|exact IH|discriminate].
  destruct (Rlt_dec (1 + x - 2 * r * r) 0) as [_|N]; [exact IH|]. intro E; injection E as <-.
  pose proof (candidate_le1 _ _ _ _ _ Hb H1 H2 Ec). split; [|lra].
  assert (0 <= r * r) by apply Rle_0_sqr. lra.
Qed.
Lemma radius_nan b draws x : generate_radius b draws = Some x -> x = NaN ->
  exists u1 u2 u3 r, In (u1, u2, u3, r) draws /\ u2 = 0 /\ cos (2 * PI * u3) = 0.
Proof.
  intros H ->. induction draws as [|[[[u1 u2] u3] r] rest IH]; [discriminate|]. cbn [generate_radius] in H.
  assert (K : generate_radius b rest = Some NaN -> exists u1' u2' u3' r', In (u1', u2', u3', r') ((u1, u2, u3, r) :: rest) /\ u2' = 0 /\ cos (2 * PI * u3') = 0).
  { intro E. destruct (IH E) as [a [b' [c [d [I R]]]]]. exists a, b', c, d. split; [right; exact I|exact R]. }
  destruct (candidate b u1 u2 u3) as [x| |] eqn:Ec.
  - destruct (Rlt_dec (1 + x - 2 * r * r) 0); [auto|discriminate].
  - auto.
  - exists u1, u2, u3, r. split; [left; reflexivity|]. revert Ec. unfold candidate.
    destruct (Req_EM_T u2 0) as [E2|]; [|destruct (Req_EM_T u1 0); discriminate].
    destruct (Req_EM_T (cos (2 * PI * u3) ^ 2) 0) as [E3|]; [|discriminate]. intros _. split; [exact E2|].
    rewrite <- Rsqr_pow2 in E3. apply Rsqr_0_uniq, E3.
Qed.
Lemma radius_no_infinity b draws : generate_radius b draws <> Some MinusInfinity.
Proof.
  induction draws as [|[[[u1 u2] u3] r] rest IH]; [discriminate|]. cbn [generate_radius].
  destruct (candidate b u1 u2 u3); [|exact IH|discriminate]. destruct (Rlt_dec (1 + x - 2 * r * r) 0); [exact IH|discriminate].
Qed.
Lemma vector_sphere radius v1 v2 u1 u2 u3 : generate_vector radius v1 v2 = (u1, u2, u3) -> u1 * u1 + u2 * u2 + u3 * u3 = radius * radius.
Proof.
  unfold generate_vector. intro E; injection E as <- <- <-.
  set (t := acos (2 * v2 - 1)); clearbody t. set (p := 2 * PI * v1); clearbody p.
  pose proof (sin2_cos2 t) as A. pose proof (sin2_cos2 p) as B. unfold Rsqr in *.
  replace (radius * radius) with (radius * radius * (sin t * sin t * (sin p * sin p + cos p * cos p) + cos t * cos t)) by (rewrite B; rewrite Rmult_1_r, A; ring).
  ring.
Qed.
Lemma draw_sphere b draws v1 v2 u0 u1 u2 u3 : 0 < b -> Forall draw_ok draws ->
  heatbath_draw b draws v1 v2 = Some (Some (u0, u1, u2, u3)) -> u0 * u0 + u1 * u1 + u2 * u2 + u3 * u3 = 1.
Proof.
  intros Hb H. unfold heatbath_draw. destruct (generate_radius b draws) as [[s| |]|] eqn:E; try discriminate.
  pose proof (radius_range _ _ _ Hb H E) as Rg. destruct (Rlt_dec (1 - s * s) 0) as [|N]; [discriminate|].
  destruct (generate_vector (sqrt (1 - s * s)) v1 v2) as [[x y] z] eqn:Ev. intro F; injection F as <- <- <- <-.
  apply vector_sphere in Ev. rewrite sqrt_sqrt in Ev by lra. lra.
Qed.
Lemma draw_defined b draws v1 v2 : 0 < b -> Forall draw_ok draws ->
  (forall u1 u2 u3 r, In (u1, u2, u3, r) draws -> u2 <> 0) -> heatbath_draw b draws v1 v2 <> Some None.
Proof.
  intros Hb H Hn. unfold heatbath_draw. destruct (generate_radius b draws) as [[s| |]|] eqn:E; try discriminate.
  - pose proof (radius_range _ _ _ Hb H E) as Rg. destruct (Rlt_dec (1 - s * s) 0) as [L|N].
    + exfalso. assert (0 <= (1 - s) * (1 + s)) by (apply Rmult_le_pos; lra). lra.
    + destruct (generate_vector (sqrt (1 - s * s)) v1 v2) as [[x y] z]. discriminate.
  - exfalso. now apply (radius_no_infinity b draws).
  - exfalso. destruct (radius_nan _ _ _ E eq_refl) as [a [b' [c [d [I [Z _]]]]]]. now apply (Hn _ _ _ _ I).
Qed.
(** Every value of u0 in [-1, 1) is reached. *)
Lemma exp_neg_lt1 x : x < 0 -> 0 < exp x < 1.
Proof. intro H. split; [apply exp_pos|]. rewrite <- exp_0. now apply exp_increasing. Qed.
Lemma radius_onto b s : 0 < b -> -1 <= s < 1 -> exists d, draw_ok d /\ generate_radius b [d] = Some (Fin s).
Proof.
  intros Hb Hs. assert (Hx : (s - 1) / b < 0) by (unfold Rdiv; apply Ropp_lt_cancel; rewrite Ropp_0, <- Ropp_mult_distr_l_reverse; apply Rmult_lt_0_compat; [lra|now apply Rinv_0_lt_compat]).
  pose proof (exp_neg_lt1 _ Hx) as E.
  exists (exp ((s - 1) / b), 1 / 2, 1 / 4, 0). split; [unfold draw_ok, uniform; lra|]. cbn [generate_radius]. unfold candidate.
  replace (2 * PI * (1 / 4)) with (PI / 2) by field. rewrite cos_PI2. replace (0 ^ 2) with 0 by ring.
  destruct (Req_EM_T (1 / 2) 0); [lra|]. destruct (Req_EM_T (exp ((s - 1) / b)) 0); [lra|].
  rewrite ln_exp. replace (1 + b * ((s - 1) / b + ln (1 / 2) * 0)) with s by (field; lra).
  destruct (Rlt_dec (1 + s - 2 * 0 * 0) 0); [lra|reflexivity].
Qed.
(** With a negative coupling the value is above 1 and the square root of 1 - u0^2 is not a number. *)
Lemma negative_coupling b draws v1 v2 : b < 0 -> Forall draw_ok draws -> heatbath_draw b draws v1 v2 = None \/ heatbath_draw b draws v1 v2 = Some None.
Proof.
  intros Hb H. unfold heatbath_draw.
  assert (K : forall s, generate_radius b draws = Some (Fin s) -> 1 < s).
  { induction H as [|[[[u1 u2] u3] r] rest [H1 [H2 [H3 H4]]] _ IH]; [discriminate|]. intro s. cbn [generate_radius].
    destruct (candidate b u1 u2 u3) as [x| |] eqn:Ec; [|auto|discriminate].
    destruct (Rlt_dec (1 + x - 2 * r * r) 0) as [_|N]; [auto|]. intro E; injection E as <-.
    revert Ec. unfold candidate. set (x3 := cos (2 * PI * u3) ^ 2). unfold uniform in *.
    assert (0 <= x3) by (unfold x3; rewrite <- Rsqr_pow2; apply Rle_0_sqr).
    destruct (Req_EM_T u2 0) as [|N2]; [destruct (Req_EM_T x3 0); discriminate|].
    destruct (Req_EM_T u1 0) as [|N1]; [discriminate|]. intro E; injection E as <-.
    assert (ln u1 < 0) by (rewrite <- ln_1; apply ln_increasing; lra). pose proof (ln_le0 u2 ltac:(lra)).
    assert (0 <= - ln u2 * x3) by (apply Rmult_le_pos; lra).
    assert (0 < - b * (- ln u1 + - ln u2 * x3)) by (apply Rmult_lt_0_compat; lra). lra. }
  destruct (generate_radius b draws) as [[s| |]|] eqn:E; auto. specialize (K s eq_refl).
  destruct (Rlt_dec (1 - s * s) 0) as [|N]; auto. exfalso. assert (1 * 1 < s * s) by (apply Rmult_le_0_lt_compat; lra). lra.
Qed.

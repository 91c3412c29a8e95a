(** Real-number facts about the coefficients of the exponential for three colours. *)
From Coq Require Import Reals Lra Psatz.
From Verif Require Import ComplexR Exp3RModel.
Open Scope R_scope.

Lemma cos3 x : cos (3 * x) = cos x * (cos x * cos x - 3 * (sin x * sin x)).
Proof.
  replace (3 * x) with (2 * x + x) by ring. rewrite cos_plus, cos_2a, sin_2a. ring.
Qed.
Lemma sc1 x : sin x * sin x + cos x * cos x = 1.
Proof. pose proof (sin2_cos2 x) as H. unfold Rsqr in H. exact H. Qed.

(** The angles solve the characteristic equation. *)
Lemma angles_spec c0 c1 : 0 < c1 -> 0 <= c0 -> 27 * (c0 * c0) <= 4 * (c1 * c1 * c1) ->
  exists u w, angles c0 c1 = Some (u, w) /\ 3 * u * u + w * w = c1 /\ 2 * u * (u * u - w * w) = c0 /\
    0 <= w /\ 0 < 9 * u * u - w * w /\ 0 < u.
Proof.
  intros H1 H0 HD. unfold angles. destruct (Rlt_dec c1 0) as [X|_]; [lra|].
  set (r := sqrt (c1 / 3)). assert (R0 : 0 < r) by (apply sqrt_lt_R0; lra).
  assert (Rr : r * r = c1 / 3) by (apply sqrt_sqrt; lra).
  set (m := 2 * c1 / 3 * r). assert (M0 : 0 < m) by (apply Rmult_lt_0_compat; lra).
  destruct (Req_EM_T m 0) as [X|_]; [lra|].
  assert (Mm : m * m = 4 * (c1 * c1 * c1) / 27).
  { unfold m. replace (2 * c1 / 3 * r * (2 * c1 / 3 * r)) with (4 * c1 * c1 / 9 * (r * r)) by field. rewrite Rr. field. }
  assert (Q1 : c0 <= m).
  { apply Rsqr_incr_0_var; [unfold Rsqr|lra]. rewrite Mm. lra. }
  assert (Qb : 0 <= c0 / m <= 1).
  { split; [apply Rmult_le_pos; [lra|left; now apply Rinv_0_lt_compat]|].
    apply Rmult_le_reg_r with m; [lra|]. unfold Rdiv. rewrite Rmult_assoc, Rinv_l by lra. lra. }
  destruct (Rlt_dec 1 (c0 / m)) as [X|_]; [lra|].
  set (t := acos (c0 / m) / 3).
  assert (CT : cos (3 * t) = c0 / m) by (unfold t; replace (3 * (acos (c0 / m) / 3)) with (acos (c0 / m)) by field; apply cos_acos; lra).
  assert (TB : 0 <= t <= PI / 6).
  { pose proof (acos_bound (c0 / m)) as B. pose proof PI_RGT_0 as P.
    assert (acos (c0 / m) <= PI / 2).
    { destruct (Rle_dec (acos (c0 / m)) (PI / 2)) as [X|X]; [exact X|exfalso].
      assert (N : cos (acos (c0 / m)) < 0) by (apply cos_lt_0; lra). rewrite cos_acos in N by lra. lra. }
    unfold t. lra. }
  pose proof PI_RGT_0 as P.
  assert (S0 : 0 <= sin t) by (apply sin_ge_0; lra).
  assert (C0' : 0 < cos t) by (apply cos_gt_0; lra).
  assert (S1 : sin t <= 1 / 2).
  { rewrite <- sin_PI6. destruct (Req_dec t (PI / 6)) as [->|N]; [lra|]. left. apply sin_increasing_1; lra. }
  pose proof (sc1 t) as SC.
  set (s := sqrt c1). assert (Ss : s * s = c1) by (apply sqrt_sqrt; lra).
  assert (Sp : 0 < s) by (apply sqrt_lt_R0; lra).
  exists (r * cos t), (s * sin t). split; [reflexivity|].
  assert (U2 : r * cos t * (r * cos t) = c1 / 3 * (cos t * cos t)) by (rewrite <- Rr; ring).
  assert (W2 : s * sin t * (s * sin t) = c1 * (sin t * sin t)) by (rewrite <- Ss; ring).
  split; [|split; [|split; [|split]]].
  - replace (3 * (r * cos t) * (r * cos t)) with (3 * (r * cos t * (r * cos t))) by ring. rewrite U2, W2.
    replace (3 * (c1 / 3 * (cos t * cos t))) with (c1 * (cos t * cos t)) by field.
    rewrite <- Rmult_plus_distr_l. replace (cos t * cos t + sin t * sin t) with 1 by lra. ring.
  - rewrite U2, W2. replace (2 * (r * cos t) * (c1 / 3 * (cos t * cos t) - c1 * (sin t * sin t)))
      with (m * (cos t * (cos t * cos t - 3 * (sin t * sin t)))) by (unfold m; field).
    rewrite <- cos3, CT. field. lra.
  - apply Rmult_le_pos; lra.
  - replace (9 * (r * cos t) * (r * cos t)) with (9 * (r * cos t * (r * cos t))) by ring. rewrite U2, W2.
    replace (9 * (c1 / 3 * (cos t * cos t)) - c1 * (sin t * sin t)) with (c1 * (3 * (cos t * cos t) - sin t * sin t)) by field.
    apply Rmult_lt_0_compat; [lra|]. nra.
  - apply Rmult_lt_0_compat; lra.
Qed.

(** The value of the quadratic polynomial at the three roots; ksi enters only through w * ksi w. *)
Definition cis (x : R) : C := mkC (cos x) (sin x).
Definition value (u w q : R) : C := (h0 u w + h1 u w * RtoC q + h2 u w * RtoC (q * q))%C.
Lemma cis_neg x : dumexp1 x = cis (- x).
Proof. unfold dumexp1, cis. now rewrite cos_neg, sin_neg. Qed.
Lemma cis_plus x y : cis (x + y) = (cis x * cis y)%C.
Proof. unfold cis. apply C_eq; cbn; [rewrite cos_plus|rewrite sin_plus]; ring. Qed.
Lemma value_top u w : value u w (2 * u) = (RtoC (9 * u * u - w * w) * cis (2 * u))%C.
Proof.
  unfold value, h0, h1, h2. change (dumexp2 u) with (cis (2 * u)). set (e2 := cis (2 * u)). set (e1 := dumexp1 u).
  set (k := ksi w). set (c := cos w). destruct e1 as [a b], e2 as [a' b']. apply C_eq; cbn; ring.
Qed.
Lemma value_mid u w : value u w (- u + w) = (RtoC (9 * u * u - w * w) * (cis (- u) * mkC (cos w) (w * ksi w)))%C.
Proof.
  unfold value, h0, h1, h2. rewrite <- cis_neg. change (dumexp2 u) with (cis (2 * u)). set (e2 := cis (2 * u)). set (e1 := dumexp1 u).
  set (k := ksi w). set (c := cos w). destruct e1 as [a b], e2 as [a' b']. apply C_eq; cbn; ring.
Qed.
Lemma value_low u w : value u w (- u - w) = (RtoC (9 * u * u - w * w) * (cis (- u) * mkC (cos w) (- (w * ksi w))))%C.
Proof.
  unfold value, h0, h1, h2. rewrite <- cis_neg. change (dumexp2 u) with (cis (2 * u)). set (e2 := cis (2 * u)). set (e1 := dumexp1 u).
  set (k := ksi w). set (c := cos w). destruct e1 as [a b], e2 as [a' b']. apply C_eq; cbn; ring.
Qed.

(** ksi is sin w / w except in the series range. *)
Lemma ksi_exact w : 5 / 100 <= w \/ w = 0 -> w * ksi w = sin w.
Proof.
  intros [H| ->]; unfold ksi; [|rewrite sin_0; ring].
  rewrite Rabs_right by lra. destruct (Rlt_dec w (5 / 100)) as [X|_]; [lra|]. field. lra.
Qed.
Lemma INR_fact n : INR (fact (S n)) = INR (S n) * INR (fact n).
Proof. now rewrite fact_simpl, mult_INR. Qed.
Lemma approx4 w : sin_approx w 4 = w - w ^ 3 / 6 + w ^ 5 / 120 - w ^ 7 / 5040 + w ^ 9 / 362880.
Proof.
  unfold sin_approx. cbn [sum_f_R0]. unfold sin_term. cbn [Nat.mul Nat.add]. rewrite !INR_fact. cbn [fact INR pow]. field.
Qed.
Lemma approx5 w : sin_approx w 5 = w - w ^ 3 / 6 + w ^ 5 / 120 - w ^ 7 / 5040 + w ^ 9 / 362880 - w ^ 11 / 39916800.
Proof.
  unfold sin_approx. cbn [sum_f_R0]. unfold sin_term. cbn [Nat.mul Nat.add]. rewrite !INR_fact. cbn [fact INR pow]. field.
Qed.
Lemma ksi_series w : 0 <= w < 5 / 100 -> 0 <= sin w - w * ksi w <= w ^ 9 / 362880 /\ (0 < w -> 0 < sin w - w * ksi w).
Proof.
  intros H. assert (E : w * ksi w = w - w ^ 3 / 6 + w ^ 5 / 120 - w ^ 7 / 5040).
  { unfold ksi. rewrite Rabs_right by lra. destruct (Rlt_dec w (5 / 100)) as [_|X]; [|lra]. field. }
  rewrite E. pose proof PI2_3_2 as P. assert (P' : w <= PI) by (unfold PI2 in *; lra).
  assert (W9 : 0 <= w ^ 9) by (apply pow_le; lra). assert (W11 : w ^ 11 <= w ^ 9).
  { replace (w ^ 11) with (w ^ 9 * (w * w)) by ring. assert (w * w <= 1) by nra. nra. }
  pose proof (sin_bound w 1 ltac:(lra) P') as [_ B1].
  pose proof (sin_bound w 2 ltac:(lra) P') as [B2 _].
  cbn [Nat.mul Nat.add] in B1, B2.
  set (s := sin w) in *. clearbody s.
  assert (K1 : s <= w - w ^ 3 / 6 + w ^ 5 / 120 - w ^ 7 / 5040 + w ^ 9 / 362880).
  { eapply Rle_trans; [exact B1|]. right. rewrite approx4. field. }
  assert (K2 : w - w ^ 3 / 6 + w ^ 5 / 120 - w ^ 7 / 5040 + w ^ 9 / 362880 - w ^ 11 / 39916800 <= s).
  { eapply Rle_trans; [|exact B2]. right. rewrite approx5. field. }
  split; [split; lra|]. intros Hw. assert (0 < w ^ 9) by (apply pow_lt; lra). lra.
Qed.

(** The three roots. *)
Lemma roots u w c0 c1 q : 3 * u * u + w * w = c1 -> 2 * u * (u * u - w * w) = c0 -> q * q * q - c1 * q - c0 = 0 ->
  q = 2 * u \/ q = - u + w \/ q = - u - w.
Proof.
  intros <- <- H. assert (F : (q - 2 * u) * ((q + u - w) * (q + u + w)) = 0) by (rewrite <- H; ring).
  apply Rmult_integral in F as [F|F]; [left; lra|]. apply Rmult_integral in F as [F|F]; [right; left; lra|right; right; lra].
Qed.
Lemma discriminant a b c c0 c1 : a + b + c = 0 -> c1 = - (a * b + a * c + b * c) -> c0 = a * b * c ->
  27 * (c0 * c0) <= 4 * (c1 * c1 * c1).
Proof.
  intros S -> ->. assert (E : c = - a - b) by lra. subst c.
  assert (K : 4 * (- (a * b + a * (- a - b) + b * (- a - b)) * - (a * b + a * (- a - b) + b * (- a - b)) * - (a * b + a * (- a - b) + b * (- a - b)))
     - 27 * (a * b * (- a - b) * (a * b * (- a - b))) = ((a - b) * (2 * a + b) * (a + 2 * b)) ^ 2) by ring.
  pose proof (pow2_ge_0 ((a - b) * (2 * a + b) * (a + 2 * b))). lra.
Qed.

(** The polynomial f0 + f1 q + f2 q^2. *)
Definition quad (f : C * C * C) (q : R) : C := let '(f0, f1, f2) := f in (f0 + f1 * RtoC q + f2 * RtoC (q * q))%C.
Lemma quad_value u w d q : d <> 0 ->
  quad (Cscale (/ d) (h0 u w), Cscale (/ d) (h1 u w), Cscale (/ d) (h2 u w)) q = Cscale (/ d) (value u w q).
Proof. intros Hd. unfold quad, value. rewrite !Cscale_mul. ring. Qed.
Lemma quad_conj f0 f1 f2 q : quad (Cconj f0, (- Cconj f1)%C, Cconj f2) (- q) = Cconj (quad (f0, f1, f2) q).
Proof. unfold quad. destruct f0, f1, f2. apply C_eq; cbn; ring. Qed.
Lemma scale_inv d z : d <> 0 -> Cscale (/ d) (RtoC d * z)%C = z.
Proof. intros Hd. destruct z. apply C_eq; cbn; field; exact Hd. Qed.
Lemma cis_conj x : Cconj (cis x) = cis (- x).
Proof. unfold cis, Cconj. cbn. now rewrite cos_neg, sin_neg. Qed.

Lemma coefficients_spec a b c c0 c1 : a + b + c = 0 -> c1 = - (a * b + a * c + b * c) -> c0 = a * b * c -> 0 < c1 ->
  exists u w sg f, exp3_coefficients c0 c1 = Some f /\ (sg = 1 \/ sg = -1) /\ 0 <= w <= u /\ 0 < u /\
    3 * u * u + w * w = c1 /\ 2 * u * (u * u - w * w) = sg * c0 /\
    quad f (sg * (2 * u)) = cis (sg * (2 * u)) /\
    quad f (sg * (- u + w)) = (cis (sg * - u) * mkC (cos w) (sg * (w * ksi w)))%C /\
    quad f (sg * (- u - w)) = (cis (sg * - u) * mkC (cos w) (sg * - (w * ksi w)))%C.
Proof.
  intros S E1 E0 P. pose proof (discriminant a b c c0 c1 S E1 E0) as D. clear S E1 E0.
  unfold exp3_coefficients. destruct (Rlt_dec c0 0) as [N|N].
  - destruct (angles_spec (- c0) c1 P ltac:(lra) ltac:(lra)) as (u & w & EA & U1 & U2 & W0 & DD & U0). rewrite EA.
    destruct (Req_EM_T (9 * u * u - w * w) 0) as [X|NZ]; [lra|].
    assert (WU : w <= u).
    { assert (0 <= u * u - w * w); [|nra]. apply Rmult_le_reg_l with (2 * u); [lra|]. rewrite Rmult_0_r. lra. }
    exists u, w, (-1). eexists. split; [reflexivity|]. split; [right; reflexivity|]. split; [lra|]. split; [exact U0|].
    split; [exact U1|]. split; [lra|].
    replace (-1 * (2 * u)) with (- (2 * u)) by ring. replace (-1 * (- u + w)) with (- (- u + w)) by ring.
    replace (-1 * (- u - w)) with (- (- u - w)) by ring. replace (-1 * - u) with (- - u) by ring.
    rewrite !quad_conj, !quad_value by exact NZ. rewrite value_top, value_mid, value_low, !scale_inv by exact NZ.
    rewrite <- !cis_conj, Cconj_mul. split; [reflexivity|]. split; [|rewrite Cconj_mul]; f_equal; unfold Cconj; cbn; f_equal; ring.
  - destruct (angles_spec c0 c1 P ltac:(lra) ltac:(lra)) as (u & w & EA & U1 & U2 & W0 & DD & U0). rewrite EA.
    destruct (Req_EM_T (9 * u * u - w * w) 0) as [X|NZ]; [lra|].
    assert (WU : w <= u).
    { assert (0 <= u * u - w * w); [|nra]. apply Rmult_le_reg_l with (2 * u); [lra|]. rewrite Rmult_0_r. lra. }
    exists u, w, 1. eexists. split; [reflexivity|]. split; [left; reflexivity|]. split; [lra|]. split; [exact U0|].
    split; [exact U1|]. split; [lra|].
    rewrite !Rmult_1_l, !quad_value by exact NZ. rewrite value_top, value_mid, value_low, !scale_inv by exact NZ. auto.
Qed.

(** The three eigenvalues of -iA. *)
Section Roots.
Variables (a b c u w sg : R).
Hypotheses (S : a + b + c = 0) (Hsg : sg = 1 \/ sg = -1)
  (E1 : 3 * u * u + w * w = - (a * b + a * c + b * c)) (E0 : 2 * u * (u * u - w * w) = sg * (a * b * c)).
Lemma root_of q : q = a \/ q = b \/ q = c -> q = sg * (2 * u) \/ q = sg * (- u + w) \/ q = sg * (- u - w).
Proof.
  intros Hq. assert (K : (sg * q) * (sg * q) * (sg * q) - (- (a * b + a * c + b * c)) * (sg * q) - sg * (a * b * c) = 0).
  { assert (F : (q - a) * (q - b) * (q - c) = 0) by (destruct Hq as [->|[->| ->]]; ring).
    assert (G : (q - a) * (q - b) * (q - c) = q * q * q - (a + b + c) * (q * q) + (a * b + a * c + b * c) * q - a * b * c) by ring.
    rewrite F, S in G. destruct Hsg as [-> | ->]; ring_simplify; ring_simplify in G; lra. }
  assert (Q2 : sg * (sg * q) = q) by (destruct Hsg as [-> | ->]; ring).
  destruct (roots u w _ _ _ E1 E0 K) as [H|[H|H]]; rewrite <- Q2, H; auto.
Qed.
(** Three distinct eigenvalues are all the roots. *)
Lemma all_roots : a <> b -> a <> c -> b <> c -> forall r, r = sg * (2 * u) \/ r = sg * (- u + w) \/ r = sg * (- u - w) -> r = a \/ r = b \/ r = c.
Proof.
  intros N1 N2 N3 r Hr.
  destruct (root_of a ltac:(auto)) as [A|[A|A]], (root_of b ltac:(auto)) as [B|[B|B]], (root_of c ltac:(auto)) as [D|[D|D]];
    try (exfalso; congruence); destruct Hr as [H|[H|H]]; rewrite H, <- ?A, <- ?B, <- ?D; auto.
Qed.
Lemma equal_pair : 0 <= w <= u -> 0 < u -> a = b \/ a = c \/ b = c -> w = 0.
Proof.
  intros W U H.
  assert (K : exists x, 3 * u * u + w * w = 3 * (x * x) /\ 2 * u * (u * u - w * w) = 2 * (x * x * x) /\ 0 <= x).
  { assert (L : forall y, 3 * u * u + w * w = 3 * (y * y) -> 2 * u * (u * u - w * w) = sg * (-2 * (y * y * y)) ->
      exists x, 3 * u * u + w * w = 3 * (x * x) /\ 2 * u * (u * u - w * w) = 2 * (x * x * x) /\ 0 <= x).
    { intros y H1 H2. assert (0 <= 2 * u * (u * u - w * w)) by (apply Rmult_le_pos; nra).
      destruct (Rle_dec 0 (sg * - y)) as [P|P].
      - exists (sg * - y). destruct Hsg as [-> | ->]; split; try lra; split; lra.
      - assert (0 < sg * y) by (destruct Hsg as [-> | ->]; lra).
        assert (sg * (-2 * (y * y * y)) < 0).
        { assert (0 < (sg * y) * (sg * y) * (sg * y)) by (apply Rmult_lt_0_compat; [apply Rmult_lt_0_compat|]; assumption).
          destruct Hsg as [-> | ->]; lra. } lra. }
    destruct H as [H|[H|H]]; [apply (L a)|apply (L a)|apply (L b)]; subst; try rewrite E1; try rewrite E0;
      [replace c with (-2 * b) by lra|replace c with (-2 * b) by lra|replace b with (-2 * c) by lra|replace b with (-2 * c) by lra
      |replace a with (-2 * c) by lra|replace a with (-2 * c) by lra]; ring. }
  destruct K as (x & H1 & H2 & X0).
  assert (UX : u <= x) by nra.
  assert (U3 : u * u * u <= x * x * x).
  { apply Rmult_le_compat; try nra. }
  assert (UW : u * (w * w) <= 0) by nra.
  assert (WW : w * w <= 0) by nra. nra.
Qed.
End Roots.
Lemma pairs_pos x y z : x + y + z = 0 -> x <> 0 \/ y <> 0 -> 0 < - (x * y + x * z + y * z).
Proof.
  intros S N. replace z with (- (x + y)) by lra.
  replace (- (x * y + x * - (x + y) + y * - (x + y))) with ((x + y / 2) * (x + y / 2) + 3 / 4 * (y * y)) by field.
  assert (A : forall v, v <> 0 -> 0 < v * v) by (intros v H; pose proof (Rsqr_pos_lt v H); assumption).
  destruct (Req_EM_T y 0) as [E|E]; [subst y; destruct N as [N|N]; [|contradiction]; pose proof (A x N); lra|].
  pose proof (A y E). pose proof (Rle_0_sqr (x + y / 2)) as Q. unfold Rsqr in Q. lra.
Qed.

(** The value at each eigenvalue, compared with the exponential. *)
Section Values.
Variables (a b c u w sg : R) (f : C * C * C).
Hypotheses (S : a + b + c = 0) (Hsg : sg = 1 \/ sg = -1) (W : 0 <= w <= u) (U : 0 < u)
  (E1 : 3 * u * u + w * w = - (a * b + a * c + b * c)) (E0 : 2 * u * (u * u - w * w) = sg * (a * b * c))
  (F0 : quad f (sg * (2 * u)) = cis (sg * (2 * u)))
  (F1 : quad f (sg * (- u + w)) = (cis (sg * - u) * mkC (cos w) (sg * (w * ksi w)))%C)
  (F2 : quad f (sg * (- u - w)) = (cis (sg * - u) * mkC (cos w) (sg * - (w * ksi w)))%C).
Lemma cis_mid : cis (sg * (- u + w)) = (cis (sg * - u) * mkC (cos w) (sg * sin w))%C.
Proof using All.
  replace (sg * (- u + w)) with (sg * - u + sg * w) by ring. rewrite cis_plus. f_equal. unfold cis.
  destruct Hsg as [-> | ->]; [now rewrite !Rmult_1_l|]. replace (-1 * w) with (- w) by ring. rewrite cos_neg, sin_neg. f_equal. ring.
Qed.
Lemma cis_low : cis (sg * (- u - w)) = (cis (sg * - u) * mkC (cos w) (sg * - sin w))%C.
Proof using All.
  replace (sg * (- u - w)) with (sg * - u + sg * - w) by ring. rewrite cis_plus. f_equal. unfold cis.
  destruct Hsg as [-> | ->]; [rewrite !Rmult_1_l; now rewrite cos_neg, sin_neg|].
  replace (-1 * - w) with w by ring. f_equal. ring.
Qed.
Lemma values_exact q : w * ksi w = sin w -> q = a \/ q = b \/ q = c -> quad f q = cis q.
Proof using All.
  intros K H. destruct (root_of a b c u w sg S Hsg E1 E0 q H) as [->|[->| ->]]; auto.
  - now rewrite F1, K, cis_mid.
  - now rewrite F2, K, cis_low.
Qed.
Lemma cis_unit x : Cnorm2 (cis x) = 1.
Proof using Type. unfold Cnorm2, cis; cbn. pose proof (sc1 x). lra. Qed.
Lemma ksi_error : (w * ksi w - sin w) * (w * ksi w - sin w) <= (1 / 10 ^ 17) * (1 / 10 ^ 17).
Proof using All.
  destruct (Rlt_dec w (5 / 100)) as [L|L]; [|rewrite ksi_exact by lra; replace (sin w - sin w) with 0 by ring; nra].
  destruct (ksi_series w ltac:(lra)) as [[K1 K2] _].
  assert (w ^ 9 <= (5 / 100) ^ 9) by (apply pow_incr; lra).
  assert (w ^ 9 / 362880 <= 1 / 10 ^ 17) by lra. nra.
Qed.
Lemma values_error q : q = a \/ q = b \/ q = c -> Cnorm2 (quad f q - cis q)%C <= (1 / 10 ^ 17) * (1 / 10 ^ 17).
Proof using All.
  intros H. pose proof ksi_error as K.
  assert (S2 : sg * sg = 1) by (destruct Hsg as [-> | ->]; ring).
  assert (D : forall z v, Cnorm2 (z * mkC (cos w) v - z * mkC (cos w) (sg * sin w))%C = Cnorm2 z * ((v - sg * sin w) * (v - sg * sin w))).
  { intros [x y] v. unfold Cnorm2; cbn. ring. }
  assert (D' : forall z v, Cnorm2 (z * mkC (cos w) v - z * mkC (cos w) (sg * - sin w))%C = Cnorm2 z * ((v + sg * sin w) * (v + sg * sin w))).
  { intros [x y] v. unfold Cnorm2; cbn. ring. }
  destruct (root_of a b c u w sg S Hsg E1 E0 q H) as [->|[->| ->]].
  - rewrite F0. unfold Cnorm2; cbn. lra.
  - rewrite F1, cis_mid, D, cis_unit. replace (1 * ((sg * (w * ksi w) - sg * sin w) * (sg * (w * ksi w) - sg * sin w)))
      with ((sg * sg) * ((w * ksi w - sin w) * (w * ksi w - sin w))) by ring. rewrite S2. lra.
  - rewrite F2, cis_low, D', cis_unit. replace (1 * ((sg * - (w * ksi w) + sg * sin w) * (sg * - (w * ksi w) + sg * sin w)))
      with ((sg * sg) * ((w * ksi w - sin w) * (w * ksi w - sin w))) by ring. rewrite S2. lra.
Qed.
(** Two equal eigenvalues, or eigenvalues that are a tenth apart: the exact branch. *)
Lemma exact_branch : (a = b \/ a = c \/ b = c) \/ (1 / 10 <= Rabs (a - b) /\ 1 / 10 <= Rabs (a - c) /\ 1 / 10 <= Rabs (b - c)) ->
  w * ksi w = sin w.
Proof using All.
  intros [H|(D1 & D2 & D3)].
  - apply ksi_exact. right. now apply (equal_pair a b c u w sg).
  - apply ksi_exact. destruct (Rle_dec (5 / 100) w) as [L|L]; [now left|]. exfalso.
    assert (N : forall x y, 1 / 10 <= Rabs (x - y) -> x <> y).
    { intros x y H ->. replace (y - y) with 0 in H by ring. rewrite Rabs_R0 in H. lra. }
    pose proof (all_roots a b c u w sg S Hsg E1 E0 (N _ _ D1) (N _ _ D2) (N _ _ D3)) as R.
    pose proof (R (sg * (- u + w)) ltac:(auto)) as R1. pose proof (R (sg * (- u - w)) ltac:(auto)) as R2.
    assert (Dw : forall x y, sg * (- u + w) = x -> sg * (- u - w) = y -> Rabs (x - y) < 1 / 10 /\ Rabs (y - x) < 1 / 10).
    { intros x y <- <-. destruct Hsg as [-> | ->]; split; apply Rabs_def1; lra. }
    assert (Z : forall x, sg * (- u + w) = x -> sg * (- u - w) = x -> w = 0) by (intros x; destruct Hsg as [Hs|Hs]; rewrite Hs; lra).
    assert (NW : w <> 0).
    { intros W0. pose proof (equal_pair a b c u w sg S Hsg E1 E0) as _.
      destruct (root_of a b c u w sg S Hsg E1 E0 a ltac:(auto)) as [A|[A|A]],
        (root_of a b c u w sg S Hsg E1 E0 b ltac:(auto)) as [B|[B|B]],
        (root_of a b c u w sg S Hsg E1 E0 c ltac:(auto)) as [G|[G|G]];
        pose proof (N _ _ D1); pose proof (N _ _ D2); pose proof (N _ _ D3);
        rewrite ?W0 in A; rewrite ?W0 in B; rewrite ?W0 in G; destruct Hsg as [Hs|Hs]; rewrite Hs in A, B, G; lra. }
    destruct R1 as [R1|[R1|R1]], R2 as [R2|[R2|R2]]; try (apply NW; exact (Z _ R1 R2));
      destruct (Dw _ _ R1 R2); lra.
Qed.
(** Three different eigenvalues, two of them closer: a value of modulus below one. *)
Lemma series_branch : a <> b -> a <> c -> b <> c ->
  Rabs (a - b) < 1 / 10 \/ Rabs (a - c) < 1 / 10 \/ Rabs (b - c) < 1 / 10 ->
  exists q, (q = a \/ q = b \/ q = c) /\ Cnorm2 (quad f q) < 1.
Proof using All.
  intros N1 N2 N3 H. pose proof (all_roots a b c u w sg S Hsg E1 E0 N1 N2 N3) as R.
  assert (NW : 0 < w).
  { destruct (Req_EM_T w 0) as [W0|W0]; [|lra]. exfalso.
      destruct (root_of a b c u w sg S Hsg E1 E0 a ltac:(auto)) as [A|[A|A]],
        (root_of a b c u w sg S Hsg E1 E0 b ltac:(auto)) as [B|[B|B]],
        (root_of a b c u w sg S Hsg E1 E0 c ltac:(auto)) as [G|[G|G]];
        rewrite ?W0 in A; rewrite ?W0 in B; rewrite ?W0 in G; destruct Hsg as [Hs|Hs]; rewrite Hs in A, B, G; lra. }
  assert (L : w < 5 / 100).
  { assert (D : forall x y, (x = a \/ x = b \/ x = c) -> (y = a \/ y = b \/ y = c) -> x <> y -> Rabs (x - y) < 1 / 10 -> w < 5 / 100).
    { intros x y Hx Hy Nxy K. apply Rabs_def2 in K as [K1 K2].
      destruct (root_of a b c u w sg S Hsg E1 E0 x Hx) as [X|[X|X]], (root_of a b c u w sg S Hsg E1 E0 y Hy) as [Y|[Y|Y]];
        subst x y; try congruence; destruct Hsg as [-> | ->]; lra. }
    destruct H as [H|[H|H]]; [apply (D a b)|apply (D a c)|apply (D b c)]; auto. }
  exists (sg * (- u + w)). split; [apply R; auto|]. rewrite F1, Cnorm2_mul, cis_unit, Rmult_1_l.
  destruct (ksi_series w ltac:(lra)) as [[K1 K2] K3]. specialize (K3 NW).
  assert (K0 : 0 <= w * ksi w).
  { apply Rmult_le_pos; [lra|]. unfold ksi. rewrite Rabs_right by lra. destruct (Rlt_dec w (5 / 100)); [|lra].
    assert (0 <= w * w <= 1 / 100) by nra. nra. }
  unfold Cnorm2; cbn. replace (sg * (w * ksi w) * (sg * (w * ksi w))) with ((sg * sg) * ((w * ksi w) * (w * ksi w))) by ring.
  assert (S2 : sg * sg = 1) by (destruct Hsg as [-> | ->]; ring). rewrite S2.
  pose proof (sc1 w). nra.
Qed.
End Values.
(** Specification: two angles are a tenth apart; an error of at most 10^-17. *)
Definition far (x y : R) : Prop := 1 / 10 <= Rabs (x - y).
Definition within (a b : C) : Prop := Cnorm2 (a - b)%C <= (1 / 10 ^ 17) * (1 / 10 ^ 17).
Lemma coefficients_zero c0 : exp3_coefficients c0 0 = None.
Proof.
  unfold exp3_coefficients, angles. destruct (Rlt_dec 0 0) as [H|_]; [lra|].
  destruct (Req_EM_T (2 * 0 / 3 * sqrt (0 / 3)) 0) as [_|N]; [reflexivity|]. exfalso. apply N. unfold Rdiv. ring.
Qed.

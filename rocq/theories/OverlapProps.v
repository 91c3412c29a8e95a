(** Properties of the overlap operator (C87), of its exact treatment of some eigenvectors (C88) and of the measurements made with
    them (C89). *)
From Coq Require Import List Ring.
From Verif Require Import Base SolverModel.
From mathcomp Require Import all_ssreflect all_algebra all_field.
From Verif Require Import GaugeModel GaugeSpec GaugeProofs GaugeProofs2 GaugeProofs3 GammaModel DiracModel DiracSpec DiracProofs DiracProofs2
  PertProofs VecProofs FForceModel FForceSpec FForceProofs2 ExpSpec EigProofs OverlapModel OverlapSpec OverlapProofs OverlapProofs2 OverlapProofs3
  OverlapProofs4 OverlapProofs5 OverlapProofs6 OverlapProofs7.
Import GRing.Theory Num.Theory Order.POrderTheory.
Set Implicit Arguments.
Unset Strict Implicit.
Unset Printing Implicit Defensive.
Local Open Scope ring_scope.

(** ** C87 *)
(** multiply returns (1 + m)/2 v + (1 - m)/2 gamma5 S v, times gamma5 with the flag, with S = H q(H^2), q the polynomial held by
    squareRootApproximation; whatever the scratch vectors held before.  With no roots it reads the front of an empty vector. *)
Theorem C87_operator (C : numClosedFieldType) (n : nat) (L : lattice) (k : C) (roots : list C) (scaling mass : C) gamma5
    (U : gauge C n L) (old v : L -> 'I_4 -> 'I_n -> C) :
  (roots <> nil -> returns (overlap_multiply k roots scaling old mass gamma5 U v)
    (overlap (sign_approx k U (held_poly roots scaling)) mass gamma5 v)) /\
  (roots = nil -> overlap_multiply k roots scaling old mass gamma5 U v = UB).
Proof. by split=> [r0|->]; [exact: multiply_returns|rewrite /overlap_multiply sign_function_nil]. Qed.
(** Without hopping H is gamma5; the polynomial x - 2 gives S = - gamma5 and the overlap operator is the mass. *)
Example C87_operator_case (U : gauge algCnumClosedField 1 (box 0 0 0 0)) old (m : algC) (v : box 0 0 0 0 -> 'I_4 -> 'I_1 -> algC) :
  returns (overlap_multiply 0 [:: 2%:R] 1 old m false U v) (fun x a c => m * v x a c).
Proof.
have r0 : [:: 2%:R : algC] <> nil by [].
have [t [-> h]] := (C87_operator 0 [:: 2%:R] 1 m false U old v).1 r0; exists t; split=> // x a c; rewrite h /overlap /=.
rewrite g5E sign0 held1 g5E mulN1r mulrN mulrA.
have -> : sgn algCnumClosedField a * sgn _ a = 1 by rewrite /sgn; case: ifP => _; rewrite ?mulrNN mul1r.
rewrite mul1r mulrN -mulrBl -mulrBl opprB addrC addrA subrK.
by rewrite -mulr2n -(mulr_natr m 2) mulfK // pnatr_eq0.
Qed.
(** SquareOverlapOperator applies it twice. *)
Theorem C87_square (C : numClosedFieldType) (n : nat) (L : lattice) (k : C) (roots : list C) (scaling mass : C) gamma5
    (U : gauge C n L) (old v : L -> 'I_4 -> 'I_n -> C) : roots <> nil ->
  let D := overlap (sign_approx k U (held_poly roots scaling)) mass gamma5 in
  returns (square_overlap k roots scaling old mass gamma5 U v) (D (D v)).
Proof. exact: square_returns. Qed.
(** With gamma5, multiplyAdd adds alpha times the second vector. *)
Theorem C87_multiply_add_partial (C : numClosedFieldType) (n : nat) (L : lattice) (k : C) (roots : list C) (scaling mass : C)
    (U : gauge C n L) (old v w : L -> 'I_4 -> 'I_n -> C) (alpha : C) : roots <> nil ->
  returns (overlap_multiply_add k roots scaling old mass true U v w alpha)
    (combine alpha (overlap (sign_approx k U (held_poly roots scaling)) mass true v) w).
Proof. exact: multiply_add_returns. Qed.
(** And multiplyAdd of the squared operator adds it to D D v. *)
Theorem C87_square_add_partial (C : numClosedFieldType) (n : nat) (L : lattice) (k : C) (roots : list C) (scaling mass : C)
    (U : gauge C n L) (old v w : L -> 'I_4 -> 'I_n -> C) (alpha : C) : roots <> nil ->
  let D := overlap (sign_approx k U (held_poly roots scaling)) mass true in
  returns (square_overlap_add k roots scaling old mass true U v w alpha) (combine alpha (D (D v)) w).
Proof.
move=> r0 D; apply/returnsE; rewrite /square_overlap_add.
have [t [-> vt]] := multiplyE k old scaling mass true U v r0.
have [u [Eu vu]] := (@returnsE C n L _ _).1 (multiply_add_returns k old scaling mass U t w alpha r0).
exists u; split; [exact: Eu|]; rewrite vu !vec_comb; congr (_ + _).
by rewrite (overlapE _ _ (sign_approxE k U _ t)) vt (overlapE _ _ (sign_approxE k U _ _)) (overlapE _ _ (sign_approxE k U _ _)).
Qed.
(** Without it, it does so only for those vectors whose four spin components are all equal (or for alpha zero). *)
Theorem C87_multiply_add_refuted (C : numClosedFieldType) (n : nat) (L : lattice) (k : C) (roots : list C) (scaling mass : C)
    (U : gauge C n L) (old v w : L -> 'I_4 -> 'I_n -> C) (alpha : C) : roots <> nil ->
  (returns (overlap_multiply_add k roots scaling old mass false U v w alpha)
     (combine alpha (overlap (sign_approx k U (held_poly roots scaling)) mass false v) w) <->
   alpha = 0 \/ forall x a c, w x a c = w x ord0 c) /\
  ((0 < n)%N -> forall x0 : L, exists w', ~ returns (overlap_multiply_add k roots scaling old mass false U v w' 1)
     (combine 1 (overlap (sign_approx k U (held_poly roots scaling)) mass false v) w')).
Proof.
move=> r0.
have key (w0 : L -> 'I_4 -> 'I_n -> C) al : returns (overlap_multiply_add k roots scaling old mass false U v w0 al)
    (combine al (overlap (sign_approx k U (held_poly roots scaling)) mass false v) w0) <->
    al = 0 \/ forall x a c, w0 x a c = w0 x ord0 c.
  have [t [Et et]] := (C87_operator k roots scaling mass false U old v).1 r0.
  have [s [Es es]] : exists s, sign_function k roots scaling old U v = Ok s /\ t = overlap_output mass false v s.
    move: Et; rewrite /overlap_multiply; case: (sign_function _ _ _ _ _ _) => [s| |] //= [<-]; by exists s.
  have d00 : d0 = ord0 by apply: val_inj.
  move: (overlap _ _ _ v) et => Dv et; rewrite /overlap_multiply_add Es /=; split=> [[r [[<-] h]]|h].
    have [->|a0] := eqVneq al 0; [by left|right=> x a c].
    have := h x a c; rewrite /combine -et es => /addrI /(mulfI a0) <-; by rewrite d00.
  eexists; split; first by []; move=> x a c; rewrite /combine -et es d00; congr (_ + _).
  by case: h => [->|->]; rewrite ?mul0r.
split; first exact: key.
case: n U old v w key => [//|n'] U old v w key _ x0; exists (fun _ a _ => (a == ord0)%:R).
by move/key => [/eqP|/(_ x0 (Ordinal (isT : 1 < 4)%N) ord0) /eqP]; rewrite ?oner_eq0 //= eq_sym oner_eq0.
Qed.
(** For real kappa and mass and roots that come in complex conjugate pairs, gamma5 D is Hermitian. *)
Theorem C87_hermitian (C : numClosedFieldType) (n : nat) (L : lattice) (k : C) (roots : list C) (scaling mass : C)
    (U : gauge C n L) (old v w : L -> 'I_4 -> 'I_n -> C) :
  roots <> nil -> k \is Num.real -> mass \is Num.real -> perm_eq (map conjC roots) roots ->
  exists v' w', [/\ overlap_multiply k roots scaling old mass true U v = Ok v', overlap_multiply k roots scaling old mass true U w = Ok w' &
    inner v w' = inner v' w].
Proof.
move=> r0 kr mr pr; apply: (@virtual_herm C n L k old roots scaling r0 None mass U v w) => //.
by apply: Sm_herm => // i; exact: held_poly_real.
Qed.
Example C87_hermitian_roots : let roots := [:: 1 + 'i; 1 - 'i] : seq algC in perm_eq (map conjC roots) roots /\ ~~ all (mem Num.real) roots.
Proof.
split=> /=.
  have -> : (1 + 'i : algC)^* = 1 - 'i by rewrite rmorphD rmorph1 conjCi.
  have -> : (1 - 'i : algC)^* = 1 + 'i by rewrite rmorphB rmorph1 conjCi opprK.
  by rewrite (perm_catC [:: _] [:: _]).
rewrite negb_and rpredDl ?rpred1 //; apply/orP; left; apply/negP => /CrealP; rewrite conjCi => /eqP.
by rewrite -subr_eq0 -opprD oppr_eq0 -mulr2n mulrn_eq0 (negbTE (neq0Ci _)).
Qed.
(** The Ginsparg-Wilson relation of the massless operator holds up to half the error of the sign function: three calls give
    vectors whose defect has at most eps/2 times the norm of v, when the sign function is good to eps on the spectrum of H. *)
Theorem C87_ginsparg_wilson (C : numClosedFieldType) (n : nat) (L : lattice) (k : C) (roots : list C) (scaling eps : C)
    (U : gauge C n L) (old v : L -> 'I_4 -> 'I_n -> C) :
  roots <> nil -> k \is Num.real -> 0 <= eps ->
  (forall lam w, eigenvector (hermitian_dirac k U) lam w -> `|1 - (lam * (held_poly roots scaling).[lam ^+ 2]) ^+ 2| <= eps) ->
  let D := overlap_multiply k roots scaling old 0 false U in
  exists a b c, [/\ D v = Ok a, D (g5 v) = Ok b, D (g5 a) = Ok c &
    inner (ginsparg_wilson_defect a b c) (ginsparg_wilson_defect a b c) <= (eps / 2%:R) ^+ 2 * inner v v].
Proof.
move=> r0 kr e0 h D; apply: (@virtual_defect C n L k old roots scaling r0 None U eps v) => u /=.
rewrite -{1 2}(De_nil (Sm k U (held_poly roots scaling))); apply: defect_bound => //.
by move=> lam w hw _; exact: h hw.
Qed.
Lemma gamma5_eigen (lam : algC) (U : gauge algCnumClosedField 1 (box 0 0 0 0)) w : eigenvector (hermitian_dirac 0 U) lam w -> lam ^+ 2 = 1.
Proof.
case=> nz ev; apply/eqP; apply/negPn/negP => l; apply: nz => x a c; have := ev x a c; rewrite dirac0 g5E => /(congr1 (fun t => sgn _ a * t)).
rewrite mulrA; have -> : sgn algCnumClosedField a * sgn _ a = 1 by rewrite /sgn; case: ifP => _; rewrite ?mulrNN mul1r.
rewrite mul1r mulrCA => e1; have e2 := ev x a c; rewrite dirac0 g5E in e2.
move: e1; rewrite e2 mulrA -expr2 => /eqP; rewrite eq_sym -subr_eq0 -{2}[w x a c]mul1r -mulrBl mulf_eq0 subr_eq0 (negbTE l) /= => /eqP.
by [].
Qed.
(** The polynomial 2 - x is exact where H^2 is one. *)
Example C87_ginsparg_wilson_case (U : gauge algCnumClosedField 1 (box 0 0 0 0)) lam w : eigenvector (hermitian_dirac 0 U) lam w ->
  `|1 - (lam * (held_poly [:: 2%:R : algC] (-1)).[lam ^+ 2]) ^+ 2| <= 0.
Proof. by move=> /gamma5_eigen l1; rewrite l1 heldN1 mulr1 l1 subrr normr0. Qed.
(** The mass interpolates between the massless operator and the identity (or gamma5). *)
Theorem C87_mass (C : numClosedFieldType) (n : nat) (L : lattice) (k : C) (roots : list C) (scaling mass : C) gamma5
    (U : gauge C n L) (old v : L -> 'I_4 -> 'I_n -> C) : roots <> nil ->
  exists a b, [/\ overlap_multiply k roots scaling old mass gamma5 U v = Ok a, overlap_multiply k roots scaling old 0 gamma5 U v = Ok b &
    feq a (fun x i c => b x i c + mass * (maybe5 gamma5 v x i c - b x i c))].
Proof. by move=> r0; exact: (@virtual_mass C n L k old roots scaling r0 None mass gamma5 U v). Qed.
(** Gauge covariance. *)
Theorem C87_gauge (C : numClosedFieldType) (n : nat) (L : lattice) (k : C) (roots : list C) (scaling mass : C) gamma5
    (U : gauge C n L) (om : L -> 'M[C]_n) (old v : L -> 'I_4 -> 'I_n -> C) : roots <> nil -> (forall x, unitary (om x)) ->
  exists v', overlap_multiply k roots scaling old mass gamma5 U v = Ok v' /\
    returns (overlap_multiply k roots scaling old mass gamma5 (gauge_transform om U) (rotate om v)) (rotate om v').
Proof.
move=> r0 uo; have [v' [-> ev]] := multiplyE k old scaling mass gamma5 U v r0; exists v'; split=> //; apply/returnsE.
have [t [-> et]] := multiplyE k old scaling mass gamma5 (gauge_transform om U) (rotate om v) r0; exists t; split=> //.
have h := @Dm_between C n L _ _ (Rot om) mass gamma5 (Rot_G om) (Rot_S k uo U (held_poly roots scaling)).
by rewrite et !vec_rot ev (mulmxA (Rot om)) -h -mulmxA.
Qed.
Example C87_gauge_case : (forall x : box 1 1 1 1, unitary ((fun _ => 'i%:M) x : 'M[algC]_3)) /\ 'i%:M != 1%:M :> 'M[algC]_3.
Proof.
split=> [_|]; last first.
  apply/eqP => /matrixP /(_ ord0 ord0); rewrite !mxE !mulr1n => e; have := sqrCi algCnumClosedField; rewrite e expr1n => /eqP.
  by rewrite -subr_eq0 opprK -mulr2n pnatr_eq0.
by rewrite /unitary daggerE htrans_scalar conjCi -scalar_mxM mulrN -expr2 sqrCi opprK.
Qed.

(** ** C88 *)
(** With a list of eigenvectors, multiply and multiplyAdd use the sign of the listed eigenvalues along them and the approximation
    on what is left of the vector; multiplyAdd adds alpha times the second vector, with and without gamma5. *)
Theorem C88_operator (C : numClosedFieldType) (n : nat) (L : lattice) (k : C) (roots : list C) (scaling mass : C) gamma5
    (es : seq (C * (L -> 'I_4 -> 'I_n -> C))) (U : gauge C n L) (old v w : L -> 'I_4 -> 'I_n -> C) (alpha : C) : roots <> nil ->
  let D := overlap (deflated es (sign_approx k U (held_poly roots scaling))) mass gamma5 in
  returns (exact_multiply k roots scaling old es mass gamma5 U v) (D v) /\
  returns (exact_multiply_add k roots scaling old es mass gamma5 U v w alpha) (combine alpha (D v) w).
Proof. by move=> r0; split; [exact: exact_returns|exact: exact_add_returns]. Qed.
(** For orthonormal eigenvectors of H the sign function is exact on each of them, and is the approximation on every vector
    orthogonal to all of them. *)
Theorem C88_sign (C : numClosedFieldType) (n : nat) (L : lattice) (k : C) (roots : list C) (scaling : C)
    (es : seq (C * (L -> 'I_4 -> 'I_n -> C))) (U : gauge C n L) (old : L -> 'I_4 -> 'I_n -> C) :
  roots <> nil -> orthonormal es -> eigenpairs (hermitian_dirac k U) es ->
  (forall p, List.In p es -> returns (exact_sign k roots scaling old es U p.2) (fun x a c => (if p.1 < 0 then -1 else 1) * p.2 x a c)) /\
  (forall v, orthogonal es v -> returns (exact_sign k roots scaling old es U v) (sign_approx k U (held_poly roots scaling) v)).
Proof.
move=> r0 on ev; split=> [p hp|v hv]; apply/returnsE.
  have [t [-> et]] := exact_signE k old scaling es U p.2 r0; exists t; split=> //; rewrite et.
  have [i [hi <-]] := List.In_nth _ _ (0, fun _ _ _ => 0) hp; have hi' : (i < size es)%N by apply/ltP.
  have -> : List.nth i es (0, fun _ _ _ => 0) = nth (0, fun _ _ _ => 0) es i by elim: (es) i {hi hi'} => [|p' es' IH] [|i] //=.
  by rewrite vecZ; exact: (De_E k U on _ (Ordinal hi')).
have [t [-> et]] := exact_signE k old scaling es U v r0; exists t; split=> //; rewrite et.
have h := iffLR (R_orth on v) hv; have z : htrans (Em es) *m vec v = 0 by rewrite -h mulmxA E_R // mul0mx.
by rewrite sign_approxE /De mulmxDl -mulmxA h /Sg -mulmxA z mulmx0 add0r.
Qed.
(** The Ginsparg-Wilson relation then only needs the approximation to be good on the eigenvectors that are not listed. *)
Theorem C88_ginsparg_wilson (C : numClosedFieldType) (n : nat) (L : lattice) (k : C) (roots : list C) (scaling eps : C)
    (es : seq (C * (L -> 'I_4 -> 'I_n -> C))) (U : gauge C n L) (old v : L -> 'I_4 -> 'I_n -> C) :
  roots <> nil -> k \is Num.real -> 0 <= eps -> orthonormal es -> eigenpairs (hermitian_dirac k U) es ->
  (forall lam w, eigenvector (hermitian_dirac k U) lam w -> orthogonal es w ->
    `|1 - (lam * (held_poly roots scaling).[lam ^+ 2]) ^+ 2| <= eps) ->
  let D := exact_multiply k roots scaling old es 0 false U in
  exists a b c, [/\ D v = Ok a, D (g5 v) = Ok b, D (g5 a) = Ok c &
    inner (ginsparg_wilson_defect a b c) (ginsparg_wilson_defect a b c) <= (eps / 2%:R) ^+ 2 * inner v v].
Proof.
move=> r0 kr e0 on ev h D; apply: (@virtual_defect C n L k old roots scaling r0 (Some es) U eps v) => u /=.
exact: defect_bound.
Qed.
(** And gamma5 D is Hermitian. *)
Theorem C88_hermitian (C : numClosedFieldType) (n : nat) (L : lattice) (k : C) (roots : list C) (scaling mass : C)
    (es : seq (C * (L -> 'I_4 -> 'I_n -> C))) (U : gauge C n L) (old v w : L -> 'I_4 -> 'I_n -> C) :
  roots <> nil -> k \is Num.real -> mass \is Num.real -> perm_eq (map conjC roots) roots ->
  orthonormal es -> eigenpairs (hermitian_dirac k U) es ->
  exists v' w', [/\ exact_multiply k roots scaling old es mass true U v = Ok v', exact_multiply k roots scaling old es mass true U w = Ok w' &
    inner v w' = inner v' w].
Proof.
move=> r0 kr mr pr on ev; apply: (@virtual_herm C n L k old roots scaling r0 (Some es) mass U v w) => //=.
by apply: De_herm => // i; exact: held_poly_real.
Qed.
(** A list of two eigenvectors with eigenvalues 1 and -1. *)
Example C88_hypotheses_case (U : gauge algCnumClosedField 1 (box 0 0 0 0)) :
  let es := [:: (1 : algC, up _); (-1, down _)] in orthonormal es /\ eigenpairs (hermitian_dirac 0 U) es.
Proof.
split.
  move=> [|[|i]] [|[|j]] //= _ _; rewrite inner1 /up /down /spin !big_ord_recl big_ord0 /=;
    by rewrite ?conjC0 ?conjC1 ?mul0r ?mulr0 ?mulr1 ?add0r ?addr0.
move=> p [<-|[<-|[]]]; split; rewrite ?rpredN ?rpred1 ?oppr_eq0 ?oner_eq0 // => x a c; rewrite dirac0 g5E /sgn /up /down /spin /=.
  by case: a => [[|[|[|[|a]]]] ha] //=; rewrite ?mul1r ?mulr0.
by case: a => [[|[|[|[|a]]]] ha] //=; rewrite ?mul1r ?mulr0.
Qed.
(** Gauge covariance, when the eigenvectors are rotated with the links. *)
Theorem C88_gauge (C : numClosedFieldType) (n : nat) (L : lattice) (k : C) (roots : list C) (scaling mass : C) gamma5
    (es : seq (C * (L -> 'I_4 -> 'I_n -> C))) (U : gauge C n L) (om : L -> 'M[C]_n) (old v : L -> 'I_4 -> 'I_n -> C) :
  roots <> nil -> (forall x, unitary (om x)) ->
  exists v', exact_multiply k roots scaling old es mass gamma5 U v = Ok v' /\
    returns (exact_multiply k roots scaling old [seq (p.1, rotate om p.2) | p <- es] mass gamma5 (gauge_transform om U) (rotate om v))
      (rotate om v').
Proof.
move=> r0 uo; have [v' [-> ev]] := exact_multiplyE k old scaling es mass gamma5 U v r0; exists v'; split=> //; apply/returnsE.
have [t [-> et]] := exact_multiplyE k old scaling (rotated om es) mass gamma5 (gauge_transform om U) (rotate om v) r0; exists t; split=> //.
have h := @Dm_between C n L _ _ (Rot om) mass gamma5 (Rot_G om) (Rot_De k uo es U (held_poly roots scaling)).
by rewrite et !vec_rot ev (mulmxA (Rot om)) -h -mulmxA.
Qed.
(** computeEigenvalues with a solver: what it keeps has residuals below the tolerance, and if what the solver found are normalised
    eigenvectors of H with the squares of their eigenvalues, so has what it stores, because the sign that it gives to the square
    root of each is that of the eigenvalue. *)
Theorem C88_eigenvalues (C : numClosedFieldType) (n : nat) (L : lattice) (k tolerance : C) recompute
    (es found : seq (C * (L -> 'I_4 -> 'I_n -> C))) (U : gauge C n L) (old : L -> 'I_4 -> 'I_n -> C) :
  0 <= tolerance ->
  (forall p, List.In p found -> inner p.2 p.2 = 1 /\
     exists lam, [/\ lam \is Num.real, p.1 = lam ^+ 2 & feq (hermitian_dirac k U p.2) (fun x a c => lam * p.2 x a c)]) ->
  exists es', compute_eigenvalues k old (Some tolerance) recompute U es found = Ok es' /\
    (recompute -> forall p, List.In p es' ->
      ~~ (tolerance < \sum_x \sum_(a < 4) \sum_c `|hermitian_dirac k U p.2 x a c - p.1 * p.2 x a c|)) /\
    (recompute -> check_eigenvalues k old tolerance U es = false ->
      map snd es' = map snd found /\ forall p, List.In p es' -> feq (hermitian_dirac k U p.2) (fun x a c => p.1 * p.2 x a c)).
Proof.
move=> t0 hf; have prec p : eigen_precision k old U p = \sum_x \sum_(a < 4) \sum_c `|hermitian_dirac k U p.2 x a c - p.1 * p.2 x a c|.
  by rewrite /eigen_precision; apply: eq_bigr => x _; apply: eq_bigr => a _; apply: eq_bigr => c _; rewrite wilson5E.
have sv p : List.In p (signed_eigenvalues k old U found) -> feq (hermitian_dirac k U p.2) (fun x a c => p.1 * p.2 x a c).
  rewrite /signed_eigenvalues => /List.in_map_iff [p' [<- hp]] /=; have [n1 [lam [lr el ev]]] := hf _ hp.
  by move=> x a c; rewrite ev el (@signed_value _ _ _ k old U p'.2 lam).
rewrite /compute_eigenvalues; case: recompute; last by exists es.
have [ck|ck] := boolP (check_eigenvalues k old tolerance U es); eexists; split; try by []; split=> //.
- move=> _ p hp; rewrite -prec; move: ck => /andP[_]; elim: (es) hp => [//|p' es' IH] /= [->|hp] /andP[h1 h2] //; exact: IH.
- move=> _ p /sv h; rewrite big1 ?le_gtF // => x _; rewrite big1 // => a _; rewrite big1 // => c _; by rewrite h subrr normr0.
- by move=> _ _; split=> //; rewrite /signed_eigenvalues -map_comp; apply: eq_map.
Qed.
Example C88_eigenvalues_case (U : gauge algCnumClosedField 1 (box 0 0 0 0)) old :
  compute_eigenvalues 0 old (Some 0) true U [::] [:: (1, down _)] = Ok [:: (-1, down _)].
Proof.
rewrite /compute_eigenvalues /= /signed_eigenvalues /=; congr (Ok [:: (_, _)]).
have e1 : (-1 : algC) ^+ 2 = 1 by rewrite sqrrN expr1n.
have := @signed_value _ _ _ 0 old U (down algCnumClosedField) (-1); rewrite e1; apply; first by rewrite rpredN rpred1.
  by rewrite inner1 /down /spin !big_ord_recl big_ord0 /= ?conjC0 ?conjC1 ?mul0r ?mulr0 ?mulr1 ?add0r ?addr0.
by move=> x a c; rewrite dirac0 g5E /sgn /down /spin; case: a => [[|[|[|[|a]]]] ha] //=; rewrite ?mul1r ?mulr0.
Qed.
(** Without one it dereferences a null pointer. *)
Theorem C88_null_refuted (C : numClosedFieldType) (n : nat) (L : lattice) (k : C)
    (es found : seq (C * (L -> 'I_4 -> 'I_n -> C))) (U : gauge C n L) (old : L -> 'I_4 -> 'I_n -> C) :
  compute_eigenvalues k old None true U es found = UB.
Proof. by []. Qed.
(** The solver works with H^2.  Where H has the eigenvalues lam and -lam, an eigenvector of H^2 may be none of H, and
    computeEigenvalues stores it with one of the signs.  Here is one, with a polynomial that is exact for every eigenvalue of H:
    the operator built with that list is not gamma5-Hermitian. *)
Theorem C88_degenerate_refuted (C : numClosedFieldType) (U : gauge C 1 (box 0 0 0 0)) (old : box 0 0 0 0 -> 'I_4 -> 'I_1 -> C) :
  exists found v w v' w', [/\ orthonormal found,
    forall p, List.In p found -> feq (hermitian_dirac 0 U (hermitian_dirac 0 U p.2)) (fun x a c => p.1 * p.2 x a c) &
    let es := signed_eigenvalues 0 old U found in
    [/\ exact_multiply 0 [:: 2%:R] (-1) old es 0 true U v = Ok v', exact_multiply 0 [:: 2%:R] (-1) old es 0 true U w = Ok w' &
        inner v w' != inner v' w]].
Proof.
have r0 : [:: 2%:R : C] <> nil by [].
pose found := [:: (1 : C, mix C)]; pose es := signed_eigenvalues 0 old U found.
have esE : es = [:: (1, mix C)].
  rewrite /es /found /signed_eigenvalues /= dotE mix_any !wilson5E !dirac0 !g5E /sgn /mix /spin !inordK //= mul1r mulN1r subrr mulr0.
  by rewrite raddf0 ltxx (Creal_ReP _ _) ?rpred1 // sqrtC1.
have sv v x a c : deflated es (sign_approx 0 U (held_poly [:: 2%:R : C] (-1))) v x a c =
    inner (mix C) v * mix C x a c + sgn C a * (v x a c - inner (mix C) v * mix C x a c).
  by rewrite /deflated esE big_seq1 /= lt_gtF ?ltr01 // mul1r sign0 heldN1 mul1r g5E /along big_seq1.
have [v' [Ev ev]] := (@C88_operator C 1 _ 0 [:: 2%:R] (-1) 0 true es U old (up C) (up C) 0 r0).1.
have [w' [Ew ew]] := (@C88_operator C 1 _ 0 [:: 2%:R] (-1) 0 true es U old (down C) (down C) 0 r0).1.
exists found, (up C), (down C), v', w'; split=> //.
- by move=> [|i] [|j] //= _ _; rewrite mix_mix.
- move=> p [<-|[]] // x a c; rewrite dirac0 g5E dirac0 g5E mulrA mul1r /= /sgn.
  by case: ifP => _; rewrite ?mulrNN !mul1r.
split=> //; rewrite -/es.
have iu : inner (mix C) (up C) = sqrtC 2%:R^-1 by rewrite mix_any /up /spin !inordK //= addr0 mulr1.
have id : inner (mix C) (down C) = sqrtC 2%:R^-1 by rewrite mix_any /down /spin !inordK //= add0r mulr1.
have -> : inner (up C) w' = 0.
  rewrite inner1 !big_ord_recl big_ord0 /up /spin /= conjC0 conjC1 !mul0r !addr0 mul1r ew /overlap /maybe5 g5E g5E sv id.
  by rewrite /sgn /mix /down /spin /= rt !mul1r mulr0 add0r sub0r subrr mulr0.
have e2 : inner v' (down C) = 2%:R^-1.
  rewrite inner1 !big_ord_recl big_ord0 /down /spin /= !mulr0 !add0r !addr0 mulr1 ev /overlap /maybe5 g5E g5E sv iu.
  rewrite /sgn /mix /up /spin /= rt !mulN1r sub0r opprK half2 mulr0 add0r mulrN mulr1 opprK subr0 mul1r.
  by apply: CrealP; rewrite rpredV rpred_nat.
by rewrite e2 eq_sym invr_eq0 pnatr_eq0.
Qed.

(** ** C89 *)
(** constructPropagator after an exact solution of D_m t = v gives (1 - D_0) D_m^-1 v = (D_m^-1 - 1)/(1 - m) v, for an
    OverlapOperator and for an ExactOverlapOperator with any list of vectors. *)
Theorem C89_propagator (C : numClosedFieldType) (n : nat) (L : lattice) (k : C) (roots : list C) (scaling mass : C)
    (cls : option (seq (C * (L -> 'I_4 -> 'I_n -> C)))) (U : gauge C n L) (old : L -> 'I_4 -> 'I_n -> C)
    (solve : (L -> 'I_4 -> 'I_n -> C) -> L -> 'I_4 -> 'I_n -> C) (v : L -> 'I_4 -> 'I_n -> C) :
  roots <> nil ->
  let D m := virtual_multiply k roots scaling old cls m false U in
  (forall w, returns (D mass (solve w)) w) ->
  exists t, condensate_vector solve D v = Ok t /\ feq (fun x a c => (1 - mass) * t x a c) (fun x a c => solve v x a c - v x a c).
Proof. by move=> r0 D h; exact: (@prop_value C n L k old roots scaling r0 cls U mass solve h v). Qed.
(** At zero mass, where the sign function squares to one, it anticommutes with gamma5. *)
Theorem C89_chirality (C : numClosedFieldType) (n : nat) (L : lattice) (k : C) (roots : list C) (scaling : C)
    (cls : option (seq (C * (L -> 'I_4 -> 'I_n -> C)))) (U : gauge C n L) (old : L -> 'I_4 -> 'I_n -> C)
    (solve : (L -> 'I_4 -> 'I_n -> C) -> L -> 'I_4 -> 'I_n -> C) (v : L -> 'I_4 -> 'I_n -> C) :
  roots <> nil ->
  let S := class_sign cls (sign_approx k U (held_poly roots scaling)) in
  let D m := virtual_multiply k roots scaling old cls m false U in
  (forall w, feq (S (S w)) w) -> (forall w, returns (D 0 (solve w)) w) ->
  exists t t', [/\ condensate_vector solve D v = Ok t, condensate_vector solve D (g5 v) = Ok t' & feq (g5 t) (fun x a c => - t' x a c)].
Proof. by move=> r0 S D s h; apply: (@prop_chiral_fields C n L k old roots scaling r0 cls U solve v) => //; exact: sign_square. Qed.
(** On the one site lattice D_0 is the identity and so is the solver: the hypotheses hold. *)
Example C89_chirality_case (U : gauge algCnumClosedField 1 (box 0 0 0 0)) old (v : box 0 0 0 0 -> 'I_4 -> 'I_1 -> algC) :
  feq (sign_approx 0 U (held_poly [:: 2%:R] (-1)) (sign_approx 0 U (held_poly [:: 2%:R] (-1)) v)) v /\
  returns (virtual_multiply 0 [:: 2%:R] (-1) old None 0 false U v) v.
Proof.
have s w : feq (sign_approx 0 U (held_poly [:: 2%:R] (-1)) w) (g5 w) by move=> x a c; rewrite sign0 heldN1 mul1r.
split; first by move=> x a c; rewrite s g5E s g5E mulrA /sgn; case: ifP => _; rewrite ?mulrNN !mul1r.
have r0 : [:: 2%:R : algC] <> nil by [].
rewrite /virtual_multiply; have [t [-> h]] := (C87_operator 0 [:: 2%:R] (-1) 0 false U old v).1 r0; exists t; split=> // x a c; rewrite h /overlap /=.
have -> : g5 (sign_approx 0 U (held_poly [:: 2%:R] (-1)) v) x a c = v x a c.
  by rewrite g5E s g5E mulrA /sgn; case: ifP => _; rewrite ?mulrNN !mul1r.
by rewrite addr0 subr0 -mulrDl !mul1r half2 mul1r.
Qed.
(** What ChiralCondensate takes for the connected part is 1 - m times the propagator of the propagator. *)
Theorem C89_connected (C : numClosedFieldType) (n : nat) (L : lattice) (k : C) (roots : list C) (scaling mass : C)
    (cls : option (seq (C * (L -> 'I_4 -> 'I_n -> C)))) (U : gauge C n L) (old : L -> 'I_4 -> 'I_n -> C)
    (solve : (L -> 'I_4 -> 'I_n -> C) -> L -> 'I_4 -> 'I_n -> C) (v : L -> 'I_4 -> 'I_n -> C) :
  roots <> nil ->
  let D m := virtual_multiply k roots scaling old cls m false U in
  (forall w, returns (D mass (solve w)) w) ->
  exists t u w, [/\ condensate_vector solve D v = Ok t, condensate_vector solve D t = Ok u, connected_vector solve D v = Ok w &
    feq w (fun x a c => (1 - mass) * u x a c)].
Proof. by move=> r0 D h; exact: (@connectedE C n L k old roots scaling r0 cls U mass solve h v). Qed.
(** So it is not the propagator of the propagator. *)
Theorem C89_connected_refuted (C : numClosedFieldType) (U : gauge C 1 (box 0 0 0 0)) (old : box 0 0 0 0 -> 'I_4 -> 'I_1 -> C) :
  exists solve v t u w, let D m := virtual_multiply 0 [:: 2%:R] 1 old None m false U in
    [/\ forall w, returns (D 2%:R^-1 (solve w)) w, condensate_vector solve D v = Ok t, condensate_vector solve D t = Ok u,
        connected_vector solve D v = Ok w & ~ feq w u].
Proof.
have r0 : [:: 2%:R : C] <> nil by [].
pose solve (v : box 0 0 0 0 -> 'I_4 -> 'I_1 -> C) : box 0 0 0 0 -> 'I_4 -> 'I_1 -> C := fun x a c => 2%:R * v x a c.
have n2 : 2%:R != 0 :> C by rewrite pnatr_eq0.
have ex w : returns (virtual_multiply 0 [:: 2%:R] 1 old None 2%:R^-1 false U (solve w)) w.
  rewrite /virtual_multiply; have [t [-> h]] := (C87_operator 0 [:: 2%:R] 1 2%:R^-1 false U old (solve w)).1 r0; exists t; split=> // x a c; rewrite h /overlap /=.
  rewrite g5E sign0 held1 g5E mulN1r mulrN mulrA.
  have -> : sgn C a * sgn C a = 1 by rewrite /sgn; case: ifP => _; rewrite ?mulrNN mul1r.
  rewrite mul1r mulrN -mulrBl -mulrBl opprB addrC addrA subrK half2 mul1r /solve mulrA mulVf // mul1r.
  by [].
have [t [Et et]] := C89_propagator (up C) r0 ex.
have [t' [u [w [Et' Eu Ew ew]]]] := C89_connected (up C) r0 ex.
have tt : t = t' by move: Et'; rewrite Et => -[].
exists solve, (up C), t, u, w; split; [exact: ex|exact: Et|rewrite tt; exact: Eu|exact: Ew|].
have [u' [Eu' eu']] := C89_propagator t r0 ex; have uu : u' = u by move: Eu'; rewrite tt Eu => -[].
move: eu' ew et; rewrite uu => eu ew et h.
have hf : 1 - 2%:R^-1 = 2%:R^-1 :> C by rewrite -{1}half2 addrK.
have s2 (z : C) : 2%:R * z - z = z by rewrite mulr_natl mulr2n addrK.
have := et o1 ord0 ord0; rewrite /solve s2 /up /spin /= hf => e1.
have := eu o1 ord0 ord0; rewrite /solve s2 hf => e2.
have := ew o1 ord0 ord0; rewrite hf e2 h => e3; move: e2; rewrite e3 => e4.
have : t o1 ord0 ord0 = 0.
  have : (1 - 2%:R^-1) * t o1 ord0 ord0 = 0 by rewrite mulrBl mul1r e4 subrr.
  by rewrite hf => /eqP; rewrite mulf_eq0 invr_eq0 (negbTE n2) => /eqP.
by move=> t0; move: e1; rewrite t0 mulr0 => /esym/eqP; rewrite oner_eq0.
Qed.
(** The chiral rotations with the operator of mass m are those with the massless operator by the angle (1 - m) theta. *)
Theorem C89_rotation_mass (C : numClosedFieldType) (n : nat) (L : lattice) (k : C) (roots : list C) (scaling mass : C)
    (cls : option (seq (C * (L -> 'I_4 -> 'I_n -> C)))) (U : gauge C n L) (old : L -> 'I_4 -> 'I_n -> C)
    (D D0 : (L -> 'I_4 -> 'I_n -> C) -> L -> 'I_4 -> 'I_n -> C) (steps : nat) (theta : C) (v : L -> 'I_4 -> 'I_n -> C) :
  roots <> nil ->
  (forall w, returns (virtual_multiply k roots scaling old cls mass false U w) (D w)) ->
  (forall w, returns (virtual_multiply k roots scaling old cls 0 false U w) (D0 w)) ->
  feq (chiral_rotation_psi D steps theta v) (chiral_rotation_psi D0 steps ((1 - mass) * theta) v) /\
  feq (chiral_rotation_psibar D steps theta v) (chiral_rotation_psibar D0 steps ((1 - mass) * theta) v).
Proof. by move=> r0; exact: rot_mass. Qed.
(** Rotating psi and psibar around 1 - D is rotating psi alone by twice the angle in twice the steps. *)
Theorem C89_rotation_both (C : numClosedFieldType) (n : nat) (L : lattice) (k : C) (roots : list C) (scaling mass : C)
    (cls : option (seq (C * (L -> 'I_4 -> 'I_n -> C)))) (U : gauge C n L) (old : L -> 'I_4 -> 'I_n -> C)
    (D : (L -> 'I_4 -> 'I_n -> C) -> L -> 'I_4 -> 'I_n -> C) (steps : nat) (theta : C) (v : L -> 'I_4 -> 'I_n -> C) :
  roots <> nil -> (forall w, returns (virtual_multiply k roots scaling old cls mass false U w) (D w)) ->
  let one_minus_D w : L -> 'I_4 -> 'I_n -> C := fun x a c => w x a c - D w x a c in
  feq (chiral_rotation_psibar D steps theta (one_minus_D (chiral_rotation_psi D steps theta v)))
    (one_minus_D (chiral_rotation_psi D (2 * steps) (2%:R * theta) v)).
Proof. by move=> r0 h; exact: rot_both h. Qed.
(** For the massless operator with a sign function that squares to one, rotating psi and psibar around D changes it only at the
    second order of the step: it multiplies D by the power of 1 - (theta/steps)^2 X^2, with X = gamma5 (1 - D). *)
Theorem C89_rotation_invariant (C : numClosedFieldType) (n : nat) (L : lattice) (k : C) (roots : list C) (scaling : C)
    (cls : option (seq (C * (L -> 'I_4 -> 'I_n -> C)))) (U : gauge C n L) (old : L -> 'I_4 -> 'I_n -> C)
    (D : (L -> 'I_4 -> 'I_n -> C) -> L -> 'I_4 -> 'I_n -> C) (steps : nat) (theta : C) (v : L -> 'I_4 -> 'I_n -> C) :
  roots <> nil -> (forall w, returns (virtual_multiply k roots scaling old cls 0 false U w) (D w)) ->
  let S := class_sign cls (sign_approx k U (held_poly roots scaling)) in (forall w, feq (S (S w)) w) ->
  feq (chiral_rotation_psibar D steps theta (D (chiral_rotation_psi D steps theta v)))
    (D (iter steps (fun w x a c => w x a c - (theta / steps%:R) ^+ 2 * chiral D (chiral D w) x a c) v)).
Proof. by move=> r0 h S s; apply: (rot_invariant r0 _ _ _ _ h); exact: sign_square. Qed.
(** With the polynomial x - 2 and no hopping D is the mass; two steps by the angle 2 at mass 0. *)
Example C89_rotation_case (U : gauge algCnumClosedField 1 (box 0 0 0 0)) old (m : algC) (v : box 0 0 0 0 -> 'I_4 -> 'I_1 -> algC) :
  returns (virtual_multiply 0 [:: 2%:R] 1 old None m false U v) (fun x a c => m * v x a c) /\
  chiral_rotation_psi (fun w x a c => 0 * w x a c) 2 2%:R v o1 ord0 ord0 = 4%:R * v o1 ord0 ord0.
Proof.
split; first exact: C87_operator_case.
rewrite /chiral_rotation_psi /= /psi_step /= divff ?pnatr_eq0 // !mul1r !mul0r !subr0.
by rewrite -mulr2n -mulr2n -mulrnA mulr_natl.
Qed.

Print Assumptions C87_operator.
Print Assumptions C87_square.
Print Assumptions C87_multiply_add_partial.
Print Assumptions C87_square_add_partial.
Print Assumptions C87_multiply_add_refuted.
Print Assumptions C87_hermitian.
Print Assumptions C87_ginsparg_wilson.
Print Assumptions C87_mass.
Print Assumptions C87_gauge.
Print Assumptions C88_operator.
Print Assumptions C88_sign.
Print Assumptions C88_ginsparg_wilson.
Print Assumptions C88_hermitian.
Print Assumptions C88_gauge.
Print Assumptions C88_eigenvalues.
Print Assumptions C88_null_refuted.
Print Assumptions C88_degenerate_refuted.
Print Assumptions C89_propagator.
Print Assumptions C89_chirality.
Print Assumptions C89_connected.
Print Assumptions C89_connected_refuted.
Print Assumptions C89_rotation_mass.
Print Assumptions C89_rotation_both.
Print Assumptions C89_rotation_invariant.

(** C91: the multigrid solvers. *)
From Coq Require Import List.
From Verif Require Import Base.
From mathcomp Require Import all_ssreflect all_algebra all_field.
From Verif Require Import SolverModel SolverSpec SolverProofs GmresModel GmresSpec GmresProofs MgSolveModel MgSolveSpec MgSolveProofs MgSolveProofs2.
Import GRing.Theory Num.Theory Order.POrderTheory.
Set Implicit Arguments.
Unset Strict Implicit.
Unset Printing Implicit Defensive.
Local Open Scope ring_scope.

(** The coarse solver: success means a small true residual, or that the source itself was returned. *)
Theorem C91_coarse_partial (C : numClosedFieldType) m n (eps : C) (A : 'cV[C]_m -> 'cV[C]_m) (b x : 'cV[C]_m) : linear_op A ->
  mgb_solve (F := exact C m) n eps A b = @Converged (exact C m) x -> residual_norm A b x < eps \/ x = b.
Proof. exact: mgb_sound. Qed.
(** The second case is wrong.  When the first half of a step finds the exact solution the code assumes that the operator
    is the identity: on every multiple c of the identity with c different from 0, 1 and -1 it reports success with the
    source, for every precision, and the squared residual is |1 - c|^2 |b|^2. *)
Theorem C91_coarse_refuted (C : numClosedFieldType) m n (eps c : C) (b : 'cV[C]_m) : c != 0 -> c != 1 -> c != -1 -> b != 0 ->
  mgb_solve (F := exact C m) n.+1 eps (fun v => c *: v) b = @Converged (exact C m) b
  /\ residual_norm (fun v => c *: v) b b = `|1 - c| ^+ 2 * \sum_i `|b i ord0| ^+ 2.
Proof.
move=> c0 c1 cn b0; split; first exact: mgb_multiple.
by rewrite mulr_sumr; apply: eq_bigr => i _; rewrite mxE -{1}[b i _]mul1r -mulrBl normrM exprMn.
Qed.

(** What enters the Schwarz preconditioner: on the coarse space it is the residual of the coarse equation, zero if that
    equation was solved exactly; and if the preconditioner solves its equation the direction solves that of the residual. *)
Theorem C91_direction (C : numClosedFieldType) m mc (M : 'M[C]_m) (R : 'M[C]_(mc, m)) (P : 'M[C]_(m, mc)) coarse_solve sap r u :
  mg_direction (mulmx M) (mulmx R) coarse_solve (mulmx P) sap r = Some u ->
  exists y w, [/\ coarse_solve (R *m r) = @Converged (exact C mc) y \/ coarse_solve (R *m r) = @Failed (exact C mc) y,
    sap w = Some (u - P *m y), R *m w = R *m r - R *m M *m P *m y
    & (M *m (u - P *m y) = w -> M *m u = r)].
Proof.
rewrite /mg_direction; case E: (coarse_solve _) => [y|y|] //; case F: (sap _) => [v|] // [<-];
  exists y, (r - M *m (P *m y)); rewrite addrK; split; auto; rewrite ?mulmxBr ?mulmxA //;
  by move=> H; rewrite mulmxDr H mulmxA subrK.
Qed.

(** MultiGridSolver::solve, for every direction, linear or not, and whatever the arrays hold: it never accesses memory
    outside them, the residual of the returned vector does not exceed that of the first guess, lastError is its square
    norm (it is not written if no step is made), and the limit of the steps is lowered exactly if that is below the
    precision. *)
Theorem C91_solve (C : numClosedFieldType) m cs us maxSteps (eps : C) (M : 'M[C]_m) direction (b : 'cV[C]_m) guess :
  let x0 := first_guess eps b guess in
  match mg_solve cs us maxSteps eps (mulmx M) direction b guess with
  | MgDone x limit lastError =>
      residual2 M b x <= residual2 M b x0 /\
      (if maxSteps is O then [/\ x = x0, limit = O & lastError = None]
       else lastError = Some (residual2 M b x) /\
            (if residual2 M b x < eps then (limit < maxSteps)%N else limit == maxSteps))
  | MgNotANumber limit => limit = maxSteps
  | MgUndefined => False
  end.
Proof. by rewrite -startE; exact: solve_spec. Qed.
(** But every solution costs steps for ever: over any calls on one object, with any operators and sources, the number of
    systems solved within their precision is at most the number of steps the object began with. *)
Theorem C91_lifetime_refuted (C : numClosedFieldType) m maxSteps (calls : seq (mg_call C m)) :
  (count (fun p => if p.2 is MgDone x _ _ then
       has_solved (call_dirac p.1) (call_source p.1) (first_guess (call_precision p.1) (call_source p.1) (call_guess p.1)) x
         (call_precision p.1) else false) (zip calls (mg_run maxSteps calls))
   + last maxSteps (map (@mg_limit C m) (mg_run maxSteps calls)) <= maxSteps)%N.
Proof.
have := run_budget maxSteps calls; rewrite /call_solved.
move=> h; apply: leq_trans h; rewrite leq_add2r; apply: eq_leq; apply: eq_count => p; case: p.2 => // x l e.
by rewrite startE.
Qed.
(** And solve always returns true: a system that was just solved is not solved again by the same call. *)
Theorem C91_again_refuted (C : numClosedFieldType) m cs us cs' us' maxSteps (eps : C) (M : 'M[C]_m) direction (b : 'cV[C]_m) guess x limit e :
  ~~ (residual2 M b (first_guess eps b guess) < eps) ->
  mg_solve cs us maxSteps eps (mulmx M) direction b guess = MgDone x limit e -> (limit < maxSteps)%N ->
  exists x' e', let r := mg_solve cs' us' limit eps (mulmx M) direction b guess in
    [/\ r = MgDone x' limit e', mg_returns r = true & ~~ (residual2 M b x' < eps)].
Proof. by rewrite -startE; move=> big h lt; have [x' [e' [E1 E2]]] := solve_again cs' us' big h lt; exists x', e'; rewrite E1. Qed.
(** After a system that needed one step every later call returns its first guess. *)
Theorem C91_spent_refuted (C : numClosedFieldType) m maxSteps (q : mg_call C m) (calls : seq (mg_call C m)) (T' : 'M[C]_m) :
  call_dirac q *m T' = 1%:M -> (forall r, call_direction q r = Some (T' *m r)) -> 0 < call_precision q ->
  call_dirac q *m first_guess (call_precision q) (call_source q) (call_guess q) != call_source q ->
  mg_run maxSteps.+1 (q :: calls) = MgDone (T' *m call_source q) 0 (Some 0)
    :: [seq MgDone (first_guess (call_precision p) (call_source p) (call_guess p)) 0 None | p <- calls].
Proof.
rewrite -startE => TT dE e0 ne; rewrite [mg_run]lock -lock /=.
have -> : mg_do maxSteps.+1 q = MgDone (T' *m call_source q) 0 (Some 0).
  rewrite -(solve_exact (call_c q) (call_u q) maxSteps TT e0 ne) /mg_do /mg_solve.
  exact: loop_ext.
by rewrite /= run_zero; congr (_ :: _); apply: eq_map => p; rewrite startE.
Qed.

(** MultiGridMEMultishiftSolver: a shift whose two equations both converged is solved, with the precision of the inner
    solver and a bound on the operator; missing is that the second converges, which the code does not test. *)
Theorem C91_shift_partial (C : numClosedFieldType) m limit (eps : C) (D G : 'M[C]_m) direction (source : 'cV[C]_m) s guess1 guess2
    y x l1 l2 (Lambda : C) :
  G *m G = 1%:M -> square_bound G 1 -> 0 <= Lambda -> square_bound (G *m D - ('i * sqrtC s)%:M) Lambda -> 0 <= s ->
  mgs_small limit eps (mulmx G) (fun mu => mulmx (twisted_matrix D G mu)) direction source s guess1 guess2
    = (Some (y, x), (l1, l2)) -> (l1 < limit)%N -> (l2 < l1)%N ->
  residual2 (shifted_square D G s) (G *m source) x < 2%:R * (1 + Lambda) * eps.
Proof. exact: small_bound. Qed.
(** The whole solver: there is one result for every shift; from the first shift between 0 and 1/1000 on, if no shift is
    negative, the limit of the steps never grows and every shift for which both equations lowered it is solved.  Missing
    as above: that they do. *)
Theorem C91_shifts_partial (C : numClosedFieldType) m maxSteps epsilon limit (eps : C) mad (D G : 'M[C]_m) direction
    (b : 'cV[C]_m) (before after : seq C) s fresh i (Lambda : C) :
  G *m G = 1%:M -> square_bound G 1 -> 0 <= Lambda ->
  (forall t, t \in before -> t < 0 \/ 1000%:R^-1 < t) -> 0 <= s <= 1000%:R^-1 ->
  (forall t, t \in s :: after -> 0 <= t /\ square_bound (G *m D - ('i * sqrtC t)%:M) Lambda) ->
  let r := mgs_solve maxSteps epsilon limit eps mad (mulmx G) (fun mu => mulmx (twisted_matrix D G mu)) direction b
    (before ++ s :: after) fresh in
  let limit_of j := if j is k.+1 then (nth (None, (0, 0))%N r k).2.2 else limit in
  let '(x, (l1, l2)) := nth (None, (0, 0))%N r (size before + i) in
  size r = (size before + (size after).+1)%N /\
  ((i <= size after)%N -> [/\ (l1 <= limit_of (size before + i))%N, (l2 <= l1)%N
    & forall y, x = Some y -> (l1 < limit_of (size before + i))%N -> (l2 < l1)%N ->
      residual2 (shifted_square D G (nth 0 (s :: after) i)) b y < 2%:R * (1 + Lambda) * eps]).
Proof.
move=> GG G1 L0 lb hs ha.
have fE : find (fun t => ~~ mgs_is_large t) (before ++ s :: after) = size before.
  rewrite find_cat; case: hasP => [[t /lb ht]|_].
    by rewrite /mgs_is_large negb_or => /andP [/negbTE n1 /negbTE n2]; case: ht; rewrite ?n1 ?n2.
  have sl : ~~ mgs_is_large s.
    by case/andP: hs => s0 s1; rewrite /mgs_is_large (le_gtF s0) (le_gtF s1).
  by rewrite /= sl addn0.
have [|sr gr] := @multishift_good C m D G eps Lambda b direction GG G1 L0 maxSteps epsilon mad limit (before ++ s :: after)
  fresh (size before + i).
  by rewrite fE drop_size_cat.
move=> r limit_of; move: gr; rewrite fE leq_addr size_cat ltn_add2l /= ltnS nth_cat ltnNge leq_addr /= addKn -/r.
case: (nth _ r (size before + i)) => x [l1 l2] gr; split; first by rewrite /r sr size_cat.
by move=> le; case: (gr le).
Qed.
(** The large shifts before them are solved whatever the arguments of the multigrid solver, if the shifted operator is
    Hermitian and positive and at least as many steps are allowed as the space has dimensions, and they leave its limit. *)
Theorem C91_large (C : numClosedFieldType) m maxSteps (epsilon : C) limit (eps : C) mad (A : 'cV[C]_m -> 'cV[C]_m) gamma5 T direction
    (b : 'cV[C]_m) (before after : seq C) fresh i :
  adds A mad -> (i < size before)%N -> let s := nth 0 before i in
  (forall t, t \in before -> t < 0 \/ 1000%:R^-1 < t) ->
  linear_op (shifted A s) -> hermitian_op (shifted A s) -> positive_op (shifted A s) ->
  0 < epsilon -> b != 0 -> (m <= maxSteps)%N ->
  exists2 x, nth (None, (0, 0))%N (mgs_solve maxSteps epsilon limit eps mad gamma5 T direction b (before ++ after) fresh) i
    = (Some x, (limit, limit)) & residual_norm (shifted A s) b x < epsilon.
Proof.
move=> mE lt s lb lA hA pA e0 b0 hm.
have [x Ex rx] := large_solved mE lA hA pA e0 b0 hm; exists x => //.
rewrite multishift_large ?nth_cat ?lt ?Ex //.
apply: leq_trans lt _; rewrite find_cat; case: hasP => [[t /lb ht]|_]; last exact: leq_addr.
by rewrite /mgs_is_large negb_or => /andP [/negbTE n1 /negbTE n2]; case: ht; rewrite ?n1 ?n2.
Qed.
(** With the best possible preconditioner, one that solves the first equation in one step, this equation uses up all the
    steps: the same vector is returned for all the shifts, and true; that vector does not solve two of them. *)
Theorem C91_multishift_refuted (C : numClosedFieldType) m maxSteps epsilon N (eps : C) mad (D G : 'M[C]_m) (T' : C -> 'M[C]_m)
    (b : 'cV[C]_m) s shifts fresh :
  twisted_matrix D G (- sqrtC s) *m T' (- sqrtC s) = 1%:M -> 0 < eps -> (forall t, t \in s :: shifts -> 0 <= t <= 1000%:R^-1) ->
  let y := T' (- sqrtC s) *m (G *m b) in
  twisted_matrix D G (- sqrtC s) *m first_guess eps (G *m b) None != G *m b -> eps < \sum_i `|(G *m y) i ord0| ^+ 2 ->
  let r := mgs_solve maxSteps epsilon N.+1 eps mad (mulmx G) (fun mu => mulmx (twisted_matrix D G mu))
    (fun mu v => Some (T' mu *m v)) b (s :: shifts) fresh in
  [/\ r = [seq (Some (G *m y), (0, 0)%N) | _ <- s :: shifts], mgs_returns r = true
    & forall t u, `|t - u| ^+ 2 * (\sum_i `|(G *m y) i ord0| ^+ 2) <=
        2%:R * (residual2 (shifted_square D G t) b (G *m y) + residual2 (shifted_square D G u) b (G *m y))].
Proof.
move=> TT e0 hs y; rewrite -startE => ne big r; split=> //; last by move=> t u; exact: two_shifts.
by apply: multishift_stops => //; rewrite gnormE.
Qed.

(** Cases. *)
Example C91_case_coarse : mgb_solve (F := exact algCnumClosedField 3) 35 1 (fun v => 2%:R *: v) (const_mx 1)
  = @Converged (exact algCnumClosedField 3) (const_mx 1).
Proof.
apply: (proj1 (C91_coarse_refuted _ _ _ _ _ _)); rewrite ?pnatr_eq0 ?(eqr_nat _ 2 1) //.
  by rewrite -subr_eq0 opprK -(natrD _ 2 1) pnatr_eq0.
by apply/eqP => /matrixP /(_ 0 0) /eqP; rewrite !mxE oner_eq0.
Qed.
Section Case.
Let K := algCnumClosedField.
Let two : 'M[K]_3 := 2%:R%:M.
Let half : 'M[K]_3 := 2%:R^-1%:M.
Let one : 'cV[K]_3 := const_mx 1.
Lemma two_half : two *m half = 1%:M.
Proof. by rewrite /two /half -scalar_mxM divff // pnatr_eq0. Qed.
(** Two calls for 2 x = (1, 1, 1): the second returns its first guess. *)
Example C91_case_multishift maxSteps epsilon mad fresh : exists v : 'cV[K]_3, v != 0 /\
  mgs_solve maxSteps epsilon 1000 (12%:R^-1) mad (mulmx 1%:M) (fun mu => mulmx (twisted_matrix two 1%:M mu))
    (fun mu v => Some (invmx (twisted_matrix two 1%:M mu) *m v)) one [:: 0; 2000%:R^-1] fresh = [:: (Some v, (0, 0)%N); (Some v, (0, 0)%N)].
Proof.
have T0 : twisted_matrix two 1%:M (- sqrtC 0) = two by rewrite /twisted_matrix sqrtC0 oppr0 mulr0 scale0r addr0.
have inv : invmx two = half.
  have u : two \in unitmx by rewrite unitmxE det_scalar unitrX // unitfE pnatr_eq0.
  by rewrite -[RHS]mul1mx -(mulVmx u) -mulmxA two_half mulmx1.
have nE (c : K) : \sum_(i < 3) `|(c *: one) i ord0| ^+ 2 = 3%:R * `|c| ^+ 2.
  rewrite (eq_bigr (fun _ => `|c| ^+ 2)) ?sumr_const ?card_ord ?mulr_natl // => i _; by rewrite !mxE mulr1.
have hv : half *m one = 2%:R^-1 *: one by rewrite /half mul_scalar_mx.
exists (half *m one); split.
  by rewrite hv; apply/eqP => /matrixP /(_ 0 0) /eqP; rewrite !mxE mulr1 invr_eq0 pnatr_eq0.
have [] := @C91_multishift_refuted K 3 maxSteps epsilon 999 (12%:R^-1) mad two 1%:M
   (fun mu => invmx (twisted_matrix two 1%:M mu)) one 0 [:: 2000%:R^-1] fresh.
- by rewrite T0 inv two_half.
- by rewrite invr_gt0 ltr0n.
- move=> t; rewrite !inE => /orP [/eqP ->|/eqP ->]; rewrite ?lexx invr_ge0 ler0n //=.
  by rewrite lef_pinv ?qualifE ?ltr0n // ler_nat.
- rewrite T0 !mul1mx /first_guess -[one]scale1r nE normr1 expr1n mulr1 scale1r.
  have -> : (12%:R^-1 < 3%:R :> K) by rewrite (lt_le_trans (y := 1)) ?invf_lt1 ?ltr0n ?ltr1n ?ler1n.
  apply/eqP => /matrixP /(_ 0 0) /eqP; rewrite mul_scalar_mx !mxE mulr1 -subr_eq0.
  by rewrite -(natrB _ (_ : 1 <= 2)%N) // oner_eq0.
- rewrite T0 inv !mul1mx hv nE ger0_norm ?invr_ge0 ?ler0n //.
  by rewrite exprVn -natrX ltr_pdivl_mulr ?ltr0n // ltr_pdivr_mull ?ltr0n // -natrM ltr_nat.
by move=> -> _ _; rewrite /= T0 inv !mul1mx.
Qed.
Let q : mg_call K 3 := MgCall [::] [::] 1 two (fun r => Some (half *m r)) one (Some 0).
Example C91_case_run : mg_run 1000 [:: q; q] = [:: MgDone (half *m one) 0 (Some 0); MgDone 0 0 None].
Proof.
rewrite (@C91_spent_refuted K 3 _ q [:: q] half) //=; [exact: two_half|exact: ltr01|].
by rewrite mulmx0; apply/eqP => /matrixP /(_ 0 0) /eqP; rewrite !mxE eq_sym oner_eq0.
Qed.
Example C91_case_direction : mg_direction (mulmx two) (mulmx 1%:M) (fun y => @Converged (exact K 3) y) (mulmx 1%:M)
  (fun w => Some (half *m w)) one = Some (half *m (one - two *m (1%:M *m (1%:M *m one))) + 1%:M *m (1%:M *m one)).
Proof. by []. Qed.
(** One shift of zero with D = G = ((1, 0), (0, -1)): both equations converge. *)
Let sign : 'M[K]_2 := diag_mx (\row_i (-1) ^+ i).
Let b : 'cV[K]_2 := const_mx 1.
Let e (i : 'I_2) : 'cV[K]_2 := delta_mx i 0.
Let dir (r : 'cV[K]_2) := Some (if r == b then e 0 else sign *m r).
Lemma sign_e i : sign *m e i = (-1) ^+ i *: e i.
Proof. by apply/matrixP => k l; rewrite mul_diag_mx !mxE; case: (k =P i) => [->|_]; rewrite ?mulr0 //= mulr0. Qed.
Lemma sign_b : sign *m b = e 0 - e 1.
Proof.
apply/matrixP => k l; rewrite mul_diag_mx !mxE mulr1 (ord1 l) !andbT.
by case: k => [[|[|k]] hk] //=; rewrite ?subr0 ?sub0r.
Qed.
Lemma b_e : b = e 0 + e 1.
Proof. by apply/matrixP => k l; rewrite !mxE (ord1 l) !andbT; case: k => [[|[|k]] hk] //=; rewrite ?addr0 ?add0r. Qed.
Lemma dot_e i j : gdot (e i) (e j) = (i == j)%:R.
Proof.
rewrite /gdot (bigD1 i) //= big1 ?addr0 => [|k ne]; rewrite !mxE ?eqxx ?(negbTE ne) /= ?conjC0 ?mul0r //.
by rewrite conjC1 mul1r andbT.
Qed.
Example C91_case_shift : exists y x,
  mgs_small 2 (2%:R^-1) (mulmx sign) (fun mu => mulmx (twisted_matrix sign sign mu)) (fun _ => dir) b 0 (Some 0) (Some (e 0))
    = (Some (y, x), (1%N, 0%N))
  /\ residual2 (shifted_square sign sign 0) (sign *m b) x < 2%:R * (1 + 1) * 2%:R^-1.
Proof.
have h0 : (1 < 2%:R^-1 :> K) = false by apply: le_gtF; rewrite invf_le1 ?ltr0n // ler1n.
have h1 : (0 < 2%:R^-1 :> K) by rewrite invr_gt0 ltr0n.
have T0 : twisted_matrix sign sign 0 = sign by rewrite /twisted_matrix mulr0 scale0r addr0.
have s1 : sign *m e 1 = - e 1 by rewrite sign_e expr1 scaleN1r.
have s0 : sign *m e 0 = e 0 by rewrite sign_e expr0 scale1r.
have eb : (e 1 == b) = false.
  by apply/eqP => /matrixP /(_ 0 0) /eqP; rewrite !mxE eq_sym oner_eq0.
have g0 : gnorm (0 : 'cV[K]_2) = 0 by rewrite /gnorm gdot0r.
have E : mgs_small 2 (2%:R^-1) (mulmx sign) (fun mu => mulmx (twisted_matrix sign sign mu)) (fun _ => dir) b 0 (Some 0) (Some (e 0))
    = (Some (e 0 - e 1, e 0 - e 1), (1%N, 0%N)).
  rewrite /mgs_small ltxx sqrtC0 oppr0 T0 /mg_solve /= mulmx0 subr0.
  rewrite (@unit_step K 2 _ _ 0 _ (e 0)) /=; [|by rewrite /dir eqxx|by rewrite mod0n|by rewrite s0 /gnorm dot_e eqxx].
  have db : gdot (e 0) b = 1 by rewrite b_e gdotDr !dot_e addr0.
  have be : b - e 0 = e 1 by rewrite b_e addrC addKr.
  have n1 : gnorm (e 1) = 1 by rewrite /gnorm dot_e eqxx.
  have sm : sign *m (- e 1) = e 1 by rewrite mulmxN s1 opprK.
  rewrite s0 db !scale1r add0r be n1 h0.
  rewrite (@unit_step K 2 _ _ 1 _ (- e 1)) /=; [|by rewrite /dir eb s1| |by rewrite sm].
    rewrite sm -/(gnorm (e 1)) n1 !scale1r subrr g0 h1 /= mulmxBr s0 s1 opprK -b_e be.
    rewrite (@unit_step K 2 _ _ 0 _ (- e 1)) /=; [|by rewrite /dir eb s1|by rewrite mod0n|by rewrite sm].
    by rewrite sm -/(gnorm (e 1)) n1 !scale1r subrr g0 h1.
  by rewrite /gm_orthogonalize /= sm dot_e /= !scale0r !subr0.
exists (e 0 - e 1), (e 0 - e 1); split=> //.
have GG : sign *m sign = 1%:M.
  apply/matrixP => k l; rewrite mul_diag_mx !mxE; case: eqP => [->|]; rewrite ?mulr0 //= mulr1n -exprD addnn.
  by rewrite -mul2n exprM sqrrN expr1n expr1n.
apply: (C91_shift_partial GG _ ler01 _ (lexx 0) E) => // v.
  rewrite mul1r; apply: ler_sum => k _; rewrite mul_diag_mx mxE [in X in `|X|]mxE normrM normrX normrN1 expr1n mul1r.
  exact: lexx.
by rewrite GG sqrtC0 mulr0 raddf0 subr0 mul1mx mul1r.
Qed.
(** A large shift, 1, and then a small one, 0. *)
Lemma large_one t : t \in [:: 1 : K] -> t < 0 \/ 1000%:R^-1 < t.
Proof. by rewrite inE => /eqP ->; right; rewrite invf_lt1 ?ltr0n // ltr1n. Qed.
Example C91_case_large limit eps gamma5 T direction fresh :
  exists2 x, nth (None, (0, 0))%N (mgs_solve 5 (3%:R^-1) limit eps (fun v w a => v + a *: w) gamma5 T direction one ([:: 1] ++ [:: 0]) fresh) 0
    = (Some x, (limit, limit)) & residual_norm (shifted id 1) one x < 3%:R^-1 :> K.
Proof.
have sE (v : 'cV[K]_3) : shifted id 1 v = 2%:R *: v by rewrite /shifted scale1r scaler_nat mulr2n.
have dE (u v : 'cV[K]_3) : scalar_product u (shifted id 1 v) = 2%:R * scalar_product u v.
  by rewrite sE /scalar_product mulr_sumr; apply: eq_bigr => i _; rewrite mxE mulrCA.
apply: (@C91_large K 3 5 (3%:R^-1) limit eps _ id gamma5 T direction one [:: 1] [:: 0] fresh 0) => //=.
- exact: large_one.
- by move=> a u v; rewrite !sE scalerDr !scalerA mulrC.
- move=> u v; rewrite dE sE /scalar_product mulr_sumr; apply: eq_bigr => i _.
  by rewrite mxE rmorphM /= conjC_nat mulrA.
- move=> v v0; rewrite dE mulr_gt0 ?ltr0n // lt0r; apply/andP; split.
    by apply/eqP => h; move/eqP: v0; apply; apply: gnorm_eq0; exact: h.
  exact: (gnorm_ge0 v).
- by rewrite invr_gt0 ltr0n.
- by apply/eqP => /matrixP /(_ 0 0) /eqP; rewrite !mxE oner_eq0.
Qed.
Example C91_case_shifts maxSteps epsilon mad direction fresh : let r := mgs_solve maxSteps epsilon 50 (3%:R^-1) mad (mulmx 1%:M)
    (fun mu => mulmx (twisted_matrix 1%:M 1%:M mu)) direction one ([:: 1] ++ [:: 0]) fresh in
  let '(x, (l1, l2)) := nth (None, (0, 0))%N r 1 in
  forall y, x = Some y -> (l1 < (nth (None, (0, 0))%N r 0).2.2)%N -> (l2 < l1)%N ->
    residual2 (shifted_square 1%:M 1%:M 0) one y < 2%:R * (1 + 1) * 3%:R^-1 :> K.
Proof.
have := @C91_shifts_partial K 3 maxSteps epsilon 50 (3%:R^-1) mad 1%:M 1%:M direction one [:: 1] [::] 0 fresh 0 1.
set r := mgs_solve _ _ _ _ _ _ _ _ _ _ _ => /=; rewrite add1n; case: (nth _ r 1) => x [l1 l2] H y.
have [] := H; last by move=> _ /(_ isT) [_ _]; exact.
- by rewrite mulmx1.
- by move=> v; rewrite mul1mx mul1r.
- exact: ler01.
- exact: large_one.
- by rewrite lexx invr_ge0 ler0n.
- move=> t; rewrite inE => /eqP ->; split=> // v.
  by rewrite mulmx1 sqrtC0 mulr0 raddf0 subr0 mul1mx mul1r.
Qed.
End Case.

Print Assumptions C91_coarse_partial.
Print Assumptions C91_coarse_refuted.
Print Assumptions C91_direction.
Print Assumptions C91_solve.
Print Assumptions C91_lifetime_refuted.
Print Assumptions C91_again_refuted.
Print Assumptions C91_spent_refuted.
Print Assumptions C91_shift_partial.
Print Assumptions C91_multishift_refuted.
Print Assumptions C91_shifts_partial.
Print Assumptions C91_large.

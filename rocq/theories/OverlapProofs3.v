(** The exact treatment of some eigenvectors, the Ginsparg-Wilson relation, gauge covariance and the mass. *)
From Coq Require Import List Ring.
From Verif Require Import Base SolverModel.
From mathcomp Require Import all_ssreflect all_algebra.
From Verif Require Import GaugeModel GaugeSpec GaugeProofs GaugeProofs2 GammaModel DiracModel DiracSpec DiracProofs DiracProofs2 SolverSpec SolverProofs
  PertProofs VecProofs FForceModel FForceSpec FForceProofs2 ExpSpec EigProofs OverlapModel OverlapSpec OverlapProofs OverlapProofs2.
Import GRing.Theory Num.Theory Order.POrderTheory.
Set Implicit Arguments.
Unset Strict Implicit.
Unset Printing Implicit Defensive.
Local Open Scope ring_scope.

Lemma De_alg (C : numClosedFieldType) m (Sg S R P : 'M[C]_m) : Sg *m Sg = P -> R *m Sg = 0 -> Sg *m R = 0 -> R *m S = S *m R ->
  R *m R = R -> 1%:M - P = R -> 1%:M - (Sg + S *m R) *m (Sg + S *m R) = (1%:M - S *m S) *m R.
Proof.
move=> h1 h2 h3 h4 h5 h6.
have -> : (Sg + S *m R) *m (Sg + S *m R) = P + S *m S *m R.
  rewrite mulmxDr !mulmxDl h1 -(mulmxA S R Sg) h2 mulmx0 addr0; congr (_ + _).
  have -> : Sg *m (S *m R) = 0 by rewrite -h4 mulmxA h3 mul0mx.
  by rewrite add0r -(mulmxA S R) (mulmxA R S) h4 -(mulmxA S R R) h5 mulmxA.
by rewrite opprD addrA h6 mulmxBl mul1mx.
Qed.

Section Exact.
Variable C : numClosedFieldType.
Variable n : nat.
Variable L : lattice.
Notation field := (L -> 'I_4 -> 'I_n -> C) (only parsing).
Notation links := (L -> 'I_4 -> 'M[C]_n) (only parsing).
Notation T := [finType of L * 'I_4 * 'I_n].
Notation N := #|T|.
Notation e0 := ((0, fun _ _ _ => 0) : C * (L -> 'I_4 -> 'I_n -> C)).
Implicit Types (U : links) (v w : field) (es : seq (C * (L -> 'I_4 -> 'I_n -> C))).
Variables (k : C) (old : field).
Notation Sm := (Sm k).
Notation Qm := (Qm k).
Notation Gm := (Gm C n L).

(** The loop over the eigenvectors. *)
Definition sg (p : C * field) : C := if p.1 < 0 then -1 else 1.
Lemma projectE es v : feq (project es v).1 (fun x a c => \sum_(p <- es) sg p * inner p.2 v * p.2 x a c) /\
  feq (project es v).2 (fun x a c => v x a c - along es v x a c).
Proof.
suff H (o t : field) : let r := foldl (fun (r : field * field) (p : C * field) =>
    let proj := dot p.2 v in let sign_proj := if p.1 < 0 then - proj else proj in
    ((fun x a c => r.1 x a c + sign_proj * p.2 x a c), (fun x a c => r.2 x a c - proj * p.2 x a c))) (o, t) es in
  feq r.1 (fun x a c => o x a c + \sum_(p <- es) sg p * inner p.2 v * p.2 x a c) /\
  feq r.2 (fun x a c => t x a c - \sum_(p <- es) inner p.2 v * p.2 x a c).
  have [h1 h2] := H (fun _ _ _ => 0) v; split=> x a c; first by rewrite /project h1 add0r.
  by rewrite /project h2.
elim: es o t => [|p es IH] o t /=.
  by split=> x a c; rewrite big_nil ?addr0 ?subr0.
have [h1 h2] := IH (fun x a c => o x a c + (if p.1 < 0 then - dot p.2 v else dot p.2 v) * p.2 x a c)
  (fun x a c => t x a c - dot p.2 v * p.2 x a c).
split=> x a c; rewrite ?h1 ?h2 big_cons dotE /sg.
  by rewrite -addrA; congr (_ + (_ * _ + _)); case: ifP => _; rewrite ?mul1r ?mulN1r.
by rewrite opprD addrA.
Qed.

Definition Em es : 'M[C]_(N, size es) := \matrix_(i, j) vec (nth e0 es j).2 i ord0.
Definition Pi es : 'M[C]_N := Em es *m htrans (Em es).
Definition sgs es : 'rV[C]_(size es) := \row_j sg (nth e0 es j).
Definition Sg es : 'M[C]_N := Em es *m diag_mx (sgs es) *m htrans (Em es).
Definition De es (S : 'M[C]_N) : 'M[C]_N := Sg es + S *m (1%:M - Pi es).
Lemma col_Em es (j : 'I_(size es)) : col j (Em es) = vec (nth e0 es j).2.
Proof. by apply/matrixP => i t; rewrite !mxE ?(ord1 t). Qed.
Lemma EmH es v (j : 'I_(size es)) : (htrans (Em es) *m vec v) j ord0 = inner (nth e0 es j).2 v.
Proof. by rewrite innerE /quad !mxE; apply: eq_bigr => i _; rewrite !mxE. Qed.
Lemma sum_Em es (f : 'I_(size es) -> C) : \sum_j f j *: vec (nth e0 es j).2 = Em es *m (\col_j f j).
Proof.
apply/matrixP => i t; rewrite summxE mxE; apply: eq_bigr => j _; rewrite !mxE ?(ord1 t) mulrC //.
Qed.
Lemma big_es (V : zmodType) es (F : C * field -> V) : \sum_(p <- es) F p = \sum_(j < size es) F (nth e0 es j).
Proof. by rewrite (big_nth e0) big_mkord. Qed.
Lemma vec_along es v : vec (along es v) = Pi es *m vec v.
Proof.
rewrite /along (vec_sum _ (fun p => inner p.2 v)) big_es sum_Em /Pi -mulmxA; congr (_ *m _).
by apply/matrixP => i t; rewrite (ord1 t) EmH mxE.
Qed.
Lemma vec_signs es v : vec (fun x a c => \sum_(p <- es) sg p * inner p.2 v * p.2 x a c) = Sg es *m vec v.
Proof.
rewrite (vec_sum _ (fun p => sg p * inner p.2 v)) big_es sum_Em /Sg -!mulmxA; congr (_ *m _).
by apply/matrixP => i t; rewrite (ord1 t) mul_diag_mx [RHS]mxE EmH !mxE.
Qed.
Lemma vec_deflated es (S : field -> field) (SS : 'M[C]_N) v : (forall w, vec (S w) = SS *m vec w) ->
  vec (deflated es S v) = De es SS *m vec v.
Proof.
move=> h; rewrite /deflated (vecD (fun x a c => \sum_(p <- es) sg p * inner p.2 v * p.2 x a c)) vec_signs h vecB vec_along.
by rewrite /De mulmxDl -mulmxA mulmxBl mul1mx.
Qed.
Lemma exact_signE roots sc es U v : roots <> nil ->
  exists t, exact_sign k roots sc old es U v = Ok t /\ vec t = De es (Sm U (held_poly roots sc)) *m vec v.
Proof.
move=> h; have [h1 h2] := projectE es v; rewrite /exact_sign; case: (project es v) h1 h2 => o r /= h1 h2.
have [t [E e]] := sign_functionE k old sc U r h; rewrite E /=; eexists; split; first by [].
rewrite vecD e (vec_ext h1) (vec_ext h2) vec_signs vecB vec_along /De mulmxDl addrC; congr (_ + _).
by rewrite -[RHS]mulmxA mulmxBl mul1mx.
Qed.
Lemma exact_multiplyE roots sc es ms g U v : roots <> nil ->
  exists t, exact_multiply k roots sc old es ms g U v = Ok t /\ vec t = Dm (De es (Sm U (held_poly roots sc))) ms g *m vec v.
Proof.
move=> h; have [t [E e]] := exact_signE sc es U v h.
exists (overlap_output ms g v t); rewrite /exact_multiply E; split=> //; exact: outputE.
Qed.
Lemma vec_deflated_approx es U q v : vec (deflated es (sign_approx k U q) v) = De es (Sm U q) *m vec v.
Proof. by apply: vec_deflated => w; exact: sign_approxE. Qed.
Lemma exact_sign_returns roots sc es U v : roots <> nil ->
  returns (exact_sign k roots sc old es U v) (deflated es (sign_approx k U (held_poly roots sc)) v).
Proof.
move=> h; have [t [E e]] := exact_signE sc es U v h; apply/returnsE; exists t; split=> //.
by rewrite e vec_deflated_approx.
Qed.
Lemma exact_returns roots sc es ms g U v : roots <> nil ->
  returns (exact_multiply k roots sc old es ms g U v) (overlap (deflated es (sign_approx k U (held_poly roots sc))) ms g v).
Proof.
move=> h; have [t [E e]] := exact_multiplyE sc es ms g U v h; apply/returnsE; exists t; split=> //.
by rewrite e (overlapE _ _ (vec_deflated_approx _ _ _ _)).
Qed.
Lemma exact_add_returns roots sc es ms g U v w al : roots <> nil ->
  returns (exact_multiply_add k roots sc old es ms g U v w al)
    (combine al (overlap (deflated es (sign_approx k U (held_poly roots sc))) ms g v) w).
Proof.
move=> h; have [t [E e]] := exact_signE sc es U v h; apply/returnsE.
rewrite /exact_multiply_add E; eexists; split; first by [].
by rewrite vec_comb (overlapE _ _ (vec_deflated_approx _ _ _ _)) -(outputE _ _ e) -[RHS]vec_comb.
Qed.

(** Orthonormal eigenvectors. *)
Section Orthonormal.
Variables (es : seq (C * (L -> 'I_4 -> 'I_n -> C))) (U : links).
Hypothesis kR : k \is Num.real.
Hypothesis on : orthonormal es.
Hypothesis ev : eigenpairs (hermitian_dirac k U) es.
Lemma Em_on : htrans (Em es) *m Em es = 1%:M.
Proof.
apply/matrixP => i j; rewrite [RHS]mxE.
have := on (ltn_ord i) (ltn_ord j); rewrite innerE /quad => <-.
by rewrite !mxE; apply: eq_bigr => t _; rewrite !mxE.
Qed.
Lemma In_nth (j : 'I_(size es)) : List.In (nth e0 es j) es.
Proof.
case: j => j /=; elim: es j => [|p es' IH] [|j] //= h; first by left.
by right; apply: IH.
Qed.
Lemma Qm_E : Qm U *m Em es = Em es *m diag_mx (\row_j (nth e0 es j).1).
Proof.
apply/matrixP => i j; rewrite mul_mx_diag !mxE.
have [_ _ /vec_ext] := ev (In_nth j); rewrite vec_Q (vecZ (nth e0 es j).1) => /matrixP/(_ i ord0).
rewrite !mxE mulrC => <-; apply: eq_bigr => t _; by rewrite !mxE.
Qed.
Lemma lam_real : htrans (diag_mx (\row_(j < size es) (nth e0 es j).1)) = diag_mx (\row_(j < size es) (nth e0 es j).1).
Proof.
apply/matrixP => i j; rewrite !mxE eq_sym; case: eqP => [->|_]; last by rewrite mulr0n rmorph0.
by rewrite !mulr1n; have [r _ _] := ev (In_nth j); exact: conj_Creal.
Qed.
Lemma Pi_herm : htrans (Pi es) = Pi es.
Proof. by rewrite /Pi htransM htransK. Qed.
Lemma Pi_sq : Pi es *m Pi es = Pi es.
Proof. by rewrite /Pi -mulmxA (mulmxA (htrans _)) Em_on mul1mx. Qed.
Lemma Pi_Q : Pi es *m Qm U = Qm U *m Pi es.
Proof.
have h : htrans (Em es) *m Qm U = diag_mx (\row_j (nth e0 es j).1) *m htrans (Em es).
  by rewrite -[Qm U]htransK Qm_herm // -htransM Qm_E htransM lam_real.
by rewrite /Pi -mulmxA h mulmxA -Qm_E mulmxA.
Qed.
Notation R := (1%:M - Pi es).
Lemma R_herm : htrans R = R.
Proof. by rewrite htransB htrans1 Pi_herm. Qed.
Lemma R_sq : R *m R = R.
Proof. by rewrite mulmxBr mulmx1 mulmxBl mul1mx Pi_sq subrr subr0. Qed.
Lemma R_Q : R *m Qm U = Qm U *m R.
Proof. by rewrite mulmxBl mulmxBr mul1mx mulmx1 Pi_Q. Qed.
Lemma R_S q : R *m Sm U q = Sm U q *m R.
Proof.
rewrite /OverlapProofs.Sm mulmxA R_Q -!mulmxA; congr (_ *m _).
apply/esym; apply: polymx_comm; by rewrite -mulmxA -R_Q mulmxA -R_Q mulmxA.
Qed.
Lemma R_E : R *m Em es = 0.
Proof. by rewrite mulmxBl mul1mx /Pi -mulmxA Em_on mulmx1 subrr. Qed.
Lemma E_R : htrans (Em es) *m R = 0.
Proof. by rewrite mulmxBr mulmx1 /Pi mulmxA Em_on mul1mx subrr. Qed.
Lemma sgs_sq : diag_mx (sgs es) *m diag_mx (sgs es) = 1%:M.
Proof.
apply/matrixP => i j; rewrite mul_diag_mx !mxE; case: eqP => [->|_]; last by rewrite !mulr0n mulr0.
by rewrite !mulr1n /sg; case: ifP => _; rewrite ?mulrNN mulr1.
Qed.
Lemma De_sq q : 1%:M - De es (Sm U q) *m De es (Sm U q) = (1%:M - Sm U q *m Sm U q) *m R.
Proof.
apply: (De_alg (P := Pi es)) => //.
- by rewrite /Sg -!mulmxA (mulmxA (htrans _) (Em es)) Em_on mul1mx (mulmxA (diag_mx _)) sgs_sq mul1mx.
- by rewrite /Sg !mulmxA R_E !mul0mx.
- by rewrite /Sg -!mulmxA E_R !mulmx0.
- exact: R_S.
- exact: R_sq.
Qed.
Lemma De_herm (q : {poly C}) : (forall i, q`_i \is Num.real) -> htrans (De es (Sm U q)) = De es (Sm U q).
Proof.
move=> r; rewrite /De htransD htransM R_herm Sm_herm // R_S; congr (_ + _).
rewrite /Sg !htransM htransK mulmxA; congr (_ *m _ *m _).
apply/matrixP => i j; rewrite !mxE eq_sym; case: eqP => [->|_]; last by rewrite mulr0n rmorph0.
by rewrite !mulr1n /sg; case: ifP => _; rewrite ?rmorphN rmorph1.
Qed.
Lemma De_E (q : {poly C}) (j : 'I_(size es)) : De es (Sm U q) *m vec (nth e0 es j).2 = sg (nth e0 es j) *: vec (nth e0 es j).2.
Proof.
rewrite -col_Em colE /De mulmxDl -(mulmxA (Sm U q)) (mulmxA R) R_E mul0mx mulmx0 addr0 /Sg -!mulmxA.
rewrite (mulmxA (htrans _)) Em_on mul1mx mul_diag_mx scalemxAr; congr (_ *m _).
by apply/matrixP => a b; rewrite !mxE; case: eqP => [->|_]; rewrite ?mulr0.
Qed.
Lemma R_orth w : orthogonal es w <-> R *m vec w = vec w.
Proof.
split=> [h|h p].
  rewrite mulmxBl mul1mx /Pi -mulmxA.
  have -> : htrans (Em es) *m vec w = 0 by apply/matrixP => i t; rewrite (ord1 t) EmH mxE h //; exact: In_nth.
  by rewrite mulmx0 subr0.
have z : htrans (Em es) *m vec w = 0 by rewrite -h mulmxA E_R mul0mx.
move=> /(List.In_nth _ _ e0)[i [hi <-]].
have hi' : (i < size es)%N by apply/ltP.
have := EmH w (Ordinal hi'); rewrite z mxE /=.
have -> : List.nth i es e0 = nth e0 es i; last by move=> <-.
by elim: (es) i {hi hi'} => [|p' es' IH] [|i] //=.
Qed.
(** The bound on the defect. *)
Lemma defect_bound (q : {poly C}) (eps : C) : 0 <= eps ->
  (forall lam w, eigenvector (hermitian_dirac k U) lam w -> orthogonal es w -> `|1 - (lam * q.[lam ^+ 2]) ^+ 2| <= eps) ->
  forall u : 'cV[C]_N, norm2 ((1%:M - De es (Sm U q) *m De es (Sm U q)) *m u) <= eps ^+ 2 * norm2 u.
Proof.
move=> e_ge0 he u; rewrite De_sq -mulmxA.
apply: (@spectral_bound _ _ (Qm U) R _ (fun mu => 1 - (mu * q.[mu ^+ 2]) ^+ 2)) => //.
- exact: Qm_herm.
- exact: R_herm.
- exact: R_sq.
- exact: R_Q.
- by move=> mu w h; apply: Sm2_eigen.
move=> mu w wn Hw Rw; apply: (he mu (unvec w)).
  split.
    by move/vec_ext; rewrite unvecK vec0 => z; rewrite z eqxx in wn.
  by apply: vec_inj; rewrite vec_Q unvecK Hw vecZ unvecK.
by apply/R_orth; rewrite unvecK.
Qed.
End Orthonormal.
Lemma De_nil (S : 'M[C]_N) : De [::] S = S.
Proof.
have z : Em [::] *m htrans (Em [::]) = 0 by apply/matrixP => i j; rewrite !mxE big_ord0.
rewrite /De /Pi z subr0 mulmx1 /Sg.
have -> : Em [::] *m diag_mx (sgs [::]) *m htrans (Em [::]) = 0 by apply/matrixP => i j; rewrite !mxE big_ord0.
by rewrite add0r.
Qed.
Lemma norm2_inner v : inner v v = norm2 (vec v).
Proof. by rewrite innerE. Qed.
(** The Ginsparg-Wilson defect from three calls. *)
Lemma gw_vec (S : 'M[C]_N) v (a b c : field) : vec a = Dm S 0 false *m vec v -> vec b = Dm S 0 false *m vec (g5 v) ->
  vec c = Dm S 0 false *m vec (g5 a) ->
  vec (ginsparg_wilson_defect a b c) = 2%:R^-1 *: (Gm *m ((1%:M - S *m S) *m vec v)).
Proof.
move=> ea eb ec; rewrite /ginsparg_wilson_defect (vecB (fun x i t => g5 a x i t + b x i t)) (vecD (g5 a)) vecZ vec_g5 eb ec !vec_g5 ea {ea eb ec}.
rewrite (mulmxA Gm (1%:M - S *m S)) (scalemxAl 2%:R^-1) -gw_matrix.
by move: (Dm S 0 false) => D; rewrite mulmxBl mulmxDl -scalemxAl -!mulmxA.
Qed.
End Exact.

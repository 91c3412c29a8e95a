(** The overlap operators as matrices: what OverlapOperator and ExactOverlapOperator compute. *)
From Coq Require Import List.
From Verif Require Import Base SolverModel.
From mathcomp Require Import all_ssreflect all_algebra.
From Verif Require Import GaugeModel GaugeSpec GaugeProofs GammaModel DiracModel DiracSpec DiracProofs DiracProofs2 SolverSpec SolverProofs
  PertProofs VecProofs FForceModel FForceSpec FForceProofs2 OverlapModel OverlapSpec.
Import GRing.Theory Num.Theory.
Set Implicit Arguments.
Unset Strict Implicit.
Unset Printing Implicit Defensive.
Local Open Scope ring_scope.

Section Poly.
Variable C : numClosedFieldType.
Variable m : nat.
(** A polynomial of a matrix. *)
Definition polymx (q : {poly C}) (A : 'M[C]_m) : 'M[C]_m := \sum_(i < size q) q`_i *: iter i (mulmx A) 1%:M.
Lemma iter_mulmx i (A : 'M[C]_m) (u : 'cV[C]_m) : iter i (mulmx A) u = iter i (mulmx A) 1%:M *m u.
Proof. by elim: i => [|i IH] /=; rewrite ?mul1mx // IH mulmxA. Qed.
Lemma poly_applyP q (A : 'M[C]_m) u : poly_apply q (mulmx A) u = polymx q A *m u.
Proof.
rewrite /poly_apply /polymx mulmx_suml; apply: eq_bigr => i _.
by rewrite iter_mulmx -scalemxAl.
Qed.
Lemma mulmx_lin (A : 'M[C]_m) : SolverSpec.linear_op (mulmx A).
Proof. by move=> a u v; rewrite mulmxDr -scalemxAr. Qed.
Lemma iter_comm i (A B : 'M[C]_m) : A *m B = B *m A -> iter i (mulmx A) 1%:M *m B = B *m iter i (mulmx A) 1%:M.
Proof.
move=> h; elim: i => [|i IH] /=; first by rewrite mul1mx mulmx1.
by rewrite -mulmxA IH mulmxA h mulmxA.
Qed.
Lemma polymx_comm q (A B : 'M[C]_m) : A *m B = B *m A -> polymx q A *m B = B *m polymx q A.
Proof.
move=> h; rewrite /polymx mulmx_suml mulmx_sumr; apply: eq_bigr => i _.
by rewrite -scalemxAl -scalemxAr iter_comm.
Qed.
Lemma iter_herm i (A : 'M[C]_m) : htrans A = A -> htrans (iter i (mulmx A) 1%:M) = iter i (mulmx A) 1%:M.
Proof. by move=> h; elim: i => [|i IH] /=; rewrite ?htrans1 // htransM IH h iter_comm. Qed.
Lemma polymx_herm (q : {poly C}) (A : 'M[C]_m) : htrans A = A -> (forall i, q`_i \is Num.real) -> htrans (polymx q A) = polymx q A.
Proof.
move=> h r; rewrite /polymx htrans_sum; apply: eq_bigr => i _.
by rewrite htransZ iter_herm // (conj_Creal (r _)).
Qed.
Lemma polymx_eigen (q : {poly C}) (A : 'M[C]_m) (u : 'cV[C]_m) (lam : C) : A *m u = lam *: u -> polymx q A *m u = q.[lam] *: u.
Proof. by move=> h; rewrite -poly_applyP; apply: poly_apply_eigen => //; exact: mulmx_lin. Qed.
End Poly.

Section Overlap.
Variable C : numClosedFieldType.
Variable n : nat.
Variable L : lattice.
Notation field := (L -> 'I_4 -> 'I_n -> C) (only parsing).
Notation links := (L -> 'I_4 -> 'M[C]_n) (only parsing).
Notation T := [finType of L * 'I_4 * 'I_n].
Notation N := #|T|.
Implicit Types (U : links) (v w : field).
Variables (k : C) (old : field).

Definition Gm : 'M[C]_N := opmx (@g5 C n L).
Definition Qm U : 'M[C]_N := opmx (hermitian_dirac k U).
Lemma g5_lin : linear_op (@g5 C n L).
Proof.
split=> [v w e|al v w]; first exact: g5_ext.
by move=> x a c; rewrite /combine !g5E mulrDr mulrCA.
Qed.
Lemma vec_g5 v : vec (g5 v) = Gm *m vec v.
Proof. by rewrite vec_op //; exact: g5_lin. Qed.
Lemma vec_Q U v : vec (hermitian_dirac k U v) = Qm U *m vec v.
Proof. by rewrite vec_op //; exact: Q_lin. Qed.
Lemma Gm_herm : htrans Gm = Gm.
Proof. by apply: opmx_herm; [exact: g5_lin|exact: g5_herm]. Qed.
Lemma mx_ext (A B : 'M[C]_N) : (forall v, A *m vec v = B *m vec v) -> A = B.
Proof. by move=> h; apply: quad_ext => u w; rewrite -(unvecK w) h. Qed.
Lemma Gm_sq : Gm *m Gm = 1%:M.
Proof. by apply: mx_ext => v; rewrite -mulmxA -!vec_g5 mul1mx; apply: vec_ext; exact: g5K. Qed.
Lemma Qm_herm U : k \is Num.real -> htrans (Qm U) = Qm U.
Proof. by move=> kR; apply: opmx_herm; [exact: Q_lin|move=> v w; exact: Q_herm]. Qed.

Lemma vecD v w : vec (fun x a c => v x a c + w x a c) = vec v + vec w.
Proof. by apply/matrixP => i j; rewrite !mxE. Qed.
Lemma vecB v w : vec (fun x a c => v x a c - w x a c) = vec v - vec w.
Proof. by apply/matrixP => i j; rewrite !mxE. Qed.
Lemma vecN v : vec (fun x a c => - v x a c) = - vec v.
Proof. by apply/matrixP => i j; rewrite !mxE. Qed.
Lemma vecZ z v : vec (fun x a c => z * v x a c) = z *: vec v.
Proof. by apply/matrixP => i j; rewrite !mxE. Qed.
Lemma vec0 : vec (fun _ _ _ => 0 : C) = 0 :> 'cV[C]_N.
Proof. by apply/matrixP => i j; rewrite !mxE. Qed.
Lemma vec_comb al v w : vec (combine al v w) = vec v + al *: vec w.
Proof. by apply/matrixP => i j; rewrite !mxE. Qed.
Lemma vec_sum (I : Type) (r : seq I) (f : I -> C) (F : I -> field) :
  vec (fun x a c => \sum_(i <- r) f i * F i x a c) = \sum_(i <- r) f i *: vec (F i).
Proof. by apply/matrixP => i j; rewrite summxE mxE; apply: eq_bigr => t _; rewrite !mxE. Qed.

(** The polynomial on fields and on columns. *)
Section Evaluate.
Variables (mad : field -> field -> C -> field) (A : 'M[C]_N).
Hypothesis madE : forall v w al, vec (mad v w al) = A *m vec v + al *: vec w.
Let mad' (u w : 'cV[C]_N) (al : C) := A *m u + al *: w.
Lemma poly_loop_vec zs s b (t1 t2 : field) :
  let r := @poly_loop (fields C n L) zs mad s b t1 t2 in
  let r' := @poly_loop (exact C N) zs mad' s b (vec t1) (vec t2) in
  vec r.1 = r'.1 /\ vec r.2 = r'.2.
Proof.
elim: zs b t1 t2 => [|z zs IH] [] t1 t2 //=.
  have := IH false t1 (fun x a c => s * mad t1 t1 (- z) x a c); rewrite /= vecZ madE; exact.
have := IH true (fun x a c => s * mad t2 t2 (- z) x a c) t2; rewrite /= vecZ madE; exact.
Qed.
Lemma evaluate_vec zs sc v : zs <> nil ->
  exists t, poly_evaluate (fields C n L) zs sc mad old v = Ok t /\ vec t = polymx (held_poly zs sc) A *m vec v.
Proof.
move=> h.
have E := poly_evaluateE (m := N) (A := mulmx A) (mad := mad') sc (vec old) (vec v) (mulmx_lin A) (fun _ _ _ => erefl _) h.
rewrite /root_poly /lead mul_polyC poly_applyP in E.
case: zs h E => [//|z zs] _ E.
move: E; rewrite /poly_evaluate.
have := poly_loop_vec zs `|'Re sc| true (fun x a c => `|'Re sc| * mad v v (- z) x a c) old.
rewrite /= vecZ madE -/(mad' (vec v) (vec v) (- z)).
case: (@poly_loop (fields C n L)) => a1 a2.
case: (@poly_loop (exact C N)) => b1 b2 /= [h1 h2] [E].
eexists; split; first by [].
rewrite /held_poly /= -E; case: ifP => _; first by rewrite vecN; case: ifP => _; rewrite ?h1 ?h2.
by case: ifP => _.
Qed.
End Evaluate.

Lemma wilson5E U v : feq (wilson5 k old U v) (hermitian_dirac k U v).
Proof. exact: (wilson_correct k true U old v). Qed.
Lemma square5E U v w al : vec (square5_add k old U v w al) = Qm U *m Qm U *m vec v + al *: vec w.
Proof.
rewrite /square5_add (vec_ext (square_add_correct (wilson_add_correct k true U old old) v w al)) vec_comb; congr (_ + _).
rewrite /square_multiply (vec_ext (wilson5E U _)) vec_Q (vec_ext (wilson5E U _)) vec_Q mulmxA //.
Qed.
Definition Sm U (q : {poly C}) : 'M[C]_N := Qm U *m polymx q (Qm U *m Qm U).
Lemma sign_functionE roots sc U v : roots <> nil ->
  exists t, sign_function k roots sc old U v = Ok t /\ vec t = Sm U (held_poly roots sc) *m vec v.
Proof.
move=> h; have [t [E e]] := evaluate_vec (square5E U) sc v h.
exists (wilson5 k old U t); rewrite /sign_function /square_root E /=; split=> //.
by rewrite (vec_ext (wilson5E U t)) vec_Q e mulmxA.
Qed.
Lemma sign_function_nil sc U v : sign_function k [::] sc old U v = UB.
Proof. by []. Qed.
Definition Dm (S : 'M[C]_N) (ms : C) (g : bool) : 'M[C]_N :=
  if g then ((1 + ms) / 2%:R) *: Gm + ((1 - ms) / 2%:R) *: S else ((1 + ms) / 2%:R)%:M + ((1 - ms) / 2%:R) *: (Gm *m S).
Lemma outputE ms g v s (S : 'M[C]_N) : vec s = S *m vec v -> vec (overlap_output ms g v s) = Dm S ms g *m vec v.
Proof.
move=> e.
have h (t : C) : 2%:R^-1 + t / 2%:R = (1 + t) / 2%:R by rewrite mulrDl mul1r.
have h' (t : C) : 2%:R^-1 - t / 2%:R = (1 - t) / 2%:R by rewrite mulrBl mul1r.
have -> : vec (overlap_output ms g v s) = if g then ((1 + ms) / 2%:R) *: vec (g5 v) + ((1 - ms) / 2%:R) *: vec s
    else ((1 + ms) / 2%:R) *: vec v + ((1 - ms) / 2%:R) *: vec (g5 s).
  apply/matrixP => i j; rewrite !mxE /overlap_output h h'; case: g; rewrite !mxE !g5E /sgn; case: ifP => _;
    by rewrite ?mul1r ?mulN1r ?mulrN ?mulNr.
by case: g; rewrite /Dm !vec_g5 e mulmxDl -!scalemxAl ?mul_scalar_mx ?mulmxA.
Qed.
Lemma overlapE ms g (S : field -> field) (SS : 'M[C]_N) v : vec (S v) = SS *m vec v -> vec (overlap S ms g v) = Dm SS ms g *m vec v.
Proof.
move=> e; rewrite /overlap /Dm; case: g => /=.
  by rewrite vec_g5 vecD !vecZ vec_g5 e !mulmxDr mulmxDl -!scalemxAr -!scalemxAl (mulmxA Gm Gm) Gm_sq mul1mx.
by rewrite vecD !vecZ vec_g5 e mulmxDl mul_scalar_mx -scalemxAl mulmxA.
Qed.
Lemma iter_op (A : field -> field) i v (M : 'M[C]_N) : (forall w, vec (A w) = M *m vec w) -> vec (iter i A v) = iter i (mulmx M) 1%:M *m vec v.
Proof. by move=> h; elim: i => [|i IH] /=; rewrite ?mul1mx // h IH mulmxA. Qed.
Lemma poly_ofE q (A : field -> field) v (M : 'M[C]_N) : (forall w, vec (A w) = M *m vec w) -> vec (poly_of q A v) = polymx q M *m vec v.
Proof.
move=> h; rewrite /poly_of /polymx mulmx_suml.
apply/matrixP => i j; rewrite summxE mxE; apply: eq_bigr => t _.
rewrite -scalemxAl -(iter_op t v h) !mxE //.
Qed.
Lemma sign_approxE U q v : vec (sign_approx k U q v) = Sm U q *m vec v.
Proof.
rewrite /sign_approx vec_Q (poly_ofE _ _ (M := Qm U *m Qm U)) ?mulmxA // => w.
by rewrite !vec_Q mulmxA.
Qed.
Lemma multiplyE roots sc ms g U v : roots <> nil ->
  exists t, overlap_multiply k roots sc old ms g U v = Ok t /\ vec t = Dm (Sm U (held_poly roots sc)) ms g *m vec v.
Proof.
move=> h; have [t [E e]] := sign_functionE sc U v h.
exists (overlap_output ms g v t); rewrite /overlap_multiply E; split=> //; exact: outputE.
Qed.
Lemma returnsE (r : Base.outcome field) w : returns r w <-> exists t, r = Ok t /\ vec t = vec w.
Proof.
split=> [] [t [E e]]; exists t; split=> //; first exact: vec_ext.
exact: vec_inj.
Qed.
Lemma multiply_returns roots sc ms g U v : roots <> nil ->
  returns (overlap_multiply k roots sc old ms g U v) (overlap (sign_approx k U (held_poly roots sc)) ms g v).
Proof.
move=> h; have [t [E e]] := multiplyE sc ms g U v h; apply/returnsE; exists t; split=> //.
by rewrite e (overlapE _ _ (sign_approxE U _ v)).
Qed.
Lemma multiply_add_returns roots sc ms U v w al : roots <> nil ->
  returns (overlap_multiply_add k roots sc old ms true U v w al)
    (combine al (overlap (sign_approx k U (held_poly roots sc)) ms true v) w).
Proof.
move=> h; have [t [E e]] := sign_functionE sc U v h; apply/returnsE.
rewrite /overlap_multiply_add E; eexists; split; first by [].
by rewrite vec_comb (overlapE _ _ (sign_approxE U _ v)) -(outputE _ _ e) -[RHS]vec_comb.
Qed.
Lemma square_returns roots sc ms g U v : roots <> nil ->
  returns (square_overlap k roots sc old ms g U v)
    (overlap (sign_approx k U (held_poly roots sc)) ms g (overlap (sign_approx k U (held_poly roots sc)) ms g v)).
Proof.
move=> h; have [t [E e]] := multiplyE sc ms g U v h; rewrite /square_overlap E.
have [t' [E' e']] := multiplyE sc ms g U t h; apply/returnsE; exists t'; split=> //.
by rewrite e' e (overlapE _ _ (sign_approxE U _ _)) (overlapE _ _ (sign_approxE U _ _)).
Qed.
End Overlap.

(** Hermiticity, the Ginsparg-Wilson relation, gauge covariance and the mass of the overlap operator. *)
From Coq Require Import List Ring.
From Verif Require Import Base SolverModel.
From mathcomp Require Import all_ssreflect all_algebra.
From Verif Require Import GaugeModel GaugeSpec GaugeProofs GaugeProofs2 GammaModel DiracModel DiracSpec DiracProofs DiracProofs2 SolverSpec SolverProofs
  PertProofs VecProofs FForceModel FForceSpec FForceProofs2 ExpSpec EigProofs OverlapModel OverlapSpec OverlapProofs.
Import GRing.Theory Num.Theory Order.POrderTheory.
Set Implicit Arguments.
Unset Strict Implicit.
Unset Printing Implicit Defensive.
Local Open Scope ring_scope.

Section Bound.
Variable C : numClosedFieldType.
Variable m : nat.
Implicit Types (u w : 'cV[C]_m) (A : 'M[C]_m).
Lemma norm2_unitary A w : htrans A *m A = 1%:M -> norm2 (A *m w) = norm2 w.
Proof. by move=> h; rewrite /norm2 htransM -mulmxA (mulmxA (htrans A)) h mul1mx. Qed.
Lemma norm2Z (z : C) w : norm2 (z *: w) = `|z| ^+ 2 * norm2 w.
Proof. by rewrite /norm2 htransZ -scalemxAl -scalemxAr scalerA mxE normCK [z^* * z]mulrC. Qed.
Lemma norm2_proj (R : 'M[C]_m) w : htrans R = R -> R *m R = R -> norm2 (R *m w) <= norm2 w.
Proof.
move=> h p; have -> : norm2 w = norm2 (R *m w) + norm2 (w - R *m w).
  rewrite /norm2 htransB htransM h mulmxBl !mulmxBr -!mulmxA (mulmxA R R) p subrr subr0.
  by rewrite -[LHS](addrNK ((htrans w *m (R *m w)) ord0 ord0)) addrC !mxE.
by rewrite ler_addl norm2_ge0.
Qed.
Lemma norm2_diag (g : 'rV[C]_m) (eps : C) w : (forall j, `|g ord0 j| <= eps) -> norm2 (diag_mx g *m w) <= eps ^+ 2 * norm2 w.
Proof.
move=> h; rewrite !norm2E mulr_sumr; apply: ler_sum => i _.
rewrite mul_diag_mx mxE normrM exprMn; apply: ler_wpmul2r; first by rewrite exprn_ge0.
by apply: ler_expn2r; rewrite ?nnegrE // ?(le_trans _ (h i)).
Qed.
Lemma spectral_bound (H R F : 'M[C]_m) (f : C -> C) (eps : C) :
  htrans H = H -> htrans R = R -> R *m R = R -> R *m H = H *m R ->
  (forall mu w, H *m w = mu *: w -> F *m w = f mu *: w) ->
  (forall mu w, w != 0 -> H *m w = mu *: w -> R *m w = w -> `|f mu| <= eps) -> 0 <= eps ->
  forall u, norm2 (F *m (R *m u)) <= eps ^+ 2 * norm2 u.
Proof.
move=> hH hR pR cR hF hf e0 u.
have ah : anti_hermitian ('i *: (R *m H *m R)).
  rewrite /anti_hermitian ?daggerE htransZ !htransM hH hR conjCi mulmxA scaleNr //.
have [V [l [uV dV]]] := spectral_theorem ah.
rewrite /unitary daggerE in uV.
have uV' : htrans V *m V = 1%:M by apply: mulmx1C.
pose w (j : 'I_m) := col j V.
pose mu (j : 'I_m) := - 'i * l ord0 j.
have ew j : R *m H *m R *m w j = mu j *: w j.
  have : ('i *: (R *m H *m R)) *m w j = l ord0 j *: w j.
    rewrite /w -[col j V]/(col j V) !colE mulmxA dV -mulmxA.
    rewrite mul_diag_mx; apply/matrixP => a b; rewrite !mxE.
    rewrite (bigD1 j) //= big1 => [|i ij]; last by rewrite !mxE (negbTE ij) !mulr0.
    rewrite !mxE eqxx (ord1 b) addr0 mulr1 mulrC; congr (_ * _).
    rewrite (bigD1 j) //= big1 => [|i ij]; last by rewrite !mxE (negbTE ij) !mulr0.
    by rewrite !mxE eqxx mulr1 addr0.
  rewrite -scalemxAl => E; rewrite /mu -scalerA -E scalerA.
  by rewrite mulNr -expr2 sqrCi opprK scale1r.
have er j : H *m (R *m w j) = mu j *: (R *m w j).
  have P : R *m H *m R = H *m R by rewrite cR -mulmxA pR.
  by rewrite scalemxAr -ew P !mulmxA P.
pose g : 'rV[C]_m := \row_j (if R *m w j == 0 then 0 else f (mu j)).
have gE j : F *m (R *m w j) = g ord0 j *: (R *m w j).
  rewrite mxE; case: eqP => [->|_]; first by rewrite mulmx0 scaler0.
  exact: hF.
have gb j : `|g ord0 j| <= eps.
  rewrite mxE; case: eqP => [_|/eqP nz]; first by rewrite normr0.
  by apply: (hf _ _ nz (er j)); rewrite mulmxA pR.
have FR : F *m R *m V = R *m V *m diag_mx g.
  apply/matrixP => a j; have := gE j; rewrite /w !colE !mulmxA => /matrixP/(_ a ord0).
  rewrite -!colE [LHS]mxE => ->.
  by rewrite mul_mx_diag !mxE mulrC; congr (_ * _); apply: eq_bigr => i _; rewrite !mxE.
have -> : F *m (R *m u) = R *m (V *m (diag_mx g *m (htrans V *m u))).
  by rewrite !mulmxA -FR -(mulmxA (F *m R) V) uV mulmx1.
apply: le_trans (norm2_proj _ hR pR) _.
rewrite (norm2_unitary _ uV'); apply: le_trans (norm2_diag _ gb) _.
by rewrite norm2_unitary // htransK.
Qed.
End Bound.

(** Real coefficients. *)
Section Real.
Variable C : numClosedFieldType.
Lemma held_poly_real (roots : seq C) (sc : C) : perm_eq (map conjC roots) roots -> forall i, (held_poly roots sc)`_i \is Num.real.
Proof.
move=> pr i; rewrite /held_poly coefZ rpredM //.
  by rewrite rpredM // ?rpredX ?normr_real //; case: ifP => _; rewrite ?rpredN rpred1.
rewrite CrealE; apply/eqP.
have E : map_poly conjC (\prod_(z <- roots) ('X - z%:P)) = \prod_(z <- roots) ('X - z%:P).
  rewrite rmorph_prod /= -[RHS](perm_big _ pr) big_map /=; apply: eq_bigr => z _.
  by rewrite rmorphB /= map_polyX map_polyC.
by rewrite -{2}E coef_map.
Qed.
End Real.

Section Overlap.
Variable C : numClosedFieldType.
Variable n : nat.
Variable L : lattice.
Notation field := (L -> 'I_4 -> 'I_n -> C) (only parsing).
Notation links := (L -> 'I_4 -> 'M[C]_n) (only parsing).
Notation T := [finType of L * 'I_4 * 'I_n].
Notation N := #|T|.
Implicit Types (U : links) (v w : field).
Add Ring Cring : (Crth C).
Variables (k : C) (old : field).
Hypothesis kR : k \is Num.real.
Notation Sm := (Sm k).
Notation Qm := (Qm k).
Notation Gm := (Gm C n L).

Lemma sq_comm U : Qm U *m Qm U *m Qm U = Qm U *m (Qm U *m Qm U).
Proof. by rewrite mulmxA. Qed.
Lemma sq_herm U : htrans (Qm U *m Qm U) = Qm U *m Qm U.
Proof. by rewrite htransM Qm_herm. Qed.
Lemma Sm_herm U (q : {poly C}) : (forall i, q`_i \is Num.real) -> htrans (Sm U q) = Sm U q.
Proof.
move=> r; rewrite /OverlapProofs.Sm htransM Qm_herm // polymx_herm //; last exact: sq_herm.
by rewrite polymx_comm // sq_comm.
Qed.
Lemma Sm_eigen U (q : {poly C}) (u : 'cV[C]_N) mu : Qm U *m u = mu *: u -> Sm U q *m u = (mu * q.[mu ^+ 2]) *: u.
Proof.
move=> h; rewrite /OverlapProofs.Sm -mulmxA (@polymx_eigen _ _ q _ u (mu ^+ 2)).
  by rewrite -scalemxAr h scalerA mulrC.
by rewrite -mulmxA h -scalemxAr h scalerA.
Qed.
Lemma Sm2_eigen U (q : {poly C}) (u : 'cV[C]_N) mu : Qm U *m u = mu *: u ->
  (1%:M - Sm U q *m Sm U q) *m u = (1 - (mu * q.[mu ^+ 2]) ^+ 2) *: u.
Proof.
move=> h; rewrite mulmxBl mul1mx -mulmxA (Sm_eigen q h) -scalemxAr (Sm_eigen q h) scalerA.
by rewrite scalerBl scale1r expr2.
Qed.

Lemma half_real (t : C) : t \is Num.real -> (t / 2%:R)^* = t / 2%:R.
Proof. by move=> r; apply: conj_Creal; rewrite rpredM // rpredV realn. Qed.
Lemma Dm_herm (S : 'M[C]_N) (ms : C) : htrans S = S -> ms \is Num.real -> htrans (Dm S ms true) = Dm S ms true.
Proof.
move=> h r; rewrite /Dm htransD !htransZ h Gm_herm !half_real // ?rpredD ?rpredB ?rpredN ?rpred1 //.
Qed.
Lemma quad_herm (A : 'M[C]_N) v w (v' w' : field) : htrans A = A -> vec v' = A *m vec v -> vec w' = A *m vec w ->
  inner v w' = inner v' w.
Proof. by move=> h e e'; rewrite !innerE e e' /quad htransM h mulmxA. Qed.

(** The Ginsparg-Wilson relation, for any S. *)
Lemma gw_matrix (S : 'M[C]_N) : let D := Dm S 0 false in
  Gm *m D + D *m Gm - 2%:R *: (D *m (Gm *m D)) = 2%:R^-1 *: (Gm *m (1%:M - S *m S)).
Proof.
rewrite /Dm /= addr0 subr0 !mul1r.
have -> : (2%:R^-1)%:M + 2%:R^-1 *: (Gm *m S) = 2%:R^-1 *: (1%:M + Gm *m S) :> 'M[C]_N by rewrite scalerDr scalemx1.
rewrite -!scalemxAl -!scalemxAr !scalerA.
have -> : 2%:R * 2%:R^-1 = 1 :> C by rewrite divff ?pnatr_eq0.
rewrite mul1r -!scalerDr -scalerBr; congr (_ *: _).
have -> : Gm *m (1%:M + Gm *m S) = Gm + S by rewrite mulmxDr mulmx1 mulmxA Gm_sq mul1mx.
rewrite !mulmxDl !mulmxDr !mul1mx mulmxN mulmx1 (mulmxA Gm S S).
set p := Gm; set r := S; set t := Gm *m S *m Gm; set y := Gm *m S *m S.
apply/matrixP => i j; rewrite !mxE.
move: (p i j) (r i j) (t i j) (y i j) => {p r t y} p r t y.
by cring_fold C; ring.
Qed.
End Overlap.

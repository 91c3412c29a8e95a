(** Both overlap classes at once, and the smallest lattice for the counterexamples. *)
From Coq Require Import List Ring.
From Verif Require Import Base SolverModel.
From mathcomp Require Import all_ssreflect all_algebra.
From Verif Require Import GaugeModel GaugeSpec GaugeProofs GaugeProofs2 GaugeProofs3 GammaModel DiracModel DiracSpec DiracProofs DiracProofs2
  PertProofs VecProofs FForceModel FForceSpec FForceProofs2 ExpSpec EigProofs OverlapModel OverlapSpec OverlapProofs OverlapProofs2 OverlapProofs3
  OverlapProofs4 OverlapProofs5.
Import GRing.Theory Num.Theory Order.POrderTheory.
Set Implicit Arguments.
Unset Strict Implicit.
Unset Printing Implicit Defensive.
Local Open Scope ring_scope.

Section Virtual.
Variable C : numClosedFieldType.
Variable n : nat.
Variable L : lattice.
Notation field := (L -> 'I_4 -> 'I_n -> C) (only parsing).
Notation links := (L -> 'I_4 -> 'M[C]_n) (only parsing).
Notation T := [finType of L * 'I_4 * 'I_n].
Notation N := #|T|.
Notation eigens := (seq (C * (L -> 'I_4 -> 'I_n -> C))) (only parsing).
Implicit Types (U : links) (v w : field) (es : eigens) (cls : option eigens).
Variables (k : C) (old : field) (roots : list C) (sc : C).
Hypothesis r0 : roots <> nil.
Notation q := (held_poly roots sc).
Notation Gm := (Gm C n L).
Definition VS cls U : 'M[C]_N := if cls is Some es then De es (Sm k U q) else Sm k U q.
Lemma virtualE cls ms g U v : exists t, virtual_multiply k roots sc old cls ms g U v = Ok t /\ vec t = Dm (VS cls U) ms g *m vec v.
Proof. by case: cls => [es|]; [exact: exact_multiplyE|exact: multiplyE]. Qed.
Lemma class_signE cls U v : vec (class_sign cls (sign_approx k U q) v) = VS cls U *m vec v.
Proof. by case: cls => [es|] /=; [exact: vec_deflated_approx|exact: sign_approxE]. Qed.
(** What is returned, as a matrix. *)
Lemma returns_vec cls ms g U v w : returns (virtual_multiply k roots sc old cls ms g U v) w -> vec w = Dm (VS cls U) ms g *m vec v.
Proof. by have [t [-> <-]] := virtualE cls ms g U v; case=> t' [[<-] /vec_ext ->]. Qed.
Lemma virtual_herm cls ms U v w : ms \is Num.real -> htrans (VS cls U) = VS cls U ->
  exists v' w', [/\ virtual_multiply k roots sc old cls ms true U v = Ok v', virtual_multiply k roots sc old cls ms true U w = Ok w' &
    inner v w' = inner v' w].
Proof.
move=> mr h; have [v' [-> ev]] := virtualE cls ms true U v; have [w' [-> ew]] := virtualE cls ms true U w.
by exists v', w'; split=> //; apply: (quad_herm (A := Dm (VS cls U) ms true)) => //; exact: Dm_herm.
Qed.
Lemma virtual_defect cls U (eps : C) v :
  (forall u : 'cV[C]_N, norm2 ((1%:M - VS cls U *m VS cls U) *m u) <= eps ^+ 2 * norm2 u) ->
  exists a b c, [/\ virtual_multiply k roots sc old cls 0 false U v = Ok a, virtual_multiply k roots sc old cls 0 false U (g5 v) = Ok b,
    virtual_multiply k roots sc old cls 0 false U (g5 a) = Ok c &
    inner (ginsparg_wilson_defect a b c) (ginsparg_wilson_defect a b c) <= (eps / 2%:R) ^+ 2 * inner v v].
Proof.
move=> h; have [a [-> ea]] := virtualE cls 0 false U v; have [b [-> eb]] := virtualE cls 0 false U (g5 v).
have [c [Ec ec]] := virtualE cls 0 false U (g5 a).
exists a, b, c; split=> //; rewrite !norm2_inner (gw_vec ea eb ec) norm2Z norm2_unitary ?Gm_herm ?Gm_sq //.
have -> : (eps / 2%:R) ^+ 2 * norm2 (vec v) = `|2%:R^-1| ^+ 2 * (eps ^+ 2 * norm2 (vec v)).
  by rewrite normfV normr_nat [eps / _]mulrC exprMn !mulrA.
apply: ler_wpmul2l; last exact: h.
by rewrite exprn_ge0 // normr_ge0.
Qed.
Lemma virtual_mass cls ms g U v :
  exists a b, [/\ virtual_multiply k roots sc old cls ms g U v = Ok a, virtual_multiply k roots sc old cls 0 g U v = Ok b &
    feq a (fun x i c => b x i c + ms * (maybe5 g v x i c - b x i c))].
Proof.
have [a [-> ea]] := virtualE cls ms g U v; have [b [-> eb]] := virtualE cls 0 g U v; exists a, b; split=> //; apply: vec_inj.
rewrite (vecD b) (vecZ ms (fun x i c => maybe5 g v x i c - b x i c)) (vecB (maybe5 g v)) ea eb.
rewrite (@Dm_mass C n L (VS cls U) ms g (if g then Gm else 1%:M)) // mulmxDl -scalemxAl mulmxBl.
by case: g ea eb => _ _ /=; rewrite ?vec_g5 ?mul1mx.
Qed.
Lemma sign_square cls U : (forall v, feq (class_sign cls (sign_approx k U q) (class_sign cls (sign_approx k U q) v)) v) ->
  VS cls U *m VS cls U = 1%:M.
Proof. by move=> h; apply: mx_ext => v; rewrite -mulmxA -!class_signE mul1mx; exact: vec_ext. Qed.

(** ** Propagators. *)
Section Solve.
Variables (cls : option eigens) (U : links) (ms : C) (solve : field -> field).
Hypothesis exact : forall v, returns (virtual_multiply k roots sc old cls ms false U (solve v)) v.
Notation mul := (fun m => virtual_multiply k roots sc old cls m false U).
Notation D m := (Dm (VS cls U) m false).
Lemma solve_matrix : exists X, [/\ D ms *m X = 1%:M, X *m D ms = 1%:M & forall v, vec (solve v) = X *m vec v].
Proof. by apply: solver_matrix => v; rewrite -(returns_vec (exact v)). Qed.
Lemma propE v : exists t, condensate_vector solve mul v = Ok t /\ vec t = (1%:M - D 0) *m vec (solve v).
Proof.
rewrite /condensate_vector /construct_propagator; have [t [-> et]] := virtualE cls 0 false U (solve v).
by eexists; split; first by []; rewrite (vecB (solve v)) et mulmxBl mul1mx.
Qed.
Lemma prop_value v : exists t, condensate_vector solve mul v = Ok t /\
  feq (fun x a c => (1 - ms) * t x a c) (fun x a c => solve v x a c - v x a c).
Proof.
have [t [-> et]] := propE v; exists t; split=> //; apply: vec_inj; have [X [h h' e]] := solve_matrix.
by rewrite vecZ (vecB (solve v)) et e mulmxA scalemxAl (prop_mass h) mulmxBl mul1mx.
Qed.
Lemma connectedE v : exists t u w, [/\ condensate_vector solve mul v = Ok t, condensate_vector solve mul t = Ok u,
  connected_vector solve mul v = Ok w & feq w (fun x a c => (1 - ms) * u x a c)].
Proof.
have [t [Et et]] := prop_value v; have [u [Eu eu]] := prop_value t.
rewrite /connected_vector Et /=; exists t, u; eexists; split=> // x a c; by rewrite eu.
Qed.
End Solve.
Lemma prop_chiral_fields cls U solve v : VS cls U *m VS cls U = 1%:M ->
  (forall v, returns (virtual_multiply k roots sc old cls 0 false U (solve v)) v) ->
  exists t t', [/\ condensate_vector solve (fun m => virtual_multiply k roots sc old cls m false U) v = Ok t,
    condensate_vector solve (fun m => virtual_multiply k roots sc old cls m false U) (g5 v) = Ok t' &
    feq (g5 t) (fun x a c => - t' x a c)].
Proof.
move=> s ex; have [t [-> et]] := propE cls U solve v; have [t' [-> et']] := propE cls U solve (g5 v).
exists t, t'; split=> //; apply: vec_inj; have [X [h h' e]] := solve_matrix ex.
have pc := prop_chiral s h h'; rewrite vec_g5 vecN et et' !e vec_g5.
by move: (1%:M - _) pc => B pc; rewrite !mulmxA -mulNmx -pc mulmxA.
Qed.

(** ** Rotations. *)
Section Rotations.
Variables (cls : option eigens) (U : links).
Notation D m := (Dm (VS cls U) m false).
Definition acts m (mul : field -> field) := forall v, returns (virtual_multiply k roots sc old cls m false U v) (mul v).
Lemma actsE m mul : acts m mul -> forall v, vec (mul v) = D m *m vec v.
Proof. by move=> h v; exact: returns_vec. Qed.
Lemma rot_mass ms mul mul0 steps th v : acts ms mul -> acts 0 mul0 ->
  feq (chiral_rotation_psi mul steps th v) (chiral_rotation_psi mul0 steps ((1 - ms) * th) v) /\
  feq (chiral_rotation_psibar mul steps th v) (chiral_rotation_psibar mul0 steps ((1 - ms) * th) v).
Proof.
move=> /actsE h /actsE h0; split; apply: vec_inj.
  have e : Am (D ms) (th / steps%:R) = Am (D 0) ((1 - ms) * th / steps%:R).
    by rewrite /Am one_minus -scalemxAr scalerA -(mulrA (1 - ms)) (mulrC (1 - ms)).
  by rewrite (psiE h) (psiE h0) e.
have e : Bm (D ms) (th / steps%:R) = Bm (D 0) ((1 - ms) * th / steps%:R).
  by rewrite /Bm one_minus -scalemxAl scalerA -(mulrA (1 - ms)) (mulrC (1 - ms)).
by rewrite (psibarE h) (psibarE h0) e.
Qed.
Lemma rot_both ms mul steps th v : acts ms mul ->
  feq (chiral_rotation_psibar mul steps th (fun x a c => chiral_rotation_psi mul steps th v x a c - mul (chiral_rotation_psi mul steps th v) x a c))
    (fun x a c => chiral_rotation_psi mul (2 * steps) (2%:R * th) v x a c - mul (chiral_rotation_psi mul (2 * steps) (2%:R * th) v) x a c).
Proof.
move=> /actsE h; apply: vec_inj; rewrite (psibarE h) !vecB !h !(psiE h).
have -> : 2%:R * th / (2 * steps)%:R = th / steps%:R :> C.
  by rewrite natrM -mulf_div divff ?pnatr_eq0 // mul1r.
have := both_rotations (D ms) (th / steps%:R) steps.
move: (iter _ _ _) (iter _ _ _) (iter _ _ _) => A2 A B e.
have e' (P : 'M[C]_N) (u : 'cV[C]_N) : u - P *m u = (1%:M - P) *m u by rewrite mulmxBl mul1mx.
by rewrite !e'; move: (1%:M - _) e => P e; rewrite [RHS]mulmxA -e !mulmxA.
Qed.
Lemma rot_invariant mul steps th v : VS cls U *m VS cls U = 1%:M -> acts 0 mul ->
  feq (chiral_rotation_psibar mul steps th (mul (chiral_rotation_psi mul steps th v)))
    (mul (iter steps (fun w x a c => w x a c - (th / steps%:R) ^+ 2 * chiral mul (chiral mul w) x a c) v)).
Proof.
move=> s /actsE h; apply: vec_inj; rewrite (psibarE h) !h (psiE h).
have g : Gm *m D 0 + D 0 *m Gm = 2%:R *: (D 0 *m (Gm *m D 0)).
  by apply/eqP; rewrite -subr_eq0 (gw_matrix (VS cls U)) s subrr mulmx0 scaler0.
move: (D 0) h g => M h g.
have := invariant (th / steps%:R) steps g; set P := _ - _ *: _; move=> e.
have ch u : vec (chiral mul u) = Gm *m (1%:M - M) *m vec u.
  by rewrite /chiral vec_g5 (vecB u) h -mulmxA; congr (_ *m _); rewrite mulmxBl mul1mx.
rewrite (@iter_op _ _ _ _ _ _ (P : 'M[C]_N)); last first.
  by move=> w; rewrite (vecB w) (vecZ _ (chiral mul (chiral mul w))) !ch mulmxBl mul1mx -scalemxAl mulmxA.
by move: (iter _ _ _) (iter _ _ _) (iter _ _ _) e => B A A2 e; rewrite [RHS]mulmxA -e !mulmxA.
Qed.
End Rotations.
End Virtual.

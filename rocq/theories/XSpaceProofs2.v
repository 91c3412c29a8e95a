(** Proofs: the exact connected part, the sites of the displacements, the examples with free quarks on two sites. *)
From Coq Require Import ZArith Ring.
From mathcomp Require Import all_ssreflect all_algebra.
From Verif Require Import GaugeModel GaugeSpec GaugeProofs GaugeProofs2 GaugeProofs3 LoopModel LoopGrid GammaModel GammaSpec GammaProofs DiracModel DiracSpec DiracProofs DiracProofs2.
From Verif Require Import StochModel StochSpec StochProofs StochProofs2 StochProofs3 StochProofs4 MesonModel MesonSpec MesonProofs MesonProofs2 MesonProofs3 MesonProofs4 XSpaceModel XSpaceSpec XSpaceProofs.
Import GRing.Theory Num.Theory.
Set Implicit Arguments.
Unset Strict Implicit.
Unset Printing Implicit Defensive.
Local Open Scope ring_scope.

Section Site.
Variable G : grid.
Lemma site_atP (k : displacement) (x : G) : (forall mu : 'I_4, coord x mu = modulus (component k mu) (ext G mu)) -> site_at G k = Some x.
Proof.
move=> h; rewrite /site_at; case: pickP => [y /forallP hy|/(_ x)/forallP []]; last by move=> mu; rewrite h.
by congr Some; apply: coord_inj => mu; rewrite h (eqP (hy mu)).
Qed.
Lemma modulusE c m : (2 <= m)%N -> (c <= 3)%N -> modulus c m = (c %% m)%N.
Proof.
move=> m2 c3; rewrite /modulus; case: leqP => h; last by rewrite modn_small.
rewrite -{2}(subnK h) modnDr modn_small // (leq_ltn_trans (leq_sub2l _ m2)) //; apply: leq_trans m2.
by rewrite ltnS leq_subLR.
Qed.
Lemma component_le k (mu : 'I_4) : k \in coordinates -> (component k mu <= 3)%N.
Proof.
by rewrite !inE => h; move: mu; apply: ord4P; move: h; do ?[case/orP]; move=> /eqP ->.
Qed.
Lemma site_translation (o : G) k : (forall mu, coord o mu = 0%N) -> (forall mu, (2 <= ext G mu)%N) -> k \in coordinates ->
  site_at G k = Some (translation (fun mu => component k mu) o).
Proof. by move=> o0 e2 kc; apply: site_atP => mu; rewrite coord_translation o0 add0n modulusE // component_le. Qed.
Lemma site_none k (mu : 'I_4) : (ext G mu <= component k mu - ext G mu)%N -> (0 < ext G mu)%N -> site_at G k = None.
Proof.
move=> h p; rewrite /site_at; case: pickP => // y /forallP/(_ mu)/eqP e; have lt := coord_lt y mu; rewrite e /modulus in lt.
case: (leqP (ext G mu) (component k mu)) lt => [_|lt'] lt; first by rewrite ltnNge h in lt.
by move: h; rewrite (eqP (ltnW lt')) leqNgt p.
Qed.
End Site.

Section Exact.
Variable C : numClosedFieldType.
Variable n : nat.
Variable G : grid.
Add Ring CXs2 : (Crth C).
Notation field := (G -> 'I_4 -> 'I_n -> C) (only parsing).
Variables D S : field -> field.
Hypothesis linD : linear_on D.
Hypothesis sol : solves D S.
Variable o : G.
Hypothesis o0 : forall mu, coord o mu = 0%N.
Hypothesis herm : forall v w, inner v (g5 (D w)) = inner (g5 (D v)) w.
Lemma exactE m x : (m < 16)%N -> (0 < n)%N ->
  exact_at S m x = \sum_c \sum_d \tr (spin C m *m prop S o x c d *m spin C m *m (prop S x o c d)^T).
Proof.
move=> m16 n0; rewrite /exact_at chroma_spin //; move: (spin C m) => M.
have inv al c mu d : inverse_full S al c x mu d = prop S x o d c mu al := propagatorE linD sol o0 al c x mu d.
have back c d al mu : sgn C al * sgn C mu * (prop S x o d c mu al)^* = prop S o x c d al mu.
  rewrite (prop_back sol o herm) g5mE mul_mx_diag mul_diag_mx !mxE.
  move: (sgn C al) (sgn C mu) (_^*) => a b z; cring_fold C; ring.
transitivity (\sum_(rho < 4) \sum_c \sum_(al < 4) \sum_(mu < 4) \sum_(nu < 4) \sum_d
   M rho al * M mu nu * (prop S o x c d al mu * (prop S x o c d)^T nu rho)).
  do 6! [apply: eq_bigr => ? _]; rewrite !inv -back !mxE /sgn; do 2! case: ifP => _; cbv zeta.
  - move: (M _ _) (M _ _) ((element S _ _)^*) => a1 a2 a4; move: (element S _ _) => a3; cring_fold C; ring.
  - move: (M _ _) (M _ _) ((element S _ _)^*) => a1 a2 a4; move: (element S _ _) => a3; cring_fold C; ring.
  - move: (M _ _) (M _ _) ((element S _ _)^*) => a1 a2 a4; move: (element S _ _) => a3; cring_fold C; ring.
  - move: (M _ _) (M _ _) ((element S _ _)^*) => a1 a2 a4; move: (element S _ _) => a3; cring_fold C; ring.
rewrite exchange_big /=; apply: eq_bigr => c _.
rewrite exch4; apply: eq_bigr => d _; by rewrite tr4.
Qed.
End Exact.

Section Inverse.
Variable C : numClosedFieldType.
Variable n : nat.
Variable G : grid.
Notation field := (G -> 'I_4 -> 'I_n -> C) (only parsing).
(** Solving for the square of a Hermitian operator after multiplying by it. *)
Lemma invert_solves (D Q S2 : field -> field) : linear_on D -> (forall v, feq (Q v) (g5 (D v))) ->
  solves (fun v => Q (Q v)) S2 -> solves D (invert Q S2).
Proof.
move=> lD hQ s2; have lg := @lin_g5 C n G; have lgD := lin_comp lg lD.
have lQ : linear_on Q.
  split=> [v w h|al v w] x a c; first by rewrite !hQ; exact: lgD.1.
  by rewrite hQ lgD.2 /combine !hQ.
have inj v w : feq (Q v) (Q w) -> feq v w.
  move=> h x a c; have l2 := lin_comp lQ lQ.
  rewrite -(solve_left l2 s2 v) -(solve_left l2 s2 w); apply: (lin_solve l2 s2).1; exact: lQ.1.
move=> v; have h : feq (Q (invert Q S2 v)) (gamma5 v) by apply: inj => x a c; rewrite (s2 _ x a c).
have gK (u : field) : feq (g5 (g5 u)) u by move=> x a c; rewrite !g5E mulrA sgn2 mul1r.
move=> x a c; rewrite -gK; transitivity (g5 (Q (invert Q S2 v)) x a c); first by rewrite (lg.1 _ _ (hQ _)).
by rewrite (lg.1 _ _ h) (lg.1 _ _ (@g5_model C n G v)) gK.
Qed.
End Inverse.

(** Free quarks on two sites. *)
Section Two.
Variable C : numClosedFieldType.
Add Ring CXs3 : (Crth C).
Notation G := (box_grid 0 0 0 1).
Lemma prop2 n (x y : G) (c e : 'I_n) : prop (@solve2 C n) x y c e = ((c == e)%:R * (if x == y then 5%:R / 3%:R else 3%:R^-1)) *: 1%:M.
Proof.
apply/matrixP => a b; rewrite !mxE /element /solve2 /= /unit_field !xpair_eqE.
have -> : (sup d3 x == y) = ~~ (x == y).
  move: x y => [[[x0 x1] x2] x3] [[[y0 y1] y2] y3]; rewrite /= !xpair_eqE !ord1 !eqxx /=.
  by rewrite -!val_eqE /cyc_up /= inordK ?ltn_pmod //; move: x3 y3 => [[|[|?]] ?] [[|[|?]] ?].
case: (x == y) => /=; rewrite ?mulr0n ?mulr0 ?addr0 ?add0r -mulnb natrM; move: ((c == e)%:R : C) ((a == b)%:R : C) (3%:R^-1) => p q r; try move: 5%:R => s; cring_fold C; ring.
Qed.
Lemma loop2 n (M : 'M[C]_4) (x : G) : quark_loop (@solve2 C n) M x = n%:R * (5%:R / 3%:R) * \tr M.
Proof.
rewrite /quark_loop (eq_bigr (fun=> 5%:R / 3%:R * \tr M)).
  by rewrite sumr_const card_ord -mulr_natl mulrA.
by move=> c _; rewrite prop2 !eqxx mul1r -scalemxAr mulmx1 mxtraceZ.
Qed.
(** A gauge transformation at the second site. *)
Definition turn : 'M[C]_2 := \matrix_(a, b) (if a == b then 0 else if a == ord0 then 1 else -1).
Definition om2 (y : G) : 'M[C]_2 := if coord y d3 == 1%N then turn else 1%:M.
Lemma turn_unitary : unitary turn.
Proof.
rewrite /unitary; apply/matrixP => a b; rewrite !mxE big_ord_recl big_ord1 !mxE.
move: a b => [[|[|?]] ?] [[|[|?]] ?]; by rewrite //= ?rmorphN ?conjC0 ?conjC1 ?mulrNN ?mulr0 ?mul0r ?mulr1 ?addr0 ?add0r.
Qed.
Lemma turn_det : \det turn = 1.
Proof. by rewrite (expand_det_row _ ord0) big_ord_recl big_ord1 /cofactor !det_mx11 !mxE /= mul0r add0r !mul1r expr1 mulrNN mulr1. Qed.
Lemma om2_special y : unitary (om2 y) /\ \det (om2 y) = 1.
Proof. by rewrite /om2; case: ifP => _; split; rewrite ?turn_det ?det1 //; [exact: turn_unitary|exact: unitary1]. Qed.
Notation U2 := (@unit_links C 2 1).
Lemma prop_gauge S' (x y : G) (c e : 'I_2) : solves (dirac 16%:R^-1 (gauge_transform om2 U2)) S' ->
  prop S' x y c e = \sum_c' \sum_e' (om2 x c c' * (om2 y e e')^*) *: prop (@solve2 C 2) x y c' e'.
Proof.
move=> s'; have un z : unitary (om2 z) := (om2_special z).1.
have lD := lin_dirac 16%:R^-1 U2; have lD' := lin_dirac 16%:R^-1 (gauge_transform om2 U2).
have ch v : feq (change id 1%:M om2 v) (rotate om2 v) by move=> z a d; rewrite /change (spin1 (fun b => \sum_e om2 z d e * v z b e)).
rewrite (@prop_change C 2 G id 1%:M 1%:M om2 (@inj_id _) (mulmx1 _) un _ _ (@solve2 C 2) S' lD lD' (@solves2 C 2) s').
  by apply: eq_bigr => c' _; apply: eq_bigr => e' _; rewrite mulmx1 mul1mx.
by move=> v z a d; rewrite (dirac_ext _ _ (ch v)) dirac_gauge // ch.
Qed.
Variables (o x : G).
Hypothesis o0 : forall mu, coord o mu = 0%N.
Hypothesis x1 : forall mu, coord x mu = (mu == d3)%N.
Lemma xo : (x == o) = false.
Proof. by apply/negP => /eqP e; have := x1 d3; rewrite e o0. Qed.
Lemma xo' : (o == x) = false. Proof. by rewrite eq_sym xo. Qed.
Lemma nine : 9%:R^-1 = 3%:R^-1 * 3%:R^-1 :> C. Proof. by rewrite -invfM -natrM. Qed.
Lemma spin0 : spin C 0 = 1%:M.
Proof. by apply/matrixP => a b; rewrite !mxE; move: a b; apply: ord4P; apply: ord4P; rewrite /gc /zc /= ?mulr0 ?addr0. Qed.
Lemma trace_scalar (a b : C) : \tr (spin C 0 *m (a *: 1%:M) *m spin C 0 *m (b *: 1%:M)^T) = 4%:R * (a * b).
Proof. by rewrite spin0 mul1mx mulmx1 linearZ /= trmx1 -scalemxAl mul1mx scalerA mxtraceZ mxtrace1 mulrC. Qed.
Let k16 : 16%:R^-1 \is @Num.real C. Proof. by rewrite realV realn. Qed.
Lemma exact_free : exact_at (@solve2 C 2) 0 x = 4%:R * (2%:R / 9%:R).
Proof.
rewrite (exactE (lin_dirac _ _) (@solves2 C 2) o0 (fun v w => dirac_herm U2 v w k16)) //.
transitivity (\sum_(c < 2) \sum_(d < 2) 4%:R * ((c == d)%:R * 3%:R^-1 * ((c == d)%:R * 3%:R^-1)) : C).
  by apply: eq_bigr => c _; apply: eq_bigr => d _; rewrite !prop2 trace_scalar xo xo'.
rewrite !big_ord_recl !big_ord0 /= nine n2.
move: (4%:R) (3%:R^-1) => a b; rewrite mulr1n mulr0n; cring_fold C; ring.
Qed.
Lemma exact_turned S' : solves (dirac 16%:R^-1 (gauge_transform om2 U2)) S' -> exact_at S' 0 x = - (4%:R * (2%:R / 9%:R)).
Proof.
move=> s'; rewrite (exactE (lin_dirac _ _) s' o0 (fun v w => dirac_herm _ v w k16)) //.
have oo : om2 o = 1%:M by rewrite /om2 o0.
have ox : om2 x = turn by rewrite /om2 x1.
have p1 c d : prop S' x o c d = (turn c d / 3%:R) *: 1%:M.
  rewrite (prop_gauge _ _ _ _ s') (bigD1 d) //= [X in _ + X]big1 ?addr0 => [|c' ne].
    rewrite (bigD1 d) //= [X in _ + X]big1 ?addr0 => [|e' ne]; last by rewrite prop2 eq_sym (negPf ne) mul0r scale0r scaler0.
    by rewrite prop2 eqxx xo scalerA ox oo !mxE eqxx conjC1 mulr1 mul1r.
  rewrite big1 // => e' _; rewrite prop2 oo mxE; case: (d =P e') => [<-|_]; first by rewrite (negPf ne) mul0r scale0r scaler0.
  by rewrite conjC0 mulr0 scale0r.
have p2 c d : prop S' o x c d = ((turn d c)^* / 3%:R) *: 1%:M.
  rewrite (prop_gauge _ _ _ _ s') (bigD1 c) //= [X in _ + X]big1 ?addr0 => [|c' ne].
    rewrite (bigD1 c) //= [X in _ + X]big1 ?addr0 => [|e' ne]; last by rewrite prop2 eq_sym (negPf ne) mul0r scale0r scaler0.
    by rewrite prop2 eqxx xo' scalerA ox oo !mxE eqxx mul1r mul1r.
  by rewrite big1 // => e' _; rewrite oo mxE eq_sym (negPf ne) mul0r scale0r.
transitivity (\sum_(c < 2) \sum_(d < 2) 4%:R * ((turn d c)^* / 3%:R * (turn c d / 3%:R))).
  by apply: eq_bigr => c _; apply: eq_bigr => d _; rewrite p1 p2 trace_scalar.
rewrite !big_ord_recl !big_ord0 !mxE /= nine n2 rmorphN conjC0 conjC1.
move: (4%:R) (3%:R^-1) => a b; cring_fold C; ring.
Qed.
End Two.

(** The fundamental and the adjoint representation meet the hypotheses of nflavor_gradient; the two flavour action. *)
From Coq Require Import List.
From mathcomp Require Import all_ssreflect all_algebra.
From Verif Require Import GaugeModel GaugeSpec GaugeProofs GaugeProofs2 DiracModel DiracSpec DiracProofs DiracProofs2.
From Verif Require Import AdjModel AdjSpec AdjProofs5 FForceModel FForceSpec FForceProofs FForceProofs2 FForceProofs3 FForceProofs4.
Import Order.POrderTheory GRing.Theory Num.Theory.
Set Implicit Arguments.
Unset Strict Implicit.
Unset Printing Implicit Defensive.
Local Open Scope ring_scope.

Section Two.
Variable C : numClosedFieldType.
Variable N : nat.
Hypothesis N0 : (0 < N)%N.
Notation G := (generators C N).
Notation d := (N * N - 1)%N.
Lemma fund_algebra P : \tr P = 0 -> rep_algebra (fundamental C N) P = P.
Proof. by move=> h; rewrite [RHS](G_expand N0 h). Qed.
Lemma fund_moved (U P : 'M[C]_N) (e : C) : unitary U -> anti_hermitian P -> traceless P -> e \is Num.real ->
  rep_link (fundamental C N) (U + e *: (P *m U))
  = rep_link (fundamental C N) U + e *: (rep_algebra (fundamental C N) P *m rep_link (fundamental C N) U + e *: 0).
Proof. by move=> _ _ t _; rewrite fund_algebra //= scaler0 addr0. Qed.

Lemma adj_entry (a i j : 'I_d) : adjoint_generator C N a i j = 2%:R * \tr (G`_i *m (G`_a *m G`_j - G`_j *m G`_a)).
Proof. by rewrite (adjgen_commutes C (ltn_ord a)) G_coeff. Qed.
Lemma tr_conj (A : 'M[C]_N) : (\tr A)^* = \tr (htrans A).
Proof. by rewrite /mxtrace rmorph_sum; apply: eq_bigr => i _; rewrite !mxE. Qed.
Lemma adj_herm (a : 'I_d) : htrans (adjoint_generator C N a) = adjoint_generator C N a.
Proof.
apply/matrixP => i j; rewrite [LHS]mxE [X in X = _]mxE !adj_entry rmorphM rmorph_nat tr_conj; congr (_ * _).
rewrite htransM htransB !htransM !G_herm // mulmxBl mulmxBr !(raddfB (mxtrace_additive _ _)) /=.
by rewrite -!mulmxA; congr (_ - _); rewrite mulmxA mxtrace_mulC ?mulmxA // mxtrace_mulC mulmxA.
Qed.
Lemma adj_unitary (U : 'M[C]_N) : unitary U -> unitary (to_adjoint U).
Proof.
move=> h; have [re o _] := adjoint_orthogonal N0 h; rewrite /unitary -[RHS]o; congr (_ *m _).
by apply/matrixP => i j; rewrite !mxE (CrealP (re _ _)).
Qed.
Definition adj_second (P U : 'M[C]_N) : 'M[C]_d :=
  \matrix_(i, j) (- (2%:R * 'Re (\tr (G`_i *m (P *m (U *m G`_j *m htrans U) *m P))))).
Lemma ReZ (e z : C) : e \is Num.real -> 'Re (e * z) = e * 'Re z.
Proof. by move=> eR; rewrite !ReE rmorphM /= (CrealP eR) -mulrDr mulrA. Qed.
Lemma adj_moved (U P : 'M[C]_N) (e : C) : unitary U -> anti_hermitian P -> traceless P -> e \is Num.real ->
  rep_link (adjoint C N) (U + e *: (P *m U))
  = rep_link (adjoint C N) U + e *: (rep_algebra (adjoint C N) P *m rep_link (adjoint C N) U + e *: adj_second P U).
Proof.
move=> uU aP tP eR /=; apply/matrixP => i j.
have hP : htrans P = - P by rewrite -aP daggerE.
pose H := U *m G`_j *m htrans U.
have hH : htrans H = H by rewrite /H !htransM htransK G_herm // mulmxA.
have E1 : (U + e *: (P *m U)) *m G`_j *m htrans (U + e *: (P *m U)) = H + e *: (P *m H - H *m P) - (e * e) *: (P *m H *m P).
  rewrite htransD htransZ (CrealP eR) htransM hP mulmxN scalerN mulmxBr !mulmxDl -!(scalemxAl, scalemxAr) -!mulmxA.
  by rewrite /H -!mulmxA scalerBr scalerA opprD !addrA.
have KE : P *m H - H *m P = \sum_l (rep_algebra (adjoint C N) P *m to_adjoint U) l j *: G`_l.
  have -> : H = \sum_k to_adjoint U k j *: G`_k by rewrite /H -daggerE; exact: (adjoint_acts N0 uU j).
  rewrite {1 2}(G_expand N0 tP) mulmx_sumr mulmx_suml -sumrB.
  under eq_bigr => k _.
    rewrite -scalemxAr -scalemxAl -scalerBr mulmx_suml mulmx_sumr -sumrB.
    under eq_bigr => a _ do rewrite -scalemxAr -scalemxAl -scalerBr (adjgen_commutes C (ltn_ord a)) scaler_sumr.
    rewrite exchange_big scaler_sumr /=.
    over.
  rewrite exchange_big /=; apply: eq_bigr => l _.
  rewrite mxE scaler_suml; apply: eq_bigr => k _.
  rewrite /rep_algebra summxE mulr_suml scaler_suml scaler_sumr; apply: eq_bigr => a _.
  rewrite [(_ *: rep_gen _ _) _ _]mxE !scalerA; congr (_ *: _); by rewrite -mulrA mulrC.
have KR : \tr (G`_i *m (P *m H - H *m P)) \is Num.real.
  apply/CrealP; rewrite tr_conj htransM G_herm // htransB (htransM P H) (htransM H P) hH hP mulNmx mulmxN opprK addrC mxtrace_mulC //.
have E2 : (rep_algebra (adjoint C N) P *m to_adjoint U) i j = 2%:R * 'Re (\tr (G`_i *m (P *m H - H *m P))).
  by rewrite (Creal_ReP _ KR) KE G_coeff.
have Hl W : G`_i *m W *m G`_j *m dagger W = G`_i *m (W *m G`_j *m htrans W) by rewrite daggerE !mulmxA.
have ent (A B D : 'M[C]_d) : (A + e *: (B + e *: D)) i j = A i j + e * (B i j + e * D i j) by rewrite !mxE.
rewrite ent adjoint_entry Hl E1 adjoint_entry Hl E2 [adj_second _ _ _ _]mxE -/H.
move: (P *m H - H *m P) (P *m H *m P) => K S.
rewrite mulmxBr mulmxDr -!scalemxAr (raddfB (mxtrace_additive _ _)) /= mxtraceD !mxtraceZ.
rewrite (raddfB (Re_additive C)) (raddfD (Re_additive C)) /= !ReZ ?realM //.
rewrite mulrBr mulrDr -addrA; congr (_ + _); rewrite mulrDr; congr (_ + _); first by rewrite mulrCA.
by rewrite !mulrN mulrCA -mulrA.
Qed.
End Two.

Section Gradient.
Variable C : numClosedFieldType.
Variable N : nat.
Hypothesis N0 : (0 < N)%N.
Variable L : lattice.
Variable kappa : C.
Hypothesis kR : kappa \is Num.real.
Variable flip : L -> 'I_4 -> bool.
Variables (U P : gauge C N L).
Hypothesis uU : forall x mu, unitary (U x mu).
Hypothesis aP : forall x mu, anti_hermitian (P x mu).
Hypothesis tP : forall x mu, traceless (P x mu).
Lemma fundamental_gradient action run :
  well_posed kappa (fermion_links (fundamental C N) flip U) action ->
  solved kappa (fermion_links (fundamental C N) flip U) action run ->
  is_gradient kappa (fundamental C N) flip U P action run (nflavor_force (fundamental C N) kappa flip U run).
Proof.
move=> wp sv; apply: (nflavor_gradient N0 (second := fun _ _ => 0)) => //.
- exact: G_herm.
- exact: fund_moved.
Qed.
Lemma adjoint_gradient action run :
  well_posed kappa (fermion_links (adjoint C N) flip U) action ->
  solved kappa (fermion_links (adjoint C N) flip U) action run ->
  is_gradient kappa (adjoint C N) flip U P action run (nflavor_force (adjoint C N) kappa flip U run).
Proof.
move=> wp sv; apply: (nflavor_gradient N0 (second := @adj_second C N)) => //.
- exact: adj_herm.
- exact: adj_unitary.
- exact: adj_moved.
Qed.
End Gradient.

Section Positive.
Variable C : numClosedFieldType.
Variables (n : nat) (L : lattice).
Variable kappa : C.
Hypothesis kR : kappa \is Num.real.
Notation field := (L -> 'I_4 -> 'I_n -> C) (only parsing).
Lemma regular_positive (V : L -> 'I_4 -> 'M[C]_n) b : 0 < b -> regular kappa V b.
Proof.
move=> b0 v h; apply: inner_eq0.
have E : inner (hermitian_dirac kappa V v) (hermitian_dirac kappa V v) + b * inner v v = 0.
  rewrite -(Q_herm kR) -[RHS](_ : inner v (fun _ _ _ => 0) = 0); last first.
    by rewrite /inner big1 // => x _; rewrite big1 // => a _; rewrite big1 // => c _; rewrite mulr0.
  rewrite -(inner_ext (v := v) (fun _ _ _ => erefl) h) /shifted /inner mulr_sumr -big_split; apply: eq_bigr => x _.
  rewrite mulr_sumr -big_split; apply: eq_bigr => a _; rewrite mulr_sumr -big_split; apply: eq_bigr => c _ /=.
  by rewrite mulrDr [b * _]mulrCA.
have p : 0 <= b * inner v v by rewrite mulr_ge0 ?inner_ge0 // ltW.
have z : b * inner v v = 0.
  by apply/eqP; rewrite eq_le p andbT -E ler_addr inner_ge0.
by move/eqP: z; rewrite mulf_eq0 gt_eqF //= => /eqP.
Qed.
Lemma regular_square (V : L -> 'I_4 -> 'M[C]_n) :
  (forall v, feq (hermitian_dirac kappa V v) (fun _ _ _ => 0) -> feq v (fun _ _ _ => 0)) -> regular kappa V 0.
Proof.
by move=> inj v h; apply/inj/inj => x a c; rewrite -[RHS](h x a c) /shifted mul0r addr0.
Qed.
Lemma action_real (V : L -> 'I_4 -> 'M[C]_n) action run : well_posed kappa V action -> solved kappa V action run ->
  action_value run \is Num.real.
Proof.
elim: action run => [|p l IH] run wp h0.
  by rewrite (F2_nil h0) /action_value big_nil real0.
have [q [l' [-> [pq ts] H]]] := F2_cons h0.
rewrite /action_value big_cons realD //; last by apply: IH (Forall_inv_tail wp) H.
move: (Forall_inv wp) ts; rewrite pq; elim: (p.2) (q.2) => [|ab s IHs] s' w h1.
  by rewrite (F2_nil h1) big_nil real0.
have [t [m [-> [ta sX] h2]]] := F2_cons h1.
rewrite big_cons realD //; last by apply: IHs (Forall_inv_tail w) h2.
have [aR bR _] := Forall_inv w; rewrite ta realM //.
rewrite -(inner_ext sX (fun _ _ _ => erefl)).
have -> : inner (shifted kappa V ab.2 t.2) t.2
  = inner (hermitian_dirac kappa V t.2) (hermitian_dirac kappa V t.2) + ab.2 * inner t.2 t.2.
  rewrite (Q_herm kR) /shifted /inner mulr_sumr -big_split; apply: eq_bigr => x _.
  rewrite mulr_sumr -big_split; apply: eq_bigr => a _; rewrite mulr_sumr -big_split; apply: eq_bigr => c _ /=.
  by rewrite rmorphD rmorphM /= (CrealP bR) mulrDl mulrA.
by rewrite realD ?realM // ger0_real ?inner_ge0.
Qed.
End Positive.

Section TwoFlavor.
Variable C : numClosedFieldType.
Variables N n : nat.
Variable L : lattice.
Variable r : representation C N n.
Variable kappa : C.
Hypothesis kR : kappa \is Num.real.
Notation field := (L -> 'I_4 -> 'I_n -> C) (only parsing).
Implicit Types X Y phi : field.
Lemma two_solved V phi X Y : two_solves kappa V phi X Y -> solved kappa V [:: (phi, [:: (1, 0)])] [:: (phi, [:: (1, X)])].
Proof.
move=> [hY hX]; constructor; last constructor; split=> //=; constructor; last constructor; split=> //= x a c.
by rewrite /shifted /= mul0r addr0 -hY; apply: hermitian_ext.
Qed.
Lemma two_unsolved V phi run : solved kappa V [:: (phi, [:: (1, 0)])] run -> exists X Y, two_solves kappa V phi X Y.
Proof.
move=> h; have [q [l [_ [_ h1] _]]] := F2_cons h; have [t [m [_ [_ sX] _]]] := F2_cons h1.
exists t.2, (hermitian_dirac kappa V t.2); split=> // x a c.
by rewrite -[RHS](sX x a c) /shifted /= mul0r addr0.
Qed.
Lemma two_energy V phi X Y : two_solves kappa V phi X Y -> two_flavor_energy Y = nflavor_energy [:: (phi, [:: (1, X)])].
Proof.
move=> [hY hX]; rewrite energyE /action_value !big_seq1 /= mul1r /two_flavor_energy squared_normE.
rewrite -(inner_ext hY (fun _ _ _ => erefl)) -(Q_herm kR) (inner_ext (v := Y) (fun _ _ _ => erefl) hX).
by apply/esym/Creal_ReP; rewrite ger0_real ?inner_ge0.
Qed.
Lemma fermion_forceN U D : fermion_force r U (- D) = - fermion_force r U D.
Proof.
rewrite /fermion_force -sumrN; apply: eq_bigr => i _.
by rewrite !mulNmx (raddfN (mxtrace_additive _ _)) /= (raddfN (Im_additive C)) /= mulrN scaleNr.
Qed.
(** The force is that of the general action, with the wrong sign on the links with changed sign. *)
Lemma two_force flip (U : gauge C N L) phi X Y x mu : two_solves kappa (fermion_links r flip U) phi X Y ->
  two_flavor_force r kappa flip U X Y x mu
  = flip_links flip (nflavor_force r kappa flip U [:: (phi, [:: (1, X)])]) x mu.
Proof.
move=> [hY hX]; rewrite /two_flavor_force /nflavor_force /flip_links nflavor_derivativeE !big_seq1 /= scale1r.
rewrite (derivative_ext _ _ _ _ _ (Y' := hermitian_dirac kappa (fermion_links r flip U) X)); last by move=> y a c; rewrite hX.
by case: (flip x mu); rewrite ?opprK ?fermion_forceN ?opprK.
Qed.
(** With no changed signs the two flavour force is the gradient. *)
Lemma two_of_n flip (U P : gauge C N L) phi X Y F F' :
  two_solves kappa (fermion_links r flip U) phi X Y ->
  is_gradient kappa r flip U P [:: (phi, [:: (1, 0)])] [:: (phi, [:: (1, X)])] F ->
  (forall x mu, F x mu = F' x mu) -> is_two_flavor_gradient kappa r flip U P phi Y F'.
Proof.
move=> sv [eps [K [e0 K0 H]]] E; exists eps, K; split=> // e eR le; have [[run ex] b] := H e eR le.
split; first exact: two_unsolved ex.
move=> X' Y' sv'; have := b _ (two_solved sv'); rewrite -(two_energy sv) -(two_energy sv').
by under [X in e * X]eq_bigr => x _ do under eq_bigr => mu _ do rewrite E.
Qed.
(** Two different forces cannot both be the gradient. *)
Lemma two_unique flip (U P : gauge C N L) phi X Y F F' :
  two_solves kappa (fermion_links r flip U) phi X Y ->
  is_two_flavor_gradient kappa r flip U P phi Y F -> is_two_flavor_gradient kappa r flip U P phi Y F' ->
  \sum_x \sum_(mu < 4) 2%:R * retr (P x mu *m F x mu) = \sum_x \sum_(mu < 4) 2%:R * retr (P x mu *m F' x mu).
Proof.
move=> sv [r1 [K1 [p1 k1 H1]]] [r2 [K2 [p2 k2 H2]]].
set s := (X in X = _); set s' := (X in _ = X).
apply/eqP; rewrite -subr_eq0; apply/negPn/negP => ne.
pose D := `|s - s'|; have Dp : 0 < D by rewrite normr_gt0.
have rp : 0 < r1 + r2 by rewrite addr_gt0.
have [q [qp q1 q2]] : exists q, [/\ 0 < q, q <= r1 & q <= r2].
  exists (r1 * r2 / (r1 + r2)); split; first by apply: divr_gt0 => //; apply: mulr_gt0.
    by rewrite ler_pdivr_mulr // mulrDr ler_addr mulr_ge0 // ltW.
  by rewrite ler_pdivr_mulr // mulrDr mulrC ler_addl mulr_ge0 // ltW.
have [K KE Kp] : exists2 K, K = K1 + K2 & 0 <= K by exists (K1 + K2); rewrite ?addr_ge0.
have Dge : 0 <= D by apply: ltW.
have qge : 0 <= q by apply: ltW.
have [e [ep eq_ eK]] : exists e, [/\ 0 < e, e <= q & e * K < D].
  clear - Dp qp Kp Dge qge; move: D q K Dp qp Kp Dge qge => D q K Dp qp Kp Dge qge.
  have yp : 0 < D + q * K by rewrite ltr_paddr // mulr_ge0.
  exists (q * D / (D + q * K + D)).
  have zp : 0 < D + q * K + D by rewrite addr_gt0.
  split; first by apply: divr_gt0 => //; apply: mulr_gt0.
    by rewrite ler_pdivr_mulr // ler_pmul2l // ler_addr ltW.
  by rewrite mulrAC ltr_pdivr_mulr // mulrAC [q * K * D]mulrC ltr_pmul2l // addrAC ltr_addr addr_gt0.
have eR : e \is Num.real by rewrite gtr0_real.
have ee : `|e| = e by rewrite gtr0_norm.
have [[X' [Y' sv']] b1] := H1 e eR (le_trans (eq_ind_r (fun t => t <= q) eq_ ee) q1).
have [_ b2] := H2 e eR (le_trans (eq_ind_r (fun t => t <= q) eq_ ee) q2).
have := ler_add (b1 _ _ sv') (b2 _ _ sv'); rewrite -/s -/s' -mulrDr ee.
set y := two_flavor_energy Y' - two_flavor_energy Y => bb.
rewrite -KE in bb; have : e * D <= e ^+ 2 * K.
  apply: le_trans bb; rewrite -{1}ee -normrM mulrBr.
  rewrite (_ : e * s - e * s' = (y + e * s) - (y + e * s')); last by rewrite opprD addrACA subrr add0r.
  exact: ler_norm_sub.
by rewrite expr2 -mulrA ler_pmul2l // => h; have := le_lt_trans h eK; rewrite ltxx.
Qed.
End TwoFlavor.

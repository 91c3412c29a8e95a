(** The eight terms of the clover force are the change of the clover term with the links. *)
From Coq Require Import List Ring.
From mathcomp Require Import all_ssreflect all_algebra.
From Verif Require Import GaugeModel GaugeSpec GaugeProofs GaugeProofs2 GammaModel DiracModel DiracSpec DiracProofs DiracProofs2.
From Verif Require Import CloverModel CloverSpec CloverProofs2 FForceModel FForceSpec FForceProofs VecProofs FForceProofs2 FForceProofs3.
From Verif Require Import CForceModel CForceSpec CForceProofs CForceProofs3.
Import Order.POrderTheory GRing.Theory Num.Theory.
Set Implicit Arguments.
Unset Strict Implicit.
Unset Printing Implicit Defensive.
Local Open Scope ring_scope.

Section Eight.
Variable C : numClosedFieldType.
Add Ring Cring_eight : (Crth C).
Variable n : nat.
Variable L : lattice.
Notation field := (L -> 'I_4 -> 'I_n -> C) (only parsing).
Notation links := (L -> 'I_4 -> 'M[C]_n) (only parsing).
Implicit Types (V W M : links) (X Y : field) (x : L) (mu nu : 'I_4) (m : terms C n L).

Definition lm m i x mu nu : 'M[C]_n := if i == 4%N then 1%:M else tm_left m i x mu nu.
Definition rm m i x mu nu : 'M[C]_n := if i == 0%N then 1%:M else tm_right m i x mu nu.
Lemma mulv1 (u : 'I_n -> C) : mulv 1%:M u =1 u.
Proof.
move=> c; rewrite /mulv (bigD1 c) //= mxE eqxx mul1r big1 ?addr0 // => b ne.
by rewrite mxE eq_sym (negPf ne) mul0r.
Qed.
Lemma on_leftE m i x mu nu u : on_left m i x mu nu u =1 mulv (lm m i x mu nu) u.
Proof. by move=> c; rewrite /on_left /lm; case: ifP => // _; rewrite mulv1. Qed.
Lemma on_rightE m i x mu nu u : on_right m i x mu nu u =1 mulv (rm m i x mu nu) u.
Proof. by move=> c; rewrite /on_right /rm; case: ifP => // _; rewrite mulv1. Qed.
Lemma tensor_ext (u u' w w' : 'I_n -> C) : u =1 u' -> w =1 w' -> tensor u w = tensor u' w'.
Proof. by move=> h h'; apply/matrixP => i j; rewrite !mxE h h'. Qed.
Lemma proj_spinorE (ikc : C) mu nu (w : 'I_4 -> 'I_n -> C) a c :
  proj_spinor ikc mu nu w a c = ikc * \sum_(b < 4) g5s C mu nu a b * w b c.
Proof.
rewrite /proj_spinor mulr_sumr big_mkcond; apply: eq_bigr => b _; rewrite /g5s.
by case: (altP eqP) => [->|_]; rewrite ?mul0r ?mulr0 // mulrA.
Qed.
Lemma vdotZ (k : C) (u w : 'I_n -> C) : vdot u (fun e => k * w e) = k * vdot u w.
Proof. by rewrite /vdot mulr_sumr; apply: eq_bigr => c _; rewrite mulrCA. Qed.
Lemma half_trace (ikc : C) m X Y x mu nu i y (A : 'M[C]_n) :
  \sum_(alpha < 4) \tr (tensor (on_right m i x mu nu (X y alpha)) (on_left m i x mu nu (proj_spinor ikc mu nu (Y y) alpha)) *m A)
  = ikc * bl X Y mu nu y (htrans (rm m i x mu nu) *m A *m lm m i x mu nu).
Proof.
rewrite /bl mulr_sumr; apply: eq_bigr => a _; rewrite -vdotZ.
rewrite (tensor_ext (on_rightE _ _ _ _ _ _) (on_leftE _ _ _ _ _ _)) trace_tensor vdot_adj; apply: vdot_ext => c.
by rewrite -mulvZ (mulv_ext _ (mulvM _ _ _)) mulvM mulmxA; apply: mulv_ext => e; rewrite proj_spinorE.
Qed.
Lemma loop_trace (ikc : C) m X Y x mu i (s : 'I_4 -> L) (A : 'M[C]_n) :
  \tr (clover_term_loop ikc m X Y x mu i s *m A) = ikc * \sum_(nu < 4)
    (bl X Y mu nu (s nu) (htrans (rm m i x mu nu) *m A *m lm m i x mu nu)
     + bl Y X mu nu (s nu) (htrans (rm m i x mu nu) *m A *m lm m i x mu nu)).
Proof.
rewrite /clover_term_loop mulmx_suml (raddf_sum (mxtrace_additive _ _)) /= mulr_sumr big_mkcond; apply: eq_bigr => nu _.
case: (altP eqP) => [->|_] /=; first by rewrite !bl_diag addr0 mulr0.
rewrite mulmx_suml (raddf_sum (mxtrace_additive _ _)) /= mulrDr -!half_trace -big_split; apply: eq_bigr => a _ /=.
by rewrite mulmxDl mxtraceD.
Qed.

Variables (V M : links).
Hypothesis uV : forall x mu, unitary (V x mu).
Hypothesis aM : forall x mu, anti_hermitian (M x mu).
Let W x mu := M x mu *m V x mu.
Let m := Terms (left_matrix V) (right_matrix V).
Lemma W_dagger x mu : htrans (W x mu) = - (htrans (V x mu) *m M x mu).
Proof. by rewrite /W htransM -[htrans (M x mu)]daggerE aM mulmxN. Qed.
Lemma W_right x mu : W x mu *m htrans (V x mu) = M x mu.
Proof. by rewrite /W -mulmxA unitary_r // mulmx1. Qed.
Lemma MVV (A : 'M[C]_n) x mu : A *m M x mu *m V x mu *m htrans (V x mu) = A *m M x mu.
Proof. by rewrite -mulmxA unitary_r // mulmx1. Qed.
(** What the loops put around the change of a link. *)
Definition around i x mu nu : 'M[C]_n := htrans (rm m i x mu nu) *m W x mu *m lm m i x mu nu.
Lemma around0 x mu nu : around 0%N x mu nu = W x mu *m V (sup mu x) nu *m htrans (V (sup nu x) mu) *m htrans (V x nu).
Proof. by rewrite /around /rm /lm /= (_ : htrans 1%:M = 1%:M) ?mul1mx ?mulmxA //; apply/matrixP => i j; rewrite !mxE eq_sym; case: eqP; rewrite ?conjC1 ?conjC0. Qed.
Lemma around1 x mu nu : - around 1%N x mu nu
  = htrans (V (sdn nu x) nu) *m V (sdn nu x) mu *m V (sup mu (sdn nu x)) nu *m htrans (W x mu).
Proof.
rewrite /around /rm /lm /= -mulmxA W_right W_dagger mulmxN !(htransM, htransK) !mulmxA.
by rewrite sup_sdnC.
Qed.
Lemma around2 x mu nu : around 2%N x mu nu
  = htrans (V x nu) *m W x mu *m V (sup mu x) nu *m htrans (V (sup nu x) mu).
Proof. by rewrite /around /rm /lm /= !mulmxA. Qed.
Lemma around3 x mu nu : - around 3%N x mu nu
  = V (sdn nu x) mu *m V (sup mu (sdn nu x)) nu *m htrans (W x mu) *m htrans (V (sdn nu x) nu).
Proof.
rewrite /around /rm /lm /= W_dagger mulmxN mulNmx !(htransM, htransK) sup_sdnC -!mulmxA; congr (- (_ *m (_ *m (_ *m _)))).
by rewrite [V x mu *m _]mulmxA unitary_r // mul1mx.
Qed.
Lemma around4 x mu nu : around 4%N x mu nu
  = V (sup mu x) nu *m htrans (V (sup nu x) mu) *m htrans (V x nu) *m W x mu.
Proof. by rewrite /around /rm /lm /= mulmx1 !(htransM, htransK) !mulmxA. Qed.
Lemma around5 x mu nu : - around 5%N x mu nu
  = htrans (W x mu) *m htrans (V (sdn nu x) nu) *m V (sdn nu x) mu *m V (sdn nu (sup mu x)) nu.
Proof. by rewrite /around /rm /lm /= W_dagger !mulNmx /W !mulmxA MVV. Qed.
Lemma around6 x mu nu : around 6%N x mu nu
  = htrans (V (sup nu x) mu) *m htrans (V x nu) *m W x mu *m V (sup mu x) nu.
Proof. by rewrite /around /rm /lm /= !(htransM, htransK) !mulmxA. Qed.
Lemma around7 x mu nu : - around 7%N x mu nu
  = V (sdn nu (sup mu x)) nu *m htrans (W x mu) *m htrans (V (sdn nu x) nu) *m V (sdn nu x) mu.
Proof. by rewrite /around /rm /lm /= W_dagger mulmxN !mulNmx !(htransM, htransK) /W !mulmxA MVV. Qed.

Lemma shift_sum (s t : L -> L) X Y mu nu (A : L -> 'M[C]_n) : cancel s t -> cancel t s ->
  \sum_x bl X Y mu nu (s x) (A x) = \sum_x bl X Y mu nu x (A (t x)).
Proof.
move=> st ts; rewrite (reindex t) /=; last by exists s => y _; rewrite ?st ?ts.
by apply: eq_bigr => x _; rewrite ts.
Qed.
Lemma perm8 (p0 p1 p2 p3 p4 p5 p6 p7 : 'M[C]_n) :
  p0 + p1 + p2 + p3 + p4 + p5 + p6 + p7 = p5 + p6 + (p2 + p1) + (p0 + p3) + (p7 + p4).
Proof.
apply/matrixP => i j; rewrite !mxE; move: (p0 i j) (p1 i j) (p2 i j) (p3 i j) (p4 i j) (p5 i j) (p6 i j) (p7 i j) => q0 q1 q2 q3 q4 q5 q6 q7.
by cring_fold C; ring.
Qed.
Lemma eight_terms X Y mu nu :
  \sum_x bl X Y mu nu x (around 0%N x mu nu) - \sum_x bl X Y mu nu x (around 1%N x mu nu)
  + \sum_x bl X Y mu nu (sup nu x) (around 2%N x mu nu) - \sum_x bl X Y mu nu (sdn nu x) (around 3%N x mu nu)
  + \sum_x bl X Y mu nu (sup mu x) (around 4%N x mu nu) - \sum_x bl X Y mu nu (sup mu x) (around 5%N x mu nu)
  + \sum_x bl X Y mu nu (sup nu (sup mu x)) (around 6%N x mu nu) - \sum_x bl X Y mu nu (sdn nu (sup mu x)) (around 7%N x mu nu)
  = \sum_x bl X Y mu nu x (leaves_first V W x mu nu).
Proof.
have neg (s t : L -> L) (A B : L -> 'M[C]_n) : cancel s t -> cancel t s -> (forall x, - A x = B x) ->
    - (\sum_x bl X Y mu nu (s x) (A x)) = \sum_x bl X Y mu nu x (B (t x)).
  move=> st ts E; rewrite -(shift_sum X Y mu nu B st ts) -sumrN; apply: eq_bigr => x _; by rewrite -blN E.
have pos (s t : L -> L) (A B : L -> 'M[C]_n) : cancel s t -> cancel t s -> (forall x, A x = B x) ->
    \sum_x bl X Y mu nu (s x) (A x) = \sum_x bl X Y mu nu x (B (t x)).
  move=> st ts E; rewrite -(shift_sum X Y mu nu B st ts); apply: eq_bigr => x _; by rewrite E.
have c1 : cancel (fun x : L => sup nu (sup mu x)) (fun x => sdn mu (sdn nu x)) by move=> x; rewrite !supK.
have c2 : cancel (fun x : L => sdn mu (sdn nu x)) (fun x => sup nu (sup mu x)) by move=> x; rewrite !sdnK.
have c3 : cancel (fun x : L => sdn nu (sup mu x)) (fun x => sdn mu (sup nu x)) by move=> x; rewrite !sdnK !supK.
have c4 : cancel (fun x : L => sdn mu (sup nu x)) (fun x => sdn nu (sup mu x)) by move=> x; rewrite !sdnK !supK.
rewrite (pos id id _ _ (fun _ => erefl) (fun _ => erefl) (fun x => around0 x mu nu)).
rewrite (neg id id _ _ (fun _ => erefl) (fun _ => erefl) (fun x => around1 x mu nu)).
rewrite (pos _ _ _ _ (supK nu) (sdnK nu) (fun x => around2 x mu nu)).
rewrite (neg _ _ _ _ (sdnK nu) (supK nu) (fun x => around3 x mu nu)).
rewrite (pos _ _ _ _ (supK mu) (sdnK mu) (fun x => around4 x mu nu)).
rewrite (neg _ _ _ _ (supK mu) (sdnK mu) (fun x => around5 x mu nu)).
rewrite (pos _ _ _ _ c1 c2 (fun x => around6 x mu nu)).
rewrite (neg _ _ _ _ c3 c4 (fun x => around7 x mu nu)).
rewrite -!big_split /=; apply: eq_bigr => x _; rewrite -!blD; congr (bl _ _ _ _ _ _); rewrite /leaves_first.
have -> : sdn mu (sdn nu x) = sdn nu (sdn mu x) := sdnC _ _ _.
have -> : sdn mu (sup nu x) = sup nu (sdn mu x) by rewrite sup_sdnC.
have -> : sup mu (sup nu (sdn mu x)) = sup nu x by rewrite supC sdnK.
rewrite !supK !(sup_sdnC mu nu) !(sdnK, supK); exact: perm8.
Qed.
Definition eight X Y x mu nu : C :=
  bl X Y mu nu x (around 0%N x mu nu) - bl X Y mu nu x (around 1%N x mu nu)
  + bl X Y mu nu (sup nu x) (around 2%N x mu nu) - bl X Y mu nu (sdn nu x) (around 3%N x mu nu)
  + bl X Y mu nu (sup mu x) (around 4%N x mu nu) - bl X Y mu nu (sup mu x) (around 5%N x mu nu)
  + bl X Y mu nu (sup nu (sup mu x)) (around 6%N x mu nu) - bl X Y mu nu (sdn nu (sup mu x)) (around 7%N x mu nu).
Lemma eight_sum X Y : \sum_x \sum_(mu < 4) \sum_(nu < 4) eight X Y x mu nu = first_sum V W X Y.
Proof.
rewrite /first_sum exchange_big [RHS]exchange_big /=; apply: eq_bigr => mu _.
rewrite exchange_big [RHS]exchange_big /=; apply: eq_bigr => nu _; rewrite -eight_terms.
by rewrite !(sumrB, big_split).
Qed.
Lemma eight8 (a a' b b' c c' d d' e e' f f' g g' h h' : C) :
  (a + a') - (b + b') + (c + c') - (d + d') + (e + e') - (f + f') + (g + g') - (h + h')
  = (a - b + c - d + e - f + g - h) + (a' - b' + c' - d' + e' - f' + g' - h').
Proof. by cring_fold C; ring. Qed.
Lemma force_trace k csw X Y x mu : \tr (clover_derivative k csw m V X Y x mu *m M x mu *m V x mu)
  = 4%:R^-1 * ('i * k * csw * \sum_(nu < 4) (eight X Y x mu nu + eight Y X x mu nu))
    + \tr (wilson_derivative k V X Y x mu *m M x mu *m V x mu).
Proof.
rewrite /clover_derivative -!mulmxA -/(W x mu) mulmxDl mxtraceD; congr (_ + _).
rewrite -scalemxAl mxtraceZ; congr (_ * _); rewrite add0r !(mulmxDl, mulNmx) !mxtraceD !(raddfN (mxtrace_additive _ _)) /=.
rewrite !loop_trace -!mulrN -!mulrDr; congr (_ * _); rewrite -!sumrN -!big_split /=; apply: eq_bigr => nu _.
exact: eight8.
Qed.
Lemma trace_clover k csw X Y : \sum_x \sum_(mu < 4) \tr (clover_derivative k csw m V X Y x mu *m M x mu *m V x mu)
  = k * csw * ('i / 4%:R * (first_sum V W X Y + first_sum V W Y X))
    + (- k * inner X (g5 (hopping W Y)) + - k * inner Y (g5 (hopping W X))).
Proof.
rewrite -(trace_derivative k X Y uV aM).
under eq_bigr => x _ do under eq_bigr => mu _ do rewrite force_trace.
under eq_bigr => x _ do rewrite big_split -!mulr_sumr /=.
rewrite big_split -!mulr_sumr /=; congr (_ + _).
under eq_bigr => x _ do under eq_bigr => mu _ do rewrite big_split /=.
under eq_bigr => x _ do rewrite big_split /=.
rewrite big_split /= !eight_sum; move: (first_sum _ _ _ _) (first_sum _ _ _ _) => p q.
by move: (4%:R^-1) ('i) => h i; cring_fold C; ring.
Qed.
Lemma inner_change k X Y : inner X (change k W Y) = - k * inner X (g5 (hopping W Y)).
Proof.
rewrite /inner mulr_sumr; apply: eq_bigr => x _; rewrite mulr_sumr; apply: eq_bigr => a _; rewrite mulr_sumr; apply: eq_bigr => c _.
exact: mulrCA.
Qed.
Lemma inner_slope k csw X Y : inner X (clover_slope k csw V W Y) = inner X (change k W Y)
  + k * csw * inner X (fun x a c => sgn C a * clover_op (strength_change V W) Y x a c).
Proof.
rewrite /inner mulr_sumr -big_split; apply: eq_bigr => x _; rewrite mulr_sumr -big_split; apply: eq_bigr => a _.
rewrite mulr_sumr -big_split; apply: eq_bigr => c _ /=; by rewrite /clover_slope mulrDr [_ * (k * csw * _)]mulrCA.
Qed.
Lemma change_herm k A X Y : k \is Num.real -> inner X (change k A Y) = inner (change k A X) Y.
Proof.
move=> kR; have E v w : inner v (change k A w) = inner v (hermitian_dirac k A w) - inner v (g5 w).
  apply/eqP; rewrite eq_sym subr_eq; apply/eqP; rewrite /inner -big_split; apply: eq_bigr => x _ /=.
  rewrite -big_split; apply: eq_bigr => a _ /=; rewrite -big_split; apply: eq_bigr => c _ /=.
  by rewrite QE -mulrDr addrC.
rewrite -[RHS]conjCK inner_conj !E rmorphB /= !inner_conj -(Q_herm kR) -g5_herm //.
Qed.
(** The real part of the trace with the force is the change of the operator between the two fields. *)
Lemma Re_trace k csw X Y : k \is Num.real -> csw \is Num.real ->
  'Re (\sum_x \sum_(mu < 4) \tr (clover_derivative k csw m V X Y x mu *m M x mu *m V x mu))
  = inner X (clover_slope k csw V W Y) + inner Y (clover_slope k csw V W X).
Proof.
move=> kR cR; rewrite trace_clover !inner_slope -!inner_change addrACA -mulrDr slope_clover.
rewrite (raddfD (Re_additive C)) /= addrC; congr (_ + _).
  apply/Creal_ReP/CrealP; rewrite rmorphD /= !inner_conj -!(change_herm W _ _ kR) addrC //.
have kc : k * csw \is Num.real by exact: realM.
by rewrite !ReE rmorphM /= (CrealP kc) -mulrDr -!mulrA.
Qed.
End Eight.

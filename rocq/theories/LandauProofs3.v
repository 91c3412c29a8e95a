(** The gluon propagator and the three gluon vertex. *)
From Coq Require Import Ring.
From mathcomp Require Import all_ssreflect all_algebra.
From Verif Require Import GaugeModel GaugeSpec GaugeProofs GaugeProofs2 GaugeProofs3 LoopModel AdjModel AdjSpec AdjProofs5 FixModel FixSpec FixProofs3 LandauModel LandauSpec LandauProofs.
Import GRing.Theory Num.Theory Order.POrderTheory.
Set Implicit Arguments.
Unset Strict Implicit.
Unset Printing Implicit Defensive.
Local Open Scope ring_scope.

(** Generators. *)
Section Basis.
Variable C : numClosedFieldType.
Variable N : nat.
Hypothesis N0 : (0 < N)%N.
Notation GG := 'M[C]_N.
Notation d := (N * N - 1)%N.
Notation T := (generators C N).
Implicit Types A B : GG.
Lemma genH (c : 'I_d) : htrans T`_c = T`_c.
Proof.
have [sz h _ _] := basis C N0; have [e _] := h T`_c (mem_nth 0 (eq_ind_r (fun m => (c < m)%N) (ltn_ord c) sz)).
by apply/matrixP => i j; rewrite !mxE -e.
Qed.
Lemma gen_tr (c : 'I_d) : \tr T`_c = 0.
Proof.
by have [sz h _ _] := basis C N0; have [_ e] := h T`_c (mem_nth 0 (eq_ind_r (fun m => (c < m)%N) (ltn_ord c) sz)).
Qed.
Lemma gen_on (a b : 'I_d) : \tr (T`_a *m T`_b) = (a == b)%:R / 2%:R.
Proof. by have [_ _ h _] := basis C N0; exact: h. Qed.
Lemma gen_coeff (f : 'I_d -> C) (b : 'I_d) : \tr ((\sum_a f a *: T`_a) *m T`_b) = f b / 2%:R.
Proof.
rewrite mulmx_suml tr_sum (bigD1 b) //= big1 ?addr0.
  by rewrite -scalemxAl mxtraceZ gen_on eqxx mul1r.
by move=> a ab; rewrite -scalemxAl mxtraceZ gen_on (negbTE ab) mul0r mulr0.
Qed.
Lemma gen_expand A : \tr A = 0 -> A = \sum_(a < d) (2%:R * \tr (A *m T`_a)) *: T`_a.
Proof.
move=> tA; have [_ _ _ h] := basis C N0; have [f e] := h A tA.
rewrite {1}e; apply: eq_bigr => a _; congr (_ *: _); rewrite e gen_coeff mulrC divfK ?pnatr_eq0 //.
Qed.
Lemma gen_parseval A B : \tr A = 0 -> \sum_(a < d) \tr (A *m T`_a) * \tr (B *m T`_a) = \tr (A *m B) / 2%:R.
Proof.
move=> tA; rewrite {2}(gen_expand tA) mulmx_suml tr_sum mulr_suml; apply: eq_bigr => a _.
by rewrite -scalemxAl mxtraceZ [\tr (_ *m B)]mxtrace_mulC -[2%:R * _ * _]mulrA [2%:R * _]mulrC mulfK ?pnatr_eq0.
Qed.
Lemma trHH A B : htrans A = A -> htrans B = B -> \tr (A *m B) \is Num.real.
Proof. by move=> hA hB; apply/CrealP; rewrite -tr_htrans htransM hA hB mxtrace_mulC. Qed.
End Basis.

Section Waves.
Variable C : numClosedFieldType.
Variable N : nat.
Hypothesis N0 : (0 < N)%N.
Add Ring Clandau3 : (Crth C).
Variable G : grid.
Variable half : 'I_4 -> C.
Hypothesis turn : half_turns G half.
Notation GG := 'M[C]_N.
Notation d := (N * N - 1)%N.
Notation T := (generators C N).
Implicit Types (x : G) (n : mode) (U : gauge C N G).
Lemma half2 mu : half mu ^+ (2 * ext G mu) = 1.
Proof. by rewrite mulnC exprM turn expr2 mulrNN mulr1. Qed.
Lemma half_norm mu : `|half mu| = 1.
Proof.
have e0 : (0 < ext G mu)%N.
  rewrite lt0n; apply/negP => /eqP e; have := turn mu; rewrite e expr0 => /eqP.
  by rewrite -subr_eq0 opprK -(natrD _ 1 1) pnatr_eq0.
have := congr1 Num.norm (turn mu); rewrite normrX normrN normr1 => /eqP.
by rewrite pexpr_eq1 // => /eqP.
Qed.
Lemma half_conj mu : half mu * (half mu)^* = 1.
Proof. by rewrite -normCK half_norm expr1n. Qed.
Lemma waveE n x : wave half n x = plane_wave half (fun mu => mode_at n mu) x.
Proof. by apply: eq_bigr => nu _; rewrite -exprM mulnA. Qed.
Lemma wave_sup n mu x : wave half n (sup mu x) = wave half n x * half mu ^+ (2 * mode_at n mu).
Proof.
rewrite /wave (bigD1 mu) //= [X in _ = X * _](bigD1 mu) //= mulrAC; congr (_ * _); last first.
  by apply: eq_bigr => nu ne; rewrite coord_other.
rewrite coord_up; set z := half mu ^+ (2 * mode_at n mu).
have z1 : z ^+ ext G mu = 1 by rewrite /z -exprM mulnAC exprM half2 expr1n.
rewrite exprM [X in _ = X * _]exprM -/z expr_mod // exprS mulrC //.
Qed.
Lemma wave_norm n x : wave half n x * (wave half n x)^* = 1.
Proof.
rewrite rmorph_prod -big_split /=; apply: big1 => nu _.
by rewrite rmorphX /= -exprMn half_conj expr1n.
Qed.
Lemma p_hatE n mu : p_hat half n mu = lattice_momentum half (fun mu => mode_at n mu) mu.
Proof.
rewrite /p_hat /lattice_momentum -LandauProofs.ImV mulrA invfM mulrA divff ?two0 // mul1r mulrC //.
Qed.
(** The Fourier transform. *)
Lemma AkE U n mu (c : nat) : Ak half U n mu c = \tr (fourier half (fun mu => mode_at n mu) U mu *m T`_c).
Proof.
rewrite /fourier mulmx_suml tr_sum; apply: eq_bigr => x _.
by rewrite -scalemxAl mxtraceZ /link_wave waveE lieE.
Qed.
Lemma AmkE U n mu (c : 'I_d) : Amk half U n mu c = (Ak half U n mu c)^*.
Proof.
rewrite /Ak rmorph_sum; apply: eq_bigr => x _; rewrite rmorphM /=; congr (_ * _).
by rewrite (conj_Creal _) // lieE; apply: trHH; [exact: potH|exact: genH].
Qed.
Lemma fourier_tr U k mu : \tr (fourier half k U mu) = 0.
Proof. by rewrite /fourier tr_sum big1 // => x _; rewrite mxtraceZ pot_tr ?mulr0. Qed.
Lemma fourier_expand U n mu : \sum_(c < d) Ak half U n mu c *: T`_c = 2%:R^-1 *: fourier half (fun mu => mode_at n mu) U mu.
Proof.
rewrite [in RHS](gen_expand N0 (fourier_tr U (fun mu => mode_at n mu) mu)) scaler_sumr; apply: eq_bigr => c _.
by rewrite scalerA mulrA mulVf ?two0 // mul1r AkE.
Qed.
Lemma transverse U n (c : 'I_d) : \sum_(mu < 4) p_hat half n mu * Ak half U n mu c = 'i * \sum_x wave half n x * \tr (div U x *m T`_c).
Proof.
transitivity (\sum_(mu < 4) 'i * \sum_x wave half n x * (\tr (lie_field U x mu *m T`_c) - \tr (lie_field U (sdn mu x) mu *m T`_c))).
  apply: eq_bigr => mu _; have e : p_hat half n mu * half mu ^+ mode_at n mu = 'i * (1 - half mu ^+ (2 * mode_at n mu)).
    rewrite p_hatE /lattice_momentum invCi mulrC mulrA mulrN -mulNr; set z := half mu ^+ _.
    have -> : half mu ^+ (2 * mode_at n mu) = z * z by rewrite mulnC exprM expr2.
    have zz : z * z^* = 1 by rewrite /z rmorphX -exprMn half_conj expr1n.
    by rewrite -zz; move: (z^* ) 'i => a b; cring_fold C; ring.
  have -> : p_hat half n mu * Ak half U n mu c = 'i * \sum_x (wave half n x - wave half n (sup mu x)) * \tr (lie_field U x mu *m T`_c).
    rewrite /Ak !big_distrr; apply: eq_bigr => x _; rewrite /= wave_sup /link_wave.
    have -> : p_hat half n mu * (wave half n x * half mu ^+ mode_at n mu * \tr (lie_field U x mu *m T`_c))
       = (p_hat half n mu * half mu ^+ mode_at n mu) * (wave half n x * \tr (lie_field U x mu *m T`_c)).
      move: (p_hat _ _ _) (wave _ _ _) (_ ^+ _) (\tr _) => *; cring_fold C; ring.
    by rewrite e; move: (wave _ _ _) (_ ^+ _) (\tr _) => *; cring_fold C; ring.
  congr (_ * _); under eq_bigr do rewrite mulrBl; under [in RHS]eq_bigr do rewrite mulrBr.
  rewrite !sumrB; congr (_ - _).
  by rewrite [RHS](reindex_inj (can_inj (supK (l:=G) mu))); apply: eq_bigr => x _; rewrite supK.
rewrite -big_distrr /=; congr (_ * _); rewrite exchange_big; apply: eq_bigr => x _ /=.
rewrite -big_distrr /=; congr (_ * _); rewrite /div mulmx_suml tr_sum; apply: eq_bigr => mu _.
by move: (lie_field U x mu) (lie_field U (sdn mu x) mu) => A B; rewrite mulmxBl trB.
Qed.
Lemma gluonE U n : gluon half U n = \sum_(mu < 4) \sum_(c < d) `|Ak half U n mu c| ^+ 2.
Proof.
apply: eq_bigr => mu _; apply: eq_bigr => c _; rewrite AmkE normCK.
by rewrite (Creal_ReP _ _) // -normCK rpredX // normr_real.
Qed.
Lemma gluon_position U n : gluon half U n = (\sum_(mu < 4) \sum_x \sum_y plane_wave half (fun mu => mode_at n mu) x * (plane_wave half (fun mu => mode_at n mu) y)^*
   * \tr (potential (U x mu) *m potential (U y mu))) / 2%:R.
Proof.
rewrite gluonE mulr_suml; apply: eq_bigr => mu _.
transitivity (\tr (fourier half (fun mu => mode_at n mu) U mu *m htrans (fourier half (fun mu => mode_at n mu) U mu)) / 2%:R).
  rewrite -gen_parseval // ?fourier_tr //; apply: eq_bigr => c _; rewrite normCK AkE; congr (_ * _).
  by rewrite -tr_htrans htransM genH // mxtrace_mulC.
congr (_ / _); rewrite /fourier mulmx_suml tr_sum; apply: eq_bigr => x _.
rewrite htrans_sum mulmx_sumr tr_sum; apply: eq_bigr => y _.
rewrite htransZ potH -scalemxAl -scalemxAr scalerA mxtraceZ; congr (_ * _).
rewrite rmorphM rmorphX /= mulrACA -exprMn half_conj expr1n mulr1 //.
Qed.
Lemma pot_conj (V A : GG) : unitary V -> potential (V *m A *m htrans V) = V *m potential A *m htrans V.
Proof.
move=> uV; rewrite !potE; have -> : \tr (V *m A *m htrans V) = \tr A by rewrite mxtrace_mulC mulmxA unitary_l // mul1mx.
rewrite mulmxBr mulmxBl mul_mx_scalar -scalemxAl unitary_r // scalemx1; congr (_ - _).
by rewrite !htransM htransK -scalemxAr -scalemxAl mulmxBr mulmxBl !mulmxA.
Qed.
Lemma gluon_global (V : GG) U n : unitary V -> gluon half (turned (fun _ => V) U) n = gluon half U n.
Proof.
move=> uV; rewrite !gluon_position; congr (_ / _).
apply: eq_bigr => mu _; apply: eq_bigr => x _; apply: eq_bigr => y _; congr (_ * _).
rewrite /turned daggerE !pot_conj // -!mulmxA [in LHS]mxtrace_mulC -!mulmxA.
by rewrite unitary_l // mulmx1 [htrans V *m _]mulmxA unitary_l // mul1mx.
Qed.
(** The vertex. *)
Lemma swap5 (k : nat) (F : 'I_k -> 'I_k -> 'I_k -> 'I_4 -> 'I_4 -> C) :
  \sum_(c1 < k) \sum_(c2 < k) \sum_(c3 < k) \sum_(mu1 < 4) \sum_(mu2 < 4) F c1 c2 c3 mu1 mu2
  = \sum_(mu1 < 4) \sum_(mu2 < 4) \sum_(c1 < k) \sum_(c2 < k) \sum_(c3 < k) F c1 c2 c3 mu1 mu2.
Proof.
have s4 (H : 'I_k -> 'I_k -> 'I_k -> 'I_4 -> C) : \sum_(c1 < k) \sum_(c2 < k) \sum_(c3 < k) \sum_(mu1 < 4) H c1 c2 c3 mu1
  = \sum_(mu1 < 4) \sum_(c1 < k) \sum_(c2 < k) \sum_(c3 < k) H c1 c2 c3 mu1.
  rewrite [RHS]exchange_big; apply: eq_bigr => c1 _; rewrite [RHS]exchange_big; apply: eq_bigr => c2 _; exact: exchange_big.
by rewrite s4; apply: eq_bigr => mu1 _; rewrite s4.
Qed.
Lemma comm_sum (I : finType) (f : I -> C) (t : I -> GG) (b : GG) : (\sum_i f i *: t i) *m b - b *m (\sum_i f i *: t i) = \sum_i f i *: (t i *m b - b *m t i).
Proof.
rewrite mulmx_suml mulmx_sumr -sumrB; apply: eq_bigr => i _.
by rewrite -scalemxAl -scalemxAr scalerBr.
Qed.
Lemma comm3 (f g h : 'I_d -> C) : \sum_(c1 < d) \sum_(c2 < d) \sum_(c3 < d) \tr ((T`_c1 *m T`_c2 - T`_c2 *m T`_c1) *m T`_c3) * f c1 * g c2 * h c3
  = \tr (((\sum_c f c *: T`_c) *m (\sum_c g c *: T`_c) - (\sum_c g c *: T`_c) *m (\sum_c f c *: T`_c)) *m (\sum_c h c *: T`_c)).
Proof.
rewrite comm_sum mulmx_suml tr_sum; apply: eq_bigr => c1 _.
rewrite -scalemxAl mxtraceZ.
have -> : T`_c1 *m (\sum_c g c *: T`_c) - (\sum_c g c *: T`_c) *m T`_c1 = \sum_c g c *: (T`_c1 *m T`_c - T`_c *m T`_c1).
  by rewrite -opprB comm_sum -sumrN; apply: eq_bigr => c _; rewrite -scalerN opprB.
rewrite mulmx_suml tr_sum big_distrr; apply: eq_bigr => c2 _ /=.
rewrite -scalemxAl mxtraceZ mulmx_sumr tr_sum !big_distrr; apply: eq_bigr => c3 _ /=.
rewrite -scalemxAr mxtraceZ; move: (\tr _) (f c1) (g c2) (h c3) => *; cring_fold C; ring.
Qed.
Lemma comm3' (f g h : 'I_d -> C) (A B D : GG) : \sum_(c < d) f c *: T`_c = A -> \sum_(c < d) g c *: T`_c = B -> \sum_(c < d) h c *: T`_c = D ->
  \sum_(c1 < d) \sum_(c2 < d) \sum_(c3 < d) \tr ((T`_c1 *m T`_c2 - T`_c2 *m T`_c1) *m T`_c3) * f c1 * g c2 * h c3 = \tr ((A *m B - B *m A) *m D).
Proof. by move=> <- <- <-; exact: comm3. Qed.
Lemma tr_comm3 (z : C) (A B D : GG) : \tr (((z *: A) *m (z *: B) - (z *: B) *m (z *: A)) *m (z *: D)) = z ^+ 3 * \tr ((A *m B - B *m A) *m D).
Proof.
have e (X Y : GG) : (z *: X) *m (z *: Y) = (z * z) *: (X *m Y) by rewrite -scalemxAl -scalemxAr scalerA.
rewrite !e -scalerBr -scalemxAr -scalemxAl scalerA mxtraceZ; congr (_ * _).
Qed.
Lemma Amk_expand U n mu : \sum_(c < d) Amk half U n mu c *: T`_c = 2%:R^-1 *: htrans (fourier half (fun mu => mode_at n mu) U mu).
Proof.
have -> : 2%:R^-1 *: htrans (fourier half (fun mu => mode_at n mu) U mu) = htrans (2%:R^-1 *: fourier half (fun mu => mode_at n mu) U mu).
  by rewrite htransZ fmorphV conjC_nat.
rewrite -fourier_expand htrans_sum; apply: eq_bigr => c _; by rewrite htransZ genH // AmkE.
Qed.
Lemma vertexE U n0 n : modulus half n != 0 -> vertex half U n0 n = Some (- 'i / (24%:R * modulus half n ^+ 2) *
  \sum_(mu1 < 4) \sum_(mu2 < 4) lattice_momentum half (fun mu => mode_at n mu) mu2 *
    \tr ((fourier half (fun mu => mode_at n mu) U mu1 *m fourier half (fun mu => mode_at n0 mu) U mu2
          - fourier half (fun mu => mode_at n0 mu) U mu2 *m fourier half (fun mu => mode_at n mu) U mu1)
         *m dagger (fourier half (fun mu => mode_at n mu) U mu1))).
Proof.
move=> m0; rewrite /vertex (negbTE m0); congr Some.
transitivity (\sum_(mu1 < 4) \sum_(mu2 < 4) (- (2%:R * 'i) * p_hat half n mu2 / (6%:R * modulus half n * modulus half n)) *
   \sum_(c1 < d) \sum_(c2 < d) \sum_(c3 < d) \tr ((T`_c1 *m T`_c2 - T`_c2 *m T`_c1) *m T`_c3) * Ak half U n mu1 c1 * Ak half U n0 mu2 c2 * Amk half U n mu1 c3).
  transitivity (\sum_(mu1 < 4) \sum_(mu2 < 4) \sum_(c1 < d) \sum_(c2 < d) \sum_(c3 < d)
    - (2%:R * 'i) * \tr ((T`_c1 *m T`_c2 - T`_c2 *m T`_c1) *m T`_c3) * Ak half U n mu1 c1 * Ak half U n0 mu2 c2 * Amk half U n mu1 c3
      * p_hat half n mu2 / (6%:R * modulus half n * modulus half n)).
    pose F c1 c2 c3 mu1 mu2 := - (2%:R * 'i) * \tr ((T`_c1 *m T`_c2 - T`_c2 *m T`_c1) *m T`_c3) * Ak half U n mu1 c1 * Ak half U n0 mu2 c2 * Amk half U n mu1 c3
      * p_hat half n mu2 / (6%:R * modulus half n * modulus half n).
    rewrite -/(\sum_(c1 < d) \sum_(c2 < d) \sum_(c3 < d) \sum_(mu1 < 4) \sum_(mu2 < 4) F c1 c2 c3 mu1 mu2).
    rewrite -/(\sum_(mu1 < 4) \sum_(mu2 < 4) \sum_(c1 < d) \sum_(c2 < d) \sum_(c3 < d) F c1 c2 c3 mu1 mu2).
    exact: swap5.
  apply: eq_bigr => mu1 _; apply: eq_bigr => mu2 _.
  rewrite [RHS]big_distrr; apply: eq_bigr => c1 _; rewrite /= [RHS]big_distrr; apply: eq_bigr => c2 _; rewrite /= [RHS]big_distrr; apply: eq_bigr => c3 _ /=.
  move: (_^-1) (Amk _ _ _ _ _) (Ak half U n mu1 c1) (Ak _ _ _ _ _) (\tr _) (p_hat _ _ _) (2%:R * 'i) => *; cring_fold C; ring.
rewrite big_distrr; apply: eq_bigr => mu1 _; rewrite /= big_distrr; apply: eq_bigr => mu2 _ /=.
rewrite (comm3' (fourier_expand U n mu1) (fourier_expand U n0 mu2) (Amk_expand U n mu1)) tr_comm3 p_hatE daggerE.
move: (\tr _) (lattice_momentum _ _ _) => t p.
have e24 : (24%:R * modulus half n ^+ 2)^-1 = 2%:R * (2%:R^-1) ^+ 3 / (6%:R * modulus half n * modulus half n) :> C.
  have -> : 24%:R = 2%:R * 2%:R * 2%:R * 3%:R :> C by rewrite -!natrM.
  have -> : 6%:R = 2%:R * 3%:R :> C by rewrite -natrM.
  rewrite !expr2 !exprS expr0 !invfM; have := divff (two0 C) : 2%:R / 2%:R = 1 :> C.
  move: (2%:R) (modulus half n)^-1 (2%:R^-1) (3%:R^-1) => u a v w uv.
  have -> : u * (v * (v * (v * 1))) * (v * w * a * a) = (u * v) * (v * v * v * w * (a * a)) by cring_fold C; ring.
  by rewrite uv mul1r.
rewrite e24; move: (6%:R * _ * _)^-1 (2%:R^-1 ^+ 3) => a b; move: 'i (2%:R) => u v; cring_fold C; ring.
Qed.
End Waves.

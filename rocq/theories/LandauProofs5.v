(** The ghost operator: zero modes, unit links, and the solver. *)
From Coq Require Import Ring.
From mathcomp Require Import all_ssreflect all_algebra.
From Verif Require Import GaugeModel GaugeSpec GaugeProofs GaugeProofs2 GaugeProofs3 LoopModel AdjModel AdjSpec AdjProofs5 FixModel FixSpec FixProofs3 LandauModel LandauSpec LandauProofs LandauProofs3 LandauProofs4.
Import GRing.Theory Num.Theory Order.POrderTheory.
Set Implicit Arguments.
Unset Strict Implicit.
Unset Printing Implicit Defensive.
Local Open Scope ring_scope.

Section Ghost.
Variable C : numClosedFieldType.
Add Ring Clandau5 : (Crth C).
Variable N : nat.
Hypothesis N0 : (0 < N)%N.
Variable G : grid.
Notation GG := 'M[C]_N.
Notation d := (N * N - 1)%N.
Notation T := (generators C N).
Notation field := (G -> 'I_d -> C).
Implicit Types (U : gauge C N G) (v w : field) (x y : G).

(** Constant fields. *)
Lemma re_comm (a b : 'I_d) (V : GG) : retr ((T`_a *m T`_b - T`_b *m T`_a) *m V) = 'i * \tr ((T`_a *m T`_b - T`_b *m T`_a) *m potential V).
Proof.
set K := T`_a *m T`_b - T`_b *m T`_a.
have hK : htrans K = - K by rewrite /K htransB !htransM !genH // opprB.
have tK : \tr K = 0 by rewrite /K trB mxtrace_mulC subrr.
have [H [eK hH tH]] : exists H : GG, [/\ K = 'i *: H, htrans H = H & \tr H = 0].
  exists ((- 'i) *: K); split; first by rewrite scalerA mulrN -expr2 sqrCi opprK scale1r.
    by rewrite htransZ hK rmorphN conjCi opprK scalerN scaleNr.
  by rewrite mxtraceZ tK mulr0.
rewrite eK -!scalemxAl /retr !mxtraceZ ReMil tr_pot // mulrA -expr2 sqrCi mulN1r //.
Qed.
Lemma re_comm2 (a b : 'I_d) (V W : GG) : 'i * \tr ((T`_a *m T`_b - T`_b *m T`_a) *m (potential V - potential W))
  = retr ((T`_a *m T`_b - T`_b *m T`_a) *m V) - retr ((T`_a *m T`_b - T`_b *m T`_a) *m W).
Proof. by rewrite !re_comm -mulrBr -trB; move: (potential V) (potential W) => p q; rewrite -mulmxBr. Qed.
Lemma ghost_const U (k : 'I_d -> C) x a : ghost_matrix U (fun _ => k) x a
  = \sum_(b < d) ('i * \tr ((T`_a *m T`_b - T`_b *m T`_a) *m div U x)) * k b.
Proof.
rewrite /ghost_matrix /mulc.
transitivity (\sum_(mu < 4) \sum_(b < d) ('i * \tr ((T`_a *m T`_b - T`_b *m T`_a) *m (lie_field U x mu - lie_field U (sdn mu x) mu))) * k b).
  apply: eq_bigr => mu _; rewrite -!sumrB; apply: eq_bigr => b _; rewrite !mxE !lieE.
  rewrite re_comm2 !mulmxBl !mulmxDr !mulmxDl !retrB !retrD.
  have e2 : 2%:R = 1 + 1 :> C by [].
  rewrite e2; move: (retr (T`_a *m T`_b *m U x mu)) (retr (T`_b *m T`_a *m U x mu)) (retr (T`_a *m T`_b *m U (sdn mu x) mu)) (retr (T`_b *m T`_a *m U (sdn mu x) mu)) (k b) => *; cring_fold C; ring.
rewrite exchange_big; apply: eq_bigr => b _ /=; rewrite -big_distrl -big_distrr /=; congr (_ * _ * _).
by rewrite /div mulmx_sumr tr_sum.
Qed.

(** Unit links. *)
Definition unit_links : gauge C N G := fun _ _ => 1%:M.
Lemma ghost_unit v x a : ghost_matrix unit_links v x a = minus_laplacian v x a.
Proof.
have tab (b : 'I_d) : retr (T`_a *m T`_b) = (a == b)%:R / 2%:R.
  by rewrite /retr gen_on // (Creal_ReP _ _) // rpredM ?rpredV ?realn.
have tba (b : 'I_d) : retr (T`_b *m T`_a) = (a == b)%:R / 2%:R by rewrite retrC tab.
have d1 (f : 'I_d -> C) (k : C) : \sum_b (k * (a == b)%:R) * f b = k * f a.
  rewrite (bigD1 a) //= eqxx mulr1 big1 ?addr0 // => b; rewrite eq_sym => /negbTE ->; by rewrite mulr0 mul0r.
apply: eq_bigr => mu _; rewrite /mulc; congr (_ - _ - _).
- rewrite -d1; apply: eq_bigr => b _; rewrite mxE /unit_links mulmxDr !mulmx1 retrD retrD tab tba; congr (_ * _).
  have e2 : 2%:R = 1 + 1 :> C by []. 
  have := divff (two0 C); rewrite {1}e2; move: ((a == b)%:R) (2%:R^-1) => p q h.
  have e : p * q + p * q = p by rewrite -[RHS]mul1r -h; cring_fold C; ring.
  by rewrite e mulr_natl mulr2n.
- rewrite -[RHS]mul1r -d1; apply: eq_bigr => b _; rewrite mxE /unit_links mulmx1 tba mulrCA divff ?two0 // mulr1 mul1r //.
- rewrite -[RHS]mul1r -d1; apply: eq_bigr => b _; rewrite mxE /unit_links mulmx1 tab mulrCA divff ?two0 // mulr1 mul1r //.
Qed.
Section Waves.
Variable half : 'I_4 -> C.
Hypothesis turn : half_turns G half.
Variables (n : mode) (c : 'I_d).
Notation P := (\sum_(mu < 4) p_hat half n mu * p_hat half n mu).
Notation src := (ghost_source half n c : field).
Lemma wave_sdn mu x : wave half n (sdn mu x) = wave half n x * (half mu ^+ (2 * mode_at n mu))^*.
Proof.
rewrite -[in RHS](sdnK mu x) (wave_sup turn) -mulrA rmorphX -exprMn (half_conj turn) expr1n mulr1 //.
Qed.
Lemma laplace_wave x a : minus_laplacian src x a = P * src x a.
Proof.
rewrite /minus_laplacian /ghost_source; case: (a == c); last by rewrite [RHS]mulr0 big1 // => mu _; rewrite mulr0 !subr0.
rewrite big_distrl; apply: eq_bigr => mu _ /=; rewrite (wave_sup turn) wave_sdn.
rewrite p_hatE /lattice_momentum; set z := half mu ^+ mode_at n mu.
have -> : half mu ^+ (2 * mode_at n mu) = z * z by rewrite mulnC exprM expr2.
have zz : z * z^* = 1 by rewrite /z rmorphX -exprMn (half_conj turn) expr1n.
have -> : (z - z^* ) / 'i * ((z - z^* ) / 'i) = - ((z - z^* ) * (z - z^* )) by rewrite mulrACA -invfM -(expr2 'i) sqrCi invrN1 mulrN1.
rewrite rmorphM.
have -> : 2%:R = z * z^* + z * z^* :> C by rewrite zz -mulr2n.
rewrite /=; move: (z^* ) (wave _ _ _) => a1 b1; cring_fold C; ring.
Qed.
Lemma P_real : P \is Num.real.
Proof. by apply: rpred_sum => mu _; rewrite rpredM // /p_hat rpredM ?realn ?Creal_Im. Qed.
Lemma P_ge0 : 0 <= P.
Proof. by apply: sumr_ge0 => mu _; rewrite -expr2 -realEsqr /p_hat rpredM ?realn ?Creal_Im. Qed.
Lemma src_dot w : cdot src w = \sum_x (wave half n x)^* * w x c.
Proof.
apply: eq_bigr => x _; rewrite (bigD1 c) //= /ghost_source eqxx big1 ?addr0 // => a /negbTE ->.
by rewrite rmorph0 mul0r.
Qed.
Lemma src_src : cdot src src = #|G|%:R.
Proof.
rewrite src_dot /ghost_source eqxx -sumr_const; apply: eq_bigr => x _; by rewrite mulrC (wave_norm turn).
Qed.
Lemma projectedE w : projected half n c w = \sum_x (wave half n x)^* * w x c.
Proof. by rewrite /projected -Crect. Qed.
Lemma cdotZr (k : C) v w : cdot v (fun x a => k * w x a) = k * cdot v w.
Proof. rewrite /cdot big_distrr; apply: eq_bigr => x _; rewrite /= big_distrr; apply: eq_bigr => a _ /=; by rewrite mulrCA. Qed.
Lemma cdotZl (k : C) v w : cdot (fun x a => k * v x a) w = k^* * cdot v w.
Proof. rewrite /cdot big_distrr; apply: eq_bigr => x _; rewrite /= big_distrr; apply: eq_bigr => a _ /=; by rewrite rmorphM mulrA. Qed.
(** Any solution has the projection of the free propagator. *)
Lemma free_value w : (forall x a, ghost_matrix unit_links w x a = src x a) -> P != 0 -> projected half n c w = #|G|%:R / P.
Proof.
move=> h p0; rewrite projectedE -src_dot; apply: (mulfI p0); rewrite [RHS]mulrC divfK //.
rewrite -{1}(conj_Creal P_real) -cdotZl -src_src.
rewrite -(cdot_ext (v := ghost_matrix unit_links src) (w := w)) //; last by move=> x a; rewrite ghost_unit laplace_wave.
by rewrite -ghost_adj; apply: cdot_ext.
Qed.
Lemma cdot0 v w : (forall x a, w x a = 0) -> cdot v w = 0.
Proof. by move=> h; rewrite /cdot big1 // => x _; rewrite big1 // => a _; rewrite h mulr0. Qed.
Lemma free_loop result epsilon k : (0 < #|G|)%N -> P != 0 ->
  ghost_bicgstab half result unit_links n c epsilon k.+1 =
  if P == 1 then Returned false result else if (d < 4)%N then Undefined C else Returned true result.
Proof.
move=> g0 p0; have V0 : #|G|%:R != 0 :> C by rewrite pnatr_eq0 -lt0n.
rewrite /ghost_bicgstab /=.
have Ms x a : ghost_matrix unit_links src x a = P * src x a by rewrite ghost_unit laplace_wave.
set hat := (fun x a => src x a + ghost_matrix unit_links src x a); set res := (fun x a => src x a - ghost_matrix unit_links src x a).
have eh x a : hat x a = (1 + P) * src x a by rewrite /hat Ms mulrDl mul1r.
have er x a : res x a = (1 - P) * src x a by rewrite /res Ms mulrBl mul1r.
have r1 : (1 + P)^* = 1 + P by rewrite conj_Creal // rpredD ?rpred1 ?P_real.
have h1 : 1 + P != 0 by rewrite lt0r_neq0 // ltr_spaddl ?ltr01 // P_ge0.
have erho : cdot hat res = (1 + P) * ((1 - P) * #|G|%:R).
  by rewrite (cdot_ext eh er) cdotZl cdotZr src_src r1.
case: (boolP (P == 1)) => [/eqP e1|ne1]; first by rewrite erho e1 subrr mul0r mulr0 eqxx.
have rho0 : cdot hat res != 0 by rewrite erho !mulf_neq0 // subr_eq0 eq_sym.
rewrite (negbTE rho0) oner_eq0.
set p := (fun x a => res x a + _).
have ep x a : p x a = res x a by rewrite /p mulr0 subr0 mulr0 addr0.
have Mp x a : ghost_matrix unit_links p x a = P * res x a.
  rewrite (ghost_ext unit_links ep) -[res x a]/(src x a - ghost_matrix unit_links src x a).
  rewrite (ghost_ext unit_links (w := fun x a => src x a + (- P) * src x a)); last by move=> y b; rewrite /res Ms mulNr.
  rewrite ghost_lin Ms; cring_fold C; ring.
have ea : cdot hat (ghost_matrix unit_links p) = P * cdot hat res.
  by rewrite -cdotZr; apply: cdot_ext.
rewrite ea (negbTE (mulf_neq0 p0 rho0)).
set s := (fun x a => res x a - _).
have es x a : s x a = 0.
  rewrite /s Mp; move: (cdot hat res) (res x a) rho0 => r q r0.
  by rewrite -[X in X / (P * r)]mul1r -mulf_div divff // mulr1 div1r mulKf // subrr.
have et x a : ghost_matrix unit_links s x a = 0.
  rewrite (ghost_ext unit_links (w := fun x a => s x a + (-1) * s x a)); last by move=> y b; rewrite !es mulr0 addr0.
  by rewrite ghost_lin mulN1r subrr.
by rewrite (cdot0 _ et) raddf0 eqxx.
Qed.
End Waves.
End Ghost.

(** The scalar action in matrix notation. *)
From mathcomp Require Import all_ssreflect all_algebra.
From Verif Require Import GaugeModel GaugeSpec GaugeProofs GaugeProofs2 AdjModel AdjSpec AdjProofs5.
From Verif Require Import FForceModel FForceProofs FForceProofs4 FForceProofs5.
From Verif Require Import ScalarModel ScalarSpec ScalarProofs ScalarProofs3 SForceModel SForceSpec SForceProofs.
Import Order.POrderTheory GRing.Theory Num.Theory.
Set Implicit Arguments.
Unset Strict Implicit.
Unset Printing Implicit Defensive.
Local Open Scope ring_scope.

Section Proofs.
Variable C : numClosedFieldType.
Add Ring CringSF2 : (Crth C).
Variable N : nat.
Hypothesis N0 : (0 < N)%N.
Notation G := (generators C N).
Notation d := (N * N - 1)%N.
Variable L : lattice.
Variables a f : nat.
Notation state := (scalars C N d a f L).
Implicit Types (U P : gauge C N L) (s : state) (g : couplings C).
Definition of_coords (v : 'cV[C]_d) : 'M[C]_N := \sum_(c < d) v c 0 *: G`_c.
Lemma trace_coords v w : 2%:R * \tr (of_coords v *m of_coords w) = \sum_c v c 0 * w c 0.
Proof.
rewrite {1}/of_coords mulmx_suml (raddf_sum (mxtrace_additive _ _)) /= mulr_sumr; apply: eq_bigr => c _.
by rewrite -scalemxAl mxtraceZ mulrCA G_coeff.
Qed.
Lemma conjugated V v : unitary V -> V *m of_coords v *m dagger V = of_coords (to_adjoint V *m v).
Proof.
move=> uV; rewrite /of_coords mulmx_sumr mulmx_suml.
under eq_bigr => c _ do rewrite -scalemxAr -scalemxAl (adjoint_acts N0 uV) scaler_sumr.
rewrite exchange_big /=; apply: eq_bigr => i _; rewrite mxE scaler_suml; apply: eq_bigr => c _.
by rewrite scalerA mulrC.
Qed.
(** The term with lambda_8 vanishes. *)
Lemma generator_zero (v : 'cV[C]_d) (i : 'I_d) : real_vector v -> vdot v (adjoint_generator C N i *m v) = 0.
Proof.
move=> rv; set z := vdot _ _.
have E : z = \sum_b \sum_c v b 0 * (adjoint_generator C N i b c * v c 0).
  by apply: eq_bigr => b _; rewrite (CrealP (rv _)) mxE mulr_sumr.
have anti b c : adjoint_generator C N i c b = - adjoint_generator C N i b c.
  rewrite !adj_entry // -mulrN; congr (_ * _); rewrite !mulmxBr !(raddfB (mxtrace_additive _ _)) /= opprB.
  by congr (_ - _); [rewrite mulmxA mxtrace_mulC | rewrite mxtrace_mulC mulmxA].
have E' : z = - z.
  rewrite {1}E exchange_big E -sumrN; apply: eq_bigr => b _; rewrite -sumrN; apply: eq_bigr => c _.
  rewrite anti; move: (v b 0) (v c 0) (adjoint_generator _ _ _ _ _) => p q r; by cring_fold C; ring.
have : z + z == 0 by rewrite {1}E' addNr.
by rewrite -mulr2n mulrn_eq0 /= => /eqP.
Qed.
Lemma potentialE g s x : real_adjoint s -> potential (adjoint_generators C N) g s x =
  (mass_adjoint g / 2%:R - 8%:R) * adjoint_square s x + (mass_fundamental g / 2%:R - 8%:R) * fundamental_square s x
    + (lambda_fundamental g * fundamental_square s x ^+ 2 + lambda_adjoint g * adjoint_square s x ^+ 2
       + lambda_mixed g * (adjoint_square s x * fundamental_square s x)) / 24%:R.
Proof.
move=> rs.
have Ea : square_adjoint s x = adjoint_square s x.
  by apply: eq_bigr => k _; rewrite trace_coords; apply: eq_bigr => c _; rewrite (CrealP (rs _ _ _)).
have Ef : square_fundamental s x = fundamental_square s x.
  apply: eq_bigr => k _; rewrite vdot_self_real; apply: eq_bigr => c _; by rewrite normCK mulrC.
rewrite /potential Ea Ef big1_seq => [|T /andP[_ /mapP[i hi ->]]]; last first.
  rewrite big1 ?mulr0 // => k _; rewrite mem_iota in hi.
  by rewrite (generator_zero (Ordinal hi) (rs k x)) raddf0.
rewrite addr0 /= !expr2; move: (adjoint_square s x) (fundamental_square s x) (24%:R^-1) (_ / _ - _) (_ / _ - _) => p q r u w.
by cring_fold C; ring.
Qed.
Lemma energy_matrix_action g U s : (forall x mu, unitary (U x mu)) -> real_adjoint s -> scalar_energy g U s =
  matrix_action (mass_adjoint g) (mass_fundamental g) (lambda_fundamental g) (lambda_adjoint g) (lambda_mixed g) U s.
Proof.
move=> uU rs; rewrite scalar_energyE // /matrix_action.
have -> : \sum_(k < a) hopping (rep_links (adjoint C N) U) (fun x : L => adj s (k, x)) = \sum_x \sum_(mu < 4) hop_adjoint U s x mu.
  under [RHS]eq_bigr => x _ do rewrite exchange_big /=.
  rewrite [RHS]exchange_big /=; apply: eq_bigr => k _; rewrite [RHS]exchange_big /=; apply: eq_bigr => mu _.
  apply: eq_bigr => x _; rewrite conjugated // -ReZ ?realn // trace_coords; congr ('Re _).
  by apply: eq_bigr => c _; rewrite (CrealP (rs _ _ _)).
have -> : \sum_(k < f) hopping (rep_links (fundamental C N) U) (fun x : L => fund s (k, x)) = \sum_x \sum_(mu < 4) hop_fundamental U s x mu.
  under [RHS]eq_bigr => x _ do rewrite exchange_big /=.
  rewrite [RHS]exchange_big /=; apply: eq_bigr => k _; rewrite [RHS]exchange_big /=; apply: eq_bigr => mu _.
  by apply: eq_bigr => x _; rewrite daggerE vdotE /mxtrace big_ord1.
rewrite -!big_split /=; apply: eq_bigr => x _; rewrite potentialE // -big_split /= !addrA.
by [].
Qed.
(** Gauge transformations. *)
Lemma square_rotated om s s' x : (forall y, unitary (om y)) -> rotated om s s' ->
  adjoint_square s' x = adjoint_square s x /\ fundamental_square s' x = fundamental_square s x.
Proof.
move=> uo [ra rf]; have h : htrans (om x) *m om x = 1%:M by apply: unitary_l.
split; apply: eq_bigr => k _.
  rewrite !ra daggerE -!mulmxA mxtrace_mulC (mulmxA (htrans _)) h mul1mx -!mulmxA h mulmx1.
  by [].
have E (v : 'cV[C]_N) : \sum_c `|v c 0| ^+ 2 = (htrans v *m v) 0 0.
  by rewrite mxE; apply: eq_bigr => c _; rewrite !mxE normCK mulrC.
by rewrite !E rf htransM -mulmxA (mulmxA (htrans (om x))) h mul1mx.
Qed.
Lemma energy_invariant g om U s s' : (forall x mu, unitary (U x mu)) -> (forall x, unitary (om x)) ->
  real_adjoint s -> real_adjoint s' -> rotated om s s' -> scalar_energy g (gauge_transform om U) s' = scalar_energy g U s.
Proof.
move=> uU uo rs rs' ro; have [ra rf] := ro.
have ho x : htrans (om x) *m om x = 1%:M by apply: unitary_l.
rewrite !energy_matrix_action //; last by move=> x mu; rewrite /gauge_transform; apply: unitaryM; [exact: unitaryM | exact: unitaryH].
apply: eq_bigr => x _; have [-> ->] := square_rotated x uo ro.
congr (_ + _ + _ + _); apply: eq_bigr => mu _; congr (_ + _).
  apply: eq_bigr => k _; congr (_ * 'Re _); rewrite !ra /gauge_transform !daggerE !htransM !htransK.
  rewrite -!mulmxA (mulmxA (htrans (om (sup mu x))) (om _)) ho mul1mx.
  rewrite (mulmxA (htrans (om (sup mu x))) (om _)) ho mul1mx (mulmxA (htrans (om x)) (om x)) ho mul1mx.
  by rewrite mxtrace_mulC -!mulmxA ho mulmx1.
apply: eq_bigr => k _; congr ('Re _); rewrite !rf /gauge_transform !daggerE !htransM.
by rewrite -!mulmxA (mulmxA (htrans (om (sup mu x))) (om _)) ho mul1mx (mulmxA (htrans (om x)) (om x)) ho mul1mx.
Qed.
Lemma rotated_exists om s : (forall x, unitary (om x)) -> real_adjoint s ->
  exists s', rotated om s s' /\ real_adjoint s'.
Proof.
move=> uo rs; exists (Scalars [ffun q => to_adjoint (om q.2) *m adj s q] [ffun q => om q.2 *m fund s q]); split.
  by split=> k x; rewrite ?ffunE //= -/(of_coords _) conjugated // /of_coords; apply: eq_bigr => c _; rewrite ffunE.
by move=> k x; rewrite ffunE; apply: mulmx_real; [exact: entry_real | exact: rs].
Qed.
(** Several actions. *)
Lemma multi_energyE gs U s : multi_energy gs U s = \sum_(g <- gs) scalar_energy g U s.
Proof.
have H z : foldl (fun e g => e + scalar_energy g U s) z gs = z + \sum_(g <- gs) scalar_energy g U s.
  by elim: gs z => [|g gs IH] z /=; rewrite ?big_nil ?addr0 // IH big_cons addrA.
by rewrite /multi_energy H add0r.
Qed.
Lemma multi_siteE gs U s x mu : multi_site_force gs U s x mu = (size gs)%:R *: site_force U s x mu.
Proof.
have H z : foldl (fun F (_ : couplings C) => F + site_force U s x mu) z gs = z + (size gs)%:R *: site_force U s x mu.
  elim: gs z => [|g gs IH] z /=; first by rewrite scale0r addr0.
  by rewrite IH -addrA -{1}[site_force U s x mu]scale1r -scalerDl mulrS.
by rewrite /multi_site_force H add0r.
Qed.
Lemma multi_updateE gs U s old x mu : gs <> [::] -> multi_update_force gs U s old x mu = (size gs)%:R *: update_force U s x mu.
Proof.
case: gs => // g [|h gs] _ /=; first by rewrite scale1r.
have H F : foldl (fun (F : gauge C N L) (_ : couplings C) => fun x mu => F x mu + update_force U s x mu) F gs x mu
    = F x mu + (size gs)%:R *: update_force U s x mu.
  elim: gs F => [|g' gs IH] F /=; first by rewrite scale0r addr0.
  by rewrite IH -addrA -{1}[update_force U s x mu]scale1r -scalerDl mulrS.
by rewrite H !mulrS !scalerDl !scale1r addrA.
Qed.
Lemma multi_gradient gs U P s old : gs <> [::] -> (forall x mu, unitary (U x mu)) -> (forall x mu, anti_hermitian (P x mu)) ->
  (forall x mu, traceless (P x mu)) -> real_adjoint s ->
  is_scalar_gradient (fun V => multi_energy gs V s) U P (multi_update_force gs U s old).
Proof.
move=> ne uU aP tP rs.
have H : exists2 K : C, 0 <= K & forall e, e \is Num.real ->
    `|\sum_(g <- gs) (scalar_energy g (fun x mu => U x mu + e *: (P x mu *m U x mu)) s - scalar_energy g U s
       + e * (\sum_x \sum_(mu < 4) 2%:R * retr (P x mu *m update_force U s x mu)))| <= `|e| ^+ 2 * K.
  elim: gs {ne} => [|g gs [K K0 IH]]; first by exists 0 => // e _; rewrite big_nil normr0 mulr0.
  have [K1 K10 H1] := gradient N0 g uU aP tP rs.
  exists (K1 + K); first by rewrite addr_ge0.
  move=> e eR; rewrite big_cons; apply: (le_trans (ler_norm_add _ _)).
  by rewrite mulrDr ler_add ?H1 ?IH.
have [K K0 H1] := H; exists K => // e eR; have := H1 e eR; congr (`|_| <= _).
rewrite !multi_energyE big_split sumrB /=; congr (_ + _).
rewrite -mulr_sumr; congr (_ * _); rewrite big_const_seq count_predT iter_addr_0.
rewrite -mulr_natr mulr_suml; apply: eq_bigr => x _; rewrite mulr_suml; apply: eq_bigr => mu _.
rewrite multi_updateE // /retr -scalemxAr mxtraceZ ReZ ?realn //.
by rewrite -mulrA; congr (_ * _); rewrite mulrC.
Qed.
End Proofs.

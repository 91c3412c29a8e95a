(** Proofs about the scalar force. *)
From mathcomp Require Import all_ssreflect all_algebra.
From Verif Require Import GaugeModel GaugeSpec GaugeProofs GaugeProofs2 AdjModel AdjSpec AdjProofs5.
From Verif Require Import FForceModel FForceProofs FForceProofs4 FForceProofs5.
From Verif Require Import ScalarModel ScalarSpec ScalarProofs ScalarProofs3 SForceModel SForceSpec.
Import Order.POrderTheory GRing.Theory Num.Theory.
Set Implicit Arguments.
Unset Strict Implicit.
Unset Printing Implicit Defensive.
Local Open Scope ring_scope.

Section Proofs.
Variable C : numClosedFieldType.
Add Ring CringSF : (Crth C).
Lemma conj_minus (z : C) : 2%:R^-1 * z^* - 2%:R^-1 * z = 'i * 'Im (z^*).
Proof. by rewrite ImE conjCK !mulrA -expr2 sqrCi mulN1r opprB -mulrBr mulrC. Qed.
Variable N : nat.
Hypothesis N0 : (0 < N)%N.
Notation G := (generators C N).
Notation d := (N * N - 1)%N.
Variable L : lattice.

Section Rep.
Variable n : nat.
Variable r : representation C N n.
Variable second : 'M[C]_N -> 'M[C]_N -> 'M[C]_n.
Hypothesis gen_herm : forall a : 'I_d, htrans (rep_gen r a) = rep_gen r a.
Hypothesis link_moved : forall U P (e : C), unitary U -> anti_hermitian P -> traceless P -> e \is Num.real ->
  rep_link r (U + e *: (P *m U)) = rep_link r U + e *: (rep_algebra r P *m rep_link r U + e *: second P U).
Variable phi : L -> 'cV[C]_n.
Implicit Types U P : gauge C N L.
Definition rep_links U : L -> 'I_4 -> 'M[C]_n := fun x mu => rep_link r (U x mu).
Lemma dot_back U x mu (i : 'I_d) : vdot (phi (sup mu x)) (htrans (rep_links U x mu) *m rep_gen r i *m phi x)
  = (vdot (phi x) (rep_gen r i *m rep_links U x mu *m phi (sup mu x)))^*.
Proof. by rewrite -vdot_ht htransM gen_herm htransK vdotC. Qed.
(** The sum over the generators. *)
Lemma term_sum U x mu :
  \sum_(i < d) ('i * 'Im (vdot (phi (sup mu x)) (htrans (rep_links U x mu) *m rep_gen r i *m phi x))) *: G`_i
  = fermion_force r (U x mu) (phi (sup mu x) *m htrans (phi x)).
Proof.
apply: eq_bigr => i _; congr (_ *: _); rewrite dot_back Im_conj mulrN mulNr; congr (- ('i * 'Im _)).
rewrite vdotE -!mulmxA mxtrace_mulC -!mulmxA.
by rewrite /mxtrace big_ord1.
Qed.
Lemma hopping_moved U P e : (forall x mu, unitary (U x mu)) -> (forall x mu, anti_hermitian (P x mu)) ->
  (forall x mu, traceless (P x mu)) -> e \is Num.real ->
  hopping (rep_links (fun x mu => U x mu + e *: (P x mu *m U x mu))) phi - hopping (rep_links U) phi
  + e * (\sum_x \sum_(mu < 4) 2%:R * retr (P x mu *m fermion_force r (U x mu) (phi (sup mu x) *m htrans (phi x))))
  = e ^+ 2 * (\sum_(mu < 4) \sum_x 'Re (vdot (phi x) (second (P x mu) (U x mu) *m phi (sup mu x)))).
Proof.
move=> uU aP tP eR; rewrite [\sum_x \sum_mu _]exchange_big /hopping /= -sumrB !mulr_sumr -big_split /=.
apply: eq_bigr => mu _; rewrite -sumrB !mulr_sumr -big_split /=; apply: eq_bigr => x _.
rewrite /rep_links link_moved // (trace_force N0) //.
have -> : \tr (phi (sup mu x) *m htrans (phi x) *m rep_algebra r (P x mu) *m rep_link r (U x mu))
   = vdot (phi x) (rep_algebra r (P x mu) *m rep_link r (U x mu) *m phi (sup mu x)).
  by rewrite vdotE -!mulmxA mxtrace_mulC /mxtrace big_ord1 -!mulmxA.
rewrite scalerDr scalerA !mulmxDl -!scalemxAl !vdotDr.
have Z (c : C) (v w : 'cV[C]_n) : vdot v (c *: w) = c * vdot v w by rewrite !vdotE -scalemxAr mxE.
rewrite !Z !(raddfD (Re_additive C)) /= !ReZ ?realM // mulrN addrC addrAC addrA addrA addrK.
by rewrite addrA addNr add0r expr2.
Qed.
End Rep.

Variables a f : nat.
Notation state := (scalars C N d a f L).
Implicit Types (U P : gauge C N L) (s : state) (g : couplings C).

(** Both force functions are the same sum. *)
Lemma adjoint_sum U (phi : L -> 'cV[C]_d) x mu : \sum_(i < d) adjoint_term U phi x mu i
  = fermion_force (adjoint C N) (U x mu) (phi (sup mu x) *m htrans (phi x)).
Proof. by rewrite -(term_sum (r := adjoint C N) (adj_herm C N0)). Qed.
Lemma adjoint_same U (phi : L -> 'cV[C]_d) x mu i : adjoint_term' U phi x mu i = adjoint_term U phi x mu i.
Proof.
rewrite /adjoint_term' /adjoint_term -scalerBl; congr (_ *: _).
by rewrite (dot_back (r := adjoint C N) (adj_herm C N0) phi U) conj_minus.
Qed.
Lemma fundamental_sum U (phi : L -> 'cV[C]_N) x mu : \sum_(i < d) fundamental_term U phi x mu i
  = fermion_force (fundamental C N) (U x mu) (phi (sup mu x) *m htrans (phi x)).
Proof.
rewrite -(term_sum (r := fundamental C N) (G_herm C N0)); apply: eq_bigr => i _.
rewrite /fundamental_term -scalerBl; congr (_ *: _).
by rewrite (dot_back (r := fundamental C N) (G_herm C N0) phi U) conj_minus.
Qed.
Lemma force_same U s x mu : update_force U s x mu = site_force U s x mu.
Proof.
by congr (_ + _); apply: eq_bigr => k _; apply: eq_bigr => i _; rewrite adjoint_same.
Qed.
Lemma forceE U s x mu : update_force U s x mu =
  \sum_(k < a) fermion_force (adjoint C N) (U x mu) (adj s (k, sup mu x) *m htrans (adj s (k, x)))
  + \sum_(k < f) fermion_force (fundamental C N) (U x mu) (fund s (k, sup mu x) *m htrans (fund s (k, x))).
Proof.
by congr (_ + _); apply: eq_bigr => k _; rewrite ?adjoint_sum ?fundamental_sum.
Qed.
(** The algebra. *)
Lemma ff_anti n (r : representation C N n) V D : anti_hermitian (fermion_force r V D).
Proof.
rewrite /anti_hermitian daggerE /fermion_force htrans_sum -sumrN; apply: eq_bigr => i _.
by rewrite htransZ G_herm // -scaleNr; congr (_ *: _); rewrite mulNr rmorphN rmorphM /= conjCi (CrealP (Creal_Im _)) mulNr.
Qed.
Lemma ff_tr n (r : representation C N n) V D : traceless (fermion_force r V D).
Proof.
rewrite /traceless /fermion_force (raddf_sum (mxtrace_additive _ _)) /= big1 // => i _.
by rewrite mxtraceZ G_tr // mulr0.
Qed.
Lemma force_algebra U s x mu : anti_hermitian (update_force U s x mu) /\ traceless (update_force U s x mu).
Proof.
rewrite forceE; split.
  rewrite /anti_hermitian daggerE htransD !htrans_sum opprD -!sumrN.
  by congr (_ + _); apply: eq_bigr => k _; rewrite -daggerE ff_anti.
rewrite /traceless mxtraceD !(raddf_sum (mxtrace_additive _ _)) /=.
by rewrite !big1 ?addr0 // => k _; exact: ff_tr.
Qed.

(** The energy as a sum. *)
Lemma convert_real U x mu : (forall x mu, unitary (U x mu)) -> real_matrix (convert U x mu).
Proof. by move=> uU; have [re _ _] := adjoint_orthogonal N0 (uU x mu). Qed.
Lemma entry_real V : real_matrix (@to_adjoint C N V).
Proof. by move=> i j; rewrite adjoint_entry // realM ?realn ?Creal_Re. Qed.
Lemma scalar_energyE g U s : real_adjoint s -> scalar_energy g U s =
  \sum_(k < a) hopping (rep_links (adjoint C N) U) (fun x => adj s (k, x))
  + \sum_(k < f) hopping (rep_links (fundamental C N) U) (fun x => fund s (k, x))
  + \sum_(x : L) potential (adjoint_generators C N) g s x.
Proof. by move=> rs; rewrite /scalar_energy energyE // => x mu; exact: entry_real. Qed.

(** The gradient. *)
Lemma gradient g U P s : (forall x mu, unitary (U x mu)) -> (forall x mu, anti_hermitian (P x mu)) ->
  (forall x mu, traceless (P x mu)) -> real_adjoint s ->
  is_scalar_gradient (fun V => scalar_energy g V s) U P (update_force U s).
Proof.
move=> uU aP tP rs.
pose S2a := \sum_(k < a) \sum_(mu < 4) \sum_x 'Re (vdot (adj s (k, x)) (adj_second (P x mu) (U x mu) *m adj s (k, sup mu x))).
pose S2f := \sum_(k < f) \sum_(mu < 4) \sum_x 'Re (vdot (fund s (k, x)) ((fun _ _ => 0 : 'M[C]_N) (P x mu) (U x mu) *m fund s (k, sup mu x))).
exists `|S2a + S2f| => // e eR; rewrite !scalar_energyE //.
set Ua := fun x mu => U x mu + _.
have Ha : \sum_(k < a) hopping (rep_links (adjoint C N) Ua) (fun x => adj s (k, x))
    - \sum_(k < a) hopping (rep_links (adjoint C N) U) (fun x => adj s (k, x))
    + e * (\sum_(k < a) \sum_x \sum_(mu < 4) 2%:R * retr (P x mu *m fermion_force (adjoint C N) (U x mu) (adj s (k, sup mu x) *m htrans (adj s (k, x)))))
    = e ^+ 2 * S2a.
  rewrite -sumrB !mulr_sumr -big_split /=; apply: eq_bigr => k _.
  exact: (hopping_moved (r := adjoint C N) (adj_moved N0)).
have Hf : \sum_(k < f) hopping (rep_links (fundamental C N) Ua) (fun x => fund s (k, x))
    - \sum_(k < f) hopping (rep_links (fundamental C N) U) (fun x => fund s (k, x))
    + e * (\sum_(k < f) \sum_x \sum_(mu < 4) 2%:R * retr (P x mu *m fermion_force (fundamental C N) (U x mu) (fund s (k, sup mu x) *m htrans (fund s (k, x)))))
    = e ^+ 2 * S2f.
  rewrite -sumrB !mulr_sumr -big_split /=; apply: eq_bigr => k _.
  exact: (hopping_moved (r := fundamental C N) (fund_moved N0)).
have E : \sum_x \sum_(mu < 4) 2%:R * retr (P x mu *m update_force U s x mu)
   = (\sum_(k < a) \sum_x \sum_(mu < 4) 2%:R * retr (P x mu *m fermion_force (adjoint C N) (U x mu) (adj s (k, sup mu x) *m htrans (adj s (k, x)))))
   + (\sum_(k < f) \sum_x \sum_(mu < 4) 2%:R * retr (P x mu *m fermion_force (fundamental C N) (U x mu) (fund s (k, sup mu x) *m htrans (fund s (k, x))))).
  rewrite [X in _ = X + _]exchange_big [X in _ = _ + X]exchange_big -big_split /=; apply: eq_bigr => x _.
  rewrite [X in _ = X + _]exchange_big [X in _ = _ + X]exchange_big -big_split /=; apply: eq_bigr => mu _.
  rewrite forceE /retr -!mulr_sumr -mulrDr; congr (_ * _).
  by rewrite mulmxDr !mulmx_sumr mxtraceD !(raddf_sum (mxtrace_additive _ _)) (raddfD (Re_additive C)) !(raddf_sum (Re_additive C)).
rewrite E -normrX -normrM [e ^+ 2 * _]mulrDr -Ha -Hf; set lhs := (X in X <= _); set rhs := (X in _ <= X).
suff -> : lhs = rhs by exact: lexx.
rewrite /lhs /rhs {lhs rhs Ha Hf E}.
move: (\sum_(x : L) potential _ _ _ _) => D; congr `|_|.
by cring_fold C; ring.
Qed.
End Proofs.

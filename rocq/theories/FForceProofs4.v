(** The force of the pseudofermion actions, for a representation of the links, and the two representations. *)
From Coq Require Import List.
From mathcomp Require Import all_ssreflect all_algebra.
From Verif Require Import GaugeModel GaugeSpec GaugeProofs GaugeProofs2 DiracModel DiracSpec DiracProofs DiracProofs2.
From Verif Require Import AdjModel AdjSpec AdjProofs5 FForceModel FForceSpec FForceProofs FForceProofs2 FForceProofs3.
Import Order.POrderTheory GRing.Theory Num.Theory.
Set Implicit Arguments.
Unset Strict Implicit.
Unset Printing Implicit Defensive.
Local Open Scope ring_scope.

Section Facts.
Variable C : numClosedFieldType.
Lemma two_neq0 : 2%:R != 0 :> C. Proof. by rewrite pnatr_eq0. Qed.
Lemma Re_le (z : C) : `|'Re z| <= `|z|.
Proof.
rewrite ReE normf_div normr_nat ler_pdivr_mulr ?ltr0n // mulr_natr mulr2n.
by apply: (le_trans (ler_norm_add _ _)); rewrite norm_conjC.
Qed.
Lemma imag_re (c z : C) : c^* = - c -> - 'i * 'Im z * c = - 'Re (c * z).
Proof.
move=> h; rewrite ImE ReE rmorphM h [- c * _]mulNr -mulrBr -!mulrA mulNr mulrA -expr2 sqrCi mulN1r opprK.
by rewrite -mulrN -mulNr opprB mulrA mulrC.
Qed.
Variable N : nat.
Hypothesis N0 : (0 < N)%N.
Notation G := (generators C N).
Notation d := (N * N - 1)%N.
Lemma G_herm (a : 'I_d) : htrans G`_a = G`_a.
Proof.
have [sz h _ _] := basis C N0; have [|H _] := h G`_a; first by rewrite mem_nth // sz.
by apply/matrixP => i j; rewrite !mxE -H.
Qed.
Lemma G_orth (a b : 'I_d) : \tr (G`_a *m G`_b) = (a == b)%:R / 2%:R.
Proof. by have [_ _ o _] := basis C N0; rewrite o. Qed.
Lemma G_tr (a : 'I_d) : \tr G`_a = 0.
Proof. by have [sz h _ _] := basis C N0; have [|_ ->] := h G`_a; rewrite ?mem_nth ?sz. Qed.
Lemma G_coeff (c : 'I_d -> C) (b : 'I_d) : 2%:R * \tr (G`_b *m \sum_a c a *: G`_a) = c b.
Proof.
rewrite mulmx_sumr (raddf_sum (mxtrace_additive _ _)) /= (bigD1 b) //= big1 ?addr0; last first.
  by move=> a ne; rewrite -scalemxAr mxtraceZ G_orth eq_sym (negPf ne) mul0r mulr0.
by rewrite -scalemxAr mxtraceZ G_orth eqxx mul1r mulrCA divff ?two_neq0 // mulr1.
Qed.
Definition coord (P : 'M[C]_N) (a : 'I_d) : C := 2%:R * \tr (G`_a *m P).
Lemma G_expand P : \tr P = 0 -> P = \sum_a coord P a *: G`_a.
Proof.
move=> t; have [_ _ _ c] := basis C N0; have [f E] := c P t; rewrite {1}E; apply: eq_bigr => a _.
by rewrite /coord E G_coeff.
Qed.
Lemma coord_imag P a : anti_hermitian P -> (coord P a)^* = - coord P a.
Proof.
move=> h; rewrite /coord rmorphM rmorph_nat -mulrN; congr (_ * _).
have -> : (\tr (G`_a *m P))^* = \tr (htrans (G`_a *m P)).
  by rewrite /mxtrace rmorph_sum; apply: eq_bigr => i _; rewrite !mxE.
by rewrite htransM G_herm -daggerE h mulNmx (raddfN (mxtrace_additive _ _)) /= mxtrace_mulC.
Qed.
End Facts.

Section Rep.
Variable C : numClosedFieldType.
Variables N n : nat.
Variable L : lattice.
Hypothesis N0 : (0 < N)%N.
Variable r : representation C N n.
Notation G := (generators C N).
Notation d := (N * N - 1)%N.
Definition rep_algebra (P : 'M[C]_N) : 'M[C]_n := \sum_(a < d) coord P a *: rep_gen r a.
Variable second : 'M[C]_N -> 'M[C]_N -> 'M[C]_n.
Hypothesis gen_herm : forall a : 'I_d, htrans (rep_gen r a) = rep_gen r a.
Hypothesis link_unitary : forall U, unitary U -> unitary (rep_link r U).
Hypothesis link_moved : forall U P (e : C), unitary U -> anti_hermitian P -> traceless P -> e \is Num.real ->
  rep_link r (U + e *: (P *m U)) = rep_link r U + e *: (rep_algebra P *m rep_link r U + e *: second P U).
Lemma rep_anti P : anti_hermitian P -> anti_hermitian (rep_algebra P).
Proof.
move=> h; rewrite /anti_hermitian daggerE /rep_algebra htrans_sum -sumrN; apply: eq_bigr => a _.
by rewrite htransZ gen_herm coord_imag // scaleNr.
Qed.
(** Twice the trace of a momentum with the force. *)
Lemma trace_force P U D : anti_hermitian P ->
  2%:R * retr (P *m fermion_force r U D) = - 'Re (\tr (D *m rep_algebra P *m rep_link r U)).
Proof.
move=> h; have E : 2%:R * \tr (P *m fermion_force r U D) = - 'Re (\tr (D *m rep_algebra P *m rep_link r U)).
  rewrite /fermion_force /rep_algebra !mulmx_sumr mulmx_suml !(raddf_sum (mxtrace_additive _ _)) /=.
  rewrite (raddf_sum (Re_additive C)) /= mulr_sumr -sumrN; apply: eq_bigr => a _.
  rewrite -!scalemxAr -scalemxAl !mxtraceZ -imag_re ?coord_imag // mulrCA; congr (_ * _).
  by rewrite mxtrace_mulC.
rewrite /retr -[RHS]E; congr (_ * _); apply/Creal_ReP.
have : 2%:R^-1 * (2%:R * \tr (P *m fermion_force r U D)) \is Num.real.
  by rewrite realM ?realV ?realn // E rpredN Creal_Re.
by rewrite mulrA mulVf ?two_neq0 // mul1r.
Qed.
Variable kappa : C.
Hypothesis kR : kappa \is Num.real.
Variable flip : L -> 'I_4 -> bool.
Variables (U P : gauge C N L).
Hypothesis uU : forall x mu, unitary (U x mu).
Hypothesis aP : forall x mu, anti_hermitian (P x mu).
Hypothesis tP : forall x mu, traceless (P x mu).
Let V := fermion_links r flip U.
Let M x mu := rep_algebra (P x mu).
Let Z := flip_links flip (fun x mu => second (P x mu) (U x mu)).
Let moved (e : C) : gauge C N L := fun x mu => U x mu + e *: (P x mu *m U x mu).
Lemma uV x mu : unitary (V x mu).
Proof.
rewrite /V /fermion_links /flip_links; case: ifP => _; last exact: link_unitary.
by rewrite /unitary daggerE htransN mulmxN mulNmx opprK -daggerE; exact: link_unitary.
Qed.
Lemma moved_links e x mu : e \is Num.real ->
  fermion_links r flip (moved e) x mu = curve V (fun x mu => M x mu *m V x mu) Z e x mu.
Proof.
move=> eR; rewrite /curve /V /Z /fermion_links /flip_links /moved link_moved //; case: ifP => _ //.
by rewrite mulmxN [e *: - second _ _]scalerN -(opprD (M x mu *m _)) scalerN -opprD.
Qed.
Lemma flip_trace (D : L -> 'I_4 -> 'M[C]_n) x mu :
  \tr (flip_links flip D x mu *m M x mu *m rep_link r (U x mu)) = \tr (D x mu *m M x mu *m V x mu).
Proof. by rewrite /V /fermion_links /flip_links; case: ifP => _ //; rewrite !mulNmx mulmxN. Qed.
Lemma force_slope run : \sum_x \sum_(mu < 4) 2%:R * retr (P x mu *m nflavor_force r kappa flip U run x mu)
  = 'Re (slope kappa V M run).
Proof.
rewrite /slope /slope_term.
have E x mu : 2%:R * retr (P x mu *m nflavor_force r kappa flip U run x mu)
   = 'Re (\sum_(q <- run) \sum_(t <- q.2) t.1 * \tr (wilson_derivative kappa V t.2 (hermitian_dirac kappa V t.2) x mu *m M x mu *m V x mu)).
  rewrite /nflavor_force trace_force // flip_trace -/V nflavor_derivativeE !mulNmx (raddfN (mxtrace_additive _ _)) /=.
  rewrite (raddfN (Re_additive C)) /= opprK; congr ('Re _).
  rewrite !mulmx_suml (raddf_sum (mxtrace_additive _ _)) /=; apply: eq_bigr => q _.
  rewrite !mulmx_suml (raddf_sum (mxtrace_additive _ _)) /=; apply: eq_bigr => t _.
  by rewrite -!scalemxAl mxtraceZ.
under eq_bigr => x _ do under eq_bigr => mu _ do rewrite E.
under eq_bigr => x _ do rewrite -(raddf_sum (Re_additive C)).
rewrite -(raddf_sum (Re_additive C)) /=; congr ('Re _).
under eq_bigr => x _ do rewrite exchange_big /=.
rewrite exchange_big /=; apply: eq_bigr => q _.
under eq_bigr => x _ do rewrite exchange_big /=.
rewrite exchange_big /=; apply: eq_bigr => t _.
by rewrite mulr_sumr; apply: eq_bigr => x _; rewrite mulr_sumr.
Qed.
Lemma solved_links (V1 V2 : L -> 'I_4 -> 'M[C]_n) action run : (forall x mu, V1 x mu = V2 x mu) ->
  solved kappa V1 action run -> solved kappa V2 action run.
Proof.
move=> E; rewrite /solved; elim: action run => [|p l IH] run.
  by move=> h; rewrite (F2_nil h); constructor.
move=> h0; have [q [l' [-> [pq ts] H]]] := F2_cons h0; constructor; last exact: IH.
split=> //; elim: (p.2) (q.2) ts => [|ab s IHs] s'.
  by move=> h; rewrite (F2_nil h); constructor.
move=> h1; have [t [m [-> [ta sX] h2]]] := F2_cons h1; constructor; last exact: IHs.
by split=> // x a c; rewrite -(shifted_links _ _ _ E) sX.
Qed.
Theorem nflavor_gradient action run : well_posed kappa V action -> solved kappa V action run ->
  exists eps K : C, [/\ 0 < eps, 0 <= K & forall e, e \is Num.real -> `|e| <= eps ->
    (exists run', solved kappa (fermion_links r flip (moved e)) action run') /\
    forall run', solved kappa (fermion_links r flip (moved e)) action run' ->
      `|nflavor_energy run' - nflavor_energy run
        + e * \sum_x \sum_(mu < 4) 2%:R * retr (P x mu *m nflavor_force r kappa flip U run x mu)| <= `|e| ^+ 2 * K].
Proof.
move=> wp sv; have aM x mu : anti_hermitian (M x mu) by exact: rep_anti.
have [eps [K [e0 K0 H]]] := run_order kR Z uV aM wp sv.
exists eps, K; split=> // e eR le; have [[run' ex] b] := H e eR le.
have Em x mu := moved_links x mu eR.
split; first by exists run'; apply: solved_links ex => x mu; rewrite Em.
move=> run2 s2; have := b run2 (solved_links Em s2).
rewrite !energyE force_slope; apply: le_trans.
have -> : e * 'Re (slope kappa V M run) = 'Re (e * slope kappa V M run).
  by rewrite !ReE rmorphM /= (CrealP eR) -mulrDr mulrA.
rewrite -(raddfB (Re_additive C)) -(raddfD (Re_additive C)); exact: Re_le.
Qed.
End Rep.

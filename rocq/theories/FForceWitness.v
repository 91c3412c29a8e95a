(** One site, two colours and antiperiodic boundary conditions: the two flavour force is not the gradient. *)
From Coq Require Import List.
From mathcomp Require Import all_ssreflect all_algebra.
From Verif Require Import GaugeModel GaugeSpec GaugeProofs GaugeProofs2 GaugeProofs3 DiracModel DiracSpec DiracProofs DiracProofs2.
From Verif Require Import AdjModel AdjSpec AdjProofs5 FForceModel FForceSpec FForceProofs FForceProofs2 FForceProofs3 FForceProofs4.
From Verif Require Import FForceProofs5.
Import Order.POrderTheory GRing.Theory Num.Theory.
Set Implicit Arguments.
Unset Strict Implicit.
Unset Printing Implicit Defensive.
Local Open Scope ring_scope.

Section W.
Variable C : numClosedFieldType.
Add Ring CringFW : (Crth C).
Notation L := (box 0 0 0 0).
Notation field := (L -> 'I_4 -> 'I_2 -> C) (only parsing).
Definition w_phase (c : 'I_2) : C := if c == 0 then 'i else - 'i.
Definition w_diag : 'M[C]_2 := diag_mx (\row_c w_phase c).
Definition w_links : gauge C 2 L := fun x mu => if (mu == 3 :> nat)%N then w_diag else 1%:M.
Definition w_momenta : gauge C 2 L := fun x mu => if (mu == 3 :> nat)%N then w_diag else 0.
Definition w_V := fermion_links (fundamental C 2) (@antiperiodic 0 0 0 0 : L -> _) w_links.
Definition w_X : field := fun x a c => ((a == d0) && (c == 0))%:R.
Definition w_Y : field := hermitian_dirac 1 w_V w_X.
Definition w_phi : field := hermitian_dirac 1 w_V w_Y.

Lemma w_phase_conj c : (w_phase c)^* = - w_phase c.
Proof. by rewrite /w_phase; case: ifP => _; rewrite ?rmorphN /= conjCi. Qed.
Lemma w_phase2 c : w_phase c * w_phase c = -1.
Proof. by rewrite /w_phase; case: ifP => _; rewrite ?mulrNN -expr2 sqrCi. Qed.
Lemma w_site (x y : L) : x = y.
Proof. by case: x y => [[[a b] c] d] [[[a' b'] c'] d']; rewrite (ord1 a) (ord1 b) (ord1 c) (ord1 d) (ord1 a') (ord1 b') (ord1 c') (ord1 d'). Qed.
Lemma w_diag_h : htrans w_diag = - w_diag.
Proof.
apply/matrixP => i j; rewrite !mxE eq_sym; case: (altP (i =P j)) => [->|_]; last by rewrite !mulr0n conjC0 oppr0.
by rewrite !mulr1n w_phase_conj.
Qed.
Lemma w_diag2 : w_diag *m w_diag = - 1%:M.
Proof.
rewrite mulmx_diag; apply/matrixP => i j; rewrite !mxE w_phase2.
by case: (i == j); rewrite ?mulr1n ?mulr0n ?oppr0.
Qed.
Lemma w_VE x mu : w_V x mu = if (mu == 3 :> nat)%N then - w_diag else 1%:M.
Proof.
case: x => p t; rewrite /w_V /fermion_links /flip_links /antiperiodic /w_links /= (ord1 t) eqxx andbT.
by case: (_ == _).
Qed.
Lemma mulv1 (f : 'I_2 -> C) c : mulv 1%:M f c = f c.
Proof.
rewrite /mulv (bigD1 c) //= mxE eqxx mul1r big1 ?addr0 // => b /negPf nb.
by rewrite mxE eq_sym nb mul0r.
Qed.
Lemma mulv_diag (f : 'I_2 -> C) c : mulv w_diag f c = w_phase c * f c.
Proof.
rewrite /mulv (bigD1 c) //= !mxE eqxx mulr1n big1 ?addr0 // => b /negPf nb.
by rewrite !mxE eq_sym nb mulr0n mul0r.
Qed.
Lemma mulvNl (A : 'M[C]_2) (f : 'I_2 -> C) c : mulv (- A) f c = - mulv A f c.
Proof. by rewrite /mulv -sumrN; apply: eq_bigr => b _; rewrite mxE mulNr. Qed.
Lemma mulv0l (f : 'I_2 -> C) c : mulv 0 f c = 0.
Proof. by rewrite /mulv big1 // => b _; rewrite mxE mul0r. Qed.
Lemma w_unitary x mu : unitary (w_links x mu).
Proof.
rewrite /unitary daggerE /w_links; case: ifP => _; last by rewrite htrans1 mulmx1.
by rewrite w_diag_h mulmxN w_diag2 opprK.
Qed.
Lemma w_det x mu : \det (w_links x mu) = 1.
Proof.
rewrite /w_links; case: ifP => _; last exact: det1.
by rewrite det_diag !big_ord_recl big_ord0 !mxE /w_phase /= mulr1 mulrN -expr2 sqrCi opprK.
Qed.
Lemma w_anti x mu : anti_hermitian (w_momenta x mu).
Proof.
rewrite /anti_hermitian daggerE /w_momenta; case: ifP => _; first exact: w_diag_h.
by apply/matrixP => i j; rewrite !mxE conjC0 oppr0.
Qed.
Lemma w_tr x mu : traceless (w_momenta x mu).
Proof.
rewrite /traceless /w_momenta; case: ifP => _; last by rewrite mxtrace0.
by rewrite mxtrace_diag !big_ord_recl big_ord0 !mxE /w_phase /= addr0 subrr.
Qed.
Lemma hop_box (W : L -> 'I_4 -> 'M[C]_2) (v : field) x a c : hopping W v x a c =
  \sum_(mu < 4) ((mulv (W x mu) (v x a) c - gact mu a (fun b => mulv (W x mu) (v x b) c))
    + (mulv (htrans (W x mu)) (v x a) c + gact mu a (fun b => mulv (htrans (W x mu)) (v x b) c))).
Proof.
rewrite hoppingE; apply: eq_bigr => mu _.
by rewrite /up /dn (w_site (sup mu x) x) (w_site (sdn mu x) x).
Qed.
(** The operator: - 5 v - 2 phase gamma4 v. *)
Lemma w_dirac (v : field) x a c : dirac 1 w_V v x a c
  = - (1 + 1 + 1 + 1 + 1) * v x a c - (1 + 1) * (w_phase c * gact 3 a (fun b => v x b c)).
Proof.
rewrite /dirac hop_box sum4E !w_VE /= htrans1 htransN w_diag_h opprK mul1r.
move: a; apply: ord4P => /=; rewrite ?mulv1 ?mulvNl ?mulv_diag; move: (w_phase c) => u;
  move: ('i : C) (v x d0 c) (v x d1 c) (v x d2 c) (v x d3 c) => i v0 v1 v2 v3; cring_fold C; ring.
Qed.
Lemma w_WE x mu : w_momenta x mu *m w_V x mu = if (mu == 3 :> nat)%N then 1%:M else 0.
Proof.
rewrite w_VE /w_momenta; case: ifP => _; last by rewrite mul0mx.
by rewrite mulmxN w_diag2 opprK.
Qed.
Lemma w_hopW (v : field) x a c : hopping (fun x mu => w_momenta x mu *m w_V x mu) v x a c = v x a c + v x a c.
Proof.
rewrite hop_box sum4E !w_WE /= htrans1 !htrans0.
move: a; apply: ord4P => /=; rewrite ?mulv1 ?mulv0l;
  move: ('i : C) (v x d0 c) (v x d1 c) (v x d2 c) (v x d3 c) => i v0 v1 v2 v3; cring_fold C; ring.
Qed.
(** The operator is injective. *)
Lemma w_injective (v : field) : feq (hermitian_dirac 1 w_V v) (fun _ _ _ => 0) -> feq v (fun _ _ _ => 0).
Proof.
move=> h x a c.
have D b : dirac 1 w_V v x b c = 0.
  have := h x b c; rewrite /hermitian_dirac g5E => /eqP; rewrite mulf_eq0 => /orP[|/eqP //].
  by rewrite /sgn; case: ifP => _; rewrite ?oppr_eq0 oner_eq0.
have K (p q : C) : - (1 + 1 + 1 + 1 + 1) * p - (1 + 1) * (w_phase c * q) = 0 ->
    - (1 + 1 + 1 + 1 + 1) * q - (1 + 1) * (w_phase c * p) = 0 -> p = 0.
  move=> e1 e2; have E : ((1 + 1 + 1 + 1 + 1) * (1 + 1 + 1 + 1 + 1) + (1 + 1) * (1 + 1)) * p = 0.
    transitivity (- (1 + 1 + 1 + 1 + 1) * (- (1 + 1 + 1 + 1 + 1) * p - (1 + 1) * (w_phase c * q))
       + (1 + 1) * w_phase c * (- (1 + 1 + 1 + 1 + 1) * q - (1 + 1) * (w_phase c * p))); last by rewrite e1 e2 !mulr0 addr0.
    have u2 : cmul (w_phase c) (w_phase c) = copp (c1 C) by exact: w_phase2.
    move: (w_phase c) u2 => u u2; cring_fold C; ring [u2].
  have pos : 0 < (1 + 1 + 1 + 1 + 1) * (1 + 1 + 1 + 1 + 1) + (1 + 1) * (1 + 1) :> C by rewrite ?(addr_gt0, mulr_gt0) ?ltr01.
  by move/eqP: E; rewrite mulf_eq0 gt_eqF //= => /eqP.
have := D d0; have := D d1; have := D d2; have := D d3; rewrite !w_dirac /= => e3 e2 e1 e0.
by move: a; apply: ord4P; [exact: K e0 e2 | exact: K e1 e3 | exact: K e2 e0 | exact: K e3 e1].
Qed.
Lemma w_solves : two_solves 1 w_V w_phi w_X w_Y.
Proof. by []. Qed.
Lemma w_regular : regular 1 w_V 0.
Proof. exact: regular_square w_injective. Qed.
Lemma g5_two (v : field) : feq (g5 (fun x a c => v x a c + v x a c)) (fun x a c => g5 v x a c + g5 v x a c).
Proof. by move=> x a c; rewrite !g5E mulrDr. Qed.
(** The change of the energy along the momenta. *)
Lemma w_slope : slope_term 1 w_V w_momenta w_X = 20%:R.
Proof.
have uV x mu : unitary (w_V x mu).
  by rewrite /unitary daggerE w_VE; case: ifP => _; rewrite ?htrans1 ?mulmx1 // htransN w_diag_h opprK mulNmx w_diag2 opprK.
rewrite /slope_term (trace_derivative 1 w_X (hermitian_dirac 1 w_V w_X) uV w_anti) !mulN1r.
have G (v : field) : feq (g5 (hopping (fun x mu => w_momenta x mu *m w_V x mu) v)) (fun x a c => g5 v x a c + g5 v x a c).
  by move=> x a c; rewrite !g5E w_hopW mulrDr.
have dbl (v w : field) : inner v (fun x a c => w x a c + w x a c) = inner v w + inner v w.
  rewrite -big_split; apply: eq_bigr => x _; rewrite -big_split; apply: eq_bigr => a _; rewrite -big_split.
  by apply: eq_bigr => c _; rewrite mulrDr.
rewrite (inner_ext (fun _ _ _ => erefl) (G _)) (inner_ext (v := hermitian_dirac 1 w_V w_X) (fun _ _ _ => erefl) (G w_X)).
rewrite !dbl [inner _ (g5 w_X)]g5_herm -[inner (g5 _) w_X]inner_conj.
have -> : inner w_X (g5 (hermitian_dirac 1 w_V w_X)) = - 5%:R.
  rewrite (inner_ext (fun _ _ _ => erefl) (g5K _)) /inner.
  pose x0 : L := (ord0, ord0, ord0, ord0).
  rewrite (bigD1 x0) //= [X in _ + X]big1 ?addr0; last by move=> y; rewrite (w_site y x0) eqxx.
  rewrite sum4E /w_X /= !big_ord_recl !big_ord0 /= !conjC0 !mul0r !addr0 rmorph1 mul1r w_dirac /=.
  by rewrite !mulr0 subr0 mulr1 (natrD C 4 1) (natrD C 3 1) (natrD C 2 1) (natrD C 1 1).
by rewrite rmorphN rmorph_nat -!opprD !opprK -!natrD.
Qed.
Lemma w_refuted : ~ is_two_flavor_gradient 1 (fundamental C 2) (@antiperiodic 0 0 0 0 : L -> _) w_links w_momenta w_phi w_Y
  (two_flavor_force (fundamental C 2) 1 (@antiperiodic 0 0 0 0 : L -> _) w_links w_X w_Y).
Proof.
have kR : 1 \is @Num.real C by rewrite real1.
have wp : well_posed 1 w_V [:: (w_phi, [:: (1, 0)])].
  by do 2 (constructor; last constructor); split; rewrite ?real1 ?real0 //; exact: w_regular.
have G := fundamental_gradient (isT : 0 < 2)%N kR w_unitary w_anti w_tr wp (two_solved w_solves).
have H := two_of_n kR w_solves G (fun _ _ => erefl).
move=> W; have := two_unique w_solves H W.
have -> : \sum_x \sum_(mu < 4) 2%:R * retr (w_momenta x mu *m two_flavor_force (fundamental C 2) 1 (@antiperiodic 0 0 0 0 : L -> _) w_links w_X w_Y x mu)
  = - \sum_x \sum_(mu < 4) 2%:R * retr (w_momenta x mu *m nflavor_force (fundamental C 2) 1 (@antiperiodic 0 0 0 0 : L -> _) w_links [:: (w_phi, [:: (1, w_X)])] x mu).
  rewrite -sumrN; apply: eq_bigr => x _; rewrite -sumrN; apply: eq_bigr => mu _; rewrite (two_force _ _ w_solves) /flip_links.
  case: x => p t; rewrite /antiperiodic /w_momenta /= (ord1 t) eqxx andbT; case: (_ == _); last first.
    by rewrite !mul0mx /retr mxtrace0 (raddf0 (Re_additive C)) mulr0 oppr0.
  by rewrite mulmxN /retr (raddfN (mxtrace_additive _ _)) /= (raddfN (Re_additive C)) /= mulrN.
rewrite force_slope //; last exact: w_anti.
have E : slope 1 w_V (fun x mu => rep_algebra (fundamental C 2) (w_momenta x mu)) [:: (w_phi, [:: (1, w_X)])] = 20%:R.
  rewrite /slope !big_seq1 mul1r -w_slope /slope_term; apply: eq_bigr => x _; apply: eq_bigr => mu _.
  by rewrite fund_algebra //; exact: w_tr.
rewrite -/w_V E (Creal_ReP _ (realn _ _)) => /eqP; rewrite -addr_eq0 -natrD.
by rewrite pnatr_eq0.
Qed.
Lemma w_trivial_regular : regular 1 (fermion_links (fundamental C 2) (fun _ _ => false) (fun _ _ => 1%:M : 'M[C]_2) : L -> _) 0.
Proof.
apply: regular_square => v h x a c.
have D : dirac 1 (fermion_links (fundamental C 2) (fun _ _ => false) (fun _ _ => 1%:M : 'M[C]_2) : L -> _) v x a c
   = - (1 + 1 + 1 + 1 + 1 + 1 + 1) * v x a c.
  rewrite /dirac hop_box sum4E /= /fermion_links /flip_links /= htrans1 mul1r.
  move: a; apply: ord4P => /=; rewrite ?mulv1;
    move: ('i : C) (v x d0 c) (v x d1 c) (v x d2 c) (v x d3 c) => i v0 v1 v2 v3; cring_fold C; ring.
have := h x a c; rewrite /hermitian_dirac g5E D mulrA => /eqP; rewrite mulf_eq0 => /orP[|/eqP //].
have pos : 0 < 1 + 1 + 1 + 1 + 1 + 1 + 1 :> C by rewrite !addr_gt0 ?ltr01.
by rewrite mulrN oppr_eq0 mulf_eq0 (gt_eqF pos) orbF /sgn; case: ifP => _; rewrite ?oppr_eq0 oner_eq0.
Qed.
End W.

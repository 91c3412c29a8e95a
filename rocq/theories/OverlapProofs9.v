(** The force of the overlap operator and a case where it has the wrong sign. *)
From Coq Require Import List Ring.
From Verif Require Import Base SolverModel.
From mathcomp Require Import all_ssreflect all_algebra.
From Verif Require Import GaugeModel GaugeSpec GaugeProofs GaugeProofs2 GaugeProofs3 GammaModel DiracModel DiracSpec DiracProofs DiracProofs2
  PertProofs VecProofs AdjModel FForceModel FForceSpec FForceProofs FForceProofs2 FForceWitness OverlapModel OverlapSpec OverlapProofs
  OverlapForceSpec OverlapProofs8.
Import GRing.Theory Num.Theory Order.POrderTheory.
Set Implicit Arguments.
Unset Strict Implicit.
Unset Printing Implicit Defensive.
Local Open Scope ring_scope.

Lemma eta_good (C : numClosedFieldType) (roots : seq C) (scaling : C) : 0 <= 'Re scaling \/ odd (size roots) -> eta roots scaling = 1.
Proof. by rewrite /eta => [[h|->]]; rewrite ?andbF // le_gtF. Qed.
Section Derivative.
Variable C : numClosedFieldType.
Variable n : nat.
Variable L : lattice.
Notation field := (L -> 'I_4 -> 'I_n -> C) (only parsing).
Notation links := (L -> 'I_4 -> 'M[C]_n) (only parsing).
Variables (k : C) (old : field) (roots : seq C) (scaling mass weight : C) (V M Z : links).
Hypothesis kR : k \is Num.real.
Hypothesis mR : mass \is Num.real.
Hypothesis uV : forall x mu, unitary (V x mu).
Hypothesis aM : forall x mu, anti_hermitian (M x mu).
Hypothesis r0 : roots <> nil.
Notation mul := (overlap_multiply k roots scaling old mass true).
Notation derivative := (overlap_derivative k roots scaling old mass V).
Implicit Types (F : links) (X Y : field).
Lemma along_diff F F' : along_ V M F' - along_ V M F = \sum_x \sum_(mu < 4) \tr ((F' x mu - F x mu) *m M x mu *m V x mu).
Proof.
rewrite /along_ -sumrB; apply: eq_bigr => x _; rewrite -sumrB; apply: eq_bigr => mu _.
by rewrite !mulmxBl linearB.
Qed.
Lemma derivative_good F X Y : eta roots scaling = 1 -> is_derivative mul V M Z X Y weight F (derivative F X Y weight).
Proof.
move=> e1; have [K [K0 H]] := force_bound old scaling kR uV aM weight Z mR F X Y r0; exists K; split=> // e er le.
have [a [Ea _]] := multiplyE k old scaling mass true (displaced V M Z e) Y r0.
have [b [Eb _]] := multiplyE k old scaling mass true V Y r0.
by exists a, b; split=> //; rewrite -along_diff; have := H e a b er le Ea Eb; rewrite e1 mul1r.
Qed.
Lemma derivative_bad F X Y : eta roots scaling = -1 -> is_derivative mul V M Z X Y weight (derivative F X Y weight) F.
Proof.
move=> e1; have [K [K0 H]] := force_bound old scaling kR uV aM weight Z mR F X Y r0; exists K; split=> // e er le.
have [a [Ea _]] := multiplyE k old scaling mass true (displaced V M Z e) Y r0.
have [b [Eb _]] := multiplyE k old scaling mass true V Y r0.
exists a, b; split=> //; rewrite -along_diff; have := H e a b er le Ea Eb.
by rewrite e1 mulN1r -normrN opprD opprK -mulrN opprB.
Qed.
(** Both at once only when the derivative vanishes. *)
Lemma derivative_unique F F' X Y : is_derivative mul V M Z X Y weight F F' -> is_derivative mul V M Z X Y weight F' F ->
  \sum_x \sum_(mu < 4) \tr ((F' x mu - F x mu) *m M x mu *m V x mu) = 0.
Proof.
move=> [K1 [K10 H1]] [K2 [K20 H2]]; set S := \sum_x _.
have SN : \sum_x \sum_(mu < 4) \tr ((F x mu - F' x mu) *m M x mu *m V x mu) = - S.
  by rewrite -!along_diff /S -along_diff opprB.
apply/eqP/negPn/negP => S0.
pose K := K1 + K2; have K0 : 0 <= K by rewrite addr_ge0.
pose e := `|S| / (K + `|S|).
have Sp : 0 < `|S| by rewrite normr_gt0.
have Kp : 0 < K + `|S| by rewrite ltr_paddl.
have ep : 0 < e by rewrite divr_gt0.
have e1 : `|e| <= 1 by rewrite (ger0_norm (ltW ep)) /e ler_pdivr_mulr // mul1r ler_addr.
have er : e \is Num.real by rewrite ger0_real // ltW.
have [a [b [Ea Eb h1]]] := H1 e er e1; have [a' [b' [Ea' Eb' h2]]] := H2 e er e1.
rewrite Ea in Ea'; rewrite Eb in Eb'; case: Ea' => ?; case: Eb' => ?; subst a' b'.
rewrite SN in h2; rewrite -/S in h1.
move: (weight * _) h1 h2 => w h1 h2.
have : `|(w + e * S) - (w + e * - S)| <= `|e| ^+ 2 * K.
  by apply: (le_trans (ler_norm_sub _ _)); rewrite /K mulrDr ler_add.
rewrite opprD addrACA subrr add0r mulrN opprK -mulr2n -(mulr_natl (e * S) 2) normrM normr_nat normrM (ger0_norm (ltW ep)).
rewrite mulrCA expr2 -mulrA ler_pmul2l // /e mulrAC ler_pdivl_mulr // => h.
have : `|S| * K < 2%:R * `|S| * (K + `|S|).
  rewrite -mulrA mulrCA ltr_pmul2l // (mulr_natl _ 2) mulr2n.
  by apply: (@lt_le_trans _ _ (K + `|S|)); rewrite ?ltr_addl // ler_addl ltW.
by move=> /(le_lt_trans h); rewrite ltxx.
Qed.
End Derivative.

(** One site, two colours, trivial links and kappa 1/8: the Hermitian Wilson operator is zero, its change is not. *)
Section Witness.
Variable C : numClosedFieldType.
Add Ring CringO9 : (Crth C).
Notation L := (box 0 0 0 0).
Notation field := (L -> 'I_4 -> 'I_2 -> C) (only parsing).
Definition one_links : L -> 'I_4 -> 'M[C]_2 := fun _ _ => 1%:M.
Lemma one_unitary x mu : unitary (one_links x mu).
Proof. by rewrite /unitary daggerE htrans1 mulmx1. Qed.
Lemma eighth_real : 8%:R^-1 \is @Num.real C.
Proof. by rewrite realV realn. Qed.
Lemma one_hopping (v : field) x a c : hopping one_links v x a c = 8%:R * v x a c.
Proof.
rewrite hop_box sum4E /one_links htrans1 (natrD C 4 4) (natrD C 3 1) (natrD C 2 1) (natrD C 1 1).
rewrite mulv1 !mulr1n; move: (gact d0 _ _) (gact d1 _ _) (gact d2 _ _) (gact d3 _ _) (v x a c) => p q r s t; cring_fold C; ring.
Qed.
Lemma one_dirac (v : field) : feq (hermitian_dirac 8%:R^-1 one_links v) (fun _ _ _ => 0).
Proof.
by move=> x a c; rewrite /hermitian_dirac g5E /dirac one_hopping mulKf ?pnatr_eq0 // subrr mulr0.
Qed.
Lemma one_Qm : Qm 8%:R^-1 one_links = 0.
Proof.
apply: mx_ext => v; rewrite -vec_Q (vec_ext (one_dirac v)) mul0mx; exact: vec0.
Qed.
Definition one_W : L -> 'I_4 -> 'M[C]_2 := fun x mu => @w_momenta C x mu *m one_links x mu.
Definition slope_field : field := change 8%:R^-1 one_W (@w_X C).
Lemma slope_entry : slope_field (ord0, ord0, ord0, ord0) d2 0 != 0.
Proof.
rewrite /slope_field /change g5E hop_box sum4E /one_W /w_momenta /one_links /= !mulmx1 !htrans0 w_diag_h /=.
rewrite ?mulv0l ?mulvNl ?mulv_diag /w_X /w_phase /=.
rewrite !(mulr0, mulr1, subr0, addr0, add0r, oppr0, sub0r) mulf_neq0 // ?oppr_eq0 ?invr_eq0 ?pnatr_eq0 //.
apply: mulf_neq0; first by rewrite /sgn /= ?oppr_eq0 oner_eq0.
by rewrite -opprD oppr_eq0 -mulr2n mulrn_eq0 neq0Ci.
Qed.
Variable old : field.
Definition bad_force : L -> 'I_4 -> 'M[C]_2 :=
  overlap_derivative 8%:R^-1 [:: 1; 1] (-1) old 0 one_links (fun _ _ => 0) slope_field (@w_X C) 1.
Lemma bad_eta : eta [:: 1; 1 : C] (-1) = -1.
Proof. by rewrite /eta /= (Creal_ReP _ _) ?rpredN ?rpred1 // ltrN10. Qed.
Lemma bad_slope : \sum_x \sum_(mu < 4) \tr ((bad_force x mu - 0) *m @w_momenta C x mu *m one_links x mu) != 0.
Proof.
rewrite -(along_diff one_links (@w_momenta C) (fun _ _ => 0) bad_force).
rewrite (force_sum old [:: 1; 1] (-1) eighth_real one_unitary (@w_anti C)).
rewrite mulf_neq0 //.
  by rewrite oppr_eq0 mul1r mul0r subr0 invr_eq0 pnatr_eq0.
have -> : S1 8%:R^-1 [:: 1; 1] (-1) one_links (@w_momenta C) *m vec (@w_X C) = vec slope_field.
  rewrite /S1 one_Qm !mul0mx addr0 /= (Creal_ReP _ _) ?rpredN ?rpred1 //.
  rewrite sub0r scaleN1r opprK !mul1mx mulmx1.
  by rewrite /slope_field (vec_op _ (change_lin _ one_W)).
rewrite /change2 -innerE (CrealP _) ?ger0_real ?inner_ge0 // -mulr2n mulrn_eq0 /=.
apply/eqP => /inner_eq0 /(_ (ord0, ord0, ord0, ord0) d2 0) z.
by have := slope_entry; rewrite z eqxx.
Qed.
End Witness.

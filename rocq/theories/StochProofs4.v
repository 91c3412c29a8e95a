(** Proofs: the measured numbers, the diluted noise, the sources and the smearing. *)
From Coq Require Import ZArith.
From mathcomp Require Import all_ssreflect all_algebra.
From Verif Require Import GaugeModel GaugeSpec GaugeProofs GaugeProofs2 LoopModel GammaModel GammaSpec GammaProofs DiracModel DiracSpec DiracProofs DiracProofs2.
From Verif Require Import PertProofs VecProofs StochModel StochSpec StochProofs StochProofs2 StochProofs3.
Import GRing.Theory Num.Theory.
Set Implicit Arguments.
Unset Strict Implicit.
Unset Printing Implicit Defensive.
Local Open Scope ring_scope.

Section Field.
Variable C : numClosedFieldType.
Variable n : nat.
Variable L : lattice.
Notation field := (L -> 'I_4 -> 'I_n -> C) (only parsing).
Notation T := [finType of L * 'I_4 * 'I_n].
Implicit Types (A B D S : field -> field) (v w : field) (i j : T) (t : tape n L).
Section Measured.
Variables D S : field -> field.
Hypothesis linD : linear_on D.
Hypothesis sol : solves D S.
Let linS := lin_solve linD sol.
Lemma condensate_average : average (fun t => m_condensate (measure S t)) = trace_of S / #|L|%:R.
Proof. by rewrite /measure /= avgZr (trace_average linS).1. Qed.
Lemma pseudo_average : average (fun t => m_pseudo (measure S t)) = trace_of (fun v => g5 (S v)) / #|L|%:R.
Proof.
rewrite /measure /= avgZr; congr (_ / _); rewrite -(trace_average (lin_comp (@lin_g5 C n L) linS)).1.
by apply: avg_ext => t; rewrite gamma5dotE dotE.
Qed.
Lemma connected_average : average (fun t => m_connected (measure S t)) = trace_of (fun v => S (S v)) / #|L|%:R.
Proof. by rewrite /measure /= avgZr (trace_average (lin_comp linS linS)).1. Qed.
Lemma pion_average : average (fun t => m_pion (measure S t)) = (\sum_i \sum_j `|element S i j| ^+ 2) / #|L|%:R.
Proof.
rewrite /measure /= avgZr; congr (_ / _).
rewrite (@avg_ext _ _ _ (fun t => \sum_i \sum_j \sum_k (element S i j)^* * element S i k * (sg C t j * sg C t k))); last first.
  move=> t; rewrite dotE inner_at; apply: eq_bigr => i _; rewrite op_expand // rmorph_sum mulr_suml.
  apply: eq_bigr => j _; rewrite mulr_sumr; apply: eq_bigr => k _.
  by rewrite !noise_sg rmorphM sg_conj mulrACA.
rewrite avg_sum; apply: eq_bigr => i _; rewrite avg_sum; apply: eq_bigr => j _; rewrite avg_sum (bigD1 j) //=.
rewrite avgZ avg2 eqxx mulr1 big1 ?addr0 => [|k ne]; first by rewrite mulrC normCK.
by rewrite avgZ avg2 eq_sym (negPf ne) mulr0.
Qed.
(** Singlet operators. *)
Lemma hop_applyE mul v : (forall v, feq (mul v) (D v)) -> feq (hopping_apply mul v) (minus_one D v).
Proof. by move=> h x a c; rewrite /hopping_apply h. Qed.
Variable mul : field -> field.
Hypothesis mulE : forall v, feq (mul v) (D v).
Lemma hop_iterE h v : feq (iter h (hopping_apply mul) v) (iter h (minus_one D) v).
Proof.
elim: h => [|h IH] //= x a c; rewrite hop_applyE //; exact: (lin_minus linD).1.
Qed.
Lemma term_dot k h v t : (k < 16)%N ->
  dot (noise C t) (gamma_multiply k (iter h (hopping_apply mul) v)) = inner (noise C t) (spin_product k (iter h (minus_one D) v)).
Proof.
move=> k16; rewrite dotE; apply: inner_ext => // x a c; rewrite gamma_spin //.
exact: (@lin_spin C n L k).1 (hop_iterE _ _) x a c.
Qed.
Lemma disconnected_average kappa h k : (k < 16)%N ->
  average (disconnected S mul kappa h k) = 2%:R * kappa * trace_of (fun v => spin_product k (iter h (minus_one D) (S v))).
Proof.
move=> k16; rewrite /disconnected avgZr mulrC; congr (_ * _).
rewrite -(trace_average (lin_comp (@lin_spin C n L k) (lin_comp (lin_iter h (lin_minus linD)) linS))).1.
by apply: avg_ext => t; rewrite term_dot // dotE.
Qed.
Lemma hopping_average kappa h k : (k < 16)%N ->
  average (hopping_term mul kappa h k) = 2%:R * kappa * trace_of (fun v => spin_product k (iter h (minus_one D) v)).
Proof.
move=> k16; rewrite /hopping_term avgZ; congr (_ * _).
rewrite -(trace_average (lin_comp (@lin_spin C n L k) (lin_iter h (lin_minus linD)))).1.
by apply: avg_ext => t; rewrite term_dot // dotE.
Qed.
Lemma expansion kappa h k t : (k < 16)%N ->
  disconnected S mul kappa 0 k t = \sum_(j < h) (-1) ^+ j * hopping_term mul kappa j k t + (-1) ^+ h * disconnected S mul kappa h k t.
Proof.
move=> k16; elim: h => [|h IH]; first by rewrite big_ord0 add0r expr0 mul1r.
rewrite IH big_ord_recr /= -addrA; congr (_ + _).
rewrite /disconnected /hopping_term !term_dot // exprSr -[X in _ = _ + X]mulrA -mulrDr; congr (_ * _).
have e : inner (noise C t) (spin_product k (iter h (minus_one D) (S (noise C t))))
   = inner (noise C t) (spin_product k (iter h (minus_one D) (noise C t)))
     - inner (noise C t) (spin_product k (iter h.+1 (minus_one D) (S (noise C t)))).
  have l := lin_comp (@lin_spin C n L k) (lin_iter h (lin_minus linD)).
  rewrite (inner_ext (fun _ _ _ => erefl) (l.1 _ _ (hop_step (noise C t) sol))).
  rewrite (inner_ext (fun _ _ _ => erefl) (l.2 _ _ _)) inner_combine mulN1r -iterSr //.
by rewrite e mulrBl mulN1r [X in X - _]mulrC.
Qed.
End Measured.
(** Reality for an operator that is Hermitian after multiplication by gamma5. *)
Lemma g5_unit j : feq (g5 (unit_field C j)) (fun x a c => sgn C j.1.2 * unit_field C j x a c).
Proof.
move=> x a c; rewrite g5E /unit_field; case: (altP ((x, a, c) =P j)) => [<-|_] //; by rewrite !mulr0.
Qed.
Lemma inner_unit j v : inner (unit_field C j) v = at_ v j.
Proof.
rewrite inner_at (bigD1 j) //= big1 => [|i ne]; last first.
  by case: i ne => [[x a] c] ne; rewrite /at_ /unit_field /= (negPf ne) rmorph0 mul0r.
by case: j => [[x a] c]; rewrite /at_ /unit_field /= eqxx rmorph1 mul1r addr0.
Qed.
Lemma diagonal_real D S j : linear_on D -> solves D S -> (forall v w, inner v (g5 (D w)) = inner (g5 (D v)) w) ->
  (element S j j)^* = element S j j.
Proof.
move=> linD sol herm.
have h := herm (S (unit_field C j)) (S (unit_field C j)).
have e1 := @lin_g5 C n L.
rewrite (inner_ext (fun _ _ _ => erefl) (e1.1 _ _ (sol _))) (inner_ext (e1.1 _ _ (sol _)) (fun _ _ _ => erefl)) in h.
rewrite -(g5_herm _ (S _)) inner_unit -[X in X = _]conjCK inner_conj -g5_herm inner_unit in h.
move: h; rewrite /at_ !g5E -/(element S j j) rmorphM sgn_conj.
have s0 : sgn C j.1.2 != 0 by rewrite /sgn; case: ifP => _; rewrite ?oppr_eq0 oner_eq0.
by move/(mulfI s0).
Qed.
Lemma element_g5 S i j : element (fun v => g5 (S v)) i j = sgn C i.1.2 * element S i j.
Proof. by rewrite /element g5E. Qed.
Lemma trace_real D S : linear_on D -> solves D S -> (forall v w, inner v (g5 (D w)) = inner (g5 (D v)) w) ->
  trace_of S \is Num.real /\ trace_of (fun v => g5 (S v)) \is Num.real.
Proof.
move=> linD sol herm; have R j := diagonal_real j linD sol herm; split.
  by apply/CrealP; rewrite /trace_of rmorph_sum; apply: eq_bigr => j _; rewrite R.
by apply/CrealP; rewrite /trace_of rmorph_sum; apply: eq_bigr => j _; rewrite element_g5 rmorphM sgn_conj R.
Qed.
Lemma lin_dirac kappa (U : L -> 'I_4 -> 'M[C]_n) : linear_on (dirac kappa U).
Proof. by split=> [v w h|al v w]; [exact: dirac_ext|exact: dirac_linear]. Qed.

(** Smearing. *)
Section Smear.
Variables (U : L -> 'I_4 -> 'M[C]_n) (alpha : C) (dir : Z) (K : C).
Lemma smear_levelE v x a c : smear_level U alpha dir K v x a c =
  K * (v x a c + alpha * \sum_(nu < 4 | ~~ Z.eqb (Z.of_nat nu) dir) (up U v x nu a c + dn U v x nu a c)).
Proof. by rewrite /smear_level mulr_sumr; congr (_ * (_ + _)); apply: eq_bigr => nu _; rewrite mulrDr. Qed.
Lemma up_ext v w x mu b : feq v w -> up U v x mu b =1 up U w x mu b.
Proof. by move=> h c; apply: mulv_ext => d; rewrite h. Qed.
Lemma dn_ext v w x mu b : feq v w -> dn U v x mu b =1 dn U w x mu b.
Proof. by move=> h c; apply: mulv_ext => d; rewrite h. Qed.
Lemma smear_linear : linear_on (smear_level U alpha dir K).
Proof.
split=> [v w h|al v w] x a c; rewrite !smear_levelE.
  by rewrite h; congr (_ * (_ + _ * _)); apply: eq_bigr => nu _; rewrite (up_ext _ _ _ h) (dn_ext _ _ _ h).
rewrite /combine !smear_levelE mulrCA -mulrDr; congr (_ * _).
rewrite (eq_bigr (fun nu => (up U v x nu a c + dn U v x nu a c) + al * (up U w x nu a c + dn U w x nu a c))); last first.
  by move=> nu _; rewrite /up /dn !mulvD !mulvZ mulrDr addrACA.
rewrite big_split /= -mulr_sumr mulrDr [al * (_ + _)]mulrDr addrACA; congr (_ + (_ + _)); exact: mulrCA.
Qed.
Lemma smear_herm v w : alpha \is Num.real -> K \is Num.real ->
  inner v (smear_level U alpha dir K w) = inner (smear_level U alpha dir K v) w.
Proof.
move=> ar kr.
pose hop p q := \sum_(nu < 4 | ~~ Z.eqb (Z.of_nat nu) dir) (\sum_x \sum_(a < 4) \sum_c ((p x a c)^* * up U q x nu a c + (p x a c)^* * dn U q x nu a c)).
have E p q : inner p (smear_level U alpha dir K q) = K * (inner p q + alpha * hop p q).
  have -> : hop p q = \sum_x \sum_(a < 4) \sum_c (p x a c)^* * \sum_(nu < 4 | ~~ Z.eqb (Z.of_nat nu) dir) (up U q x nu a c + dn U q x nu a c).
    rewrite /hop exchange_big; apply: eq_bigr => x _; rewrite exchange_big; apply: eq_bigr => a _.
    rewrite exchange_big; apply: eq_bigr => c _; rewrite mulr_sumr; apply: eq_bigr => nu _; by rewrite mulrDr.
  rewrite /inner !mulr_sumr -big_split mulr_sumr; apply: eq_bigr => x _ /=.
  rewrite !mulr_sumr -big_split mulr_sumr; apply: eq_bigr => a _ /=.
  rewrite !mulr_sumr -big_split mulr_sumr; apply: eq_bigr => c _ /=.
  by rewrite smear_levelE mulrCA mulrDr [X in _ * (_ + X)]mulrCA.
rewrite -[RHS]conjCK inner_conj !E rmorphM rmorphD rmorphM inner_conj (CrealP ar) (CrealP kr); congr (_ * (_ + _ * _)).
have A1 nu p q : (\sum_x \sum_(a < 4) \sum_c (p x a c)^* * up U q x nu a c)^* = \sum_x \sum_(a < 4) \sum_c (q x a c)^* * dn U p x nu a c.
  rewrite [RHS](reindex (sup nu)) /=; last by exists (sdn nu) => y _; rewrite ?supK ?sdnK.
  rewrite rmorph_sum; apply: eq_bigr => x _; rewrite rmorph_sum; apply: eq_bigr => a _; rewrite rmorph_sum.
  rewrite (eq_bigr (fun c => \sum_d p x a c * ((U x nu c d)^* * (q (sup nu x) a d)^*))); last first.
    by move=> c _; rewrite rmorphM conjCK rmorph_sum mulr_sumr; apply: eq_bigr => d _; rewrite rmorphM.
  rewrite exchange_big; apply: eq_bigr => d _; rewrite /dn /mulv supK mulr_sumr; apply: eq_bigr => c _.
  by rewrite !mxE mulrA mulrC [p x a c * _]mulrC.
have A2 nu p q : (\sum_x \sum_(a < 4) \sum_c (p x a c)^* * dn U q x nu a c)^* = \sum_x \sum_(a < 4) \sum_c (q x a c)^* * up U p x nu a c.
  by rewrite -A1 conjCK.
have S3 nu p q : \sum_x \sum_(a < 4) \sum_c ((p x a c)^* * up U q x nu a c + (p x a c)^* * dn U q x nu a c)
  = (\sum_x \sum_(a < 4) \sum_c (p x a c)^* * up U q x nu a c) + \sum_x \sum_(a < 4) \sum_c (p x a c)^* * dn U q x nu a c.
  by rewrite -big_split; apply: eq_bigr => x _ /=; rewrite -big_split; apply: eq_bigr => a _ /=; rewrite -big_split.
rewrite /hop rmorph_sum; apply: eq_bigr => nu _; by rewrite !S3 rmorphD A1 A2 addrC.
Qed.
Lemma smear_restrict (P : L -> bool) v : (forall nu x, ~~ Z.eqb (Z.of_nat (nat_of_ord nu)) dir -> P (sup nu x) = P x) ->
  feq (smear_level U alpha dir K (restrict P v)) (restrict P (smear_level U alpha dir K v)).
Proof.
move=> h x a c; rewrite /restrict !smear_levelE.
have z (A : 'M[C]_n) f : (forall d, f d = 0) -> mulv A f c = 0 by move=> f0; rewrite /mulv big1 // => d _; rewrite f0 mulr0.
case: ifP => Px.
  congr (_ * (_ + _ * _)); apply: eq_bigr => nu hn; rewrite /up /dn; congr (_ + _); apply: mulv_ext => d.
    by rewrite h // Px.
  by rewrite -(h nu) // sdnK Px.
rewrite add0r big1 ?mulr0 // => nu hn; rewrite /up /dn !z ?addr0 // => d.
  by rewrite -(h nu) // sdnK Px.
by rewrite h // Px.
Qed.
End Smear.
Lemma smear_gauge om (U : L -> 'I_4 -> 'M[C]_n) alpha dir K v : (forall y, unitary (om y)) ->
  feq (smear_level (gauge_transform om U) alpha dir K (rotate om v)) (rotate om (smear_level U alpha dir K v)).
Proof.
move=> H x a c; rewrite smear_levelE.
rewrite (eq_bigr (fun nu => mulv (om x) (fun d => up U v x nu a d + dn U v x nu a d) c)); last first.
  by move=> nu _; rewrite up_gauge // dn_gauge // mulvD.
rewrite [RHS](_ : _ = mulv (om x) (smear_level U alpha dir K v x a) c) //.
rewrite (mulv_ext _ (smear_levelE U alpha dir K v x a)) mulvZ mulvD mulvZ; congr (_ * (_ + _ * _)).
rewrite /mulv exchange_big; apply: eq_bigr => d _; by rewrite mulr_sumr.
Qed.
End Field.

Section Sources.
Variable C : numClosedFieldType.
Variable n : nat.
Variable G : grid.
Notation field := (G -> 'I_4 -> 'I_n -> C) (only parsing).
Notation T := [finType of G * 'I_4 * 'I_n].
Implicit Types (A : field -> field) (t : tape n G) (i j : T).
Definition masked (P : pred T) t : field := fun x a c => if P (x, a, c) then draw C t x a c else 0.
Lemma masked_at P t j : at_ (masked P t) j = if P j then sg C t j else 0.
Proof. by case: j => [[x a] c]. Qed.
Lemma masked_form P A t : linear_on A -> dot (masked P t) (A (masked P t)) = form P (element A) t.
Proof.
move=> lin; rewrite dotE inner_at /form big_mkcond [RHS]big_mkcond /=; apply: eq_bigr => i _.
rewrite masked_at; case: ifP => Pi; last by rewrite rmorph0 mul0r.
rewrite sg_conj op_expand // mulr_sumr [RHS]big_mkcond /=; apply: eq_bigr => j _; rewrite masked_at; case: ifP => // _; by rewrite !mulr0.
Qed.
Lemma spread_ext (X : finType) (f g : X -> C) : f =1 g -> spread f = spread g.
Proof. by move=> h; rewrite /spread (avg_ext h); apply: avg_ext => t; rewrite h. Qed.
Definition slab (t0 t1 : Z) : pred T := fun j => Z.leb t0 (globalIndexT j.1.1) && Z.ltb (globalIndexT j.1.1) t1.
Definition slice (t0 : Z) : pred T := fun j => Z.eqb (globalIndexT j.1.1) t0.
Lemma slab_estimate (t0 t1 : Z) A : linear_on A ->
  average (fun t => dot (noise_slab C t0 t1 t) (A (noise_slab C t0 t1 t))) = trace_on (slab t0 t1) A
  /\ spread (fun t => dot (noise_slab C t0 t1 t) (A (noise_slab C t0 t1 t)))
     = \sum_(i | slab t0 t1 i) \sum_(j | slab t0 t1 j && (j != i)) (`|element A i j| ^+ 2 + element A i j * (element A j i)^*).
Proof.
move=> lin; have e t : dot (noise_slab C t0 t1 t) (A (noise_slab C t0 t1 t)) = form (slab t0 t1) (element A) t by exact: masked_form.
by rewrite (avg_ext e) (spread_ext e) avg_form spread_form.
Qed.
Definition slice_spin (t0 : Z) (nu : 'I_4) : pred T := fun j => (nu == j.1.2) && slice t0 j.
Lemma diluted_estimate (t0 : Z) A : linear_on A ->
  average (fun t => \sum_nu dot (noise_diluted C t0 t nu) (A (noise_diluted C t0 t nu))) = trace_on (slice t0) A
  /\ spread (fun t => \sum_nu dot (noise_diluted C t0 t nu) (A (noise_diluted C t0 t nu)))
     = \sum_(i | slice t0 i) \sum_(j | slice t0 j && (j.1.2 == i.1.2) && (j != i)) (`|element A i j| ^+ 2 + element A i j * (element A j i)^*).
Proof.
move=> lin; pose A' i j := if j.1.2 == i.1.2 then element A i j else 0.
have e t : \sum_nu dot (noise_diluted C t0 t nu) (A (noise_diluted C t0 t nu)) = form (slice t0) A' t.
  rewrite (eq_bigr (fun nu => form (slice_spin t0 nu) (element A) t)); last by move=> nu _; exact: masked_form.
  rewrite /form (eq_bigr (fun nu => \sum_(i | slice t0 i) (if nu == i.1.2 then \sum_(j | slice_spin t0 nu j) sg C t i * (element A i j * sg C t j) else 0))); last first.
    by move=> nu _; rewrite -big_mkcondr /=; apply: eq_bigl => i; rewrite /slice_spin andbC.
  rewrite exchange_big; apply: eq_bigr => i _ /=; rewrite -big_mkcond /= (big_pred1 i.1.2) //.
  rewrite /slice_spin [LHS]big_mkcond [RHS]big_mkcond /=; apply: eq_bigr => j _; rewrite /A' [j.1.2 == _]eq_sym.
  by case: (slice t0 j); case: (_ == _); rewrite ?mul0r ?mulr0.
rewrite (avg_ext e) (spread_ext e) avg_form spread_form; split.
  by apply: eq_bigr => i _; rewrite /A' eqxx.
apply: eq_bigr => i _; rewrite [LHS]big_mkcond [RHS]big_mkcond /=; apply: eq_bigr => j _; rewrite /A' [i.1.2 == _]eq_sym.
case: (slice t0 j) => //=; case: (j.1.2 == _) => //=; case: (j != i) => //.
by rewrite normr0 expr0n mul0r addr0.
Qed.
Lemma point_sourceE (o : G) alpha c : (forall mu, coord o mu = 0%N) -> feq (@point_source C n G alpha c) (unit_field C (o, alpha, c)).
Proof.
move=> h x a e; rewrite /point_source /unit_field.
have -> : ((x, a, e) == (o, alpha, c)) = (x == o) && (a == alpha) && (e == c) by [].
have -> : (x == o) = (coord x d0 == 0%N) && (coord x d1 == 0%N) && (coord x d2 == 0%N) && (coord x d3 == 0%N).
  apply/eqP/idP => [->|]; first by rewrite !h.
  move=> /andP [/andP [/andP [/eqP h0 /eqP h1] /eqP h2] /eqP h3]; apply: coord_inj; apply: ord4P; rewrite h //.
by case: (_ && _).
Qed.
End Sources.

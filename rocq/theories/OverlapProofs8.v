(** The force of the overlap operator: the first order change of the sign function with the links. *)
From Coq Require Import List Ring.
From Verif Require Import Base SolverModel.
From mathcomp Require Import all_ssreflect all_algebra.
From Verif Require Import GaugeModel GaugeSpec GaugeProofs GaugeProofs2 GammaModel DiracModel DiracSpec DiracProofs DiracProofs2 SolverSpec SolverProofs
  PertProofs VecProofs AdjModel FForceModel FForceSpec FForceProofs FForceProofs2 OverlapModel OverlapSpec OverlapProofs OverlapProofs2 OverlapProofs4.
Import GRing.Theory Num.Theory Order.POrderTheory.
Set Implicit Arguments.
Unset Strict Implicit.
Unset Printing Implicit Defensive.
Local Open Scope ring_scope.

(** ** Families of matrices to first order. *)
Section First.
Variable C : numClosedFieldType.
Add Ring fo_ring : (Crth C).
Definition fo m k (A : C -> 'M[C]_(m, k)) (A0 A1 : 'M[C]_(m, k)) : Prop :=
  exists K, 0 <= K /\ forall e, e \is Num.real -> `|e| <= 1 -> nrm (A e - (A0 + e *: A1)) <= `|e| ^+ 2 * K.
Lemma fo_ext m k (A B : C -> 'M[C]_(m, k)) A0 A1 : (forall e, e \is Num.real -> A e = B e) -> fo A A0 A1 -> fo B A0 A1.
Proof. by move=> h [K [K0 b]]; exists K; split=> // e er le; rewrite -h //; exact: b. Qed.
Lemma nrm0 m k : nrm (0 : 'M[C]_(m, k)) = 0.
Proof. by rewrite /nrm big1 // => i _; rewrite big1 // => j _; rewrite mxE normr0. Qed.
Lemma fo_const m k (A0 : 'M[C]_(m, k)) : fo (fun _ => A0) A0 0.
Proof. by exists 0; split=> // e _ _; rewrite scaler0 addr0 subrr nrm0 mulr0. Qed.
Lemma fo_quadratic m k (A0 A1 A2 : 'M[C]_(m, k)) : fo (fun e => A0 + e *: (A1 + e *: A2)) A0 A1.
Proof.
exists (nrm A2); split; first exact: nrm_ge0; move=> e er le.
by rewrite scalerDr addrA addrC addKr scalerA -expr2 nrmZ normrX.
Qed.
Lemma foZ m k (A : C -> 'M[C]_(m, k)) A0 A1 (z : C) : fo A A0 A1 -> fo (fun e => z *: A e) (z *: A0) (z *: A1).
Proof.
move=> [K [K0 b]]; exists (`|z| * K); split; first by rewrite mulr_ge0.
move=> e er le; rewrite (scalerA e) (mulrC e) -scalerA -scalerDr -scalerBr nrmZ mulrCA.
by apply: ler_wpmul2l (b e er le); exact: normr_ge0.
Qed.
Lemma foB m k (A : C -> 'M[C]_(m, k)) A0 A1 (B : 'M[C]_(m, k)) : fo A A0 A1 -> fo (fun e => A e - B) (A0 - B) A1.
Proof.
move=> [K [K0 b]]; exists K; split=> // e er le.
have -> : A e - B - (A0 - B + e *: A1) = A e - (A0 + e *: A1) by apply/matrixP => i j; rewrite !mxE; cring_fold C; ring.
exact: b.
Qed.
Lemma foM m k l (A : C -> 'M[C]_(m, k)) (B : C -> 'M[C]_(k, l)) A0 A1 B0 B1 : fo A A0 A1 -> fo B B0 B1 ->
  fo (fun e => A e *m B e) (A0 *m B0) (A1 *m B0 + A0 *m B1).
Proof.
move=> [Ka [Ka0 a]] [Kb [Kb0 b]].
exists (nrm A0 * Kb + nrm A1 * nrm B1 + nrm A1 * Kb + Ka * (nrm B0 + nrm B1 + Kb)).
split; first by rewrite !addr_ge0 // ?mulr_ge0 ?addr_ge0 ?nrm_ge0.
move=> e er le; have := a e er le; have := b e er le.
set Ra := A e - _; set Rb := B e - _ => hb ha.
have eA : A e = A0 + e *: A1 + Ra by rewrite /Ra addrC subrK.
have eB : B e = B0 + e *: B1 + Rb by rewrite /Rb addrC subrK.
have -> : A e *m B e - (A0 *m B0 + e *: (A1 *m B0 + A0 *m B1)) =
    A0 *m Rb + e *: (e *: (A1 *m B1)) + e *: (A1 *m Rb) + Ra *m (B0 + e *: B1 + Rb).
  rewrite eA eB !mulmxDl !mulmxDr -!scalemxAl -!scalemxAr.
  move: (A0 *m B0) (A0 *m B1) (A0 *m Rb) (A1 *m B0) (A1 *m B1) (A1 *m Rb) (Ra *m B0) (Ra *m B1) (Ra *m Rb) => p q r s t u v w y.
  apply/matrixP => i j; rewrite !mxE.
  move: (p i j) (q i j) (r i j) (s i j) (t i j) (u i j) (v i j) (w i j) (y i j) => {}p {}q {}r {}s {}t {}u {}v {}w {}y.
  by cring_fold C; ring.
have e2 : `|e| ^+ 2 <= 1 by rewrite expr_le1.
have e20 : 0 <= `|e| ^+ 2 by rewrite exprn_ge0.
clearbody Ra Rb.
rewrite mulrDr; apply: (le_trans (nrmD _ _)); apply: ler_add; last first.
  apply: (le_trans (nrmM _ _)); rewrite mulrA.
  apply: ler_pmul; [exact: nrm_ge0|exact: nrm_ge0|exact: ha|].
  apply: (le_trans (nrmD _ _)); apply: ler_add; last by apply: (le_trans hb); rewrite ler_pimull.
  by apply: (le_trans (nrmD _ _)); rewrite ler_add2l nrmZ ler_pimull // nrm_ge0.
rewrite mulrDr; apply: (le_trans (nrmD _ _)); apply: ler_add; last first.
  rewrite nrmZ; apply: (@le_trans _ _ (nrm (A1 *m Rb))); first by rewrite ler_pimull // nrm_ge0.
  by apply: (le_trans (nrmM _ _)); rewrite mulrCA; apply: ler_wpmul2l hb; exact: nrm_ge0.
rewrite mulrDr; apply: (le_trans (nrmD _ _)); apply: ler_add.
  by apply: (le_trans (nrmM _ _)); rewrite mulrCA; apply: ler_wpmul2l hb; exact: nrm_ge0.
by rewrite scalerA -expr2 nrmZ normrX; apply: ler_wpmul2l => //; exact: nrmM.
Qed.
End First.

(** ** Products of the factors of a polynomial. *)
Section Chain.
Variable C : numClosedFieldType.
Variable m : nat.
Variable s : C.
Implicit Types (A B : 'M[C]_m) (zs : seq C).
Fixpoint chain A zs : 'M[C]_m := if zs is z :: zs' then chain A zs' *m (s *: (A - z%:M)) else 1%:M.
Fixpoint dchain A B zs : 'M[C]_m :=
  if zs is z :: zs' then dchain A B zs' *m (s *: (A - z%:M)) + chain A zs' *m (s *: B) else 0.
Lemma fo_chain (A : C -> 'M[C]_m) A0 A1 zs : fo A A0 A1 -> fo (fun e => chain (A e) zs) (chain A0 zs) (dchain A0 A1 zs).
Proof.
move=> h; elim: zs => [|z zs IH] /=; first exact: fo_const.
by apply: foM => //; apply: foZ; exact: foB.
Qed.
Lemma chain_cat A xs ys : chain A (xs ++ ys) = chain A ys *m chain A xs.
Proof. by elim: xs => [|x xs IH] /=; rewrite ?mulmx1 // IH mulmxA. Qed.
Lemma dchain_sum A B zs : dchain A B zs = \sum_(i < size zs) s *: (chain A (drop i.+1 zs) *m B *m chain A (take i zs)).
Proof.
elim: zs => [|z zs IH]; first by rewrite big_ord0.
rewrite [size _]/= big_ord_recl [dchain _ _ _]/= addrC; congr (_ + _); first by rewrite /= drop0 mulmx1 -scalemxAr.
rewrite IH mulmx_suml; apply: eq_bigr => i _.
by rewrite lift0 /= -scalemxAl mulmxA.
Qed.
Lemma chain_herm A zs : htrans A = A -> s \is Num.real -> htrans (chain A (map conjC (rev zs))) = chain A zs.
Proof.
move=> h sR; elim: zs => [|z zs IH]; first by rewrite /= htrans1.
rewrite rev_cons map_rcons -cats1 chain_cat htransM IH [chain A (z :: zs)]/=; congr (_ *m _).
by rewrite /= mul1mx htransZ htransB h htrans_scalar conjCK (CrealP sR).
Qed.
Lemma polymx_root (q : {poly C}) A z : polymx (('X - z%:P) * q) A = polymx q A *m (A - z%:M).
Proof.
rewrite polymx_comm; last by rewrite mulmxBl mulmxBr scalar_mxC.
apply/matrixP => i j.
have /matrixP/(_ i ord0) : polymx (('X - z%:P) * q) A *m (delta_mx j ord0 : 'cV_m) = ((A - z%:M) *m polymx q A) *m delta_mx j ord0.
  rewrite -poly_applyP -mulmxA -poly_applyP.
  have h := @mad_root _ _ (mulmx A) (fun u w al => A *m u + al *: w) q z 1 (delta_mx j ord0) (mulmx_lin A) (fun _ _ _ => erefl _).
  rewrite scale1r polyC1 mul1r in h; rewrite -h mulmxBl mul_scalar_mx scaleNr //.
by rewrite -!colE !mxE.
Qed.
Lemma polymxZ (q : {poly C}) z A : polymx (z *: q) A = z *: polymx q A.
Proof.
apply/matrixP => i j.
have /matrixP/(_ i ord0) : polymx (z *: q) A *m (delta_mx j ord0 : 'cV_m) = (z *: polymx q A) *m delta_mx j ord0.
  by rewrite -poly_applyP -scalemxAl -poly_applyP poly_applyZ.
by rewrite -!colE !mxE.
Qed.
Lemma polymx1 A : polymx 1 A = 1%:M.
Proof. by rewrite /polymx size_poly1 big_ord_recl big_ord0 coefC /= scale1r addr0. Qed.
Lemma chain_poly A zs : chain A zs = s ^+ size zs *: polymx (\prod_(z <- zs) ('X - z%:P)) A.
Proof.
elim: zs => [|z zs IH]; first by rewrite big_nil polymx1 scale1r.
by rewrite big_cons polymx_root /= IH -scalemxAl -scalemxAr scalerA exprSr.
Qed.
End Chain.

(** ** The derivative on the lattice. *)
Section Force.
Variable C : numClosedFieldType.
Variable n : nat.
Variable L : lattice.
Notation field := (L -> 'I_4 -> 'I_n -> C) (only parsing).
Notation links := (L -> 'I_4 -> 'M[C]_n) (only parsing).
Notation T := [finType of L * 'I_4 * 'I_n].
Notation N := #|T|.
Add Ring force_ring : (Crth C).
Variables (k : C) (old : field) (roots : seq C) (scaling : C).
Hypothesis kR : k \is Num.real.
Notation s := ('Re scaling).
Implicit Types (V M W Z : links) (X Y v w : field).
Definition step V (t : field) (z : C) : field := fun x a c => s * square5_add k old V t t (- z) x a c.
Lemma step_vec V t z : vec (step V t z) = s *: (Qm k V *m Qm k V - z%:M) *m vec t.
Proof. by rewrite /step vecZ square5E -scalemxAl mulmxBl mul_scalar_mx scaleNr. Qed.
Lemma steps_vec V zs t : vec (foldl (step V) t zs) = chain s (Qm k V *m Qm k V) zs *m vec t.
Proof. by elim: zs t => [|z zs IH] t /=; rewrite ?mul1mx // IH step_vec mulmxA. Qed.
Lemma root_vectorsE V zs v (d : field) i : (i <= size zs)%N -> nth d (root_vectors k old V s zs v) i = foldl (step V) v (take i zs).
Proof. by case: i => [|i] h /=; rewrite ?take0 // nth_scanl. Qed.
Lemma root_vectors_vec V zs v (d : field) i : (i <= size zs)%N ->
  vec (nth d (root_vectors k old V s zs v) i) = chain s (Qm k V *m Qm k V) (take i zs) *m vec v.
Proof. by move=> h; rewrite root_vectorsE // steps_vec. Qed.
Lemma root_vectors_last V zs v (d : field) :
  vec (last d (root_vectors k old V s zs v)) = chain s (Qm k V *m Qm k V) zs *m vec v.
Proof.
by rewrite -nth_last /= size_scanl root_vectors_vec // take_size.
Qed.

Variables (V M : links).
Hypothesis uV : forall x mu, unitary (V x mu).
Hypothesis aM : forall x mu, anti_hermitian (M x mu).
Let W : links := fun x mu => M x mu *m V x mu.
Definition Bm : 'M[C]_N := opmx (change k W).
Definition along_ (F : links) : C := \sum_x \sum_(mu < 4) \tr (F x mu *m M x mu *m V x mu).
Lemma alongB F (z : C) G : along_ (fun x mu => F x mu - z *: G x mu) = along_ F - z * along_ G.
Proof.
rewrite /along_ mulr_sumr -sumrB; apply: eq_bigr => x _; rewrite mulr_sumr -sumrB; apply: eq_bigr => mu _.
by rewrite !mulmxBl -!scalemxAl linearB /= linearZ.
Qed.
Lemma along_wilson X Y : along_ (wilson_derivative k V X Y) = quad (vec X) (Bm *m vec Y) + quad (vec Y) (Bm *m vec X).
Proof.
rewrite /along_ trace_derivative // -/W.
have cE v w : - k * inner v (g5 (hopping W w)) = inner v (change k W w).
  rewrite /inner mulr_sumr; apply: eq_bigr => x _; rewrite mulr_sumr; apply: eq_bigr => a _; rewrite mulr_sumr.
  by apply: eq_bigr => c _; rewrite /change mulrCA.
by rewrite !cE !innerE !(vec_op _ (change_lin k W)).
Qed.
Lemma change_herm v w : inner v (change k W w) = inner (change k W v) w.
Proof.
have cE u x a c : change k W u x a c = hermitian_dirac k W u x a c - g5 u x a c by rewrite QE addrAC subrr add0r.
have l : inner v (change k W w) = inner v (hermitian_dirac k W w) - inner v (g5 w).
  rewrite /inner -sumrB; apply: eq_bigr => x _; rewrite -sumrB; apply: eq_bigr => a _; rewrite -sumrB.
  by apply: eq_bigr => c _; rewrite cE mulrBr.
have r : inner (change k W v) w = inner (hermitian_dirac k W v) w - inner (g5 v) w.
  rewrite /inner -sumrB; apply: eq_bigr => x _; rewrite -sumrB; apply: eq_bigr => a _; rewrite -sumrB.
  by apply: eq_bigr => c _; rewrite cE rmorphB mulrBl.
by rewrite l r (Q_herm kR) g5_herm.
Qed.
Lemma Bm_herm : htrans Bm = Bm.
Proof. by apply: opmx_herm; [exact: change_lin|exact: change_herm]. Qed.
Lemma quad_swap (A : 'M[C]_N) (u w : 'cV[C]_N) : htrans A = A -> quad u (A *m w) = quad (A *m u) w.
Proof. by move=> h; rewrite /quad htransM h mulmxA. Qed.
Lemma quad_conj (u w : 'cV[C]_N) : quad u w = (quad w u)^*.
Proof.
rewrite /quad !mxE rmorph_sum; apply: eq_bigr => i _.
by rewrite !mxE rmorphM conjCK mulrC.
Qed.
Lemma quadZ (u w : 'cV[C]_N) z : quad u (z *: w) = z * quad u w.
Proof. by rewrite /quad -scalemxAr mxE. Qed.
Lemma quad_sum (u : 'cV[C]_N) m (f : 'I_m -> 'cV[C]_N) : quad u (\sum_i f i) = \sum_i quad u (f i).
Proof. by rewrite /quad mulmx_sumr summxE. Qed.

Variables (mass weight : C).
Notation Q := (Qm k V).
Notation factor := (weight * (2%:R^-1 - mass / 2%:R)).
(** The first order change of Q times the product of the factors. *)
Definition S1 : 'M[C]_N := Bm *m chain s (Q *m Q) roots + Q *m dchain s (Q *m Q) (Bm *m Q + Q *m Bm) roots.
Definition change2 (u w : 'cV[C]_N) : C := quad u w + (quad u w)^*.
Lemma along_foldl (F : links) (G H : nat -> links) z (js : seq nat) :
  along_ (foldl (fun (F : links) i => fun x mu => F x mu - z *: G i x mu - z *: H i x mu) F js) =
  along_ F - z * \sum_(i <- js) (along_ (G i) + along_ (H i)).
Proof.
elim: js F => [|i js IH] F; first by rewrite /= big_nil mulr0 subr0.
by rewrite big_cons /= IH alongB alongB !mulrDr !opprD !addrA.
Qed.
Lemma wilson5_vec v : vec (wilson5 k old V v) = Q *m vec v.
Proof. by rewrite (vec_ext (wilson5E k old V v)) vec_Q. Qed.
Lemma along_pair l r : along_ (wilson_derivative k V (wilson5 k old V l) r) + along_ (wilson_derivative k V l (wilson5 k old V r)) =
  change2 (vec l) ((Bm *m Q + Q *m Bm) *m vec r).
Proof.
move: (wilson5 k old V l) (wilson5 k old V r) (wilson5_vec l) (wilson5_vec r) => ql qr el er.
rewrite (along_wilson ql r).
rewrite (along_wilson l qr).
rewrite el er.
move: (vec l) (vec r) => u w.
have hQ := Qm_herm V kR; have hB := Bm_herm.
have a1 : quad (Q *m u) (Bm *m w) = quad u (Q *m (Bm *m w)) by rewrite (quad_swap u _ hQ).
have a2 : quad w (Bm *m (Q *m u)) = (quad u (Q *m (Bm *m w)))^* by rewrite -quad_conj (quad_swap w _ hB) (quad_swap (Bm *m w) _ hQ).
have a3 : quad (Q *m w) (Bm *m u) = (quad u (Bm *m (Q *m w)))^* by rewrite -quad_conj (quad_swap (Q *m w) _ hB).
rewrite a1 a2 a3 /change2 mulmxDl quadD -!mulmxA rmorphD.
by rewrite addrC addrACA.
Qed.
Lemma force_sum (F : links) X Y :
  along_ (overlap_derivative k roots scaling old mass V F X Y weight) - along_ F = - factor * change2 (vec X) (S1 *m vec Y).
Proof.
have sR : s \is Num.real by rewrite Creal_Re.
have hQ := Qm_herm V kR; have hB := Bm_herm.
have hQQ : htrans (Q *m Q) = Q *m Q by rewrite htransM hQ.
rewrite /overlap_derivative alongB.
set left := root_vectors k old V s (map conjC (rev roots)) _; set right := root_vectors k old V s roots Y.
have -> := along_foldl F (fun i => wilson_derivative k V (wilson5 k old V (nth (fun _ _ _ => 0) left (size roots - i - 1)%N)) (nth (fun _ _ _ => 0) right i))
  (fun i => wilson_derivative k V (nth (fun _ _ _ => 0) left (size roots - i - 1)%N) (wilson5 k old V (nth (fun _ _ _ => 0) right i)))
  (s * factor) (iota 0 (size roots)).
rewrite along_wilson root_vectors_last.
have -> : iota 0 (size roots) = index_iota 0 (size roots) by rewrite /index_iota subn0.
rewrite big_mkord.
have t (i : 'I_(size roots)) : along_ (wilson_derivative k V (wilson5 k old V (nth (fun _ _ _ => 0) left (size roots - i - 1)%N)) (nth (fun _ _ _ => 0) right i))
  + along_ (wilson_derivative k V (nth (fun _ _ _ => 0) left (size roots - i - 1)%N) (wilson5 k old V (nth (fun _ _ _ => 0) right i))) =
  change2 (vec X) (Q *m (chain s (Q *m Q) (drop i.+1 roots) *m (Bm *m Q + Q *m Bm) *m chain s (Q *m Q) (take i roots)) *m vec Y).
  have li : (size roots - i - 1 <= size (map conjC (rev roots)))%N by rewrite size_map size_rev -subnDA leq_subr.
  rewrite along_pair root_vectors_vec // root_vectors_vec; last by rewrite ltnW.
  rewrite wilson5_vec -map_take take_rev -subnDA addn1 subKn; last exact: ltn_ord.
  have h (u w : 'cV[C]_N) : quad (chain s (Q *m Q) (map conjC (rev (drop i.+1 roots))) *m (Q *m u)) w = quad u (Q *m (chain s (Q *m Q) (drop i.+1 roots) *m w)).
    by rewrite /quad !htransM chain_herm // hQ !mulmxA.
  by rewrite /change2 !h !mulmxA.
rewrite (eq_bigr _ (fun i _ => t i)).
have c2 (r : C) (u w : 'cV[C]_N) : r \is Num.real -> r * change2 u w = change2 u (r *: w) by move=> rR; rewrite /change2 quadZ rmorphM (CrealP rR) mulrDr.
have cD (u w w' : 'cV[C]_N) : change2 u (w + w') = change2 u w + change2 u w' by rewrite /change2 quadD rmorphD addrACA.
have -> : quad (vec X) (Bm *m (chain s (Q *m Q) roots *m vec Y)) + quad (chain s (Q *m Q) roots *m vec Y) (Bm *m vec X) =
    change2 (vec X) (Bm *m chain s (Q *m Q) roots *m vec Y).
  by rewrite /change2 -!mulmxA; congr (_ + _); rewrite -quad_conj (quad_swap _ _ hB).
rewrite /S1 mulmxDl cD dchain_sum mulmx_sumr mulmx_suml.
have -> : change2 (vec X) (\sum_(i < size roots) Q *m (s *: (chain s (Q *m Q) (drop i.+1 roots) *m (Bm *m Q + Q *m Bm) *m chain s (Q *m Q) (take i roots))) *m vec Y) =
  s * \sum_(i < size roots) change2 (vec X) (Q *m (chain s (Q *m Q) (drop i.+1 roots) *m (Bm *m Q + Q *m Bm) *m chain s (Q *m Q) (take i roots)) *m vec Y).
  rewrite /change2 quad_sum rmorph_sum -big_split mulr_sumr; apply: eq_bigr => i _.
  by rewrite -scalemxAr -scalemxAl -/(change2 _ _) c2 /change2.
move: (\sum_(i < _) _) (change2 _ _) => p q.
move: factor (along_ F) => f g.
rewrite mulNr mulrDr opprD addrAC (addrAC g) subrr sub0r addrC; congr (_ - _).
by rewrite mulrA [f * s]mulrC.
Qed.
Definition eta : C := if (s < 0) && ~~ odd (size roots) then -1 else 1.
Lemma eta_lead : (if s < 0 then -1 else 1) * `|s| ^+ size roots = eta * s ^+ size roots.
Proof.
have sR : s \is Num.real by rewrite Creal_Re.
rewrite /eta; case: ifP => h /=; last by rewrite ger0_norm // real_leNgt ?real0 // h.
rewrite ltr0_norm // exprNn -signr_odd.
by case: (odd _); rewrite /= ?expr0 ?expr1 ?mulN1r ?mul1r ?opprK.
Qed.
Lemma held_chain V' : Sm k V' (held_poly roots scaling) = eta *: (Qm k V' *m chain s (Qm k V' *m Qm k V') roots).
Proof. by rewrite /Sm /held_poly polymxZ eta_lead chain_poly -!scalemxAr scalerA. Qed.
Lemma eta2 : eta * eta = 1.
Proof. by rewrite /eta; case: ifP => _; rewrite ?mulrNN mulr1. Qed.
Lemma eta_real : eta \is Num.real.
Proof. by rewrite /eta; case: ifP => _; rewrite ?realN real1. Qed.
Variable Z : links.
Hypothesis mR : mass \is Num.real.
Notation moved e := (curve V W Z e).
Lemma fo_S : fo (fun e => Qm k (moved e) *m chain s (Qm k (moved e) *m Qm k (moved e)) roots) (Q *m chain s (Q *m Q) roots) S1.
Proof.
have fQ : fo (fun e => Qm k (moved e)) Q Bm.
  apply: (fo_ext (A := fun e => Q + e *: (Bm + e *: opmx (change k Z)))); last exact: fo_quadratic.
  by move=> e er; rewrite /Qm opmx_curve.
by apply: foM => //; apply: fo_chain; exact: foM.
Qed.
Lemma quad_bound (u w : 'cV[C]_N) (A : 'M[C]_N) : `|quad u (A *m w)| <= nrm u * nrm A * nrm w.
Proof.
rewrite /quad nrm11; apply: (le_trans (nrmM _ _)); rewrite nrmH -mulrA; apply: ler_wpmul2l; first exact: nrm_ge0.
exact: nrmM.
Qed.
Lemma force_bound F X Y : roots <> nil ->
  exists K, 0 <= K /\ forall e a b, e \is Num.real -> `|e| <= 1 ->
    overlap_multiply k roots scaling old mass true (moved e) Y = Ok a ->
    overlap_multiply k roots scaling old mass true V Y = Ok b ->
    `|eta * (weight * (2%:R * 'Re (inner X a - inner X b)))
      + e * (along_ (overlap_derivative k roots scaling old mass V F X Y weight) - along_ F)| <= `|e| ^+ 2 * K.
Proof.
move=> r0; have [K [K0 H]] := fo_S.
exists (`|factor| * (2%:R * (nrm (vec X) * K * nrm (vec Y)))); split.
  by rewrite !mulr_ge0 ?nrm_ge0 // ler0n.
move=> e a b er le Ea Eb.
have [a' [Ea' va]] := multiplyE k old scaling mass true (moved e) Y r0; rewrite Ea in Ea'; case: Ea' => ?; subst a'.
have [b' [Eb' vb]] := multiplyE k old scaling mass true V Y r0; rewrite Eb in Eb'; case: Eb' => ?; subst b'.
have fE : (1 - mass) / 2%:R = 2%:R^-1 - mass / 2%:R :> C by rewrite mulrBl mul1r.
have fR : 2%:R^-1 - mass / 2%:R \is @Num.real C by rewrite realB ?realM ?realV ?realn.
pose R := Qm k (moved e) *m chain s (Qm k (moved e) *m Qm k (moved e)) roots - (Q *m chain s (Q *m Q) roots + e *: S1).
have dE : inner X a - inner X b = (2%:R^-1 - mass / 2%:R) * (eta * (e * quad (vec X) (S1 *m vec Y) + quad (vec X) (R *m vec Y))).
  have -> : inner X a - inner X b = quad (vec X) (vec a - vec b) by rewrite !innerE /quad mulmxBr !mxE.
  rewrite va vb /Dm !held_chain -mulmxBl fE opprD addrACA subrr add0r -scalerBr -scalerBr.
  rewrite -!scalemxAl !quadZ; congr (_ * (_ * _)).
  rewrite -quadZ -quadD scalemxAl -mulmxDl /R; congr (quad _ (_ *m _)).
  by move: (Qm k (moved e) *m _) (Q *m _) (e *: S1) => p q t; rewrite opprD (addrA p) (addrC t) subrK.
have rE z : 2%:R * 'Re z = z + z^* by rewrite [X in _ * X = _]ReE mulrC divfK ?pnatr_eq0.
rewrite force_sum rE dE !rmorphM (CrealP fR) (CrealP eta_real) rmorphD rmorphM (CrealP er) /change2.
have le2 := quad_bound (vec X) (vec Y) R; have leR := H e er le; rewrite -/R in leR.
move: (quad (vec X) (S1 *m vec Y)) (quad (vec X) (R *m vec Y)) le2 eta eta2 => p r le2 et e2.
move: (2%:R^-1 - mass / 2%:R) => f.
have -> : et * (weight * (f * (et * (e * p + r)) + f * (et * (e * p^* + r^*)))) + e * (- (weight * f) * (p + p^*)) = weight * f * (r + r^*).
  have -> : et * (weight * (f * (et * (e * p + r)) + f * (et * (e * p^* + r^*)))) = et * et * (weight * f * (e * p + r + (e * p^* + r^*))).
    by move: (p^*) (r^*) => p' r'; cring_fold C; ring.
  by rewrite e2; move: (p^*) (r^*) => p' r'; cring_fold C; ring.
rewrite normrM mulrCA; apply: ler_wpmul2l; first exact: normr_ge0.
apply: (@le_trans _ _ (2%:R * `|r|)).
  by rewrite (mulr_natl `|r| 2) mulr2n; apply: (le_trans (ler_norm_add _ _)); rewrite norm_conjC.
rewrite mulrCA; apply: ler_wpmul2l; first exact: ler0n.
apply: (le_trans le2); rewrite mulrA; apply: ler_wpmul2r; first exact: nrm_ge0.
rewrite mulrCA; apply: ler_wpmul2l => //; exact: nrm_ge0.
Qed.
End Force.

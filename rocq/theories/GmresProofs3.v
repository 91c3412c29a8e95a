From mathcomp Require Import all_ssreflect all_algebra.
From Verif Require Import GaugeModel GaugeProofs DiracModel DiracSpec DiracProofs DiracProofs2 VecProofs SapProofs GmresModel GmresSpec GmresProofs GmresProofs2.
Import GRing.Theory Num.Theory Order.POrderTheory.
Set Implicit Arguments.
Unset Strict Implicit.
Unset Printing Implicit Defensive.
Local Open Scope ring_scope.

(** A vanishing residual is a division by zero. *)
Section Exact.
Variable C : numClosedFieldType.
Variable m : nat.
Notation vector := 'cV[C]_m.
Lemma orth0 (cs us : seq vector) n : (gm_orthogonalize cs us n (0, 0)).1 = 0.
Proof.
suff -> : gm_orthogonalize cs us n (0, 0) = (0, 0) by [].
rewrite /gm_orthogonalize; elim: (iota 0 n) => //= i l; rewrite gdot0r !scale0r subr0; exact.
Qed.
Lemma exact_nan o (A : vector -> vector) P eps n s : A 0 = 0 -> (forall Q, P = Some Q -> Q 0 = 0) ->
  (0 < dimension o)%N -> (dimension o <= allocated o)%N -> gres s = 0 -> gm_loop o A P eps n.+1 0 s = GNotANumber C m.
Proof.
move=> A0 P0 d0 da z /=; rewrite /gm_step (gtn_eqF d0) mod0n leqNgt (leq_trans d0 da) /=.
have -> : gm_direction P (gres s) = 0 by rewrite /gm_direction z; case: P P0 => // Q; exact.
by rewrite A0 /gnorm gdot0r sqrtC0 eqxx.
Qed.
(** Beyond the arrays. *)
Lemma loop_outside o (A : vector -> vector) P eps n k s : (0 < n)%N -> (k <= allocated o)%N -> (allocated o < dimension o)%N ->
  (exists x, gm_loop o A P eps (allocated o - k) k s = GFailed x) ->
  gm_loop o A P eps (allocated o - k + n) k s = GUndefined C m.
Proof.
move=> n0 + ad; move E : (allocated o - k)%N => l; elim: l k s E => [|l IH] k s E ka /=.
  case: n n0 => // n _ _ /=.
  have -> : k = allocated o by apply/eqP; rewrite eqn_leq ka -subn_eq0 E.
  by rewrite /gm_step (gtn_eqF (leq_ltn_trans (leq0n _) ad)) modn_small // leqnn.
case: gm_step => [s'| |] [x] H //; move: H; case: ifP => // _ H; apply: IH; last by exists x.
  by rewrite subnS E.
by rewrite -subn_gt0 E.
Qed.
End Exact.

(** A source with fourteen entries and a preconditioner that returns one direction after the other. *)
Section Outside.
Variable C : numClosedFieldType.
Notation vector := 'cV[C]_14.
Definition first_entry (r : vector) : vector :=
  match [pick i : 'I_14 | (r i ord0 != 0) && [forall k : 'I_14, (k < i)%N ==> (r k ord0 == 0)]] with
  | Some i => delta_mx i ord0 | None => 0 end.
Definition tail (k : nat) : vector := \col_i (k <= i)%N%:R.
Lemma first_tail k (h : (k < 14)%N) : first_entry (tail k) = delta_mx (Ordinal h) ord0.
Proof.
rewrite /first_entry; case: pickP => [i|N].
  rewrite !mxE; case: leqP => hi; rewrite ?eqxx // => /andP [_ /forallP /(_ (Ordinal h)) /=].
  rewrite mxE leqnn oner_eq0 implybF -leqNgt => ik.
  by congr (delta_mx _ _); apply: val_inj; apply/eqP; rewrite eqn_leq hi ik.
have := N (Ordinal h); rewrite !mxE leqnn oner_eq0 /= => /negP []; apply/forallP => i; apply/implyP => hi.
by rewrite mxE leqNgt (hi : (i < k)%N).
Qed.
Lemma gdot_delta (i : 'I_14) (v : vector) : gdot (delta_mx i ord0) v = v i ord0.
Proof.
rewrite /gdot (bigD1 i) //= !mxE !eqxx conjC1 mul1r big1 ?addr0 // => k nk.
by rewrite !mxE (negbTE nk) conjC0 mul0r.
Qed.
Lemma outside_loop (A : vector -> vector) d n k cs us : (forall v, A v = v) -> (13 < d)%N -> (13 <= k + n)%N -> (k <= 13)%N ->
  (forall i (h : (i < 14)%N), (i < k)%N -> nth 0 cs i = delta_mx (Ordinal h) ord0) ->
  forall x, gm_loop (gm_set_dimension d gm_new) A (Some first_entry) 1 n.+1 k (GmState x (tail k) cs us) = GUndefined C 14.
Proof.
move=> Ai hd; elim: n k cs us => [|n IH] k cs us kn k13 Hc x.
  have -> : k = 13%N by apply/eqP; rewrite eqn_leq k13 -(addn0 k).
  by rewrite /= /gm_step /= (gtn_eqF (leq_ltn_trans (leq0n _) hd)) modn_small.
rewrite /=; rewrite {1}/gm_step /= (gtn_eqF (leq_ltn_trans (leq0n _) hd)) modn_small ?(leq_ltn_trans k13) //.
case: ltnP => // k3.
have h14 : (k < 14)%N by exact: leq_trans k3 _.
rewrite /gm_direction (first_tail h14) Ai.
have O u : (gm_orthogonalize cs us k (delta_mx (Ordinal h14) ord0, u)).1 = delta_mx (Ordinal h14) ord0.
  rewrite /gm_orthogonalize; have : all (fun i => i < k)%N (iota 0 k) by apply/allP => i; rewrite mem_iota.
  elim: (iota 0 k) u => //= i l Hl u /andP [ik al].
  have i14 : (i < 14)%N by apply: (ltn_trans ik h14).
  rewrite (Hc i i14 ik) gdot_delta mxE (_ : (Ordinal i14 == Ordinal h14) = false) /=; last by rewrite -val_eqE /= (ltn_eqF ik).
  by rewrite !scale0r !subr0; exact: Hl.
rewrite O /gnorm gdot_delta mxE !eqxx /= sqrtC1 oner_eq0 invr1 !scale1r gdot_delta mxE leqnn /= !scale1r.
have T : tail k - delta_mx (Ordinal h14) ord0 = tail k.+1.
  apply/matrixP => i z; rewrite !mxE (ord1 z) eqxx andbT -val_eqE /= leq_eqVlt eq_sym.
  by case: eqP => [->|_] /=; rewrite ?ltnn ?subrr ?subr0.
rewrite T.
have -> : (gdot (tail k.+1) (tail k.+1) < 1) = false.
  apply: le_gtF; rewrite /gdot.
  have m13 : (13 < 14)%N by [].
  have t1 : tail k.+1 (Ordinal m13) ord0 = 1 by rewrite mxE (_ : (k.+1 <= Ordinal m13)%N).
  rewrite (bigD1 (Ordinal m13)) //= t1 conjC1 mulr1 ler_addl; apply: sumr_ge0 => i _.
  by rewrite mxE; case: leq; rewrite ?conjC1 ?mulr1 ?conjC0 ?mul0r ?ler01.
apply: IH; rewrite ?addSnnS //.
move=> i h; rewrite ltnS leq_eqVlt nth_set_nth /= => /orP [/eqP e|ik].
  by rewrite [X in if X then _ else _](introT eqP e); congr (delta_mx _ _); apply: val_inj.
by rewrite (ltn_eqF ik); exact: Hc.
Qed.
End Outside.

(** The block operators leave a field outside their block unchanged. *)
Section Block.
Variable C : numClosedFieldType.
Variables (n : nat) (L : lattice) (blk : L -> bool) (kappa : C) (U : L -> 'I_4 -> 'M[C]_n).
Notation field := (L -> 'I_4 -> 'I_n -> C) (only parsing).
Lemma block_outside (v : field) : (forall x a c, blk x -> v x a c = 0) -> feq (block_multiply blk kappa 0 false U v) v.
Proof.
move=> z x a c; rewrite block_correct maybe5E /sg5 /= mulr0 mul0r addr0; case: ifP => // bx.
have Z y b d : restrict blk v y b d = 0 by rewrite /restrict; case: ifP => // h; exact: z.
rewrite /dirac Z (z _ _ _ bx) sub0r [hopping _ _ _ _ _]big1 ?mulr0 ?oppr0 // => mu _.
rewrite big1 // => b _; rewrite !big1 ?mulr0 ?addr0 // => e _; by rewrite Z mulr0.
Qed.
End Block.

Section Solve.
Variable C : numClosedFieldType.
Lemma solve_optimal m (o : gm_object) (cs us : seq 'cV[C]_m) maxSteps (eps : C) (M : 'M[C]_m)
    (b rnd : 'cV[C]_m) guess :
  let x0 := gm_start eps b rnd guess in
  match gm_solve o cs us maxSteps eps (mulmx M) None b rnd guess with
  | GConverged x last => (last < dimension o)%N ->
      forall p : 'I_last.+1 -> C, residual2 M b x <= residual2 M b (krylov M b x0 p)
  | GFailed x => (maxSteps <= dimension o)%N ->
      forall p : 'I_maxSteps -> C, residual2 M b x <= residual2 M b (krylov M b x0 p)
  | _ => True end.
Proof.
move=> x0; have := loop_optimal o eps maxSteps (kinv_start M b x0 cs us).
have K k (p : 'I_k -> C) : inK M b x0 k (\sum_(i < k) p i *: power_on M (b - M *m x0) i).
  exists (fun i => match insub i with Some i => p i | None => 0 end); apply: eq_bigr => i _; by rewrite valK.
rewrite /gm_solve -/x0; case: gm_loop => //= [x l|x] H h p; rewrite !residual2E; apply: H => //; exact: K.
Qed.
Lemma solve_progress m (o : gm_object) (cs us : seq 'cV[C]_m) maxSteps (eps : C) (M : 'M[C]_m)
    (b rnd : 'cV[C]_m) guess :
  let x0 := gm_start eps b rnd guess in
  positive_part M -> M *m x0 != b -> 0 < eps -> (0 < dimension o)%N -> (dimension o <= allocated o)%N -> (0 < maxSteps)%N ->
  exists x, residual2 M b x < residual2 M b x0 /\
    (gm_solve o cs us maxSteps eps (mulmx M) None b rnd guess = GFailed x \/
     exists last, gm_solve o cs us maxSteps eps (mulmx M) None b rnd guess = GConverged x last).
Proof.
move=> x0 pos ne e0 d0 da n0; have r0 : b - M *m x0 != 0 by rewrite subr_eq0 eq_sym.
have := loop_progress pos maxSteps (start_inv o M b x0 cs us) r0 e0.
have := @loop_defined C m o None (mulmx M) eps maxSteps 0 (GmState x0 (b - M *m x0) cs us) d0 da.
rewrite /gm_solve -/x0; case: gm_loop => //= [x l _ h|x _ h]; exists x; rewrite !residual2E; split=> //.
- by right; exists l.
- exact: h.
- by left.
Qed.
Lemma dimension_refuted d :
  (13 < d)%N -> exists (M : 'M[C]_14) (P : 'cV[C]_14 -> 'cV[C]_14) (b rnd x0 : 'cV[C]_14), forall cs us n,
  gm_solve (gm_set_dimension d gm_new) cs us (14 + n) 1 (mulmx M) (Some P) b rnd (Some x0) = GUndefined C 14.
Proof.
move=> hd; exists 1%:M, (@first_entry C), (tail C 0), 0, 0 => cs us n.
rewrite /gm_solve [gm_start _ _ _ _]/= mul1mx subr0 addSn.
by apply: outside_loop => // v; rewrite mul1mx.
Qed.
Lemma block_refuted n (L : lattice) (blk : L -> bool) (kappa : C)
    (U : L -> 'I_4 -> 'M[C]_n) (b : L -> 'I_4 -> 'I_n -> C) cs us steps eps rnd :
  (forall x a c, blk x -> b x a c = 0) -> eps < gnorm (vec b) ->
  feq (block_multiply blk kappa 0 false U b) b /\
  gm_solve gm_new cs us steps.+1 eps (fun w => vec (block_multiply blk kappa 0 false U (unvec w))) None (vec b) rnd None
    = GNotANumber C _.
Proof.
move=> z lt; have F := block_outside kappa U z; split=> //.
have e (v w : L -> 'I_4 -> 'I_n -> C) : feq v w -> vec (block_multiply blk kappa 0 false U v) = vec (block_multiply blk kappa 0 false U w).
  by move=> E; apply: vec_ext; exact: (proj1 (B_lin kappa false U blk)).
apply: exact_nan => //; last first.
  by rewrite /gm_start lt /= (e _ _ (vecK b)) (vec_ext F) subrr.
rewrite (e _ (fun _ _ _ => 0)) => [|x a c]; last by rewrite /unvec mxE.
by apply/matrixP => i j; rewrite !mxE (VecProofs.linear0 (B_lin kappa false U blk)).
Qed.
End Solve.

Section Algebra.
Variable C : numClosedFieldType.
Add Ring Gring : (Crth C).
Lemma alg_low (x y u v : C) : u * (x + y) + v * (- x + y) = x * u + y * v + (u * y - x * v).
Proof. by cring_fold C; ring. Qed.
Lemma alg_high (x y u v : C) : (x + y) * (u + v) + (- x + y) * (- u + v) = (1 + 1) * (x * u + y * v).
Proof. by cring_fold C; ring. Qed.
End Algebra.

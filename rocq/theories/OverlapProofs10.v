(** The overlap force as the derivative of a pseudofermion action. *)
From Coq Require Import List Ring.
From Verif Require Import Base SolverModel.
From mathcomp Require Import all_ssreflect all_algebra.
From Verif Require Import GaugeModel GaugeSpec GaugeProofs GaugeProofs2 GaugeProofs3 GammaModel DiracModel DiracSpec DiracProofs DiracProofs2
  PertProofs VecProofs AdjModel FForceModel FForceSpec FForceProofs FForceProofs2 OverlapModel OverlapSpec OverlapProofs OverlapProofs2
  OverlapForceSpec OverlapProofs8 OverlapProofs9.
Import GRing.Theory Num.Theory Order.POrderTheory.
Set Implicit Arguments.
Unset Strict Implicit.
Unset Printing Implicit Defensive.
Local Open Scope ring_scope.

Section Fo.
Variable C : numClosedFieldType.
Add Ring fo10_ring : (Crth C).
Lemma fo_unique m k (A : C -> 'M[C]_(m, k)) A0 A1 A1' : fo A A0 A1 -> fo A A0 A1' -> A1 = A1'.
Proof.
move=> [K1 [K10 H1]] [K2 [K20 H2]]; apply/eqP; rewrite -subr_eq0; apply/eqP; apply: nrm_eq0.
set S := nrm _; have S0 : 0 <= S by exact: nrm_ge0.
pose K := K1 + K2; have K0 : 0 <= K by rewrite addr_ge0.
have [->//|Sn] := eqVneq S 0; have Sp : 0 < S by rewrite lt_def Sn.
pose e := S / (K + S + S).
have Kp : 0 < K + S + S by rewrite ltr_paddl // addr_ge0.
have ep : 0 < e by rewrite divr_gt0.
have e1 : `|e| <= 1 by rewrite (ger0_norm (ltW ep)) /e ler_pdivr_mulr // mul1r ler_addr addr_ge0.
have er : e \is Num.real by rewrite ger0_real // ltW.
have : nrm (e *: (A1 - A1')) <= `|e| ^+ 2 * K.
  have -> : e *: (A1 - A1') = (A e - (A0 + e *: A1')) - (A e - (A0 + e *: A1)).
    move: (A e) (e) => P x; apply/matrixP => i j; rewrite !mxE; move: (P i j) (A0 i j) (A1 i j) (A1' i j) => p q r t; cring_fold C; ring.
  by apply: (le_trans (nrmD _ _)); rewrite nrmN addrC /K mulrDr ler_add ?H1 ?H2.
rewrite nrmZ (ger0_norm (ltW ep)) expr2 -mulrA ler_pmul2l // -/S /e mulrAC ler_pdivl_mulr // ler_pmul2l // => h.
have : K < K + S + S by apply: (@lt_le_trans _ _ (K + S)); rewrite ?ltr_addl // ler_addl.
by move=> /(le_lt_trans h); rewrite ltxx.
Qed.
Lemma fo_htrans m k (A : C -> 'M[C]_(m, k)) A0 A1 : fo A A0 A1 -> fo (fun e => htrans (A e)) (htrans A0) (htrans A1).
Proof.
move=> [K [K0 H]]; exists K; split=> // e er le.
have -> : htrans (A e) - (htrans A0 + e *: htrans A1) = htrans (A e - (A0 + e *: A1)).
  by apply/matrixP => i j; rewrite !mxE rmorphB rmorphD rmorphM (CrealP er).
by rewrite nrmH; exact: H.
Qed.
Lemma foD m k (A : C -> 'M[C]_(m, k)) A0 A1 (B : 'M[C]_(m, k)) : fo A A0 A1 -> fo (fun e => B + A e) (B + A0) A1.
Proof.
move=> [K [K0 b]]; exists K; split=> // e er le.
have -> : B + A e - (B + A0 + e *: A1) = A e - (A0 + e *: A1) by rewrite -(addrA B A0) opprD addrACA subrr add0r.
exact: b.
Qed.
Lemma foDr m k (A : C -> 'M[C]_(m, k)) A0 A1 (B : 'M[C]_(m, k)) : fo A A0 A1 -> fo (fun e => A e + B) (A0 + B) A1.
Proof. by move=> /(foD B); rewrite (addrC B A0); apply: fo_ext => e _; rewrite addrC. Qed.
End Fo.

Section Energy.
Variable C : numClosedFieldType.
Variable n : nat.
Variable L : lattice.
Notation field := (L -> 'I_4 -> 'I_n -> C) (only parsing).
Notation links := (L -> 'I_4 -> 'M[C]_n) (only parsing).
Notation N := #|[finType of L * 'I_4 * 'I_n]|.
Variables (k : C) (old : field) (roots : seq C) (scaling mass : C) (V M Z : links).
Hypothesis kR : k \is Num.real.
Hypothesis mR : mass \is Num.real.
Hypothesis uV : forall x mu, unitary (V x mu).
Hypothesis aM : forall x mu, anti_hermitian (M x mu).
Hypothesis r0 : roots <> nil.
Hypothesis pr : perm_eq (map conjC roots) roots.
Notation mul := (overlap_multiply k roots scaling old mass true).
Notation add := (square_overlap_add k roots scaling old mass true).
Definition D5 U : 'M[C]_N := Dm (Sm k U (held_poly roots scaling)) mass true.
Lemma D5_herm U : htrans (D5 U) = D5 U.
Proof. by apply: Dm_herm => //; apply: Sm_herm => // i; exact: held_poly_real. Qed.
Lemma addE U v w al : exists t, add U v w al = Ok t /\ vec t = D5 U *m (D5 U *m vec v) + al *: vec w.
Proof.
have [t [Et vt]] := multiplyE k old scaling mass true U v r0.
have [u [Eu vu]] := (@returnsE C n L _ _).1 (multiply_add_returns k old scaling mass U t w al r0).
rewrite /square_overlap_add Et; exists u; split=> //.
by rewrite vu vec_comb (overlapE _ _ (sign_approxE k U _ t)) vt.
Qed.
Lemma solutionE U b X phi : solution add U b X phi <-> (D5 U *m D5 U + b%:M) *m vec X = vec phi.
Proof.
have [t [Et vt]] := addE U X X b; rewrite mulmxDl mul_scalar_mx -mulmxA -vt; split.
  by move=> [u []]; rewrite Et => [[<-]] h; exact: vec_ext.
by move=> h; exists t; split=> //; exact: vec_inj.
Qed.
Notation f := (2%:R^-1 - mass / 2%:R).
Notation V' e := (displaced V M Z e).
Definition D1 : 'M[C]_N := (f * eta roots scaling) *: S1 k roots scaling V M.
Lemma fo_D : fo (fun e => D5 (V' e)) (D5 V) D1.
Proof.
have fE : (1 - mass) / 2%:R = f by rewrite mulrBl mul1r.
apply: (fo_ext (A := fun e => ((1 + mass) / 2%:R) *: Gm C n L + (f * eta roots scaling) *:
    (Qm k (V' e) *m chain ('Re scaling) (Qm k (V' e) *m Qm k (V' e)) roots))).
  by move=> e er; rewrite /D5 /Dm held_chain fE scalerA.
rewrite /D5 /Dm held_chain fE scalerA.
apply: foD; apply: foZ; exact: fo_S.
Qed.
Lemma D1_herm : htrans D1 = D1.
Proof.
have h := fo_ext (fun e _ => D5_herm (V' e)) (fo_htrans fo_D).
rewrite (D5_herm V) in h.
exact: fo_unique h fo_D.
Qed.
Lemma unit_of (A : 'M[C]_N) : (forall v : field, A *m vec v = 0 -> vec v = 0) -> A \in unitmx.
Proof. by move=> h; apply: unit_inj => u; rewrite -(unvecK u); exact: h. Qed.
Lemma energy_derivative b X phi Y : b \is Num.real -> eta roots scaling = 1 ->
  (forall v, solution add V b v (fun _ _ _ => 0) -> feq v (fun _ _ _ => 0)) ->
  solution add V b X phi -> mul V X = Ok Y ->
  is_energy_derivative add V M Z b X phi (overlap_derivative k roots scaling old mass V (fun _ _ => 0) X Y 1).
Proof.
move=> bR e1 reg /solutionE sX EY.
pose A := D5 V *m D5 V + b%:M; pose B := D1 *m D5 V + D5 V *m D1.
have fA : fo (fun e => D5 (V' e) *m D5 (V' e) + b%:M) A B.
  exact: (foDr b%:M (foM fo_D fo_D)).
have [K0 [K00 HK]] := fA.
pose R (e : C) : 'M[C]_N := if [&& e \is Num.real, e != 0 & `|e| <= 1] then (e ^- 2) *: (D5 (V' e) *m D5 (V' e) + b%:M - (A + e *: B)) else 0.
have Rb e : `|e| <= 1 -> nrm (R e) <= K0.
  move=> _; rewrite /R; case: ifP => [/and3P [er en le]|_]; last by rewrite nrm0.
  rewrite nrmZ normfV normrX ler_pdivr_mull ?exprn_gt0 ?normr_gt0 //; exact: HK.
have AH : htrans A = A by rewrite /A htransD htransM D5_herm htrans_scalar (CrealP bR).
have AU : A \in unitmx.
  apply: unit_of => v z; have h : feq v (fun _ _ _ => 0) by apply: reg; apply/solutionE; rewrite -/A z; symmetry; exact: vec0.
  by rewrite (vec_ext h); exact: vec0.
have [r [K [rp Kp H]]] := perturb B AH AU Rb sX.
exists (r / (r + 1)), K; split; [by rewrite divr_gt0 ?addr_gt0 ?ltr01|exact: Kp|].
move=> e er le.
have r1 : 0 < r + 1 by rewrite addr_gt0 ?ltr01.
have ler : `|e| <= r by apply: (le_trans le); rewrite ler_pdivr_mulr // mulrDr mulr1 ler_addr mulr_ge0 // ltW.
have le1 : `|e| <= 1 by apply: (le_trans le); rewrite ler_pdivr_mulr // mul1r ler_addl ler01.
have mE : moved A B R e = D5 (V' e) *m D5 (V' e) + b%:M.
  rewrite /moved /R er le1 andbT /=; move: (HK e er le1).
  move: (D5 (V' e) *m D5 (V' e) + b%:M) => Ae.
  move: (A) (B) => A' B' hA; have [z|en] := eqVneq e 0.
    move: hA; rewrite z !scale0r !addr0 normr0 expr0n mul0r => /nrm_eq0 /eqP; rewrite subr_eq0 => /eqP ->; by [].
  rewrite (scalerDr e) scalerA scalerA -expr2 mulfV ?expf_neq0 // scale1r addrA addrC subrK; by [].
have [mU HX] := H e ler; split.
  exists (unvec (invmx (moved A B R e) *m vec phi)); apply/solutionE.
  by rewrite -mE unvecK mulmxA mulmxV // mul1mx.
move=> X' /solutionE sX'; rewrite -mE in sX'.
have := HX _ sX'; rewrite !innerE.
have -> : e * quad (vec X) (B *m vec X) = - (e * \sum_x \sum_(mu < 4) \tr (overlap_derivative k roots scaling old mass V (fun _ _ => 0) X Y 1 x mu *m M x mu *m V x mu)).
  have -> : \sum_x \sum_(mu < 4) \tr (overlap_derivative k roots scaling old mass V (fun _ _ => 0) X Y 1 x mu *m M x mu *m V x mu)
     = - (1 * f) * change2 (vec X) (S1 k roots scaling V M *m vec Y).
    rewrite -(force_sum old roots scaling kR uV aM mass 1 (fun _ _ => 0) X Y) /along_.
    rewrite [X in _ = _ - X]big1 ?subr0 // => x _; rewrite big1 // => mu _; by rewrite !mul0mx mxtrace0.
  rewrite mul1r -mulrN mulNr opprK; congr (_ * _).
  have [t [Et vt]] := multiplyE k old scaling mass true V X r0; rewrite EY in Et; case: Et => ?; subst t.
  rewrite /B mulmxDl quadD -!mulmxA -/(D5 V) -vt (quad_swap (vec X) _ (D5_herm V)) -vt.
  rewrite (quad_swap (vec Y) _ D1_herm) (quad_conj (D1 *m vec Y)) /D1 e1 mulr1 -!scalemxAl quadZ rmorphM (CrealP _) ?mulrDr //.
  by rewrite realB ?realM ?realV ?realn.
by [].
Qed.
Lemma solution_positive b v : 0 < b -> solution add V b v (fun _ _ _ => 0) -> feq v (fun _ _ _ => 0).
Proof.
move=> bp /solutionE h; apply: inner_eq0.
pose w : field := unvec (D5 V *m vec v).
have E : inner w w + b * inner v v = 0.
  rewrite !innerE /w unvecK -(quad_swap (vec v) _ (D5_herm V)) -quadZ -quadD mulmxA -mul_scalar_mx -mulmxDl h.
  by rewrite vec0 /quad mulmx0 mxE.
have p : 0 <= b * inner v v by rewrite mulr_ge0 ?inner_ge0 // ltW.
have z : b * inner v v = 0 by apply/eqP; rewrite eq_le p andbT -E ler_addr inner_ge0.
by move/eqP: z; rewrite mulf_eq0 (gt_eqF bp) /= => /eqP.
Qed.
End Energy.

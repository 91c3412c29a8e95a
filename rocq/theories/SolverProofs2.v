(** Chebyshev recursion, rational functions, and termination of conjugate gradient. *)
From Coq Require Import List.
From Verif Require Import Base.
From mathcomp Require Import all_ssreflect all_algebra.
From Verif Require Import GaugeProofs SolverModel SolverSpec SolverProofs.
Import GRing.Theory Num.Theory.
Set Implicit Arguments.
Unset Strict Implicit.
Unset Printing Implicit Defensive.
Local Open Scope ring_scope.

Section Proofs.
Variable C : numClosedFieldType.
Add Ring CringS2 : (Crth C).
Variable m : nat.
Notation V := 'cV[C]_m.
Notation E := (exact C m).
Notation sp := (@scalar_product C m).
Implicit Types (A P : V -> V) (u v w x b : V).

(** Chebyshev. *)
Definition affine (c d : C) : {poly C} := c%:P * 'X - d%:P.
Lemma apply_affine c d (q : {poly C}) A v : linear_op A ->
  poly_apply (affine c d * q) A v = c *: A (poly_apply q A v) - d *: poly_apply q A v.
Proof.
move=> HA; rewrite /affine mulrBl -mulrA mul_polyC poly_applyB poly_applyZ poly_applyX // mul_polyC poly_applyZ //.
Qed.
Lemma cheb_comp k Y : chebyshev C k.+2 \Po Y = 2%:R *: (Y * (chebyshev C k.+1 \Po Y)) - (chebyshev C k \Po Y).
Proof. by rewrite chebyshevSS comp_polyB comp_polyZ comp_polyM comp_polyX. Qed.
Lemma cheb_loopE k j A c d v : linear_op A ->
  cheb_loop E k A c d (poly_apply (chebyshev C j \Po affine c d) A v) (poly_apply (chebyshev C j.+1 \Po affine c d) A v)
  = poly_apply (chebyshev C (j + k).+1 \Po affine c d) A v.
Proof.
move=> HA; elim: k j => [|k IH] j /=; first by rewrite addn0.
by rewrite -addSnnS -IH cheb_comp poly_applyB poly_applyZ apply_affine // mulr2n.
Qed.
Lemma cheb_evaluateE (a b : C) k A v : linear_op A -> a != b ->
  cheb_evaluate E a b k A v
  = Some (poly_apply (chebyshev C k.+1 \Po affine (2%:R / (b - a)) ((a + b) / (b - a))) A v).
Proof.
move=> HA ab; have D : (b - a == 0) = false by rewrite subr_eq0 eq_sym (negbTE ab).
rewrite /cheb_evaluate /= D; congr Some; set c := _ / _; set d := _ / _.
have <- : 2%:R / (b - a) = c by rewrite mulr2n.
rewrite -/c -/d -(cheb_loopE k 0 _ _ _ HA) /chebyshev /= comp_polyX comp_polyC poly_applyC scale1r.
by rewrite -[affine _ _]mulr1 apply_affine // poly_apply1.
Qed.
Lemma cheb_scalar_loopE k j (y : C) :
  cheb_scalar_loop E k y (chebyshev C j).[y] (chebyshev C j.+1).[y] = (chebyshev C (j + k).+1).[y].
Proof.
elim: k j => [|k IH] j /=; first by rewrite addn0.
by rewrite -addSnnS -IH chebyshevSS hornerD hornerN hornerZ hornerM hornerX mulrA -mulr2n.
Qed.
Lemma cheb_scalarE (a b x : C) k : a != b ->
  cheb_scalar E a b k x = Some (chebyshev C k.+1).[2%:R * x / (b - a) - (a + b) / (b - a)].
Proof.
move=> ab; have D : (b - a == 0) = false by rewrite subr_eq0 eq_sym (negbTE ab).
rewrite /cheb_scalar /= D -mulr2n; congr Some; set y := _ - _.
rewrite -(cheb_scalar_loopE k 0 y) /chebyshev /= hornerC hornerX //.
Qed.
Lemma affine_eval (a b x : C) : (affine (2%:R / (b - a)) ((a + b) / (b - a))).[x] = 2%:R * x / (b - a) - (a + b) / (b - a).
Proof. by rewrite /affine hornerD hornerN hornerM !hornerC hornerX mulrAC. Qed.

(** Rational functions on eigenvectors. *)
Lemma rational_sumE (alphas : list C) (tmp : list V) out : length alphas = length tmp ->
  rational_sum E alphas tmp out = Ok (out + \sum_(p <- zip alphas tmp) p.1 *: p.2).
Proof.
elim: alphas tmp out => [|a alphas IH] [|v tmp] out //= => [_|[H]]; first by rewrite big_nil addr0.
by rewrite IH // big_cons addrA.
Qed.
Lemma rational_scalarE (alphas betas : list C) (x acc : C) : length alphas = length betas ->
  (forall b : C, List.In b betas -> x + b != 0) ->
  rational_scalar E alphas betas x acc = Ok (Some (acc + \sum_(p <- zip alphas betas) p.1 / (x + p.2))).
Proof.
elim: alphas betas acc => [|a alphas IH] [|b betas] acc //= => [_ _|[H] Hb]; first by rewrite big_nil addr0.
rewrite (negbTE (Hb b (or_introl erefl))) IH //; last by move=> b' Hb'; apply: Hb; right.
by rewrite big_cons addrA.
Qed.
Lemma rational_eigen A (lam : C) v (alphas betas : list C) tmp : linear_op A -> A v = lam *: v -> v != 0 ->
  length alphas = length betas ->
  (forall b : C, List.In b betas -> forall y, shifted A b y = 0 -> y = 0) ->
  List.Forall2 (fun (b : C) y => shifted A b y = v) betas tmp ->
  exists2 r, rational_scalar E alphas betas lam 0 = Ok (Some r) & rational_sum E alphas tmp 0 = Ok (r *: v).
Proof.
move=> HA Hv v0 Hl Hi Ht.
have Hb (b : C) : List.In b betas -> lam + b != 0.
  move=> Hb; apply/eqP => E0; move/eqP: v0; apply; apply: (Hi b Hb).
  by rewrite /shifted Hv -scalerDl E0 scale0r.
exists (\sum_(p <- zip alphas betas) p.1 / (lam + p.2)); first by rewrite rational_scalarE // add0r.
have Hlt : length betas = length tmp by elim: Ht {Hi Hb Hl} => /= [|? ? ? ? _ _ ->].
rewrite rational_sumE ?Hl // add0r; congr Ok; rewrite scaler_suml.
elim: Ht alphas Hl Hi Hb {Hlt} => [|b y bs ys Hy _ IH] [|a al] //= => [_|[Hl]] Hi Hb; first by rewrite !big_nil.
rewrite !big_cons IH //; last 2 first.
- by move=> b' Hb'; apply: Hi; right.
- by move=> b' Hb'; apply: Hb; right.
congr (_ + _) => /=; rewrite -scalerA; congr (_ *: _).
have H0 : lam + b != 0 by apply: Hb; left.
apply/eqP; rewrite -subr_eq0; apply/eqP; apply: (Hi b (or_introl erefl)).
rewrite (lopB (shifted_linear b HA)) Hy (lopZ (shifted_linear b HA)) /shifted Hv -scalerDl scalerA mulVf // scale1r subrr //.
Qed.

(** The scalar product. *)
Lemma spDr u v w : sp u (v + w) = sp u v + sp u w.
Proof. by rewrite /scalar_product -big_split; apply: eq_bigr => i _; rewrite mxE mulrDr. Qed.
Lemma spZr u (a : C) v : sp u (a *: v) = a * sp u v.
Proof. by rewrite /scalar_product mulr_sumr; apply: eq_bigr => i _; rewrite mxE mulrCA. Qed.
Lemma spNr u v : sp u (- v) = - sp u v.
Proof. by rewrite -scaleN1r spZr mulN1r. Qed.
Lemma spBr u v w : sp u (v - w) = sp u v - sp u w.
Proof. by rewrite spDr spNr. Qed.
Lemma spC u v : (sp u v)^* = sp v u.
Proof. by rewrite /scalar_product rmorph_sum; apply: eq_bigr => i _; rewrite rmorphM conjCK mulrC. Qed.
Lemma spDl u v w : sp (u + v) w = sp u w + sp v w.
Proof. by rewrite -spC spDr rmorphD !spC. Qed.
Lemma spZl (a : C) u w : sp (a *: u) w = a^* * sp u w.
Proof. by rewrite -spC spZr rmorphM !spC. Qed.
Lemma spNl u v : sp (- u) v = - sp u v.
Proof. by rewrite -spC spNr rmorphN spC. Qed.
Lemma spBl u v w : sp (u - v) w = sp u w - sp v w.
Proof. by rewrite spDl spNl. Qed.
Lemma sp_ge0 u : 0 <= sp u u.
Proof. by apply: sumr_ge0 => i _; rewrite mulrC mul_conjC_ge0. Qed.
Lemma sp_eq0 u : (sp u u == 0) = (u == 0).
Proof.
apply/eqP/eqP => [H|->]; last exact: spr0.
apply/matrixP => i j; rewrite ord1 mxE.
have K k : true -> 0 <= (u k 0)^* * u k 0 by rewrite mulrC mul_conjC_ge0.
by have /eqP := psumr_eq0P K H (i := i) isT; rewrite mulrC mul_conjC_eq0 => /eqP.
Qed.

(** Pairwise orthogonal vectors that are not zero are at most as many as the dimension. *)
Fixpoint orth_list (l : seq V) : Prop :=
  match l with
  | nil => True
  | u :: l' => u != 0 /\ (forall w, w \in l' -> sp w u = 0) /\ orth_list l'
  end.
Lemma orth_nth l i j : orth_list l -> (i < size l)%N -> (j < size l)%N -> i != j -> sp (nth 0 l i) (nth 0 l j) = 0.
Proof.
elim: l i j => [|u l IH] // [|i] [|j] //= [_ [H1 H2]] hi hj ne.
- by rewrite -spC H1 ?rmorph0 //; apply: mem_nth.
- by apply: H1; apply: mem_nth.
- by apply: IH.
Qed.
Lemma orth_neq0 l i : orth_list l -> (i < size l)%N -> nth 0 l i != 0.
Proof. by elim: l i => [|u l IH] // [|i] //= [H0 [H1 H2]] hi //; apply: IH. Qed.
Lemma orth_size l : orth_list l -> (size l <= m)%N.
Proof.
move=> H; pose M : 'M[C]_(size l, m) := \matrix_(i, j) nth 0 l i j 0.
pose N : 'M[C]_(size l, m) := \matrix_(i, j) (nth 0 l i j 0)^*.
have G : N *m M^T = diag_mx (\row_i sp (nth 0 l i) (nth 0 l i)).
  apply/matrixP => i j; rewrite !mxE.
  have -> : \sum_k N i k * M^T k j = sp (nth 0 l i) (nth 0 l j) by apply: eq_bigr => k _; rewrite !mxE.
  case: eqP => [->|ne]; first by rewrite mulr1n.
  by rewrite mulr0n; apply: orth_nth => //; apply/eqP => E0; apply: ne; apply: val_inj.
have U : \rank (N *m M^T) = size l.
  apply: mxrank_unit; rewrite G unitmxE det_diag unitfE; apply/prodf_neq0 => i _; rewrite mxE sp_eq0; exact: orth_neq0.
by rewrite -U (leq_trans (mxrankM_maxl _ _)) // rank_leq_col.
Qed.

(** Conjugate gradient: the invariant.  [H] and [Q] are the residuals and the directions of the past steps. *)
Record cg_inv A (H Q : seq V) (r p : V) : Prop := CgInv {
  i1 : forall u, u \in H -> sp u r = 0;
  i2 : forall q, q \in Q -> sp q (A p) = 0;
  i3 : forall q, q \in Q -> forall z, (forall u, u \in H -> sp u z = 0) -> sp r z = 0 -> sp (A q) z = 0;
  i4 : forall u, u \in H -> forall z, (forall q, q \in Q -> sp q z = 0) -> sp u z = 0;
  i4r : forall z, (forall q, q \in Q -> sp q z = 0) -> sp p z = 0 -> sp r z = 0;
  i5 : sp r (A p) = sp p (A p);
  i6 : sp r p = sp r r }.
Lemma cg_step A H Q r p al be : linear_op A -> hermitian_op A -> cg_inv A H Q r p ->
  al = sp r r / sp p (A p) -> sp p (A p) != 0 -> r != 0 ->
  be = sp (r - al *: A p) (r - al *: A p) / sp r r ->
  cg_inv A (r :: H) (p :: Q) (r - al *: A p) (r - al *: A p + be *: p).
Proof.
move=> HA Hh I Eal d0 r0 Ebe; set r' := r - al *: A p in Ebe *; set p' := r' + be *: p.
have n0 : sp r r != 0 by rewrite sp_eq0.
have a0 : al != 0 by rewrite Eal mulf_neq0 // invr_eq0.
have rr : (sp r r)^* = sp r r by rewrite spC.
have dr : (sp p (A p))^* = sp p (A p) by rewrite spC -Hh.
have alr : al^* = al by rewrite Eal rmorphM fmorphV rr dr.
have ad : al * sp p (A p) = sp r r by rewrite Eal mulfVK.
have ber : be^* = be by rewrite Ebe rmorphM fmorphV rr spC.
have J1 u : u \in r :: H -> sp u r' = 0.
  rewrite inE => /orP [/eqP -> | hu]; first by rewrite spBr spZr (i5 I) ad subrr.
  by rewrite spBr spZr (i1 I hu) (i4 I hu (i2 I)) mulr0 subr0.
have Ap : A p = al^-1 *: (r - r').
  by rewrite /r' opprB addrC subrK scalerA mulVf // scale1r.
have J2 q : q \in p :: Q -> sp q (A p') = 0.
  rewrite inE => /orP [/eqP -> | hq]; rewrite /p' (lopD HA) (lopZ HA) spDr spZr Hh.
    rewrite {1}Ap spZl spBl (J1 r) ?mem_head // sub0r fmorphV alr Ebe.
    by rewrite -ad invfM mulrN mulrA mulfVK // mulrC addNr.
  rewrite (i3 I hq) ?add0r ?(i2 I hq) ?mulr0 //; last by rewrite J1 ?mem_head.
  by move=> u hu; apply: J1; rewrite inE hu orbT.
have rp : sp r' p = 0 by rewrite spBl spZl alr (i6 I) -Hh ad subrr.
split=> //.
- move=> q; rewrite inE => /orP [/eqP -> | hq] z Hz Hr.
    by rewrite Ap spZl spBl Hz ?mem_head // Hr subrr mulr0.
  apply: (i3 I hq) => [u hu|]; first by apply: Hz; rewrite inE hu orbT.
  by apply: Hz; rewrite mem_head.
- move=> u; rewrite inE => /orP [/eqP -> | hu] z Hz.
    by apply: (i4r I) => [q hq|]; apply: Hz; rewrite ?mem_head // inE hq orbT.
  by apply: (i4 I hu) => q hq; apply: Hz; rewrite inE hq orbT.
- by move=> z Hz; rewrite /p' spDl spZl (Hz p (mem_head _ _)) mulr0 addr0.
- have -> : sp r' (A p') = sp (p' - be *: p) (A p') by rewrite /p' addrK.
  by rewrite spBl spZl (J2 p (mem_head _ _)) mulr0 subr0.
- by rewrite /p' spDr spZr rp mulr0 addr0.
Qed.
Lemma cg_loop_complete n A eps x r p H Q : linear_op A -> hermitian_op A -> positive_op A -> 0 < eps ->
  cg_inv A H Q r p -> orth_list H -> r != 0 -> (m <= size H + n)%N ->
  exists y, cg_loop E n A eps x r p (sp r r) = Converged y.
Proof.
move=> HA Hh Hp e0; elim: n x r p H Q => [|n IH] x r p H Q I O r0 Hm.
  have : (size (r :: H) <= m)%N.
    apply: orth_size; split=> //; split=> // w hw; exact: (i1 I hw).
  by rewrite /= ltnNge; move: Hm; rewrite addn0 => ->.
have n0 : sp r r != 0 by rewrite sp_eq0.
have p0 : p != 0 by apply/eqP => p0; move/eqP: n0; apply; rewrite -(i6 I) p0 spr0.
have d0 : sp p (A p) != 0 by rewrite lt0r_neq0 // Hp.
rewrite /= (negbTE d0) (negbTE n0); set al := _ / _; case: ifP => [_|Hn]; first by exists (x + al *: p).
set r' := r - al *: A p in Hn *; set be := _ / _.
apply: (IH _ _ _ (r :: H) (p :: Q)).
- exact: (@cg_step A H Q r p al be).
- by split=> //; split=> // w hw; exact: (i1 I hw).
- by apply/eqP => E0; move: Hn; rewrite E0 spr0 e0.
- by rewrite /= addSnnS.
Qed.
Lemma cg_complete n A eps b g : linear_op A -> hermitian_op A -> positive_op A -> 0 < eps ->
  b != A (match g with None => b | Some x => x end) -> (m <= n)%N ->
  exists y, cg_solve E n eps A b g = Converged y.
Proof.
move=> HA Hh Hp e0 Hb Hm; rewrite /cg_solve.
apply: (@cg_loop_complete _ _ _ _ _ _ nil nil) => //.
by rewrite subr_eq0.
Qed.
Lemma spd_unique A x y : linear_op A -> positive_op A -> A x = A y -> x = y.
Proof.
move=> HA Hp Exy; apply/eqP; rewrite -subr_eq0; case: (boolP (x - y == 0)) => // /Hp.
by rewrite (lopB HA) Exy subrr spr0 Order.POrderTheory.ltxx.
Qed.

(** The error of an approximate solution of (A + sigma) x = b for A >= 0. *)
Lemma shifted_error A (s : C) e : linear_op A -> hermitian_op A -> (forall v, 0 <= sp v (A v)) -> 0 < s ->
  s ^+ 2 * sp e e <= sp (shifted A s e) (shifted A s e).
Proof.
move=> HA Hh Hp s0; have sr : s^* = s by apply: conj_Creal; exact: gtr0_real.
rewrite /shifted spDr !spDl !spZr !spZl sr -[sp (A e) e]Hh -subr_ge0.
have -> : sp (A e) (A e) + s * sp e (A e) + (s * sp e (A e) + s * (s * sp e e)) - s ^+ 2 * sp e e
        = sp (A e) (A e) + (s * sp e (A e) + s * sp e (A e)).
  by rewrite expr2; cring_fold C; ring.
by rewrite addr_ge0 ?sp_ge0 // addr_ge0 // mulr_ge0 // Order.POrderTheory.ltW.
Qed.
End Proofs.

Section Degrees.
Variable C : numClosedFieldType.
Lemma size_chebyshev k : size (chebyshev C k) = k.+1 /\ size (chebyshev C k.+1) = k.+2.
Proof.
elim: k => [|k [H1 H2]]; first by rewrite /chebyshev /= size_poly1 size_polyX.
split=> //; rewrite chebyshevSS size_addl size_scale ?pnatr_eq0 // mulrC size_mulX ?H2 //; try by rewrite -size_poly_eq0 H2.
by rewrite size_opp H1.
Qed.
Lemma size_cheb_comp k (a b : C) : a != b -> size (chebyshev C k \Po affine (2%:R / (b - a)) ((a + b) / (b - a))) = k.+1.
Proof.
move=> ab; rewrite size_comp_poly2 ?(proj1 (size_chebyshev k)) //.
have c0 : 2%:R / (b - a) != 0 by rewrite mulf_neq0 ?pnatr_eq0 // invr_eq0 subr_eq0 eq_sym.
rewrite /affine size_addl mul_polyC size_scale // ?size_polyX // size_opp.
by apply: (leq_ltn_trans (size_polyC_leq1 _)).
Qed.
Variable m : nat.
Lemma shifted_solve_error (A : 'cV[C]_m -> 'cV[C]_m) s eps b y ys : linear_op A -> hermitian_op A ->
  (forall v, 0 <= scalar_product v (A v)) -> 0 < s -> residual_norm (shifted A s) b y < eps -> shifted A s ys = b ->
  s ^+ 2 * scalar_product (y - ys) (y - ys) < eps.
Proof.
move=> HA Hh Hp s0 Hr Hy; apply: Order.POrderTheory.le_lt_trans (shifted_error _ HA Hh Hp s0) _.
have HS := shifted_linear s HA; rewrite (lopB HS) Hy.
by move: Hr; rewrite residualE -opprB spNr spNl opprK.
Qed.
Lemma mulmx_linear (M : 'M[C]_m) : linear_op (mulmx M : 'cV_m -> 'cV_m).
Proof. by move=> a u v; rewrite mulmxDr scalemxAr. Qed.
Lemma diag_entry (d : 'rV[C]_m) (v : 'cV_m) i : (diag_mx d *m v) i 0 = d 0 i * v i 0.
Proof. by rewrite mul_diag_mx mxE. Qed.
Lemma diag_hermitian (d : 'rV[C]_m) : (forall i, d 0 i \is Num.real) -> hermitian_op (mulmx (diag_mx d) : 'cV_m -> 'cV_m).
Proof.
move=> H u v; apply: eq_bigr => i _; rewrite !diag_entry rmorphM (conj_Creal (H i)) mulrCA mulrA //.
Qed.
Lemma diag_form (d : 'rV[C]_m) (v : 'cV_m) : scalar_product v (diag_mx d *m v) = \sum_i d 0 i * `|v i 0| ^+ 2.
Proof. by apply: eq_bigr => i _; rewrite diag_entry normCK mulrCA [_^* * _]mulrC. Qed.
Lemma diag_positive (d : 'rV[C]_m) : (forall i, 0 < d 0 i) -> positive_op (mulmx (diag_mx d) : 'cV_m -> 'cV_m).
Proof.
move=> H v v0; rewrite diag_form Order.POrderTheory.lt_neqAle; apply/andP; split; last first.
  by apply: sumr_ge0 => i _; rewrite mulr_ge0 ?exprn_ge0 // Order.POrderTheory.ltW.
rewrite eq_sym; apply/eqP => E0; move/eqP: v0; apply; apply/matrixP => i j; rewrite ord1 mxE.
have K k : true -> 0 <= d 0 k * `|v k 0| ^+ 2 by move=> _; rewrite mulr_ge0 ?exprn_ge0 // Order.POrderTheory.ltW.
have /eqP := psumr_eq0P K E0 (i := i) isT.
by rewrite mulf_eq0 (negbTE (lt0r_neq0 (H i))) /= expf_eq0 /= normr_eq0 => /eqP.
Qed.
End Degrees.

From mathcomp Require Import all_ssreflect all_algebra.
From Verif Require Import GmresModel GmresSpec GmresProofs.
Import GRing.Theory Num.Theory Order.POrderTheory.
Set Implicit Arguments.
Unset Strict Implicit.
Unset Printing Implicit Defensive.
Local Open Scope ring_scope.

(** Without a preconditioner: progress for a positive Hermitian part. *)
Section Progress.
Variable C : numClosedFieldType.
Variable m : nat.
Notation vector := 'cV[C]_m.
Variables (o : gm_object) (M : 'M[C]_m) (b : vector).
Let A (v : vector) := M *m v.
(** The new direction, before the division by its norm. *)
Lemma new_direction k s : invariant o M b k s ->
  let cu := gm_orthogonalize (gc s) (gu s) (k %% dimension o) (A (gres s), gres s) in
  gdot cu.1 (gres s) = gdot (A (gres s)) (gres s) /\ gnorm cu.1 <= gnorm (A (gres s)).
Proof.
move=> [_ Ec Eo Ez]; set j := (k %% _)%N in Ec Eo Ez *.
have [_ G2 [f [F _]]] := orth_spec (leqnn j) Ec Eo (erefl (A (gres s))).
set cu := gm_orthogonalize _ _ _ _ in G2 F *; split.
  rewrite F gdotBl [gdot (\sum_(i < j) _) _]gdotC gdot_sumr big1 ?conjC0 ?subr0 // => i _.
  by rewrite gdotZr [gdot (gres s) _]gdotC Ez // conjC0 mulr0.
have -> : A (gres s) = cu.1 + \sum_(i < j) f i *: nth 0 (gc s) i by rewrite F subrK.
rewrite gnorm_pyth; first by rewrite ler_addl gnorm_ge0.
by rewrite gdot_sumr big1 // => i _; rewrite gdotZr gdotC G2 // conjC0 mulr0.
Qed.
Section Rate.
Variables (lambda Lambda : C).
Hypothesis l0 : 0 <= lambda.
Hypothesis L0 : 0 < Lambda.
Hypothesis low : forall v, lambda * gnorm v <= 'Re (gdot v (A v)).
Hypothesis high : forall v, gnorm (A v) <= Lambda * gnorm v.
Lemma step_rate k s s' : invariant o M b k s -> gm_step o A None k s = GOk s' ->
  gnorm (gres s') <= (1 - lambda ^+ 2 / Lambda) * gnorm (gres s).
Proof.
move=> inv E; have [_ _ _ _ ->] := step_spec inv E.
have [D1 D2] := new_direction inv.
move: E; rewrite /gm_step; case: eqP => // d0 /=; set j := (k %% _)%N in D1 D2 *.
case: leqP => // ja; rewrite /gm_direction.
set cu := gm_orthogonalize _ _ _ _ in D1 D2 *; case: eqP => // /eqP ne [<-] /=.
have [n0 _] := norm_pos ne; rewrite nth_set_nth /= eqxx.
rewrite gdotZl D1 mulrBl mul1r ler_add2l ler_opp2.
have np : 0 < gnorm cu.1 by rewrite lt_def n0 gnorm_ge0.
have -> : `|((sqrtC (gnorm cu.1))^-1)^* * gdot (A (gres s)) (gres s)| ^+ 2 = `|gdot (gres s) (A (gres s))| ^+ 2 / gnorm cu.1.
  rewrite normrM exprMn norm_conjC normrV ?unitfE // exprVn ger0_norm ?sqrtC_ge0 ?ltW // sqrtCK.
  by rewrite gdotC norm_conjC mulrC.
set r := gres s in D1 D2 np *.
have B1 : (lambda * gnorm r) ^+ 2 <= `|gdot r (A r)| ^+ 2.
  apply: ler_expn2r; rewrite ?nnegrE ?mulr_ge0 ?gnorm_ge0 //.
  apply: le_trans (low r) _; apply: le_trans (real_ler_norm (Creal_Re _)) _; exact: leif_normC_Re_Creal.
have B2 : lambda ^+ 2 / Lambda * gnorm r * gnorm cu.1 <= (lambda * gnorm r) ^+ 2.
  have -> : (lambda * gnorm r) ^+ 2 = lambda ^+ 2 / Lambda * gnorm r * (Lambda * gnorm r).
    by rewrite mulrACA [_ / _ * _]mulrAC -[_ * _ / _]mulrA divff ?gt_eqF // mulr1 exprMn -expr2.
  apply: ler_wpmul2l; last exact: le_trans D2 (high r).
  by rewrite mulr_ge0 ?gnorm_ge0 // divr_ge0 ?exprn_ge0 // ltW.
rewrite ler_pdivl_mulr //; exact: le_trans B2 B1.
Qed.
Lemma rate_ge0 k s s' : invariant o M b k s -> gm_step o A None k s = GOk s' -> 0 <= 1 - lambda ^+ 2 / Lambda.
Proof.
move=> inv E; have le := le_trans (gnorm_ge0 _) (step_rate inv E); have [_ D2] := new_direction inv.
have r0 : gnorm (gres s) != 0.
  apply/eqP => /gnorm_eq0 z; move: E; rewrite /gm_step; case: eqP => // d0 /=; case: leqP => // ja; rewrite /gm_direction.
  move: D2; set cu := gm_orthogonalize _ _ _ _; have -> : gnorm (A (gres s)) = 0 by rewrite z /A mulmx0 /gnorm gdot0r.
  move=> D2.
  by rewrite (_ : gnorm cu.1 = 0) ?sqrtC0 ?eqxx //; apply/eqP; rewrite eq_le D2 gnorm_ge0.
by rewrite pmulr_lge0 // in le; rewrite lt_def r0 gnorm_ge0.
Qed.
Lemma power_le (q x y : C) n : 0 <= q -> x <= q * y -> q ^+ n * x <= q ^+ n.+1 * y.
Proof. by move=> q0 h; rewrite exprSr -mulrA; apply: ler_wpmul2l => //; rewrite exprn_ge0. Qed.
Lemma loop_rate eps n k s : invariant o M b k s ->
  match gm_loop o A None eps n k s with
  | GFailed x => gnorm (b - A x) <= (1 - lambda ^+ 2 / Lambda) ^+ n * gnorm (gres s)
  | GConverged x last => (k <= last)%N /\ gnorm (b - A x) <= (1 - lambda ^+ 2 / Lambda) ^+ (last - k).+1 * gnorm (gres s)
  | _ => True end.
Proof.
move=> inv; elim: n k s inv => [|n IH] k s inv /=; first by rewrite expr0 mul1r -(inv_res inv).
case E : gm_step => [s'| |] //; have q0 := rate_ge0 inv E; have inv' := step_inv inv E; have le := step_rate inv E.
case: ifP => lt; first by rewrite -(inv_res inv') subnn expr1.
have := IH _ _ inv'; case: gm_loop => // [x l [h1 h2]|x h]; last first.
  by apply: le_trans h _; exact: power_le.
split; first exact: ltnW.
by apply: le_trans h2 _; rewrite subnSK //; exact: power_le.
Qed.
End Rate.
(** No breakdown. *)
Hypothesis pos : forall v, v != 0 -> 0 < 'Re (gdot v (A v)).
Lemma step_nan k s : invariant o M b k s -> gres s != 0 -> gm_step o A None k s <> GNaN _ _.
Proof.
move=> inv r0; have [D1 _] := new_direction inv.
rewrite /gm_step; case: eqP => // d0 /=; set j := (k %% _)%N in D1 *.
case: leqP => // ja; rewrite /gm_direction.
set cu := gm_orthogonalize _ _ _ _ in D1 *; case: eqP => // /eqP; rewrite sqrtC_eq0 => /eqP /gnorm_eq0 z.
move: D1; rewrite z gdot0l gdotC => /esym /eqP; rewrite conjC_eq0 => /eqP e.
by have := pos r0; rewrite e (raddf0 (Re_additive C)) ltxx.
Qed.
Lemma step_decrease k s s' : invariant o M b k s -> gres s != 0 -> gm_step o A None k s = GOk s' ->
  gnorm (gres s') < gnorm (gres s).
Proof.
move=> inv r0 E; have [_ _ _ _ ->] := step_spec inv E; have [D1 _] := new_direction inv.
move: E; rewrite /gm_step; case: eqP => // d0 /=; set j := (k %% _)%N in D1 *.
case: leqP => // ja; rewrite /gm_direction.
set cu := gm_orthogonalize _ _ _ _ in D1 *; case: eqP => // /eqP ne [<-] /=.
rewrite nth_set_nth /= eqxx ltr_subl_addr ltr_addl exprn_gt0 // normr_gt0 gdotZl D1 mulf_eq0 conjC_eq0 invr_eq0 (negbTE ne) /=.
rewrite gdotC conjC_eq0; apply/eqP => e.
by have := pos r0; rewrite e (raddf0 (Re_additive C)) ltxx.
Qed.
Lemma loop_progress eps n k s : invariant o M b k s -> gres s != 0 -> 0 < eps ->
  match gm_loop o A None eps n k s return Prop with
  | GNotANumber => False
  | GFailed x => (0 < n)%N -> gnorm (b - A x) < gnorm (gres s)
  | GConverged x last => gnorm (b - A x) < gnorm (gres s)
  | _ => True end.
Proof.
move=> + + e0; elim: n k s => [|n IH] k s inv r0 //=.
case E : gm_step => [s'| |] //; last exact: (step_nan inv r0).
have inv' := step_inv inv E; have lt := step_decrease inv r0 E.
case: ifP => le; first by rewrite -(inv_res inv').
have r' : gres s' != 0 by apply/eqP => z; move: le; rewrite z /gnorm gdot0r e0.
have := IH _ _ inv' r'; case: (n) => [|n'] /=; first by move=> _ _; rewrite -(inv_res inv').
case: gm_step => // s''; case: ifP => _; first by move=> h; exact: lt_trans h lt.
by case: gm_loop => // [x l h|x h]; [|move=> _; have {}h := h isT]; exact: lt_trans h lt.
Qed.
End Progress.

(** Optimality of a cycle. *)
Section Krylov.
Variable C : numClosedFieldType.
Variable m : nat.
Notation vector := 'cV[C]_m.
Variables (o : gm_object) (M : 'M[C]_m) (b x0 : vector).
Let A (v : vector) := M *m v.
Let pow := power_on M (b - A x0).
Lemma loop_last eps n k s : match gm_loop o A None eps n k s return Prop with GConverged x last => (k <= last)%N | _ => True end.
Proof.
elim: n k s => //= n IH k s; case: gm_step => // s'; case: ifP => // _.
by have := IH k.+1 s'; case: gm_loop => // x l h; exact: ltnW.
Qed.
Definition inK (l : nat) (v : vector) := exists p : nat -> C, v = \sum_(i < l) p i *: pow i.
Lemma inK_lin l a u v : inK l u -> inK l v -> inK l (u + a *: v).
Proof.
move=> [p ->] [q ->]; exists (fun i => p i + a * q i); rewrite scaler_sumr -big_split; apply: eq_bigr => i _.
by rewrite scalerDl scalerA.
Qed.
Lemma inK_S l u : inK l u -> inK l.+1 u.
Proof.
move=> [p ->]; exists (fun i => if (i < l)%N then p i else 0); rewrite big_ord_recr /= ltnn scale0r addr0.
by apply: eq_bigr => i _; rewrite ltn_ord.
Qed.
Lemma inK_leq l l' u : (l <= l')%N -> inK l u -> inK l' u.
Proof. by move=> /subnK <-; elim: (l' - l)%N => // n IH h; exact/inK_S/IH. Qed.
Lemma inK_mul l u : inK l u -> inK l.+1 (A u).
Proof.
move=> [p ->]; exists (fun i => if i is i'.+1 then p i' else 0); rewrite big_ord_recl scale0r add0r /A mulmx_sumr.
by apply: eq_bigr => i _; rewrite -scalemxAr.
Qed.
Lemma inK_sum l n (f : nat -> C) (F : nat -> vector) : (forall i, (i < n)%N -> inK l (F i)) -> inK l (\sum_(i < n) f i *: F i).
Proof.
elim: n => [|n IH] h; first by rewrite big_ord0; exists (fun _ => 0); rewrite big1 // => i _; rewrite scale0r.
by rewrite big_ord_recr; apply: inK_lin; [apply: IH => i hi; apply: h; exact: ltnW | exact: h].
Qed.
(** Before step k of the first cycle. *)
Record kinv (k : nat) (s : gm_state C m) : Prop := Kinv {
  k_cu : forall i, (i < k)%N -> nth 0 (gc s) i = A (nth 0 (gu s) i);
  k_on : forall i j, (i < k)%N -> (j < k)%N -> gdot (nth 0 (gc s) i) (nth 0 (gc s) j) = (i == j)%:R;
  k_r : forall i, (i < k)%N -> gdot (nth 0 (gc s) i) (gres s) = 0;
  k_res : gres s = b - A (gsol s);
  k_u : forall i, (i < k)%N -> inK i.+1 (nth 0 (gu s) i);
  k_kr : inK k.+1 (gres s);
  k_sol : exists f : nat -> C, gsol s = x0 + \sum_(i < k) f i *: nth 0 (gu s) i }.
Lemma kinv_inv k s : (k < dimension o)%N -> kinv k s -> invariant o M b k s.
Proof. by move=> lt [h1 h2 h3 h4 _ _ _]; split; rewrite ?modn_small. Qed.
Lemma kinv_step k s s' : (k < dimension o)%N -> kinv k s -> gm_step o A None k s = GOk s' -> kinv k.+1 s'.
Proof.
move=> lt ki E; have inv := kinv_inv lt ki; have [e1 e2 e3 e4 _] := step_spec inv E.
have mk := modn_small lt; rewrite mk in e2 e3 e4.
have [_ _ [f [_ F]]] := orth_spec (leqnn k) (k_cu ki) (k_on ki) (erefl (A (gres s))).
have Z l : inK l 0 by exists (fun _ => 0); rewrite big1 // => i _; rewrite scale0r.
have U : inK k.+1 (gm_orthogonalize (gc s) (gu s) k (A (gres s), gres s)).2.
  rewrite F -scaleN1r; apply: inK_lin; first exact: k_kr ki.
  by apply: inK_sum => i hi; apply: inK_leq (k_u ki hi); exact: ltnW.
move: E; rewrite /gm_step; case: eqP => // _ /=; rewrite mk; case: leqP => // _; rewrite /gm_direction.
set cu := gm_orthogonalize _ _ _ _ in U F *; case: eqP => // _; set nu := (sqrtC _)^-1.
set al := gdot _ _ => - [Es].
have N (q : seq vector) z i : (i <= k)%N -> nth 0 (set_nth 0 q k z) i = if i == k then z else nth 0 q i by rewrite nth_set_nth.
have U' : inK k.+1 (nu *: cu.2) by rewrite -[_ *: _]add0r; apply: inK_lin.
split=> //; first by rewrite -Es /= => i h; rewrite N //; case: eqP => [->//|/eqP ne]; apply: k_u ki _ _; rewrite ltn_neqAle ne.
- rewrite -Es /=; rewrite -scaleNr; apply: inK_lin; first exact/inK_S/(k_kr ki).
  have -> : nu *: cu.1 = nth 0 (gc s') k by rewrite -Es /= N // eqxx.
  by rewrite e2 //; apply: inK_mul; rewrite -Es /= N // eqxx.
have [g G] := k_sol ki; exists (fun i => if i == k then al else g i); rewrite -Es /= G -addrA; congr (_ + _).
rewrite big_ord_recr /= N // !eqxx; congr (_ + _); apply: eq_bigr => i _.
by rewrite N ?(ltnW (ltn_ord i)) // (ltn_eqF (ltn_ord i)).
Qed.
Lemma kinv_start cs us : kinv 0 (GmState x0 (b - A x0) cs us).
Proof.
split=> //=; first by exists (fun _ => 1); rewrite big_ord1 scale1r.
by exists (fun _ => 0); rewrite big_ord0 addr0.
Qed.
(** The directions span the whole space. *)
Lemma kinv_span k s y : kinv k s -> inK k y -> exists g : nat -> C, y = \sum_(i < k) g i *: nth 0 (gu s) i.
Proof.
move=> ki [p ->].
have /fin_all_exists [q Q] : forall i : 'I_k, exists q : nat -> C, nth 0 (gu s) i = \sum_(l < k) q l *: pow l.
  by move=> i; have [q E] := inK_leq (ltn_ord i) (k_u ki (ltn_ord i)); exists q.
pose Uc : 'M[C]_(m, k) := \matrix_(a, i) nth 0 (gu s) i a ord0.
pose Kc : 'M[C]_(m, k) := \matrix_(a, l) pow l a ord0.
pose Qm : 'M[C]_k := \matrix_(l, i) q i l.
pose Ch : 'M[C]_(k, m) := \matrix_(i, a) (nth 0 (gc s) i a ord0)^*.
have UQ : Uc = Kc *m Qm.
  apply/matrixP => a i; rewrite !mxE Q summxE; apply: eq_bigr => l _; by rewrite !mxE mulrC.
have I1 : Ch *m M *m Uc = 1%:M.
  apply/matrixP => i j; rewrite -mulmxA !mxE -(k_on ki (ltn_ord i) (ltn_ord j)) /gdot; apply: eq_bigr => a _; rewrite !mxE.
  by rewrite (k_cu ki (ltn_ord j)) /A !mxE; congr (_ * _); apply: eq_bigr => c _; rewrite !mxE.
have /mulmx1_unit [_ Qu] : (Ch *m M *m Kc) *m Qm = 1%:M by rewrite -mulmxA -UQ.
have KU : Kc = Uc *m invmx Qm by rewrite UQ mulmxK.
pose pc : 'cV[C]_k := \col_l p l; pose g := invmx Qm *m pc.
exists (fun i => match insub i with Some i => g i ord0 | None => 0 end).
have -> : \sum_(l < k) p l *: pow l = Kc *m pc.
  by apply/matrixP => a z; rewrite (ord1 z) summxE !mxE; apply: eq_bigr => l _; rewrite !mxE mulrC.
rewrite KU -mulmxA -/g; apply/matrixP => a z; rewrite (ord1 z) summxE !mxE; apply: eq_bigr => i _.
by rewrite valK !mxE mulrC.
Qed.
Lemma kinv_optimal k s y : kinv k s -> inK k y -> gnorm (gres s) <= gnorm (b - A (x0 + y)).
Proof.
move=> ki hy; have [g ->] := kinv_span ki hy; have [f F] := k_sol ki.
have -> : b - A (x0 + \sum_(i < k) g i *: nth 0 (gu s) i) = gres s + \sum_(i < k) (f i - g i) *: nth 0 (gc s) i.
  rewrite (k_res ki) F /A !mulmxDr !opprD !addrA -[RHS]addrA; congr (_ + _).
  rewrite !mulmx_sumr -!sumrN -big_split; apply: eq_bigr => i _ /=.
  by rewrite -!scalemxAr -/(A _) -(k_cu ki (ltn_ord i)) scalerBl addrA addNr add0r.
rewrite gnorm_pyth; first by rewrite ler_addl gnorm_ge0.
by rewrite gdot_sumr big1 // => i _; rewrite gdotZr gdotC (k_r ki (ltn_ord i)) conjC0 mulr0.
Qed.
Lemma loop_optimal eps n k s : kinv k s ->
  match gm_loop o A None eps n k s with
  | GConverged x last => (last < dimension o)%N -> forall y, inK last.+1 y -> gnorm (b - A x) <= gnorm (b - A (x0 + y))
  | GFailed x => (k + n <= dimension o)%N -> forall y, inK (k + n) y -> gnorm (b - A x) <= gnorm (b - A (x0 + y))
  | _ => True end.
Proof.
elim: n k s => [|n IH] k s ki /=.
  by rewrite addn0 => _ y; rewrite -(k_res ki); exact: kinv_optimal.
case E : gm_step => [s'| |] //.
case: ifP => lt.
  by move=> kd y hy; have ki' := kinv_step kd ki E; rewrite -(k_res ki'); exact: kinv_optimal hy.
case: (ltnP k (dimension o)) => kd.
  by have := IH _ _ (kinv_step kd ki E); rewrite addSnnS.
have G := @loop_last eps n k.+1 s'.
case R : gm_loop G => [x l|x| |] //= G; last by rewrite addnS => h; have := leq_trans (leq_trans (ltnSn _) (leq_trans (leq_addr n k.+1) h)) kd; rewrite ltnn.
by move=> h; have := leq_trans h (leq_trans kd (ltnW G)); rewrite ltnn.
Qed.
End Krylov.

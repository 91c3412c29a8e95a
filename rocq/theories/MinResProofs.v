(** Proofs about the minimal residual and the chronological multishift solvers. *)
From Coq Require Import List Ring Field.
From Verif Require Import Base.
From mathcomp Require Import all_ssreflect all_algebra.
From Verif Require Import GaugeProofs SolverModel SolverSpec SolverProofs SolverProofs2 MinResModel MinResSpec.
Import GRing.Theory Num.Theory Order.POrderTheory.
Set Implicit Arguments.
Unset Strict Implicit.
Unset Printing Implicit Defensive.
Local Open Scope ring_scope.

Section Proofs.
Variable C : numClosedFieldType.
Add Ring CringM : (Crth C).
Variable m : nat.
Notation V := 'cV[C]_m.
Notation E := (exact C m).
Notation sp := (@scalar_product C m).
Implicit Types (A : V -> V) (u v w x b r p : V).

Lemma omega_ge0 : 0 <= mm_omega C.
Proof. by rewrite /mm_omega mulr_ge0 ?invr_ge0 ?ler0n. Qed.
Lemma omega_twice : mm_omega C + mm_omega C - mm_omega C * mm_omega C = 399%:R / 400%:R.
Proof.
have d0 (n : nat) : (n.+1)%:R != 0 :> C by rewrite pnatr_eq0.
have -> : mm_omega C = 1 - 20%:R^-1.
  by rewrite /mm_omega (_ : 19%:R = 20%:R - 1) ?mulrBl ?divff ?mul1r // -(natrB _ (_ : 1 <= 20)%N).
have -> : 399%:R / 400%:R = 1 - 20%:R^-1 * 20%:R^-1 :> C.
  by rewrite (_ : 399%:R = 400%:R - 1) ?mulrBl ?divff ?mul1r -?invfM -?natrM // -(natrB _ (_ : 1 <= 400)%N).
by move: (20%:R^-1) => h; cring_fold C; ring.
Qed.

(** One step of the minimal residual. *)
Lemma step_norm r p : sp p p != 0 -> let alpha := mm_omega C * (sp p r / sp p p) in
  sp (r - alpha *: p) (r - alpha *: p) = sp r r - 399%:R / 400%:R * (`|sp p r| ^+ 2 / sp p p).
Proof.
move=> n0 alpha; rewrite -omega_twice normCK.
have k : sp p p * (sp p p)^-1 = 1 by rewrite divff.
have oc : (mm_omega C)^* = mm_omega C by exact: geC0_conj omega_ge0.
have nc : (sp p p)^* = sp p p by rewrite spC.
have ac : alpha^* = mm_omega C * ((sp p r)^* * (sp p p)^-1).
  by rewrite /alpha rmorphM /= oc rmorphM /= fmorphV nc.
rewrite !(spBl, spBr, spZl, spZr) -(spC p r) ac /alpha {ac alpha nc n0 oc}.
move: (sp p p) (sp p r) ((sp p r)^*) (sp r r) (mm_omega C) (sp p p)^-1 k => N z zs rr om Ni k.
have e : (om * (zs * Ni)) * ((om * (z * Ni)) * N) = om * om * z * zs * Ni.
  transitivity (om * om * z * zs * Ni * (N * Ni)); last by rewrite k mulr1.
  by cring_fold C; ring.
transitivity (rr - om * (z * Ni) * zs - om * (zs * Ni) * z + (om * (zs * Ni)) * ((om * (z * Ni)) * N)).
  by cring_fold C; ring.
by rewrite e; cring_fold C; ring.
Qed.
Lemma step_le r p : sp p p != 0 -> let alpha := mm_omega C * (sp p r / sp p p) in
  sp (r - alpha *: p) (r - alpha *: p) <= sp r r.
Proof.
move=> n0; cbv zeta; rewrite step_norm // ler_subl_addr ler_addl mulr_ge0 ?divr_ge0 ?ler0n ?sp_ge0 ?exprn_ge0 //.
Qed.

Section Loop.
Variables (A : V -> V) (mad : V -> V -> C -> V) (b : V) (t eps : C).
Hypotheses (lA : linear_op A) (aA : adds A mad).
Let S := shifted A t.
Lemma madE r : mad r r t = S r. Proof. by rewrite aA. Qed.
Lemma lS s : linear_op (shifted A s). Proof. exact: shifted_linear. Qed.
Lemma step_res s x r (a : C) : b - shifted A s (x + a *: r) = (b - shifted A s x) - a *: shifted A s r.
Proof. by rewrite (lopD (lS s)) (lopZ (lS s)) opprD addrA. Qed.

(** The last shift. *)
Lemma loop_last n others x r ok o' y : b - S x = r -> mm_loop n mad eps t others x r = (ok, (o', Some y)) ->
  sp (b - S y) (b - S y) <= sp r r /\ (ok -> sp (b - S y) (b - S y) < eps).
Proof.
elim: n others x r => [|n IH] others x r hr /=; first by case=> <- _ <-; rewrite hr.
rewrite madE; case: eqP => // /eqP n0; have L := @step_le r _ n0; set al := _ * (_ / _) in L *.
have hr' : b - S (x + al *: r) = r - al *: S r by rewrite step_res -/S hr.
case: ifP => [lt|_]; first by case=> _ _ <-; rewrite hr'.
by move/(IH _ _ _ hr') => [h1 h2]; split=> //; exact: le_trans h1 L.
Qed.

(** The others. *)
Hypotheses (pos : nonnegative_op A) (t0 : 0 <= t).
Lemma S_ge0 r : 0 <= sp (S r) r.
Proof.
have h : 0 <= sp r (S r) by rewrite /S /shifted spDr spZr addr_ge0 ?mulr_ge0 ?sp_ge0.
by rewrite -spC geC0_conj.
Qed.
Definition collinear r (e : C * option (C * V)) : Prop :=
  if e is (s, Some (f, x)) then [/\ t <= s, b - shifted A s x = f *: r & 0 <= f <= 1] else False.
Lemma other_step al r e : 0 <= al -> collinear r e -> collinear (r - al *: S r) (mm_other al t r e).
Proof.
move=> a0; case: e => s [[f x]|] //= [ts hx /andP [f0 f1]].
have d1 : 1 <= 1 + (s - t) * al by rewrite ler_addl mulr_ge0 ?subr_ge0.
have d0 : 0 < 1 + (s - t) * al := lt_le_trans ltr01 d1.
rewrite (gt_eqF d0) /=; set d := 1 + _ in d1 d0 *; split=> //.
  rewrite step_res hx.
  have -> : shifted A s r = S r + (s - t) *: r by rewrite /S /shifted scalerBl addrACA subrr addr0 [in RHS]addrA || apply/matrixP => i j; rewrite /S /shifted !mxE; move: (A r i j) (r i j) => p q; cring_fold C; ring.
  have ef : f = f / d * d by rewrite divfK // gt_eqF.
  rewrite {1}ef; move: (f / d) (S r) => g w; rewrite /d; apply/matrixP => i j; rewrite !mxE.
  by move: (r i j) (w i j) => p q; cring_fold C; ring.
rewrite divr_ge0 ?(ltW d0) //= ler_pdivr_mulr // mul1r; exact: le_trans f1 d1.
Qed.
Lemma loop_others n (others : seq (C * option (C * V))) x r ok (o' : seq (C * option (C * V))) oy : (forall e, e \in others -> collinear r e) -> b - S x = r ->
  mm_loop n mad eps t others x r = (ok, (o', oy)) -> ok ->
  [/\ solved A eps b t oy, map fst o' = map fst others & forall e, e \in o' -> solved A eps b e.1 (omap snd e.2)].
Proof.
elim: n others x r => [|n IH] others x r ho hr /=; first by case=> <-.
rewrite madE; case: eqP => [_|/eqP n0]; first by case=> <-.
set al := _ * (_ / _).
have a0 : 0 <= al by rewrite mulr_ge0 ?omega_ge0 // divr_ge0 ?S_ge0 ?sp_ge0.
have hr' : b - S (x + al *: r) = r - al *: S r by rewrite step_res -/S hr.
have ho' e : e \in map (mm_other al t r) others -> collinear (r - al *: S r) e.
  by move=> /mapP [e' /ho h ->]; exact: other_step.
have fE : map fst (map (mm_other al t r) others) = map fst others.
  by rewrite -map_comp; apply: eq_map => [[s [[f y]|]]] //=; case: ifP.
case: ifP => [lt|_].
  case=> _ <- <- _; split=> //; first by exists (x + al *: r); rewrite // residualE -/S hr'.
  move=> [s [[f y]|]] /ho' //= [_ hy /andP [f0 f1]]; exists y; rewrite // residualE hy spZl spZr mulrA.
  apply: le_lt_trans lt; rewrite -[leRHS]mul1r; apply: ler_wpmul2r; first exact: sp_ge0.
  by rewrite geC0_conj //; apply: mulr_ile1.
by move=> h hok; have [h1 h2 h3] := IH _ _ _ ho' hr' h hok; rewrite -fE.
Qed.
Lemma others_forall (o' : seq (C * option (C * V))) : (forall e, e \in o' -> solved A eps b e.1 (omap snd e.2)) ->
  List.Forall2 (solved A eps b) (map fst o') (map (fun e => omap snd e.2) o').
Proof.
elim: o' => [|e o' IH] h /=; first by constructor.
by constructor; [apply: h; rewrite mem_head|apply: IH => e' he; apply: h; rewrite inE he orbT].
Qed.

(** Convergence. *)
Lemma loop_converges n others x r mu Lambda : spectrum_within S mu Lambda -> 0 < mu -> 0 < eps -> r != 0 -> (0 < n)%N ->
  (1 - 399%:R / 400%:R * (mu ^+ 2 / Lambda)) ^+ n * sp r r < eps -> (mm_loop n mad eps t others x r).1.
Proof.
move=> sw m0 e0; set q := 1 - _.
elim: n others x r => [|n IH] others x r r0 // _ hq /=; rewrite madE.
have rr : 0 < sp r r by rewrite lt0r sp_eq0 r0 sp_ge0.
have [h1 h2] := sw r.
have z0 : 0 < sp r (S r) by apply: lt_le_trans h1; exact: mulr_gt0.
have p0 : sp (S r) (S r) != 0.
  by rewrite sp_eq0; apply/eqP => p0; move: z0; rewrite p0 spr0 ltxx.
have pp : 0 < sp (S r) (S r) by rewrite lt0r p0 sp_ge0.
have L0 : 0 < Lambda by rewrite -(pmulr_lgt0 _ rr); exact: lt_le_trans h2.
rewrite (negbTE p0); set r' := r - _.
have dec : sp r' r' <= q * sp r r.
  have zE : sp (S r) r = sp r (S r) by rewrite -spC geC0_conj // ltW.
  have key : mu ^+ 2 / Lambda * sp r r <= sp r (S r) ^+ 2 / sp (S r) (S r).
    rewrite ler_pdivl_mulr //; apply: (@le_trans _ _ (mu ^+ 2 / Lambda * sp r r * (Lambda * sp r r))).
      by apply: ler_wpmul2l => //; rewrite mulr_ge0 ?divr_ge0 ?exprn_ge0 // ltW.
    rewrite mulrACA divfK ?(gt_eqF L0) // -expr2 -exprMn; apply: ler_expn2r => //; rewrite qualifE ?mulr_ge0 // ltW //.
  rewrite /r' step_norm // /q mulrBl mul1r ler_add2l ler_opp2 zE ger0_norm ?(ltW z0) //.
  by rewrite -[leLHS]mulrA; apply: ler_wpmul2l; rewrite // divr_ge0 ?ler0n.
have q0 : 0 <= q by rewrite -(pmulr_lge0 _ rr); apply: le_trans dec; exact: sp_ge0.
case: ifP => [//|big].
have r0' : r' != 0 by apply/eqP => e; move: big; rewrite e spr0 e0.
have hq' : q ^+ n * sp r' r' < eps.
  by apply: le_lt_trans hq; rewrite exprSr -mulrA; apply: ler_wpmul2l; rewrite ?exprn_ge0.
case: n IH hq hq' => [|n] IH hq hq'; last exact: IH.
by move: hq'; rewrite expr0 mul1r big.
Qed.
End Loop.

(** solve of MMMRMultishiftSolver. *)
Lemma solve_unfold n mad eps b size (negs mid : seq C) t : all (fun s => s < 0) negs -> all (fun s => t <= s) mid -> 0 <= t ->
  mm_solve n mad eps b size (negs ++ mid ++ [:: t])
  = if (size < seq.size (negs ++ mid ++ [:: t]))%N then UB else
    let negative := map (fun s => shift_solve E n mad eps s 0 b) negs in
    let: (found, (others, solution)) := mm_loop n mad eps t (map (fun s => (s, Some (1, 0))) mid) 0 b in
    Ok (found && all fst negative, map snd negative ++ map (fun e => omap snd e.2) others ++ [:: solution]).
Proof.
move=> hn hm t0.
have fE : find (fun s => ~~ (s < 0)) (negs ++ mid ++ [:: t]) = seq.size negs.
  rewrite find_cat; case: hasP => [[s /(allP hn) ->]|_] //.
  have h : ~~ (head t mid < 0).
    rewrite le_gtF //; case: mid hm => [|s mid] //= /andP [h _]; exact: le_trans t0 h.
  by case: mid {hm} h => [|s mid] /= ->; rewrite addn0.
have lE : last 0 (negs ++ mid ++ [:: t]) = t by rewrite !last_cat.
have sE : seq.size (negs ++ mid ++ [:: t]) = (seq.size (negs ++ mid)).+1 by rewrite !size_cat /= addn1 addnS.
have mE : drop (seq.size negs) (take (seq.size (negs ++ mid)) (negs ++ mid ++ [:: t])) = mid.
  by rewrite catA take_size_cat // drop_size_cat.
by rewrite /mm_solve fE lE sE -[(_.+1).-1]/(seq.size (negs ++ mid)) mE take_size_cat // ltnNge size_cat ltnS leq_addr /=.
Qed.
Lemma negs_sound n A mad eps b (negs : seq C) : linear_op A -> adds A mad ->
  all fst (map (fun s => shift_solve E n.+1 mad eps s 0 b) negs) ->
  List.Forall2 (solved A eps b) negs (map snd (map (fun s => shift_solve E n.+1 mad eps s 0 b) negs)).
Proof.
move=> lA aA; elim: negs => [|s negs IH] /=; first by constructor.
case E1: (shift_solve _ _ _ _ _ _ _) => [ok o] /= /andP [okT h]; constructor; last exact: IH.
rewrite okT in E1; apply: (shift_solve_sound lA aA _ E1).
by rewrite /shifted (lop0 lA) scaler0 addr0 subr0.
Qed.
Lemma solve_sound n A mad eps b size (negs mid : seq C) t xs : linear_op A -> adds A mad -> nonnegative_op A ->
  all (fun s => s < 0) negs -> all (fun s => t <= s) mid -> 0 <= t ->
  mm_solve n mad eps b size (negs ++ mid ++ [:: t]) = Ok (true, xs) -> List.Forall2 (solved A eps b) (negs ++ mid ++ [:: t]) xs.
Proof.
move=> lA aA pA hn hm t0; rewrite solve_unfold //; case: ifP => // _.
case Em: (mm_loop _ _ _ _ _ _ _) => [found [others sol]] [/andP [hf hneg] <-].
have b0 : b - shifted A t 0 = b by rewrite /shifted (lop0 lA) scaler0 addr0 subr0.
have [] := loop_others lA aA pA t0 _ b0 Em hf.
  move=> e /mapP [s hs ->] /=; split; first exact: (allP hm).
    by rewrite /shifted (lop0 lA) scaler0 addr0 subr0 scale1r.
  by rewrite ler01 lexx.
move=> h1 h2 h3; case: n hneg Em => [|n] hneg Em; first by move: Em hf => /= [<-].
apply: List.Forall2_app; first exact: negs_sound.
apply: List.Forall2_app; last by constructor.
by have := others_forall h3; rewrite h2 -map_comp map_id.
Qed.
Lemma solve_last n A mad eps b size (ss : seq C) t ok xs y : linear_op A -> adds A mad ->
  mm_solve n mad eps b size (rcons ss t) = Ok (ok, rcons xs (Some y)) ->
  residual_norm (shifted A t) b y <= sp b b /\ (ok -> residual_norm (shifted A t) b y < eps).
Proof.
move=> lA aA; rewrite /mm_solve; case: ifP => // _; rewrite last_rcons.
case Em: (mm_loop _ _ _ _ _ _ _) => [found [others sol]] [<-]; rewrite catA cats1 => /rcons_inj [_ es].
have b0 : b - shifted A t 0 = b by rewrite /shifted (lop0 lA) scaler0 addr0 subr0.
rewrite es in Em; have [h1 h2] := loop_last lA aA b0 Em; rewrite residualE; split=> // /andP [h _]; exact: h2.
Qed.
Lemma solve_converges n A mad eps b size (mid : seq C) t mu Lambda : linear_op A -> adds A mad -> nonnegative_op A ->
  all (fun s => t <= s) mid -> 0 <= t -> (seq.size mid < size)%N ->
  spectrum_within (shifted A t) mu Lambda -> 0 < mu -> 0 < eps -> b != 0 -> (0 < n)%N ->
  (1 - 399%:R / 400%:R * (mu ^+ 2 / Lambda)) ^+ n * sp b b < eps ->
  exists xs, mm_solve n mad eps b size (mid ++ [:: t]) = Ok (true, xs).
Proof.
move=> lA aA pA hm t0 hs sw m0 e0 b0 n0 hq; rewrite -[mid ++ _]cat0s solve_unfold //= size_cat /= addn1 ltnNge hs /=.
have := loop_converges aA [seq (s, Some (1, 0)) | s <- mid] 0 sw m0 e0 b0 n0 hq.
case: (mm_loop _ _ _ _ _ _ _) => [found [others sol]] /= ->.
by exists ([seq omap snd e.2 | e <- others] ++ [:: sol]).
Qed.
Lemma solve_undefined n mad eps b size (ss : seq C) : all (fun s => s < 0) ss -> mm_solve n mad eps b size ss = UB.
Proof.
move=> h; rewrite /mm_solve hasNfind ?leqnn //; apply/hasPn => s /(allP h) ->; by [].
Qed.

(** The guess. *)
Lemma parts (z d : C) : d \is Num.real -> d != 0 ->
  'Re ((z + z^*) / (2%:R * d)) + 'i * 'Re ((- 'i / 2%:R * (z - z^*)) / d) = z / d.
Proof.
move=> dr d0.
have e1 : (z + z^*) / (2%:R * d) = 'Re z / d by rewrite invfM mulrA -ReE.
have e2 : - 'i / 2%:R * (z - z^*) = 'Im z.
  by rewrite ImE; move: 'i (2%:R^-1) (z^*) => a h q; cring_fold C; ring.
have rd (x : C) : x \is Num.real -> 'Re (x / d) = x / d by move=> xr; apply/Creal_ReP; rewrite rpredM ?rpredV.
by rewrite e1 e2 !rd ?Creal_Re ?Creal_Im // mulrA -mulrDl -Crect.
Qed.
Lemma coefficientsE p h b : let den := - (sp h h * sp p p) + sp h p * (sp h p)^* in
  chrono_coefficients p h b = if den == 0 then None else
    Some ((- (sp h h * sp p b) + sp h b * (sp h p)^*) / den, (sp h p * sp p b - sp h b * sp p p) / den).
Proof.
cbv zeta; rewrite /chrono_coefficients; case: ifP => // /negbT d0.
have ns u : (sp u u)^* = sp u u by rewrite spC.
set d := - _ + _ in d0 *.
have dr : d \is Num.real by apply/CrealP; rewrite /d rmorphD rmorphN /= !rmorphM /= conjCK !ns [_^* * _]mulrC.
congr (Some (_, _)); rewrite -[RHS]parts //; congr ('Re (_ / _) + 'i * 'Re (_ * _ / _));
  rewrite ?(rmorphD, rmorphB, rmorphN) /= ?rmorphM /= ?conjCK ?ns.
all: move: ((sp h p)^*) ((sp h b)^*) ((sp p b)^*) (sp h p) (sp h b) (sp p b) (sp h h) (sp p p) => *; cring_fold C; ring.
Qed.
Lemma guess_best A mad b s x h g : linear_op A -> adds A mad -> chrono_guess mad b s x h = Some g ->
  forall a c, residual_norm (shifted A s) b g <= residual_norm (shifted A s) b (a *: x + c *: h).
Proof.
move=> lA aA; rewrite /chrono_guess !aA -!/(shifted A s _) coefficientsE; set p := shifted A s x; set q := shifted A s h.
set den := - _ + _; case: eqP => // /eqP d0 [<-] a c /=; set c1 := _ / den; set c2 := _ / den.
have HS := shifted_linear s lA.
have E2 (u v : C) : shifted A s (u *: x + v *: h) = u *: p + v *: q by rewrite (lopD HS) !(lopZ HS).
rewrite !residualE !E2; set r := b - _.
have c1E : c1 * den = - (sp q q * sp p b) + sp q b * (sp q p)^* by rewrite divfK.
have c2E : c2 * den = sp q p * sp p b - sp q b * sp p p by rewrite divfK.
have dE : den = - (sp q q * sp p p) + sp q p * (sp q p)^* by [].
clearbody c1 c2 den.
have or1 : sp p r = 0.
  rewrite /r spBr spDr !spZr -(spC q p); apply: (mulIf d0); rewrite mul0r.
  transitivity (sp p b * den - (c1 * den) * sp p p - (c2 * den) * (sp q p)^*).
    by move: ((sp q p)^*) (sp q p) (sp p p) (sp q q) (sp p b) (sp q b) => *; cring_fold C; ring.
  by rewrite c1E c2E dE; move: ((sp q p)^*) (sp q p) (sp p p) (sp q q) (sp p b) (sp q b) => *; cring_fold C; ring.
have or2 : sp q r = 0.
  rewrite /r spBr spDr !spZr; apply: (mulIf d0); rewrite mul0r.
  transitivity (sp q b * den - (c1 * den) * sp q p - (c2 * den) * sp q q).
    by move: ((sp q p)^*) (sp q p) (sp p p) (sp q q) (sp p b) (sp q b) => *; cring_fold C; ring.
  by rewrite c1E c2E dE; move: ((sp q p)^*) (sp q p) (sp p p) (sp q q) (sp p b) (sp q b) => *; cring_fold C; ring.
have -> : b - (a *: p + c *: q) = r + ((c1 - a) *: p + (c2 - c) *: q).
  by rewrite /r; apply/matrixP => i j; rewrite !mxE; move: (b i j) (p i j) (q i j) => *; cring_fold C; ring.
set w := (c1 - a) *: p + _.
have rw : sp w r = 0 by rewrite /w spDl !spZl or1 or2 !mulr0 addr0.
clearbody r w; rewrite spDl !spDr rw -(spC w r) rw conjC0 addr0 add0r.
by rewrite ler_addl sp_ge0.
Qed.
Lemma guess_none A mad b s x h : linear_op A -> adds A mad ->
  (chrono_guess mad b s x h = None <->
   exists a c, ((a != 0) || (c != 0)) /\ a *: shifted A s x + c *: shifted A s h = 0).
Proof.
move=> lA aA; rewrite /chrono_guess !aA -!/(shifted A s _) coefficientsE; move: (shifted A s x) (shifted A s h) => p q.
set den := - _ + _; split.
  case: eqP => // d0 _; case: (eqVneq p 0) => [->|p0].
    by exists 1, 0; rewrite oner_neq0 scaler0 scale0r addr0.
  have pp : sp p p != 0 by rewrite sp_eq0.
  exists (- sp p q), (sp p p); rewrite pp orbT; split=> //; apply/eqP; rewrite -sp_eq0.
  rewrite !(spDl, spDr, spZl, spZr) rmorphN /= !spC.
  move: d0; rewrite /den spC => d0.
  apply/eqP; transitivity (- sp p p * (- (sp q q * sp p p) + sp q p * sp p q)); last by rewrite d0 mulr0.
  by move: (sp p p) (sp q q) (sp p q) (sp q p) => *; cring_fold C; ring.
move=> [a [c [nz e]]]; suff -> : den == 0 by [].
have ep : a * sp p p + c * sp p q = 0 by rewrite -!spZr -spDr e spr0.
have eq : a * sp q p + c * sp q q = 0 by rewrite -!spZr -spDr e spr0.
rewrite /den spC; move: (sp p p) (sp p q) (sp q p) (sp q q) ep eq => pp pq qp qq ep eq.
case/orP: nz => [a0|c0].
  rewrite -(mulrI_eq0 _ (mulfI a0)); apply/eqP.
  transitivity (pq * (a * qp + c * qq) - qq * (a * pp + c * pq)); last by rewrite ep eq !mulr0 subr0.
  by cring_fold C; ring.
rewrite -(mulrI_eq0 _ (mulfI c0)); apply/eqP.
transitivity (qp * (a * pp + c * pq) - pp * (a * qp + c * qq)); last by rewrite ep eq !mulr0 subr0.
by cring_fold C; ring.
Qed.

(** solve of ChronologicalMultishiftSolver. *)
Lemma chrono_rest_sound n A mad eps b prev (shifts : seq C) olds l : linear_op A -> adds A mad ->
  chrono_rest n.+1 mad eps b prev shifts olds = (true, l) -> List.Forall2 (solved A eps b) shifts l.
Proof.
move=> lA aA; elim: shifts prev olds l => [|s shifts IH] prev olds l /=; first by case=> <-; constructor.
set guess := (X in match X with Some _ => _ | None => _ end).
case: guess => [g|]; last by case: (chrono_rest _ _ _ _ _ _ _).
case Es: (shift_solve _ _ _ _ _ _ _) => [ok y]; case Er: (chrono_rest _ _ _ _ _ _ _) => [ok' l'] [].
case: ok Es => Es //= okT <-; rewrite okT in Er; constructor; last exact: IH Er.
by apply: (shift_solve_sound lA aA _ Es); rewrite aA.
Qed.
Lemma chrono_sound n A mad eps b size (shifts : seq C) olds l : linear_op A -> adds A mad ->
  chrono_solve n.+1 mad eps b size shifts olds = Ok (true, l) -> List.Forall2 (solved A eps b) shifts l.
Proof.
move=> lA aA; rewrite /chrono_solve; case: shifts => [|s shifts] //; case: ifP => // _.
case Es: (shift_solve _ _ _ _ _ _ _) => [ok y]; case Er: (chrono_rest _ _ _ _ _ _ _) => [ok' l'] [].
case: ok Es => Es //= okT <-; rewrite okT in Er; constructor; last exact: chrono_rest_sound Er.
by apply: (shift_solve_sound lA aA _ Es); rewrite /shifted (lop0 lA) scaler0 addr0 subr0.
Qed.
Lemma chrono_rest_zero n A mad eps b prev (shifts : seq C) k : linear_op A -> adds A mad ->
  chrono_rest n.+1 mad eps b prev shifts (nseq k (Some 0)) = (shifts == [::], map (fun _ => None) shifts).
Proof.
move=> lA aA; elim: shifts prev k => [|s shifts IH] prev k //=.
have -> : match prev, head None (nseq k (Some (0 : V))) with Some x, Some h => chrono_guess mad b s x h | _, _ => None end = None.
  case: prev => // x; case: k => // k /=; apply/(guess_none b s x 0 lA aA).
  by exists 0, 1; rewrite oner_neq0 orbT scale0r scale1r add0r (lop0 (shifted_linear s lA)).
have -> : behead (nseq k (Some (0 : V))) = nseq k.-1 (Some 0) by case: k.
by rewrite IH.
Qed.
Lemma chrono_zero n A mad eps b size s s' (shifts : seq C) k : linear_op A -> adds A mad -> (seq.size shifts + 2 <= size)%N ->
  exists y, chrono_solve n.+1 mad eps b size [:: s, s' & shifts] (nseq k (Some 0))
    = Ok (false, y :: map (fun _ => None) (s' :: shifts)).
Proof.
move=> lA aA hs; rewrite /chrono_solve.
have -> : (size < seq.size [:: s, s' & shifts])%N = false by rewrite ltnNge -[seq.size _]/(seq.size shifts).+2 -addn2 hs.
case: (shift_solve _ _ _ _ _ _ _) => [ok y]; exists y.
by rewrite (chrono_rest_zero n eps b y (s' :: shifts) k lA aA) andbF.
Qed.

(** Shifts in the wrong order: A = 1, shifts 0 and 19. *)
Lemma unordered n eps b size : (1 < size)%N -> b != 0 -> 400%:R^-1 * sp b b < eps ->
  mm_solve n.+1 (fun v w a => v + a *: w) eps b size [:: 0; 19%:R] = Ok (true, [:: Some ((19%:R / 39%:R) *: b); Some ((19%:R / 400%:R) *: b)]).
Proof.
move=> hs b0 he.
have d0 (k : nat) : (k.+1)%:R != 0 :> C by rewrite pnatr_eq0.
have bb : sp b b != 0 by rewrite sp_eq0.
have pE : b + 19%:R *: b = 20%:R *: b by rewrite -{1}[b]scale1r -scalerDl -(natrD _ 1 19).
have n20 : (20%:R : C)^* = 20%:R by exact: conjC_nat.
have aE : mm_omega C * (sp (20%:R *: b) b / sp (20%:R *: b) (20%:R *: b)) = 19%:R / 400%:R.
  rewrite spZr; have X0 : sp (20%:R *: b) b != 0 by rewrite spZl n20 mulf_neq0.
  have -> : sp (20%:R *: b) b / (20%:R * sp (20%:R *: b) b) = 20%:R^-1 by rewrite invfM mulrCA divff // mulr1.
  by rewrite /mm_omega -mulrA -invfM -natrM.
have ltF : (0 < 0 :> C) = false by rewrite ltxx.
have lt19 : (19%:R < 0 :> C) = false by rewrite ltrn0.
rewrite /mm_solve /= ltF /= ltnNge hs /= pE.
have -> : (sp (20%:R *: b) (20%:R *: b) == 0) = false by rewrite spZr spZl n20; apply/negbTE; rewrite !mulf_neq0.
rewrite aE.
have e1 : 1 + (0 - 19%:R) * (19%:R / 400%:R) = 39%:R / 400%:R :> C.
  apply: (mulIf (d0 399%N)); rewrite divfK // sub0r mulNr mulrBl mul1r -(mulrA 19%:R) divfK // -natrM.
  by rewrite -(natrB _ (_ : 19 * 19 <= 400)%N).
have e2 : 1 - 19%:R / 400%:R * 20%:R = 20%:R^-1 :> C.
  have -> : 400%:R = 20%:R * 20%:R :> C by rewrite -natrM.
  rewrite invfM mulrA divfK //; apply: (mulIf (d0 19%N)); rewrite mulVf // mulrBl mul1r divfK //.
  by rewrite -(natrB _ (_ : 19 <= 20)%N).
have d39 : (39%:R / 400%:R == 0 :> C) = false by apply/negbTE; rewrite mulf_neq0 ?invr_eq0.
have rE : b - (19%:R / 400%:R) *: (20%:R *: b) = 20%:R^-1 *: b by rewrite scalerA -{1}[b]scale1r -scalerBl e2.
have c20 : (20%:R^-1 : C)^* = 20%:R^-1 by rewrite fmorphV /= n20.
have lt : sp (20%:R^-1 *: b) (20%:R^-1 *: b) < eps by rewrite spZr spZl c20 mulrA -invfM -natrM.
have e3 : 1 / (39%:R / 400%:R) * (19%:R / 400%:R) = 19%:R / 39%:R :> C.
  by rewrite mul1r invf_div mulrC -mulrA (mulrA 400%:R^-1) mulVf // mul1r.
by rewrite e1 d39 rE lt /= e3 !add0r.
Qed.
End Proofs.

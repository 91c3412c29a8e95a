(** Proofs about the multigrid solvers. *)
From Coq Require Import List.
From Verif Require Import Base.
From mathcomp Require Import all_ssreflect all_algebra.
From Verif Require Import GaugeProofs SolverModel SolverSpec SolverProofs GmresModel GmresSpec GmresProofs MgSolveModel MgSolveSpec.
Import GRing.Theory Num.Theory Order.POrderTheory.
Set Implicit Arguments.
Unset Strict Implicit.
Unset Printing Implicit Defensive.
Local Open Scope ring_scope.

Section Coarse.
Variable C : numClosedFieldType.
Variable m : nat.
Notation V := 'cV[C]_m.
Notation E := (exact C m).

Lemma mgb_loop_sound n step (A : V -> V) eps (b x r rh p nu : V) (rho alpha omega : C) (y : V) : linear_op A -> r = b - A x ->
  mgb_loop (F := E) n step A eps b x r rh p nu rho alpha omega = @Converged E y -> residual_norm A b y < eps \/ y = b.
Proof.
move=> HA; elim: n step x r p nu rho alpha omega => [|n IH] step x r p nu rho alpha omega Hr //=.
case: ifP => // _; case: ifP => // _; case: ifP => // _; set q := r + _; case: ifP => // _; set al := _ / scalar_product rh _.
case: ifP => [_ [<-]|tt0]; first by right.
set om := _ / scalar_product (A _) _.
have Hr' : r - al *: A q - om *: A (r - al *: A q) = b - A (x + (al *: q + om *: (r - al *: A q))).
  by rewrite (lopD HA x) (lopD HA (al *: q)) !(lopZ HA) Hr !opprD !addrA.
rewrite tt0; case: ifP => [/andP [Hn _] [<-]|_]; first by left; rewrite residualE -Hr'.
by apply: IH.
Qed.
Lemma mgb_sound n (A : V -> V) eps (b y : V) : linear_op A ->
  mgb_solve (F := E) n eps A b = @Converged E y -> residual_norm A b y < eps \/ y = b.
Proof. by move=> HA; apply: mgb_loop_sound. Qed.

Lemma mgb_multiple n eps (c : C) (b : V) : c != 0 -> c != 1 -> c != -1 -> b != 0 ->
  mgb_solve (F := E) n.+1 eps (fun v => c *: v) b = @Converged E b.
Proof.
move=> c0 c1 cn b0; rewrite /mgb_solve /=.
have -> : b - c *: b = (1 - c) *: b by rewrite scalerBl scale1r.
have -> : b + c *: b = (1 + c) *: b by rewrite scalerDl scale1r.
have nb : scalar_product b b != 0 by apply: contraNneq b0 => /(@gnorm_eq0 C m) ->.
have d0 : (1 + c)^* != 0 by rewrite conjC_eq0 addrC -[1]opprK subr_eq0.
have e0 : 1 - c != 0 by rewrite subr_eq0 eq_sym.
have sp (x y : C) : scalar_product (x *: b) (y *: b) = x^* * y * scalar_product b b.
  have h : gdot (x *: b) (y *: b) = x^* * y * gdot b b by rewrite gdotZl gdotZr mulrA.
  exact: h.
have rho0 : ((1 + c)^* * (1 - c) * scalar_product b b == 0) = false.
  by apply/negbTE; rewrite !mulf_neq0.
rewrite sp rho0 !oner_eq0 /= !scaler0 subrr scaler0 addr0 scalerA sp.
have nu0 : ((1 + c)^* * (c * (1 - c)) * scalar_product b b == 0) = false.
  by apply/negbTE; rewrite !mulf_neq0.
rewrite nu0; set al := _ / _.
have -> : al = c^-1.
  rewrite /al mulrCA -[c * _ * scalar_product b b]mulrA invfM mulrCA mulfV ?mulr1 //; exact/negbT.
by rewrite scalerA mulrA mulVf // mul1r subrr scaler0 spr0 eqxx.
Qed.
End Coarse.

Section Solve.
Variable C : numClosedFieldType.
Variable m : nat.
Notation vector := 'cV[C]_m.
Variables (M : 'M[C]_m) (b : vector) (direction : vector -> option vector).
Let A (v : vector) := M *m v.

Lemma mg_stepE k s s' : mg_step A direction k s = GOk s' ->
  exists2 u0, direction (gres s) = Some u0 & gm_step mg_arrays A (Some (fun _ => u0)) k s = GOk s'.
Proof. by rewrite /mg_step; case: (direction _) => [u0|] // h; exists u0. Qed.
Lemma mg_step_inv k s s' : invariant mg_arrays M b k s -> mg_step A direction k s = GOk s' -> invariant mg_arrays M b k.+1 s'.
Proof. by move=> inv /mg_stepE [u0 _ h]; exact: (step_inv inv h). Qed.
Lemma mg_step_le k s s' : invariant mg_arrays M b k s -> mg_step A direction k s = GOk s' -> gnorm (gres s') <= gnorm (gres s).
Proof. by move=> inv /mg_stepE [u0 _ h]; exact: (step_le inv h). Qed.
Lemma mg_step_defined k s : mg_step A direction k s <> GUB C m.
Proof.
rewrite /mg_step; case: (direction _) => [u0|] //; rewrite /gm_step /= leqNgt ltn_mod /=; by case: ifP.
Qed.
(** What the loop leaves. *)
Lemma mg_loop_spec eps N n k le s : invariant mg_arrays M b k s -> (k + n)%N = N ->
  match mg_loop A direction eps N n k le s with
  | MgDone x ms le' =>
      gnorm (b - A x) <= gnorm (gres s) /\
      (if n is O then [/\ x = gsol s, ms = N & le' = le]
       else le' = Some (gnorm (b - A x)) /\
            (if gnorm (b - A x) < eps then (k <= ms)%N && (ms < N)%N else ms == N))
  | MgNotANumber ms => ms = N
  | MgUndefined => False
  end.
Proof.
elim: n k le s => [|n IH] k le s inv /= E; first by rewrite -(inv_res inv).
case S : mg_step => [s'| |] //; last exact: mg_step_defined S.
have inv' := mg_step_inv inv S; have l := mg_step_le inv S.
case: ifP => lt; first by rewrite -(inv_res inv') lt leqnn -E -[X in (X < _)%N]addn0 ltn_add2l.
have := IH k.+1 (Some (gnorm (gres s'))) _ inv'; rewrite addSnnS => /(_ E).
case: mg_loop => // x ms le' [h H]; split; first exact: le_trans h l.
case: n {IH E} H => [[-> -> ->]|n [-> H]].
  by split; rewrite -(inv_res inv') // lt.
split=> //; move: H; case: ifP => // _ /andP [h1 h2]; by rewrite h2 (ltnW h1).
Qed.
(** The arrays of earlier calls do not matter. *)
Definition same (k : nat) (s s' : gm_state C m) : Prop :=
  [/\ gsol s = gsol s', gres s = gres s', forall i, (i < k %% 15)%N -> nth 0 (gc s) i = nth 0 (gc s') i &
      forall i, (i < k %% 15)%N -> nth 0 (gu s) i = nth 0 (gu s') i].
Lemma orth_same (cs cs' us us' : seq vector) j cu : (forall i, (i < j)%N -> nth 0 cs i = nth 0 cs' i) ->
  (forall i, (i < j)%N -> nth 0 us i = nth 0 us' i) -> gm_orthogonalize cs us j cu = gm_orthogonalize cs' us' j cu.
Proof.
move=> hc hu; elim: j hc hu => [|j IH] hc hu //.
have S : iota 0 j.+1 = iota 0 j ++ [:: j] by rewrite -addn1 iotaD.
rewrite /gm_orthogonalize S !foldl_cat /= -!/(gm_orthogonalize _ _ j _) IH ?hc ?hu // => i h; [apply: hc|apply: hu]; exact: ltnW.
Qed.
Lemma step_same k s s' : same k s s' ->
  match mg_step A direction k s, mg_step A direction k s' with
  | GOk t, GOk t' => same k.+1 t t'
  | GNaN, GNaN => True
  | GUB, GUB => True
  | _, _ => False end.
Proof.
move=> [e1 e2 e3 e4]; rewrite /mg_step e2; case: (direction _) => [u0|] //.
rewrite /gm_step /= leqNgt ltn_mod /= e2 (orth_same _ e3 e4).
set cu := gm_orthogonalize _ _ _ _; case: ifP => // _; split=> /=; rewrite ?e1 //.
- move=> i h; rewrite !nth_set_nth /=; case: eqP => // /eqP ne; apply: e3.
  by move: h; rewrite modnS; case: ifP => // _; rewrite ltnS leq_eqVlt (negbTE ne).
- move=> i h; rewrite !nth_set_nth /=; case: eqP => // /eqP ne; apply: e4.
  by move: h; rewrite modnS; case: ifP => // _; rewrite ltnS leq_eqVlt (negbTE ne).
Qed.
Lemma loop_same eps N n k le s s' : same k s s' -> mg_loop A direction eps N n k le s = mg_loop A direction eps N n k le s'.
Proof.
elim: n k le s s' => [|n IH] k le s s' h /=; first by case: h => ->.
have := step_same h; case: mg_step => [t| |]; case: mg_step => [t'| |] // ht.
by case: (ht) => -> -> _ _; case: ifP => // _; exact: IH.
Qed.
Lemma solve_same eps N cs us cs' us' guess :
  mg_solve cs us N eps A direction b guess = mg_solve cs' us' N eps A direction b guess.
Proof. by apply: loop_same; split=> // i; rewrite mod0n. Qed.
(** The same call again after a success. *)
Lemma loop_again eps N n k le le' s x K e : invariant mg_arrays M b k s -> (k + n)%N = N -> ~~ (gnorm (gres s) < eps) ->
  mg_loop A direction eps N n k le s = MgDone x K e -> (K < N)%N ->
  exists x' e', mg_loop A direction eps K (K - k) k le' s = MgDone x' K e' /\ ~~ (gnorm (b - A x') < eps).
Proof.
elim: n k le le' s => [|n IH] k le le' s inv En big /=; first by move=> [_ <- _]; rewrite ltnn.
case S : mg_step => [s'| |] //; have inv' := mg_step_inv inv S.
case: ifP => lt [].
  by move=> _ <- _ _; rewrite subnn /=; exists (gsol s), le'; rewrite -(inv_res inv).
move=> H KN; have hK : (k < K)%N.
  have := mg_loop_spec eps (Some (gnorm (gres s'))) inv' (etrans (addSnnS k n) En); rewrite H.
  case=> _; case: (n) => [[_ E _]|n' [_]]; first by move: KN; rewrite E ltnn.
  by case: ifP => _; [case/andP|move/eqP => E; move: KN; rewrite E ltnn].
have [|x' [e' [E1 E2]]] := IH k.+1 _ (Some (gnorm (gres s'))) s' inv' (etrans (addSnnS k n) En) _ H KN.
  by rewrite lt.
exists x', e'; split=> //.
have -> : (K - k)%N = (K - k.+1).+1 by rewrite -subSn // subSS.
by rewrite /= S lt.
Qed.
End Solve.

From mathcomp Require Import all_ssreflect all_algebra.
From Verif Require Import GmresModel GmresSpec.
Import GRing.Theory Num.Theory Order.POrderTheory.
Set Implicit Arguments.
Unset Strict Implicit.
Unset Printing Implicit Defensive.
Local Open Scope ring_scope.

Section Proofs.
Variable C : numClosedFieldType.
Variable m : nat.
Notation vector := 'cV[C]_m.
Implicit Types (u v w : vector) (a : C).
Lemma gdotDr u v w : gdot u (v + w) = gdot u v + gdot u w.
Proof. by rewrite -big_split; apply: eq_bigr => i _; rewrite mxE mulrDr. Qed.
Lemma gdotZr a u v : gdot u (a *: v) = a * gdot u v.
Proof. by rewrite /gdot mulr_sumr; apply: eq_bigr => i _; rewrite mxE mulrCA. Qed.
Lemma gdotNr u v : gdot u (- v) = - gdot u v.
Proof. by rewrite -scaleN1r gdotZr mulN1r. Qed.
Lemma gdotBr u v w : gdot u (v - w) = gdot u v - gdot u w.
Proof. by rewrite gdotDr gdotNr. Qed.
Lemma gdotC u v : gdot u v = (gdot v u)^*.
Proof. by rewrite /gdot rmorph_sum; apply: eq_bigr => i _; rewrite rmorphM conjCK mulrC. Qed.
Lemma gdotDl u v w : gdot (u + v) w = gdot u w + gdot v w.
Proof. by rewrite gdotC gdotDr rmorphD -!gdotC. Qed.
Lemma gdotZl a u v : gdot (a *: u) v = a^* * gdot u v.
Proof. by rewrite gdotC gdotZr rmorphM -gdotC. Qed.
Lemma gdotNl u v : gdot (- u) v = - gdot u v.
Proof. by rewrite gdotC gdotNr rmorphN -gdotC. Qed.
Lemma gdotBl u v w : gdot (u - v) w = gdot u w - gdot v w.
Proof. by rewrite gdotDl gdotNl. Qed.
Lemma gdot0r u : gdot u 0 = 0.
Proof. by rewrite -(scale0r 0) gdotZr mul0r. Qed.
Lemma gdot0l u : gdot 0 u = 0.
Proof. by rewrite gdotC gdot0r conjC0. Qed.
Lemma gdot_sumr (I : Type) (r : seq I) (P : pred I) (F : I -> vector) u : gdot u (\sum_(i <- r | P i) F i) = \sum_(i <- r | P i) gdot u (F i).
Proof. by elim/big_rec2: _ => [|i x y _ <-]; rewrite ?gdot0r ?gdotDr. Qed.
Lemma gnormE v : gnorm v = \sum_i `|v i ord0| ^+ 2.
Proof. by apply: eq_bigr => i _; rewrite normCK mulrC. Qed.
Lemma gnorm_ge0 v : 0 <= gnorm v.
Proof. by rewrite gnormE; apply: sumr_ge0 => i _; rewrite exprn_ge0. Qed.
Lemma gnorm_eq0 v : gnorm v = 0 -> v = 0.
Proof.
rewrite gnormE => /eqP; rewrite psumr_eq0 => [/allP H|i _]; last by rewrite exprn_ge0.
apply/matrixP => i j; rewrite (ord1 j) mxE; have := H i; rewrite mem_index_enum => /(_ isT) /=.
by rewrite expf_eq0 /= normr_eq0 => /eqP.
Qed.
Lemma gnorm_pyth u v : gdot u v = 0 -> gnorm (u + v) = gnorm u + gnorm v.
Proof. by move=> h; rewrite /gnorm gdotDl !gdotDr h [gdot v u]gdotC h conjC0 addr0 add0r. Qed.
Lemma residual2E (M : 'M[C]_m) b x : residual2 M b x = gnorm (b - M *m x).
Proof. by rewrite gnormE. Qed.

Variables (o : gm_object) (M : 'M[C]_m) (P : option (vector -> vector)) (b : vector).
Let A (v : vector) := M *m v.

(** What holds before step k. *)
Record invariant (k : nat) (s : gm_state C m) : Prop := Invariant {
  inv_res : gres s = b - A (gsol s);
  inv_cu : forall i, (i < k %% dimension o)%N -> nth 0 (gc s) i = A (nth 0 (gu s) i);
  inv_on : forall i j, (i < k %% dimension o)%N -> (j < k %% dimension o)%N -> gdot (nth 0 (gc s) i) (nth 0 (gc s) j) = (i == j)%:R;
  inv_r : forall i, (i < k %% dimension o)%N -> gdot (nth 0 (gc s) i) (gres s) = 0 }.

(** Gram and Schmidt. *)
Lemma orth_spec (cs us : seq vector) j n c u : (n <= j)%N ->
  (forall i, (i < j)%N -> nth 0 cs i = A (nth 0 us i)) ->
  (forall i k, (i < j)%N -> (k < j)%N -> gdot (nth 0 cs i) (nth 0 cs k) = (i == k)%:R) ->
  c = A u ->
  let cu := gm_orthogonalize cs us n (c, u) in
  [/\ cu.1 = A cu.2, forall i, (i < n)%N -> gdot (nth 0 cs i) cu.1 = 0 &
      exists f : nat -> C, cu.1 = c - \sum_(i < n) f i *: nth 0 cs i /\ cu.2 = u - \sum_(i < n) f i *: nth 0 us i].
Proof.
move=> nj cuE on E; elim: n nj => [|n IH] nj.
  split=> //; exists (fun _ => 0); by rewrite !big_ord0 !subr0.
have [E1 E2 [f [F1 F2]]] := IH (ltnW nj).
have S : iota 0 n.+1 = iota 0 n ++ [:: n] by rewrite -addn1 iotaD.
rewrite {1}/gm_orthogonalize S foldl_cat /= -/(gm_orthogonalize cs us n (c, u)).
set cu := gm_orthogonalize _ _ _ _ in E1 E2 F1 F2 *; set al := gdot (nth 0 cs n) cu.1.
split=> /=.
- by rewrite /A mulmxBr -scalemxAr -/(A _) -E1 cuE.
- move=> i; rewrite ltnS leq_eqVlt => /orP [/eqP ->|h].
    by rewrite gdotBr gdotZr on // eqxx mulr1 subrr.
  by rewrite gdotBr gdotZr E2 // on ?(ltn_trans h) // (ltn_eqF h) mulr0 subrr.
exists (fun i => if i == n then al else f i); rewrite !big_ord_recr /= eqxx !opprD !addrA -/cu F1 F2.
by split; congr (_ - _ - _); apply: eq_bigr => i _; rewrite (ltn_eqF (ltn_ord i)).
Qed.
Lemma norm_pos v : sqrtC (gnorm v) != 0 -> gnorm v != 0 /\ (sqrtC (gnorm v))^-1 ^* * (sqrtC (gnorm v))^-1 * gnorm v = 1.
Proof.
rewrite sqrtC_eq0 => h; split=> //; have r : sqrtC (gnorm v) \is Num.real by rewrite ger0_real // sqrtC_ge0 gnorm_ge0.
rewrite conj_Creal ?realV // -invfM -expr2 sqrtCK mulVf //.
Qed.
(** One step. *)
Lemma step_spec k s s' : invariant k s -> gm_step o A P k s = GOk s' ->
  let j := (k %% dimension o)%N in
  [/\ gres s' = b - A (gsol s'),
      forall i, (i <= j)%N -> nth 0 (gc s') i = A (nth 0 (gu s') i),
      forall i i', (i <= j)%N -> (i' <= j)%N -> gdot (nth 0 (gc s') i) (nth 0 (gc s') i') = (i == i')%:R,
      forall i, (i <= j)%N -> gdot (nth 0 (gc s') i) (gres s') = 0 &
      gnorm (gres s') = gnorm (gres s) - `|gdot (nth 0 (gc s') j) (gres s)| ^+ 2].
Proof.
move=> [Er Ec Eo Ez]; rewrite /gm_step; case: eqP => // d0 /=; set j := (k %% _)%N in Ec Eo Ez *.
case: leqP => // ja; set u0 := gm_direction _ _.
have [G1 G2 _] := orth_spec (leqnn j) Ec Eo (erefl (A u0)).
set cu := gm_orthogonalize _ _ _ _ in G1 G2 *; case: eqP => // /eqP ne [<-] /=.
have [n0 n1] := norm_pos ne; set nu := (sqrtC _)^-1 in n1 *.
set c := nu *: cu.1; set u := nu *: cu.2; set al := gdot c (gres s).
have cA : c = A u by rewrite /c /u /A -scalemxAr -/(A _) -G1.
have N (q : seq vector) z i : (i <= j)%N -> nth 0 (set_nth 0 q j z) i = if i == j then z else nth 0 q i by rewrite nth_set_nth.
have lt i : (i <= j)%N -> i != j -> (i < j)%N by move=> h e; rewrite ltn_neqAle e.
have cc : gdot c c = 1 by rewrite /c gdotZl gdotZr mulrA n1.
have ci i : (i < j)%N -> gdot (nth 0 (gc s) i) c = 0 by move=> h; rewrite gdotZr G2 // mulr0.
split.
- by rewrite Er /A mulmxDr opprD addrA -scalemxAr -/(A u) -cA.
- move=> i h; rewrite !N //; case: eqP => // /eqP e; exact/Ec/lt.
- move=> i i' h h'; rewrite !N //; case: eqP => [->|/eqP e]; case: eqP => [->|/eqP e'].
  + by rewrite eqxx cc.
  + by rewrite eq_sym (negbTE e') gdotC ci ?conjC0 //; exact: lt.
  + by rewrite (negbTE e) ci //; exact: lt.
  + by rewrite Eo //; exact: lt.
- move=> i h; rewrite N // gdotBr gdotZr; case: eqP => [_|/eqP e]; first by rewrite cc mulr1 subrr.
  by rewrite Ez ?ci ?mulr0 ?subrr //; exact: lt.
rewrite N // eqxx -/al; set r' := gres s - al *: c.
have z : gdot (al *: c) r' = 0 by rewrite gdotZl /r' gdotBr gdotZr cc mulr1 subrr mulr0.
have -> : gres s = al *: c + r' by rewrite /r' addrCA subrr addr0.
rewrite (gnorm_pyth z) {2}/gnorm gdotZl gdotZr cc mulr1 [_^* * _]mulrC -normCK.
by rewrite [X in _ = X - _]addrC addrK.
Qed.
Lemma step_inv k s s' : invariant k s -> gm_step o A P k s = GOk s' -> invariant k.+1 s'.
Proof.
move=> inv E; have [e1 e2 e3 e4 _] := step_spec inv E.
have d0 : (0 < dimension o)%N by rewrite lt0n; move: E; rewrite /gm_step; case: eqP.
have W i : (i < k.+1 %% dimension o)%N -> (i <= k %% dimension o)%N.
  rewrite modnS; case: ifP => // h; by rewrite ltnS.
split=> //; first by move=> i /W; exact: e2.
- by move=> i j /W h /W h'; exact: e3.
- by move=> i /W; exact: e4.
Qed.
Lemma start_inv x cs us : invariant 0 (GmState x (b - A x) cs us).
Proof. by split=> // [i|i j|i]; rewrite mod0n. Qed.
Lemma step_le k s s' : invariant k s -> gm_step o A P k s = GOk s' -> gnorm (gres s') <= gnorm (gres s).
Proof. by move=> inv E; have [_ _ _ _ ->] := step_spec inv E; rewrite ler_subl_addr ler_addl exprn_ge0. Qed.
(** The value returned by the loop. *)
Lemma loop_spec eps n k s : invariant k s ->
  match gm_loop o A P eps n k s with
  | GConverged x last => [/\ gnorm (b - A x) < eps, gnorm (b - A x) <= gnorm (gres s) & (last < k + n)%N]
  | GFailed x => gnorm (b - A x) <= gnorm (gres s)
  | _ => True end.
Proof.
elim: n k s => [|n IH] k s inv /=; first by rewrite -(inv_res inv).
case E : gm_step => [s'| |] //; have inv' := step_inv inv E; have le := step_le inv E.
case: ifP => lt; first by rewrite -(inv_res inv') addnS ltnS leq_addr.
have := IH _ _ inv'; rewrite addSnnS; case: gm_loop => // [x l [? h ?]|x h]; last exact: le_trans h le.
by split=> //; exact: le_trans h le.
Qed.
(** Memory. *)
Lemma loop_defined (B : vector -> vector) eps n k s : (0 < dimension o)%N -> (dimension o <= allocated o)%N -> gm_loop o B P eps n k s <> GUndefined _ _.
Proof.
move=> d0 da; elim: n k s => [|n IH] k s //=.
case E : gm_step => [s'| |] //; first by case: ifP.
move: E; rewrite /gm_step (gtn_eqF d0) leqNgt (leq_trans (ltn_pmod k d0) da) /=.
by case: ifP.
Qed.
End Proofs.

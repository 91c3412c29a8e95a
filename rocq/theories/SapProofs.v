From mathcomp Require Import all_ssreflect all_algebra.
From Verif Require Import GaugeModel GaugeProofs3 LoopModel LoopGrid DiracModel DiracSpec DiracProofs DiracProofs2 VecProofs SapModel SapSpec.
Import GRing.Theory Num.Theory.
Set Implicit Arguments.
Unset Strict Implicit.
Unset Printing Implicit Defensive.
Local Open Scope ring_scope.

Section Sap.
Variable C : numClosedFieldType.
Variable n : nat.
Variable L : lattice.
Notation field := (L -> 'I_4 -> 'I_n -> C) (only parsing).
Variables (kappa : C) (g5f : bool) (U : L -> 'I_4 -> 'M[C]_n) (old : field).
Variables (red black : L -> bool).
Hypothesis part : forall x, black x = ~~ red x.
Let D := wilson_multiply kappa g5f U old.
Let B blk := block_multiply blk kappa 0 g5f U.
Variables (SR SB : field -> field).
Hypothesis exR : exact_solver (B red) SR.
Hypothesis exB : exact_solver (B black) SB.
Let K := complement_multiply D SR SB red black.

Lemma maybe5_lin g (v w : field) alpha : feq (maybe5 g (combine alpha v w)) (combine alpha (maybe5 g v) (maybe5 g w)).
Proof.
move=> x a c; rewrite /combine !maybe5E /sg5; case: (g && _) => //.
by rewrite opprD mulrN.
Qed.
Lemma D_lin : linear_op D.
Proof.
split=> [v w E|alpha v w] x a c; rewrite /D !wilson_correct.
  by apply: maybe5_ext; exact: dirac_ext.
rewrite (maybe5_ext _ (dirac_linear kappa U alpha v w)) maybe5_lin /combine !wilson_correct.
by [].
Qed.
Lemma B0 blk v : feq (B blk v) (maybe5 g5f (fun x a c => if blk x then dirac kappa U (restrict blk v) x a c else v x a c)).
Proof. by move=> x a c; rewrite /B block_correct !maybe5E mulr0 mul0r addr0. Qed.
Lemma restrict_lin blk alpha (v w : field) : feq (restrict blk (combine alpha v w)) (combine alpha (restrict blk v) (restrict blk w)).
Proof. by move=> x a c; rewrite /restrict /combine; case: (blk x) => //; rewrite mulr0 addr0. Qed.
Lemma restrict_ext blk (v w : field) : feq v w -> feq (restrict blk v) (restrict blk w).
Proof. by move=> E x a c; rewrite /restrict E. Qed.
Lemma B_lin blk : linear_op (B blk).
Proof.
split=> [v w E|alpha v w] x a c; rewrite !B0.
  by apply: maybe5_ext => y b d; case: (blk y); rewrite ?E //; apply: dirac_ext; exact: restrict_ext.
rewrite /combine !B0 -[RHS]/(combine alpha (maybe5 g5f _) (maybe5 g5f _) x a c) -maybe5_lin; apply: maybe5_ext => y b d.
rewrite /combine; case: (blk y) => //.
by rewrite (dirac_ext kappa U (restrict_lin blk alpha v w)) dirac_linear.
Qed.
Lemma exact_linear (A S : field -> field) : linear_op A -> exact_solver A S -> linear_op S.
Proof.
move=> lA ex.
have Y : opmx A *m (\matrix_(i, j) vec (S (unvec (delta_mx j ord0))) i ord0) = 1%:M.
  apply/matrixP => i j.
  have /matrixP /(_ i ord0) : opmx A *m vec (S (unvec (delta_mx j ord0))) = delta_mx j ord0.
    by rewrite -vec_op // (vec_ext (ex _)) unvecK.
  rewrite [RHS]mxE andbT => E; rewrite [RHS]mxE -E !mxE; by apply: eq_bigr => k _; rewrite !mxE.
have [u _] := mulmx1_unit Y.
have SE v : vec (S v) = invmx (opmx A) *m vec v.
  by rewrite -[in RHS](vec_ext (ex v)) (vec_op _ lA) mulmxA mulVmx // mul1mx.
split=> [v w E|alpha v w]; apply: vec_inj; rewrite !SE; first by rewrite (vec_ext E).
have -> : vec (combine alpha v w) = vec v + alpha *: vec w by apply/matrixP => i j; rewrite !mxE.
have -> : vec (combine alpha (S v) (S w)) = vec (S v) + alpha *: vec (S w) by apply/matrixP => i j; rewrite !mxE.
by rewrite mulmxDr -scalemxAr !SE.
Qed.
Lemma SR_lin : linear_op SR. Proof. exact: exact_linear (B_lin _) exR. Qed.
Lemma SB_lin : linear_op SB. Proof. exact: exact_linear (B_lin _) exB. Qed.
Lemma restrict_op blk (A : field -> field) : linear_op A -> linear_op (fun v => restrict blk (A v)).
Proof.
move=> [e l]; split=> [v w E|alpha v w]; first by apply: restrict_ext; exact: e.
by move=> x a c; rewrite (restrict_ext blk (l alpha v w)) restrict_lin.
Qed.
Lemma comp_op (A A' : field -> field) : linear_op A -> linear_op A' -> linear_op (fun v => A (A' v)).
Proof.
move=> [e l] [e' l']; split=> [v w E|alpha v w]; first by apply: e; exact: e'.
by move=> x a c; rewrite (e _ _ (l' alpha v w)) l.
Qed.
Lemma add_op (A A' : field -> field) (z : C) : linear_op A -> linear_op A' -> linear_op (fun v => combine z (A v) (A' v)).
Proof.
move=> [e l] [e' l']; split=> [v w E|alpha v w] x a c; rewrite /combine; first by rewrite (e _ _ E) (e' _ _ E).
by rewrite l l' /combine mulrDr addrACA mulrDr; congr (_ + _ + _); rewrite !mulrA [z * alpha]mulrC.
Qed.
Lemma id_op : linear_op (fun v : field => v). Proof. by split. Qed.
Let K' (v : field) : field :=
  combine 1 (restrict black (SB (combine (-1) v (D (restrict red (SR v)))))) (restrict red (SR v)).
Lemma K'_lin : linear_op K'.
Proof.
have l1 := restrict_op red SR_lin.
have l2 := add_op (-1) id_op (comp_op D_lin l1).
have l3 := restrict_op black (comp_op SB_lin l2).
exact (add_op 1 l3 l1).
Qed.
Lemma KE v : feq (K v) (K' v).
Proof.
move=> x a c; rewrite /K /K' /complement_multiply /combine mul1r; congr (_ + _).
rewrite /block_project /restrict; case: (black x) => //; case: SB_lin => e _; apply: e => y b d.
by rewrite mulN1r.
Qed.
Lemma K_lin : linear_op K.
Proof.
have [e l] := K'_lin; split=> [v w E|alpha v w] x a c; rewrite !KE; first exact: e.
by rewrite l /combine !KE.
Qed.
Lemma D_sum (v w : field) x a c : D (combine 1 v w) x a c = D v x a c + D w x a c.
Proof. by have [_ l] := D_lin; rewrite l /combine mul1r. Qed.
Lemma B_inside (blk : L -> bool) (v : field) x a c : blk x -> B blk v x a c = D (restrict blk v) x a c.
Proof. by move=> h; rewrite B0 /D wilson_correct !maybe5E h. Qed.
(** One step solves the equation on the black sites, whatever the red solver returns. *)
Lemma step_black v x : black x -> holds_at D (K v) v x.
Proof.
move=> bx a c; have [e _] := D_lin; rewrite (e _ _ (KE v)) D_sum.
have := exB (combine (-1) v (D (restrict red (SR v)))) x a c; rewrite (B_inside _ _ _ bx) => ->.
by rewrite /combine mulN1r subrK.
Qed.
(** It also solves it on the red sites which have no black neighbour. *)
Lemma step_red v x : interior red x -> holds_at D (K v) v x.
Proof.
move=> [rx nb] a c; have [e _] := D_lin; rewrite (e _ _ (KE v)) D_sum.
have := exR v x a c; rewrite (B_inside _ _ _ rx) => ->.
rewrite {1}/D wilson_correct maybe5E [X in sg5 _ _ X](_ : _ = 0); first by rewrite /sg5; case: ifP => _; rewrite ?oppr0 add0r.
rewrite /dirac /restrict part rx /= sub0r [hopping _ _ _ _ _]big1 ?mulr0 ?oppr0 // => mu _.
have [r1 r2] := nb mu.
rewrite big1 // => b _; rewrite !part r1 r2 /=.
by rewrite big1 ?mulr0 ?add0r => [|i _]; rewrite ?mulr0 // big1 ?mulr0 // => i _; rewrite mulr0.
Qed.
(** A sweep adds the step for the residual. *)
Lemma sweepE (x b : field) : feq (fun y a c => x y a c - K (D x) y a c + K b y a c) (combine 1 x (K (combine (-1) b (D x)))).
Proof.
have [_ l] := K_lin; move=> y a c; rewrite /combine mul1r; have := l (-1) b (D x) y a c; rewrite /combine => ->.
by rewrite mulN1r -addrA [- _ + _]addrC.
Qed.
Lemma sap_S steps b : feq (sap_multiply D K steps.+1 b)
  (combine 1 (sap_multiply D K steps b) (K (combine (-1) b (D (sap_multiply D K steps b))))).
Proof. by rewrite {1}/sap_multiply iterS; exact: sweepE. Qed.
Lemma sap_holds steps b x : black x \/ interior red x -> holds_at D (sap_multiply D K steps.+1 b) b x.
Proof.
move=> h a c; have [e _] := D_lin; rewrite (e _ _ (sap_S steps b)) D_sum.
set y := sap_multiply D K steps b.
have -> : D (K (combine (-1) b (D y))) x a c = combine (-1) b (D y) x a c by case: h => h; [exact: step_black | exact: step_red].
by rewrite /combine mulN1r addrCA subrr addr0.
Qed.
(** The residual is multiplied by 1 - D K at every sweep. *)
Lemma sap_residual steps b : feq (fun x a c => b x a c - D (sap_multiply D K steps b) x a c)
  (iter steps (fun r : field => fun x a c => r x a c - D (K r) x a c) (fun x a c => b x a c - D b x a c)).
Proof.
have [eD _] := D_lin; have [eK _] := K_lin; elim: steps => [|s IH] x a c; first by [].
have S := sap_S s b; move: IH S.
rewrite [iter s.+1 _ _]iterS; move: (sap_multiply D K s.+1 b) (sap_multiply D K s b) (iter s _ _) => y' y r IH S.
have E1 := eD _ _ S x a c; rewrite D_sum in E1.
have E2 : feq (combine (-1) b (D y)) r by move=> z d f; rewrite -IH /combine mulN1r.
have E3 := eD _ _ (eK _ _ E2) x a c.
move: (IH x a c) E1; rewrite E3 => <- ->.
by rewrite opprD addrA.
Qed.
(** The solution of the equation is kept. *)
Lemma sap_fixed (y b : field) : feq (D y) b -> feq (fun x a c => y x a c - K (D y) x a c + K b x a c) y.
Proof. by move=> E x a c; have [e _] := K_lin; rewrite (e _ _ E) subrK. Qed.
End Sap.

(** The chequerboard of blocks. *)
Section Mask.
Variable G : grid.
Variable size : 'I_4 -> nat.
Lemma mask_red (x : G) : block_mask size true x = ~~ block_mask size false x.
Proof. by rewrite /block_mask !modn2; case: (odd _). Qed.
Lemma mask_block b (x y : G) : same_block size x y -> block_mask size b x = block_mask size b y.
Proof. by move=> h; rewrite /block_mask !h. Qed.
(** With one block or an even number of blocks in every direction, neighbours in different blocks have different colours. *)
Lemma mask_neighbours b (x : G) mu : (0 < size mu)%N ->
  ext G mu = size mu \/ (exists k, ext G mu = (size mu * (2 * k))%N) ->
  (block_mask size b (sup mu x) == block_mask size b x) = ((coord (sup mu x) mu %/ size mu == coord x mu %/ size mu)%N).
Proof.
move=> s0 E.
pose q (z : G) nu := (coord z nu %/ size nu)%N.
have O nu : nu != mu -> q (sup mu x) nu = q x nu by move=> ne; rewrite /q coord_other.
have P (z : G) : block_mask size b z = (odd (\sum_(nu < 4) q z nu) == b :> bool).
  rewrite /block_mask modn2 !big_ord_recr big_ord0 /= add0n -!/(q z _).
  have -> : widen_ord (leqnSn 3) (widen_ord (leqnSn 2) (widen_ord (leqnSn 1) ord_max)) = d0 by apply: val_inj.
  have -> : widen_ord (leqnSn 3) (widen_ord (leqnSn 2) ord_max) = d1 by apply: val_inj.
  have -> : widen_ord (leqnSn 3) ord_max = d2 by apply: val_inj.
  have -> : ord_max = d3 by apply: val_inj.
  by case: (odd _); case: b.
rewrite !P (bigD1 mu) //= [in X in _ == (X == b)](bigD1 mu) //=.
rewrite (eq_bigr (q x)) //; move: (\sum_(i < 4 | i != mu) _)%N => r; rewrite !oddD -!/(q _ _).
suff [->|[ne od]] : q (sup mu x) mu = q x mu \/ (q (sup mu x) mu <> q x mu /\ odd (q (sup mu x) mu) = ~~ odd (q x mu)).
- by rewrite !eqxx.
- rewrite od [in RHS](introF eqP ne); by case: (odd (q x mu)); case: (odd r); case: (b).
rewrite /q; clear r P O q; rewrite coord_up; have lt := coord_lt x mu; move: (coord x mu) lt => z lt.
have [m Em mP] : exists2 m, ext G mu = (m * size mu)%N & m = 1%N \/ odd m = false.
  case: E => [->|[k ->]]; first by exists 1%N; [rewrite mul1n | left].
  by exists (2 * k)%N; [rewrite mulnC | right; rewrite oddM].
rewrite Em in lt *; rewrite (divn_eq z (size mu)) in lt *.
have rlt := ltn_pmod z s0; move: (z %/ size mu)%N (z %% size mu)%N rlt lt => k r rlt lt.
have km : (k < m)%N by rewrite -(ltn_pmul2r s0); apply: leq_ltn_trans lt; exact: leq_addr.
rewrite divnMDl // (divn_small rlt) addn0 -addnS.
case: (ltnP r.+1 (size mu)) => h.
  have lt2 : (k * size mu + r.+1 < m * size mu)%N.
    by apply: (@leq_trans (k.+1 * size mu)%N); rewrite ?leq_pmul2r // mulSn addnC ltn_add2r.
  by left; rewrite modn_small // divnMDl // divn_small ?addn0.
have -> : r.+1 = size mu by apply/eqP; rewrite eqn_leq rlt.
rewrite -mulSnr; move: km; rewrite leq_eqVlt => /orP [/eqP km|km]; last first.
  right; rewrite modn_small ?ltn_pmul2r // mulnK //=; split=> // e.
  by have := ltnn k; rewrite -{2}e ltnSn.
rewrite km modnn div0n; case: mP => m1; first by left; move: km; rewrite m1 => - [->].
by right; move: m1; rewrite -km /=; case: (k) => //= k' e; split=> //; rewrite e.
Qed.
End Mask.
(** Three blocks of size 1 in a direction. *)
Lemma mask_refuted :
  exists x : box_grid 2 2 2 2, let size := fun _ : 'I_4 => 1%N in
  [/\ ext (box_grid 2 2 2 2) d0 = 3, coord (sup d0 x) d0 %/ size d0 != coord x d0 %/ size d0 &
      forall red, block_mask size red (sup d0 x) = block_mask size red x]%N.
Proof.
pose x : box 2 2 2 2 := (inord 2, ord0, ord0, ord0).
have X : coord (x : box_grid 2 2 2 2) d0 = 2%N by rewrite /= /box_coord /= inordK.
have O mu : mu != d0 -> coord (x : box_grid 2 2 2 2) mu = 0%N by move: mu; apply: ord4P => //= _.
exists x; split=> //; first by rewrite coord_up X.
by move=> red; rewrite /block_mask coord_up X !(coord_other (g := box_grid 2 2 2 2)) // !O.
Qed.

(** Two sites in the first direction and blocks of one site: the block operators are multiples of 1. *)
Section Two.
Variable C : numClosedFieldType.
Variables (n : nat) (kappa : C).
Let G := box_grid 1 0 0 0.
Let one : G -> 'I_4 -> 'M[C]_n := fun _ _ => 1%:M.
Notation field := (G -> 'I_4 -> 'I_n -> C) (only parsing).
Definition two_solver (red : bool) (v : field) : field := fun x a c =>
  if block_mask (fun _ => 1%N) red x then v x a c / (1 - kappa * 6%:R) else v x a c.
Lemma two_move mu (x : G) : mu != d0 -> sup mu x = x /\ sdn mu x = x.
Proof.
have S nu : nu != d0 -> sup nu x = x.
  move=> ne; apply: coord_inj => rho; case: (eqVneq rho nu) => [->|h]; last by rewrite coord_other.
  have := coord_lt x nu; rewrite coord_up (_ : ext G nu = 1%N); last by move: nu ne; apply: ord4P.
  by rewrite modn1; case: (coord x nu).
by move=> ne; split; [exact: S | rewrite -{1}(S mu ne) supK].
Qed.
Lemma two_mask red (x : G) : block_mask (fun _ => 1%N) red (sup d0 x) = ~~ block_mask (fun _ => 1%N) red x /\
  block_mask (fun _ => 1%N) red (sdn d0 x) = ~~ block_mask (fun _ => 1%N) red x.
Proof.
have S (y : G) : block_mask (fun _ => 1%N) red (sup d0 y) = ~~ block_mask (fun _ => 1%N) red y.
  have := mask_neighbours (size := fun _ => 1%N) red y (mu := d0) isT (or_intror (ex_intro _ 1%N erefl)).
  have -> : (coord (sup d0 y) d0 %/ 1 == coord y d0 %/ 1)%N = false.
    rewrite !divn1 coord_up; have := coord_lt y d0; rewrite (_ : ext G d0 = 2%N) //.
    by case: (coord y d0) => [|[|k]].
  by case: (block_mask _ _ _); case: (block_mask _ _ _).
by split; [exact: S | rewrite -[x in RHS](sdnK d0) S negbK].
Qed.
Lemma two_exact gamma5 red : kappa * 6%:R != 1 ->
  exact_solver (block_multiply (block_mask (fun _ => 1%N) red) kappa 0 gamma5 one)
    (fun v => two_solver red (maybe5 gamma5 v)).
Proof.
move=> ne v x a c; rewrite block_correct.
set m := block_mask _ red.
pose w := two_solver red (maybe5 gamma5 v).
have M : maybe5 gamma5 (maybe5 gamma5 v) x a c = v x a c by rewrite !maybe5E /sg5; case: (gamma5 && _); rewrite ?opprK.
rewrite -[RHS]M; apply: maybe5_ext => y b d; rewrite mulr0 mul0r addr0 -/w.
case: (boolP (m y)) => my; last by rewrite /w /two_solver -/m (negbTE my).
have UV z mu e f : up one (restrict m w) z mu e f = restrict m w (sup mu z) e f.
  rewrite /up /mulv (bigD1 f) //= big1 ?addr0 => [|g g1]; first by rewrite mxE eqxx mul1r.
  by rewrite mxE eq_sym (negbTE g1) mul0r.
have DV z mu e f : dn one (restrict m w) z mu e f = restrict m w (sdn mu z) e f.
  rewrite /dn /mulv (bigD1 f) //= big1 ?addr0 => [|g g1]; first by rewrite !mxE eqxx conjC1 mul1r.
  by rewrite !mxE (negbTE g1) conjC0 mul0r.
have H : hopping one (restrict m w) y b d = 6%:R * w y b d.
  have T mu : mu != d0 -> (up one (restrict m w) y mu b d - gact mu b (fun e => up one (restrict m w) y mu e d))
                 + (dn one (restrict m w) y mu b d + gact mu b (fun e => dn one (restrict m w) y mu e d)) = 2%:R * w y b d.
    move=> h; have [h1 h2] := two_move y h.
    rewrite -!gammaE UV DV h1 h2 /restrict my.
    rewrite [\sum_(e < 4) _ * dn _ _ _ _ _ _](eq_bigr (fun e => gamma C mu b e * up one (restrict m w) y mu e d)); last first.
      by move=> e _; rewrite UV DV h1 h2.
    by rewrite addrACA addNr addr0 mulr_natl mulr2n.
  have [h1 h2] := two_mask red y; rewrite -/m in h1 h2.
  have Z1 e : up one (restrict m w) y d0 e d = 0 by rewrite UV /restrict h1 my.
  have Z2 e : dn one (restrict m w) y d0 e d = 0 by rewrite DV /restrict h2 my.
  rewrite hoppingE sum4E (T d1) // (T d2) // (T d3) // -!gammaE Z1 Z2.
  rewrite !big1 => [|e _|e _]; rewrite ?Z1 ?Z2 ?mulr0 //.
  by rewrite subr0 !add0r -!mulrDl -!natrD.
rewrite /dirac H /restrict my mulrA -{1}[w y b d]mul1r -mulrBl /w /two_solver -/m my.
by rewrite mulrCA divff ?mulr1 // subr_eq0 eq_sym.
Qed.
End Two.

(** The matrices of the even-odd operator for three colours, and the preconditioned solver. *)
From Coq Require Import ZArith Field.
From mathcomp Require Import all_ssreflect all_algebra.
From Verif Require Import GaugeModel GaugeSpec GaugeProofs GaugeProofs2 GaugeProofs3 LoopModel GammaModel DiracModel DiracSpec.
From Verif Require Import DiracProofs DiracProofs2 DiracProofs3 CloverModel CloverSpec CloverProofs CloverProofs2 ScalarModel.
From Verif Require FForceProofs2.
From Verif Require Import EvenOddModel EvenOddSpec EvenOddProofs.
Import GRing.Theory Num.Theory.
Set Implicit Arguments.
Unset Strict Implicit.
Unset Printing Implicit Defensive.
Local Open Scope ring_scope.

Section Entries.
Variables (C : numClosedFieldType) (n : nat).
Implicit Types (A : 'M[C]_(4 * n)).
Lemma fold_entries (l : seq (nat * nat * C)) A r s :
  foldl (@add_entry C n) A l r s = A r s + \sum_(u <- l | ((r : nat) == u.1.1) && ((s : nat) == u.1.2)) u.2.
Proof.
elim: l A => [|u l IH] A /=; first by rewrite big_nil addr0.
by rewrite IH mxE big_cons; case: ifP => _; rewrite ?addrA.
Qed.
Lemma slot_inj a b c e : (c < 3)%N -> (e < 3)%N -> (slot a c == slot b e) = (a == b) && (c == e).
Proof.
move=> hc he; rewrite /slot; apply/eqP/andP => [E|[/eqP-> /eqP->] //].
have := congr1 (modn^~ 3%N) E; rewrite ![(3 * _)%N]mulnC !modnMDl !modn_small // => ce.
have := congr1 (divn^~ 3%N) E; rewrite ![(3 * _)%N]mulnC !divnMDl // !divn_small // !addn0 => ab.
by rewrite ab ce !eqxx.
Qed.
Lemma index_okE : index_ok n = ((n == 0) || (2 < n))%N.
Proof.
rewrite /index_ok; case: n => [|m]; first by apply/forallP => a; apply/forallP => -[].
rewrite /=; apply/forallP/idP => [/(_ ord_max) /forallP /(_ ord_max)|h a].
  by case: m => [|[|m]].
apply/forallP => c; rewrite /slot.
apply: (@leq_trans (3 * 3 + m.+1)); first by rewrite -addnS leq_add // ?leq_mul2l ?ltn_ord // -ltnS ltn_ord.
by rewrite (_ : 4 * m.+1 = 3 * m.+1 + m.+1)%N ?leq_add2r ?leq_mul2l // -mulSnr.
Qed.
End Entries.

Lemma unit_inj (C : numClosedFieldType) m (A : 'M[C]_m) : (forall u : 'cV[C]_m, A *m u = 0 -> u = 0) -> A \in unitmx.
Proof.
move=> h; rewrite -row_full_unit -cokermx_eq0; apply/eqP/matrixP => i j; rewrite [RHS]mxE.
have : A *m col j (cokermx A) = 0 by rewrite colE mulmxA mulmx_coker mul0mx.
by move/h/matrixP/(_ i ord0); rewrite !mxE.
Qed.

Section Three.
Variables (C : numClosedFieldType) (G : grid).
Add Ring C2eo : (Crth C).
Let ii := cii C.
Notation field := (G -> 'I_4 -> 'I_3 -> C) (only parsing).
Implicit Types (F : G -> 'I_6 -> 'M[C]_3) (v w : field) (x : G) (A : 'M[C]_(4 * 3)).
Lemma slot_lt (a : 'I_4) (c : 'I_3) : (slot a c < 4 * 3)%N.
Proof. by case: a => [[|[|[|[|a]]]] ha] //; case: c => [[|[|[|c]]] hc]. Qed.
Definition so a c : 'I_(4 * 3) := Ordinal (slot_lt a c).
Lemma entryE A (a : 'I_4) (c : 'I_3) (b : 'I_4) (e : 'I_3) : entry A (slot a c) (slot b e) = A (so a c) (so b e).
Proof.
rewrite /entry; case: insubP => [r _ E|]; last by rewrite slot_lt.
case: insubP => [s _ E'|]; last by rewrite slot_lt.
by congr (A _ _); apply: val_inj.
Qed.
Lemma so_inj a c b e : (so a c == so b e) = (a == b) && (c == e).
Proof. by rewrite -val_eqE /= slot_inj. Qed.
Lemma so_onto (r : 'I_(4 * 3)) : {p : 'I_4 * 'I_3 | r = so p.1 p.2}.
Proof.
have h : (r %/ 3 < 4)%N by rewrite ltn_divLR.
exists (Ordinal h, Ordinal (@ltn_pmod r 3 erefl)); apply: val_inj => /=.
by rewrite /slot [(3 * (r %/ 3))%N]mulnC -divn_eq.
Qed.
Lemma so_sum (f : 'I_(4 * 3) -> C) : \sum_r f r = \sum_(b < 4) \sum_(e < 3) f (so b e).
Proof.
rewrite pair_big /= (reindex (fun p : 'I_4 * 'I_3 => so p.1 p.2)) //.
exists (fun r => sval (so_onto r)) => [[a c] _|r _].
  case: (so_onto _) => [[b e] /= /eqP]; rewrite so_inj => /andP[/eqP -> /eqP ->] //.
by case: (so_onto r).
Qed.
Lemma placed_sum (g : 'I_3 -> 'I_3 -> seq (nat * nat * C)) (a b : 'I_4) (c e : 'I_3) :
  \sum_(u <- flatten [seq flatten [seq [seq (slot u.1.1 i, slot u.1.2 j, u.2) | u <- g i j]
      | j : 'I_3 <- enum 'I_3] | i : 'I_3 <- enum 'I_3] | (slot a c == u.1.1) && (slot b e == u.1.2)) u.2
  = \sum_(u <- g c e | ((a : nat) == u.1.1) && ((b : nat) == u.1.2)) u.2.
Proof.
rewrite big_flatten big_map big_enum /=.
rewrite (bigD1 c) //= [X in _ + X]big1 ?addr0; last first.
  move=> i ic; rewrite big_flatten big_map big1 // => j _; rewrite big_map big1 // => u.
  by rewrite slot_inj // val_eqE [c == i]eq_sym (negbTE ic) andbF.
rewrite big_flatten big_map big_enum /= (bigD1 e) //= [X in _ + X]big1 ?addr0; last first.
  move=> i ic; rewrite big_map big1 // => u.
  by rewrite !slot_inj // !val_eqE [e == i]eq_sym (negbTE ic) !andbF.
by rewrite big_map; apply: eq_bigl => u; rewrite /= !slot_inj // !eqxx !andbT.
Qed.
Lemma matrixE adj k cs F x a c b e : clover_matrix_of adj k cs F x (so a c) (so b e) =
  ((a == b) && (c == e))%:R + \sum_(u <- additions adj k cs F x c e | ((a : nat) == u.1.1) && ((b : nat) == u.1.2)) u.2.
Proof. by rewrite /clover_matrix_of fold_entries mxE so_inj; congr (_ + _); exact: placed_sum. Qed.
Lemma additionsE adj k cs F x i j : additions adj k cs F x i j = additions false k cs F x i j.
Proof. by case: adj => //; rewrite /additions /= !mulIE /mkc. Qed.
Definition eight (p q : 'I_4 -> C) : seq (nat * nat * C) :=
  [:: (0%N, 0%N, p d0); (1%N, 1%N, p d1); (2%N, 2%N, p d2); (3%N, 3%N, p d3);
      (0%N, 1%N, q d0); (1%N, 0%N, q d1); (2%N, 3%N, q d2); (3%N, 2%N, q d3)].
Definition partner (a : 'I_4) : 'I_4 := match nat_of_ord a with 0 => d1 | 1 => d0 | 2 => d3 | _ => d2 end%N.
Lemma eightE p q (a b : 'I_4) : \sum_(u <- eight p q | ((a : nat) == u.1.1) && ((b : nat) == u.1.2)) u.2
  = (if b == a then p a else 0) + (if b == partner a then q a else 0).
Proof.
by move: a; apply: ord4P; move: b; apply: ord4P; rewrite /eight !big_cons big_nil /= ?addr0 ?add0r.
Qed.
Lemma eight_action (p q : 'I_3 -> 'I_4 -> C) (a : 'I_4) (f : 'I_4 -> 'I_3 -> C) :
  \sum_(b < 4) \sum_(e < 3) (\sum_(u <- eight (p e) (q e) | ((a : nat) == u.1.1) && ((b : nat) == u.1.2)) u.2) * f b e
  = \sum_(e < 3) p e a * f a e + \sum_(e < 3) q e a * f (partner a) e.
Proof.
rewrite exchange_big -big_split; apply: eq_bigr => e _ /=.
transitivity (\sum_(b < 4) (if b == a then p e a * f b e else 0) + \sum_(b < 4) (if b == partner a then q e a * f b e else 0)).
  by rewrite -big_split; apply: eq_bigr => b _; rewrite eightE mulrDl /=; case: ifP; case: ifP; rewrite ?mul0r.
by rewrite -!big_mkcond !big_pred1_eq.
Qed.
Definition diagonals k cs F x (i j : 'I_3) (a : 'I_4) : C := match nat_of_ord a with
  | 0 => (k * cs * 'i * (- F x i0 i j + F x i5 i j))%R
  | 1 => (k * cs * 'i * (F x i0 i j - F x i5 i j))%R
  | 2 => (- (k * cs * 'i * (F x i0 i j + F x i5 i j)))%R
  | _ => (- (k * cs * 'i * (- F x i0 i j - F x i5 i j)))%R end%N.
Definition others k cs F x (i j : 'I_3) (a : 'I_4) : C := match nat_of_ord a with
  | 0 => (k * cs * (F x i1 i j + F x i4 i j + multiply_by_I (F x i2 i j - F x i3 i j)))%R
  | 1 => (k * cs * (- F x i1 i j - F x i4 i j + multiply_by_I (F x i2 i j - F x i3 i j)))%R
  | 2 => (- (k * cs * (- F x i1 i j + F x i4 i j + multiply_by_I (F x i2 i j + F x i3 i j))))%R
  | _ => (- (k * cs * (F x i1 i j - F x i4 i j + multiply_by_I (F x i2 i j + F x i3 i j))))%R end%N.
Lemma additions_eight adj k cs F x i j : additions adj k cs F x i j = eight (diagonals k cs F x i j) (others k cs F x i j).
Proof. by rewrite additionsE. Qed.
Lemma matrix_action adj k cs F v x a c :
  \sum_(b < 4) \sum_(e < 3) clover_matrix_of adj k cs F x (so a c) (so b e) * v x b e
  = v x a c + sgn C a * (k * cs * clover F v x a c).
Proof.
transitivity (\sum_(b < 4) \sum_(e < 3) ((a == b) && (c == e))%:R * v x b e
  + \sum_(b < 4) \sum_(e < 3) (\sum_(u <- eight (diagonals k cs F x c e) (others k cs F x c e) | ((a : nat) == u.1.1) && ((b : nat) == u.1.2)) u.2) * v x b e).
  rewrite -big_split; apply: eq_bigr => b _ /=; rewrite -big_split; apply: eq_bigr => e _ /=.
  by rewrite matrixE additions_eight mulrDl.
congr (_ + _).
  rewrite (bigD1 a) //= (bigD1 c) //= !eqxx mul1r !big1 ?addr0 // => [b ba|e ec].
    by rewrite big1 // => e _; rewrite eq_sym (negbTE ba) mul0r.
  by rewrite eq_sym (negbTE ec) mul0r.
rewrite eight_action.
move: a; apply: ord4P; rewrite /clover /sgn /diagonals /others /= ?mul1r ?mulN1r mulrDr ?opprD !mulr_sumr ?sumrN; congr (_ + _);
  rewrite -?sumrN; apply: eq_bigr => e _; rewrite !mulIE /partner /=.
all: move: (F x i0 c e) (F x i1 c e) (F x i2 c e) (F x i3 c e) (F x i4 c e) (F x i5 c e) => f0 f1 f2 f3 f4 f5; cring_fold C; ring.
Qed.
Lemma diagonal_matrix adj k cs U v x a c :
  \sum_(b < 4) \sum_(e < 3) clover_matrix_of adj k cs (update_field_strength U) x (so a c) (so b e) * v x b e
  = diagonal_part k cs U v x a c.
Proof. by rewrite matrix_action cloverT /diagonal_part mulrCA [sgn C a * (sgn C a * _)]mulrA sgnK mul1r. Qed.
Lemma matrix_unit adj k cs (U : G -> 'I_4 -> 'M[C]_3) x : regular_diagonal k cs U -> even_site x ->
  clover_matrix_of adj k cs (update_field_strength U) x \in unitmx.
Proof.
move=> reg ex; apply: unit_inj => u Au.
have H := reg (fun _ a c => u (so a c) ord0) x ex.
apply/matrixP => r j; rewrite [j]ord1 mxE; have [[a c] ->] := so_onto r; apply: (H _ a c) => b e.
by rewrite -(diagonal_matrix adj); have /matrixP /(_ (so b e) ord0) := Au; rewrite !mxE so_sum.
Qed.
Definition at_site v x : 'cV[C]_(4 * 3) := \col_r let p := sval (so_onto r) in v x p.1 p.2.
Lemma at_siteE v x a c j : at_site v x (so a c) j = v x a c.
Proof. by rewrite mxE; case: (so_onto _) => [[b e] /= /eqP]; rewrite so_inj => /andP[/eqP -> /eqP ->]. Qed.
Variable inv : 'M[C]_(4 * 3) -> 'M[C]_(4 * 3).
Hypothesis invE : forall A, A \in unitmx -> inv A = invmx A.
Lemma right_inverse adj o v x a c : coherent o -> regular_diagonal (im_kappa o) (im_csw o) (im_lattice o) -> even_site x ->
  diagonal_part (im_kappa o) (im_csw o) (im_lattice o) (even_even_inverse (calculate_inverse inv adj o) v) x a c = v x a c.
Proof.
move=> co reg ex; rewrite -(diagonal_matrix adj).
have un := matrix_unit adj reg ex.
transitivity ((clover_matrix_of adj (im_kappa o) (im_csw o) (update_field_strength (im_lattice o)) x *m
  (invmx (clover_matrix_of adj (im_kappa o) (im_csw o) (update_field_strength (im_lattice o)) x) *m at_site v x)) (so a c) ord0);
  last by rewrite mulmxA mulmxV // mul1mx at_siteE.
rewrite mxE so_sum; apply: eq_bigr => b _; apply: eq_bigr => e _; congr (_ * _).
rewrite /even_even_inverse parity_even ex mxE so_sum; apply: eq_bigr => b' _; apply: eq_bigr => e' _.
by rewrite at_siteE entryE /calculate_inverse co invE.
Qed.
End Three.

(** The preconditioned solver. *)
Section Solver.
Variables (C : numClosedFieldType) (n : nat) (G : grid).
Add Ring C3eo : (Crth C).
Variables (adj : bool) (o : improved C n G) (W : G -> 'M[C]_(4 * n)) (order : seq G).
Notation field := (G -> 'I_4 -> 'I_n -> C) (only parsing).
Hypothesis co : coherent o.
Hypothesis ev : even_extents G.
Hypothesis full : forall x, x \in order.
Hypothesis g5on : im_gamma5 o = true.
Let k := im_kappa o.
Let cs := im_csw o.
Let U := im_lattice o.
Let D := clover_dirac k cs U.
Let Q := eo_core adj o W order.
Hypothesis right_inv : forall v x a c, even_site x -> diagonal_part k cs U (even_even_inverse W v) x a c = v x a c.
Hypothesis reg : regular_diagonal k cs U.
Implicit Types (v w y s e : field).
Lemma coreE v : feq (Q v) (reduced_operator k cs true U v (fill o W v)).
Proof. by rewrite -g5on; apply: eo_coreE. Qed.
Lemma clover_dirac_lin alpha v w : feq (D (combine alpha v w)) (combine alpha (D v) (D w)).
Proof.
move=> x a c; rewrite /D /combine !clover_diracE diagonal_lin FForceProofs2.hopping_linear /combine.
move: (diagonal_part k cs U v x a c) (diagonal_part k cs U w x a c) (hopping U v x a c) (hopping U w x a c) => p q r t.
cring_fold C; ring.
Qed.
Lemma fill_lin alpha v w : feq (fill o W (combine alpha v w)) (combine alpha (fill o W v) (fill o W w)).
Proof.
move=> x a c; symmetry; move: x a c; apply: (eliminated_unique ev right_inv reg).
have [v1 v2] := fill_eliminated ev right_inv v; have [w1 w2] := fill_eliminated ev right_inv w.
split=> x a c ex; first by rewrite /combine v1 // w1.
by rewrite [LHS](clover_dirac_lin alpha (fill o W v) (fill o W w)) /combine /D v2 // w2 // mulr0 addr0.
Qed.
Lemma core_lin alpha v w : feq (Q (combine alpha v w)) (combine alpha (Q v) (Q w)).
Proof.
move=> x a c; rewrite coreE /combine !coreE /reduced_operator; case: ifP => // ex.
rewrite !maybe5E /sg5 /=.
have -> : clover_dirac k cs U (fill o W (combine alpha v w)) x a c = combine alpha (D (fill o W v)) (D (fill o W w)) x a c.
  by rewrite -clover_dirac_lin; apply: clover_dirac_ext; exact: fill_lin.
by rewrite /combine; case: ifP => _ //; rewrite opprD mulrN.
Qed.
(** At the odd sites only the odd sites count. *)
Lemma fill_odd v w : (forall x a c, ~~ even_site x -> v x a c = w x a c) -> feq (fill o W v) (fill o W w).
Proof.
move=> h; apply: (eliminated_unique ev right_inv reg); have [v1 v2] := fill_eliminated ev right_inv v.
by split=> // x a c ex; rewrite v1 // h.
Qed.
Lemma core_odd v w x a c : (forall x a c, ~~ even_site x -> v x a c = w x a c) -> ~~ even_site x -> Q v x a c = Q w x a c.
Proof.
move=> h ex; rewrite !coreE /reduced_operator (negbTE ex) !maybe5E; congr (sg5 _ _ _).
by apply: clover_dirac_ext; exact: fill_odd.
Qed.
(** The solution of the solver for the solution [y] of the inner solver. *)
Definition recombine s y : field :=
  let t := multiply_even_odd o 0 y in
  let even_inverse : field := fun x a c => if parity x == 0%N then s x a c - t x a c else y x a c in
  even_even_inverse W even_inverse.
Lemma recombine_even s y x a c : even_site x -> D (recombine s y) x a c = s x a c.
Proof.
move=> ex; rewrite /D clover_diracE /recombine right_inv // parity_even ex /multiply_even_odd even_odd_siteE parity_even ex opprK.
rewrite (hopping_parity (w := y) U a c ev) ?addrK // => z b f ez.
by rewrite inverse_odd ?ez ?ex // parity_even ez ex.
Qed.
Lemma recombine_odd s y x a c : ~~ even_site x ->
  g5 (fun x a c => D (recombine s y) x a c - s x a c) x a c = Q y x a c - odd_source_of o W order s x a c.
Proof.
move=> ex.
have E : odd_source_of o W order s x a c = sgn C a * (s x a c + k * hopping U (even_even_inverse W s) x a c).
  rewrite /odd_source_of parity_odd ex in_place // /multiply_even_odd even_odd_siteE parity_odd ex opprK.
  have -> : sgn C a = if (2 <= a)%N then -1 else 1 by rewrite /sgn ltnNge; case: (1 < a)%N.
  by case: (2 <= a)%N; rewrite ?mul1r ?mulN1r.
rewrite E coreE /reduced_operator (negbTE ex) -[maybe5 true _]/(g5 _) [LHS]g5E [X in _ = X - _]g5E -mulrBr; congr (_ * _).
have R : feq (recombine s y) (combine 1 (fill o W y) (fun x a c => if even_site x then even_even_inverse W s x a c else 0)).
  move=> z b f; rewrite /combine mul1r; case ez: (even_site z); last first.
    by rewrite /recombine inverse_odd ?ez // parity_even ez addr0 /fill ez.
  rewrite /recombine /fill ez /even_even_inverse parity_even ez addrC -sumrN -big_split; apply: eq_bigr => b' _ /=.
  rewrite -sumrN -big_split; by apply: eq_bigr => f' _ /=; rewrite mulrDr mulrN.
have -> : D (recombine s y) x a c = D (fill o W y) x a c - k * hopping U (even_even_inverse W s) x a c.
  transitivity (D (combine 1 (fill o W y) (fun x a c => if even_site x then even_even_inverse W s x a c else 0)) x a c).
    by apply: clover_dirac_ext.
  rewrite clover_dirac_lin /combine mul1r; congr (_ + _); rewrite /D clover_diracE.
  rewrite (diagonal_site k cs U (w := fun _ _ _ => 0) (x := x)); last by move=> b f; rewrite (negbTE ex).
  have -> : diagonal_part k cs U (fun _ _ _ => 0) x a c = 0.
    rewrite /diagonal_part /clover_term big1 ?mulr0 ?addr0 // => mu _; rewrite big1 // => nu _; rewrite big1 // => b _.
    by rewrite big1 ?mulr0 // => f _; rewrite mulr0.
  rewrite sub0r; congr (- (_ * _)); apply: hopping_parity => // z b f; rewrite (negbTE ex) /= => ez.
  by rewrite ez.
by rewrite opprD addrA addrAC.
Qed.
Lemma recombine_residual s y x a c : ~~ even_site x ->
  Q (g5 (fun x a c => D (recombine s y) x a c - s x a c)) x a c = Q (Q y) x a c - Q (odd_source_of o W order s) x a c.
Proof.
move=> ex; rewrite (core_odd (w := combine (-1) (Q y) (odd_source_of o W order s))) //.
  by rewrite core_lin /combine mulN1r.
by move=> z b f ez; rewrite recombine_odd // /combine mulN1r.
Qed.
Lemma recombine_exact s y : regular_operator k cs U -> feq (Q (Q y)) (Q (odd_source_of o W order s)) ->
  feq (D (recombine s y)) s.
Proof.
move=> rego H x a c; case ex: (even_site x); first exact: recombine_even.
set e := g5 (fun x a c => D (recombine s y) x a c - s x a c).
have Z : feq (D (fill o W e)) (fun _ _ _ => 0).
  move=> z b f; case ez: (even_site z); first by have [_ h] := fill_eliminated ev right_inv e; apply: h.
  have : Q e z b f = 0 by rewrite recombine_residual ?ez // H subrr.
  rewrite coreE /reduced_operator ez maybe5E /sg5 /=; case: ifP => _ // /eqP; rewrite oppr_eq0 => /eqP //.
have := rego _ Z x a c; rewrite /fill ex /e g5E => /eqP; rewrite mulf_eq0 /sgn.
case: ifP => _; rewrite ?oppr_eq0 oner_eq0 /= subr_eq0 => /eqP //.
Qed.
End Solver.

(** Two colours, and all numbers of colours together. *)
From mathcomp Require Import all_ssreflect all_algebra.
From Verif Require Import GaugeModel GaugeSpec GaugeProofs GaugeProofs2 AdjTables AdjModel AdjSpec AdjProofs AdjProofs2 AdjProofs3 AdjProofs4.
From Coq Require Import Field.
Import GRing.Theory Num.Theory.
Set Implicit Arguments.
Unset Strict Implicit.
Unset Printing Implicit Defensive.
Local Open Scope ring_scope.

Section Two.
Variable C : numClosedFieldType.
Add Field CfieldT : (Cfth C).
Notation k0 := (@Ordinal 2 0 isT).
Notation k1 := (@Ordinal 2 1 isT).
Lemma sum2' (V : zmodType) (f : 'I_2 -> V) : \sum_i f i = f k0 + f k1.
Proof. rewrite 2!big_ord_recl big_ord0 addr0; congr (f _ + f _); exact: val_inj. Qed.
Lemma ord2' (i : 'I_2) : i = k0 \/ i = k1.
Proof. by case: i => [[|[|k]] Hk] //; [left | right]; apply: val_inj. Qed.
Lemma table2_loops : [seq 2%:R^-1 *: fill 2 l | l <- fund_table2 C] = loop_generators C 2.
Proof.
rewrite /loop_generators map_cat map_cat /=.
have s1 : sqrtC (2%:R / 2%:R) = 1 :> C by rewrite divff ?pnatr_eq0 // sqrtC1.
by repeat congr cons; congr (_ *: _); apply/matrixP => a b; rewrite ?mxE; case: (ord2' a) => ->; case: (ord2' b) => ->;
 rewrite /= ?s1 ?(addr0, add0r, subr0, sub0r) // ?nat2; cfield_fold C; ring.
Qed.
Lemma entry2 (l l' : seq C) (t : C) (U : 'M[C]_2) (x y : nat -> nat -> C) :
  (forall a b : 'I_2, 'Re (U a b) = x a b) -> (forall a b : 'I_2, 'Im (U a b) = y a b) ->
  (let u a b := x a b + 'i * y a b in let v a b := x a b - 'i * y a b in
   let g a b := nth 0 l (a * 2 + b)%N in let h a b := nth 0 l' (a * 2 + b)%N in
   let s f := f 0%N + f 1%N in
   s (fun a => s (fun b => g a b * s (fun c => s (fun e => u b e * h e c) * v a c))) = 2%:R * t) ->
  2%:R * \tr ((2%:R^-1 *: fill 2 l) *m (U *m (2%:R^-1 *: fill 2 l') *m htrans U)) = t.
Proof.
move=> Hx Hy Ht; rewrite -scalemxAr -!scalemxAl -scalemxAr !mxtraceZ mulrA divff ?mul1r ?n0 //.
apply: (mulfI (n0 C 1)); rewrite mulrA divff ?n0 // mul1r -[RHS]Ht mxtr_mul /=.
transitivity (\sum_(a < 2) \sum_(b < 2) nth 0 l (a * 2 + b)%N * \sum_(c < 2) (\sum_(e < 2) (x b e + 'i * y b e) * nth 0 l' (e * 2 + c)%N) * (x a c - 'i * y a c)).
  apply: eq_bigr => a _; apply: eq_bigr => b _; rewrite [fill _ _ _ _]mxE mxE; congr (_ * _); apply: eq_bigr => c _.
  rewrite [htrans U _ _]mxE [map_mx _ _ _ _]mxE conj_rect Hx Hy mxE; congr (_ * _); apply: eq_bigr => e _.
  by rewrite [fill _ _ _ _]mxE [U b e]Crect Hx Hy.
by rewrite !sum2'.
Qed.
Lemma table2_link (U : 'M[C]_2) :
  (\matrix_(i, j) nth 0 (nth [::] (link_table2 (at_re U) (at_im U)) i) j : 'M[C]_(2 * 2 - 1)) = loop_link (loop_generators C 2) U.
Proof.
apply/matrixP => i j; rewrite [LHS]mxE (linkE (size_loops C 2)); last exact: loops_herm.
have Hx (a b : 'I_2) : 'Re (U a b) = at_re U a b by rewrite /at_re at_val.
have Hy (a b : 'I_2) : 'Im (U a b) = at_im U a b by rewrite /at_im at_val.
rewrite -table2_loops; have ii : cmul 'i 'i = copp (c1 C) by rewrite /cmul /copp /c1 -expr2 sqrCi.
have h2 : cadd (c1 C) (c1 C) <> c0 C by rewrite /cadd /c1 -nat2; apply/eqP; rewrite pnatr_eq0.
move: (at_re U) (at_im U) Hx Hy => x y Hx Hy; apply/esym.
case: i => [[|[|[|i]]] Hi] //; case: j => [[|[|[|j]]] Hj] //; apply: (entry2 Hx Hy) => /=;
 rewrite !(mul0r, mul1r, mulr0, mulr1, addr0, add0r) ?nat2; cfield_fold C.
all: try (ring [ii]).
by field [ii].
Qed.
Lemma table2_adjoint (i : nat) : (i < 3)%N -> fill (2 * 2 - 1) (nth [::] (adj_table2 C) i) = loop_adjoint (loop_generators C 2) i.
Proof.
move=> Hi; apply/matrixP => m k; rewrite adjE -table2_loops [LHS]mxE.
have ii : cmul 'i 'i = copp (c1 C) by rewrite /cmul /copp /c1 -expr2 sqrCi.
have h2 : cadd (c1 C) (c1 C) <> c0 C by rewrite /cadd /c1 -nat2; apply/eqP; rewrite pnatr_eq0.
have Q (A B D : 'M[C]_2) : 2%:R * \tr ((2%:R^-1 *: A) *m ((2%:R^-1 *: B) *m (2%:R^-1 *: D) - (2%:R^-1 *: D) *m (2%:R^-1 *: B)))
  = 4%:R^-1 * \sum_a \sum_b A a b * \sum_c (B b c * D c a - D b c * B c a).
  have -> : (2%:R^-1 *: A) *m ((2%:R^-1 *: B) *m (2%:R^-1 *: D) - (2%:R^-1 *: D) *m (2%:R^-1 *: B)) = (2%:R^-1 * 4%:R^-1) *: (A *m (B *m D - D *m B)).
    rewrite -!(scalemxAl, scalemxAr) -!scalerBr -!(scalemxAl, scalemxAr) !scalerA.
    by rewrite (natrM C 2 2) invfM mulrA.
  rewrite mxtraceZ mulrA mulrA divff ?n0 // mul1r; congr (_ * _).
  rewrite mxtr_mul; apply: eq_bigr => a _; apply: eq_bigr => b _; congr (_ * _).
  by rewrite sumrB !mxE.
case: i Hi => [|[|[|i]]] // _; case: m => [[|[|[|m]]] Hm] //; case: k => [[|[|[|k]]] Hk] //;
 rewrite /= Q !sum2' ![fill _ _ _ _]mxE /= (natrM C 2 2) invfM nat2; cfield_fold C; by field [ii].
Qed.
End Two.

Section All.
Variable C : numClosedFieldType.
Variable N : nat.
Hypothesis N0 : (0 < N)%N.
Lemma generatorsE : generators C N = loop_generators C N.
Proof.
rewrite /generators; case: eqP => [->|_]; first exact: table2_loops.
by case: eqP => [->|_] //; exact: table3_loops.
Qed.
Lemma to_adjointE (U : 'M[C]_N) : to_adjoint U = loop_link (loop_generators C N) U.
Proof.
rewrite /to_adjoint generatorsE; case: eqP => [E|_]; first by move: U; rewrite E => U; exact: table2_link.
by case: eqP => [E|_] //; move: U; rewrite E => U; exact: table3_link.
Qed.
Lemma adjoint_generatorE i : (i < N * N - 1)%N -> adjoint_generator C N i = loop_adjoint (loop_generators C N) i.
Proof.
rewrite /adjoint_generator generatorsE; case: eqP => [->|_] Hi; first exact: table2_adjoint.
by move: Hi; case: eqP => [->|_] //; exact: table3_adjoint.
Qed.
End All.

Section Results.
Variable C : numClosedFieldType.
Variable N : nat.
Hypothesis N0 : (0 < N)%N.
Notation G := (loop_generators C N).
Notation szG := (size_loops C N).
Notation hG := (@loops_herm C N).
Notation fG := (@loops_fierz C N).
Implicit Types U V : 'M[C]_N.
Lemma basis : su_basis (generators C N).
Proof. rewrite generatorsE; apply: is_basis; solve [exact: N0 | exact: szG | exact: hG | exact: fG | assumption]. Qed.
Lemma adjoint_entry U i j : to_adjoint U i j = 2%:R * 'Re (\tr ((generators C N)`_i *m U *m (generators C N)`_j *m dagger U)).
Proof. by rewrite to_adjointE generatorsE daggerE mxE. Qed.
Lemma adjoint_acts U : unitary U -> acts_as (generators C N) U (to_adjoint U).
Proof. rewrite to_adjointE generatorsE; move=> HU; apply: link_acts; solve [exact: N0 | exact: szG | exact: hG | exact: fG | assumption]. Qed.
Lemma adjoint1 : to_adjoint (1%:M : 'M[C]_N) = 1%:M.
Proof. rewrite to_adjointE; apply: link1; solve [exact: N0 | exact: szG | exact: hG | exact: fG | assumption]. Qed.
Lemma adjointM U V : unitary U -> unitary V -> to_adjoint (U *m V) = to_adjoint U *m to_adjoint V.
Proof. rewrite !to_adjointE; move=> HU HV; apply: linkM; solve [exact: N0 | exact: szG | exact: hG | exact: fG | assumption]. Qed.
Lemma adjointH U : to_adjoint (dagger U) = (to_adjoint U)^T.
Proof. rewrite !to_adjointE daggerE; apply: linkH; solve [exact: N0 | exact: szG | exact: hG | exact: fG | assumption]. Qed.
Lemma adjoint_orthogonal U : unitary U -> real_orthogonal (to_adjoint U).
Proof. rewrite to_adjointE; move=> HU; apply: link_orthogonal; solve [exact: N0 | exact: szG | exact: hG | exact: fG | assumption]. Qed.
Lemma adjoint_trace U : unitary U -> \tr (to_adjoint U) = `|\tr U| ^+ 2 - 1.
Proof. rewrite to_adjointE; move=> HU; apply: link_trace; solve [exact: N0 | exact: szG | exact: hG | exact: fG | assumption]. Qed.
Lemma adjoint_dagger U : dagger (to_adjoint U) = to_adjoint (dagger U).
Proof.
rewrite adjointH; apply/matrixP => i j; rewrite !mxE; apply: conj_Creal.
rewrite to_adjointE; apply: link_real; solve [exact: N0 | exact: szG | exact: hG | exact: fG | assumption].
Qed.
Lemma adjoint_unitary U : unitary U -> unitary (to_adjoint U).
Proof. by move=> HU; rewrite /unitary adjoint_dagger daggerE -adjointM ?unitary_r ?adjoint1 //; exact: unitaryH. Qed.
Lemma hop_unitary (L : lattice) (U : gauge C N L) x s : (forall y mu, unitary (U y mu)) -> unitary (hop U x s).
Proof. by move=> HU; rewrite /hop; case: s.1 => //; rewrite daggerE; exact: unitaryH. Qed.
Lemma transport_unitary (L : lattice) (U : gauge C N L) x p : (forall y mu, unitary (U y mu)) -> unitary (transport U x p).
Proof. by move=> HU; elim: p x => [|s p IH] x /=; [exact: unitary1 | apply: unitaryM => //; exact: hop_unitary]. Qed.
Lemma adjoint_transport (L : lattice) (U : gauge C N L) x p : (forall y mu, unitary (U y mu)) ->
  transport (convert U) x p = to_adjoint (transport U x p).
Proof.
move=> HU; elim: p x => [|s p IH] x /=; first by rewrite adjoint1.
rewrite IH adjointM; [congr (_ *m _) | exact: hop_unitary | exact: transport_unitary].
by rewrite /hop; case: s.1 => //; exact: adjoint_dagger.
Qed.
Lemma adjoint_gauge (L : lattice) (om : L -> 'M[C]_N) (U : gauge C N L) x mu : (forall y, unitary (om y)) -> (forall y nu, unitary (U y nu)) ->
  convert (gauge_transform om U) x mu = gauge_transform (fun y => to_adjoint (om y)) (convert U) x mu.
Proof.
move=> Ho HU; have HH : unitary (htrans (om (sup mu x))) by exact: unitaryH.
have HM : unitary (om x *m U x mu) by exact: unitaryM.
by rewrite /convert /gauge_transform (adjointM HM HH) (adjointM (Ho x) (HU x mu)) -!daggerE adjoint_dagger.
Qed.
Lemma adjgen_commutes (i : nat) : (i < N * N - 1)%N -> commutes_as (generators C N) (generators C N)`_i (adjoint_generator C N i).
Proof. by move=> Hi; rewrite adjoint_generatorE // generatorsE; apply: adj_commutes; solve [exact: N0 | exact: szG | exact: hG | exact: fG | assumption]. Qed.
Lemma adjgen_lie (i j : 'I_(N * N - 1)) :
  adjoint_generator C N i *m adjoint_generator C N j - adjoint_generator C N j *m adjoint_generator C N i
  = \sum_(k < N * N - 1) adjoint_generator C N i k j *: adjoint_generator C N k.
Proof.
rewrite !adjoint_generatorE //.
transitivity (\sum_(k < N * N - 1) loop_adjoint G i k j *: loop_adjoint G k); first by apply: adj_lie; solve [exact: N0 | exact: szG | exact: hG | exact: fG | assumption].
by apply: eq_bigr => k _; rewrite adjoint_generatorE.
Qed.
End Results.

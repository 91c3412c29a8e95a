(** The tables for two and three colours agree with the loops. *)
From mathcomp Require Import all_ssreflect all_algebra.
From Verif Require Import GaugeModel GaugeSpec GaugeProofs GaugeProofs2 AdjTables AdjModel AdjSpec AdjProofs AdjProofs2.
From Coq Require Import Field.
Import GRing.Theory Num.Theory.
Set Implicit Arguments.
Unset Strict Implicit.
Unset Printing Implicit Defensive.
Local Open Scope ring_scope.

Section CField.
Variable C : numClosedFieldType.
Definition cinv (a : C) : C := a^-1.
Lemma Cfth : @field_theory C (c0 C) (c1 C) (@cadd C) (@cmul C) (fun a b => cadd a (copp b)) (@copp C)
  (fun a b => cmul a (cinv b)) cinv eq.
Proof.
split; [exact: Crth | by apply/eqP; exact: oner_neq0 | by [] |].
by move=> p /eqP Hp; rewrite /cmul /cinv /c1 mulVf.
Qed.
End CField.
Ltac cfield_fold C :=
  cring_fold C;
  repeat match goal with |- context [@GRing.inv ?Z ?a] => progress change (@GRing.inv Z a) with (@cinv C a) end.

Section Three.
Variable C : numClosedFieldType.
Add Field CfieldT : (Cfth C).
Notation k0 := (@Ordinal 3 0 isT).
Notation k1 := (@Ordinal 3 1 isT).
Notation k2 := (@Ordinal 3 2 isT).
Lemma sum3 (V : zmodType) (f : 'I_3 -> V) : \sum_i f i = f k0 + f k1 + f k2.
Proof.
rewrite 3!big_ord_recl big_ord0 addr0 addrA; congr (f _ + f _ + f _); exact: val_inj.
Qed.
Lemma ord3 (i : 'I_3) : [\/ i = k0, i = k1 | i = k2].
Proof. by case: i => [[|[|[|k]]] Hk] //; [constructor 1 | constructor 2 | constructor 3]; apply: val_inj. Qed.
Lemma at_val N (U : 'M[C]_N) (a b : 'I_N) : at_ U a b = U a b.
Proof. by rewrite /at_ !valK. Qed.
Lemma nat2 : 2%:R = 1 + 1 :> C. Proof. by rewrite mulr2n. Qed.
Lemma nat3 : 3%:R = 1 + 1 + 1 :> C. Proof. by rewrite mulrS mulr2n addrA. Qed.
Lemma nat6 : 6%:R = (1 + 1) * (1 + 1 + 1) :> C. Proof. by rewrite -nat2 -nat3 -natrM. Qed.
Lemma rt3 : sqrtC 3%:R != 0 :> C. Proof. by rewrite sqrtC_eq0 pnatr_eq0. Qed.
Lemma rt3i : (sqrtC 3%:R)^-1 * (sqrtC 3%:R)^-1 = 3%:R^-1 :> C.
Proof. by rewrite -invfM -expr2 sqrtCK. Qed.
Lemma rt3m : sqrtC 3%:R = 3%:R * (sqrtC 3%:R)^-1 :> C.
Proof. by apply: (mulIf rt3); rewrite -[_ * _ * sqrtC _]mulrA mulVf ?rt3 // mulr1 -expr2 sqrtCK. Qed.

(** The same matrices. *)
Lemma table3_loops : [seq 2%:R^-1 *: fill 3 l | l <- fund_table3 C] = loop_generators C 3.
Proof.
rewrite /loop_generators map_cat map_cat /=.
have s1 : sqrtC (2%:R / 2%:R) = 1 :> C by rewrite divff ?pnatr_eq0 // sqrtC1.
have s2 : sqrtC (2%:R / 6%:R) = (sqrtC 3%:R)^-1 :> C.
  have -> : 2%:R / 6%:R = 3%:R^-1 :> C by rewrite (natrM C 2 3) invfM mulrA divff ?mul1r // pnatr_eq0.
  by rewrite rootCV ?ler0n.
by repeat congr cons; congr (_ *: _); apply/matrixP => a b; rewrite ?mxE; case: (ord3 a) => ->; case: (ord3 b) => ->;
 rewrite /= ?s1 ?s2 ?(addr0, add0r, subr0, sub0r) // ?nat2 ?nat3 ; cfield_fold C; ring.
Qed.

Lemma conj_rect (z : C) : z^* = 'Re z - 'i * 'Im z.
Proof. by rewrite {1}[z]Crect conjC_rect ?Creal_Re ?Creal_Im. Qed.
(** Twice the trace with the factors of the generators taken out. *)
Lemma trace_half (A B U : 'M[C]_3) :
  2%:R * \tr ((2%:R^-1 *: A) *m (U *m (2%:R^-1 *: B) *m htrans U)) = 2%:R^-1 * \tr (A *m (U *m B *m htrans U)).
Proof.
by rewrite -scalemxAr -!scalemxAl -scalemxAr !mxtraceZ mulrA divff ?mul1r // pnatr_eq0.
Qed.
Lemma trace_sum (A B U : 'M[C]_3) :
  \tr (A *m (U *m B *m htrans U)) = \sum_a \sum_b A a b * \sum_c (\sum_e U b e * B e c) * (U a c)^*.
Proof.
rewrite mxtr_mul; apply: eq_bigr => a _; apply: eq_bigr => b _; congr (_ * _).
by rewrite mxE; apply: eq_bigr => c _; rewrite !mxE.
Qed.
Lemma entry3 (l l' : seq C) (t : C) (U : 'M[C]_3) (x y : nat -> nat -> C) :
  (forall a b : 'I_3, 'Re (U a b) = x a b) -> (forall a b : 'I_3, 'Im (U a b) = y a b) ->
  (let u a b := x a b + 'i * y a b in let v a b := x a b - 'i * y a b in
   let g a b := nth 0 l (a * 3 + b)%N in let h a b := nth 0 l' (a * 3 + b)%N in
   let s f := f 0%N + f 1%N + f 2%N in
   s (fun a => s (fun b => g a b * s (fun c => s (fun e => u b e * h e c) * v a c))) = 2%:R * t) ->
  2%:R * \tr ((2%:R^-1 *: fill 3 l) *m (U *m (2%:R^-1 *: fill 3 l') *m htrans U)) = t.
Proof.
move=> Hx Hy Ht; rewrite trace_half; apply: (mulfI (n0 C 1)).
rewrite mulrA divff ?n0 // mul1r -[RHS]Ht trace_sum /=.
transitivity (\sum_(a < 3) \sum_(b < 3) nth 0 l (a * 3 + b)%N * \sum_(c < 3) (\sum_(e < 3) (x b e + 'i * y b e) * nth 0 l' (e * 3 + c)%N) * (x a c - 'i * y a c)).
  apply: eq_bigr => a _; apply: eq_bigr => b _; rewrite [fill _ _ _ _]mxE; congr (_ * _); apply: eq_bigr => c _.
  rewrite conj_rect Hx Hy; congr (_ * _); apply: eq_bigr => e _.
  by rewrite [fill _ _ _ _]mxE [U b e]Crect Hx Hy.
by rewrite !sum3.
Qed.
Lemma table3_link (U : 'M[C]_3) :
  (\matrix_(i, j) nth 0 (nth [::] (link_table3 (at_re U) (at_im U)) i) j : 'M[C]_(3 * 3 - 1)) = loop_link (loop_generators C 3) U.
Proof.
apply/matrixP => i j; rewrite [LHS]mxE (linkE (size_loops C 3)); last exact: loops_herm.
have Hx (a b : 'I_3) : 'Re (U a b) = at_re U a b by rewrite /at_re at_val.
have Hy (a b : 'I_3) : 'Im (U a b) = at_im U a b by rewrite /at_im at_val.
rewrite -table3_loops; have ii : cmul 'i 'i = copp (c1 C) by rewrite /cmul /copp /c1 -expr2 sqrCi.
have r2 : cmul (sqrtC 3%:R)^-1 (sqrtC 3%:R)^-1 = cinv (cadd (cadd (c1 C) (c1 C)) (c1 C)).
  by rewrite /cmul /cinv /cadd /c1 rt3i nat3.
have h2 : cadd (c1 C) (c1 C) <> c0 C by rewrite /cadd /c1 -nat2; apply/eqP; rewrite pnatr_eq0.
have h3 : cadd (cadd (c1 C) (c1 C)) (c1 C) <> c0 C by rewrite /cadd /c1 -nat3; apply/eqP; rewrite pnatr_eq0.
move: (at_re U) (at_im U) Hx Hy => x y Hx Hy; apply/esym.
case: i => [[|[|[|[|[|[|[|[|i]]]]]]]] Hi] //;
 case: j => [[|[|[|[|[|[|[|[|j]]]]]]]] Hj] //; apply: (entry3 Hx Hy) => /=;
 rewrite !(mul0r, mul1r, mulr0, mulr1, addr0, add0r);
 try (move: (sqrtC _)^-1 r2 => r r2); rewrite ?nat6 ?invfM ?nat2 ?nat3; cfield_fold C.
all: try (ring [ii]).
- by field [ii].
- by field [ii].
- by field [ii].
- by rewrite -!r2; field [ii].
Qed.
End Three.

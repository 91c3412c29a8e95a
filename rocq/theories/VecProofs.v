(** Dirac fields as column vectors and linear operators on fields as matrices. *)
From mathcomp Require Import all_ssreflect all_algebra.
From Verif Require Import GaugeModel GaugeProofs DiracSpec DiracProofs DiracProofs2 PertProofs.
Import GRing.Theory Num.Theory.
Set Implicit Arguments.
Unset Strict Implicit.
Unset Printing Implicit Defensive.
Local Open Scope ring_scope.

Section Vec.
Variable C : numClosedFieldType.
Variable n : nat.
Variable L : lattice.
Notation field := (L -> 'I_4 -> 'I_n -> C) (only parsing).
Notation T := [finType of L * 'I_4 * 'I_n].
Notation N := #|T|.
Definition vec (v : field) : 'cV[C]_N := \col_k v (enum_val k).1.1 (enum_val k).1.2 (enum_val k).2.
Definition unvec (u : 'cV[C]_N) : field := fun x a c => u (enum_rank ((x, a, c) : T)) ord0.
Lemma vecE v (x : L) (a : 'I_4) (c : 'I_n) : vec v (enum_rank ((x, a, c) : T)) ord0 = v x a c.
Proof. by rewrite mxE enum_rankK. Qed.
Lemma unvecK u : vec (unvec u) = u.
Proof.
apply/matrixP => k j; rewrite mxE /unvec (ord1 j).
by case E: (enum_val k) => [[x a] c] /=; rewrite -E enum_valK.
Qed.
Lemma vecK v : feq (unvec (vec v)) v.
Proof. by move=> x a c; rewrite /unvec vecE. Qed.
Lemma vec_ext v w : feq v w -> vec v = vec w.
Proof. by move=> h; apply/matrixP => k j; rewrite !mxE h. Qed.
Lemma vec_inj v w : vec v = vec w -> feq v w.
Proof. by move=> h x a c; rewrite -(vecE v) h vecE. Qed.
Lemma innerE v w : inner v w = quad (vec v) (vec w).
Proof.
rewrite /quad mxE.
rewrite (reindex (fun t : T => enum_rank t)) /=; last by exists enum_val => i _; rewrite ?enum_rankK ?enum_valK.
rewrite /inner pair_big /= pair_big /=; apply: eq_bigr => [[[x a] c]] _ /=.
by rewrite !mxE !enum_rankK.
Qed.

Definition linear_op (A : field -> field) : Prop :=
  (forall v w, feq v w -> feq (A v) (A w)) /\
  (forall alpha v w, feq (A (combine alpha v w)) (combine alpha (A v) (A w))).
Definition opmx (A : field -> field) : 'M[C]_N := \matrix_(i, j) vec (A (unvec (delta_mx j ord0))) i ord0.
Lemma linear0 A : linear_op A -> feq (A (fun _ _ _ => 0)) (fun _ _ _ => 0).
Proof.
move=> [e l] x a c.
have h : feq (fun _ _ _ => 0) (combine (-1) (fun _ _ _ => 0) (fun _ _ _ => 0) : field) by move=> *; rewrite /combine mulr0 addr0.
by rewrite (e _ _ h) l /combine mulN1r subrr.
Qed.
Lemma vec_op A v : linear_op A -> vec (A v) = opmx A *m vec v.
Proof.
move=> lin; have [e l] := lin.
have H (s : seq 'I_N) (u : 'I_N -> C) : feq (A (fun x a c => \sum_(j <- s) u j * unvec (delta_mx j ord0) x a c))
   (fun x a c => \sum_(j <- s) u j * A (unvec (delta_mx j ord0)) x a c).
  elim: s => [|j s IH] x a c.
    rewrite big_nil -[RHS](linear0 lin x a c); apply: e => y b d; by rewrite big_nil.
  rewrite big_cons addrC -IH.
  have := l (u j) (fun x a c => \sum_(j <- s) u j * unvec (delta_mx j ord0) x a c) (unvec (delta_mx j ord0)) x a c.
  rewrite /combine => <-; apply: e => y b d; by rewrite big_cons addrC.
have D : feq v (fun x a c => \sum_(j <- enum 'I_N) vec v j ord0 * unvec (delta_mx j ord0) x a c).
  move=> x a c; rewrite big_enum /= (bigD1 (enum_rank ((x, a, c) : T))) //= vecE /unvec mxE !eqxx mulr1 big1 ?addr0 //.
  by move=> j ne; rewrite [delta_mx _ _ _ _]mxE eq_sym (negPf ne) mulr0.
apply/matrixP => k j; rewrite (ord1 j) [RHS]mxE [LHS]mxE (e _ _ D) H big_enum /=.
by apply: eq_bigr => i _; rewrite !mxE mulrC.
Qed.
Lemma quad_ext (A B : 'M[C]_N) : (forall u w, quad u (A *m w) = quad u (B *m w)) -> A = B.
Proof.
move=> h; apply/matrixP => i j; have := h (delta_mx i ord0) (delta_mx j ord0); rewrite /quad.
have e (D : 'M[C]_N) : (htrans (delta_mx i ord0 : 'cV[C]_N) *m (D *m delta_mx j ord0)) ord0 ord0 = D i j.
  have -> : htrans (delta_mx i ord0 : 'cV[C]_N) = delta_mx ord0 i.
    by apply/matrixP => p q; rewrite !mxE andbC; case: (_ && _); rewrite ?conjC1 ?conjC0.
  rewrite mulmxA -rowE mxE (bigD1 j) //= !mxE !eqxx mulr1 big1 ?addr0 // => k ne.
  by rewrite !mxE (negPf ne) mulr0.
by rewrite !e.
Qed.
Lemma opmx_herm A : linear_op A -> (forall v w, inner v (A w) = inner (A v) w) -> htrans (opmx A) = opmx A.
Proof.
move=> lin h; apply: quad_ext => u w.
rewrite -(unvecK u) -(unvecK w) -vec_op // -innerE h innerE vec_op // /quad (htransM (opmx A)) mulmxA //.
Qed.
End Vec.

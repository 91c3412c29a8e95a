(** First order perturbation theory for one term of the pseudofermion action. *)
From mathcomp Require Import all_ssreflect all_algebra.
From Verif Require Import GaugeModel GaugeSpec GaugeProofs GaugeProofs2 DiracModel DiracSpec DiracProofs DiracProofs2.
From Verif Require Import AdjModel FForceModel FForceSpec FForceProofs PertProofs VecProofs.
Import Order.POrderTheory GRing.Theory Num.Theory.
Set Implicit Arguments.
Unset Strict Implicit.
Unset Printing Implicit Defensive.
Local Open Scope ring_scope.

Section Move.
Variable C : numClosedFieldType.
Variable n : nat.
Variable L : lattice.
Notation field := (L -> 'I_4 -> 'I_n -> C) (only parsing).
Notation links := (L -> 'I_4 -> 'M[C]_n) (only parsing).
Variable k : C.
Hypothesis kR : k \is Num.real.
Implicit Types (U V W Z : links) (v w X : field).

(** The change of the operator with the links. *)
Definition change W v : field := fun x a c => - k * g5 (hopping W v) x a c.
Notation Q := (hermitian_dirac k).
Notation shifted := (shifted k).
Notation regular := (regular k).

Lemma g5_ext v w : feq v w -> feq (g5 v) (g5 w).
Proof. by move=> E x a c; rewrite !g5E E. Qed.
Lemma hopping_ext U v w : feq v w -> feq (hopping U v) (hopping U w).
Proof.
move=> E x a c; apply: eq_bigr => mu _; apply: eq_bigr => b _.
by congr (_ * _ + _ * _); apply: eq_bigr => e _; rewrite E.
Qed.
Lemma lin2 (p q s t s' t' y : C) : p * (s + y * s') + q * (t + y * t') = p * s + q * t + y * (p * s' + q * t').
Proof. by rewrite !mulrDr addrACA [p * (y * _)]mulrCA [q * (y * _)]mulrCA. Qed.
Lemma hopping_linear U alpha v w : feq (hopping U (combine alpha v w)) (combine alpha (hopping U v) (hopping U w)).
Proof.
move=> x a c; rewrite /combine mulr_sumr -big_split; apply: eq_bigr => mu _.
rewrite mulr_sumr -big_split; apply: eq_bigr => b _ /=.
rewrite -lin2; congr (_ * _ + _ * _); rewrite mulr_sumr -big_split; apply: eq_bigr => e _ /=;
  by rewrite mulrDr mulrCA.
Qed.
Lemma hopping_links (e : C) V W v : e \is Num.real ->
  feq (hopping (fun x mu => V x mu + e *: W x mu) v) (combine e (hopping V v) (hopping W v)).
Proof.
move=> eR x a c; rewrite /combine mulr_sumr -big_split; apply: eq_bigr => mu _.
rewrite mulr_sumr -big_split; apply: eq_bigr => b _ /=.
rewrite -lin2; congr (_ * _ + _ * _); rewrite mulr_sumr -big_split; apply: eq_bigr => t _ /=.
  by rewrite !mxE mulrDl mulrA.
by rewrite !mxE rmorphD rmorphM /= (CrealP eR) mulrDl mulrA.
Qed.
Lemma Q_lin U : linear_op (Q U).
Proof.
split=> [v w E|alpha v w]; first by apply: g5_ext; exact: dirac_ext.
by move=> x a c; rewrite /hermitian_dirac g5E dirac_linear /combine mulrDr !g5E mulrCA.
Qed.
Lemma change_lin W : linear_op (change W).
Proof.
split=> [v w E|alpha v w] x a c; rewrite /change; first by rewrite (g5_ext (hopping_ext W E)).
by rewrite /combine !g5E hopping_linear /combine mulrDr mulrDr; congr (_ + _); rewrite !mulrA [_ * alpha]mulrC !mulrA.
Qed.
Lemma Q_herm U v w : inner v (Q U w) = inner (Q U v) w.
Proof. exact: dirac_herm. Qed.
Lemma QE U v x a c : Q U v x a c = g5 v x a c + change U v x a c.
Proof. by rewrite /hermitian_dirac /change !g5E /dirac mulrBr mulNr mulrCA. Qed.

Definition curve V W Z (e : C) : links := fun x mu => V x mu + e *: (W x mu + e *: Z x mu).
Lemma Q_curve V W Z e v x a c : e \is Num.real ->
  Q (curve V W Z e) v x a c = Q V v x a c + e * (change W v x a c + e * change Z v x a c).
Proof.
move=> eR; rewrite !QE /change !g5E /curve hopping_links // /combine hopping_links // /combine -addrA; congr (_ + _).
rewrite !mulrDr; congr (_ + (_ + _)); first by rewrite [sgn C a * (e * _)]mulrCA [- k * (e * _)]mulrCA.
by do 2 rewrite [sgn C a * (e * _)]mulrCA [- k * (e * _)]mulrCA.
Qed.
Local Notation N := #|[finType of L * 'I_4 * 'I_n]|.
Lemma opmx_curve V W Z e : e \is Num.real ->
  opmx (Q (curve V W Z e)) = opmx (Q V) + e *: (opmx (change W) + e *: opmx (change Z)).
Proof. by move=> eR; apply/matrixP => i j; rewrite !mxE Q_curve. Qed.
Lemma vec_shifted U b v : vec (shifted U b v) = (opmx (Q U) *m opmx (Q U) + b%:M) *m vec v.
Proof.
rewrite mulmxDl mul_scalar_mx -mulmxA -!vec_op; try exact: Q_lin.
by apply/matrixP => i j; rewrite !mxE.
Qed.
Lemma unit_inj (A : 'M[C]_N) : (forall u : 'cV[C]_N, A *m u = 0 -> u = 0) -> A \in unitmx.
Proof.
move=> h; rewrite -row_full_unit -cokermx_eq0; apply/eqP/matrixP => i j; rewrite [RHS]mxE.
have : A *m col j (cokermx A) = 0 by rewrite colE mulmxA mulmx_coker mul0mx.
by move/h/matrixP/(_ i ord0); rewrite !mxE.
Qed.
Lemma regular_unit U b : regular U b -> opmx (Q U) *m opmx (Q U) + b%:M \in unitmx.
Proof.
move=> reg; apply: unit_inj => u; rewrite -{1}(unvecK u) -vec_shifted => z.
have : feq (unvec u) (fun _ _ _ => 0).
  by apply: reg => x a c; rewrite -vecE z mxE.
by move/vec_ext; rewrite unvecK => ->; apply/matrixP => i j; rewrite !mxE.
Qed.
Lemma quadD (u w w' : 'cV[C]_N) : quad u (w + w') = quad u w + quad u w'.
Proof. by rewrite /quad mulmxDr mxE. Qed.
Lemma one_term V M Z b phi X :
  (forall x mu, unitary (V x mu)) -> (forall x mu, anti_hermitian (M x mu)) -> b \is Num.real ->
  regular V b -> feq (shifted V b X) phi ->
  exists r K : C, [/\ 0 < r, 0 <= K & forall e, e \is Num.real -> `|e| <= r ->
    let V' := curve V (fun x mu => M x mu *m V x mu) Z e in
    (exists X', feq (shifted V' b X') phi) /\
    forall X', feq (shifted V' b X') phi ->
      `|inner phi X' - inner phi X
        + e * \sum_x \sum_(mu < 4) \tr (wilson_derivative k V X (Q V X) x mu *m M x mu *m V x mu)| <= `|e| ^+ 2 * K].
Proof.
move=> uV aM bR reg sX.
set W := fun x mu => M x mu *m V x mu.
pose q := opmx (Q V); pose d := opmx (change W); pose z := opmx (change Z).
pose A := q *m q + b%:M; pose B := d *m q + q *m d.
pose R0 := d *m d + (q *m z + z *m q); pose R1 := d *m z + z *m d; pose R2 := z *m z.
pose R (e : C) := R0 + e *: (R1 + e *: R2).
have qH : htrans q = q by apply: opmx_herm; [exact: Q_lin | exact: Q_herm].
have AH : htrans A = A by rewrite /A htransD htransM qH htrans_scalar (CrealP bR).
have AU : A \in unitmx by exact: regular_unit.
have AX : A *m vec X = vec phi by rewrite -vec_shifted; exact: vec_ext.
have Rb e : `|e| <= 1 -> nrm (R e) <= nrm R0 + (nrm R1 + nrm R2).
  have st (F G : 'M[C]_N) : `|e| <= 1 -> nrm (F + e *: G) <= nrm F + nrm G.
    by move=> le; apply: (le_trans (nrmD _ _)); rewrite ler_add2l nrmZ ler_pimull ?nrm_ge0.
  by move=> le; apply: (le_trans (st _ _ le)); rewrite ler_add2l; exact: st.
have [r [K [r0 K0 H]]] := perturb B AH AU Rb AX.
exists r, K; split=> // e eR le V'.
have EM : opmx (Q V') *m opmx (Q V') + b%:M = moved A B R e.
  rewrite /V' opmx_curve // -/q -/d -/z /moved /A -addrA [b%:M + _]addrC addrA; congr (_ + _).
  rewrite mulmxDl !mulmxDr -addrA; congr (_ + _).
  rewrite -!(scalemxAl, scalemxAr) -!scalerDr; congr (_ *: _).
  rewrite /B /R /R0 /R1 /R2 !(mulmxDl, mulmxDr) -!(scalemxAl, scalemxAr) !(scalerDr, scalerA).
  rewrite -[e * e * e]mulrA.
  have st (p1 p2 p3 p4 p5 p6 p7 p8 : 'M[C]_N) :
    p1 + p2 + (p3 + p4 + (p5 + p6 + (p7 + p8))) = p3 + p1 + (p5 + (p2 + p4) + (p6 + p7 + p8)).
    by rewrite [LHS]addrA [p1 + p2 + (p3 + p4)]addrACA [p3 + p1]addrC [p5 + (p2 + p4)]addrC -!addrA.
  exact: st.
have [mU HX] := H e le.
split.
  exists (unvec (invmx (moved A B R e) *m vec phi)); apply: vec_inj.
  by rewrite vec_shifted EM unvecK mulmxA mulmxV // mul1mx.
move=> X' sX'; have sX2 : moved A B R e *m vec X' = vec phi by rewrite -EM -vec_shifted; exact: vec_ext.
have := HX _ sX2; rewrite !innerE trace_derivative // -/W.
have cE v w : - k * inner v (g5 (hopping W w)) = inner v (change W w).
  rewrite /inner mulr_sumr; apply: eq_bigr => x _; rewrite mulr_sumr; apply: eq_bigr => a _; rewrite mulr_sumr.
  by apply: eq_bigr => c _; rewrite /change mulrCA.
rewrite !cE -Q_herm !innerE (vec_op _ (Q_lin V)) !(vec_op _ (change_lin W)) (vec_op _ (Q_lin V)) -/q -/d !mulmxA -quadD -mulmxDl.
by [].
Qed.
End Move.

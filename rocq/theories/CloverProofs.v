(** The clover term of the code is the textbook one. *)
From Coq Require Import ZArith Field.
From mathcomp Require Import all_ssreflect all_algebra.
From Verif Require Import GaugeModel GaugeSpec GaugeProofs GaugeProofs2 GaugeProofs3 AdjProofs3 ExpModel SmearProofs GammaModel DiracModel DiracSpec.
From Verif Require Import DiracProofs DiracProofs2 DiracProofs3 CloverModel CloverSpec.
Import GRing.Theory Num.Theory.
Set Implicit Arguments.
Unset Strict Implicit.
Unset Printing Implicit Defensive.
Local Open Scope ring_scope.

Section Proofs.
Variable C : numClosedFieldType.
Add Ring Cring_clover : (Crth C).
Add Field Cfield_clover : (Cfth C).
Variable n : nat.
Variable L : lattice.
Notation field := (L -> 'I_4 -> 'I_n -> C) (only parsing).
Implicit Types (U : L -> 'I_4 -> 'M[C]_n) (F : L -> 'I_6 -> 'M[C]_n) (v w : field) (x : L).
Ltac cringi := cring_fold C; ring [(cii C)].

Lemma mulIE (a : C) : multiply_by_I a = 'i * a.
Proof. rewrite /multiply_by_I /mkc -[X in _ = 'i * X](rect a); move: ('Re a) ('Im a) => p q; cringi. Qed.

(** The textbook field strength is the array of the code. *)
Lemma leavesE U x mu nu : leaves U x mu nu = clover_leaves U x mu nu. Proof. by []. Qed.
Lemma strength_flow U x mu nu : field_strength U x mu nu = flow_field U x mu nu.
Proof.
rewrite /field_strength /flow_field /four_leaves !big_cons big_nil addr0 daggerE div1r.
have -> : transport U x [:: fwd mu; fwd nu; bwd mu; bwd nu] + (transport U x [:: fwd nu; bwd mu; bwd nu; fwd mu]
  + (transport U x [:: bwd mu; bwd nu; fwd mu; fwd nu] + transport U x [:: bwd nu; fwd mu; fwd nu; bwd mu]))
  = clover_leaves U x mu nu; last by [].
rewrite clover_transport /leaf1 /leaf2 /leaf3 /leaf4.
move: (transport _ _ _) (transport _ _ _) (transport _ _ _) (transport _ _ _) => a b c d.
by rewrite addrA addrC -!addrA; congr (_ + (_ + _)); rewrite addrC.
Qed.
Lemma updateE U x i : update_field_strength U x i = flow_field U x (plane i).1 (plane i).2.
Proof. by []. Qed.

(** A matrix of the field strength acting on one spinor component. *)
Definition act F v x (i : 'I_6) (b : 'I_4) (c : 'I_n) : C := mulv (F x i) (v x b) c.
Lemma sumI (A B : 'M[C]_n) (f : 'I_n -> C) c (s t : C) :
  \sum_j multiply_by_I ((s * A c j + t * B c j) * f j) = 'i * (s * mulv A f c + t * mulv B f c).
Proof.
rewrite /mulv !mulr_sumr -big_split mulr_sumr; apply: eq_bigr => j _ /=; rewrite mulIE; cring_fold C; ring.
Qed.
Lemma sumO (A B D E : 'M[C]_n) (f : 'I_n -> C) c (s t r : C) :
  \sum_j (s * A c j + t * B c j + 'i * (D c j + r * E c j)) * f j
  = s * mulv A f c + t * mulv B f c + 'i * (mulv D f c + r * mulv E f c).
Proof.
rewrite /mulv !mulr_sumr -!big_split !mulr_sumr -big_split; apply: eq_bigr => j _ /=; cring_fold C; ring.
Qed.
Lemma cloverE F v x a c : clover F v x a c =
  match nat_of_ord a with
  | 0 => ('i * (- act F v x i0 d0 c + act F v x i5 d0 c)
          + (act F v x i1 d1 c + act F v x i4 d1 c + 'i * (act F v x i2 d1 c - act F v x i3 d1 c)))%R
  | 1 => ('i * (act F v x i0 d1 c - act F v x i5 d1 c)
          + (- act F v x i1 d0 c - act F v x i4 d0 c + 'i * (act F v x i2 d0 c - act F v x i3 d0 c)))%R
  | 2 => ('i * (act F v x i0 d2 c + act F v x i5 d2 c)
          + (- act F v x i1 d3 c + act F v x i4 d3 c + 'i * (act F v x i2 d3 c + act F v x i3 d3 c)))%R
  | _ => ('i * (- act F v x i0 d3 c - act F v x i5 d3 c)
          + (act F v x i1 d2 c - act F v x i4 d2 c + 'i * (act F v x i2 d2 c + act F v x i3 d2 c)))%R
  end%N.
Proof.
rewrite /clover /act; move: a; apply: ord4P => /=; congr (_ + _).
- rewrite -[- mulv _ _ _]mulN1r -[X in _ + X]mul1r -sumI.
  by apply: eq_bigr => j _; rewrite mulN1r mul1r.
- rewrite -[mulv (F x i1) _ _]mul1r -[X in _ + X + _]mul1r -[X in _ * (_ + X)]mulN1r -sumO.
  by apply: eq_bigr => j _; rewrite mulIE !mul1r mulN1r.
- rewrite -[mulv (F x i0) _ _]mul1r -[X in _ + X]mulN1r -sumI.
  by apply: eq_bigr => j _; rewrite mulN1r mul1r.
- rewrite -[- mulv (F x i1) _ _]mulN1r -[X in _ + X + _]mulN1r -[X in _ * (_ + X)]mulN1r -sumO.
  by apply: eq_bigr => j _; rewrite mulIE !mulN1r.
- rewrite -[mulv (F x i0) _ _]mul1r -[X in _ + X]mul1r -sumI.
  by apply: eq_bigr => j _; rewrite !mul1r.
- rewrite -[- mulv (F x i1) _ _]mulN1r -[X in _ + X + _]mul1r -[X in _ * (_ + X)]mul1r -sumO.
  by apply: eq_bigr => j _; rewrite mulIE mulN1r !mul1r.
- rewrite -[- mulv (F x i0) _ _]mulN1r -[X in _ + X]mulN1r -sumI.
  by apply: eq_bigr => j _; rewrite !mulN1r.
- rewrite -[mulv (F x i1) _ _]mul1r -[X in _ + X + _]mulN1r -[X in _ * (_ + X)]mul1r -sumO.
  by apply: eq_bigr => j _; rewrite mulIE mulN1r !mul1r.
Qed.
Lemma clover_adjointE F v x a c : clover_adjoint F v x a c = clover F v x a c.
Proof. by rewrite /clover_adjoint /clover /mkc; case: a => [[|[|[|[|m]]]] h] //=; congr (_ + _); apply: eq_bigr => j _; rewrite mulIE. Qed.
Lemma the_cloverE adj F v x a c : the_clover adj F v x a c = clover F v x a c.
Proof. by case: adj => //; exact: clover_adjointE. Qed.

(** Sigma on four components. *)
Lemma gact_sum mu nu a (f : 'I_4 -> C) : \sum_(b < 4) (gamma C mu *m gamma C nu) a b * f b = gact mu a (fun b => gact nu b f).
Proof.
rewrite -gammaE; under eq_bigr => b _ do rewrite mxE mulr_suml.
rewrite exchange_big; apply: eq_bigr => c _; rewrite -gammaE mulr_sumr; apply: eq_bigr => b _; exact/esym/mulrA.
Qed.
Lemma sigmaE mu nu a (f : 'I_4 -> C) : \sum_(b < 4) sigma C mu nu a b * f b
  = ('i / 2%:R) * (gact mu a (fun b => gact nu b f) - gact nu a (fun b => gact mu b f)).
Proof.
rewrite -!gact_sum -sumrB mulr_sumr; apply: eq_bigr => b _.
have -> : sigma C mu nu a b = ('i / 2%:R) * ((gamma C mu *m gamma C nu) a b - (gamma C nu *m gamma C mu) a b).
  by rewrite /sigma mxE; congr (_ * _); rewrite [LHS]mxE; congr (_ + _); rewrite mxE.
by rewrite -mulrA -mulrBl.
Qed.
Lemma mulvN (A : 'M[C]_n) f c : mulv (- A) f c = - mulv A f c.
Proof. by rewrite /mulv -sumrN; apply: eq_bigr => b _; rewrite mxE mulNr. Qed.
Lemma clover_termE U v x a c : clover_term U v x a c = sgn C a * clover (update_field_strength U) v x a c.
Proof.
rewrite cloverE /clover_term /act !updateE /=.
pose g mu nu b := mulv (flow_field U x mu nu) (v x b) c.
have gN mu nu b : g nu mu b = - g mu nu b by rewrite /g field_sym mulvN.
under eq_bigr => mu _ do under eq_bigr => nu _ do (rewrite (eq_bigr (fun b => sigma C mu nu a b * g mu nu b)); last
  (by move=> b _; rewrite strength_flow); rewrite sigmaE).
rewrite -!/(g _ _ _) !sum4E.
have e10 := gN d0 d1; have e20 := gN d0 d2; have e30 := gN d0 d3; have e21 := gN d1 d2; have e31 := gN d1 d3; have e32 := gN d2 d3.
have h2 : 1 + 1 != 0 :> C by rewrite -nat2 pnatr_eq0.
move: gN (cii C) => _ ci; rewrite !nat2 /sgn /gact; move: a; apply: ord4P => /=; rewrite !(e10, e20, e30, e21, e31, e32) !subrr;
  move: (g) => f; cfield_fold C; field [ci]; exact/eqP.
Qed.
End Proofs.

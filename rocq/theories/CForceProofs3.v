(** The derivative of the clover operator in the direction of a change of the links, and the eight terms of the force. *)
From Coq Require Import List Field.
From mathcomp Require Import all_ssreflect all_algebra.
From Verif Require Import GaugeModel GaugeSpec GaugeProofs GaugeProofs2 GammaModel DiracModel DiracSpec DiracProofs DiracProofs2 AdjProofs3.
From Verif Require Import CloverModel CloverSpec CloverProofs CloverProofs2 FForceModel FForceSpec FForceProofs PertProofs VecProofs FForceProofs2.
From Verif Require GammaSpec GammaProofs.
From Verif Require Import ExpModel CForceModel CForceSpec CForceProofs.
Import Order.POrderTheory GRing.Theory Num.Theory.
Set Implicit Arguments.
Unset Strict Implicit.
Unset Printing Implicit Defensive.
Local Open Scope ring_scope.

Section Operator.
Variable C : numClosedFieldType.
Add Ring Cring_cforce : (Crth C).
Variable n : nat.
Variable L : lattice.
Notation field := (L -> 'I_4 -> 'I_n -> C) (only parsing).
Notation links := (L -> 'I_4 -> 'M[C]_n) (only parsing).
Notation tensors := (L -> 'I_4 -> 'I_4 -> 'M[C]_n) (only parsing).
Implicit Types (V W Z : links) (F : tensors) (v w X Y : field) (x : L) (mu nu : 'I_4).

(** The clover term of any field strength. *)
Definition clover_op F v : field := fun x a c =>
  ('i / 2%:R) * \sum_(mu < 4) \sum_(nu < 4) \sum_(b < 4) sigma C mu nu a b * \sum_e F x mu nu c e * v x b e.
Lemma clover_op_ext F v w : feq v w -> feq (clover_op F v) (clover_op F w).
Proof.
move=> E x a c; congr (_ * _); do 3 (apply: eq_bigr => ? _); congr (_ * _).
by apply: eq_bigr => e _; rewrite E.
Qed.
Lemma clover_op_linear F alpha v w : feq (clover_op F (combine alpha v w)) (combine alpha (clover_op F v) (clover_op F w)).
Proof.
move=> x a c; rewrite /combine mulrCA -mulrDr; congr (_ * _).
do 3 (rewrite mulr_sumr -big_split; apply: eq_bigr => ? _ /=).
rewrite [alpha * _]mulrCA -mulrDr; congr (_ * _); rewrite mulr_sumr -big_split; apply: eq_bigr => e _ /=.
by rewrite mulrDr mulrCA.
Qed.
Variables k csw : C.
Definition strength_change V W x mu nu : 'M[C]_n := 8%:R^-1 *: (leaves_change V W x mu nu - htrans (leaves_change V W x mu nu)).
(** The derivative of gamma5 times the clover operator. *)
Definition clover_slope V W v : field := fun x a c =>
  change k W v x a c + k * csw * (sgn C a * clover_op (strength_change V W) v x a c).
Lemma hermitian_cloverE V v x a c : hermitian_clover k csw V v x a c
  = hermitian_dirac k V v x a c + k * csw * (sgn C a * clover_op (field_strength V) v x a c).
Proof. by rewrite /hermitian_clover /hermitian_dirac !g5E /clover_dirac mulrDr [sgn C a * (k * csw * _)]mulrCA. Qed.
Lemma clover_lin F v w : feq v w -> forall x a c, k * csw * (sgn C a * clover_op F v x a c) = k * csw * (sgn C a * clover_op F w x a c).
Proof. by move=> E x a c; rewrite (clover_op_ext F E). Qed.
Lemma hermitian_clover_lin V : linear_op (hermitian_clover k csw V).
Proof.
have [e l] := Q_lin (n := n) k V; split=> [v w E|alpha v w] x a c; rewrite !hermitian_cloverE.
  by rewrite (e _ _ E) (clover_lin _ E).
rewrite l clover_op_linear /combine !hermitian_cloverE.
move: (hermitian_dirac _ _ _ _ _ _) (clover_op _ _ _ _ _) (hermitian_dirac _ _ _ _ _ _) (clover_op _ _ _ _ _) (sgn C a) => p q s t g.
by cring_fold C; ring.
Qed.
Lemma clover_slope_lin V W : linear_op (clover_slope V W).
Proof.
have [e l] := change_lin (n := n) k W; split=> [v w E|alpha v w] x a c; rewrite /clover_slope.
  by rewrite (e _ _ E) (clover_lin _ E).
rewrite l clover_op_linear /combine.
move: (change _ _ _ _ _ _) (clover_op _ _ _ _ _) (change _ _ _ _ _ _) (clover_op _ _ _ _ _) (sgn C a) => p q s t g.
by cring_fold C; ring.
Qed.
Lemma strength_exp V W Z x mu nu :
  mexp (fun e => field_strength (curve V W Z e) x mu nu) (field_strength V x mu nu) (strength_change V W x mu nu).
Proof.
have h := leaves_exp V W Z x mu nu.
apply: mexp_ext (mexp_scale 8%:R^-1 (mexp_add h (mexp_opp (mexp_htrans h)))) _ _ _ => [e _||//];
  by rewrite strength_flow /flow_field -leavesE div1r.
Qed.
Lemma clover_exp V W Z v x a c : sexp (fun e => hermitian_clover k csw (curve V W Z e) v x a c)
  (hermitian_clover k csw V v x a c) (clover_slope V W v x a c).
Proof.
apply: sexp_ext (sexp_add (sexp_curve (hermitian_dirac k V v x a c) (change k W v x a c) (change k Z v x a c))
  (sexp_scale (k * csw) (sexp_scale (sgn C a) (sexp_scale ('i / 2%:R)
  (sexp_sum (index_enum _) (fun mu => sexp_sum (index_enum _) (fun nu => sexp_sum (index_enum _) (fun b =>
    sexp_scale (sigma C mu nu a b) (sexp_sum (index_enum _) (fun t =>
      sexp_mul (strength_exp V W Z x mu nu c t) (sexp_const (v x b t)))))))))))) _ _ _.
- by move=> e eR; rewrite hermitian_cloverE Q_curve.
- by rewrite hermitian_cloverE.
rewrite /clover_slope /clover_op; congr (_ + _ * (_ * (_ * _))); do 3 (apply: eq_bigr => ? _).
by congr (_ * _); apply: eq_bigr => t _; rewrite mulr0 add0r.
Qed.
Lemma opmx_exp V W Z : mexp (fun e => opmx (hermitian_clover k csw (curve V W Z e)))
  (opmx (hermitian_clover k csw V)) (opmx (clover_slope V W)).
Proof. by move=> i j; apply: sexp_ext (clover_exp V W Z _ _ _ _) _ _ _ => [e _||]; rewrite !mxE. Qed.
End Operator.

Section Slope.
Variable C : numClosedFieldType.
Add Ring Cring_slope : (Crth C).
Add Field Cfield_slope : (Cfth C).
Variable n : nat.
Variable L : lattice.
Notation field := (L -> 'I_4 -> 'I_n -> C) (only parsing).
Notation links := (L -> 'I_4 -> 'M[C]_n) (only parsing).
Implicit Types (V W Z : links) (v w X Y : field) (x : L) (mu nu : 'I_4).
Definition g5s (mu nu a b : 'I_4) : C := gc C (at4 gamma5_sigma mu nu a b).
Lemma g5s_sum mu nu a (f : 'I_4 -> C) : \sum_(b < 4) g5s mu nu a b * f b = sgn C a * \sum_(b < 4) sigma C mu nu a b * f b.
Proof.
rewrite sigmaE sum4E /g5s; have h2 : 1 + 1 != 0 :> C by rewrite -nat2 pnatr_eq0.
rewrite nat2; move: (cii C) => ci.
move: mu; apply: ord4P; move: nu; apply: ord4P; move: a; apply: ord4P;
  rewrite /at4 /at3 /at2 /sgn /gact /= !gcE; move: (f d0) (f d1) (f d2) (f d3) => p q r s; cfield_fold C; field [ci]; exact/eqP.
Qed.
(** The tables are Hermitian and antisymmetric. *)
Lemma zcN z : zc C (BinInt.Z.opp z) = - zc C z.
Proof. by case: z => [|p|p] /=; rewrite ?oppr0 ?opprK. Qed.
Lemma zc_real z : zc C z \is Num.real.
Proof. by case: z => [|p|p] /=; rewrite ?rpredN ?realn ?real0. Qed.
Lemma table_dagger (mu nu : nat) : (mu < 4)%N -> (nu < 4)%N -> GammaSpec.meq (at4 gamma5_sigma mu nu) (GammaSpec.mdag (at4 gamma5_sigma mu nu)).
Proof. by move=> /ltP h /ltP h'; move: mu nu h h'; refine (@GammaProofs.mat2 (at4 gamma5_sigma) (fun m k => GammaSpec.mdag (at4 gamma5_sigma m k)) _); vm_compute. Qed.
Lemma table_swap (mu nu : nat) : (mu < 4)%N -> (nu < 4)%N ->
  GammaSpec.meq (at4 gamma5_sigma mu nu) (fun a b => gopp (at4 gamma5_sigma nu mu a b)).
Proof. by move=> /ltP h /ltP h'; move: mu nu h h'; refine (@GammaProofs.mat2 (at4 gamma5_sigma) (fun m k a b => gopp (at4 gamma5_sigma k m a b)) _); vm_compute. Qed.
Lemma g5s_conj mu nu a b : (g5s mu nu a b)^* = g5s mu nu b a.
Proof.
rewrite /g5s (table_dagger (ltn_ord mu) (ltn_ord nu) (elimT ltP (ltn_ord b)) (elimT ltP (ltn_ord a))) /GammaSpec.mdag /gc /=.
case: (at4 _ _ _ _ _) => p q /=; rewrite zcN mulrN rmorphD rmorphM conjCi mulNr.
by rewrite (CrealP (zc_real p)) (CrealP (zc_real q)).
Qed.
Lemma g5s_swap mu nu a b : g5s nu mu a b = - g5s mu nu a b.
Proof.
rewrite /g5s (table_swap (ltn_ord nu) (ltn_ord mu) (elimT ltP (ltn_ord a)) (elimT ltP (ltn_ord b))).
by case: (at4 _ _ _ _ _) => p q; rewrite /gc /= !zcN mulrN -opprD.
Qed.
(** Two spinors at one site with gamma5 sigma and a matrix between them. *)
Definition bl X Y mu nu x (A : 'M[C]_n) : C :=
  \sum_(a < 4) vdot (X x a) (mulv A (fun e => \sum_(b < 4) g5s mu nu a b * Y x b e)).
Lemma blE X Y mu nu x A : bl X Y mu nu x A = \sum_(a < 4) \sum_(b < 4) g5s mu nu a b * \sum_c \sum_e (X x a c)^* * A c e * Y x b e.
Proof.
apply: eq_bigr => a _; rewrite /vdot /mulv.
under eq_bigr => c _ do under eq_bigr => e _ do rewrite mulr_sumr.
under [RHS]eq_bigr => b _ do rewrite mulr_sumr.
rewrite [RHS]exchange_big /=; apply: eq_bigr => c _; rewrite mulr_sumr.
under [RHS]eq_bigr => b _ do rewrite mulr_sumr.
rewrite [RHS]exchange_big /=; apply: eq_bigr => e _; rewrite mulr_sumr; apply: eq_bigr => b _.
by move: (X x a c)^* (A c e) (g5s mu nu a b) (Y x b e) => p q r s; cring_fold C; ring.
Qed.
Lemma blD X Y mu nu x A B : bl X Y mu nu x (A + B) = bl X Y mu nu x A + bl X Y mu nu x B.
Proof.
rewrite !blE; do 2 (rewrite -big_split; apply: eq_bigr => ? _ /=); rewrite -mulrDr; congr (_ * _).
by do 2 (rewrite -big_split; apply: eq_bigr => ? _ /=); rewrite mxE mulrDr mulrDl.
Qed.
Lemma blZ X Y mu nu x k A : bl X Y mu nu x (k *: A) = k * bl X Y mu nu x A.
Proof.
rewrite !blE; do 2 (rewrite mulr_sumr; apply: eq_bigr => ? _ /=); rewrite mulrCA; congr (_ * _).
by do 2 (rewrite mulr_sumr; apply: eq_bigr => ? _ /=); rewrite mxE !mulrA; congr (_ * _ * _); rewrite mulrC.
Qed.
Lemma blN X Y mu nu x A : bl X Y mu nu x (- A) = - bl X Y mu nu x A.
Proof. by rewrite -scaleN1r blZ mulN1r. Qed.
Lemma bl_swap X Y mu nu x A : bl X Y nu mu x A = - bl X Y mu nu x A.
Proof. by rewrite !blE -sumrN; apply: eq_bigr => a _; rewrite -sumrN; apply: eq_bigr => b _; rewrite g5s_swap mulNr. Qed.
Lemma bl_diag X Y mu x A : bl X Y mu mu x A = 0.
Proof.
have h := bl_swap X Y mu mu x A; apply/eqP; rewrite -[_ == 0](mulrn_eq0 _ 2) mulr2n {1}h addNr //.
Qed.
Lemma bl_conj X Y mu nu x A : (bl X Y mu nu x A)^* = bl Y X mu nu x (htrans A).
Proof.
rewrite !blE rmorph_sum.
under eq_bigr => a _ do rewrite rmorph_sum.
rewrite exchange_big /=; apply: eq_bigr => a _; apply: eq_bigr => b _; rewrite rmorphM g5s_conj; congr (_ * _).
rewrite rmorph_sum; under eq_bigr => c _ do rewrite rmorph_sum.
rewrite exchange_big /=; apply: eq_bigr => c _; apply: eq_bigr => e _.
by rewrite !rmorphM conjCK !mxE; move: (X x b e) (A e c)^* (Y x a c)^* => p q r; cring_fold C; ring.
Qed.
Lemma inner_clover_op F X Y : inner X (fun x a c => sgn C a * clover_op F Y x a c)
  = ('i / 2%:R) * \sum_x \sum_(mu < 4) \sum_(nu < 4) bl X Y mu nu x (F x mu nu).
Proof.
rewrite /inner mulr_sumr; apply: eq_bigr => x _.
have E a c : sgn C a * clover_op F Y x a c = ('i / 2%:R) * \sum_(mu < 4) \sum_(nu < 4)
    mulv (F x mu nu) (fun e => \sum_(b < 4) g5s mu nu a b * Y x b e) c.
  rewrite /clover_op mulrCA; congr (_ * _); rewrite mulr_sumr; apply: eq_bigr => mu _; rewrite mulr_sumr.
  apply: eq_bigr => nu _; rewrite -g5s_sum /mulv.
  under [RHS]eq_bigr => e _ do rewrite mulr_sumr.
  rewrite [RHS]exchange_big /=; apply: eq_bigr => b _; rewrite mulr_sumr; apply: eq_bigr => e _; exact: mulrCA.
under eq_bigr => a _ do under eq_bigr => c _ do rewrite E mulrCA.
under eq_bigr => a _ do rewrite -mulr_sumr.
rewrite -mulr_sumr; congr (_ * _); rewrite /bl /vdot.
under eq_bigr => a _ do under eq_bigr => c _ do rewrite mulr_sumr.
under eq_bigr => a _ do rewrite exchange_big /=.
rewrite exchange_big /=; apply: eq_bigr => mu _.
under eq_bigr => a _ do under eq_bigr => c _ do rewrite mulr_sumr.
under eq_bigr => a _ do rewrite exchange_big /=.
by rewrite exchange_big.
Qed.
(** The change of the clover term between two fields, with the change of the links in the first direction only. *)
Definition first_sum V W X Y : C := \sum_x \sum_(mu < 4) \sum_(nu < 4) bl X Y mu nu x (leaves_first V W x mu nu).
Lemma plane_sum (f : L -> 'I_4 -> 'I_4 -> C) :
  \sum_x \sum_(mu < 4) \sum_(nu < 4) f x nu mu = \sum_x \sum_(mu < 4) \sum_(nu < 4) f x mu nu.
Proof. by apply: eq_bigr => x _; rewrite exchange_big. Qed.
Lemma change_sum V W X Y : \sum_x \sum_(mu < 4) \sum_(nu < 4) bl X Y mu nu x (strength_change V W x mu nu)
  = 4%:R^-1 * (first_sum V W X Y - (first_sum V W Y X)^*).
Proof.
have E x mu nu : bl X Y mu nu x (strength_change V W x mu nu) = 8%:R^-1 *
   (bl X Y mu nu x (leaves_first V W x mu nu) + bl X Y nu mu x (leaves_first V W x nu mu)
    - ((bl Y X mu nu x (leaves_first V W x mu nu))^* + (bl Y X nu mu x (leaves_first V W x nu mu))^*)).
  rewrite /strength_change blZ /leaves_change /leaves_second htransD htransK; move: (leaves_first _ _ _ _ _) (leaves_first _ _ _ _ _) => S T.
  rewrite !bl_conj !(bl_swap _ _ mu nu) blD blN !blD.
  move: (bl _ _ _ _ _ _) (bl _ _ _ _ _ _) (bl _ _ _ _ _ _) (bl _ _ _ _ _ _) => a b c d.
  congr (_ * _); cring_fold C; ring.
under eq_bigr => x _ do under eq_bigr => mu _ do under eq_bigr => nu _ do rewrite E.
under eq_bigr => x _ do under eq_bigr => mu _ do rewrite -mulr_sumr.
under eq_bigr => x _ do rewrite -mulr_sumr.
rewrite -mulr_sumr.
under eq_bigr => x _ do under eq_bigr => mu _ do rewrite sumrB !big_split /=.
under eq_bigr => x _ do rewrite sumrB !big_split /=.
rewrite sumrB !big_split /= !(plane_sum (fun x mu nu => bl X Y mu nu x (leaves_first V W x mu nu))).
rewrite !(plane_sum (fun x mu nu => (bl Y X mu nu x (leaves_first V W x mu nu))^*)).
have -> : \sum_x \sum_(mu < 4) \sum_(nu < 4) (bl Y X mu nu x (leaves_first V W x mu nu))^* = (first_sum V W Y X)^*.
  rewrite /first_sum rmorph_sum; apply: eq_bigr => x _; rewrite rmorph_sum; apply: eq_bigr => mu _; by rewrite rmorph_sum.
rewrite -/(first_sum V W X Y) -!mulr2n -mulrnBl -[_ *+ 2]mulr_natl mulrA; congr (_ * _).
by rewrite -[8%N]/(4 * 2)%N natrM invfM -mulrA mulVf ?mulr1 // pnatr_eq0.
Qed.
Lemma slope_clover V W X Y :
  inner X (fun x a c => sgn C a * clover_op (strength_change V W) Y x a c)
  + inner Y (fun x a c => sgn C a * clover_op (strength_change V W) X x a c)
  = 'Re ('i / 4%:R * (first_sum V W X Y + first_sum V W Y X)).
Proof.
rewrite !inner_clover_op !change_sum ReE !(rmorphM, rmorphD) /= fmorphV conjCi !rmorph_nat.
move: (first_sum V W X Y) (first_sum V W Y X) => p q; move: (p^*) (q^*) => p' q'.
have -> : 4%:R = 2%:R * 2%:R :> C by rewrite -natrM.
rewrite !invfM; move: (2%:R^-1) ('i) => h i; cring_fold C; ring.
Qed.
End Slope.

(** Proofs about the solvers and the functions of operators. *)
From Coq Require Import List.
From Verif Require Import Base.
From mathcomp Require Import all_ssreflect all_algebra.
From Verif Require Import GaugeProofs SolverModel SolverSpec.
Import GRing.Theory Num.Theory.
Set Implicit Arguments.
Unset Strict Implicit.
Unset Printing Implicit Defensive.
Local Open Scope ring_scope.

Section Proofs.
Variable C : numClosedFieldType.
Add Ring CringS : (Crth C).
Variable m : nat.
Notation V := 'cV[C]_m.
Notation E := (exact C m).
Implicit Types (q r : {poly C}) (A P : V -> V) (u v w x b : V).

Lemma lopD A : linear_op A -> forall u v, A (u + v) = A u + A v.
Proof. by move=> H u v; rewrite -[u in LHS]scale1r H scale1r. Qed.
Lemma lopZ A : linear_op A -> forall a v, A (a *: v) = a *: A v.
Proof.
move=> H a v; have H0 : A 0 = 0.
  by have := H 0 0 0; rewrite !scale0r !add0r => E; move: (lopD H 0 0); rewrite addr0 => /eqP; rewrite -subr_eq0 opprD addrA subrr add0r oppr_eq0 => /eqP.
by rewrite -[a *: v]addr0 H H0 addr0.
Qed.
Lemma lop0 A : linear_op A -> A 0 = 0.
Proof. by move=> H; rewrite -[in LHS](scale0r (0 : V)) (lopZ H) scale0r. Qed.
Lemma lopN A : linear_op A -> forall v, A (- v) = - A v.
Proof. by move=> H v; rewrite -scaleN1r (lopZ H) scaleN1r. Qed.
Lemma lopB A : linear_op A -> forall u v, A (u - v) = A u - A v.
Proof. by move=> H u v; rewrite (lopD H) (lopN H). Qed.

Lemma residualE A b x : residual_norm A b x = scalar_product (b - A x) (b - A x).
Proof. by apply: eq_bigr => i _; rewrite !mxE normCK mulrC. Qed.

(** Conjugate gradient. *)
Lemma cg_loop_sound n A eps x (r : V) p norm b y : linear_op A -> r = b - A x ->
  cg_loop E n A eps x r p norm = Converged y -> residual_norm A b y < eps.
Proof.
move=> HA; elim: n x r p norm => [|n IH] x r p norm //= Hr.
case: ifP => // _; set alpha := norm / _.
have Hr' : r - alpha *: A p = b - A (x + alpha *: p).
  by rewrite (lopD HA) (lopZ HA) Hr opprD addrA.
case: ifP => [Hn [<-]|Hn]; first by rewrite residualE -Hr'.
case: ifP => // _; exact: IH.
Qed.
Lemma cg_sound n eps A b g y : linear_op A ->
  cg_solve E n eps A b g = Converged y -> residual_norm A b y < eps.
Proof. by move=> HA; apply: cg_loop_sound. Qed.
Lemma spr0 u : scalar_product u 0 = 0.
Proof. by rewrite /scalar_product big1 // => i _; rewrite mxE mulr0. Qed.
Lemma spr0l u : scalar_product 0 u = 0.
Proof. by rewrite /scalar_product big1 // => i _; rewrite mxE rmorph0 mul0r. Qed.
Lemma cg_exact n eps A x : cg_solve E n.+1 eps A (A x) (Some x) = NotANumber.
Proof. by rewrite /cg_solve /= subrr spr0l eqxx. Qed.

(** BiCGStab without preconditioner. *)
Lemma bicg_loop_sound n step A P eps b x (r : V) rh prev y : linear_op A -> r = b - A x ->
  (forall v, P v = v) ->
  bicg_loop E n step A P eps b x r rh prev = Converged y -> residual_norm A b y < eps.
Proof.
move=> HA Hr HP; elim: n step x r prev Hr => [|n IH] step x r prev //= Hr.
case: ifP => // _; move: (match prev with None => _ | Some _ => _ end) => [p|] //.
case: ifP => // _; set al := _ / _; case: ifP => // _; rewrite !HP; set om := _ / _.
have Hr' : r - al *: A p - om *: A (r - al *: A p) = b - A (x + al *: p + om *: (r - al *: A p)).
  by rewrite (lopD HA (x + _)) (lopD HA x) !(lopZ HA) Hr !opprD !addrA.
case: ifP => [/andP[Hn _] [<-]|_]; first by rewrite residualE -Hr'.
exact: IH.
Qed.

(** Multishift. *)
Lemma shifted_linear A s : linear_op A -> linear_op (shifted A s).
Proof.
move=> H a u v; rewrite /shifted H scalerDr !scalerDr addrACA; congr (_ + _).
by rewrite !scalerA mulrC.
Qed.
Lemma shift_loop_sound n A mad eps s x (r : V) p norm b y : linear_op A -> adds A mad -> r = b - shifted A s x ->
  shift_loop E n mad eps s x r p norm = Converged y -> residual_norm (shifted A s) b y < eps.
Proof.
move=> HA Hm; have HS := shifted_linear s HA.
elim: n x r p norm => [|n IH] x r p norm //= Hr.
case: ifP => // _; set alpha := norm / _.
have Hr' : r - alpha *: mad p p s = b - shifted A s (x + alpha *: p).
  by rewrite Hm -/(shifted A s p) (lopD HS) (lopZ HS) Hr opprD addrA.
case: ifP => [Hn [<-]|Hn]; first by rewrite residualE -Hr'.
case: ifP => // _; exact: IH.
Qed.
Lemma shift_solve_sound n A mad eps s x (r : V) b : linear_op A -> adds A mad -> r = b - shifted A s x ->
  forall o, shift_solve E n.+1 mad eps s x r = (true, o) -> exists2 y, o = Some y & residual_norm (shifted A s) b y < eps.
Proof.
move=> HA Hm Hr o; rewrite /shift_solve; case Es: (shift_loop _ _ _ _ _ _ _ _ _) => [y|y|] // [<-].
by exists y => //; exact: shift_loop_sound Hr Es.
Qed.
Definition solves A eps b (s : C) (o : option V) : Prop := exists2 y, o = Some y & residual_norm (shifted A s) b y < eps.
Lemma shift_rest_sound n A mad eps b prev shifts l : linear_op A -> adds A mad ->
  shift_rest E n.+1 mad eps b prev shifts = (true, l) -> List.Forall2 (solves A eps b) shifts l.
Proof.
move=> HA Hm; elim: shifts prev l => [|s rest IH] prev l /=; first by case=> <-; constructor.
case: prev => [x|]; last by case: (shift_rest _ _ _ _ _ _ _).
case Es: (shift_solve _ _ _ _ _ _ _) => [ok y]; case Er: (shift_rest _ _ _ _ _ _ _) => [ok' l'].
case: ok Es => Es //=; case: ok' Er => Er //= [<-]; constructor.
  by apply: (shift_solve_sound HA Hm _ Es); rewrite Hm.
exact: IH Er.
Qed.
Lemma multishift_sound n A mad eps b size shifts l : linear_op A -> adds A mad ->
  multishift_solve E n.+1 mad eps b size shifts = Ok (true, l) -> List.Forall2 (solves A eps b) shifts l.
Proof.
move=> HA Hm; rewrite /multishift_solve; case: shifts => [|s rest] //; case: (Nat.ltb _ _) => //.
case Es: (shift_solve _ _ _ _ _ _ _) => [ok y]; case Er: (shift_rest _ _ _ _ _ _ _) => [ok' l'].
case: ok Es => Es //=; case: ok' Er => Er //= [<-]; constructor.
  apply: (shift_solve_sound HA Hm _ Es).
  by rewrite /shifted (lop0 HA) scaler0 addr0 subr0.
exact: shift_rest_sound HA Hm Er.
Qed.

(** Polynomials of operators. *)
Lemma poly_applyE (q : {poly C}) A v n : (size q <= n)%N -> poly_apply q A v = \sum_(i < n) q`_i *: iter i A v.
Proof.
move=> H; rewrite /poly_apply (big_ord_widen n (fun i => q`_i *: iter i A v) H) [RHS](bigID (fun i : 'I_n => (i < size q)%N)) /=.
rewrite [X in _ = _ + X]big1 ?addr0 // => i; rewrite -leqNgt => h.
by rewrite (nth_default _ h) scale0r.
Qed.
Lemma poly_applyD (q r : {poly C}) A v : poly_apply (q + r) A v = poly_apply q A v + poly_apply r A v.
Proof.
pose k := maxn (size q) (size r).
rewrite (@poly_applyE (q + r) A v k) ?size_add // (@poly_applyE q A v k) ?leq_maxl // (@poly_applyE r A v k) ?leq_maxr //.
by rewrite -big_split; apply: eq_bigr => i _; rewrite coefD scalerDl.
Qed.
Lemma poly_applyZ (k : C) q A v : poly_apply (k *: q) A v = k *: poly_apply q A v.
Proof.
rewrite (@poly_applyE _ A v (size q)) ?size_scale_leq // scaler_sumr.
by apply: eq_bigr => i _; rewrite coefZ scalerA.
Qed.
Lemma poly_applyN q A v : poly_apply (- q) A v = - poly_apply q A v.
Proof. by rewrite -scaleN1r poly_applyZ scaleN1r. Qed.
Lemma poly_applyB q r A v : poly_apply (q - r) A v = poly_apply q A v - poly_apply r A v.
Proof. by rewrite poly_applyD poly_applyN. Qed.
Lemma poly_apply1 A v : poly_apply 1 A v = v.
Proof. by rewrite /poly_apply size_poly1 big_ord1 coef1 scale1r. Qed.
Lemma poly_applyC (k : C) A v : poly_apply k%:P A v = k *: v.
Proof. by rewrite -[k%:P]mulr1 mul_polyC poly_applyZ poly_apply1. Qed.
Lemma lop_sum A (I : Type) (s : seq I) (f : I -> V) : linear_op A -> A (\sum_(i <- s) f i) = \sum_(i <- s) A (f i).
Proof.
by move=> H; elim: s => [|i s IH]; rewrite ?big_nil ?(lop0 H) // !big_cons (lopD H) IH.
Qed.
Lemma poly_applyX q A v : linear_op A -> poly_apply ('X * q) A v = A (poly_apply q A v).
Proof.
move=> H; rewrite (@poly_applyE _ A v (size q).+1); last first.
  by apply: (leq_trans (size_mul_leq _ _)); rewrite size_polyX.
rewrite big_ord_recl coefXM eqxx scale0r add0r /poly_apply (lop_sum _ _ H).
by apply: eq_bigr => i _; rewrite coefXM /= (lopZ H).
Qed.
Lemma poly_apply_eigen q A v (lam : C) : linear_op A -> A v = lam *: v -> poly_apply q A v = q.[lam] *: v.
Proof.
move=> HA Hv; rewrite /poly_apply horner_coef scaler_suml; apply: eq_bigr => i _.
rewrite -scalerA; congr (_ *: _); elim: (nat_of_ord i) => [|k IH] /=; first by rewrite scale1r.
by rewrite IH (lopZ HA) Hv scalerA exprSr.
Qed.
Lemma mad_root A mad q (z s : C) v : linear_op A -> adds A mad ->
  s *: mad (poly_apply q A v) (poly_apply q A v) (- z) = poly_apply (s%:P * (('X - z%:P) * q)) A v.
Proof.
move=> HA Hm; rewrite Hm mul_polyC poly_applyZ mulrBl poly_applyB (poly_applyX _ _ HA) mul_polyC poly_applyZ.
by rewrite scaleNr.
Qed.
(** After the loop the buffer written last holds the product over all roots. *)
Lemma poly_loopE A mad s roots to2 t1 t2 q v : linear_op A -> adds A mad ->
  (if to2 then t1 else t2) = poly_apply q A v ->
  let r := poly_loop E roots mad s to2 t1 t2 in
  (if (to2 (+) odd (size roots)) then r.1 else r.2) = poly_apply ((s ^+ size roots)%:P * \prod_(z <- roots) ('X - z%:P) * q) A v.
Proof.
move=> HA Hm; elim: roots to2 t1 t2 q => [|z rest IH] to2 t1 t2 q H /=.
  by rewrite addbF big_nil expr0 !mul1r.
have R : (s ^+ (size rest).+1)%:P * \prod_(z0 <- z :: rest) ('X - z0%:P) * q
       = (s ^+ size rest)%:P * \prod_(z0 <- rest) ('X - z0%:P) * (s%:P * (('X - z%:P) * q)).
  rewrite big_cons exprS polyCM.
  move: (s ^+ size rest)%:P s%:P ('X - z%:P) (\prod_(z0 <- rest) _) => a b c d.
  by rewrite -!mulrA (mulrCA b a); congr (_ * _); rewrite (mulrCA c d) (mulrCA b d).
case: to2 H => /= H.
  have K : s *: mad t1 t1 (- z) = poly_apply (s%:P * (('X - z%:P) * q)) A v by rewrite H mad_root.
  by rewrite R negbK; exact: (IH false t1 _ _ K).
have K : s *: mad t2 t2 (- z) = poly_apply (s%:P * (('X - z%:P) * q)) A v by rewrite H mad_root.
by rewrite R; exact: (IH true _ t2 _ K).
Qed.
Lemma evenE n : Nat.even n = ~~ odd n.
Proof.
have [] : Nat.even n = ~~ odd n /\ Nat.even n.+1 = odd n; last by [].
elim: n => [|n [H1 H2]]; first by []; split; first by rewrite H2 /= negbK.
by rewrite -[LHS]/(Nat.even n) H1.
Qed.
Definition lead (scaling : C) (k : nat) : C := (if 'Re scaling < 0 then -1 else 1) * `|'Re scaling| ^+ k.
Lemma poly_evaluateE A mad roots scaling old2 v : linear_op A -> adds A mad -> roots <> nil ->
  poly_evaluate E roots scaling mad old2 v = Ok (poly_apply (root_poly (lead scaling (size roots)) roots) A v).
Proof.
move=> HA Hm; case: roots => [|z rest] // _; rewrite /poly_evaluate /=.
set s := `|_|; set t1 := s *: _.
have K : t1 = poly_apply (s%:P * ('X - z%:P)) A v.
  have := mad_root 1 z s v HA Hm; rewrite poly_apply1 mulr1; exact.
have := @poly_loopE A mad s rest true t1 old2 _ v HA Hm K.
rewrite /=; case: (poly_loop _ _ _ _ _ _ _) => u1 u2 /= H.
have R (e : C) : root_poly (e * s ^+ (size rest).+1) (z :: rest) = e *: ((s ^+ size rest)%:P * \prod_(z0 <- rest) ('X - z0%:P) * (s%:P * ('X - z%:P))).
  rewrite /root_poly big_cons -mul_polyC exprSr !polyCM -!mulrA; congr (_ * (_ * _)).
  by rewrite [RHS]mulrCA; congr (_ * _); rewrite mulrC.
have -> : (match length rest with 0%N => false | n'.+1 => Nat.even n' end) = odd (size rest).
  by rewrite -[LHS]/(Nat.even (length rest).+1) evenE /= negbK.
have H' : (if odd (size rest) then u2 else u1) = poly_apply ((s ^+ size rest)%:P * \prod_(z0 <- rest) ('X - z0%:P) * (s%:P * ('X - z%:P))) A v.
  by rewrite -H; case: (odd _).
by rewrite H' /lead -/s; case: ifP => _; rewrite R poly_applyZ ?scale1r // scaleN1r.
Qed.
Lemma ppoly_loopE roots mul pmad s to2 t1 t2 :
  ppoly_loop E roots mul pmad s to2 t1 t2 = poly_loop E roots (fun v w a => pmad (mul v) w a) s to2 t1 t2.
Proof. by elim: roots to2 t1 t2 => [|z rest IH] [] t1 t2 //=; rewrite IH. Qed.
Lemma lop_comp A P : linear_op A -> linear_op P -> linear_op (fun v => P (A v)).
Proof. by move=> HA HP a u v; rewrite HA HP. Qed.
Lemma ppoly_evaluateE A P pmad roots scaling v : linear_op A -> linear_op P -> adds P pmad -> roots <> nil ->
  ppoly_evaluate E roots scaling A P pmad v
  = Ok (P (poly_apply (root_poly (lead scaling (size roots)) roots) (fun w => P (A w)) v)).
Proof.
move=> HA HP Hm Hr; have HB := lop_comp HA HP.
pose mad := fun (v w : V) (a : C) => pmad (A v) w a.
have HM : adds (fun w => P (A w)) mad by move=> u w a; rewrite /mad Hm.
have := poly_evaluateE scaling (A v) v HB HM Hr.
case: roots Hr => [|z rest] // _; rewrite /poly_evaluate /ppoly_evaluate ppoly_loopE -/mad.
case: (poly_loop _ _ _ _ _ _ _) => u1 u2 [<-]; congr Ok.
by rewrite /=; case: ifP => _ //; rewrite (lopN HP).
Qed.
Lemma poly_scalarE roots scaling (x : C) : roots <> nil ->
  poly_scalar E roots scaling x = Ok (root_poly (lead scaling (size roots)) roots).[x].
Proof.
case: roots => [|z rest] // _; rewrite /poly_scalar /=; congr Ok; set s := `|_|.
have K (acc : C) : List.fold_left (fun acc0 r0 : C => s * acc0 * (x - r0)) rest acc = s ^+ size rest * (\prod_(y <- rest) (x - y)) * acc.
  elim: rest acc => [|y rest IH] acc /=; first by rewrite big_nil expr0 !mul1r.
  rewrite IH big_cons exprSr -!mulrA; congr (_ * _); rewrite mulrCA; congr (_ * _).
  by rewrite (mulrC acc) mulrCA.
have P0 (l : seq C) : (\prod_(z0 <- l) ('X - z0%:P)).[x] = \prod_(y <- l) (x - y).
  by rewrite horner_prod; apply: eq_bigr => y _; rewrite hornerXsubC.
rewrite K /lead -/s /root_poly hornerM hornerC P0 big_cons exprSr.
have -> : s ^+ size rest * \prod_(y <- rest) (x - y) * (s * (x - z)) = s ^+ size rest * s * ((x - z) * \prod_(y <- rest) (x - y)).
  by rewrite mulrACA [X in _ * X]mulrC.
by case: ifP => _; rewrite ?mul1r // !mulN1r mulNr.
Qed.

(** Chebyshev polynomials. *)
Lemma chebyshevSS k : chebyshev C k.+2 = 2%:R *: ('X * chebyshev C k.+1) - chebyshev C k.
Proof. by rewrite /chebyshev /=; case: (chebyshev2 C k) => p q. Qed.
Lemma chebyshev_value k (z : C) : z != 0 -> (chebyshev C k).[(z + z^-1) / 2%:R] = (z ^+ k + z^-1 ^+ k) / 2%:R.
Proof.
move=> z0; have t0 : (2%:R : C) != 0 by rewrite pnatr_eq0.
have [] : (chebyshev C k).[(z + z^-1) / 2%:R] = (z ^+ k + z^-1 ^+ k) / 2%:R /\
   (chebyshev C k.+1).[(z + z^-1) / 2%:R] = (z ^+ k.+1 + z^-1 ^+ k.+1) / 2%:R; last by [].
elim: k => [|k [IH1 IH2]].
  split; first by rewrite /chebyshev /= hornerC !expr0 -mulr2n mulfV.
  by rewrite /chebyshev /= hornerX !expr1.
split=> //; rewrite chebyshevSS hornerD hornerN hornerZ hornerM hornerX IH1 IH2.
have H : z * z^-1 = 1 by rewrite mulfV.
have H2 : 2%:R * 2%:R^-1 = 1 :> C by rewrite mulfV.
rewrite !exprS; move: (z ^+ k) (z^-1) H (2%:R^-1) H2 => a w H h H2; move: (w ^+ k) => c.
have H3 : @cmul C z w = @c1 C by exact: H.
have -> : 2%:R * ((z + w) * h * ((z * a + w * c) * h)) = (2%:R * h) * ((z + w) * ((z * a + w * c) * h)).
  by rewrite -!mulrA; congr (_ * _); rewrite mulrCA.
rewrite H2 mul1r; cring_fold C; ring [H3].
Qed.
End Proofs.

(** Proofs about the local updates. *)
From mathcomp Require Import all_ssreflect all_algebra.
From Verif Require Import GaugeModel GaugeSpec GaugeProofs GaugeProofs2 UpdModel.
Import GRing.Theory Num.Theory.
Set Implicit Arguments.
Unset Strict Implicit.
Unset Printing Implicit Defensive.
Local Open Scope ring_scope.

Section Quaternions.
Variable C : numClosedFieldType.
Add Ring CringU : (Crth C).
Notation M2 := 'M[C]_2.
Implicit Types A B S U : M2.
Notation o := (ord0 : 'I_2).
Notation e := (ord_max : 'I_2).
Lemma ord2 (i : 'I_2) : i = o \/ i = e.
Proof. by case: i => [[|[|k]] Hk] //; [left | right]; apply: val_inj. Qed.
Lemma eq2 A B : A o o = B o o -> A o e = B o e -> A e o = B e o -> A e e = B e e -> A = B.
Proof. by move=> *; apply/matrixP => i j; case: (ord2 i) => ->; case: (ord2 j) => ->. Qed.
Lemma sum2 (f : 'I_2 -> C) : \sum_i f i = f o + f e.
Proof. by rewrite big_ord_recl big_ord1; congr (_ + f _); apply: val_inj. Qed.
Lemma mul2 A B i j : (A *m B) i j = A i o * B o j + A i e * B e j.
Proof. by rewrite mxE sum2. Qed.
Lemma det2 A : \det A = A o o * A e e - A o e * A e o.
Proof.
rewrite (expand_det_row _ o) sum2 /cofactor !det_mx11 !mxE /= expr0 expr1 mul1r mulN1r mulrN.
by congr (A o o * A _ _ - A o e * A _ _); apply: val_inj.
Qed.
Lemma ht2 A i j : htrans A i j = (A j i)^*.
Proof. by rewrite !mxE. Qed.
Definition quat A := A e e = (A o o)^* /\ A e o = - (A o e)^*.
Lemma quatD A B : quat A -> quat B -> quat (A + B).
Proof. by move=> [a b] [c d]; rewrite /quat !mxE a b c d !rmorphD opprD. Qed.
Lemma quat0 : quat 0.
Proof. by rewrite /quat !mxE !rmorph0 oppr0. Qed.
Lemma quatZ (r : C) A : r \is Num.real -> quat A -> quat (r *: A).
Proof. by move=> /conj_Creal Hr [a b]; rewrite /quat !mxE a b !rmorphM Hr mulrN. Qed.
Lemma quatN A : quat A -> quat (- A).
Proof. by move=> [a b]; rewrite /quat !mxE a b !rmorphN. Qed.
Lemma quatM A B : quat A -> quat B -> quat (A *m B).
Proof.
move=> [a b] [c d]; rewrite /quat !mul2 a b c d !(rmorphD, rmorphM, rmorphN, conjCK) /=.
by split; cring_fold C; ring.
Qed.
Lemma quatH A : quat A -> quat (htrans A).
Proof. by move=> [a b]; rewrite /quat !ht2 a b !(rmorphN, conjCK, opprK). Qed.
Lemma quat_sum (I : Type) (s : seq I) (P : pred I) (F : I -> M2) : (forall i, P i -> quat (F i)) -> quat (\sum_(i <- s | P i) F i).
Proof. move=> H; apply: (big_ind quat) => //; [exact: quat0 | exact: quatD]. Qed.
Lemma quat_det A : quat A -> \det A = `|A o o| ^+ 2 + `|A o e| ^+ 2.
Proof. by move=> [a b]; rewrite det2 a b mulrN opprK !normCK. Qed.
Lemma quat_det_ge0 A : quat A -> 0 <= \det A.
Proof. by move=> q; rewrite quat_det // addr_ge0 // exprn_ge0. Qed.
Lemma quat_det_real A : quat A -> (\det A)^* = \det A.
Proof. by move=> q; apply: conj_Creal; apply: ger0_real; exact: quat_det_ge0. Qed.
Lemma quatHr A : quat A -> A *m htrans A = (\det A)%:M.
Proof.
move=> [a b]; rewrite det2; apply: eq2; rewrite mul2 !ht2 !mxE /= ?mulr1n ?mulr0n a b ?(rmorphN, conjCK) /=; cring_fold C; ring.
Qed.
Lemma quatHl A : quat A -> htrans A *m A = (\det A)%:M.
Proof.
move=> [a b]; rewrite det2; apply: eq2; rewrite mul2 !ht2 !mxE /= ?mulr1n ?mulr0n a b ?(rmorphN, conjCK) /=; cring_fold C; ring.
Qed.
Lemma su_quat A : special_unitary A -> quat A.
Proof.
move=> [u d]; have l := unitary_l u.
have D : A o o * A e e - A o e * A e o = 1 by rewrite -det2.
have E00 : (A o o)^* * A o o + (A e o)^* * A e o = 1 by have := congr1 (fun M : M2 => M o o) l; rewrite mul2 !ht2 mxE /= mulr1n.
have E01 : (A o o)^* * A o e + (A e o)^* * A e e = 0 by have := congr1 (fun M : M2 => M o e) l; rewrite mul2 !ht2 mxE /= mulr0n.
have E11 : (A o e)^* * A o e + (A e e)^* * A e e = 1 by have := congr1 (fun M : M2 => M e e) l; rewrite mul2 !ht2 mxE /= mulr1n.
have E10 : (A o e)^* * A o o + (A e e)^* * A e o = 0 by have := congr1 (fun M : M2 => M e o) l; rewrite mul2 !ht2 mxE /= mulr0n.
split; apply/eqP; rewrite -subr_eq0; apply/eqP.
- have -> : A e e - (A o o)^* = A e o * ((A o o)^* * A o e + (A e o)^* * A e e).
    rewrite -[A e e in LHS]mulr1 -{1}E00 -[(A o o)^* in X in _ - X]mulr1 -{1}D; cring_fold C; ring.
  by rewrite E01 mulr0.
- have -> : A e o - - (A o e)^* = A e e * ((A o e)^* * A o o + (A e e)^* * A e o).
    rewrite -[A e o in LHS]mulr1 -{1}E11 -[(A o e)^* in X in _ - - X]mulr1 -{1}D; cring_fold C; ring.
  by rewrite E10 mulr0.
Qed.
Lemma quat_su A : quat A -> \det A = 1 -> special_unitary A.
Proof. by move=> q d; split=> //; rewrite /unitary daggerE quatHr // d. Qed.
Lemma detZ2 (r : C) A : \det (r *: A) = r ^+ 2 * \det A.
Proof. by rewrite detZ. Qed.
Lemma det_quatH A : quat A -> \det (htrans A) = \det A.
Proof. by move=> q; rewrite det_htrans quat_det_real. Qed.

(** Overrelaxation for two colours. *)
Lemma overrelax2_quat S U : quat S -> 0 < \det S -> special_unitary U ->
  special_unitary ((\det S)^-1 *: (htrans S *m htrans U *m htrans S)).
Proof.
move=> q d u; have d0 : \det S != 0 by rewrite lt0r_neq0.
apply: quat_su.
  apply: quatZ; first by rewrite realV gtr0_real.
  by do 2! [apply: quatM; try exact: quatH]; apply: quatH; exact: su_quat.
rewrite detZ2 !det_mulmx !det_quatH //; last exact: su_quat.
by rewrite (proj2 u) mulr1 expr2 -mulrA mulKf // mulVf.
Qed.
Lemma thr_pos : 0 < (10%:R ^+ 4)^-1 :> C.
Proof. by rewrite invr_gt0 exprn_gt0 // ltr0Sn. Qed.
Lemma overrelax2_su S U : quat S -> special_unitary U -> special_unitary (overrelax2 S U).
Proof.
move=> q u; rewrite /overrelax2 ger0_norm ?quat_det_ge0 //; case: ifP => // h.
by apply: overrelax2_quat => //; apply: Order.POrderTheory.lt_trans h; exact: thr_pos.
Qed.
Lemma retrH A : retr (htrans A) = retr A.
Proof. by rewrite /retr mxtrace_tr /mxtrace /= -Re_conj; congr ('Re _); rewrite rmorph_sum; apply: eq_bigr => i _; rewrite mxE conjCK. Qed.
Lemma overrelax2_action S U : quat S -> retr (overrelax2 S U *m S) = retr (U *m S).
Proof.
move=> q; rewrite /overrelax2 ger0_norm ?quat_det_ge0 //; case: ifP => // h.
have d0 : \det S != 0 by rewrite lt0r_neq0 //; apply: Order.POrderTheory.lt_trans h; exact: thr_pos.
rewrite -scalemxAl -mulmxA quatHl // mul_mx_scalar scalerA mulVf // scale1r -htransM retrH //.
Qed.
Lemma overrelax2K S U : quat S -> overrelax2 S (overrelax2 S U) = U.
Proof.
move=> q; rewrite /overrelax2 ger0_norm ?quat_det_ge0 //; case E: (_ < _); rewrite ?E //; have h : (10%:R ^+ 4)^-1 < \det S by [].
have d0 : \det S != 0 by rewrite lt0r_neq0 //; apply: Order.POrderTheory.lt_trans h; exact: thr_pos.
have dr : ((\det S)^-1)^* = (\det S)^-1 by rewrite fmorphV quat_det_real.
rewrite htransZ dr -scalemxAr -scalemxAl scalerA !htransM !htransK !mulmxA quatHl // -!mulmxA quatHr //.
by rewrite mul_mx_scalar mul_scalar_mx !scalerA mulfVK // mulVf // scale1r.
Qed.

(** The matrix of the heat bath draw. *)
Lemma mat2E (a b c d : C) : (mat2 a b c d o o = a) * (mat2 a b c d o e = b) * (mat2 a b c d e o = c) * (mat2 a b c d e e = d).
Proof. by rewrite !mxE. Qed.
Definition unit4 (u : C * C * C * C) : Prop :=
  let: (u0, u1, u2, u3) := u in
  u0 \is Num.real /\ u1 \is Num.real /\ u2 \is Num.real /\ u3 \is Num.real /\ u0 ^+ 2 + u1 ^+ 2 + u2 ^+ 2 + u3 ^+ 2 = 1.
Lemma conj_pair (x y : C) : x \is Num.real -> y \is Num.real -> (x + 'i * y)^* = x - 'i * y.
Proof. by move=> hx hy; rewrite rmorphD rmorphM conjCi (conj_Creal hx) (conj_Creal hy) mulNr. Qed.
Lemma mat2_quat (d a c b : C) : d \is Num.real -> a \is Num.real -> c \is Num.real -> b \is Num.real ->
  quat (mat2 (d + 'i * a) (c + 'i * b) (- c + 'i * b) (d - 'i * a)).
Proof. by move=> hd ha hc hb; rewrite /quat !mat2E !conj_pair // opprB [- c + _]addrC. Qed.
Lemma mat2_det (d a c b : C) : \det (mat2 (d + 'i * a) (c + 'i * b) (- c + 'i * b) (d - 'i * a)) = a * a + b * b + c * c + d * d.
Proof.
rewrite det2 !mat2E; have H : 'i * 'i = -1 :> C by rewrite -expr2 sqrCi.
have -> : (d + 'i * a) * (d - 'i * a) - (c + 'i * b) * (- c + 'i * b) = d * d + c * c - ('i * 'i) * (a * a + b * b) by cring_fold C; ring.
by rewrite H; cring_fold C; ring.
Qed.
Lemma draw2_su u : unit4 u -> special_unitary (draw2 u).
Proof.
case: u => [[[u0 u1] u2] u3] [h0 [h1 [h2 [h3 h]]]]; apply: quat_su; first exact: mat2_quat.
rewrite mat2_det -h !expr2; cring_fold C; ring.
Qed.
(** The update of the heat bath: u^dagger S^dagger / sqrt(det S). *)
Lemma heat_simpl S (D : M2) : quat S -> \det S != 0 -> let r := sqrtC (\det S) in
  (\det S)^-1 *: (htrans S *m htrans (r^-1 *: (D *m htrans S)) *m htrans S) = r^-1 *: (htrans D *m htrans S).
Proof.
move=> q d0 r; have rr : (r^-1)^* = r^-1.
  by rewrite fmorphV; congr (_^-1); apply: conj_Creal; apply: ger0_real; rewrite sqrtC_ge0 quat_det_ge0.
rewrite htransZ rr htransM htransK -scalemxAr -scalemxAl scalerA !mulmxA quatHl // mul_scalar_mx -scalemxAl scalerA.
by rewrite [_ / r]mulrC -mulrA mulVf // mulr1.
Qed.
Lemma heat_su S (D : M2) : quat S -> \det S != 0 -> special_unitary D -> let r := sqrtC (\det S) in
  special_unitary (r^-1 *: (htrans D *m htrans S)) /\ (r^-1 *: (htrans D *m htrans S)) *m S = r *: htrans D.
Proof.
move=> q d0 su r; have r0 : r != 0 by rewrite sqrtC_eq0.
have rR : r^-1 \is Num.real by rewrite realV ger0_real // sqrtC_ge0 quat_det_ge0.
have r2 : r ^+ 2 = \det S by rewrite sqrtCK.
split; last first.
  by rewrite -scalemxAl -mulmxA quatHl // mul_mx_scalar scalerA -r2 expr2 mulKf.
apply: quat_su; first by apply: quatZ => //; apply: quatM; apply: quatH => //; exact: su_quat.
rewrite detZ2 det_mulmx !det_quatH //; last exact: su_quat.
by rewrite (proj2 su) mul1r exprVn r2 mulVf.
Qed.
Lemma heatbath2_correct u S : quat S -> \det S != 0 -> unit4 u ->
  exists2 V, heatbath2 u S = Some V & special_unitary V /\ V *m S = sqrtC (\det S) *: htrans (draw2 u).
Proof.
move=> q d0 hu; rewrite /heatbath2 ger0_norm ?quat_det_ge0 // (negbTE d0).
exists ((sqrtC (\det S))^-1 *: (htrans (draw2 u) *m htrans S)); first by congr Some; exact: heat_simpl.
exact: (heat_su q d0 (draw2_su hu)).
Qed.
Lemma retr_draw u (r : C) : unit4 u -> r \is Num.real -> retr (r *: htrans (draw2 u)) = 2%:R * r * u.1.1.1.
Proof.
case: u => [[[u0 u1] u2] u3] [h0 [h1 [h2 [h3 _]]]] hr /=.
rewrite /retr mxtraceZ /mxtrace sum2 !ht2 !mat2E -rmorphD.
have -> : u0 + 'i * u3 + (u0 - 'i * u3) = 2%:R * u0 by rewrite mulr2n; cring_fold C; ring.
have R2 : r * (2%:R * u0) \is Num.real by rewrite !rpredM // realn.
by rewrite rmorphM (conj_Creal h0) conj_Creal ?realn // (Creal_ReP _ R2) mulrCA mulrA.
Qed.

(** ReUnit for two colours. *)
Lemma reunit2_su A V : reunit2 A = Some V -> special_unitary V.
Proof.
rewrite /reunit2; set a := 'Im _; set b := 'Im _; set c := 'Re _; set d := 'Re _; set N := sqrtC _.
case: ifP => // /negbT N0 [<-].
have [ha hb hc hd] : [/\ a \is Num.real, b \is Num.real, c \is Num.real & d \is Num.real] by rewrite ?Creal_Im ?Creal_Re.
have ge : 0 <= a * a + b * b + c * c + d * d by rewrite !addr_ge0 // -expr2 real_exprn_even_ge0.
have NR : N \is Num.real by rewrite ger0_real // sqrtC_ge0.
have N2 : N ^+ 2 = a * a + b * b + c * c + d * d by rewrite sqrtCK.
apply: quat_su; first by apply: mat2_quat; rewrite rpred_div.
have NN : N * N != 0 by rewrite mulf_neq0.
rewrite mat2_det !mulf_div -!mulrDl -N2 expr2 divff //.
Qed.
Lemma quat_reim A : quat A -> let a := 'Im (A o o) in let b := 'Im (A o e) in let c := 'Re (A o e) in let d := 'Re (A o o) in
  A = mat2 (d + 'i * a) (c + 'i * b) (- c + 'i * b) (d - 'i * a).
Proof.
move=> [qa qb] a b c d.
have E1 : A o o = d + 'i * a by rewrite -Crect.
have E2 : A o e = c + 'i * b by rewrite -Crect.
apply: eq2; rewrite !mat2E ?qa ?qb // ?E1 ?E2 conj_pair ?Creal_Re ?Creal_Im //.
by rewrite opprB addrC.
Qed.
Lemma reunit2_fix A : special_unitary A -> reunit2 A = Some A.
Proof.
move=> su; have q := su_quat su; have := proj2 su; rewrite {1}(quat_reim q) mat2_det /reunit2 => ->.
by rewrite sqrtC1 oner_eq0 !divr1; congr Some; rewrite -quat_reim.
Qed.
Lemma reunit2_singular A : quat A -> (reunit2 A == None) = (\det A == 0).
Proof.
move=> q; rewrite {2}(quat_reim q) mat2_det /reunit2 sqrtC_eq0; by case: (_ == 0).
Qed.
End Quaternions.

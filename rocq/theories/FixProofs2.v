(** The transformation at one site never lowers the trace of the staple. *)
From mathcomp Require Import all_ssreflect all_algebra.
From Verif Require Import GaugeModel GaugeSpec GaugeProofs GaugeProofs2 ExpSpec ExpProofs FixModel FixSpec FixProofs.
Import Order.POrderTheory GRing.Theory Num.Theory.
Set Implicit Arguments.
Unset Strict Implicit.
Unset Printing Implicit Defensive.
Local Open Scope ring_scope.

Section Pairs.
Variable C : numClosedFieldType.
Variable n : nat.
Notation GaugeGroup := 'M[C]_n.
Variable eig : GaugeGroup -> GaugeGroup * 'rV[C]_n.
Hypothesis He : good_hermitian_eig eig.
Implicit Types (Q S : GaugeGroup).

Lemma gram_hermitian Q : hermitian (htrans Q *m Q).
Proof. by rewrite /hermitian daggerE htransM htransK. Qed.

Lemma polarP Q om : polar eig Q = Some om ->
  exists m lam, decomposes (htrans Q *m Q) m lam /\ (forall i, lam ord0 i != 0) /\
    om = Q *m m *m diag_mx (map_mx (fun z => 1 / sqrtC z) lam) *m htrans m.
Proof.
rewrite /polar; have := He (gram_hermitian Q); case: (eig _) => m lam /= d.
case: existsP => // h [<-]; exists m, lam; split=> //; split=> // i; apply/negP => e; apply: h; by exists i.
Qed.

Lemma sub_block_out S (k l a b : 'I_n) : ~~ (((a == k) || (a == l)) && ((b == k) || (b == l))) ->
  sub_block S k l a b = (a == b)%:R.
Proof. by rewrite mxE => /negbTE ->. Qed.
Lemma sub_block_in S (k l a b : 'I_n) : ((a == k) || (a == l)) && ((b == k) || (b == l)) -> sub_block S k l a b = S a b.
Proof. by rewrite mxE => ->. Qed.

(** Outside the block the polar factor is the identity. *)
Lemma polar_out S om (k l a b : 'I_n) : polar eig (sub_block S k l) = Some om ->
  ~~ (((a == k) || (a == l)) && ((b == k) || (b == l))) -> om a b = (a == b)%:R.
Proof.
move/polarP=> [m [lam [d [nz e]]]] out.
have fixed c : ~~ ((c == k) || (c == l)) -> om *m delta_mx c ord0 = delta_mx c ord0 :> 'cV[C]_n /\
    htrans om *m delta_mx c ord0 = delta_mx c ord0 :> 'cV[C]_n.
  move=> nc; rewrite e; apply: (omega_fixes d nz).
  - apply/matrixP=> i j; rewrite -colE [in LHS]mxE sub_block_out; last by rewrite (negbTE nc) andbF.
    by rewrite mxE [j]ord1 eqxx andbT.
  - apply/matrixP=> i j; rewrite -colE [in LHS]mxE [htrans _ _ _]mxE [map_mx _ _ _ _]mxE sub_block_out; last by rewrite (negbTE nc).
    by rewrite mxE [j]ord1 eqxx andbT rmorph_nat eq_sym.
have at_ (W : GaugeGroup) c i : W *m delta_mx c ord0 = delta_mx c ord0 :> 'cV[C]_n -> W i c = (i == c)%:R.
  by move/(congr1 (fun M : 'cV[C]_n => M i ord0)); rewrite -colE !mxE eqxx andbT.
move: out; rewrite negb_and => /orP [na|nb].
- have [_ h] := fixed a na; have := at_ _ _ b h; rewrite !mxE => /(congr1 conjC).
  by rewrite conjCK rmorph_nat eq_sym.
- by have [h _] := fixed b nb; exact: at_ h.
Qed.

Lemma polar_pair S om (k l : 'I_n) : polar eig (sub_block S k l) = Some om ->
  unitary om /\ retr S <= retr (htrans om *m S).
Proof.
move=> p; have [m [lam [d [nz e]]]] := polarP p.
have u : unitary om by rewrite e; exact: omega_unitary.
split=> //; set Q := sub_block S k l in p d e *.
have le : retr Q <= retr (htrans om *m Q) by rewrite e; exact: polar_trace.
have tr_ (M : GaugeGroup) : \tr (htrans om *m M) = \sum_a \sum_b (om b a)^* * M b a.
  by apply: eq_bigr => a _; rewrite mxE; apply: eq_bigr => b _; rewrite !mxE.
have rest : \tr (htrans om *m (S - Q)) = \tr (S - Q).
  rewrite tr_; apply: eq_bigr => a _; rewrite (bigD1 a) //= big1 ?addr0 => [|b nb].
    case: (boolP (((a == k) || (a == l)) && ((a == k) || (a == l)))) => h.
      by rewrite [(S - Q) a a]mxE [(- Q) a a]mxE /Q sub_block_in // subrr mulr0.
    by rewrite (polar_out p h) eqxx rmorph1 mul1r.
  case: (boolP (((b == k) || (b == l)) && ((a == k) || (a == l)))) => h.
    by rewrite [(S - Q) b a]mxE [(- Q) b a]mxE /Q sub_block_in // subrr mulr0.
  by rewrite (polar_out p h) (negbTE nb) rmorph0 mul0r.
have -> : S = Q + (S - Q) by rewrite addrC subrK.
by rewrite mulmxDr (retrD Q) (retrD (htrans om *m Q)) [retr (htrans om *m (S - Q))]/retr rest ler_add2r.
Qed.

Lemma pair_foldE r t s t' s' (S : GaugeGroup) : unitary t -> s = t *m S -> retr S <= retr s ->
  foldl (pair_step eig) (Some (t, s)) r = Some (t', s') ->
  unitary t' /\ s' = t' *m S /\ retr S <= retr s'.
Proof.
elim: r t s => [|[k l] r IH] t s ut es le /=; first by case=> <- <-.
case p : (polar eig (sub_block s k l)) => [om|] /=; last by elim: r {IH} => //= kl r ->.
case: ifP => _; first exact: IH.
have [uo le'] := polar_pair p.
apply: IH; first by apply: unitaryM => //; exact: unitaryH.
  by rewrite es mulmxA.
exact: le_trans le le'.
Qed.
End Pairs.

(** Two colours. *)
Section Two.
Variable C : numClosedFieldType.
Implicit Types A B : 'M[C]_2.
Let i0 : 'I_2 := @Ordinal 2 0 isT.
Let i1 : 'I_2 := @Ordinal 2 1 isT.
(** a + ib, c + id; -c + id, a - ib. *)
Definition quat A : Prop := A i1 i1 = (A i0 i0)^* /\ A i1 i0 = - (A i0 i1)^*.

Lemma sum2 (F : 'I_2 -> C) : \sum_i F i = F i0 + F i1.
Proof.
rewrite big_ord_recl big_ord1; congr (F _ + F _); exact: val_inj.
Qed.
Lemma ord2 (i : 'I_2) : i = i0 \/ i = i1.
Proof. by case: i => [[|[|//]] h]; [left|right]; exact: val_inj. Qed.
Lemma det2 A : \det A = A i0 i0 * A i1 i1 - A i0 i1 * A i1 i0.
Proof.
rewrite (expand_det_row _ i0) sum2 /cofactor !det_mx11 !mxE /= !expr0 expr1 mul1r mulN1r mulrN.
by congr (_ * A _ _ - _ * A _ _); exact: val_inj.
Qed.
Lemma quat_su A : special_unitary A -> quat A.
Proof.
case=> u; rewrite det2 => e; have := unitary_l u; have := unitary_r u.
move/matrixP=> r /matrixP l.
have := r i0 i0; have := r i0 i1; have := l i0 i0; have := l i0 i1; have := r i1 i1; have := l i1 i1.
rewrite /quat !mxE !sum2 !mxE /=.
move: (A i0 i0) (A i0 i1) (A i1 i0) (A i1 i1) e => a b c dd e l11 r11 l01 l00 r01 r00.
split.
- (* a^* = a^* (ad - bc) = d (|a|^2 + |c|^2) *)
  have h : a^* * (a * dd - b * c) = dd * (a^* * a + c^* * c) - c * (a^* * b + c^* * dd).
    rewrite mulrBr mulrDr [c * (_ + _)]mulrDr opprD addrACA.
    have -> : dd * (c^* * c) - c * (c^* * dd) = 0 by rewrite [c^* * c]mulrC mulrCA [dd * _]mulrC subrr.
    by rewrite addr0 [dd * _]mulrC mulrA [c * _]mulrC mulrA.
  by move: h; rewrite e l00 l01 /= mulr1 mulr0 subr0 mulr1n mulr1 => ->.
- have r01' : b^* * a + dd^* * c = 0.
    by have := congr1 conjC l01; rewrite mulr0n rmorph0 rmorphD !rmorphM /= !conjCK => <-; rewrite mulrC [c * _]mulrC.
  have : b^* = - c.
    apply: (@etrans _ _ (b^* * (a * dd - b * c))); first by rewrite e mulr1.
    transitivity ((b^* * a + dd^* * c) * dd - c * (b^* * b + dd^* * dd)).
      rewrite mulrBr mulrDl mulrDr opprD addrACA.
      have -> : dd^* * c * dd - c * (dd^* * dd) = 0 by rewrite [dd^* * c]mulrC -mulrA subrr.
      by rewrite addr0 mulrA; congr (_ - _); rewrite mulrA [c * _]mulrC.
    by rewrite r01' l11 mul0r sub0r mulr1.
  by move=> ->; rewrite opprK.
Qed.
Lemma quatD A B : quat A -> quat B -> quat (A + B).
Proof. by rewrite /quat !mxE => -[-> ->] [-> ->]; rewrite !rmorphD opprD. Qed.
Lemma quat0 : quat 0.
Proof. by rewrite /quat !mxE conjC0 oppr0. Qed.
Lemma quatH A : quat A -> quat (htrans A).
Proof. by rewrite /quat !mxE => -[-> ->]; rewrite !conjCK opprK. Qed.
Lemma quat_sum (I : finType) (F : I -> 'M[C]_2) : (forall i, quat (F i)) -> quat (\sum_i F i).
Proof. by move=> h; elim/big_ind: _ => // [|*]; [exact: quat0|exact: quatD]. Qed.

Section Quat.
Variable A : 'M[C]_2.
Hypothesis q : quat A.
Lemma quat_det : \det A = `|A i0 i0| ^+ 2 + `|A i0 i1| ^+ 2.
Proof. by case: q => e1 e2; rewrite det2 e1 e2 mulrN opprK !normCK. Qed.
Lemma quat_gram : htrans A *m A = (\det A)%:M.
Proof.
case: q => e1 e2; rewrite quat_det; apply/matrixP=> i j; rewrite mxE sum2 !mxE.
case: (ord2 i) => ->; case: (ord2 j) => -> /=; rewrite ?e1 ?e2 ?mulr1n ?mulr0n ?normCK ?rmorphN ?conjCK.
- by rewrite mulrNN [_^* * _]mulrC; congr (_ + _); rewrite mulrC.
- by rewrite mulNr mulrC subrr.
- by rewrite mulrN mulrC subrr.
- by rewrite addrC [_^* * _]mulrC.
Qed.
Hypothesis nz : \det A != 0.
Lemma quat_det_gt0 : 0 < \det A.
Proof. by rewrite lt_def nz quat_det addr_ge0 // exprn_ge0. Qed.
Let s := sqrtC (\det A).
Lemma s_gt0 : 0 < s.
Proof. by rewrite sqrtC_gt0 quat_det_gt0. Qed.
Lemma s_conj : (s^-1)^* = s^-1.
Proof. by apply/CrealP; rewrite realV gtr0_real // s_gt0. Qed.
Let g := htrans (s^-1 *: A).
Lemma g_unitary : unitary g.
Proof.
apply: unitaryH; apply: unitary_of_l; rewrite htransZ s_conj -scalemxAl -scalemxAr quat_gram scalerA.
rewrite -scalemx1 scalerA.
have sn := lt0r_neq0 s_gt0.
have -> : s^-1 / s * \det A = 1 by rewrite -[\det A]sqrtCK -/s expr2 -!mulrA (mulKf sn) mulVf.
by rewrite scale1r.
Qed.
Lemma g_det : \det g = 1.
Proof.
rewrite det_htrans detZ rmorphM rmorphX /= s_conj.
have -> : (\det A)^* = \det A by apply/CrealP; rewrite gtr0_real // quat_det_gt0.
by rewrite -[\det A]sqrtCK -/s -exprMn mulVf ?expr1n // lt0r_neq0 // s_gt0.
Qed.
Lemma g_trace : retr A <= retr (g *m A).
Proof.
rewrite /g htransZ s_conj -scalemxAl quat_gram -scalemx1 scalerA /retr mxtraceZ mxtrace1.
have -> : s^-1 * \det A = s by rewrite -[\det A]sqrtCK -/s expr2 mulKf // lt0r_neq0 // s_gt0.
rewrite {1}/mxtrace sum2; case: q => -> _; rewrite raddfD /= Re_conj.
have le : 'Re (A i0 i0) <= s.
  apply: le_trans (re_le_norm _) _; rewrite -(@ler_pexpn2r _ 2) ?nnegrE ?normr_ge0 ?(ltW s_gt0) //.
  by rewrite sqrtCK quat_det ler_addl exprn_ge0.
have sr : s * 2%:R \is Num.real by rewrite rpredM ?realn // gtr0_real // s_gt0.
by rewrite (Creal_ReP _ sr) mulr_natr mulr2n ler_add.
Qed.
End Quat.
End Two.

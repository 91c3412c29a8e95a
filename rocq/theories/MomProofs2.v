(** Every element of the algebra is drawn from exactly one set of random numbers. *)
From Coq Require Import Ring Lia.
From mathcomp Require Import all_ssreflect all_algebra.
From Verif Require Import GaugeModel GaugeSpec GaugeProofs GaugeProofs2 GaugeProofs3 MomProofs.
Import GRing.Theory Num.Theory.
Set Implicit Arguments.
Unset Strict Implicit.
Unset Printing Implicit Defensive.
Local Open Scope ring_scope.

Section Onto.
Variable C : numClosedFieldType.
Variable n : nat.
Notation GaugeGroup := 'M[C]_n.
Implicit Types (A P : GaugeGroup) (i j k a b : 'I_n).
Notation dc := (@dcoef C n).
Notation dn := (@dnorm C n).

Lemma dn2 i : (0 < i)%N -> dn i ^+ 2 / 2%:R = (i * i.+1)%:R^-1.
Proof.
move=> p; have nz : (i * i.+1)%:R != 0 :> C by rewrite pnatr_eq0 muln_eq0 negb_or -!lt0n p.
by rewrite -(dnorm2 C p) invfM mulrCA mulfV ?mulr1 // expf_neq0 // invr_neq0 // sqrtC_eq0 mulf_neq0 // invr_neq0 // pnatr_eq0.
Qed.
Lemma telescope k : \sum_(i < n | (k < i)%N) ((i * i.+1)%:R^-1 : C) = k.+1%:R^-1 - n%:R^-1.
Proof.
have H m : (m < n)%N -> \sum_(i < n | (m < i)%N) ((i * i.+1)%:R^-1 : C) = m.+1%:R^-1 - n%:R^-1.
  move=> lt; have [d] := ubnP (n - m); elim: d m lt => // d IH m lt le.
  case: (ltnP m.+1 n) => h; last first.
    have -> : n = m.+1 by apply/eqP; rewrite eqn_leq lt h.
    rewrite subrr big_pred0 // => i; apply/negP => q.
    by have := ltn_ord i; rewrite ltnS leqNgt q.
  rewrite (bigD1 (Ordinal h)) //=.
  rewrite (eq_bigl (fun i : 'I_n => (m.+1 < i)%N)); last first.
    by move=> i; rewrite -val_eqE /= [(m.+1 < i)%N]ltn_neqAle andbC eq_sym.
  rewrite IH //; last by rewrite ltnS in le; apply: leq_trans le; rewrite ltn_sub2l.
  have n1 : m.+1%:R != 0 :> C by rewrite pnatr_eq0.
  have n2 : m.+2%:R != 0 :> C by rewrite pnatr_eq0.
  rewrite addrA; congr (_ - _); apply: (mulfI n1); apply: (mulfI n2).
  rewrite [in RHS]mulrA [in RHS]mulfK // !mulrDr natrM invfM !mulrA mulfK // ?mulfV //.
    by rewrite mulrAC mulfV // mul1r -[1]/(1%:R) -natrD add1n.
exact: H.
Qed.
Lemma completeness k l : \sum_(i < n | (0 < i)%N) dc i k * dc i l / 2%:R = (k == l)%:R - n%:R^-1.
Proof.
wlog le : k l / (k <= l)%N.
  move=> H; case: (leqP k l) => h; first exact: H.
  rewrite eq_sym -H ?(ltnW h) //; by apply: eq_bigr => i _; rewrite [dc i k * _]mulrC.
case: (posnP l) => [l0|lp].
  have k0 : (k : nat) = 0%N by apply/eqP; rewrite -leqn0 -l0.
  have e : k = l by apply: val_inj; rewrite /= k0 l0.
  rewrite (eq_bigr (fun i : 'I_n => (i * i.+1)%:R^-1)).
    have := telescope k; rewrite k0 => ->; by rewrite e eqxx invr1.
  by move=> i p; rewrite /dcoef k0 l0 p -expr2 dn2.
rewrite (bigID (fun i : 'I_n => (l < i)%N)) /=.
rewrite (eq_bigl (fun i : 'I_n => (l < i)%N)); last first.
  by move=> i; case: (ltnP l i) => h; rewrite ?andbF // andbT; apply: leq_ltn_trans h.
rewrite (eq_bigr (fun i : 'I_n => (i * i.+1)%:R^-1)); last first.
  move=> i h; rewrite /dcoef h (leq_ltn_trans le h) -expr2 dn2 //; exact: leq_ltn_trans h.
rewrite telescope (bigD1 l) /=; last by rewrite lp ltnn.
rewrite big1 ?addr0; last first.
  move=> i /andP[/andP[_ h] ne]; rewrite /dcoef (negPf h).
  by rewrite [l == i]eq_sym (negPf ne) mulr0 mul0r.
rewrite addrAC; congr (_ - _).
have n2 : l.+1%:R != 0 :> C by rewrite pnatr_eq0.
have n1 : l%:R != 0 :> C by rewrite pnatr_eq0 -lt0n.
have d2 : dn l ^+ 2 / 2%:R = l%:R^-1 * l.+1%:R^-1 by rewrite dn2 // natrM invfM.
have sw (a b d : C) : a * d * (b * d) / 2%:R = a * b * (d ^+ 2 / 2%:R) by rewrite mulrACA expr2 !mulrA.
have dl : dc l l = - l%:R * dn l by rewrite /dcoef ltnn eqxx.
case: (altP (k =P l)) => [->|ne].
  rewrite dl sw d2 mulrNN [l%:R * l%:R * _]mulrA mulfK //.
  by rewrite -{1}[l.+1%:R^-1]mul1r -mulrDl -[1 in X in X / _]/(1%:R) -natrD add1n mulfV.
have lt : (k < l)%N by rewrite ltn_neqAle le andbT; apply: contra ne.
have dk : dc l k = 1 * dn l by rewrite /dcoef lt mul1r.
by rewrite dl dk sw d2 mul1r mulrA mulNr mulfV // mulN1r subrr.
Qed.

(** The draws that give the matrix P. *)
Definition of_re P i j : C := 'Re (P i j).
Definition of_im P i j : C := 'Im (P i j).
Definition of_dg P i : C := \sum_k ('Im (P k k)) * dc i k / 2%:R.
Lemma dc_real i k : dc i k \is Num.real.
Proof.
have rR : dn i \is Num.real by rewrite rpredV ger0_real // sqrtC_ge0 divr_ge0 ?ler0n.
rewrite /dcoef; case: ifP => // _; case: ifP => _; last exact: real0.
by rewrite rpredM // rpredN realn.
Qed.
Lemma of_re_real P i j : of_re P i j \is Num.real. Proof. exact: Creal_Re. Qed.
Lemma of_im_real P i j : of_im P i j \is Num.real. Proof. exact: Creal_Im. Qed.
Lemma of_dg_real P i : of_dg P i \is Num.real.
Proof. by apply: rpred_sum => k _; rewrite !rpredM ?dc_real ?Creal_Im // rpredV realn. Qed.

Lemma random_onto A P : anti_hermitian P -> traceless P ->
  random_momentum (of_re P) (of_im P) (of_dg P) A = P.
Proof.
move=> ah tr0; have e i j : P j i = - (P i j)^*.
  by have /matrixP/(_ j i) := ah; rewrite !mxE => ->; rewrite opprK.
apply/matrixP => a b; rewrite /random_momentum add_diagonal_entry clear_entry.
case: (altP (a =P b)) => [<-|ne]; last first.
  rewrite addr0; case: (ltngtP a b) => h; last by case/eqP: ne; apply: val_inj.
    have [-> _] := off_diagonal_holds (of_re P) (of_im P) A h.
    by rewrite /of_re /of_im -Crect.
  have [_ ->] := off_diagonal_holds (of_re P) (of_im P) A h.
  by rewrite e [in RHS](Crect (P b a)) conjC_rect ?Creal_Re ?Creal_Im // opprB addrC.
rewrite add0r.
have im0 : \sum_k 'Im (P k k) = 0 by rewrite -raddf_sum; move: tr0; rewrite /traceless /mxtrace => ->; rewrite raddf0.
have -> : \sum_i of_dg P i * dc i a = 'Im (P a a).
  transitivity (\sum_k 'Im (P k k) * \sum_(i < n | (0 < i)%N) dc i k * dc i a / 2%:R).
    rewrite (bigID (fun i : 'I_n => (0 < i)%N)) /= [X in _ + X]big1 ?addr0; last first.
      move=> i; rewrite -eqn0Ngt => /eqP z; rewrite [dc i a]/dcoef z ltn0 oppr0 mul0r; case: ifP; by rewrite mulr0.
    under eq_bigr do rewrite mulr_suml; rewrite exchange_big /=; apply: eq_bigr => k _.
    by rewrite mulr_sumr; apply: eq_bigr => i _; rewrite mulrAC -!mulrA.
  under eq_bigr do rewrite completeness mulrBr.
  rewrite sumrB -mulr_suml im0 mul0r subr0 (bigD1 a) //= eqxx mulr1 big1 ?addr0 //.
  by move=> k /negPf ->; rewrite mulr0.
rewrite [in RHS](Crect (P a a)); suff -> : 'Re (P a a) = 0 by rewrite add0r.
by rewrite ReE {2}e rmorphN conjCK subrr mul0r.
Qed.

Lemma random_unique re im dg re' im' dg' A A' :
  (forall i j, re i j \is Num.real) -> (forall i j, im i j \is Num.real) ->
  (forall i j, re' i j \is Num.real) -> (forall i j, im' i j \is Num.real) ->
  random_momentum re im dg A = random_momentum re' im' dg' A' ->
  (forall i j, (i < j)%N -> re i j = re' i j /\ im i j = im' i j) /\ (forall i : 'I_n, (0 < i)%N -> dg i = dg' i).
Proof.
move=> r1 r2 r3 r4 /matrixP E; split=> [i j lt|i p].
  move: (E i j); rewrite /random_momentum !add_diagonal_entry !clear_entry.
  have /negPf -> : i != j by apply/eqP => E'; rewrite E' ltnn in lt.
  rewrite !addr0; have [-> _] := off_diagonal_holds re im A lt; have [-> _] := off_diagonal_holds re' im' A' lt.
  move=> h; split.
    by have := congr1 (fun z => 'Re z) h; rewrite !Re_rect.
  by have := congr1 (fun z => 'Im z) h; rewrite !Im_rect.
have d k : \sum_i dg i * dc i k = \sum_i dg' i * dc i k.
  move: (E k k); rewrite /random_momentum !add_diagonal_entry !clear_entry eqxx !add0r => /mulfI; apply.
  exact: neq0Ci.
have S (f : 'I_n -> C) : \sum_k (\sum_i f i * dc i k) * dc i k = 2%:R * f i.
  under eq_bigr do rewrite mulr_suml; rewrite exchange_big /= (bigD1 i) //= [X in _ + X]big1 ?addr0.
    under eq_bigr do rewrite -mulrA; rewrite -mulr_sumr dcoef_orth // eqxx mulrC //.
  move=> j ne; under eq_bigr do rewrite -mulrA; rewrite -mulr_sumr.
  case: (posnP j) => [z|p']; last by rewrite dcoef_orth // (negPf ne) mulr0.
  rewrite big1 ?mulr0 // => k _; rewrite /dcoef z ltn0 oppr0 mul0r; case: ifP; by rewrite mul0r.
have n2 : 2%:R != 0 :> C by rewrite pnatr_eq0.
by apply: (mulfI n2); rewrite -!S; apply: eq_bigr => k _; rewrite d.
Qed.
End Onto.

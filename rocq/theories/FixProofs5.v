(** When gauge fixing is defined, and the choice of the copy. *)
From mathcomp Require Import all_ssreflect all_algebra.
From Verif Require Import GaugeModel GaugeSpec GaugeProofs GaugeProofs2 ExpSpec FixModel FixSpec FixProofs FixProofs3.
Import Order.POrderTheory GRing.Theory Num.Theory.
Set Implicit Arguments.
Unset Strict Implicit.
Unset Printing Implicit Defensive.
Local Open Scope ring_scope.

Section Defined.
Variable C : numClosedFieldType.
Variable n : nat.
Variable L : lattice.
Variable odd_site : L -> bool.
Variable gexp : 'M[C]_n -> 'M[C]_n.
Variable rexp : C -> C.
Variable eig : 'M[C]_n -> 'M[C]_n * 'rV[C]_n.

(** The numbers of local steps and of outputs the code accepts. *)
Definition steps_ok (ls os : nat) : bool := (ls == 0%N) || ((0 < os) && (os <= ls))%N.
Lemma local_defined ls os prec k i conv (top : chain C n L) : (0 < k)%N ->
  isSome (local_phase odd_site eig ls os prec k i conv top) = (0 < os)%N && (os <= ls)%N.
Proof.
elim: k i conv top => [//|k IH] i conv top _ /=.
have -> : ((os == 0) || (ls %/ os == 0))%N = ~~ ((0 < os) && (os <= ls))%N.
  case: os IH => [//|os] IH /=; by rewrite -leqn0 -ltnS ltn_divLR // mul1n -ltnNge.
case h : ((0 < os) && (os <= ls))%N; last by [].
cbn [negb]; case: ifP => [_ //|_].
case: k IH => [|k] IH; first by case: (relaxation _ _ _ _) => [g|] //=; case: ifP.
case: (relaxation _ _ _ _) => [g|]; last by rewrite IH.
by case: ifP => _; rewrite IH.
Qed.
Lemma gauge_fixing_defined p ls os ds g0 (U : gauge C n L) :
  isSome (gauge_fixing odd_site gexp rexp eig p ls os ds g0 U) = steps_ok ls os.
Proof.
rewrite /gauge_fixing /steps_ok; case: ls => [|ls]; first by [].
by rewrite local_defined.
Qed.
Lemma copies_defined p ls os dss g0 (U : gauge C n L) :
  isSome (copies odd_site gexp rexp eig p ls os dss g0 U) = (size dss == 0%N) || steps_ok ls os.
Proof.
elim: dss => [//|ds dss IH] /=.
have := gauge_fixing_defined p ls os ds g0 U.
case: (gauge_fixing _ _ _ _ _ _ _ _ _ _) => [c|] /= e; last by rewrite -e.
by move: IH; case: (copies _ _ _ _ _ _ _ _ _ _) => [cs|] /=; rewrite -e orbT.
Qed.
Lemma copies_size p ls os dss g0 (U : gauge C n L) cs :
  copies odd_site gexp rexp eig p ls os dss g0 U = Some cs -> size cs = size dss.
Proof.
elim: dss cs => [|ds dss IH] cs /=; first by case=> <-.
case: (gauge_fixing _ _ _ _ _ _ _ _ _ _) => [c|] //=.
by case e : (copies _ _ _ _ _ _ _ _ _ _) => [cs'|] //= [<-] /=; rewrite (IH _ e).
Qed.
Lemma execute_defined p ls fs os dss ds g0 (U : gauge C n L) :
  isSome (execute odd_site gexp rexp eig p ls fs os dss ds g0 U) = (0 < size dss)%N && steps_ok ls os && steps_ok fs os.
Proof.
rewrite /execute; have := copies_defined p ls os dss g0 U.
case e : (copies _ _ _ _ _ _ _ _ _ _) => [cs|] /= h.
  have := copies_size e; case: cs e => [|c cs] e sz; first by rewrite -sz.
  rewrite -sz /=.
  have := gauge_fixing_defined p fs os ds g0 (nth (0, U) (c :: cs) (choose (unzip1 (c :: cs)))).2.
  case: (gauge_fixing _ _ _ _ _ _ _ _ _ _) => [r|] /= <-; last by rewrite andbF.
  by case: dss e sz h => [|? ?] //= _ _ <-.
by case: dss e h => [|? ?] //= _ <-.
Qed.

Lemma choose_fold (vs : seq C) k (s0 := (0, 0%N) : C * nat) : (forall i, nth 0 vs i \is Num.real) ->
  let s := foldl (fun s i => if s.1 < nth 0 vs i then (nth 0 vs i, i) else s) s0 (iota 0 k) in
  s.1 \is Num.real /\ (forall i, (i < k)%N -> nth 0 vs i <= s.1) /\ 0 <= s.1 /\ (s = s0 \/ (s.1 = nth 0 vs s.2)).
Proof.
move=> r; elim: k => [|k IH]; first by split; [exact: real0|split=> //; split=> //; left].
rewrite -{1}addn1 iotaD foldl_cat /= add0n; move: IH; set s := foldl _ _ _ => -[rs [le [ge e]]].
case: ifP => lt.
  split=> //=; split=> [i|]; last by split; [apply: le_trans ge _; exact: ltW|right].
  by rewrite ltnS leq_eqVlt => /orP [/eqP -> //|hi]; apply: le_trans (le i hi) _; exact: ltW.
split=> //; split=> // i; rewrite ltnS leq_eqVlt => /orP [/eqP ->|]; last exact: le.
by rewrite real_leNgt // lt.
Qed.
Lemma choose_max (vs : seq C) i : (forall i, nth 0 vs i \is Num.real) -> (i < size vs)%N -> 0 < nth 0 vs i ->
  nth 0 vs i <= nth 0 vs (choose vs).
Proof.
move=> r hi pos; have [_ [le [_ e]]] := choose_fold (size vs) r.
rewrite /choose; move: le e; set s := foldl _ _ _ => le e; have li := le i hi.
case: e => [e|<- //]; by move: (lt_le_trans pos li); rewrite e /= ltxx.
Qed.
End Defined.

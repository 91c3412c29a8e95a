(** Proofs: gauge transformations, translations and time reflection of the correlators; the two axial correlators cancel. *)
From Coq Require Import ZArith Ring.
From mathcomp Require Import all_ssreflect all_algebra.
From Verif Require Import GaugeModel GaugeSpec GaugeProofs GaugeProofs2 LoopModel GammaModel GammaSpec GammaProofs DiracModel DiracSpec DiracProofs DiracProofs2.
From Verif Require Import StochModel StochSpec StochProofs StochProofs2 StochProofs3 StochProofs4 MesonModel MesonSpec MesonProofs MesonProofs2.
Import GRing.Theory Num.Theory.
Set Implicit Arguments.
Unset Strict Implicit.
Unset Printing Implicit Defensive.
Local Open Scope ring_scope.

Section Symmetries.
Variable C : numClosedFieldType.
Variable n : nat.
Variable G : grid.
Notation field := (G -> 'I_4 -> 'I_n -> C) (only parsing).
Notation g5m := (gamma_five C).
Notation g3 := (gamma C d3).
Variable kappa : C.
Implicit Types (U : G -> 'I_4 -> 'M[C]_n) (S : field -> field).
Notation tt := (ext G d3).

Lemma correlator_ext S S' A B A' B' (f : G -> G) o t s : injective f ->
  (forall x, two_point S' A B x o = two_point S A' B' (f x) (f o)) ->
  (forall x, (coord x d3 == ((coord o d3 + t) %% tt)%N) = (coord (f x) d3 == ((coord (f o) d3 + s) %% tt)%N)) ->
  correlator S' o A B t = correlator S (f o) A' B' s.
Proof.
move=> fi tp sl; rewrite /correlator [RHS](reindex_inj fi) /=; apply: eq_big => x; first exact: sl.
by move=> _; exact: tp.
Qed.
Lemma change1 (f : G -> G) (R : 'M[C]_4) (v : field) : feq (change f R (fun=> 1%:M) v) (fun x a c => \sum_(b < 4) R a b * v (f x) b c).
Proof.
move=> x a c; apply: eq_bigr => b _; congr (_ * _).
by rewrite (bigD1 c) //= big1 ?addr0 ?mxE ?eqxx ?mul1r // => e /negPf ne; rewrite mxE eq_sym ne mul0r.
Qed.
Lemma spin1 (f : 'I_4 -> C) a : \sum_(b < 4) (1%:M : 'M[C]_4) a b * f b = f a.
Proof. by rewrite (bigD1 a) //= big1 ?addr0 ?mxE ?eqxx ?mul1r // => b /negPf ne; rewrite mxE eq_sym ne mul0r. Qed.

(** Gauge transformations. *)
Lemma correlator_gauge U om S S' o A B t : (forall y, unitary (om y)) ->
  solves (dirac kappa U) S -> solves (dirac kappa (gauge_transform om U)) S' ->
  correlator S' o A B t = correlator S o A B t.
Proof.
move=> un s s'.
have lD := lin_dirac kappa U; have lD' := lin_dirac kappa (gauge_transform om U).
have ch (v : field) : feq (change id 1%:M om v) (rotate om v) by move=> x a c; rewrite /change (spin1 (fun b => \sum_e om x c e * v x b e)).
apply: (@correlator_ext S S' A B A B id) => // x.
rewrite (@two_point_change C n G id 1%:M 1%:M om (@inj_id _) _ un _ _ S S' lD lD' s s') ?mulmx1 ?mul1mx //.
by move=> v y a c; rewrite (dirac_ext _ _ (ch v)) dirac_gauge // ch.
Qed.
(** Translations. *)
Lemma modC a b m p q : (0 < m)%N -> (a < m)%N -> (a == (b + p) %% m)%N = (((a + q) %% m)%N == (((b + q) %% m + p) %% m)%N).
Proof.
move=> m0 am; rewrite modnDml -addnA (addnC q p) addnA eqn_modDr; by rewrite (modn_small am).
Qed.
Lemma t_pos (x : G) : (0 < tt)%N. Proof. exact: leq_ltn_trans (coord_lt x d3). Qed.
Section Shift.
Variable f : G -> G.
Variable k : nat.
Hypothesis fsup : forall mu x, f (sup mu x) = sup mu (f x).
Hypothesis fc : forall x, coord (f x) d3 = ((coord x d3 + k) %% tt)%N.
Hypothesis fi : injective f.
Lemma fsdn mu x : f (sdn mu x) = sdn mu (f x).
Proof. by apply: (can_inj (supK mu)); rewrite sdnK -fsup sdnK. Qed.
Lemma dirac_shift U (v : field) : feq (dirac kappa (fun x mu => U (f x) mu) (fun x => v (f x))) (fun x => dirac kappa U v (f x)).
Proof.
move=> x a c; rewrite /dirac; congr (_ - _ * _); rewrite !hoppingE'.
by apply: eq_bigr => mu _; apply: eq_bigr => b _; rewrite /up /dn !fsup !fsdn.
Qed.
Lemma correlator_shift U S S' o A B t :
  solves (dirac kappa U) S -> solves (dirac kappa (fun x mu => U (f x) mu)) S' ->
  correlator S' o A B t = correlator S (f o) A B t.
Proof.
move=> s s'.
have lD := lin_dirac kappa U; have lD' := lin_dirac kappa (fun x mu => U (f x) mu).
have un : forall y : G, unitary (1%:M : 'M[C]_n) by move=> y; exact: unitary1.
have ch (v : field) : feq (change f 1%:M (fun=> 1%:M) v) (fun x => v (f x)).
  by move=> x a c; rewrite change1 (spin1 (fun b => v (f x) b c)).
apply: correlator_ext fi _ _ => x; last by rewrite !fc; apply: modC (coord_lt _ _); exact: t_pos x.
rewrite (@two_point_change C n G f 1%:M 1%:M (fun=> 1%:M) fi _ un _ _ S S' lD lD' s s') ?mulmx1 ?mul1mx //.
by move=> v y a c; rewrite (dirac_ext _ _ (ch v)) dirac_shift ch.
Qed.
End Shift.
Lemma iter_sup nu j mu (x : G) : iter j (sup nu) (sup mu x) = sup mu (iter j (sup nu) x).
Proof. by elim: j => //= j ->; rewrite supC. Qed.
Lemma iter_inj nu j : injective (iter j (@sup G nu)).
Proof. by elim: j => [|j IH] x y //= /(can_inj (supK nu)) /IH. Qed.
Lemma coord_iter nu j (x : G) mu : coord (iter j (sup nu) x) mu = if mu == nu then ((coord x mu + j) %% ext G mu)%N else coord x mu.
Proof.
elim: j => [|j IH] /=; first by case: eqP => // _; rewrite addn0 modn_small ?coord_lt.
case: (mu =P nu) IH => [->|/eqP ne] IH; last by rewrite coord_other.
by rewrite coord_up IH -addn1 modnDml addn1 addnS.
Qed.
Lemma coord_translation k (x : G) mu : coord (translation k x) mu = ((coord x mu + k mu) %% ext G mu)%N.
Proof.
rewrite /translation !coord_iter; move: mu; apply: ord4P => /=; by [].
Qed.
Lemma translation_sup k mu (x : G) : translation k (sup mu x) = sup mu (translation k x).
Proof. by rewrite /translation !iter_sup. Qed.
Lemma translation_inj k : injective (@translation G k).
Proof. by move=> x y; rewrite /translation => /iter_inj /iter_inj /iter_inj /iter_inj. Qed.
Lemma correlator_translated U k S S' o A B t :
  solves (dirac kappa U) S -> solves (dirac kappa (translated k U)) S' -> correlator S' o A B t = correlator S (translation k o) A B t.
Proof.
apply: correlator_shift; [exact: translation_sup|move=> x; exact: coord_translation|exact: translation_inj].
Qed.
Lemma wrapE t U x mu : wrap t U x mu = U (iter t (sup d3) x) mu.
Proof. by rewrite /wrap; elim: t x => //= t IH x; rewrite {1}/wrap_once IH iter_sup. Qed.
Lemma solves_ext U V S : (forall x mu, U x mu = V x mu) -> solves (dirac kappa U) S -> solves (dirac kappa V) S.
Proof.
move=> e s v x a c; rewrite -[RHS](s v x a c) /dirac; congr (_ - _ * _); rewrite !hoppingE'.
by apply: eq_bigr => mu _; apply: eq_bigr => b _; rewrite /up /dn !e.
Qed.
Lemma correlator_wrap U k S S' o A B t :
  solves (dirac kappa U) S -> solves (dirac kappa (wrap k U)) S' -> correlator S' o A B t = correlator S (iter k (sup d3) o) A B t.
Proof.
move=> s s'; apply: (@correlator_shift (iter k (sup d3)) k) s _.
- by move=> mu x; exact: iter_sup.
- by move=> x; rewrite coord_iter eqxx.
- exact: iter_inj.
- by apply: solves_ext s' => x mu; exact: wrapE.
Qed.

(** Sum over the origins: the ends can be exchanged. *)
Lemma two_pointC S A B x o : two_point S A B x o = two_point S B A o x.
Proof.
rewrite /two_point exchange_big /=; apply: eq_bigr => c _; apply: eq_bigr => d _.
by rewrite -(mulmxA _ B) mxtrace_mulC mulmxA.
Qed.
Lemma backward a b p : (p <= tt)%N -> (a < tt)%N -> (b < tt)%N -> (a == ((b + p) %% tt)%N) = (b == ((a + (tt - p)) %% tt)%N).
Proof.
move=> pt at_ bt; rewrite -{1}(modn_small at_) -{2}(modn_small bt).
by rewrite -(eqn_modDr (tt - p) a) -addnA subnKC // modnDr eq_sym.
Qed.
Lemma origins S A B t : (t <= tt)%N -> \sum_(o : G) correlator S o A B t = \sum_(o : G) correlator S o B A (tt - t).
Proof.
move=> lt; rewrite /correlator (exchange_big_dep predT) //= [RHS](eq_bigr (fun o => \sum_(x | coord o d3 == ((coord x d3 + t) %% tt)%N) two_point S A B o x)).
  by [].
move=> o _; apply: eq_big => x; last by move=> _; rewrite two_pointC.
by rewrite [RHS]backward ?coord_lt.
Qed.

(** Time reflection. *)
Section Reflection.
Variable theta : G -> G.
Hypothesis refl : time_reflection theta.
Lemma theta_other mu x : mu != d3 -> coord (theta x) mu = coord x mu. Proof. exact: (refl x).1. Qed.
Lemma theta3 x : coord (theta x) d3 = ((tt - coord x d3) %% tt)%N. Proof. exact: (refl x).2. Qed.
Lemma negneg a : (a < tt)%N -> ((tt - (tt - a) %% tt) %% tt)%N = a.
Proof.
case: a => [|a] lt; first by rewrite subn0 modnn subn0 modnn.
by rewrite [((tt - a.+1) %% tt)%N]modn_small ?ltn_subrL ?(leq_ltn_trans _ lt) // subKn ?modn_small // ltnW.
Qed.
Lemma thetaK x : theta (theta x) = x.
Proof.
apply: coord_inj => mu; case: (mu =P d3) => [->|/eqP ne]; last by rewrite !theta_other.
by rewrite !theta3 negneg ?coord_lt.
Qed.
Lemma theta_sup mu x : mu != d3 -> theta (sup mu x) = sup mu (theta x).
Proof.
move=> ne; apply: coord_inj => nu; case: (nu =P mu) => [->|/eqP ne'].
  by rewrite theta_other // !coord_up theta_other.
rewrite (coord_other (theta x)) //; case: (nu =P d3) => [->|/eqP ne'']; last by rewrite !theta_other // coord_other.
by rewrite !theta3 coord_other // eq_sym.
Qed.
Lemma theta_sup3 x : sup d3 (theta (sup d3 x)) = theta x.
Proof.
apply: coord_inj => nu; case: (nu =P d3) => [->|/eqP ne]; last by rewrite coord_other // !theta_other // coord_other.
rewrite coord_up !theta3 coord_up; move: (coord_lt x d3); move: (coord x d3) => a lt.
case: (ltngtP a.+1 tt) lt => // [lt|e] _.
  rewrite (modn_small lt) [((tt - a.+1) %% tt)%N]modn_small ?ltn_subrL ?(leq_ltn_trans _ lt) //.
  by rewrite subnSK // ltnW.
by rewrite e modnn subn0 modnn -e subSnn.
Qed.
Lemma theta_sdn3 x : theta (sdn d3 x) = sup d3 (theta x).
Proof. by rewrite -(theta_sup3 (sdn d3 x)) sdnK. Qed.
Lemma theta_sup3' x : theta (sup d3 x) = sdn d3 (theta x).
Proof. by rewrite -(theta_sup3 x) supK. Qed.
Lemma theta_sdn mu x : mu != d3 -> theta (sdn mu x) = sdn mu (theta x).
Proof. by move=> ne; apply: (can_inj (supK mu)); rewrite sdnK -theta_sup // sdnK. Qed.
Notation R := (g5m *m g3).
Notation R' := (g3 *m g5m).
Lemma g33 : g3 *m g3 = 1%:M.
Proof.
rewrite g3E; apply/matrixP => a b; rewrite !mxE !big_ord_recl big_ord0 !mxE; move: a b.
by apply: ord4P; apply: ord4P; rewrite /= ?mul0r ?mul1r ?add0r ?addr0.
Qed.
Lemma RR : R *m R' = 1%:M.
Proof.
by rewrite mulmxA -(mulmxA g5m) g33 mulmx1 g55.
Qed.
Lemma gamma_R mu : mu != d3 -> gamma C mu *m R = R *m gamma C mu.
Proof.
have e : R = \matrix_(a, b) (if (a < 2)%N then (b == a + 2 :> nat)%N%:R else - (a == b + 2 :> nat)%N%:R).
  rewrite g5mE mul_diag_mx g3E; apply/matrixP => a b; rewrite !mxE; move: a b.
  by apply: ord4P; apply: ord4P; rewrite /sgn /= ?mulr1 ?mulr0 ?oppr0.
rewrite e => ne; apply/matrixP => a b; rewrite !mxE !big_ord_recl !big_ord0 !mxE; move: mu ne a b.
apply: ord4P => // _; apply: ord4P; apply: ord4P; rewrite /= ?gc0 ?gc1 ?gcm ?gci ?gcj ?oppr0 ?mulr0 ?mul0r ?mulr1 ?mul1r ?addr0 ?add0r ?mulrN1 ?mulN1r ?opprK //.
Qed.
Lemma gamma3_R : g3 *m R = - (R *m g3).
Proof. by rewrite mulmxA g53 mulNmx opprK. Qed.
Notation turn v := (fun x a c => \sum_(b < 4) R a b * v (theta x) b c).
Lemma mulv_turn (A : 'M[C]_n) (v : field) z b c :
  mulv A (fun c => \sum_(b' < 4) R b b' * v z b' c) c = \sum_(b' < 4) R b b' * mulv A (v z b') c.
Proof.
rewrite /mulv; under [RHS]eq_bigr do rewrite mulr_sumr.
rewrite exchange_big /=; apply: eq_bigr => e _; rewrite mulr_sumr; apply: eq_bigr => b' _; by rewrite mulrCA.
Qed.
Lemma up_turn U (v : field) x mu b c : up (reflected theta U) (turn v) x mu b c
  = \sum_(b' < 4) R b b' * (if mu == d3 then dn U v (theta x) mu b' c else up U v (theta x) mu b' c).
Proof.
rewrite /up /dn /reflected; case: (mu =P d3) => [->|/eqP ne].
  by rewrite theta_sup3' mulv_turn.
by rewrite theta_sup // mulv_turn.
Qed.
Lemma dn_turn U (v : field) x mu b c : dn (reflected theta U) (turn v) x mu b c
  = \sum_(b' < 4) R b b' * (if mu == d3 then up U v (theta x) mu b' c else dn U v (theta x) mu b' c).
Proof.
rewrite /up /dn /reflected; case: (mu =P d3) => [->|/eqP ne].
  by rewrite !theta_sdn3 supK htransK mulv_turn.
by rewrite !theta_sdn // mulv_turn.
Qed.
Lemma spin_assoc (A B : 'M[C]_4) (w : 'I_4 -> C) a : \sum_(b < 4) A a b * (\sum_(b' < 4) B b b' * w b') = \sum_(b' < 4) (A *m B) a b' * w b'.
Proof.
under eq_bigr do rewrite mulr_sumr.
rewrite exchange_big /=; apply: eq_bigr => b' _; rewrite mxE mulr_suml; apply: eq_bigr => b _; by rewrite mulrA.
Qed.
Lemma hopping_turn U (v : field) : feq (hopping (reflected theta U) (turn v)) (turn (hopping U v)).
Proof.
move=> x a c; rewrite hoppingE'; under [RHS]eq_bigr => b _ do rewrite hoppingE' mulr_sumr.
rewrite [RHS]exchange_big /=; apply: eq_bigr => mu _.
under eq_bigr => b _ do rewrite up_turn dn_turn.
under [RHS]eq_bigr => b _ do rewrite big_split /= mulrDr.
rewrite !big_split /= !spin_assoc.
case: (mu =P d3) => [->|/eqP ne].
  have e1 : (1%:M - g3) *m R = R *m (1%:M + g3) by rewrite mulmxBl mulmxDr gamma3_R opprK mul1mx mulmx1.
  have e2 : (1%:M + g3) *m R = R *m (1%:M - g3) by rewrite mulmxBr mulmxDl gamma3_R mul1mx mulmx1.
  by rewrite e1 e2 addrC.
by rewrite mulmxBl mulmxBr mulmxDl mulmxDr !gamma_R // !mul1mx !mulmx1.
Qed.
Lemma dirac_turn U (v : field) : feq (dirac kappa (reflected theta U) (turn v)) (turn (dirac kappa U v)).
Proof.
move=> x a c; rewrite /dirac hopping_turn mulr_sumr -sumrB.
by apply: eq_bigr => b _; rewrite mulrBr mulrCA.
Qed.
Lemma correlator_reflected U S S' o A B t : (t <= tt)%N ->
  solves (dirac kappa U) S -> solves (dirac kappa (reflected theta U)) S' ->
  correlator S' o A B t = correlator S (theta o) (R' *m A *m R) (R' *m B *m R) (tt - t).
Proof.
move=> lt s s'.
have lD := lin_dirac kappa U; have lD' := lin_dirac kappa (reflected theta U).
have un : forall y : G, unitary (1%:M : 'M[C]_n) by move=> y; exact: unitary1.
have fi : injective theta by apply: can_inj thetaK.
apply: (correlator_ext fi) => x.
  rewrite (@two_point_change C n G theta R R' (fun=> 1%:M) fi RR un _ _ S S' lD lD' s s') //.
  by move=> v y a c; rewrite (dirac_ext _ _ (change1 theta R v)) dirac_turn change1.
rewrite !theta3; move: (coord_lt x d3) (coord_lt o d3); move: (coord x d3) (coord o d3) => a b la lb.
rewrite modnDml -(eqn_modDr (a + (b + t))).
have -> : (tt - a + (a + (b + t)) = b + t + tt)%N by rewrite addnA subnK 1?addnC // ltnW.
have -> : (tt - b + (tt - t) + (a + (b + t)) = a + tt + tt)%N.
  rewrite addnCA -[RHS]addnA; congr (_ + _)%N.
  by rewrite addnACA subnK ?(ltnW lb) // subnK.
by rewrite !modnDr (modn_small la) eq_sym.
Qed.
Lemma axial_cancel U S S' t : (t <= tt)%N ->
  solves (dirac kappa U) S -> solves (dirac kappa (reflected theta U)) S' ->
  \sum_(o : G) (correlator S o g5m R' t + correlator S o R' g5m t) + \sum_(o : G) (correlator S' o g5m R' t + correlator S' o R' g5m t) = 0.
Proof.
move=> lt s s'.
have fi : injective theta by apply: can_inj thetaK.
have h5 : R' *m g5m *m R = - g5m.
  by rewrite -(mulmxA g3 g5m g5m) g55 mulmx1 g53 mulmxN mulmxA g33 mul1mx.
have hA : R' *m R' *m R = R' by rewrite -mulmxA (mulmx1C RR) mulmx1.
have e1 A B o : correlator S' o A B t = correlator S (theta o) (R' *m A *m R) (R' *m B *m R) (tt - t).
  exact: (correlator_reflected _ _ _ lt s s').
have lin A B o p : correlator S o (- A) B p = - correlator S o A B p /\ correlator S o A (- B) p = - correlator S o A B p.
  by split; rewrite /correlator -sumrN; apply: eq_bigr => x _; rewrite /two_point -sumrN; apply: eq_bigr => c _; rewrite -sumrN;
    apply: eq_bigr => d _; rewrite ?mulmxN !mulNmx (raddfN (mxtrace_additive _ _)).
under [X in _ + X]eq_bigr => o _ do rewrite !e1 h5 hA (lin _ _ _ _).1 (lin _ _ _ _).2 -opprD.
rewrite sumrN; apply/eqP; rewrite subr_eq0; apply/eqP.
have h := reindex_inj fi (op := GRing.add_comoid C) (P := predT) (F := fun o => correlator S o g5m R' (tt - t) + correlator S o R' g5m (tt - t)).
rewrite -[RHS]h !big_split /=.
by rewrite (origins S g5m R' lt) (origins S R' g5m lt) addrC.
Qed.
End Reflection.
End Symmetries.

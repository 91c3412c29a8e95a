(** Lemmas on transports, local changes of the actions and gauge transformations. *)
From Coq Require Import Ring Field.
From mathcomp Require Import all_ssreflect all_algebra.
From Verif Require Import GaugeModel GaugeSpec.
Import GRing.Theory Num.Theory.
Set Implicit Arguments.
Unset Strict Implicit.
Unset Printing Implicit Defensive.
Local Open Scope ring_scope.

(** A ring tactic for any field C of this kind, whatever the structure the operations are seen through. *)
Section CRing.
Variable C : numClosedFieldType.
Definition cadd (a b : C) : C := a + b.
Definition cmul (a b : C) : C := a * b.
Definition copp (a : C) : C := - a.
Definition c0 : C := 0.
Definition c1 : C := 1.
Lemma Crth : @ring_theory C c0 c1 cadd cmul (fun a b => cadd a (copp b)) copp eq.
Proof.
rewrite /cadd /cmul /copp /c0 /c1.
split=> *; rewrite ?add0r ?mul1r ?subrr //; first [exact: addrC | exact: addrA | exact: mulrC | exact: mulrA | exact: mulrDl].
Qed.
End CRing.
Ltac cring_fold C :=
  match goal with |- @eq _ ?a ?b => change (@eq (Num.ClosedField.sort C) a b) end;
  repeat match goal with
  | |- context [@GRing.add ?Z ?a ?b] => progress change (@GRing.add Z a b) with (@cadd C a b)
  | |- context [@GRing.mul ?Z ?a ?b] => progress change (@GRing.mul Z a b) with (@cmul C a b)
  | |- context [@GRing.opp ?Z ?a] => progress change (@GRing.opp Z a) with (@copp C a)
  | |- context [@GRing.zero ?Z] => progress change (@GRing.zero Z) with (@c0 C)
  | |- context [@GRing.one ?Z] => progress change (@GRing.one Z) with (@c1 C)
  end.

Section Facts.
Variable C : numClosedFieldType.
Variable n : nat.
Variable L : lattice.
Notation GaugeGroup := 'M[C]_n.
Implicit Types (A B : GaugeGroup) (U W : L -> 'I_4 -> GaugeGroup) (x y : L) (mu nu : 'I_4).

Lemma daggerE m k (A : 'M[C]_(m, k)) : dagger A = htrans A.
Proof. by apply/matrixP=> i j; rewrite !mxE. Qed.
Lemma htransK m k (A : 'M[C]_(m, k)) : htrans (htrans A) = A.
Proof. by apply/matrixP=> i j; rewrite !mxE conjCK. Qed.
Lemma htransM m k l (A : 'M[C]_(m, k)) (B : 'M[C]_(k, l)) : htrans (A *m B) = htrans B *m htrans A.
Proof. by rewrite /htrans map_mxM trmx_mul. Qed.
Lemma htransD m k (A B : 'M[C]_(m, k)) : htrans (A + B) = htrans A + htrans B.
Proof. by apply/matrixP=> i j; rewrite !mxE rmorphD. Qed.
Lemma htransN m k (A : 'M[C]_(m, k)) : htrans (- A) = - htrans A.
Proof. by apply/matrixP=> i j; rewrite !mxE rmorphN. Qed.
Lemma htransB m k (A B : 'M[C]_(m, k)) : htrans (A - B) = htrans A - htrans B.
Proof. by rewrite htransD htransN. Qed.
Lemma htransZ m k c (A : 'M[C]_(m, k)) : htrans (c *: A) = c^* *: htrans A.
Proof. by apply/matrixP=> i j; rewrite !mxE rmorphM. Qed.
Lemma htrans0 m k : htrans (0 : 'M[C]_(m, k)) = 0.
Proof. by apply/matrixP=> i j; rewrite !mxE conjC0. Qed.
Lemma htrans_sum (I : Type) (r : seq I) (P : pred I) m k (F : I -> 'M[C]_(m, k)) :
  htrans (\sum_(i <- r | P i) F i) = \sum_(i <- r | P i) htrans (F i).
Proof. by apply: (big_morph _ (@htransD m k) (htrans0 m k)). Qed.
Lemma htrans_scalar k c : htrans (c%:M : 'M[C]_k) = (c^*)%:M.
Proof. by apply/matrixP=> i j; rewrite !mxE rmorphMn eq_sym. Qed.
Lemma htrans1 k : htrans (1%:M : 'M[C]_k) = 1%:M.
Proof. by rewrite htrans_scalar conjC1. Qed.
Lemma tr_htrans k (A : 'M[C]_k) : \tr (htrans A) = (\tr A)^*.
Proof. by rewrite /mxtrace rmorph_sum /=; apply: eq_bigr=> i _; rewrite !mxE. Qed.

Lemma retr_htrans A : retr (htrans A) = retr A.
Proof. by rewrite /retr tr_htrans Re_conj. Qed.
Lemma retrC A B : retr (A *m B) = retr (B *m A).
Proof. by rewrite /retr mxtrace_mulC. Qed.
Lemma retrD A B : retr (A + B) = retr A + retr B.
Proof. by rewrite /retr mxtraceD raddfD. Qed.
Lemma retrN A : retr (- A) = - retr A.
Proof. by rewrite /retr (raddfN (mxtrace_additive _ _)) raddfN. Qed.
Lemma retrB A B : retr (A - B) = retr A - retr B.
Proof. by rewrite retrD retrN. Qed.
Lemma retr0 : retr (0 : GaugeGroup) = 0.
Proof. by rewrite /retr mxtrace0 raddf0. Qed.
Lemma retr_sum (I : Type) (r : seq I) (P : pred I) (F : I -> GaugeGroup) :
  retr (\sum_(i <- r | P i) F i) = \sum_(i <- r | P i) retr (F i).
Proof. exact: (big_morph _ retrD retr0). Qed.
Lemma retrZ c A : c \is Num.real -> retr (c *: A) = c * retr A.
Proof. by move=> cR; rewrite /retr mxtraceZ (ReMl cR). Qed.

(** Replacing a link. *)
Lemma set_here U x mu V : set_link U x mu V x mu = V.
Proof. by rewrite /set_link !eqxx. Qed.
Lemma set_dir U x mu V y nu : nu != mu -> set_link U x mu V y nu = U y nu.
Proof. by rewrite /set_link => /negPf ->; rewrite andbF. Qed.
Lemma set_site U x mu V y nu : y != x -> set_link U x mu V y nu = U y nu.
Proof. by rewrite /set_link => /negPf ->. Qed.

(** A sum over the lattice whose terms vanish outside a list of distinct sites. *)
Lemma sum_support (s : seq L) (F : L -> C) : uniq s -> (forall x, x \notin s -> F x = 0) ->
  \sum_(x : L) F x = \sum_(x <- s) F x.
Proof.
move=> us Fz; rewrite (bigID (mem s)) /= [X in _ + X]big1 ?addr0; last by move=> x /Fz.
by rewrite -big_uniq.
Qed.

(** Pairs of directions: those containing mu, and the others. *)
Lemma split_planes mu (F : 'I_4 -> 'I_4 -> C) : (forall a b, F a b = F b a) ->
  \sum_(a < 4) \sum_(b < 4 | (a < b)%N) F a b
  = \sum_(nu < 4 | nu != mu) F mu nu + \sum_(a < 4 | a != mu) \sum_(b < 4 | (a < b)%N && (b != mu)) F a b.
Proof.
move=> Fsym.
rewrite (bigD1 mu) //=.
have -> : \sum_(i < 4 | i != mu) \sum_(b < 4 | (i < b)%N) F i b
  = \sum_(i < 4 | i != mu) (if (i < mu)%N then F i mu else 0)
    + \sum_(a < 4 | a != mu) \sum_(b < 4 | (a < b)%N && (b != mu)) F a b.
  rewrite -big_split /=; apply: eq_bigr => i ne.
  case: ifP => lt.
    by rewrite (bigD1 mu) //=.
  rewrite add0r; apply: eq_bigl => b; case: eqP => [->|_]; rewrite ?andbT // lt //.
rewrite addrA; congr (_ + _).
rewrite -big_mkcondr /= [RHS](bigID (fun nu : 'I_4 => (mu < nu)%N)) /=; congr (_ + _).
  apply: eq_bigl => i; case: (i =P mu) => [->|_] //=; by rewrite ltnn.
apply: eq_big => [i|i _]; last by rewrite Fsym.
case: (i =P mu) => //= ne; rewrite -leqNgt ltn_neqAle.
by have -> : (i != mu :> nat) by apply/eqP => E; apply: ne; apply: val_inj.
Qed.

Section Local.
Variables (U : L -> 'I_4 -> GaugeGroup) (x0 : L) (mu : 'I_4) (V : GaugeGroup).
Notation U' := (set_link U x0 mu V).

Definition pl U x mu nu : C := retr (U x mu *m (U (sup mu x) nu *m htrans (U (sup nu x) mu) *m htrans (U x nu))).
Lemma pl_sym W x a b : pl W x a b = pl W x b a.
Proof. by rewrite /pl -retr_htrans !htransM !htransK !mulmxA. Qed.

Definition up W x mu nu : GaugeGroup := W (sup mu x) nu *m htrans (W (sup nu x) mu) *m htrans (W x nu).
Definition down W x mu nu : GaugeGroup :=
  htrans (W (sup mu (sdn nu x)) nu) *m htrans (W (sdn nu x) mu) *m W (sdn nu x) nu.

Lemma pl_down W y nu : pl W (sdn nu y) mu nu = retr (W y mu *m down W y mu nu).
Proof.
rewrite /pl /down sdnK -retr_htrans !htransM !htransK !mulmxA.
by rewrite -[X in retr X = _]mulmxA -[X in retr X = _]mulmxA retrC !mulmxA.
Qed.

Lemma sdnC a b x : sdn a (sdn b x) = sdn b (sdn a x) :> L.
Proof. by apply: (can_inj (supK b)); apply: (can_inj (supK a)); rewrite [LHS]supC !sdnK. Qed.
Lemma sup_sdnC a b x : sup a (sdn b x) = sdn b (sup a x) :> L.
Proof. by apply: (can_inj (supK b)); rewrite supC !sdnK. Qed.
Lemma sup_eq a x y : (sup a x == y :> L) = (x == sdn a y).
Proof. by apply/eqP/eqP => [<-|->]; rewrite ?supK ?sdnK. Qed.
Lemma sdn_eq a x y : (sdn a x == y :> L) = (x == sup a y).
Proof. by apply/eqP/eqP => [<-|->]; rewrite ?supK ?sdnK. Qed.

Variable nu : 'I_4.
Hypothesis ne : nu != mu.
Let nd y : U' y nu = U y nu.
Proof. exact: set_dir. Qed.

Definition chg A : C := retr (V *m A) - retr (U x0 mu *m A).

Lemma pl_change : sup nu x0 <> x0 ->
  \sum_(x : L) (pl U' x mu nu - pl U x mu nu) = chg (up U x0 mu nu) + chg (down U x0 mu nu).
Proof.
move=> d1.
have e1 : sup nu x0 != x0 by apply/eqP.
have e2 : sdn nu x0 != x0 by rewrite sdn_eq eq_sym.
rewrite (@sum_support [:: x0; sdn nu x0]).
- rewrite big_cons big_seq1 /chg; congr (_ + _).
    by rewrite /pl /up set_here !nd set_site.
  by rewrite !pl_down /down set_here !nd set_site.
- by rewrite /= andbT inE eq_sym.
- move=> x; rewrite !inE negb_or => /andP[n1 n2].
  by rewrite /pl !nd !set_site ?sup_eq // subrr.
Qed.

(** Rectangles, long in the first direction and long in the second. *)
Definition rl W x mu nu : C := retr (W x mu *m (W (sup mu x) mu *m W (sup mu (sup mu x)) nu *m htrans (W (sup nu (sup mu x)) mu)
  *m htrans (W (sup nu x) mu) *m htrans (W x nu))).
Definition rs W x mu nu : C := retr (W x mu *m (W (sup mu x) nu *m W (sup nu (sup mu x)) nu *m htrans (W (sup nu (sup nu x)) mu)
  *m htrans (W (sup nu x) nu) *m htrans (W x nu))).
Lemma rs_rl W x a b : rs W x a b = rl W x b a.
Proof. by rewrite /rs /rl -retr_htrans !htransM !htransK !mulmxA (supC a b). Qed.

Definition r3 W x mu nu : GaugeGroup := W (sup mu x) mu *m W (sup mu (sup mu x)) nu *m htrans (W (sup nu (sup mu x)) mu) *m htrans (W (sup nu x) mu) *m htrans (W x nu).
Definition r4 W x mu nu : GaugeGroup := W (sup mu x) nu *m htrans (W (sup nu x) mu) *m htrans (W (sup nu (sdn mu x)) mu) *m htrans (W (sdn mu x) nu) *m W (sdn mu x) mu.
Definition r5 W x mu nu : GaugeGroup := W (sup mu x) mu *m htrans (W (sdn nu (sup mu (sup mu x))) nu) *m htrans (W (sup mu (sdn nu x)) mu) *m htrans (W (sdn nu x) mu) *m W (sdn nu x) nu.
Definition r6 W x mu nu : GaugeGroup := htrans (W (sup mu (sdn nu x)) nu) *m htrans (W (sdn nu x) mu) *m htrans (W (sdn nu (sdn mu x)) mu) *m W (sdn nu (sdn mu x)) nu *m W (sdn mu x) mu.
Definition r7 W x mu nu : GaugeGroup := W (sup mu x) nu *m W (sup nu (sup mu x)) nu *m htrans (W (sup nu (sup nu x)) mu) *m htrans (W (sup nu x) nu) *m htrans (W x nu).
Definition r8 W x mu nu : GaugeGroup := htrans (W (sup mu (sdn nu x)) nu) *m htrans (W (sup mu (sdn nu (sdn nu x))) nu) *m htrans (W (sdn nu (sdn nu x)) mu) *m W (sdn nu (sdn nu x)) nu *m W (sdn nu x) nu.

Lemma rl4 W y : rl W (sdn mu y) mu nu = retr (W y mu *m r4 W y mu nu).
Proof. by rewrite /rl /r4 sdnK retrC !mulmxA. Qed.
Lemma rl5 W y : rl W (sdn nu y) mu nu = retr (W y mu *m r5 W y mu nu).
Proof.
rewrite /rl /r5 sdnK [sup nu (sup mu _)]supC sdnK -retr_htrans !htransM !htransK !mulmxA.
rewrite -[X in retr X = _]mulmxA -[X in retr X = _]mulmxA -[X in retr X = _]mulmxA -[X in retr X = _]mulmxA retrC !mulmxA.
by rewrite !sup_sdnC.
Qed.
Lemma rl6 W y : rl W (sdn mu (sdn nu y)) mu nu = retr (W y mu *m r6 W y mu nu).
Proof.
rewrite /rl /r6 sdnK sdnK [sdn mu (sdn nu y)]sdnC sdnK -retr_htrans !htransM !htransK !mulmxA.
by rewrite -[X in retr X = _]mulmxA -[X in retr X = _]mulmxA -[X in retr X = _]mulmxA retrC !mulmxA.
Qed.
Lemma rs8 W y : rs W (sdn nu (sdn nu y)) mu nu = retr (W y mu *m r8 W y mu nu).
Proof.
rewrite /rs /r8 !sdnK [sup nu (sup mu _)]supC sdnK -retr_htrans !htransM !htransK !mulmxA.
by rewrite -[X in retr X = _]mulmxA -[X in retr X = _]mulmxA -[X in retr X = _]mulmxA retrC !mulmxA.
Qed.

Hypothesis e3 : extent3 L.
Let e_up a : sup a x0 != x0. Proof. by apply/eqP; case: e3 => H _; apply: H. Qed.
Let e_dn a : sdn a x0 != x0. Proof. by rewrite sdn_eq eq_sym e_up. Qed.
Let e_up2 a : sup a (sup a x0) != x0. Proof. by apply/eqP; case: e3 => _ [H _]; apply: H. Qed.
Let e_dn2 a : sdn a (sdn a x0) != x0. Proof. by rewrite !sdn_eq eq_sym e_up2. Qed.
Let e_uu : sup nu (sup mu x0) != x0.
Proof. by apply/eqP; case: e3 => _ [_ H]; apply: (proj2 (H _ _ _ _)); apply/eqP. Qed.
Let e_dd : sdn nu (sdn mu x0) != x0. Proof. by rewrite !sdn_eq eq_sym supC e_uu. Qed.
Let e_ud : sup nu (sdn mu x0) != x0.
Proof.
by rewrite sup_sdnC sdn_eq; apply/eqP; case: e3 => _ [_ H]; apply: (proj1 (H _ _ _ _)); apply/eqP.
Qed.
Let e_du : sup mu (sdn nu x0) != x0.
Proof. by rewrite sup_eq eq_sym -sup_eq e_ud. Qed.

Lemma rl_change :
  \sum_(x : L) (rl U' x mu nu - rl U x mu nu)
  = chg (r3 U x0 mu nu) + (chg (r4 U x0 mu nu) + (chg (r5 U x0 mu nu) + chg (r6 U x0 mu nu))).
Proof.
rewrite (@sum_support [:: x0; sdn mu x0; sdn nu x0; sdn mu (sdn nu x0)]).
- rewrite !big_cons big_nil addr0 /chg; congr (_ + (_ + (_ + _))).
  + by rewrite /rl /r3 set_here !nd !set_site ?e_up ?e_uu.
  + by rewrite !rl4 /r4 set_here !nd !set_site ?e_up ?e_ud ?e_dn.
  + by rewrite !rl5 /r5 set_here !nd !set_site ?e_up ?e_du ?e_dn.
  + by rewrite !rl6 /r6 set_here !nd !set_site ?e_dn ?e_dd.
- rewrite /= !inE !negb_or !andbT.
  have E1 : x0 != sdn mu x0 by rewrite eq_sym e_dn.
  have E2 : x0 != sdn nu x0 by rewrite eq_sym e_dn.
  have E3 : x0 != sdn mu (sdn nu x0) by rewrite eq_sym sdnC e_dd.
  have E4 : sdn mu x0 != sdn nu x0 by rewrite -sup_eq e_ud.
  have E5 : sdn mu x0 != sdn mu (sdn nu x0) by rewrite (inj_eq (can_inj (sdnK mu))).
  have E6 : sdn nu x0 != sdn mu (sdn nu x0) by rewrite sdnC (inj_eq (can_inj (sdnK nu))).
  by rewrite E1 E2 E3 E4 E5 E6.
- move=> x; rewrite !inE !negb_or => /and4P[n1 n2 n3 n4].
  by rewrite /rl !nd !set_site ?sup_eq ?(sdnC nu mu) // subrr.
Qed.
Lemma rs_change :
  \sum_(x : L) (rs U' x mu nu - rs U x mu nu) = chg (r7 U x0 mu nu) + chg (r8 U x0 mu nu).
Proof.
rewrite (@sum_support [:: x0; sdn nu (sdn nu x0)]).
- rewrite !big_cons big_nil addr0 /chg; congr (_ + _).
  + by rewrite /rs /r7 set_here !nd !set_site ?e_up2.
  + by rewrite !rs8 /r8 set_here !nd !set_site ?e_dn2.
- by rewrite /= !inE !andbT eq_sym e_dn2.
- move=> x; rewrite !inE !negb_or => /andP[n1 n2].
  by rewrite /rs !nd !set_site ?sup_eq // subrr.
Qed.
End Local.
End Facts.

(** * Local change against global change. *)
Section Change.
Variable C : numClosedFieldType.
Variable n : nat.
Variable L : lattice.
Notation GaugeGroup := 'M[C]_n.
Add Ring Cring2 : (Crth C).
Ltac cring := cring_fold C; ring.

Lemma wilson_energyE beta (U : gauge C n L) :
  wilson_energy beta U = - (beta / n%:R) * \sum_(x : L) \sum_(a < 4) \sum_(b < 4 | (a < b)%N) pl U x a b.
Proof.
rewrite /wilson_energy mulr_sumr; apply: eq_bigr => x _; rewrite mulr_sumr; apply: eq_bigr => a _.
by rewrite mulmx_sumr retr_sum.
Qed.

Definition impl u0 (U : gauge C n L) x a b : C :=
  c_plaq C * pl U x a b - c_rect u0 * (rl U x a b + rs U x a b).
Lemma c_plaq_real : c_plaq C \is Num.real.
Proof. by rewrite /c_plaq rpred_div // realn. Qed.
Lemma c_rect_real (u0 : C) : u0 \is Num.real -> c_rect u0 \is Num.real.
Proof. by move=> h; rewrite /c_rect rpred_div ?rpred1 ?rpredM ?realn. Qed.
Lemma improved_energyE beta u0 (U : gauge C n L) : u0 \is Num.real ->
  improved_energy beta u0 U = - (beta / n%:R) * \sum_(x : L) \sum_(a < 4) \sum_(b < 4 | (a < b)%N) impl u0 U x a b.
Proof.
move=> /c_rect_real h; rewrite /improved_energy mulr_sumr; apply: eq_bigr => x _; rewrite mulr_sumr; apply: eq_bigr => a _.
rewrite mulmx_sumr retr_sum; congr (_ * _); apply: eq_bigr => b _.
rewrite !mulmxBr -!scalemxAr !retrB !retrZ ?c_plaq_real // /impl mulrDr opprD addrA /pl /rl /rs.
by [].
Qed.

Lemma sum_planes_change (mu : 'I_4) (F G : L -> 'I_4 -> 'I_4 -> C) :
  (forall x a b, F x a b = F x b a) -> (forall x a b, G x a b = G x b a) ->
  (forall x a b, a != mu -> b != mu -> F x a b = G x a b) ->
  \sum_(x : L) \sum_(a < 4) \sum_(b < 4 | (a < b)%N) F x a b
  - \sum_(x : L) \sum_(a < 4) \sum_(b < 4 | (a < b)%N) G x a b
  = \sum_(nu < 4 | nu != mu) \sum_(x : L) (F x mu nu - G x mu nu).
Proof.
move=> Fs Gs E; rewrite [RHS]exchange_big /= -sumrB; apply: eq_bigr => x _.
rewrite (split_planes mu (Fs x)) (split_planes mu (Gs x)) sumrB.
have -> : \sum_(a < 4 | a != mu) \sum_(b < 4 | (a < b)%N && (b != mu)) F x a b
  = \sum_(a < 4 | a != mu) \sum_(b < 4 | (a < b)%N && (b != mu)) G x a b.
  by apply: eq_bigr => a Ha; apply: eq_bigr => b /andP[_ Hb]; apply: E.
by rewrite opprD addrACA subrr addr0.
Qed.

Lemma chgD (U : gauge C n L) x0 mu V A B : chg U x0 mu V (A + B) = chg U x0 mu V A + chg U x0 mu V B.
Proof. rewrite /chg !mulmxDr !retrD; cring. Qed.
Lemma chgN (U : gauge C n L) x0 mu V A : chg U x0 mu V (- A) = - chg U x0 mu V A.
Proof. rewrite /chg !mulmxN !retrN; cring. Qed.
Lemma chgZ (U : gauge C n L) x0 mu V c A : c \is Num.real -> chg U x0 mu V (c *: A) = c * chg U x0 mu V A.
Proof. by move=> h; rewrite /chg -!scalemxAr !retrZ // mulrBr. Qed.
Lemma chg0 (U : gauge C n L) x0 mu V : chg U x0 mu V 0 = 0.
Proof. by rewrite /chg !mulmx0 subrr. Qed.
Lemma chg_sum (U : gauge C n L) x0 mu V (P : pred 'I_4) F :
  chg U x0 mu V (\sum_(nu < 4 | P nu) F nu) = \sum_(nu < 4 | P nu) chg U x0 mu V (F nu).
Proof. exact: (big_morph _ (@chgD U x0 mu V) (chg0 U x0 mu V)). Qed.

Lemma wilson_change beta (U : gauge C n L) x0 mu V : extent2 L ->
  wilson_energy beta (set_link U x0 mu V) - wilson_energy beta U
  = delta_action beta U V (wilson_staple U x0 mu) x0 mu.
Proof.
move=> e2; rewrite !wilson_energyE -mulrBr (sum_planes_change (mu := mu)).
- rewrite (eq_bigr _ (fun nu ne => pl_change U V ne (@e2 nu x0))).
  rewrite /delta_action -/(chg U x0 mu V _) /wilson_staple chg_sum.
  under [in RHS]eq_bigr => nu _ do rewrite chgD.
  by rewrite [RHS]mulrAC [in RHS]mulNr.
- by move=> *; apply: pl_sym.
- by move=> *; apply: pl_sym.
- by move=> x a b Ha Hb; rewrite /pl !set_dir.
Qed.

Lemma change_arith (cp cr P P' R R' S S' u d t3 t4 t5 t6 t7 t8 : C) :
  P - P' = u + d -> R - R' = t3 + (t4 + (t5 + t6)) -> S - S' = t7 + t8 ->
  cp * P - cr * (R + S) - (cp * P' - cr * (R' + S'))
  = cp * u + cp * d - cr * t3 - cr * t4 - cr * t5 - cr * t6 - cr * t7 - cr * t8.
Proof.
move=> h1 h2 h3.
transitivity (cp * (P - P') - cr * ((R - R') + (S - S'))); first by cring.
rewrite h1 h2 h3; cring.
Qed.

Lemma improved_change beta u0 (U : gauge C n L) x0 mu V : u0 \is Num.real -> extent3 L ->
  improved_energy beta u0 (set_link U x0 mu V) - improved_energy beta u0 U
  = delta_action beta U V (improved_staple u0 U x0 mu) x0 mu.
Proof.
move=> uR e3; have cR := c_rect_real uR; rewrite !improved_energyE // -mulrBr (sum_planes_change (mu := mu)).
- rewrite /delta_action -/(chg U x0 mu V _) /improved_staple chg_sum [RHS]mulrAC [in RHS]mulNr; congr (_ * _).
  apply: eq_bigr => nu ne.
  rewrite !chgD !chgN !chgZ ?c_plaq_real //.
  have h3 := pl_change U V ne (proj1 e3 nu x0).
  have h2 := rl_change U x0 V ne e3; have h1 := rs_change U x0 V ne e3.
  rewrite !sumrB in h1 h2 h3.
  rewrite /impl !sumrB -!mulr_sumr !big_split /=.
  exact: change_arith h3 h2 h1.
- by move=> x a b; rewrite /impl pl_sym !rs_rl [rl _ _ a b + _]addrC.
- by move=> x a b; rewrite /impl pl_sym !rs_rl [rl _ _ a b + _]addrC.
- by move=> x a b Ha Hb; rewrite /impl /pl /rl /rs !set_dir.
Qed.
End Change.

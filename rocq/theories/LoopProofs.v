From mathcomp Require Import all_ssreflect all_algebra.
From Verif Require Import GaugeModel GaugeSpec GaugeProofs GaugeProofs2 GaugeProofs3 LoopModel.
Import GRing.Theory Num.Theory.
Set Implicit Arguments.
Unset Strict Implicit.
Unset Printing Implicit Defensive.
Local Open Scope ring_scope.

Section Wilson.
Variable C : numClosedFieldType.
Variable n : nat.
Variable L : lattice.
Implicit Types (U : L -> 'I_4 -> 'M[C]_n) (x : L) (mu nu : 'I_4).

Lemma endpoint_nseq x mu k : endpoint x (nseq k (fwd mu)) = iter k (sup mu) x.
Proof. by elim: k x => [|k IH] x //; rewrite iterSr -IH. Qed.
Lemma shiftedE (f : L -> 'M[C]_n) mu k x : shifted mu k f x = f (iter k (sup mu) x).
Proof. by elim: k x => [|k IH] x //; rewrite /shifted iterS -/(shifted mu k f) IH -iterSr. Qed.
Lemma transport_nseqS U x mu k :
  transport U x (nseq k.+1 (fwd mu)) = transport U x (nseq k (fwd mu)) *m U (iter k (sup mu) x) mu.
Proof.
have -> : nseq k.+1 (fwd mu) = nseq k (fwd mu) ++ [:: fwd mu] by elim: k => //= k ->.
by rewrite transport_cat /= mulmx1 endpoint_nseq.
Qed.
Lemma lineE U mu t x : line U mu t x = transport U x (nseq t.+1 (fwd mu)).
Proof.
rewrite /line.
have H : forall t, (forall x, (iter t (line_step mu) ((fun x => U x mu), (fun x => U x mu))).1 x = transport U x (nseq t.+1 (fwd mu)))
   /\ (forall x, (iter t (line_step mu) ((fun x => U x mu), (fun x => U x mu))).2 x = U (iter t (sup mu) x) mu).
  elim=> [|k [I1 I2]]; first by split=> y //=; rewrite mulmx1.
  split=> y; rewrite iterS; move: I1 I2; case: (iter k (line_step mu) _) => a b I1 I2.
    by rewrite [RHS]transport_nseqS iterSr -I1 -I2.
  by rewrite [LHS]I2 -iterSr.
by case: (H t).
Qed.
Lemma rev_nseq k mu : rev_path (nseq k (fwd mu)) = nseq k (bwd mu).
Proof.
rewrite /rev_path map_nseq; elim: k => //= k IH; rewrite rev_cons IH.
by elim: (k) => //= m ->.
Qed.
Lemma sup_iterC mu nu k (x : L) : sup mu (iter k (sup nu) x) = iter k (sup nu) (sup mu x).
Proof. by elim: k => //= k <-; rewrite supC. Qed.
Lemma iterC mu nu j k (x : L) : iter j (sup mu) (iter k (sup nu) x) = iter k (sup nu) (iter j (sup mu) x).
Proof. by elim: j => //= j ->; rewrite sup_iterC. Qed.

(** The two halves of a rectangle. *)
Lemma rect_split mu nu a b :
  rectangle mu nu a b = (nseq a (fwd mu) ++ nseq b (fwd nu)) ++ rev_path (nseq b (fwd nu) ++ nseq a (fwd mu)).
Proof. by rewrite /rev_path map_cat rev_cat -!/(rev_path _) !rev_nseq /rectangle !catA. Qed.
Lemma rect_end2 x mu nu a b :
  endpoint x (nseq a (fwd mu) ++ nseq b (fwd nu)) = endpoint x (nseq b (fwd nu) ++ nseq a (fwd mu)).
Proof. by rewrite !endpoint_cat !endpoint_nseq iterC. Qed.
Lemma rectangle_closed x mu nu a b : endpoint x (rectangle mu nu a b) = x.
Proof. by rewrite rect_split endpoint_cat rect_end2 endpoint_rev. Qed.
Lemma rectangle_transport U x mu nu a b :
  transport U x (rectangle mu nu a b)
  = transport U x (nseq a (fwd mu)) *m transport U (iter a (sup mu) x) (nseq b (fwd nu))
    *m htrans (transport U (iter b (sup nu) x) (nseq a (fwd mu))) *m htrans (transport U x (nseq b (fwd nu))).
Proof.
rewrite rect_split transport_cat rect_end2 transport_rev !transport_cat !endpoint_nseq htransM.
by rewrite !mulmxA.
Qed.
Lemma wilson_loopE U td r t : wilson_loop_value U td r t
  = (\sum_(x : L) loop_re U x (rectangle ord0 td r.+1 t.+1)) / (n%:R * #|L|%:R).
Proof.
congr (_ / _); apply: eq_bigr => x _.
by rewrite !lineE !shiftedE !lineE /loop_re rectangle_transport.
Qed.
End Wilson.

Section Polyakov.
Variable C : numClosedFieldType.
Variable n : nat.
Variable L : grid.
Implicit Types (U : gauge C n L) (x : L) (mu nu : 'I_4).

Lemma polyakov_fieldE U nu x : coord x nu = 0%N ->
  polyakov_field U nu x = transport U x (nseq (ext L nu) (fwd nu)).
Proof.
move=> c0; rewrite /polyakov_field; move: (ext L nu) => k.
have H : forall k, (iter k (polyakov_step nu) (fun=> 1%:M, U)).1 x = transport U x (nseq k (fwd nu))
   /\ (forall y, (iter k (polyakov_step nu) (fun=> 1%:M, U)).2 y = U (iter k (sup nu) y)).
  elim=> [|m [I1 I2]] //; split=> [|y]; rewrite iterS; move: I1 I2; case: (iter m (polyakov_step nu) _) => a b I1 I2.
    by rewrite transport_nseqS -I1 -I2 /polyakov_step /= c0.
  by rewrite [LHS]I2 -iterSr.
by case: (H k).
Qed.

Lemma ext_gt0 x mu : (0 < ext L mu)%N.
Proof. exact: leq_ltn_trans (leq0n _) (coord_lt x mu). Qed.
Lemma coord_iter x mu k : coord (iter k (sup mu) x) mu = ((coord x mu + k) %% ext L mu)%N.
Proof.
elim: k => [|k IH]; first by rewrite addn0 modn_small // coord_lt.
by rewrite iterS coord_up IH -addn1 modnDml addn1 addnS.
Qed.
Lemma coord_iter_other x mu nu k : nu != mu -> coord (iter k (sup mu) x) nu = coord x nu.
Proof. by move=> ne; elim: k => //= k <-; rewrite coord_other. Qed.
Lemma iter_ext x mu : iter (ext L mu) (sup mu) x = x.
Proof.
apply: coord_inj => nu; case: (altP (nu =P mu)) => [->|ne]; last by rewrite coord_iter_other.
by rewrite coord_iter modnDr modn_small // coord_lt.
Qed.
Lemma straight_closed x nu : endpoint x (nseq (ext L nu) (fwd nu)) = x.
Proof. by rewrite endpoint_nseq iter_ext. Qed.

(** Starting the straight loop one site further does not change its trace. *)
Lemma straight_shift U x nu :
  \tr (transport U (sup nu x) (nseq (ext L nu) (fwd nu))) = \tr (transport U x (nseq (ext L nu) (fwd nu))).
Proof.
case: (ext L nu) (iter_ext x nu) (ext_gt0 x nu) => // k e _.
rewrite [RHS]/= [transport U (sup nu x) _]transport_nseqS /= /hop /move /=.
by rewrite -iterSr e mxtrace_mulC.
Qed.
Lemma straight_iter U x nu k :
  \tr (transport U (iter k (sup nu) x) (nseq (ext L nu) (fwd nu))) = \tr (transport U x (nseq (ext L nu) (fwd nu))).
Proof. by elim: k => //= k <-; rewrite straight_shift. Qed.

(** A sum over the lattice of a function constant along nu. *)
Lemma iter_sup_bij nu k : bijective (iter k (@sup L nu)).
Proof.
apply: (@Bijective _ _ _ (iter k (@sdn L nu))) => x; elim: k x => // k IH x.
  by rewrite iterSr [iter k.+1 _ x]iterS supK IH.
by rewrite iterSr [iter k.+1 _ x]iterS sdnK IH.
Qed.
Lemma sum_slices nu (F : L -> C) : (forall x, F (sup nu x) = F x) ->
  \sum_(x : L) F x = (ext L nu)%:R * \sum_(x : L | coord x nu == 0%N) F x.
Proof.
move=> inv.
have invk k x : F (iter k (sup nu) x) = F x by elim: k => //= k <-.
case: (pickP (fun _ : L => true)) => [x0 _|none]; last first.
  by rewrite !big1 ?mulr0 // => x; have := none x.
have e0 := ext_gt0 x0 nu.
rewrite (partition_big (fun x => inord (coord x nu) : 'I_(ext L nu).-1.+1) predT) //=.
rewrite (eq_bigr (fun _ => \sum_(x : L | coord x nu == 0%N) F x)) => [|i _].
  by rewrite sumr_const card_ord prednK // mulr_natl.
have [g gK Kg] := iter_sup_bij nu i.
rewrite (reindex (iter i (sup nu))) /=; last by exists g => y _.
apply: eq_big => [y|y _]; last exact: invk.
rewrite coord_iter.
have cl := coord_lt y nu.
have il : (i < ext L nu)%N by have := ltn_ord i; rewrite [X in (_ < X)%N -> _]prednK.
have ml : ((coord y nu + i) %% ext L nu < (ext L nu).-1.+1)%N by rewrite [X in (_ < X)%N]prednK // ltn_pmod.
apply/eqP/eqP => [/(congr1 val)|c].
  rewrite /= inordK // -[X in _ = X](modn_small il) => /eqP.
  by rewrite -[X in (_ == X %[mod _])%N]add0n eqn_modDr mod0n modn_small // => /eqP.
by apply: val_inj; rewrite /= inordK // c add0n modn_small.
Qed.
Lemma polyakovE U nu : polyakov_loop U nu
  = (\sum_(x : L | coord x nu == 0%N) \tr (transport U x (nseq (ext L nu) (fwd nu)))) / (n * spatial_volume L)%:R.
Proof. by congr (_ / _); apply: eq_bigr => x /eqP c; rewrite polyakov_fieldE. Qed.
Lemma polyakov_all U nu : polyakov_loop U nu * (ext L nu)%:R
  = (\sum_(x : L) \tr (transport U x (nseq (ext L nu) (fwd nu)))) / (n * spatial_volume L)%:R.
Proof.
rewrite polyakovE (@sum_slices nu) => [|x]; last exact: straight_shift.
by rewrite mulrC mulrA.
Qed.
End Polyakov.

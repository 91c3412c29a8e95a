(** The force of the improved operator is the gradient of its action: any representation of the links. *)
From Coq Require Import List Ring.
From mathcomp Require Import all_ssreflect all_algebra.
From Verif Require Import GaugeModel GaugeSpec GaugeProofs GaugeProofs2 GammaModel DiracModel DiracSpec DiracProofs DiracProofs2.
From Verif Require Import AdjModel CloverModel CloverSpec CloverProofs2 FForceModel FForceSpec FForceProofs VecProofs FForceProofs2 FForceProofs3 FForceProofs4.
From Verif Require Import AdjSpec FForceProofs5 CForceModel CForceSpec CForceProofs CForceProofs2 CForceProofs3 CForceProofs4.
Import Order.POrderTheory GRing.Theory Num.Theory.
Set Implicit Arguments.
Unset Strict Implicit.
Unset Printing Implicit Defensive.
Local Open Scope ring_scope.

Section Run.
Variable C : numClosedFieldType.
Variable n : nat.
Variable L : lattice.
Notation field := (L -> 'I_4 -> 'I_n -> C) (only parsing).
Notation links := (L -> 'I_4 -> 'M[C]_n) (only parsing).
Notation part := (field * seq (C * field))%type (only parsing).
Implicit Types (V W M : links) (X Y : field) (x : L) (mu nu : 'I_4) (m : terms C n L).
Lemma proj_ext (ikc : C) mu nu (w w' : 'I_4 -> 'I_n -> C) a : (forall b, w b =1 w' b) -> proj_spinor ikc mu nu w a =1 proj_spinor ikc mu nu w' a.
Proof. by move=> h c; rewrite !proj_spinorE; congr (_ * _); apply: eq_bigr => b _; rewrite h. Qed.
Lemma loop_ext (ikc : C) m X Y Y' x mu i s : feq Y Y' -> clover_term_loop ikc m X Y x mu i s = clover_term_loop ikc m X Y' x mu i s.
Proof.
move=> E; apply: eq_bigr => nu _; apply: eq_bigr => a _; congr (_ + _); apply: tensor_ext => c; rewrite ?on_leftE ?on_rightE //.
  by apply: mulv_ext => e; apply: proj_ext => b d; exact: E.
by apply: mulv_ext => e; exact: E.
Qed.
Lemma clover_derivative_ext k csw m V X Y Y' x mu : feq Y Y' -> clover_derivative k csw m V X Y x mu = clover_derivative k csw m V X Y' x mu.
Proof. by move=> E; rewrite /clover_derivative !(loop_ext _ _ _ _ _ _ _ E) (derivative_ext _ _ _ _ _ E). Qed.
(** What the loops accumulate. *)
Definition total k csw V (run : seq part) x mu : 'M[C]_n :=
  - \sum_(q <- run) \sum_(t <- q.2) t.1 *: clover_derivative k csw (Terms (left_matrix V) (right_matrix V)) V t.2 (hermitian_clover k csw V t.2) x mu.
Variables (adj : bool) (f : cforce C n L) (o : improved C n L).
Hypothesis g5on : im_gamma5 o = true.
Hypothesis same_kappa : cf_kappa f = im_kappa o.
Hypothesis same_csw : cf_csw f = im_csw o.
Lemma run_derivativeE V (run : seq part) : exists2 D, improved_run_derivative adj f o V run = Some D
  & forall x mu, D x mu = total (im_kappa o) (im_csw o) V run x mu.
Proof.
rewrite /improved_run_derivative; set f1 := cf_set_lattice V f; set o1 := set_lattice V o.
pose step (F : option links) (t : C * field) := obind (cf_add_derivative f1 V t.2 (improved_multiply adj o1 t.2 t.2) t.1) F.
pose T (t : C * field) x mu := t.1 *: clover_derivative (im_kappa o) (im_csw o) (Terms (left_matrix V) (right_matrix V)) V t.2
  (hermitian_clover (im_kappa o) (im_csw o) V t.2) x mu.
have H t y mu : t.1 *: clover_derivative (cf_kappa f) (cf_csw f) (Terms (left_matrix V) (right_matrix V)) V t.2 (improved_multiply adj o1 t.2 t.2) y mu = T t y mu.
  rewrite /T same_kappa same_csw; congr (_ *: _); apply: clover_derivative_ext => z a c.
  have co : coherent o1 by [].
  by rewrite (improved_correct adj t.2 t.2 co) /maybe5 /= g5on.
have inn (s : seq (C * field)) F : exists2 D, foldl step (Some F) s = Some D & forall x mu, D x mu = F x mu - \sum_(t <- s) T t x mu.
  elim: s F => [|t s IH] F /=; first by exists F => // x mu; rewrite big_nil subr0.
  have [D E h] := IH (fun x mu => F x mu - t.1 *: clover_derivative (cf_kappa f) (cf_csw f) (Terms (left_matrix V) (right_matrix V)) V t.2 (improved_multiply adj o1 t.2 t.2) x mu).
  by exists D => // x mu; rewrite h big_cons H opprD addrA.
have out (s : seq part) F : exists2 D, foldl (fun F (p : part) => foldl step F p.2) (Some F) s = Some D
    & forall x mu, D x mu = F x mu - \sum_(q <- s) \sum_(t <- q.2) T t x mu.
  elim: s F => [|q s IH] F /=; first by exists F => // x mu; rewrite big_nil subr0.
  have [D E h] := inn q.2 F; rewrite E; have [D' E' h'] := IH D.
  by exists D' => // x mu; rewrite h' h big_cons opprD addrA.
have [D E h] := out run (fun _ _ => 0).
by exists D => // x mu; rewrite h sub0r.
Qed.
End Run.

Section Rep.
Variable C : numClosedFieldType.
Variables N n : nat.
Variable L : lattice.
Hypothesis N0 : (0 < N)%N.
Variable r : representation C N n.
Notation field := (L -> 'I_4 -> 'I_n -> C) (only parsing).
Notation part := (field * seq (C * field))%type (only parsing).
Notation G := (generators C N).
Notation d := (N * N - 1)%N.
Variable second : 'M[C]_N -> 'M[C]_N -> 'M[C]_n.
Hypothesis gen_herm : forall a : 'I_d, htrans (rep_gen r a) = rep_gen r a.
Hypothesis link_unitary : forall U, unitary U -> unitary (rep_link r U).
Hypothesis link_moved : forall U P (e : C), unitary U -> anti_hermitian P -> traceless P -> e \is Num.real ->
  rep_link r (U + e *: (P *m U)) = rep_link r U + e *: (rep_algebra r P *m rep_link r U + e *: second P U).
Variables kappa csw : C.
Hypothesis kR : kappa \is Num.real.
Hypothesis cR : csw \is Num.real.
Variable flip : L -> 'I_4 -> bool.
Variables (U P : gauge C N L).
Hypothesis uU : forall x mu, unitary (U x mu).
Hypothesis aP : forall x mu, anti_hermitian (P x mu).
Hypothesis tP : forall x mu, traceless (P x mu).
Let V := fermion_links r flip U.
Let M x mu := rep_algebra r (P x mu).
Let Z := flip_links flip (fun x mu => second (P x mu) (U x mu)).
Let Q := @hermitian_clover C n L kappa csw.
Let W x mu := M x mu *m V x mu.
Lemma Vu x mu : unitary (V x mu).
Proof. exact: uV. Qed.
Lemma Ma x mu : anti_hermitian (M x mu).
Proof. exact: rep_anti. Qed.
Notation slope_run := (slope_by Q V (clover_slope kappa csw V W)).
Lemma ReM (a z : C) : a \is Num.real -> 'Re (a * z) = a * 'Re z.
Proof. by move=> aR; rewrite !ReE rmorphM /= (CrealP aR) -mulrDr mulrA. Qed.
Lemma total_slope (run : seq part) : Forall (fun q : part => Forall (fun t : C * field => t.1 \is Num.real) q.2) run ->
  \sum_x \sum_(mu < 4) 2%:R * retr (P x mu *m fermion_force r (U x mu) (flip_links flip (total kappa csw V run) x mu)) = slope_run run.
Proof.
move=> reals.
pose D t x mu := clover_derivative kappa csw (Terms (left_matrix V) (right_matrix V)) V t (Q V t) x mu.
have E x mu : 2%:R * retr (P x mu *m fermion_force r (U x mu) (flip_links flip (total kappa csw V run) x mu))
   = 'Re (\sum_(q <- run) \sum_(t <- q.2) t.1 * \tr (D t.2 x mu *m M x mu *m V x mu)).
  rewrite trace_force // flip_trace -/V /total !mulNmx (raddfN (mxtrace_additive _ _)) /=.
  rewrite (raddfN (Re_additive C)) /= opprK; congr ('Re _).
  rewrite !mulmx_suml (raddf_sum (mxtrace_additive _ _)) /=; apply: eq_bigr => q _.
  rewrite !mulmx_suml (raddf_sum (mxtrace_additive _ _)) /=; apply: eq_bigr => t _.
  by rewrite -!scalemxAl mxtraceZ.
under eq_bigr => x _ do under eq_bigr => mu _ do rewrite E.
under eq_bigr => x _ do rewrite -(raddf_sum (Re_additive C)).
rewrite -(raddf_sum (Re_additive C)) /=.
under eq_bigr => x _ do rewrite exchange_big /=.
rewrite exchange_big /=.
elim: run reals {E} => [|q run IH] reals; first by rewrite /slope_by !big_nil raddf0.
rewrite /slope_by !big_cons (raddfD (Re_additive C)) /= (IH (Forall_inv_tail reals)); congr (_ + _).
under eq_bigr => x _ do rewrite exchange_big /=.
rewrite exchange_big /=.
elim: (q.2) (Forall_inv reals) => [|t s IHs] rs; first by rewrite !big_nil raddf0.
rewrite !big_cons (raddfD (Re_additive C)) /= (IHs (Forall_inv_tail rs)); congr (_ + _).
under eq_bigr => x _ do rewrite -mulr_sumr.
rewrite -mulr_sumr ReM ?(Forall_inv rs) //; congr (_ * _).
by rewrite (Re_trace Vu Ma _ _ kR cR).
Qed.
Lemma solved_reals Q0 V0 action run : @well_posed_by C n L Q V action -> solved_by Q0 V0 action run ->
  Forall (fun q : part => Forall (fun t : C * field => t.1 \is Num.real) q.2) run.
Proof.
elim: action run => [|p l IH] run wp.
  by move=> h; rewrite (F2_nil h); constructor.
move=> h0; have [q [l' [-> [pq ts] H]]] := F2_cons h0; constructor; last exact: IH (Forall_inv_tail wp) H.
elim: (p.2) (q.2) (Forall_inv wp) ts => [|ab s IHs] s' w.
  by move=> h; rewrite (F2_nil h); constructor.
move=> h1; have [t [m [-> [ta sX] h2]]] := F2_cons h1; constructor; last exact: IHs (Forall_inv_tail w) h2.
by rewrite ta; have [] := Forall_inv w.
Qed.
Lemma solved_by_links (V1 V2 : L -> 'I_4 -> 'M[C]_n) action run : (forall x mu, V1 x mu = V2 x mu) ->
  solved_by Q V1 action run -> solved_by Q V2 action run.
Proof.
move=> E.
have QE v : feq (Q V1 v) (Q V2 v).
  move=> x a c; rewrite /Q !hermitian_cloverE (hermitian_links _ _ E); congr (_ + _ * (_ * (_ * _))).
  do 3 (apply: eq_bigr => ? _); congr (_ * _); apply: eq_bigr => e _; congr (_ * _).
  have TE p y : transport V1 y p = transport V2 y p.
    by elim: p y => [|s p IH] y //=; rewrite IH /hop ?E; case: (s.2); rewrite ?E.
  by rewrite /field_strength /four_leaves !big_cons !big_nil !TE.
have SE b v : feq (shifted_by Q V1 b v) (shifted_by Q V2 b v).
  move=> x a c; rewrite /shifted_by; congr (_ + _); rewrite QE.
  exact: (proj1 (hermitian_clover_lin kappa csw V2)).
rewrite /solved_by; elim: action run => [|p l IH] run.
  by move=> h; rewrite (F2_nil h); constructor.
move=> h0; have [q [l' [-> [pq ts] H]]] := F2_cons h0; constructor; last exact: IH.
split=> //; elim: (p.2) (q.2) ts => [|ab s IHs] s'.
  by move=> h; rewrite (F2_nil h); constructor.
move=> h1; have [t [m [-> [ta sX] h2]]] := F2_cons h1; constructor; last exact: IHs.
by split=> // x a c; rewrite -SE sX.
Qed.
Theorem clover_gradient action run : well_posed_by Q V action -> solved_by Q V action run ->
  is_gradient_by Q r flip U P action run (fun x mu => fermion_force r (U x mu) (flip_links flip (total kappa csw V run) x mu)).
Proof.
move=> wp sv.
have qh v w : inner v (Q V w) = inner (Q V v) w by exact: clover_dirac_herm.
have [eps [K [e0 K0 H]]] := run_order_by (hermitian_clover_lin kappa csw) qh (clover_slope_lin kappa csw V W) (opmx_exp kappa csw V W Z) wp sv.
exists eps, K; split=> // e eR le; have [[run' ex] b] := H e eR le.
have Em x mu := moved_links link_moved flip uU aP tP x mu eR.
split; first by exists run'; apply: solved_by_links ex => x mu; rewrite Em.
move=> run2 s2; have := b run2 (solved_by_links Em s2).
rewrite !energyE (total_slope (solved_reals wp sv)); apply: le_trans.
have E : e * slope_run run = 'Re (e * slope_run run).
  rewrite ReM // -(total_slope (solved_reals wp sv)); congr (_ * _); apply/esym/Creal_ReP.
  by apply: rpred_sum => x _; apply: rpred_sum => mu _; rewrite realM ?realn // /retr Creal_Re.
rewrite [X in X <= _](congr1 (fun z => `|_ - _ + z|) E) -(raddfB (Re_additive C)) -(raddfD (Re_additive C)); exact: Re_le.
Qed.
End Rep.

(** The two representations, the algebra and the case without the clover term. *)
Section Two.
Variable C : numClosedFieldType.
Variables N n : nat.
Hypothesis N0 : (0 < N)%N.
Variable L : lattice.
Notation d := (N * N - 1)%N.
Lemma gradient_ext (Q : (L -> 'I_4 -> 'M[C]_n) -> (L -> 'I_4 -> 'I_n -> C) -> (L -> 'I_4 -> 'I_n -> C)) (r : representation C N n) flip U P action run F F' :
  (forall x mu, F x mu = F' x mu) -> is_gradient_by Q r flip U P action run F -> is_gradient_by Q r flip U P action run F'.
Proof.
move=> E [eps [K [e0 K0 H]]]; exists eps, K; split=> // e eR le; have [ex b] := H e eR le; split=> // run' sv.
by have := b run' sv; under eq_bigr => x _ do under eq_bigr => mu _ do rewrite E.
Qed.
Lemma improved_forceE (r : representation C N n) adj (f : cforce C n L) (o : improved C n L) flip U run :
  im_gamma5 o = true -> cf_kappa f = im_kappa o -> cf_csw f = im_csw o ->
  exists2 F, improved_force r adj f o flip U run = Some F & forall x mu,
    F x mu = fermion_force r (U x mu) (flip_links flip (total (im_kappa o) (im_csw o) (fermion_links r flip U) run) x mu).
Proof.
move=> g5 fk fc; have [D E h] := run_derivativeE adj g5 fk fc (fermion_links r flip U) run.
by rewrite /improved_force E /=; eexists; first by []; move=> x mu /=; rewrite /flip_links h.
Qed.
Lemma improved_algebra (r : representation C N n) adj (f : cforce C n L) (o : improved C n L) flip U run F :
  improved_force r adj f o flip U run = Some F -> forall x mu, anti_hermitian (F x mu) /\ traceless (F x mu).
Proof.
rewrite /improved_force; case: (improved_run_derivative _ _ _ _ _) => // D [<-] x mu; rewrite /fermion_force.
split; last by rewrite /traceless (raddf_sum (mxtrace_additive _ _)) big1 // => a _ /=; rewrite mxtraceZ G_tr ?mulr0.
rewrite /anti_hermitian daggerE htrans_sum -sumrN; apply: eq_bigr => a _.
by rewrite htransZ G_herm // rmorphM rmorphN /= conjCi mulNr mulNr scaleNr (CrealP (Creal_Im _)) mulNr scaleNr.
Qed.
Lemma improved_wilson (r : representation C N n) adj (f : cforce C n L) (o : improved C n L) flip U run :
  im_gamma5 o = true -> cf_kappa f = im_kappa o -> cf_csw f = 0 -> im_csw o = 0 ->
  exists2 F, improved_force r adj f o flip U run = Some F & forall x mu, F x mu = nflavor_force r (im_kappa o) flip U run x mu.
Proof.
move=> g5 fk fc oc; have [F E h] := improved_forceE r adj flip U run g5 fk (etrans fc (esym oc)).
exists F => // x mu; rewrite h oc /nflavor_force; congr fermion_force; rewrite /flip_links nflavor_derivativeE.
have -> : total (im_kappa o) 0 (fermion_links r flip U) run x mu = - \sum_(q <- run) \sum_(t <- q.2)
    t.1 *: wilson_derivative (im_kappa o) (fermion_links r flip U) t.2 (hermitian_dirac (im_kappa o) (fermion_links r flip U) t.2) x mu; last by [].
rewrite /total; congr (- _); apply: eq_bigr => q _; apply: eq_bigr => t _; congr (_ *: _).
have Z (m : terms C n L) X Y i s : clover_term_loop ('i * im_kappa o * 0) m X Y x mu i s = 0.
  apply: big1 => nu _; apply: big1 => a _; rewrite !(tensor_ext (on_rightE _ _ _ _ _ _) (on_leftE _ _ _ _ _ _)).
  have T (u w : 'I_n -> C) : (forall c, w c = 0) -> tensor u w = 0.
    by move=> w0; apply/matrixP => p q0; rewrite !mxE w0 ?conjC0 ?mul0r ?mulr0.
  have M (A : 'M[C]_n) w c : mulv A (proj_spinor ('i * im_kappa o * 0) mu nu w a) c = 0.
    by rewrite /mulv big1 // => e _; rewrite proj_spinorE mulr0 mul0r mulr0.
  by rewrite !T ?addr0.
rewrite /clover_derivative !Z !(addr0, subr0) scaler0 add0r; apply: derivative_ext => y a c.
by rewrite /hermitian_clover /hermitian_dirac !g5E clover_zero.
Qed.
End Two.
Section Three.
Variable C : numClosedFieldType.
Variable N : nat.
Hypothesis N0 : (0 < N)%N.
Variable L : lattice.
Variable flip : L -> 'I_4 -> bool.
Variables (U P : gauge C N L).
Hypothesis uU : forall x mu, unitary (U x mu).
Hypothesis aP : forall x mu, anti_hermitian (P x mu).
Hypothesis tP : forall x mu, traceless (P x mu).
Lemma fundamental_clover_gradient adj (f : cforce C N L) (o : improved C N L) action run :
  im_kappa o \is Num.real -> im_csw o \is Num.real -> im_gamma5 o = true ->
  cf_kappa f = im_kappa o -> cf_csw f = im_csw o ->
  let r := fundamental C N in let Q := @hermitian_clover C N L (im_kappa o) (im_csw o) in
  well_posed_by Q (fermion_links r flip U) action -> solved_by Q (fermion_links r flip U) action run ->
  exists2 F, improved_force r adj f o flip U run = Some F & is_gradient_by Q r flip U P action run F.
Proof.
move=> kR cR g5 fk fc r Q wp sv; have [F E h] := improved_forceE r adj flip U run g5 fk fc; exists F => //.
apply: (gradient_ext (fun x mu => esym (h x mu))).
apply: (clover_gradient N0 (second := fun _ _ => 0)) => //; [exact: G_herm | exact: fund_moved].
Qed.
Lemma adjoint_clover_gradient adj (f : cforce C (N * N - 1) L) (o : improved C (N * N - 1) L) action run :
  im_kappa o \is Num.real -> im_csw o \is Num.real -> im_gamma5 o = true ->
  cf_kappa f = im_kappa o -> cf_csw f = im_csw o ->
  let r := adjoint C N in let Q := @hermitian_clover C (N * N - 1) L (im_kappa o) (im_csw o) in
  well_posed_by Q (fermion_links r flip U) action -> solved_by Q (fermion_links r flip U) action run ->
  exists2 F, improved_force r adj f o flip U run = Some F & is_gradient_by Q r flip U P action run F.
Proof.
move=> kR cR g5 fk fc r Q wp sv; have [F E h] := improved_forceE r adj flip U run g5 fk fc; exists F => //.
apply: (gradient_ext (fun x mu => esym (h x mu))).
apply: (clover_gradient N0 (second := @adj_second C N)) => //; [exact: adj_herm | exact: adj_unitary | exact: adj_moved].
Qed.
End Three.

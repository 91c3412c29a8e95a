(** Properties of the Landau gauge condition and of the gluon propagator (C85) and of the ghost propagator (C86). *)
From mathcomp Require Import all_ssreflect all_algebra all_field.
From Verif Require Import GaugeModel GaugeSpec GaugeProofs GaugeProofs2 GaugeProofs3 LoopModel LoopGrid AdjModel AdjSpec AdjProofs5 FixModel FixSpec FixProofs3 LandauModel LandauSpec LandauProofs LandauProofs2 LandauProofs3 LandauProofs4 LandauProofs5 LandauProofs6.
Import GRing.Theory Num.Theory Order.POrderTheory.
Set Implicit Arguments.
Unset Strict Implicit.
Unset Printing Implicit Defensive.
Local Open Scope ring_scope.

(** ** C85 *)
(** What deviation returns is the mean square of the gradient of the Landau functional: there is a field of Hermitian traceless
    matrices whose mean square it is and which gives the change of the functional to first order for every infinitesimal
    rotation of the frames. *)
Theorem C85_gradient (C : numClosedFieldType) (n : nat) (L : lattice) (U : gauge C n L) : (0 < n)%N ->
  exists D : L -> 'M[C]_n, (forall x, in_algebra (D x)) /\ deviation U = (\sum_x \tr (D x *m D x)) / #|L|%:R /\
  forall w : L -> 'M[C]_n, (forall x, in_algebra (w x)) -> exists q, forall e, e \is Num.real ->
    landau (turned (order1 e w) U) = landau U - e * (\sum_x \tr (w x *m D x)) + e ^+ 2 * q.
Proof.
move=> n0; exists (div U); split; first by move=> x; split; [rewrite daggerE divH|exact: div_tr].
split; first exact: deviationE.
by move=> w hw; eexists => e er; exact: first_order.
Qed.
(** A lattice with two sites in every direction and links that are not stationary. *)
Definition g2 : grid := box_grid 1 1 1 1.
Definition i2 : 'I_4 -> algC := fun _ => 'i.
Lemma i2_turns : half_turns g2 i2.
Proof. by move=> mu; rewrite /i2 -(sqrCi algCnumClosedField); congr (_ ^+ _); case: mu => [[|[|[|[|m]]]] h]. Qed.
Definition o2 : g2 := (ord0, ord0, ord0, ord0).
Definition twisted : gauge algCnumClosedField 2 g2 := fun x mu =>
  if (x == o2) && (mu == ord0) then UpdModel.mat2 'i 0 0 (- 'i) else 1%:M.
Example C85_gradient_witness : special_unitary (twisted o2 ord0) /\ deviation twisted != 0.
Proof.
split.
  rewrite /twisted !eqxx /=; apply: UpdProofs.quat_su.
    by rewrite /UpdProofs.quat !UpdProofs.mat2E conjCi rmorph0 oppr0.
  by rewrite UpdProofs.det2 !UpdProofs.mat2E mulr0 subr0 mulrN -expr2 sqrCi opprK.
apply/eqP => /deviation_eq0 /(_ o2) /matrixP /(_ ord0 ord0).
have u1 : potential (1%:M : 'M[algCnumClosedField]_2) = 0.
  by rewrite potE htrans1 subrr scaler0 sub0r mxtrace1 (Creal_ImP _ (realn _ _)) mul0r raddf0 oppr0.
have eT : \tr (UpdModel.mat2 'i 0 0 (- 'i) : 'M[algCnumClosedField]_2) = 0.
  by rewrite /mxtrace UpdProofs.sum2 !UpdProofs.mat2E subrr.
have lie x mu : lie_field twisted x mu = if (x == o2) && (mu == ord0) then potential (UpdModel.mat2 'i 0 0 (- 'i)) else 0.
  by rewrite lieE /twisted; case: ifP.
rewrite /div; under eq_bigr do rewrite !lie.
rewrite (bigD1 ord0) //= big1 ?addr0; last by move=> mu /negbTE ->; rewrite !andbF subrr.
case: ifP => [/andP[/eqP h _]|_]; first by case: h => /(congr1 val); rewrite /cyc_down /= inordK.
rewrite subr0 potE eT raddf0 mul0r raddf0 subr0 !mxE /= conjCi opprK.
have <- : 2%:R * 'i = 'i + 'i :> algC by rewrite mulr_natl mulr2n.
rewrite mulVf; first by move/eqP; rewrite oner_eq0.
by rewrite mulf_neq0 ?pnatr_eq0 ?neq0Ci.
Qed.
(** It is not negative, and it is zero exactly where the functional is stationary. *)
Theorem C85_stationary (C : numClosedFieldType) (n : nat) (L : lattice) (U : gauge C n L) : (0 < n)%N ->
  0 <= deviation U /\
  (deviation U = 0 <-> forall w : L -> 'M[C]_n, (forall x, in_algebra (w x)) -> exists q, forall e, e \is Num.real ->
    landau (turned (order1 e w) U) = landau U + e ^+ 2 * q).
Proof.
move=> n0; split; first exact: deviation_ge0; split=> [d0 w hw|h].
  eexists => e er; rewrite first_order // big1 ?mulr0 ?subr0 // => x _.
  by rewrite (deviation_eq0 d0) mulmx0 mxtrace0.
have ha x : in_algebra (div U x) by split; [rewrite daggerE divH|exact: div_tr].
have [q hq] := h _ ha; rewrite deviationE; set X := \sum_x _; suff -> : X = 0 by rewrite mul0r.
set q' := \sum_x \sum_(mu < 4) retr (div U x *m U x mu *m div U (sup mu x)).
have e1 : X = q' - q.
  have := hq 1 (rpred1 _); rewrite first_order ?rpred1 // -/X -/q' expr1n !mul1r -addrA => /addrI <-.
  by rewrite opprD opprK addrCA subrr addr0.
have e2 : X = q - q'.
  have r : (-1 : C) \is Num.real by rewrite rpredN rpred1.
  have := hq (-1) r; rewrite first_order // -/X -/q' -signr_odd expr0 !mul1r mulN1r opprK -addrA => /addrI <-.
  by rewrite addrK.
have : X + X = 0 by rewrite {1}e1 e2 addrA subrK subrr.
by rewrite -mulr2n => /eqP; rewrite mulrn_eq0 => /eqP.
Qed.
(** Where no SU(n) rotation of the frames makes the functional larger, deviation returns zero. *)
Theorem C85_maximum (C : numClosedFieldType) (n : nat) (L : lattice) (U : gauge C n L) : (0 < n)%N -> maximal U -> deviation U = 0.
Proof. by case: n U => [//|n] U _ mx; apply: div_deviation; exact: max_div. Qed.
(** Unit links: no unitary matrix has a trace with a larger real part. *)
Lemma entry_bound (C : numClosedFieldType) n (h : 'M[C]_n) i : unitary h -> 'Re (h i i) <= 1.
Proof.
move=> uh; have e : \sum_j `|h i j| ^+ 2 = 1.
  have := congr1 (fun M : 'M[C]_n => M i i) (unitary_r uh); rewrite !mxE eqxx -[1%:R]/1 => <-.
  by apply: eq_bigr => j _; rewrite !mxE -normCK.
have l1 : `|h i i| <= 1.
  rewrite -(@expr_le1 _ 2) ?normr_ge0 // -e (bigD1 i) //= ler_addl; apply: sumr_ge0 => j _; by rewrite exprn_ge0.
apply: le_trans l1; exact: (leif_Re_Creal _).1.
Qed.
Example C85_maximum_witness (C : numClosedFieldType) (n : nat) (L : lattice) : maximal (fun (_ : L) (_ : 'I_4) => 1%:M : 'M[C]_n).
Proof.
move=> V [g [sg eV]]; rewrite -!landauE; apply: ler_sum => x _; apply: ler_sum => mu _; rewrite eV mulmx1 /retr mxtrace1.
have u : unitary (g x *m dagger (g (sup mu x))).
  by apply: unitaryM; [case: (sg x)|rewrite daggerE; apply: unitaryH; case: (sg (sup mu x))].
rewrite (Creal_ReP _ (realn _ _)) /mxtrace raddf_sum /= -[X in X%:R]card_ord -sumr_const; apply: ler_sum => i _; exact: entry_bound.
Qed.
(** Where deviation is zero the Fourier transform of the vector potential is transverse, for every momentum and colour. *)
Theorem C85_transverse (C : numClosedFieldType) (N : nat) (G : grid) (half : 'I_4 -> C) (U : gauge C N G) (n : mode) (c : 'I_(N * N - 1)) :
  (0 < N)%N -> half_turns G half -> deviation U = 0 ->
  \sum_(mu < 4) lattice_momentum half (fun mu => mode_at n mu) mu * Ak half U n mu c = 0.
Proof.
move=> N0 ht d0.
under eq_bigr do rewrite -p_hatE.
rewrite transverse // big1 ?mulr0 // => x _; by rewrite (deviation_eq0 d0) mul0mx mxtrace0 mulr0.
Qed.
Example C85_transverse_witness : half_turns g2 i2 /\ deviation (fun (_ : g2) (_ : 'I_4) => 1%:M : 'M[algCnumClosedField]_3) = 0 /\
  lattice_momentum i2 (fun mu => mode_at (1, 0, 0, 0)%N mu) ord0 = 2%:R.
Proof.
split; first exact: i2_turns; split; first by apply: C85_maximum => //; exact: C85_maximum_witness.
by rewrite /lattice_momentum /i2 /= expr1 conjCi opprK -mulr2n -mulr_natl mulfK ?neq0Ci.
Qed.
(** The propagator is the two-point function of the vector potential in momentum space: not negative, and unchanged by global
    rotations. *)
Theorem C85_propagator (C : numClosedFieldType) (N : nat) (G : grid) (half : 'I_4 -> C) (U : gauge C N G) (n : mode) :
  (0 < N)%N -> half_turns G half ->
  gluon half U n = (\sum_(mu < 4) \sum_x \sum_y plane_wave half (fun mu => mode_at n mu) x * (plane_wave half (fun mu => mode_at n mu) y)^*
    * \tr (potential (U x mu) *m potential (U y mu))) / 2%:R /\
  0 <= gluon half U n /\ forall V, unitary V -> gluon half (turned (fun _ => V) U) n = gluon half U n.
Proof.
move=> N0 ht; split; first exact: gluon_position; split; last by move=> V uV; exact: gluon_global.
by rewrite gluonE //; apply: sumr_ge0 => mu _; apply: sumr_ge0 => c _; rewrite exprn_ge0.
Qed.
(** The number written besides the momentum: the propagator over the number of components of a transverse field, four only
    where the momentum vanishes. *)
Theorem C85_normalisation (C : numClosedFieldType) (N : nat) (G : grid) (half : 'I_4 -> C) (U : gauge C N G) (n : mode) :
  modulus half n ^+ 2 = \sum_(mu < 4) lattice_momentum half (fun mu => mode_at n mu) mu ^+ 2 /\ 0 <= modulus half n /\
  (modulus half n = 0 -> gluon_normalised half U n = gluon half U n / 4%:R) /\
  (10%:R ^- 16 <= modulus half n -> gluon_normalised half U n = gluon half U n / 3%:R).
Proof.
split; first exact: modulus2; split; first exact: modulus_ge0.
split=> [e|le]; first by rewrite /gluon_normalised e invr_gt0 exprn_gt0 ?ltr0n.
by rewrite /gluon_normalised; case: ifP => // lt; move: (le_lt_trans le lt); rewrite ltxx.
Qed.
(** The first of the momenta is zero, and the vertex at the others is the colour trace of a commutator of Fourier transforms.
    It is imaginary, so that writing the imaginary part loses nothing. *)
Theorem C85_vertex (C : numClosedFieldType) (N : nat) (G : grid) (pi cut : C) (maximum : mode) (half : 'I_4 -> C) (U : gauge C N G) (i : nat) :
  (0 < N)%N -> half_turns G half -> let ns := momenta G pi maximum cut in (0 < i < size ns)%N ->
  let n := nth (0, 0, 0, 0)%N ns i in let k := (fun mu : 'I_4 => mode_at n mu) in let zero := (fun _ : 'I_4 => 0%N) in
  head (1, 1, 1, 1)%N ns = (0, 0, 0, 0)%N /\
  (modulus half n != 0 -> exists r, nth [::] (vertex_output half U ns) i =
     [:: Some (modulus half n); Some r; Some (mode_at n 0)%:R; Some (mode_at n 1)%:R; Some (mode_at n 2)%:R; Some (mode_at n 3)%:R] /\
   'i * r = - 'i / (24%:R * modulus half n ^+ 2) * \sum_(mu < 4) \sum_(nu < 4) lattice_momentum half k nu *
     \tr ((fourier half k U mu *m fourier half zero U nu - fourier half zero U nu *m fourier half k U mu) *m dagger (fourier half k U mu))).
Proof.
move=> N0 ht ns /andP [i0 isz] n k zero.
have hd : head (1, 1, 1, 1)%N ns = (0, 0, 0, 0)%N by apply: momenta_head; rewrite -size_eq0 -lt0n; exact: leq_ltn_trans isz.
have hd' : head (0, 0, 0, 0)%N ns = (0, 0, 0, 0)%N by move: hd; case: ns isz {n k}.
have ez nu : fourier half (fun mu => mode_at (0, 0, 0, 0)%N mu) U nu = fourier half zero U nu.
  apply: eq_bigr => x _; rewrite /plane_wave /zero; congr (_ * _ *: _); last by rewrite mode0.
  by apply: eq_bigr => mu _; rewrite mode0.
split=> // m0; set v := _ / _ * _.
have ev : vertex half U (0, 0, 0, 0)%N n = Some v.
  rewrite vertexE // /v -/k; congr (Some (_ * _)); apply: eq_bigr => mu _; apply: eq_bigr => nu _; by rewrite ez.
exists ('Im v); split.
  rewrite /vertex_output (nth_map 0%N) ?size_iota // nth_iota // add0n hd' /written_vertex -/n.
  have -> : (if i is 0 then Some 0 else omap (fun z => 'Im z) (vertex half U (0, 0, 0, 0)%N n)) = Some ('Im v); last by [].
  by case: (i) i0 => [//|j] _; rewrite ev.
suff [z [rz ->]] : exists z, z \is Num.real /\ v = 'i * z by rewrite ImMil (Creal_ReP _ rz).
exists (- ((24%:R * modulus half n ^+ 2)^-1 * \sum_(mu < 4) \sum_(nu < 4) lattice_momentum half k nu *
     \tr ((fourier half k U mu *m fourier half zero U nu - fourier half zero U nu *m fourier half k U mu) *m dagger (fourier half k U mu)))).
split; last by rewrite /v; move: (\sum_(mu < 4) _) (24%:R * _)^-1 => S A; rewrite mulrN !mulNr mulrA.
rewrite rpredN rpredM //; first by rewrite rpredV rpredM ?realn // rpredX // ger0_real // modulus_ge0.
apply: rpred_sum => mu _; apply: rpred_sum => nu _; rewrite rpredM ?lattice_momentum_real // daggerE -ez comm_real // fourier0_herm //.
Qed.
Example C85_vertex_witness (pi : algC) : exists cut, let ns := momenta g2 pi (2, 1, 1, 1)%N cut in
  (0 < 1 < size ns)%N /\ nth (0, 0, 0, 0)%N ns 1 = (1, 0, 0, 0)%N /\ modulus i2 (1, 0, 0, 0)%N != 0.
Proof.
pose s n := \sum_(mu < 4) `|momentum g2 pi n mu - (\sum_(mu < 4) momentum g2 pi n mu) / 4%:R|.
exists (s (1, 0, 0, 0)%N + 1).
have p : 0 <= s (1, 0, 0, 0)%N by apply: sumr_ge0 => mu _; rewrite normr_ge0.
have k0 : kept g2 pi (s (1, 0, 0, 0)%N + 1) (0, 0, 0, 0)%N by apply: kept0; rewrite ltr_paddl ?ltr01.
have k1 : kept g2 pi (s (1, 0, 0, 0)%N + 1) (1, 0, 0, 0)%N by rewrite /kept ltr_addl ltr01.
rewrite /momenta /= k0 k1 /=; do !split => //.
rewrite /modulus sqrtC_eq0 psumr_eq0; last by move=> mu _; rewrite -expr2 p_hatE -realEsqr lattice_momentum_real.
apply/negP => /allP /(_ ord0 (mem_index_enum _)) /=.
by have [_ [_ e]] := C85_transverse_witness; rewrite p_hatE e mulf_eq0 pnatr_eq0.
Qed.
(** The momenta: each mode below the maximum in every component is there once, if its components 2 pi n / L differ from their
    mean by less than the cut in sum. *)
Theorem C85_momenta (C : numClosedFieldType) (G : grid) (pi cut : C) (maximum : mode) :
  uniq (momenta G pi maximum cut) /\
  forall n : mode, n \in momenta G pi maximum cut =
    let p (mu : 'I_4) : C := 2%:R * pi * (mode_at n mu)%:R / (ext G mu)%:R in
    [forall mu : 'I_4, (mode_at n mu < mode_at maximum mu)%N] && (\sum_(mu < 4) `|p mu - (\sum_(nu < 4) p nu) / 4%:R| < cut).
Proof.
split=> [|[[[a b] c] d]].
  by rewrite filter_uniq //; repeat (apply: allpairs_uniq; rewrite ?iota_uniq //; last by move=> [x y] [x' y'] _ _ [-> ->]).
rewrite mem_filter andbC; congr (_ && _).
  apply/allpairsP/forallP => [[[x d'] /= [h h4 [-> ->]]] mu|h].
    move: h => /allpairsP [[y c'] /= [/allpairsP [[a' b'] /= [h1 h2 ->]] h3 ->]].
    move: h1 h2 h3 h4; rewrite !mem_iota !add0n /= => h1 h2 h3 h4; by case: mu => [[|[|[|[|mu]]]] hm].
  exists ((a, b, c), d); split=> //=; last by rewrite mem_iota add0n; exact: (h (Ordinal (isT : 3 < 4)%N)).
  apply/allpairsP; exists ((a, b), c); split=> //=; last by rewrite mem_iota add0n; exact: (h (Ordinal (isT : 2 < 4)%N)).
  apply/allpairsP; exists (a, b); split=> //=; rewrite mem_iota add0n; first exact: (h (Ordinal (isT : 0 < 4)%N)).
  exact: (h (Ordinal (isT : 1 < 4)%N)).
have e mu : momentum G pi (a, b, c, d) mu = 2%:R * pi * (mode_at (a, b, c, d) mu)%:R / (ext G mu)%:R.
  by rewrite /momentum; congr (_ / _); rewrite -mulrA mulrC.
rewrite /kept; congr (_ < _); apply: eq_bigr => mu _; rewrite e; congr `|_ - _ / _|.
by apply: eq_bigr => nu _; rewrite e.
Qed.
Example C85_momenta_case : (1, 1, 1, 1)%N \in momenta (box_grid 3 3 3 3) (1 : algC) (2, 2, 2, 2)%N 1 /\
  (0, 0, 0, 2)%N \notin momenta (box_grid 3 3 3 3) (1 : algC) (2, 2, 2, 2)%N 1.
Proof.
split; rewrite (C85_momenta _ _ _ _).2 /=; last first.
  by rewrite negb_and; apply/orP; left; apply/negP => /forallP /(_ (Ordinal (isT : 3 < 4)%N)).
apply/andP; split; first by apply/forallP; case=> [[|[|[|[|mu]]]] hm].
set p : algC := 2%:R * 1 * 1%:R / 4%:R; rewrite big1 ?ltr01 // => mu _.
have e (nu : 'I_4) : 2%:R * 1 * (mode_at (1, 1, 1, 1)%N nu)%:R / (box_ext 3 3 3 3 nu)%:R = p :> algC.
  by rewrite /p; case: nu => [[|[|[|[|nu]]]] hn].
rewrite e (eq_bigr (fun _ => p)); last by move=> nu _; rewrite e.
rewrite sumr_const card_ord -(mulr_natr p 4) mulfK ?pnatr_eq0 //.
by rewrite subrr normr0.
Qed.
(** The other numbers of each line: the modulus of the lattice momentum, the propagator divided by the number of components and
    the first three labels. *)
Theorem C85_written (C : numClosedFieldType) (N : nat) (G : grid) (half : 'I_4 -> C) (U : gauge C N G) (n : mode) :
  let l := written_gluon half U n in
  [/\ nth 0 l 0 ^+ 2 = \sum_(mu < 4) lattice_momentum half (fun mu => mode_at n mu) mu ^+ 2,
      nth 0 l 1 = (if nth 0 l 0 < 10%:R ^- 16 then gluon half U n / 4%:R else gluon half U n / 3%:R) &
      forall i, (i < 3)%N -> nth 0 l i.+2 = (mode_at n i)%:R].
Proof. by split=> //; [exact: modulus2|case=> [|[|[|i]]]]. Qed.
(** gluon_propagator labels its numbers with n[2] in the place of n[3]: two of the momenta get the same labels, whatever the
    configuration. *)
Theorem C85_labels_refuted (C : numClosedFieldType) (N : nat) (G : grid) (pi : C) (half : 'I_4 -> C) (U : gauge C N G) :
  exists (maximum : mode) (cut : C) (n m : mode), n \in momenta G pi maximum cut /\ m \in momenta G pi maximum cut /\ n <> m /\
  drop 2 (written_gluon half U n) = drop 2 (written_gluon half U m).
Proof.
pose s n := \sum_(mu < 4) `|momentum G pi n mu - (\sum_(mu < 4) momentum G pi n mu) / 4%:R|.
exists (1, 1, 1, 2)%N, (s (0, 0, 0, 1)%N + 1), (0, 0, 0, 0)%N, (0, 0, 0, 1)%N.
have p : 0 <= s (0, 0, 0, 1)%N by apply: sumr_ge0 => mu _; rewrite normr_ge0.
have k0 : kept G pi (s (0, 0, 0, 1)%N + 1) (0, 0, 0, 0)%N by apply: kept0; rewrite ltr_paddl ?ltr01.
have k1 : kept G pi (s (0, 0, 0, 1)%N + 1) (0, 0, 0, 1)%N by rewrite /kept ltr_addl ltr01.
by rewrite /momenta /= k0 k1 !inE !eqxx orbT.
Qed.

(** ** C86 *)
(** The ghost operator is the second derivative of the Landau functional along rotations of the frames. *)
Theorem C86_hessian (C : numClosedFieldType) (N : nat) (G : grid) (U : gauge C N G) (w : G -> 'I_(N * N - 1) -> C) :
  (0 < N)%N -> (forall x a, w x a \is Num.real) ->
  exists c1 c3 c4, forall e, e \is Num.real ->
    landau (turned (order2 e (matrix_of (generators C N) w)) U) =
    landau U + e * c1 - e ^+ 2 / 4%:R * overlap w (ghost_matrix U w) + e ^+ 3 * c3 + e ^+ 4 * c4.
Proof.
move=> N0 rw; have [c3 [c4 h]] := second_order N0 U rw.
by exists (- \sum_x \tr (matrix_of (generators C N) w x *m div U x)), c3, c4 => e er; rewrite h // mulrN.
Qed.
(** It is linear and self-adjoint, and real. *)
Theorem C86_symmetric (C : numClosedFieldType) (N : nat) (G : grid) (U : gauge C N G) (v w : G -> 'I_(N * N - 1) -> C) :
  overlap v (ghost_matrix U w) = overlap (ghost_matrix U v) w /\
  (forall k x a, ghost_matrix U (fun x a => v x a + k * w x a) x a = ghost_matrix U v x a + k * ghost_matrix U w x a) /\
  ((forall x a, v x a \is Num.real) -> forall x a, ghost_matrix U v x a \is Num.real).
Proof.
split; first exact: ghost_adj; split; first exact: ghost_lin.
move=> rv x a; apply: rpred_sum => mu _; rewrite /mulc.
by rewrite !rpredB //; apply: rpred_sum => b _; rewrite rpredM // !mxE ?rpredM ?realn ?retr_real.
Qed.
(** In the Landau gauge the constant fields are its zero modes. *)
Theorem C86_constants (C : numClosedFieldType) (N : nat) (G : grid) (U : gauge C N G) (k : 'I_(N * N - 1) -> C) : (0 < N)%N ->
  deviation U = 0 -> forall x a, ghost_matrix U (fun _ => k) x a = 0.
Proof.
move=> N0 d0 x a; rewrite ghost_const // big1 // => b _.
by rewrite (deviation_eq0 d0) mulmx0 mxtrace0 mulr0 mul0r.
Qed.
(** For unit links it is minus the lattice Laplacian, and its inverse on a plane wave is the volume over the square of the
    lattice momentum. *)
Theorem C86_free (C : numClosedFieldType) (N : nat) (G : grid) (half : 'I_4 -> C) (n : mode) (c : 'I_(N * N - 1)) :
  (0 < N)%N -> half_turns G half ->
  let U := fun (_ : G) (_ : 'I_4) => 1%:M : 'M[C]_N in
  let p2 := \sum_(mu < 4) lattice_momentum half (fun mu => mode_at n mu) mu ^+ 2 in
  (forall v x a, ghost_matrix U v x a = minus_laplacian v x a) /\
  (forall g, p2 != 0 -> (forall x a, ghost_matrix U g x a = (if a == c then plane_wave half (fun mu => mode_at n mu) x else 0)) ->
    projected half n c g = #|G|%:R / p2).
Proof.
move=> N0 ht U p2; split; first exact: ghost_unit.
have e2 : \sum_(mu < 4) p_hat half n mu * p_hat half n mu = p2 by apply: eq_bigr => mu _; rewrite p_hatE expr2.
by move=> g p0 h; rewrite -e2; apply: (free_value N0) => //; rewrite ?e2 // => x a; rewrite h /ghost_source waveE.
Qed.
(** What a call returns.  With true: the projection of a field that solves the equation with a squared norm of the error below
    epsilon, or, with more than one and not two colours, something else after the error has become a zero mode.  With false:
    what result held before, or the projection of a field for which the squared norm of the error is below ten thousand. *)
Theorem C86_outcome (C : numClosedFieldType) (N : nat) (G : grid) (half : 'I_4 -> C) (result : C) (U : gauge C N G) (n : mode)
    (c : 'I_(N * N - 1)) (epsilon : C) (steps : nat) :
  let error := fun (g : G -> 'I_(N * N - 1) -> C) x a =>
    ghost_matrix U g x a - (if a == c then plane_wave half (fun mu => mode_at n mu) x else 0) in
  let solved bound z := exists g, z = \sum_x (plane_wave half (fun mu => mode_at n mu) x)^* * g x c /\ overlap (error g) (error g) < bound in
  let breakdown := exists g, forall x a, ghost_matrix U (error g) x a = 0 in
  match ghost_bicgstab half result U n c epsilon steps with
  | Returned true z => solved epsilon z \/ ((3 < N * N - 1)%N /\ (z = result \/ solved (10%:R ^+ 4) z) /\ breakdown)
  | Returned false z => z = result \/ solved (10%:R ^+ 4) z
  | Undefined => (N * N - 1 < 4)%N /\ breakdown
  end.
Proof.
move=> error solved breakdown; rewrite /ghost_bicgstab; set o := ghost_loop _ _ _ _ _ _ _ _ _ _ _ _ _ _ _ _.
have src (x : G) a : ghost_source half n c x a = (if a == c then plane_wave half (fun mu => mode_at n mu) x else 0) by rewrite /ghost_source waveE.
have H : right_outcome half U n c epsilon (ghost_source half n c) result o by apply: loop_right => //; left.
have nE b z : near half U n c (ghost_source half n c) b z -> solved b z.
  move=> [g [ez lt]]; exists g; split; first by rewrite ez; apply: eq_bigr => x _; rewrite waveE.
  congr (_ < _): lt; apply: eq_bigr => x _; apply: eq_bigr => a _; by rewrite src.
have kE z : kept_result half U n c (ghost_source half n c) result z -> z = result \/ solved (10%:R ^+ 4) z by case=> [->|/nE]; [left|right].
have bE : (exists g : G -> 'I_(N * N - 1) -> C, forall x a, ghost_matrix U (fun x a => ghost_matrix U g x a - ghost_source half n c x a) x a = 0) -> breakdown.
  move=> [g hg]; exists g => x a; rewrite -[RHS](hg x a); apply: ghost_ext => y b; by rewrite /error src.
case: o H => [[] z|] /=.
- by case=> [/nE|[dl [/kE k /bE b]]]; [left|right].
- exact: kE.
- by case=> dl /bE.
Qed.
(** A free theory is where it goes wrong: with unit links the first step makes the error zero, and the call leaves result
    alone; it returns true, with two colours it has undefined behaviour, and with a squared momentum of one it returns false.
    The value asked for is the volume over the squared momentum. *)
Theorem C86_free_refuted (C : numClosedFieldType) (N : nat) (G : grid) (half : 'I_4 -> C) (result : C) (n : mode) (c : 'I_(N * N - 1)) (epsilon : C) (steps : nat) :
  (0 < N)%N -> (0 < #|G|)%N -> half_turns G half ->
  let p2 := \sum_(mu < 4) lattice_momentum half (fun mu => mode_at n mu) mu ^+ 2 in p2 != 0 ->
  ghost_bicgstab half result (fun (_ : G) (_ : 'I_4) => 1%:M : 'M[C]_N) n c epsilon steps.+1 =
    (if p2 == 1 then Returned false result else if (N * N - 1 < 4)%N then Undefined C else Returned true result).
Proof.
move=> N0 g0 ht p2 p0.
have e2 : \sum_(mu < 4) p_hat half n mu * p_hat half n mu = p2 by apply: eq_bigr => mu _; rewrite p_hatE expr2.
by rewrite -e2; apply: free_loop => //; rewrite e2.
Qed.
Example C86_free_refuted_witness : let U := fun (_ : g2) (_ : 'I_4) => 1%:M : 'M[algCnumClosedField]_3 in
  ghost_bicgstab i2 0 U (1, 0, 0, 0)%N (ord0 : 'I_(3 * 3 - 1)) (10%:R ^- 11) 10 = Returned true 0 /\
  ghost_bicgstab i2 0 (fun (_ : g2) (_ : 'I_4) => 1%:M : 'M[algCnumClosedField]_2) (1, 0, 0, 0)%N (ord0 : 'I_(2 * 2 - 1)) (10%:R ^- 11) 10 = Undefined _ /\
  forall g, (forall x a, ghost_matrix U g x a = (if a == ord0 then plane_wave i2 (fun mu => mode_at (1, 0, 0, 0)%N mu) x else 0)) ->
    @projected algCnumClosedField 3 g2 i2 (1, 0, 0, 0)%N (ord0 : 'I_8) g = 4%:R.
Proof.
move=> U.
have p2 : \sum_(mu < 4) lattice_momentum i2 (fun mu => mode_at (1, 0, 0, 0)%N mu) mu ^+ 2 = 4%:R.
  rewrite (bigD1 ord0) //= big1 ?addr0.
    by have [_ [_ ->]] := C85_transverse_witness; rewrite -natrX.
  move=> mu ne; have -> : lattice_momentum i2 (fun mu => mode_at (1, 0, 0, 0)%N mu) mu = 0.
    rewrite /lattice_momentum; have -> : mode_at (1, 0, 0, 0)%N mu = 0%N by case: mu ne => [[|[|[|m]]] h].
    by rewrite expr0 conjC1 subrr mul0r.
  by rewrite expr0n.
have c2 : #|g2| = 16%N by rewrite /= !card_prod !card_ord.
have g0 : (0 < #|g2|)%N by rewrite c2.
have n40 : 4%:R != 0 :> algCnumClosedField by rewrite pnatr_eq0.
have n41 : (4%:R == 1 :> algCnumClosedField) = false by rewrite (eqr_nat _ 4 1).
split; first by rewrite (C86_free_refuted 0 _ _ 9 _ g0 i2_turns) ?p2 // n41.
split; first by rewrite (C86_free_refuted 0 _ _ 9 _ g0 i2_turns) ?p2 // n41.
move=> g hg; have [_ h] := @C86_free algCnumClosedField 3 g2 i2 (1, 0, 0, 0)%N ord0 isT i2_turns.
rewrite (h g) ?p2 // c2; apply: (mulIf n40); rewrite divfK // -natrM //.
Qed.

(** What is written for the i-th momentum: the modulus of the lattice momentum, the real part of what the call gave, whatever it
    returned, and the four components; for the first momentum always, with zero in the place of the propagator. *)
Theorem C86_written (C : numClosedFieldType) (N : nat) (G : grid) (half : 'I_4 -> C) (U : gauge C N G) (n : mode)
    (c : 'I_(N * N - 1)) (epsilon : C) (steps i : nat) :
  let line z := [:: sqrtC (\sum_(mu < 4) (2%:R * 'Im (half mu ^+ mode_at n mu)) ^+ 2); z;
    (mode_at n 0)%:R; (mode_at n 1)%:R; (mode_at n 2)%:R; (mode_at n 3)%:R] in
  (i = 0%N -> ghost_written half U c epsilon steps i n = Some (line 0)) /\
  ((0 < i)%N -> ghost_written half U c epsilon steps i n =
    if ghost_bicgstab half 0 U n c epsilon steps is Returned _ z then Some (line ('Re z)) else None).
Proof.
have e : modulus half n = sqrtC (\sum_(mu < 4) (2%:R * 'Im (half mu ^+ mode_at n mu)) ^+ 2).
  by congr sqrtC; apply: eq_bigr => mu _; rewrite /p_hat expr2.
move=> line; split=> [->|]; first by rewrite /ghost_written /= raddf0 e.
case: i => // i _; rewrite /ghost_written; case: (ghost_bicgstab _ _ _ _ _ _ _) => [b z|] //=; by rewrite e.
Qed.

Print Assumptions C85_gradient.
Print Assumptions C85_stationary.
Print Assumptions C85_maximum.
Print Assumptions C85_transverse.
Print Assumptions C85_propagator.
Print Assumptions C85_normalisation.
Print Assumptions C85_vertex.
Print Assumptions C85_labels_refuted.
Print Assumptions C86_hessian.
Print Assumptions C86_symmetric.
Print Assumptions C86_constants.
Print Assumptions C86_free.
Print Assumptions C86_outcome.
Print Assumptions C86_free_refuted.
Print Assumptions C86_written.
Print Assumptions C85_momenta.
Print Assumptions C85_written.

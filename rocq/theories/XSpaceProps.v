(** C84: the correlators in coordinate space. *)
From Coq Require Import ZArith.
From mathcomp Require Import all_ssreflect all_algebra all_field.
From Verif Require Import GaugeModel GaugeSpec GaugeProofs GaugeProofs2 GaugeProofs3 LoopModel LoopGrid GammaModel GammaSpec DiracModel DiracSpec DiracProofs DiracProofs2.
From Verif Require Import StochModel StochSpec StochProofs StochProofs2 StochProofs3 StochProofs4 StochProofs5 MesonModel MesonSpec MesonProofs MesonProofs2 MesonProofs3 MesonProofs4 XSpaceModel XSpaceSpec XSpaceProofs XSpaceProofs2.
Import GRing.Theory Num.Theory Order.POrderTheory.
Set Implicit Arguments.
Unset Strict Implicit.
Unset Printing Implicit Defensive.
Local Open Scope ring_scope.

(** translate moves a field: the value at a site is the one the given number of steps ahead on the periodic lattice. *)
Theorem C84_translate (C : numClosedFieldType) (n : nat) (G : grid) (old v : G -> 'I_4 -> 'I_n -> C) (dx dy dz dt : nat) (x y : G) :
  (forall mu : 'I_4, coord y mu = ((coord x mu + nth 0 [:: dx; dy; dz; dt] mu) %% ext G mu)%N) ->
  translate old v (Z.of_nat dx) (Z.of_nat dy) (Z.of_nat dz) (Z.of_nat dt) x = v y.
Proof.
move=> h; rewrite -/(translate_by old v (dx, dy, dz, dt)) translateE; congr (v _); apply: coord_inj => mu.
by rewrite coord_translation h; move: mu {h}; apply: ord4P.
Qed.
(** Not backwards: a displacement with no positive component leaves what the output held before the call. *)
Theorem C84_translate_refuted (C : numClosedFieldType) (n : nat) (G : grid) (old v : G -> 'I_4 -> 'I_n -> C) (dx dy dz dt : Z) :
  Z.le dx 0 -> Z.le dy 0 -> Z.le dz 0 -> Z.le dt 0 -> (dx, dy, dz, dt) <> (Z0, Z0, Z0, Z0) ->
  translate old v dx dy dz dt = old.
Proof.
move=> hx hy hz ht ne; rewrite /translate /steps.
have -> : Z.eqb dx 0 && Z.eqb dy 0 && Z.eqb dz 0 && Z.eqb dt 0 = false.
  apply/negP => /andP [/andP [/andP [/Z.eqb_eq a /Z.eqb_eq b] /Z.eqb_eq c] /Z.eqb_eq d]; by apply: ne; rewrite a b c d.
have z q : Z.le q 0 -> Z.to_nat q = 0%N by case: q => // p h; case: (h).
by rewrite !z.
Qed.
(** Solving for the square after multiplying by the Hermitian operator gives the propagator. *)
Theorem C84_inverse (C : numClosedFieldType) (n : nat) (G : grid) (kappa : C) (U : G -> 'I_4 -> 'M[C]_n) old S2 :
  solves (square_multiply (wilson_multiply kappa true U old)) S2 ->
  solves (dirac kappa U) (invert (wilson_multiply kappa true U old) S2).
Proof. by move=> s2; apply: invert_solves s2; [exact: lin_dirac|move=> v x a c; rewrite wilson_correct]. Qed.
(** The displacements are looked up at the right sites when every extent is at least two. *)
Theorem C84_sites (G : grid) (k : displacement) (x : G) : (forall mu, (2 <= ext G mu)%N) -> k \in coordinates ->
  (forall mu, coord x mu = (component k mu %% ext G mu)%N) -> site_at G k = Some x.
Proof. by move=> e2 kc h; apply: site_atP => mu; rewrite h modulusE // component_le. Qed.
(** With an extent of one some displacement has no site: the index is out of range or that of another site. *)
Theorem C84_sites_refuted (G : grid) (mu : 'I_4) : ext G mu = 1%N -> exists2 k, k \in coordinates & site_at G k = None.
Proof.
move=> e1; exists (2, 2, 2, 2)%N; first by rewrite !inE.
by apply: (@site_none G _ mu); rewrite e1 //; move: mu {e1}; apply: ord4P.
Qed.

(** The exact connected part: the second propagator is transposed in the spin and colour indices. *)
Theorem C84_exact (C : numClosedFieldType) (n : nat) (G : grid) (kappa : C) (U : G -> 'I_4 -> 'M[C]_n) old S2 (o x : G) (m : nat) (k : displacement) :
  (m < 16)%N -> (0 < n)%N -> kappa \is Num.real -> solves (square_multiply (wilson_multiply kappa true U old)) S2 ->
  (forall mu, coord o mu = 0%N) -> (forall mu, (2 <= ext G mu)%N) -> k \in coordinates -> (forall mu, coord x mu = (component k mu %% ext G mu)%N) ->
  let S := invert (wilson_multiply kappa true U old) S2 in
  written_exact S kappa m k
    = Some (4%:R * kappa ^+ 2 * \sum_c \sum_d \tr (spin C m *m prop S o x c d *m spin C m *m (prop S x o c d)^T)).
Proof.
move=> m16 n0 kr s2 o0 e2 kc hx S; rewrite /written_exact (C84_sites e2 kc hx); congr Some; rewrite expr2 mulrA; congr (_ * _).
exact: (exactE (lin_dirac kappa U) (C84_inverse s2) o0 (fun v w => dirac_herm U v w kr)).
Qed.
(** It is not a correlator of mesons: for SU(2) links a gauge transformation changes its sign. *)
Theorem C84_exact_refuted (C : numClosedFieldType) :
  exists (U : box_grid 0 0 0 1 -> 'I_4 -> 'M[C]_2) (Omega : box_grid 0 0 0 1 -> 'M[C]_2) (kappa : C) S S',
  [/\ forall x mu, unitary (U x mu) /\ \det (U x mu) = 1, forall x, unitary (Omega x) /\ \det (Omega x) = 1,
      forall old, solves (wilson_multiply kappa false U old) S, forall old, solves (wilson_multiply kappa false (gauge_transform Omega U) old) S' &
      exists2 z, z != 0 & written_exact S kappa 0 (0, 0, 0, 1)%N = Some z /\ written_exact S' kappa 0 (0, 0, 0, 1)%N = Some (- z)].
Proof.
have un z : unitary (om2 C z) := (om2_special C z).1.
pose S' (v : box_grid 0 0 0 1 -> 'I_4 -> 'I_2 -> C) := rotate (om2 C) (@solve2 C 2 (rotate (fun z => dagger (om2 C z)) v)).
pose o : box_grid 0 0 0 1 := (ord0, ord0, ord0, ord0); pose x : box_grid 0 0 0 1 := (ord0, ord0, ord0, ord_max).
have o0 mu : coord o mu = 0%N by move: mu; apply: ord4P.
have x1 mu : coord x mu = (mu == d3)%N by move: mu; apply: ord4P.
have s' : solves (dirac 16%:R^-1 (gauge_transform (om2 C) (@unit_links C 2 1))) S'.
  move=> v y a c; rewrite /S' dirac_gauge // (rotate_ext _ (@solves2 C 2 _)) /rotate.
  rewrite (eq_bigr (fun e => \sum_d (om2 C y c e * dagger (om2 C y) e d) * v y a d)); last first.
    by move=> e _; rewrite big_distrr /=; apply: eq_bigr => d _; rewrite mulrA.
  rewrite exchange_big /=; have := un y; rewrite /unitary => u.
  rewrite (eq_bigr (fun d => (1%:M : 'M[C]_2) c d * v y a d)); last by move=> d _; rewrite -big_distrl /= -u mxE.
  by rewrite (bigD1 c) //= mxE eqxx mul1r big1 ?addr0 // => d ne; rewrite mxE eq_sym (negPf ne) mul0r.
exists (@unit_links C 2 1), (om2 C), 16%:R^-1, (@solve2 C 2), S'; split.
- by move=> y mu; split; [exact: unitary1|exact: det1].
- by move=> y; exact: om2_special.
- by move=> old v y a c; rewrite wilson_correct; exact: solves2.
- by move=> old v y a c; rewrite wilson_correct; exact: s'.
have hs : site_at (box_grid 0 0 0 1) (0, 0, 0, 1)%N = Some x by apply: site_atP; apply: ord4P.
exists (4%:R * 16%:R^-1 * 16%:R^-1 * (4%:R * (2%:R / 9%:R)));
  first by rewrite !mulf_neq0 ?invr_neq0 ?pnatr_eq0.
by rewrite /written_exact hs (exact_free C o0 x1) (exact_turned o0 x1 s') mulrN.
Qed.
(** The stochastic connected part uses one noise vector for both propagators: its average is the connected part plus the
    product of the loops. *)
Theorem C84_connected (C : numClosedFieldType) (n : nat) (G : grid) (D S : (G -> 'I_4 -> 'I_n -> C) -> G -> 'I_4 -> 'I_n -> C) old (m : nat) (k : displacement) (mu : 'I_4) :
  linear_on D -> solves D S -> (m < 16)%N -> (0 < n)%N -> (component k mu %% ext G mu)%N != 0%N ->
  let M := spin C m in
  let shift := translation (fun nu => component k nu) in
  average (fun t : tape n G => connected S old m k t)
    = \sum_x two_point S M (bar M) x (shift x) + \sum_x quark_loop S M x * quark_loop S (bar M) (shift x).
Proof. by move=> lD sol m16 n0 h M shift; rewrite (conn_average lD sol) // ?big_split // => x; exact: translation_ne h. Qed.
(** For free quarks on two sites the products of the loops do not vanish. *)
Theorem C84_connected_refuted (C : numClosedFieldType) (n : nat) (old : box_grid 0 0 0 1 -> 'I_4 -> 'I_n -> C) : (0 < n)%N ->
  exists (U : box_grid 0 0 0 1 -> 'I_4 -> 'M[C]_n) (kappa : C) S,
  [/\ forall x mu, unitary (U x mu), forall old', solves (wilson_multiply kappa false U old') S &
      average (fun t : tape n (box_grid 0 0 0 1) => connected S old 0 (0, 0, 0, 1)%N t)
        != \sum_x two_point S (spin C 0) (bar (spin C 0)) x (sup d3 x)].
Proof.
move=> n0; exists (@unit_links C n 1), 16%:R^-1, (@solve2 C n); split.
- by move=> y mu; exact: unitary1.
- by move=> old' v y a c; rewrite wilson_correct; exact: solves2.
rewrite (@C84_connected C n _ _ _ _ 0 _ d3 (lin_dirac _ _) (@solves2 C n)) // -subr_eq0 addrC addrA addNr add0r.
have b0 : bar (spin C 0) = 1%:M by rewrite spin0 /bar htrans1 mulmx1; exact: g33.
rewrite b0 spin0 (eq_bigr (fun=> (n%:R * (5%:R / 3%:R) * 4%:R) ^+ 2)); last first.
  by move=> y _; rewrite !loop2 mxtrace1 expr2.
rewrite sumr_const -mulr_natl mulf_neq0 ?expf_neq0 ?mulf_neq0 ?invr_neq0 ?pnatr_eq0 -?lt0n //.
by apply/card_gt0P; exists (ord0, ord0, ord0, ord0).
Qed.

Lemma loop_diag (C : numClosedFieldType) (n : nat) (G : grid) (S : (G -> 'I_4 -> 'I_n -> C) -> G -> 'I_4 -> 'I_n -> C) (w : 'I_4 -> C) (x : G) :
  quark_loop S (diag_mx (\row_nu w nu)) x = \sum_(nu < 4) \sum_c w nu * element S (x, nu, c) (x, nu, c).
Proof.
rewrite [RHS]exchange_big; apply: eq_bigr => c _; apply: eq_bigr => nu _; rewrite mxE (bigD1 nu) //= !mxE eqxx mulr1n.
by rewrite big1 ?addr0 // => b ne; rewrite !mxE eq_sym (negPf ne) mulr0n mul0r.
Qed.
Lemma two_point_diag (C : numClosedFieldType) (n : nat) (G : grid) (S : (G -> 'I_4 -> 'I_n -> C) -> G -> 'I_4 -> 'I_n -> C) (w : 'I_4 -> C) (x y : G) :
  two_point S (diag_mx (\row_nu w nu)) (diag_mx (\row_nu w nu)) x y
    = \sum_(mu < 4) \sum_c \sum_(nu < 4) \sum_d w mu * w nu * (element S (x, mu, c) (y, nu, d) * element S (y, nu, d) (x, mu, c)).
Proof.
transitivity (\sum_(mu < 4) \sum_c \sum_d \sum_(nu < 4) w mu * w nu * (element S (x, mu, c) (y, nu, d) * element S (y, nu, d) (x, mu, c))); last first.
  by apply: eq_bigr => mu _; apply: eq_bigr => c _; exact: exchange_big.
rewrite [RHS]exchange_big /= /two_point exchange_big; apply: eq_bigr => c _; rewrite [RHS]exchange_big; apply: eq_bigr => d _.
apply: eq_bigr => mu _; rewrite -mulmxA mxE; apply: eq_bigr => nu _.
by rewrite mul_diag_mx mul_diag_mx !mxE mulrACA mulrCA mulrA.
Qed.
(** The disconnected part: the matrix that enters is the diagonal matrix of the sums of the columns, and the two factors,
    which share the noise vectors, leave one N-th of a connected part. *)
Theorem C84_disconnected (C : numClosedFieldType) (n : nat) (G : grid) (D S : (G -> 'I_4 -> 'I_n -> C) -> G -> 'I_4 -> 'I_n -> C) old (m : nat) (k : displacement) (mu : 'I_4) (N : nat) :
  linear_on D -> solves D S -> (m < 16)%N -> (0 < N)%N -> (component k mu %% ext G mu)%N != 0%N ->
  let W := diag_mx (\row_nu \sum_(mu < 4) spin C m mu nu) in
  let shift := translation (fun nu => component k nu) in
  average (fun ts : {ffun 'I_N -> tape n G} => disconnected_product S old m k ts)
    = \sum_x quark_loop S W x * quark_loop S W (shift x) + N%:R^-1 * \sum_x two_point S W W x (shift x).
Proof.
move=> lD sol m16 N0 h W shift; rewrite (disc_average lD sol) // => [|x]; last exact: translation_ne h.
by rewrite big_split big_distrr /=; congr (_ + _); apply: eq_bigr => x _; rewrite ?loop_diag ?two_point_diag.
Qed.
(** For the unit matrix and gamma5 that is the product of the loops up to the bias. *)
Theorem C84_disconnected_diagonal (C : numClosedFieldType) (n : nat) (G : grid) (D S : (G -> 'I_4 -> 'I_n -> C) -> G -> 'I_4 -> 'I_n -> C) old (m : nat) (k : displacement) (mu : 'I_4) (N : nat) :
  linear_on D -> solves D S -> m \in [:: 0; 15]%N -> (0 < N)%N -> (component k mu %% ext G mu)%N != 0%N ->
  let M := spin C m in
  let shift := translation (fun nu => component k nu) in
  average (fun ts : {ffun 'I_N -> tape n G} => disconnected_product S old m k ts)
    = \sum_x quark_loop S M x * quark_loop S M (shift x) + N%:R^-1 * \sum_x two_point S M M x (shift x).
Proof.
move=> lD sol hm N0 h M shift.
have m16 : (m < 16)%N by move: hm; rewrite !inE => /orP [] /eqP ->.
have -> : M = diag_mx (\row_nu \sum_(mu < 4) spin C m mu nu).
  rewrite /M; apply/matrixP => a b; rewrite !mxE sum4E !mxE.
  by move: hm a b; rewrite !inE => /orP [] /eqP ->; apply: ord4P; apply: ord4P;
    rewrite /gc /zc /= ?mulr0 ?addr0 ?add0r ?mulr0n ?mulr1n.
exact: (C84_disconnected old lD sol m16 N0 h).
Qed.
(** For gamma3, whose loops vanish for free quarks, the average stays away from the product of the loops for every number of noise vectors. *)
Theorem C84_disconnected_refuted (C : numClosedFieldType) (n : nat) (old : box_grid 0 0 0 1 -> 'I_4 -> 'I_n -> C) : (0 < n)%N ->
  exists (U : box_grid 0 0 0 1 -> 'I_4 -> 'M[C]_n) (kappa : C) S,
  [/\ forall x mu, unitary (U x mu), forall old', solves (wilson_multiply kappa false U old') S,
      \sum_x quark_loop S (gamma C d3) x * quark_loop S (gamma C d3) (sup d3 x) = 0 &
      forall N, (0 < N)%N ->
      88%:R <= average (fun ts : {ffun 'I_N -> tape n (box_grid 0 0 0 1)} => disconnected_product S old 8 (0, 0, 0, 1)%N ts)].
Proof.
move=> n0; exists (@unit_links C n 1), 16%:R^-1, (@solve2 C n).
have t0 : \tr (gamma C d3) = 0.
  rewrite /mxtrace sum4E -spin8 !mxE.
  by rewrite /gc /zc /= ?mulr0 ?addr0.
split.
- by move=> y mu; exact: unitary1.
- by move=> old' v y a c; rewrite wilson_correct; exact: solves2.
- by rewrite big1 // => y _; rewrite !loop2 t0 !mulr0.
move=> N N0; rewrite (@C84_disconnected C n _ _ _ _ 8 _ d3 _ (lin_dirac _ _) (@solves2 C n)) //.
have -> : diag_mx (\row_nu \sum_(mu < 4) spin C 8 mu nu) = 1%:M.
  apply/matrixP => a b; rewrite !mxE sum4E !mxE.
  by move: a b; apply: ord4P; apply: ord4P; rewrite /gc /zc /= ?mulr0 ?addr0 ?add0r ?mulr0n ?mulr1n.
rewrite (eq_bigr (fun=> (n%:R * (20%:R / 3%:R)) ^+ 2)); last first.
  move=> y _; rewrite !loop2 mxtrace1 expr2; congr (_ * _); by rewrite -!mulrA; congr (_ * _); rewrite mulrCA mulrC -natrM mulrC.
have -> : \sum_(y : box_grid 0 0 0 1) (n%:R * (20%:R / 3%:R)) ^+ 2 = 2%:R * (n%:R * (20%:R / 3%:R)) ^+ 2 :> C.
  by rewrite sumr_const [RHS]mulr_natl !card_prod !card_ord.
apply: ler_paddr.
  rewrite mulr_ge0 ?invr_ge0 ?ler0n //; apply: sumr_ge0 => y _; apply: sumr_ge0 => c _; apply: sumr_ge0 => d _.
  have p0 (z w : box_grid 0 0 0 1) : 0 <= (if z == w then 5%:R / 3%:R else 3%:R^-1) :> C.
    by case: ifP => _; rewrite ?divr_ge0 ?invr_ge0 ?ler0n.
  rewrite !prop2 !mul1mx mulmx1 -scalemxAl mul1mx scalerA mxtraceZ mxtrace1.
  by rewrite !mulr_ge0 ?ler0n.
have n1 : 1 <= n%:R :> C by rewrite ler1n.
apply: (@le_trans _ _ (2%:R * (20%:R / 3%:R) ^+ 2)); last first.
  rewrite ler_pmul2l ?ltr0n // [X in _ <= X]exprMn ler_pemull ?exprn_ge0 ?divr_ge0 ?ler0n // exprn_ege1 //.
rewrite expr_div_n mulrA ler_pdivl_mulr ?exprn_gt0 ?ltr0n // -!natrX -!natrM ler_nat.
by [].
Qed.
(** A case: heavy quarks with any unitary links on a four by four by four by eight lattice, the displacement (1, 1, 0, 0). *)
Example C84_case (C : numClosedFieldType) (n : nat) (U : box_grid 3 3 3 7 -> 'I_4 -> 'M[C]_n) (old : box_grid 3 3 3 7 -> 'I_4 -> 'I_n -> C) :
  (0 < n)%N -> exists2 k0 : C, 0 < k0 & forall kappa, `|kappa| < k0 -> exists S,
  [/\ linear_on (dirac kappa U), solves (dirac kappa U) S, (1, 1, 0, 0)%N \in coordinates, (component (1, 1, 0, 0)%N d1 %% ext (box_grid 3 3 3 7) d1)%N != 0%N &
      average (fun t : tape n (box_grid 3 3 3 7) => connected S old 15 (1, 1, 0, 0)%N t)
        = \sum_x two_point S (spin C 15) (bar (spin C 15)) x (sup d0 (sup d1 x))
          + \sum_x quark_loop S (spin C 15) x * quark_loop S (bar (spin C 15)) (sup d0 (sup d1 x))].
Proof.
move=> n0; have [k0 h0 h] := heavy U; exists k0 => // kappa hk; have [S sol] := h kappa hk; exists S; split => //.
- exact: lin_dirac.
- exact: (@C84_connected C n _ _ _ old 15 (1, 1, 0, 0)%N d1 (lin_dirac _ _) sol).
Qed.
(** A case for the translation: two steps in the first direction and three in the last. *)
Example C84_case_translate (C : numClosedFieldType) (n : nat) (old v : box_grid 3 3 3 7 -> 'I_4 -> 'I_n -> C) (x : box_grid 3 3 3 7) :
  translate old v 2 0 0 3 x = v (sup d0 (sup d0 (sup d3 (sup d3 (sup d3 x))))).
Proof. exact: (translateE old v (2, 0, 0, 3)%N x). Qed.
Print Assumptions C84_translate.
Print Assumptions C84_translate_refuted.
Print Assumptions C84_inverse.
Print Assumptions C84_sites.
Print Assumptions C84_sites_refuted.
Print Assumptions C84_exact.
Print Assumptions C84_exact_refuted.
Print Assumptions C84_connected.
Print Assumptions C84_connected_refuted.
Print Assumptions C84_disconnected.
Print Assumptions C84_disconnected_diagonal.
Print Assumptions C84_disconnected_refuted.

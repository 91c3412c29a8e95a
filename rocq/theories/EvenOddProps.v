(** C80: the even-odd preconditioned clover operator and the solver that uses it. *)
From Coq Require Import ZArith Ring.
From mathcomp Require Import all_ssreflect all_algebra all_field.
From Verif Require Import GaugeModel GaugeSpec GaugeProofs GaugeProofs2 GaugeProofs3 LoopModel LoopGrid GammaModel DiracModel DiracSpec.
From Verif Require Import DiracProofs DiracProofs2 DiracProofs3 CloverModel CloverSpec CloverProofs CloverProofs2 CloverProps ScalarModel.
From Verif Require Import EvenOddModel EvenOddSpec EvenOddProofs EvenOddProofs2 EvenOddProofs3.
Import GRing.Theory Num.Theory.
Set Implicit Arguments.
Unset Strict Implicit.
Unset Printing Implicit Defensive.
Local Open Scope ring_scope.

(** A matrix inversion that is right for invertible matrices. *)
Definition inverts (C : numClosedFieldType) k (inv : 'M[C]_k -> 'M[C]_k) : Prop := forall A, A \in unitmx -> inv A = invmx A.
(** The inner solver is right when it reports success. *)
Definition trusted (C : numClosedFieldType) n (G : grid) (bicg : ((G -> 'I_4 -> 'I_n -> C) -> G -> 'I_4 -> 'I_n -> C) -> (G -> 'I_4 -> 'I_n -> C) -> bool * (G -> 'I_4 -> 'I_n -> C)) : Prop :=
  forall M b y, bicg M b = (true, y) -> feq (M y) b.

(** Three colours, even extents: after setLattice (and setGamma5) the operator is the Schur complement of the clover operator.
    The even components that make the result vanish at the even sites exist, and with them the operator gives the odd
    components of the clover operator, with gamma5 by the flag, whatever the order in which the threads visit the sites. *)
Theorem C80_schur : forall (C : numClosedFieldType) (G : grid) inv adj (s0 : eo C 3 G) U g order v,
  inverts inv -> even_extents G -> (forall x, x \in order) ->
  let kappa := im_kappa (eo_op s0) in let csw := im_csw (eo_op s0) in
  regular_diagonal kappa csw U ->
  exists s1 s2 out, [/\ eo_setting inv adj s0 (SetLattice U) = Some s1, eo_setting inv adj s1 (SetGamma5 _ _ _ g) = Some s2,
    eo_multiply adj s2 order v = Some out,
    exists w, eliminated kappa csw U v w &
    forall w, eliminated kappa csw U v w -> feq out (reduced_operator kappa csw g U v w)].
Proof. move=> *; exact: eo_multiply_ok. Qed.
(** With gamma5 it is Hermitian at the odd sites, for real kappa and csw and any links. *)
Theorem C80_hermitian : forall (C : numClosedFieldType) (G : grid) inv adj (s0 : eo C 3 G) U order v w,
  inverts inv -> even_extents G -> (forall x, x \in order) ->
  let kappa := im_kappa (eo_op s0) in let csw := im_csw (eo_op s0) in
  kappa \is Num.real -> csw \is Num.real -> regular_diagonal kappa csw U ->
  let odd_part := restrict (fun x : G => ~~ even_site x) in
  exists s1 s2 p q, [/\ eo_setting inv adj s0 (SetLattice U) = Some s1, eo_setting inv adj s1 (SetGamma5 _ _ _ true) = Some s2,
    eo_multiply adj s2 order v = Some p, eo_multiply adj s2 order w = Some q &
    inner (odd_part v) q = inner p (odd_part w)].
Proof.
move=> C G inv adj s0 U order v w invE ev full k cs kr cr reg od.
have [s1 [s2 [p [e1 e2 e3 [v' hv] Hv]]]] := eo_multiply_ok invE adj (s0 := s0) true v ev full reg.
have [s1' [s2' [q [e1' e2' e3' [w' hw] Hw]]]] := eo_multiply_ok invE adj (s0 := s0) true w ev full reg.
exists s1, s2, p, q; split=> //.
  by move: e1' e2'; rewrite e1 => -[<-]; rewrite e2 => -[E]; rewrite E.
rewrite (inner_ext (fun _ _ _ => erefl) (Hw _ hw)) (inner_ext (Hv _ hv) (fun _ _ _ => erefl)).
exact: reduced_herm.
Qed.
(** The solver, for any inner solver: the solution fulfils the equations at the even sites, and at the odd sites the reduced
    operator takes gamma5 times the residual to the residual of the inner solver. *)
Theorem C80_residual : forall (C : numClosedFieldType) (G : grid) inv adj bicg (d : improved C 3 G) order s,
  inverts inv -> even_extents G -> (forall x, x \in order) ->
  let kappa := im_kappa d in let csw := im_csw d in let U := im_lattice d in
  regular_diagonal kappa csw U ->
  exists Q b y x res,
  [/\ (forall v, exists2 w, eliminated kappa csw U v w & feq (Q v) (reduced_operator kappa csw true U v w)),
      bicg (fun v => Q (Q v)) b = (res, y), preconditioned_solve inv adj bicg d order s = Some (res, x),
      (forall z a c, even_site z -> clover_dirac kappa csw U x z a c = s z a c) &
      (forall z a c, ~~ even_site z ->
         Q (g5 (fun z a c => clover_dirac kappa csw U x z a c - s z a c)) z a c = Q (Q y) z a c - b z a c)].
Proof. move=> *; exact: solve_residual. Qed.
(** When the operator has no zero mode and the inner solver is exact, the solution solves the clover equation. *)
Theorem C80_solve : forall (C : numClosedFieldType) (G : grid) inv adj bicg (d : improved C 3 G) order s x old,
  inverts inv -> even_extents G -> (forall x, x \in order) ->
  let kappa := im_kappa d in let csw := im_csw d in let U := im_lattice d in
  regular_diagonal kappa csw U -> regular_operator kappa csw U -> trusted bicg ->
  preconditioned_solve inv adj bicg d order s = Some (true, x) ->
  feq (improved_multiply adj (make_improved U kappa csw false) old x) s.
Proof.
move=> C G inv adj bicg d order s x old invE ev full k cs U reg rego tr H z a c.
rewrite improved_correct //=; exact: (solve_exact invE ev full reg rego tr H).
Qed.
(** The flag gamma5 of the operator is ignored: with the flag set the result is wrong for every source that gamma5 changes. *)
Theorem C80_gamma5_refuted : forall (C : numClosedFieldType) (G : grid) inv adj bicg U (kappa csw : C) order s x old,
  inverts inv -> even_extents G -> (forall x : G, x \in order) ->
  regular_diagonal kappa csw U -> regular_operator kappa csw U -> trusted bicg ->
  let d := make_improved U kappa csw true in
  ~ feq (g5 s) s -> preconditioned_solve (n := 3) inv adj bicg d order s = Some (true, x) -> ~ feq (improved_multiply adj d old x) s.
Proof.
move=> C G inv adj bicg U k cs order s x old invE ev full reg rego tr d ns H.
exact: (solve_gamma5 (d := d) invE ev full reg rego tr (erefl _) (erefl _) ns H).
Qed.
(** The number three is built into the indices: with one or two colours the matrix is read outside its bounds; with four or
    more there is, without a clover term, a source for which no inner solver leads to the solution. *)
Theorem C80_stride_refuted : forall (C : numClosedFieldType) n (G : grid) inv adj (d : improved C n G) order,
  ((0 < n < 3)%N -> forall bicg s, preconditioned_solve inv adj bicg d order s = None)
  /\ forall z : G, (3 < n)%N -> inverts inv -> even_extents G -> even_site z -> im_csw d = 0 ->
     regular_operator (im_kappa d) 0 (im_lattice d) ->
     exists s, forall bicg, exists res x, preconditioned_solve inv adj bicg d order s = Some (res, x)
       /\ ~ feq (clover_dirac (im_kappa d) 0 (im_lattice d) x) s.
Proof.
move=> C n G inv adj d order; split=> [h bicg s|z n4 invE ev ez c0 rego]; first exact: few_colours.
exact: (stride_wrong (inv := inv) invE n4 adj order ev ez).
Qed.
(** Only setLattice computes the inverse: after a change of kappa the old one is used, wherever there is a clover term. *)
Theorem C80_stale_refuted : forall (C : numClosedFieldType) (G : grid) inv adj (s0 : eo C 3 G) U kappa' v (z : G) a c,
  inverts inv ->
  let kappa := im_kappa (eo_op s0) in let csw := im_csw (eo_op s0) in
  regular_diagonal kappa csw U -> even_site z -> clover_term U v z a c != 0 -> csw != 0 -> kappa' != kappa ->
  exists s1 s2 W, [/\ eo_setting inv adj s0 (SetLattice U) = Some s1, eo_setting inv adj s1 (SetKappa _ _ kappa') = Some s2,
    im_kappa (eo_op s2) = kappa', eo_inv s2 = Some W &
    exists u, diagonal_part kappa' csw U (even_even_inverse W u) z a c <> u z a c].
Proof.
move=> C G inv adj s0 U k' v z a c invE k cs reg ez t0 c0 kk.
exact: (stale_kappa invE adj (d := set_lattice U (eo_op s0)) reg (erefl _) (erefl _) ez t0 c0 kk).
Qed.
(** The inner solver has for ever the precision and the number of steps of the first solve. *)
Theorem C80_precision_refuted : forall p m l l', ~~ has is_solve l ->
  pb_inner (foldl pb_step (Pbicg p m None) (l ++ PbSolve :: l')) = Some (last_precision p l, last_steps m l).
Proof. exact: pb_inner_first. Qed.

(** Cases: on the smallest lattice with trivial links at kappa = 1/16 all the hypotheses hold. *)
Lemma box1_even : even_extents (box_grid 1 1 1 1).
Proof. by move=> mu; rewrite /= /box_ext; case: (nat_of_ord mu) => [|[|[|m]]]. Qed.
Lemma ones_diagonal (C : numClosedFieldType) (kappa csw : C) : regular_diagonal kappa csw (ones C 3).
Proof. by move=> v x ex h a c; have := h a c; rewrite /diagonal_part ones_clover mulr0 addr0. Qed.
Example C80_solve_case : forall bicg s x old, trusted bicg ->
  preconditioned_solve (C := algCnumClosedField) invmx false bicg (make_improved (ones _ 3) 16%:R^-1 1 false) (enum (box 1 1 1 1)) s = Some (true, x) ->
  feq (improved_multiply false (make_improved (ones _ 3) 16%:R^-1 1 false) old x) s.
Proof.
move=> bicg s x old tr H; have full (y : box_grid 1 1 1 1) : y \in enum (box 1 1 1 1) by rewrite mem_enum.
have invE : inverts (invmx : 'M[algC]_(4 * 3) -> _) by [].
exact: (@C80_solve algCnumClosedField (box_grid 1 1 1 1) invmx false bicg (make_improved (ones _ 3) 16%:R^-1 1 false)
  (enum (box 1 1 1 1)) s x old invE box1_even full (@ones_diagonal _ 16%:R^-1 1) (@ones_regular _ 3 1) tr H).
Qed.
Example C80_schur_case : forall v, exists s1 s2 out,
  [/\ eo_setting invmx true (eo_default (make_improved (ones algCnumClosedField 3) 8%:R^-1 1 true)) (SetLattice (ones _ 3)) = Some s1,
      eo_setting invmx true s1 (SetGamma5 _ _ _ false) = Some s2, eo_multiply true s2 (enum (box 1 1 1 1)) v = Some out,
      exists w, eliminated 8%:R^-1 1 (ones _ 3) v w &
      forall w, eliminated 8%:R^-1 1 (ones _ 3) v w -> feq out (reduced_operator 8%:R^-1 1 false (ones _ 3) v w)].
Proof.
move=> v; apply: C80_schur => //; [exact: box1_even | by move=> y; rewrite mem_enum | exact: ones_diagonal].
Qed.
Lemma flux3_term (v : box_grid 3 3 3 3 -> 'I_4 -> 'I_3 -> algC) x a c : clover_term (flux 3) v x a c = if odd a then v x a c else - v x a c.
Proof.
rewrite clover_termE cloverE.
have A i b : act (update_field_strength (flux 3)) v x i b c = if i == i0 then - 'i * v x b c else 0.
  rewrite /act flux_strength /mulv (bigD1 c) //= !mxE eqxx mulr1n big1 ?addr0.
    by case: ifP => _ //; rewrite mul0r.
  by move=> e ec; rewrite !mxE [c == e]eq_sym (negbTE ec) mulr0n mul0r.
rewrite !A /= !subr0 !oppr0 !addr0 ?add0r ?mulr0 ?addr0.
have II : 'i * 'i = -1 :> algC by rewrite -expr2 sqrCi.
by move: a; apply: ord4P => /=; rewrite /sgn /= ?mul1r ?mulN1r ?mulNr ?mulrN ?opprK mulrA II mulN1r ?opprK.
Qed.
Example C80_stale_case : exists s1 s2 W,
  let s0 := eo_default (G := box_grid 3 3 3 3) (make_improved (flux 3) 2%:R^-1 1 true) in
  [/\ eo_setting invmx false s0 (SetLattice (flux 3)) = Some s1, eo_setting invmx false s1 (SetKappa _ _ 4%:R^-1) = Some s2,
    im_kappa (eo_op s2) = 4%:R^-1, eo_inv s2 = Some W &
    exists u, diagonal_part (G := box_grid 3 3 3 3) 4%:R^-1 1 (flux 3) (even_even_inverse W u) (ord0, ord0, ord0, ord0) d0 ord0 <> u (ord0, ord0, ord0, ord0) d0 ord0].
Proof.
have invE : inverts (invmx : 'M[algC]_(4 * 3) -> _) by [].
have reg : regular_diagonal (G := box_grid 3 3 3 3) (2%:R^-1 : algC) 1 (flux 3).
  move=> v x _ h a c; have := h a c; rewrite /diagonal_part flux3_term mulr1; set w := v x a c => /eqP E; apply/eqP; move: E.
  have n2 : 2%:R != 0 :> algC by rewrite pnatr_eq0.
  have n3 : 3%:R != 0 :> algC by rewrite pnatr_eq0.
  rewrite -(inj_eq (mulfI n2)) mulr0 mulrDr mulrA mulfV // mul1r mulr_natl mulr2n.
  by case: ifP => _; [rewrite -mulr2n -mulrSr -mulr_natl mulf_eq0 (negbTE n3) | rewrite addrK].
have ez : even_site (G := box_grid 3 3 3 3) (ord0, ord0, ord0, ord0).
  by rewrite /even_site /= !big_ord_recl big_ord0 /box_coord /=.
have t0 : clover_term (flux 3) (fun _ _ _ => 1) ((ord0, ord0, ord0, ord0) : box_grid 3 3 3 3) d0 ord0 != 0.
  by rewrite flux3_term /= oppr_eq0 oner_eq0.
have kk : 4%:R^-1 != 2%:R^-1 :> algC by rewrite (inj_eq invr_inj) eqr_nat.
exact: (@C80_stale_refuted _ (box_grid 3 3 3 3) invmx false (eo_default (G := box_grid 3 3 3 3) (make_improved (flux 3) 2%:R^-1 1 true)) (flux 3) 4%:R^-1
  (fun _ _ _ => 1) (ord0, ord0, ord0, ord0) d0 ord0 invE reg ez t0 (oner_neq0 _) kk).
Qed.
Example C80_stride_case : exists s, forall bicg, exists res x,
  preconditioned_solve invmx false bicg (make_improved (ones algCnumClosedField 4) 16%:R^-1 0 false) (enum (box 1 1 1 1)) s = Some (res, x)
  /\ ~ feq (clover_dirac 16%:R^-1 0 (ones _ 4) x) s.
Proof.
have [_ H] := @C80_stride_refuted algCnumClosedField 4 (box_grid 1 1 1 1) invmx false (make_improved (ones _ 4) 16%:R^-1 0 false) (enum (box 1 1 1 1)).
have ez : even_site (G := box_grid 1 1 1 1) (ord0, ord0, ord0, ord0).
  by rewrite /even_site /= !big_ord_recl big_ord0 /box_coord /=.
have invE : inverts (invmx : 'M[algC]_(4 * 4) -> _) by [].
exact: (H (ord0, ord0, ord0, ord0) isT invE box1_even ez (erefl _) (@ones_regular _ 4 0)).
Qed.
Example C80_precision_case : pb_inner (foldl pb_step (Pbicg (Zpos 5) 100 None) [:: PbSteps 50; PbSolve; PbPrecision (Zpos 9); PbSteps 10; PbSolve]) = Some (Zpos 5, 50%N).
Proof. by []. Qed.
Print Assumptions C80_schur.
Print Assumptions C80_hermitian.
Print Assumptions C80_residual.
Print Assumptions C80_solve.
Print Assumptions C80_gamma5_refuted.
Print Assumptions C80_stride_refuted.
Print Assumptions C80_stale_refuted.
Print Assumptions C80_precision_refuted.

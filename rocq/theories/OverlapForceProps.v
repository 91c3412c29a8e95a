(** Properties of the force of the overlap operator (C90). *)
From Coq Require Import List Ring.
From Verif Require Import Base SolverModel.
From mathcomp Require Import all_ssreflect all_algebra all_field.
From Verif Require Import GaugeModel GaugeSpec GaugeProofs GaugeProofs3 DiracModel DiracSpec DiracProofs2 FForceModel FForceWitness OverlapModel
  OverlapSpec OverlapForceSpec OverlapProofs OverlapProofs8 OverlapProofs9 OverlapProofs10.
Import GRing.Theory Num.Theory Order.POrderTheory.
Set Implicit Arguments.
Unset Strict Implicit.
Unset Printing Implicit Defensive.
Local Open Scope ring_scope.

(** For a scaling that is not negative or an odd number of roots, derivative subtracts from the force the derivative of
    weight * 2 Re X^+ D Y, D the overlap operator with gamma5.  Missing: a negative scaling with an even number of roots, where
    the claim is false. *)
Theorem C90_derivative_partial (C : numClosedFieldType) (n : nat) (L : lattice) (k : C) (roots : list C) (scaling mass weight : C)
    (V M Z F : gauge C n L) (old X Y : L -> 'I_4 -> 'I_n -> C) :
  roots <> nil -> k \is Num.real -> mass \is Num.real -> (forall x mu, unitary (V x mu)) -> (forall x mu, anti_hermitian (M x mu)) ->
  0 <= 'Re scaling \/ odd (size roots) ->
  is_derivative (overlap_multiply k roots scaling old mass true) V M Z X Y weight F
    (overlap_derivative k roots scaling old mass V F X Y weight).
Proof. by move=> r0 kR mR uV aM g; apply: derivative_good => //; exact: eta_good. Qed.
(** Otherwise it adds it: the force has the wrong sign, and there is a gauge field where that is not zero. *)
Theorem C90_derivative_refuted (C : numClosedFieldType) (n : nat) (L : lattice) (k : C) (roots : list C) (scaling mass weight : C)
    (V M Z F : gauge C n L) (old X Y : L -> 'I_4 -> 'I_n -> C) :
  (roots <> nil -> k \is Num.real -> mass \is Num.real -> (forall x mu, unitary (V x mu)) -> (forall x mu, anti_hermitian (M x mu)) ->
   'Re scaling < 0 -> ~~ odd (size roots) ->
   is_derivative (overlap_multiply k roots scaling old mass true) V M Z X Y weight
     (overlap_derivative k roots scaling old mass V F X Y weight) F) /\
  (exists (k' : C) roots' scaling' (V' M' : gauge C 2 (box 0 0 0 0)) X' Y', [/\ roots' <> nil, k' \is Num.real,
     (forall x mu, unitary (V' x mu)), (forall x mu, anti_hermitian (M' x mu)) &
     forall old' Z', ~ is_derivative (overlap_multiply k' roots' scaling' old' 0 true) V' M' Z' X' Y' 1 (fun _ _ => 0)
       (overlap_derivative k' roots' scaling' old' 0 V' (fun _ _ => 0) X' Y' 1)]).
Proof.
split; first by move=> r0 kR mR uV aM s0 od; apply: derivative_bad => //; rewrite /eta s0 od.
exists 8%:R^-1, [:: 1; 1], (-1), (@one_links C), (@w_momenta C), (@slope_field C), (@w_X C).
split=> //; [exact: eighth_real|exact: one_unitary|exact: w_anti|] => old' Z' h.
have r0 : [:: 1; 1 : C] <> nil by [].
have h' := derivative_bad old' 1 Z' (eighth_real C) (real0 C) (@one_unitary C) (@w_anti C) r0 (fun _ _ => 0) (@slope_field C) (@w_X C) (bad_eta C).
by have := bad_slope old'; rewrite (derivative_unique h h') eqxx.
Qed.
(** With roots in conjugate pairs, D Hermitian: the force accumulated from the solution X of (D^2 + b) X = phi and Y = D X is the
    derivative of the term phi^+ (D^2 + b)^-1 phi of the action. *)
Theorem C90_energy_partial (C : numClosedFieldType) (n : nat) (L : lattice) (k : C) (roots : list C) (scaling mass b : C)
    (V M Z : gauge C n L) (old X Y phi : L -> 'I_4 -> 'I_n -> C) :
  roots <> nil -> k \is Num.real -> mass \is Num.real -> b \is Num.real -> perm_eq (map conjC roots) roots ->
  (forall x mu, unitary (V x mu)) -> (forall x mu, anti_hermitian (M x mu)) -> 0 <= 'Re scaling \/ odd (size roots) ->
  let add := square_overlap_add k roots scaling old mass true in
  (forall v, solution add V b v (fun _ _ _ => 0) -> feq v (fun _ _ _ => 0)) ->
  solution add V b X phi -> overlap_multiply k roots scaling old mass true V X = Ok Y ->
  is_energy_derivative add V M Z b X phi (overlap_derivative k roots scaling old mass V (fun _ _ => 0) X Y 1).
Proof. by move=> r0 kR mR bR pr uV aM g; apply: energy_derivative => //; exact: eta_good. Qed.
(** For positive shifts the equation never has two solutions. *)
Theorem C90_regular (C : numClosedFieldType) (n : nat) (L : lattice) (k : C) (roots : list C) (scaling mass b : C)
    (V : gauge C n L) (old v : L -> 'I_4 -> 'I_n -> C) :
  roots <> nil -> k \is Num.real -> mass \is Num.real -> perm_eq (map conjC roots) roots -> 0 < b ->
  solution (square_overlap_add k roots scaling old mass true) V b v (fun _ _ _ => 0) -> feq v (fun _ _ _ => 0).
Proof. by move=> r0 kR mR pr; exact: solution_positive. Qed.
(** Two complex conjugate roots, trivial links, the momenta of C75 and the shift 1: any X is the solution for its own phi. *)
Example C90_energy_case (old X : box 0 0 0 0 -> 'I_4 -> 'I_2 -> algC) Z :
  let roots := [:: 1 + 'i; 1 - 'i] : seq algC in
  let add := square_overlap_add 8%:R^-1 roots 1 old (3%:R^-1) true in
  exists phi Y, [/\ solution add (@one_links _) 1 X phi, overlap_multiply 8%:R^-1 roots 1 old (3%:R^-1) true (@one_links _) X = Ok Y &
    is_energy_derivative add (@one_links _) (@w_momenta _) Z 1 X phi
      (overlap_derivative 8%:R^-1 roots 1 old (3%:R^-1) (@one_links _) (fun _ _ => 0) X Y 1)].
Proof.
move=> roots add; have r0 : roots <> nil by [].
have m0 : (3%:R^-1 : algC) \is Num.real by rewrite realV realn.
have pr : perm_eq (map conjC roots) roots.
  rewrite /roots /=; have -> : (1 + 'i : algC)^* = 1 - 'i by rewrite rmorphD rmorph1 conjCi.
  have -> : (1 - 'i : algC)^* = 1 + 'i by rewrite rmorphB rmorph1 conjCi opprK.
  by rewrite (perm_catC [:: _] [:: _]).
have [phi [Ep _]] := addE 8%:R^-1 old 1 (3%:R^-1) r0 (@one_links algCnumClosedField) X X 1.
have [Y [EY _]] := multiplyE 8%:R^-1 old 1 (3%:R^-1) true (@one_links algCnumClosedField) X r0.
have sX : solution add (@one_links _) 1 X phi by exists phi; split.
exists phi, Y; split=> //.
apply: C90_energy_partial => //; [exact: eighth_real|exact: one_unitary|exact: w_anti| |].
  by left; rewrite (Creal_ReP _ _) ?rpred1 // ler01.
by move=> v; apply: C90_regular => //; [exact: eighth_real|exact: ltr01].
Qed.
Print Assumptions C90_derivative_partial.
Print Assumptions C90_derivative_refuted.
Print Assumptions C90_energy_partial.
Print Assumptions C90_regular.

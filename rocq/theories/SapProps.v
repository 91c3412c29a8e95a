(** C76: the Schwarz alternating procedure. *)
From mathcomp Require Import all_ssreflect all_algebra all_field.
From Verif Require Import GaugeModel GaugeProofs3 LoopModel LoopGrid DiracModel DiracSpec DiracProofs DiracProofs2 SapModel SapSpec SapProofs.
Import GRing.Theory Num.Theory.
Set Implicit Arguments.
Unset Strict Implicit.
Unset Printing Implicit Defensive.
Local Open Scope ring_scope.

(** One multiplication by the complement block operator solves the equation on the black sites and on the red sites
    without black neighbours: the residual only lives on the red side of the block boundaries. *)
Theorem C76_step (C : numClosedFieldType) n (L : lattice) (kappa : C) (gamma5 : bool) (U : L -> 'I_4 -> 'M[C]_n) old
    (red black : L -> bool) solveR solveB (v : L -> 'I_4 -> 'I_n -> C) x :
  (forall x, black x = ~~ red x) ->
  exact_solver (block_multiply red kappa 0 gamma5 U) solveR ->
  exact_solver (block_multiply black kappa 0 gamma5 U) solveB ->
  let D := wilson_multiply kappa gamma5 U old in
  black x \/ interior red x ->
  holds_at D (complement_multiply D solveR solveB red black v) v x.
Proof. by move=> p r b D [h|h]; [exact: step_black | exact: step_red]. Qed.

(** On the black sites even when the red solver has not converged. *)
Theorem C76_step_black (C : numClosedFieldType) n (L : lattice) (kappa : C) (gamma5 : bool) (U : L -> 'I_4 -> 'M[C]_n) old
    (red black : L -> bool) solveR solveB (v : L -> 'I_4 -> 'I_n -> C) x :
  exact_solver (block_multiply black kappa 0 gamma5 U) solveB ->
  let D := wilson_multiply kappa gamma5 U old in
  black x -> holds_at D (complement_multiply D solveR solveB red black v) v x.
Proof. by move=> b D h; exact: step_black. Qed.

(** The same after any positive number of iterations of the preconditioner. *)
Theorem C76_sap (C : numClosedFieldType) n (L : lattice) (kappa : C) (gamma5 : bool) (U : L -> 'I_4 -> 'M[C]_n) old
    (red black : L -> bool) solveR solveB steps (v : L -> 'I_4 -> 'I_n -> C) x :
  (forall x, black x = ~~ red x) ->
  exact_solver (block_multiply red kappa 0 gamma5 U) solveR ->
  exact_solver (block_multiply black kappa 0 gamma5 U) solveB ->
  let D := wilson_multiply kappa gamma5 U old in let K := complement_multiply D solveR solveB red black in
  (0 < steps)%N -> black x \/ interior red x ->
  holds_at D (sap_multiply D K steps v) v x.
Proof. by move=> p r b D K; case: steps => // s _ h; exact: sap_holds. Qed.

(** Every iteration multiplies the residual by 1 - D K. *)
Theorem C76_residual (C : numClosedFieldType) n (L : lattice) (kappa : C) (gamma5 : bool) (U : L -> 'I_4 -> 'M[C]_n) old
    (red black : L -> bool) solveR solveB steps (v : L -> 'I_4 -> 'I_n -> C) :
  exact_solver (block_multiply red kappa 0 gamma5 U) solveR ->
  exact_solver (block_multiply black kappa 0 gamma5 U) solveB ->
  let D := wilson_multiply kappa gamma5 U old in let K := complement_multiply D solveR solveB red black in
  feq (fun x a c => v x a c - D (sap_multiply D K steps v) x a c)
    (iter steps (fun r x a c => r x a c - D (K r) x a c) (fun x a c => v x a c - D v x a c)).
Proof. by move=> r b D K; exact: sap_residual. Qed.

(** A solution of the equation is a fixed point of the iteration. *)
Theorem C76_fixed (C : numClosedFieldType) n (L : lattice) (kappa : C) (gamma5 : bool) (U : L -> 'I_4 -> 'M[C]_n) old
    (red black : L -> bool) solveR solveB (y v : L -> 'I_4 -> 'I_n -> C) :
  exact_solver (block_multiply red kappa 0 gamma5 U) solveR ->
  exact_solver (block_multiply black kappa 0 gamma5 U) solveB ->
  let D := wilson_multiply kappa gamma5 U old in let K := complement_multiply D solveR solveB red black in
  feq (D y) v -> feq (fun x a c => y x a c - K (D y) x a c + K v x a c) y.
Proof. by move=> r b D K; exact: sap_fixed. Qed.

(** The two chequerboards are complementary, constant on blocks, and separate adjacent blocks when every direction has
    one block or an even number of them. *)
Theorem C76_chequerboard (G : grid) (size : 'I_4 -> nat) (x : G) :
  [/\ block_mask size true x = ~~ block_mask size false x,
      forall y red, same_block size x y -> block_mask size red x = block_mask size red y &
      forall mu red, (0 < size mu)%N -> ext G mu = size mu \/ (exists k, ext G mu = (size mu * (2 * k))%N) ->
        (block_mask size red (sup mu x) == block_mask size red x)
          = (coord (sup mu x) mu %/ size mu == coord x mu %/ size mu)%N].
Proof. by split=> [|y red|mu red]; [exact: mask_red | exact: mask_block | exact: mask_neighbours]. Qed.

(** With three blocks in a direction adjacent blocks get the same colour. *)
Theorem C76_chequerboard_refuted :
  exists x : box_grid 2 2 2 2, let size := fun _ : 'I_4 => 1%N in
  [/\ ext (box_grid 2 2 2 2) d0 = 3, coord (sup d0 x) d0 %/ size d0 != coord x d0 %/ size d0 &
      forall red, block_mask size red (sup d0 x) = block_mask size red x]%N.
Proof. exact: mask_refuted. Qed.

(** Two sites coupled in the first direction, blocks of one site, kappa = 1: the block operators are - 5 on their block,
    and a source on the red site alone reaches the black one. *)
Definition case_source : box_grid 1 0 0 0 -> 'I_4 -> 'I_3 -> algC := fun x a c => (coord x d0 + a + c)%:R.
Example C76_case (old := fun (_ : box_grid 1 0 0 0) (_ : 'I_4) (_ : 'I_3) => 0 : algC) steps x :
  let U : box_grid 1 0 0 0 -> 'I_4 -> 'M[algC]_3 := fun _ _ => 1%:M in
  let red := block_mask (G := box_grid 1 0 0 0) (fun _ => 1%N) true in
  let black := block_mask (G := box_grid 1 0 0 0) (fun _ => 1%N) false in
  let solve c v := two_solver 1 c (maybe5 true v) in
  let D := wilson_multiply 1 true U old in let K := complement_multiply D (solve true) (solve false) red black in
  black x -> holds_at D (sap_multiply D K steps.+1 case_source) case_source x.
Proof.
move=> U red black solve D K bx.
have ne : (1 : algC) * 6%:R != 1 by rewrite mul1r -[X in _ != X]/(1%:R) eqr_nat.
apply: (@C76_sap _ _ _ 1 true U old red black) => //; last by left.
- by move=> y; rewrite /red mask_red negbK.
- exact: two_exact.
- exact: two_exact.
Qed.
(** Blocks of two sites on the 4 x 4 x 4 x 4 lattice meet the hypothesis on the number of blocks. *)
Example C76_case_mask (x : box_grid 3 3 3 3) :
  (block_mask (fun _ => 2%N) true (sup d1 x) == block_mask (fun _ => 2%N) true x) = (coord (sup d1 x) d1 %/ 2 == coord x d1 %/ 2)%N.
Proof. by have [_ _ H] := C76_chequerboard (fun _ => 2%N) x; apply: (H d1 true) => //; right; exists 1%N. Qed.

Print Assumptions C76_step.
Print Assumptions C76_step_black.
Print Assumptions C76_sap.
Print Assumptions C76_residual.
Print Assumptions C76_fixed.
Print Assumptions C76_chequerboard.
Print Assumptions C76_chequerboard_refuted.

(** The gluon and ghost propagators in the Landau gauge, gauge_fixing/LandauGluonPropagator.cpp and
    gauge_fixing/LandauGhostPropagator.cpp, for any number of colours and any periodic lattice, in exact arithmetic.

    The momenta are multiples of 2 pi / extent.  [half mu] is the number cos(pi/extent) + i sin(pi/extent) of direction mu: the
    sines and cosines of the code are powers of it.  Sums over threads and processes are sums over the sites; the halo
    exchanges are those of C08.  ghostPropagatorCG, which nothing calls, and the text printed are not modelled. *)
From mathcomp Require Import all_ssreflect all_algebra.
From Verif Require Import GaugeModel LoopModel AdjModel FixModel.
Import GRing.Theory Num.Theory.
Set Implicit Arguments.
Unset Strict Implicit.
Unset Printing Implicit Defensive.
Local Open Scope ring_scope.

(** The integers n[0], ..., n[3] of a momentum. *)
Definition mode : Type := (nat * nat * nat * nat)%type.
Definition mode_at (n : mode) (mu : nat) : nat := match mu with 0 => n.1.1.1 | 1 => n.1.1.2 | 2 => n.1.2 | _ => n.2 end%N.

Section Momenta.
Variable C : numClosedFieldType.
Variable G : grid.
Variable pi : C.
(** LandauGluonPropagator.cpp 22-48 and LandauGhostPropagator.cpp 422-450: the momenta kept, in their order. *)
Definition momentum (n : mode) (mu : 'I_4) : C := (mode_at n mu)%:R * 2%:R * pi / (ext G mu)%:R.
Definition kept (cut : C) (n : mode) : bool :=
  let mean := (\sum_(mu < 4) momentum n mu) / 4%:R in \sum_(mu < 4) `|momentum n mu - mean| < cut.
Definition momenta (maximal : mode) (cut : C) : seq mode :=
  [seq n <- [seq (ijk, l) | ijk <- [seq (ij, k) | ij <- [seq (i, j) | i <- iota 0 (mode_at maximal 0), j <- iota 0 (mode_at maximal 1)], k <- iota 0 (mode_at maximal 2)],
                              l <- iota 0 (mode_at maximal 3)] | kept cut n].
End Momenta.

Section Landau.
Variable C : numClosedFieldType.
Variable N : nat.                       (* numberColors *)
Variable G : grid.
Notation GaugeGroup := 'M[C]_N.
Notation d := (N * N - 1)%N.            (* numberGenerators() *)
Notation T := (generators C N).
Variable half : 'I_4 -> C.
Implicit Types (U : gauge C N G) (n : mode).

(** cos + i sin of momentum . x (LandauGhostPropagator.cpp 208-213), and with the half step of direction mu
    (LandauGluonPropagator.cpp 104-110 with delta, 50-62). *)
Definition wave n (x : G) : C := \prod_(nu < 4) half nu ^+ (2 * mode_at n nu * coord x nu).
Definition link_wave n (mu : 'I_4) (x : G) : C := wave n x * half mu ^+ mode_at n mu.
(** LandauGluonPropagator.cpp 111-118 and 125-137: resultAk[mu][c], resultAmk[mu][c]. *)
Definition Ak U n (mu : 'I_4) (c : nat) : C := \sum_(x : G) link_wave n mu x * \tr (lie_field U x mu *m T`_c).
Definition Amk U n (mu : 'I_4) (c : nat) : C := \sum_(x : G) (link_wave n mu x)^* * \tr (lie_field U x mu *m T`_c).
(** 139-146: p and modulus. *)
Definition p_hat n (mu : 'I_4) : C := 2%:R * 'Im (half mu ^+ mode_at n mu).
Definition modulus n : C := sqrtC (\sum_(mu < 4) p_hat n mu * p_hat n mu).
(** 151-156: propagator. *)
Definition gluon U n : C := \sum_(mu < 4) \sum_(c < d) 'Re (Ak U n mu c * Amk U n mu c).
(** 158-167. *)
Definition gluon_normalised U n : C := if modulus n < 10%:R ^- 16 then gluon U n / 4%:R else gluon U n / 3%:R.
(** 172-194: three_point_function; [n0] is the first momentum, whose field is Azero.  No number for a vanishing modulus. *)
Definition vertex U n0 n : option C :=
  if modulus n == 0 then None else
  Some (\sum_(c1 < d) \sum_(c2 < d) \sum_(c3 < d) \sum_(mu1 < 4) \sum_(mu2 < 4)
    - (2%:R * 'i) * \tr ((T`_c1 *m T`_c2 - T`_c2 *m T`_c1) *m T`_c3) * Ak U n mu1 c1 * Ak U n0 mu2 c2 * Amk U n mu1 c3
      * p_hat n mu2 / (6%:R * modulus n * modulus n)).
(** 200-214 and 219-232: the numbers written for each momentum in gluon_propagator and in three_gluon_vertex. *)
Definition written_gluon U n : seq C :=
  [:: modulus n; gluon_normalised U n; (mode_at n 0)%:R; (mode_at n 1)%:R; (mode_at n 2)%:R; (mode_at n 2)%:R].
Definition gluon_output U (ns : seq mode) : seq (seq C) := [seq written_gluon U n | n <- ns].
Definition written_vertex U n0 (i : nat) n : seq (option C) :=
  [:: Some (modulus n); if i is 0 then Some 0 else omap (fun z => 'Im z) (vertex U n0 n);
      Some (mode_at n 0)%:R; Some (mode_at n 1)%:R; Some (mode_at n 2)%:R; Some (mode_at n 3)%:R].
Definition vertex_output U (ns : seq mode) : seq (seq (option C)) :=
  [seq written_vertex U (head (0, 0, 0, 0)%N ns) i (nth (0, 0, 0, 0)%N ns i) | i <- iota 0 (size ns)].

(** ** The ghost *)
Notation field := (G -> 'I_d -> C) (only parsing).
(** LandauGhostPropagator.cpp 181-199: A, B, C. *)
Definition ghost_A U (x : G) (mu : 'I_4) : 'M[C]_d := \matrix_(a, b)
  retr ((T`_a *m T`_b + T`_b *m T`_a) *m (U x mu + U (sdn mu x) mu)).
Definition ghost_B U (x : G) (mu : 'I_4) : 'M[C]_d := \matrix_(a, b) (2%:R * retr (T`_b *m T`_a *m U x mu)).
Definition ghost_C U (x : G) (mu : 'I_4) : 'M[C]_d := \matrix_(a, b) (2%:R * retr (T`_a *m T`_b *m U (sdn mu x) mu)).
Definition mulc (M : 'M[C]_d) (v : 'I_d -> C) (a : 'I_d) : C := \sum_b M a b * v b.
(** LandauGhostPropagator.cpp 14-27: ghostMatrix. *)
Definition ghost_matrix U (v : field) : field := fun x a =>
  \sum_(mu < 4) (mulc (ghost_A U x mu) (v x) a - mulc (ghost_B U x mu) (v (sup mu x)) a - mulc (ghost_C U x mu) (v (sdn mu x)) a).
(** 206-215: the source. *)
Definition ghost_source n (c : 'I_d) : field := fun x a => if a == c then wave n x else 0.
(** 347-360: the projection of the solution. *)
Definition projected n (c : 'I_d) (ghost : field) : C :=
  'Re (\sum_(x : G) (wave n x)^* * ghost x c) + 'i * 'Im (\sum_(x : G) (wave n x)^* * ghost x c).
(** vector_dot summed over the sites. *)
Definition cdot (v w : field) : C := \sum_(x : G) \sum_(a < d) (v x a)^* * w x a.

(** What a call returns and leaves in result; [Undefined] is undefined behaviour. *)
Inductive outcome := Returned (converged : bool) (result : C) | Undefined.
(** 242-402: the loop of ghostPropagatorBiCGStab, [k] steps left.  After a division by zero (rho over rho is none: rho_next is
    tested) every vector is filled with values that are not numbers, all the comparisons are false and the loop ends with
    false, result being what it was.  Line 321 writes four components of vectors of numberGenerators() components. *)
Variables (U : gauge C N G) (n : mode) (c : 'I_d) (epsilon : C) (source residual_hat : field).
Fixpoint ghost_loop (k : nat) (ghost residual p nu : field) (alpha omega rho minimal_norm result : C) : outcome :=
  match k with
  | 0%N => Returned false result
  | k'.+1 =>
    let rho_next := cdot residual_hat residual in
    if rho_next == 0 then Returned false result
    else if omega == 0 then Returned false result
    else
    let beta := rho_next / rho * (alpha / omega) in
    let p := fun x a => residual x a + beta * (p x a - omega * nu x a) in
    let nu := ghost_matrix U p in
    let alphatmp := cdot residual_hat nu in
    if alphatmp == 0 then Returned false result
    else
    let alpha := rho_next / alphatmp in
    let s : field := fun x a => residual x a - alpha * nu x a in
    let t := ghost_matrix U s in
    let tmp1 := cdot t s in
    let tmp2 := cdot t t in
    if 'Re tmp2 == 0 then (if (d < 4)%N then Undefined else Returned true result)
    else
    let omega := tmp1 / tmp2 in
    let ghost : field := fun x a => ghost x a + (alpha * p x a + omega * s x a) in
    let residual : field := fun x a => s x a - omega * t x a in
    let norm := 'Re (cdot residual residual) in
    if norm < epsilon then Returned true (projected n c ghost)
    else if norm < minimal_norm then ghost_loop k' ghost residual p nu alpha omega rho_next norm (projected n c ghost)
    else ghost_loop k' ghost residual p nu alpha omega rho_next minimal_norm result
  end.
End Landau.

Section GhostCall.
Variable C : numClosedFieldType.
Variable N : nat.
Variable G : grid.
Notation d := (N * N - 1)%N.
Variable half : 'I_4 -> C.
(** LandauGhostPropagator.cpp 181-240: the start of ghostPropagatorBiCGStab; [result] is what result held before. *)
Definition ghost_bicgstab (result : C) (U : gauge C N G) (n : mode) (c : 'I_d) (epsilon : C) (max_steps : nat) : outcome C :=
  let source := @ghost_source C N G half n c in
  let p := ghost_matrix U source in
  let zero : G -> 'I_d -> C := fun _ _ => 0 in
  ghost_loop half U n c epsilon (fun x a => source x a + p x a) max_steps source (fun x a => source x a - p x a) zero zero
    1 1 1 (10%:R ^+ 4) result.
(** LandauGhostPropagator.cpp 478-520: the numbers written for each momentum; the value returned is not looked at, the first
    momentum is left out. *)
Definition ghost_written (U : gauge C N G) (c : 'I_d) (epsilon : C) (max_steps : nat) (i : nat) (n : mode) : option (seq C) :=
  omap (fun z => [:: modulus half n; 'Re z; (mode_at n 0)%:R; (mode_at n 1)%:R; (mode_at n 2)%:R; (mode_at n 3)%:R])
    (if i is 0 then Some 0 else if ghost_bicgstab 0 U n c epsilon max_steps is Returned _ z then Some z else None).
End GhostCall.

(** The multishift solvers MMMRMultishiftSolver ("minimal_residual") and ChronologicalMultishiftSolver
    ("chronological_mass_estrapolation"), in exact complex arithmetic. *)
From Coq Require Import List.
From Verif Require Import Base.
From mathcomp Require Import all_ssreflect all_algebra.
From Verif Require Import SolverModel SolverSpec.
Import GRing.Theory Num.Theory.
Set Implicit Arguments.
Unset Strict Implicit.
Unset Printing Implicit Defensive.
Local Open Scope ring_scope.

Section Model.
Variable C : numClosedFieldType.
Variable m : nat.            (* the number of components of a vector *)
Notation vector := 'cV[C]_m.
Local Notation E := (exact C m).
Local Notation dot := (@scalar_product C m).

(** inverters/MMMRMultishiftSolver.cpp 37: omega, 0.95 (exact here). *)
Definition mm_omega : C := 19%:R / 20%:R.
(** MMMRMultishiftSolver.cpp 153-162: one step for a shift that is not the last; the entry is the shift, f and the
    solution (None: both NaN, after a division by zero). *)
Definition mm_other (alpha last : C) (r : vector) (e : C * option (C * vector)) : C * option (C * vector) :=
  match e with
  | (shift, None) => (shift, None)
  | (shift, Some (f, solution)) =>
    let d := 1 + (shift - last) * alpha in
    if d == 0 then (shift, None) else (shift, Some (f / d, solution + (f / d * alpha) *: r))
  end.
(** MMMRMultishiftSolver.cpp 140-187 and 193-197: the loop; [mad v w a] is multiplyAdd.  Result: the value returned for
    these shifts, the other shifts and the solution of the last one (None: NaN, after a division by zero). *)
Fixpoint mm_loop (n : nat) (mad : vector -> vector -> C -> vector) (epsilon last : C) (others : seq (C * option (C * vector)))
    (solution r : vector) : bool * (seq (C * option (C * vector)) * option vector) :=
  match n with
  | O => (false, (others, Some solution))
  | S n' =>
    let p := mad r r last in
    if dot p p == 0 then (false, (map (fun e => (e.1, None)) others, None)) else
    let alpha := mm_omega * (dot p r / dot p p) in
    let solution := solution + alpha *: r in
    let others := map (mm_other alpha last r) others in
    let r := r - alpha *: p in
    if dot r r < epsilon then (true, (others, Some solution)) else mm_loop n' mad epsilon last others solution r
  end.
(** MMMRMultishiftSolver.cpp 42-198: solve, without ALIGNED_OPT (the other variant, 200-299, makes the same steps);
    [size] is original_solutions.size().  The loop over the negative shifts (63-121, line by line that of
    MEMultishiftSolver) does not test the end of the vector: reading past it is undefined, and so are more shifts than
    solutions. *)
Definition mm_solve (maxSteps : nat) mad (epsilon : C) (source : vector) (size : nat) (shifts : seq C)
    : outcome (bool * seq (option vector)) :=
  let first := find (fun s => ~~ (s < 0)) shifts in
  if (seq.size shifts <= first)%N || (size < seq.size shifts)%N then UB else
  let negative := map (fun s => shift_solve E maxSteps mad epsilon s 0 source) (take first shifts) in
  let last := seq.last 0 shifts in
  let middle := drop first (take (seq.size shifts).-1 shifts) in
  let: (found, (others, solution)) :=
    mm_loop maxSteps mad epsilon last (map (fun s => (s, Some (1, 0))) middle) 0 source in
  Ok (found && all fst negative, map snd negative ++ map (fun e => omap snd e.2) others ++ [:: solution]).

(** inverters/ChronologicalMultishiftSolver.cpp 87-97: the coefficients of the guess, for p = (A + shift) previous and
    h = (A + shift) old; None: division by zero. *)
Definition chrono_coefficients (p h source : vector) : option (C * C) :=
  let pApA := dot p p in
  let hAhA := dot h h in
  let pAb := dot p source in
  let hAb := dot h source in
  let hApA := dot h p in
  let den := - (hAhA * pApA) + hApA * hApA^* in
  if den == 0 then None else
  let c1R := 'Re ((- (hAhA * pAb) + hApA * hAb^* + hAb * hApA^* - hAhA * pAb^*) / (2%:R * den)) in
  let c1I := 'Re ((- 'i / 2%:R * (- (hAhA * pAb) - hApA * hAb^* + hAb * hApA^* + hAhA * pAb^*)) / den) in
  let c2R := 'Re ((hApA * pAb - hAb * pApA - pApA * hAb^* + hApA^* * pAb^*) / (2%:R * den)) in
  let c2I := 'Re ((- 'i / 2%:R * (hApA * pAb - hAb * pApA + pApA * hAb^* - hApA^* * pAb^*)) / den) in
  Some (c1R + 'i * c1I, c2R + 'i * c2I).
(** ChronologicalMultishiftSolver.cpp 84-106: the guess. *)
Definition chrono_guess (mad : vector -> vector -> C -> vector) (source : vector) (shift : C) (previous old : vector) : option vector :=
  omap (fun c => c.1 *: previous + c.2 *: old)
    (chrono_coefficients (mad previous previous shift) (mad old old shift) source).
(** ChronologicalMultishiftSolver.cpp 82-183: the shifts after the first one.  [olds] is what the memory of the local
    vector solutions held before (14: its elements are not initialized; None: a NaN is among it). *)
Fixpoint chrono_rest (maxSteps : nat) mad (epsilon : C) (source : vector) (previous : option vector) (shifts : seq C)
    (olds : seq (option vector)) : bool * seq (option vector) :=
  match shifts with
  | [::] => (true, [::])
  | shift :: rest =>
    let guess := match previous, head None olds with
                 | Some x, Some h => chrono_guess mad source shift x h
                 | _, _ => None
                 end in
    let: (ok, y) := match guess with
                    | Some g => shift_solve E maxSteps mad epsilon shift g (source - mad g g shift)
                    | None => (maxSteps == O, None)
                    end in
    let: (ok', l) := chrono_rest maxSteps mad epsilon source y rest (behead olds) in
    (ok && ok', y :: l)
  end.
(** ChronologicalMultishiftSolver.cpp 11-192: solve; [size] is original_solutions.size(), [olds] the memory of the
    solutions from the second on.  As in MEMultishiftSolver empty shifts, or more shifts than solutions, are undefined. *)
Definition chrono_solve (maxSteps : nat) mad (epsilon : C) (source : vector) (size : nat) (shifts : seq C)
    (olds : seq (option vector)) : outcome (bool * seq (option vector)) :=
  match shifts with
  | [::] => UB
  | shift :: rest =>
    if (size < seq.size shifts)%N then UB else
    let: (ok, y) := shift_solve E maxSteps mad epsilon shift 0 source in
    let: (ok', l) := chrono_rest maxSteps mad epsilon source y rest olds in
    Ok (ok && ok', y :: l)
  end.
End Model.

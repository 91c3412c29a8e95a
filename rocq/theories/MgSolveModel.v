(** The multigrid solvers: multigrid/MultiGridBiConjugateGradient.cpp (the coarse equation), multigrid/MultiGridSolver.cpp
    (solve) and inverters/MultiGridMEMultishiftSolver.cpp.  Arithmetic is exact; fine and coarse vectors are columns with
    all components of all processes (the projections and the coarse operator are in MgModel.v).  A division by zero makes
    the vectors not a number from there on: comparisons fail and the loops run to their limit.  Not modelled: the
    construction of the basis (initializeBasis and updateBasis), and MultiGridConjugateGradient.cpp, which nothing uses. *)
From Coq Require Import List.
From Verif Require Import Base.
From mathcomp Require Import all_ssreflect all_algebra.
From Verif Require Import SolverModel SolverSpec GmresModel.
Import GRing.Theory Num.Theory.
Set Implicit Arguments.
Unset Strict Implicit.
Unset Printing Implicit Defensive.
Local Open Scope ring_scope.

Section Coarse.
Variable F : arith.
Notation num := (SolverModel.num F). Notation vec := (SolverModel.vec F).
Notation "a ** v" := (vscale F a v) (at level 40). Notation "v +! w" := (vadd F v w) (at level 50).
Notation "v -! w" := (vsub F v w) (at level 50).
(** MultiGridBiConjugateGradient.cpp 28-143: the loop; [n] steps left.  Line 102 tests tmp2 after omega was computed, but
    omega is not used in that case. *)
Fixpoint mgb_loop (n step : nat) (A : vec -> vec) (precision : num) (source solution residual residual_hat p nu : vec)
    (rho alpha omega : num) : result F :=
  match n with
  | O => Failed solution
  | S n' =>
    let rho_next := vdot F residual_hat residual in
    if niszero F rho_next then Failed solution else
    match ndiv F rho_next rho, ndiv F alpha omega with
    | Some a, Some b =>
      let p := residual +! nmul F a b ** (p -! omega ** nu) in
      let nu := A p in
      match ndiv F rho_next (vdot F residual_hat nu) with
      | None => NotANumber
      | Some alpha =>
        let s := residual -! alpha ** nu in
        let t := A s in
        if niszero F (vnorm F t) then Converged source else
        match ndiv F (vdot F t s) (vnorm F t) with
        | None => NotANumber
        | Some omega =>
          let solution := solution +! (alpha ** p +! omega ** s) in
          let residual := s -! omega ** t in
          if nlt F (vnorm F residual) precision && (4 < step)%N then Converged solution
          else mgb_loop n' step.+1 A precision source solution residual residual_hat p nu rho_next alpha omega
        end
      end
    | _, _ => NotANumber
    end
  end.
(** MultiGridBiConjugateGradient.cpp 7-150: solve. *)
Definition mgb_solve (maxSteps : nat) (precision : num) (A : vec -> vec) (source : vec) : result F :=
  let p := A source in
  mgb_loop maxSteps 0 A precision source source (source -! p) (source +! p) (vzero F) (vzero F) (none_ F) (none_ F) (none_ F).
End Coarse.

Section Solve.
Variable C : numClosedFieldType.
Variables m mc : nat.
Notation vector := 'cV[C]_m. Notation coarse := 'cV[C]_mc.

(** MultiGridSolver.cpp 69-88: the new direction; [coarse_solve] is biMgSolver->solve, whose return value is ignored,
    [sap] is preconditioner->multiply (None: not a number). *)
Definition mg_direction (A : vector -> vector) (restrict : vector -> coarse) (coarse_solve : coarse -> result (exact C mc))
    (prolong : coarse -> vector) (sap : vector -> option vector) (r : vector) : option vector :=
  match coarse_solve (restrict r) with
  | NotANumber => None
  | Converged y | Failed y =>
    let mg_inverse := prolong y in
    let source_sap := r - A mg_inverse in
    match sap source_sap with None => None | Some u => Some (u + mg_inverse) end
  end.

(** MultiGridSolver.cpp 42, MultiGridSolver.h (c[15], u[15]). *)
Definition mg_arrays : gm_object := GmObject 15 15.
(** MultiGridSolver.cpp 67-123: the body of the loop; after the direction (69-88) lines 93-123 are lines 68-97 of
    GMRESR.cpp. *)
Definition mg_step (A : vector -> vector) (direction : vector -> option vector) (k : nat) (s : gm_state C m) : gm_outcome C m :=
  match direction (gres s) with
  | None => GNaN _ _
  | Some u0 => gm_step mg_arrays A (Some (fun _ => u0)) k s
  end.
(** What solve leaves: the solution, and the members maxSteps and lastError (None: not written). *)
Inductive mg_result := MgDone (x : vector) (maxSteps : nat) (lastError : option C) | MgNotANumber (maxSteps : nat) | MgUndefined.
(** MultiGridSolver.cpp 67-135: [n] steps left. *)
Fixpoint mg_loop (A : vector -> vector) direction (precision : C) (maxSteps n k : nat) (lastError : option C)
    (s : gm_state C m) : mg_result :=
  match n with
  | O => MgDone (gsol s) maxSteps lastError
  | S n' =>
    match mg_step A direction k s with
    | GUB => MgUndefined
    | GNaN => MgNotANumber maxSteps
    | GOk s' =>
      let error := gnorm (gres s') in
      if error < precision then MgDone (gsol s') k (Some error)
      else mg_loop A direction precision maxSteps n' k.+1 (Some error) s'
    end
  end.
(** MultiGridSolver.cpp 44-55. *)
Definition mg_start (precision : C) (source : vector) (guess : option vector) : vector :=
  match guess with Some g => g | None => if precision < gnorm source then source else 0 end.
(** MultiGridSolver.cpp 10-148: solve; [cs] and [us] are what the arrays c and u hold from before. *)
Definition mg_solve (cs us : seq vector) (maxSteps : nat) (precision : C) (A : vector -> vector) direction (source : vector)
    (guess : option vector) : mg_result :=
  let solution := mg_start precision source guess in
  mg_loop A direction precision maxSteps maxSteps 0 None (GmState solution (source - A solution) cs us).
(** MultiGridSolver.cpp 148. *)
Definition mg_returns (r : mg_result) : bool := true.
(** maxSteps of the object after the call. *)
Definition mg_limit (r : mg_result) : nat := match r with MgDone _ k _ | MgNotANumber k => k | MgUndefined => 0 end.

(** A call of solve and the calls made on one object, one after the other. *)
Record mg_call := MgCall { call_c : seq vector; call_u : seq vector; call_precision : C; call_dirac : 'M[C]_m;
  call_direction : vector -> option vector; call_source : vector; call_guess : option vector }.
Definition mg_do (maxSteps : nat) (q : mg_call) : mg_result :=
  mg_solve (call_c q) (call_u q) maxSteps (call_precision q) (mulmx (call_dirac q)) (call_direction q) (call_source q) (call_guess q).
Fixpoint mg_run (maxSteps : nat) (calls : seq mg_call) : seq mg_result :=
  match calls with
  | [::] => [::]
  | q :: rest => let r := mg_do maxSteps q in r :: mg_run (mg_limit r) rest
  end.

(** MultiGridMEMultishiftSolver.cpp 33-86: one large or negative shift; the result of the loop is not tested. *)
Definition mgs_large (maxSteps : nat) (epsilon : C) (mad : vector -> vector -> C -> vector) (source : vector) (shift : C)
    : option vector :=
  match shift_loop (exact C m) maxSteps mad epsilon shift 0 source source (gnorm source) with
  | Converged x | Failed x => Some x
  | NotANumber => None
  end.
(** MultiGridMEMultishiftSolver.cpp 99-112 and 130-143: one small shift on the source gamma5 b, with first guesses for
    both equations; [T] is twistedDirac->multiply for a given twist, [direction] the multigrid direction for it.
    Result: square_root_solution (gamma5 applied twice to it), solution, and maxSteps of the object after the first and
    after the second equation.  A first equation that ends as NaN makes the second NaN as well, and the square root of a
    negative shift is NaN. *)
Definition mgs_small (limit : nat) (precision : C) (gamma5 : vector -> vector) (T : C -> vector -> vector)
    (direction : C -> vector -> option vector) (source : vector) (shift : C) (guess1 guess2 : option vector)
    : option (vector * vector) * (nat * nat) :=
  if shift < 0 then (None, (limit, limit)) else
  match mg_solve [::] [::] limit precision (T (- sqrtC shift)) (direction (- sqrtC shift)) source guess1 with
  | MgDone y limit1 _ =>
    match mg_solve [::] [::] limit1 precision (T (sqrtC shift)) (direction (sqrtC shift)) (gamma5 y) guess2 with
    | MgDone x limit2 _ => (Some (y, x), (limit1, limit2))
    | r => (None, (limit1, mg_limit r))
    end
  | r => (None, (mg_limit r, mg_limit r))
  end.
(** MultiGridMEMultishiftSolver.cpp 124-144: the shifts after the first small one, each with the last solution as guess.
    square_root_solution is not advanced: all write to the same vector, and the guesses for the first equations are the
    vector of the first shift, then this vector, then vectors that nothing has written ([fresh]).  After a NaN everything
    is NaN. *)
Fixpoint mgs_rest (limit : nat) precision gamma5 T direction source (shifts : seq C) (guesses : seq vector) (fresh : vector)
    (previous : vector) : seq (option vector * (nat * nat)) :=
  match shifts with
  | [::] => [::]
  | shift :: shifts' =>
    match mgs_small limit precision gamma5 T direction source shift (Some (head fresh guesses)) (Some previous) with
    | (None, (limit1, limit2)) => (None, (limit1, limit2)) :: map (fun _ => (None, (limit2, limit2))) shifts'
    | (Some (y, x), (limit1, limit2)) =>
      (Some x, (limit1, limit2)) :: mgs_rest limit2 precision gamma5 T direction source shifts'
        (match guesses with [::] => [::] | [:: _] => [::] | _ :: _ :: _ => [:: y] end) fresh x
    end
  end.
(** MultiGridMEMultishiftSolver.cpp 33: the test of the first loop (0.001 is exact here). *)
Definition mgs_is_large (shift : C) : bool := (shift < 0) || (1000%:R^-1 < shift).
(** MultiGridMEMultishiftSolver.cpp 14-159: solve; for every shift the solution (there are at least as many solutions as
    shifts) and the values of maxSteps of the MultiGridSolver after the two equations.  The shifts from the first small
    one on are all solved with the twisted operator. *)
Definition mgs_solve (maxSteps : nat) (epsilon : C) (limit : nat) (precision : C) mad gamma5 T direction (b : vector)
    (shifts : seq C) (fresh : vector) : seq (option vector * (nat * nat)) :=
  let i := find (fun s => ~~ mgs_is_large s) shifts in
  let first := map (fun s => (mgs_large maxSteps epsilon mad b s, (limit, limit))) (take i shifts) in
  match drop i shifts with
  | [::] => first
  | shift :: rest =>
    match mgs_small limit precision gamma5 T direction (gamma5 b) shift None None with
    | (None, (limit1, limit2)) => first ++ (None, (limit1, limit2)) :: map (fun _ => (None, (limit2, limit2))) rest
    | (Some (y, x), (limit1, limit2)) =>
      first ++ (Some x, (limit1, limit2)) :: mgs_rest limit2 precision gamma5 T direction (gamma5 b) rest [:: y; y] fresh x
    end
  end.
(** MultiGridMEMultishiftSolver.cpp 92 and 158. *)
Definition mgs_returns (r : seq (option vector * (nat * nat))) : bool := true.
End Solve.

(** The iterative solvers (source/inverters) and the functions of an operator (source/dirac_functions), written once for
    any arithmetic: a record of the operations on numbers and vectors that the code uses.  Instantiated below
    (SolverSpec.v) by exact complex numbers and, to run the code on literals, by rational numbers.
    Simplifications: arithmetic is exact (no rounding); a division by zero makes every number computed from it not a
    number (IEEE infinities and NaNs), so all later comparisons fail and the code runs to its step limit and reports
    failure: the model stops there with [NotANumber].  Vectors are complete fields: the distribution over processes and
    the halo exchange are the subject of the Layout and Halo files. *)
From Coq Require Import List Bool.
From Verif Require Import Base.
Import ListNotations.

Record arith := Arith {
  num : Type;                       (* real_t, long_real_t and std::complex *)
  vec : Type;                       (* reduced_dirac_vector_t *)
  nzero : num; none_ : num;         (* 0., 1. *)
  nadd : num -> num -> num; nsub : num -> num -> num; nmul : num -> num -> num; nopp : num -> num;
  ndiv : num -> num -> option num;  (* None: division by zero *)
  nre : num -> num;                 (* real(z) *)
  nabs : num -> num;                (* fabs of a real number *)
  nlt : num -> num -> bool;         (* < on real numbers *)
  niszero : num -> bool;            (* z == 0. *)
  vzero : vec; vadd : vec -> vec -> vec; vsub : vec -> vec -> vec; vopp : vec -> vec; vscale : num -> vec -> vec;
  vdot : vec -> vec -> num;         (* AlgebraUtils::dot *)
  vnorm : vec -> num                (* AlgebraUtils::squaredNorm *)
}.

Section Solvers.
Variable F : arith.
Notation num := (num F). Notation vec := (vec F).
Notation "a ** v" := (vscale F a v) (at level 40). Notation "v +! w" := (vadd F v w) (at level 50).
Notation "v -! w" := (vsub F v w) (at level 50).

(** What a solver returns: true with a vector, false with a vector, or false with a vector of NaNs. *)
Inductive result := Converged (x : vec) | Failed (x : vec) | NotANumber.
Definition success (s : result) : bool := match s with Converged _ => true | _ => false end.

(** inverters/ConjugateGradient.cpp 33-67: the loop; [n] is the number of steps left. *)
Fixpoint cg_loop (n : nat) (A : vec -> vec) (epsilon : num) (solution r p : vec) (norm_next : num) : result :=
  match n with
  | O => Failed solution
  | S n' =>
    let tmp := A p in
    let norm := norm_next in
    match ndiv F norm (vdot F p tmp) with
    | None => NotANumber
    | Some alpha =>
      let solution := solution +! alpha ** p in
      let r := r -! alpha ** tmp in
      let norm_next := vnorm F r in
      if nlt F norm_next epsilon then Converged solution
      else match ndiv F norm_next norm with
           | None => NotANumber
           | Some beta => cg_loop n' A epsilon solution r (r +! beta ** p) norm_next
           end
    end
  end.
(** inverters/ConjugateGradient.cpp 10-74: solve. *)
Definition cg_solve (maxSteps : nat) (epsilon : num) (A : vec -> vec) (source : vec) (guess : option vec) : result :=
  let solution := match guess with None => source | Some g => g end in
  let r := source -! A solution in
  cg_loop maxSteps A epsilon solution r r (vnorm F r).

(** inverters/BiConjugateGradient.cpp 45-117: the loop of the preconditioned solver; [n] steps left, [previous] is None at
    step 0 and else (p, nu, rho_prev, alpha, omega). *)
Fixpoint bicg_loop (n step : nat) (A P : vec -> vec) (precision : num) (source solution residual residual_hat : vec)
    (previous : option (vec * vec * num * num * num)) : result :=
  match n with
  | O => Failed solution
  | S n' =>
    let rho := vdot F residual_hat residual in
    if niszero F rho then Failed solution else
    match (match previous with
           | None => Some residual
           | Some (p, nu, rho_prev, alpha, omega) =>
             match ndiv F rho rho_prev, ndiv F alpha omega with
             | Some a, Some b => Some (residual +! nmul F a b ** (p -! omega ** nu))
             | _, _ => None
             end
           end) with
    | None => NotANumber
    | Some p =>
      let p_tilde := P p in
      let nu := A p_tilde in
      match ndiv F rho (vdot F residual_hat nu) with
      | None => NotANumber
      | Some alpha =>
        let s := residual -! alpha ** nu in
        let s_tilde := P s in
        let t := A s in
        match ndiv F (vdot F t s) (vnorm F t) with
        | None => NotANumber
        | Some omega =>
          let solution := solution +! alpha ** p_tilde +! omega ** s_tilde in
          let residual := s -! omega ** t in
          if andb (nlt F (vnorm F residual) precision) (Nat.ltb 5 step) then Converged solution
          else bicg_loop n' (S step) A P precision source solution residual residual_hat (Some (p, nu, rho, alpha, omega))
        end
      end
    end
  end.
(** inverters/BiConjugateGradient.cpp 11-128: solve; [random] is the vector of generateRandomVector. *)
Definition bicg_solve (maxSteps : nat) (precision : num) (A P : vec -> vec) (source : vec) (guess : option vec) (random : vec) : result :=
  let solution := match guess with
    | None => if nlt F precision (vnorm F source) then source else random
    | Some g => g end in
  let p := A solution in
  bicg_loop maxSteps 0 A P precision source solution (source -! p) (source +! p) None.

(** inverters/MEMultishiftSolver.cpp 34-72 and 96-130: the loop for one shift; [mad v w a] is multiplyAdd.  The flag is
    the value that noproblem keeps. *)
Fixpoint shift_loop (n : nat) (mad : vec -> vec -> num -> vec) (epsilon shift : num) (solution residual p : vec)
    (normResidual : num) : result :=
  match n with
  | O => Failed solution
  | S n' =>
    let tmp := mad p p shift in
    match ndiv F normResidual (nre F (vdot F p tmp)) with
    | None => NotANumber
    | Some alpha =>
      let solution := solution +! alpha ** p in
      let residual := residual -! alpha ** tmp in
      let error := vnorm F residual in
      if nlt F error epsilon then Converged solution
      else match ndiv F error normResidual with
           | None => NotANumber
           | Some beta => shift_loop n' mad epsilon shift solution residual (residual +! beta ** p) error
           end
    end
  end.
(** noproblem is only cleared inside the loop, at i == maxSteps - 1: with maxSteps = 0 it stays true. *)
Definition shift_solve (maxSteps : nat) mad (epsilon shift : num) (solution residual : vec) : bool * option vec :=
  match shift_loop maxSteps mad epsilon shift solution residual residual (vnorm F residual) with
  | Converged x => (true, Some x)
  | Failed x => (match maxSteps with O => true | _ => false end, Some x)
  | NotANumber => (false, None)
  end.
(** inverters/MEMultishiftSolver.cpp 75-131: the remaining shifts, each starting from the previous solution (None:
    a vector of NaNs, which makes this shift fail too). *)
Fixpoint shift_rest (maxSteps : nat) mad (epsilon : num) (source : vec) (previous : option vec) (shifts : list num)
    : bool * list (option vec) :=
  match shifts with
  | nil => (true, nil)
  | shift :: rest =>
    match previous with
    | None => let (_, l) := shift_rest maxSteps mad epsilon source None rest in (false, None :: l)
    | Some x =>
      let (ok, y) := shift_solve maxSteps mad epsilon shift x (source -! mad x x shift) in
      let (ok', l) := shift_rest maxSteps mad epsilon source y rest in
      (ok && ok', y :: l)
    end
  end.
(** inverters/MEMultishiftSolver.cpp 10-143: solve; [size] is original_solutions.size().  Dereferencing begin() of empty
    shifts or solutions, or more shifts than solutions, is undefined. *)
Definition multishift_solve (maxSteps : nat) mad (epsilon : num) (source : vec) (size : nat) (shifts : list num)
    : outcome (bool * list (option vec)) :=
  match shifts with
  | nil => UB
  | shift :: rest =>
    if Nat.ltb size (length shifts) then UB else
    let (ok, y) := shift_solve maxSteps mad epsilon shift (vzero F) source in
    let (ok', l) := shift_rest maxSteps mad epsilon source y rest in
    Ok (ok && ok', y :: l)
  end.

(** dirac_functions/ChebyshevRecursion.cpp 13-48: the operator version; None: division by b - a = 0. *)
Fixpoint cheb_loop (m : nat) (A : vec -> vec) (c d : num) (previous actual : vec) : vec :=
  match m with
  | O => actual
  | S m' =>
    let two := nadd F (none_ F) (none_ F) in
    let next := two ** (c ** A actual -! d ** actual) -! previous in
    cheb_loop m' A c d actual next
  end.
Definition cheb_evaluate (a b : num) (n : nat) (A : vec -> vec) (input : vec) : option vec :=
  let two := nadd F (none_ F) (none_ F) in
  match ndiv F two (nsub F b a), ndiv F (nadd F a b) (nsub F b a) with
  | Some c, Some d => Some (cheb_loop n A c d input (c ** A input -! d ** input))
  | _, _ => None
  end.
(** dirac_functions/ChebyshevRecursion.cpp 88-111: the scalar version. *)
Fixpoint cheb_scalar_loop (m : nat) (y previous actual : num) : num :=
  match m with
  | O => actual
  | S m' => cheb_scalar_loop m' y actual (nsub F (nmul F (nmul F (nadd F (none_ F) (none_ F)) y) actual) previous)
  end.
Definition cheb_scalar (a b : num) (n : nat) (input : num) : option num :=
  let two := nadd F (none_ F) (none_ F) in
  match ndiv F (nmul F two input) (nsub F b a), ndiv F (nadd F a b) (nsub F b a) with
  | Some c, Some d => Some (cheb_scalar_loop n (nsub F c d) (none_ F) (nsub F c d))
  | _, _ => None
  end.

(** dirac_functions/Polynomial.cpp 23-107: evaluate.  The loop alternates between tmp1 and tmp2; [even] tells which of
    them is written next (true: tmp2).  No roots: *roots.begin() is undefined.  The content of tmp1 and tmp2 before the
    call is [old1], [old2] (members of the class). *)
Fixpoint poly_loop (roots : list num) (mad : vec -> vec -> num -> vec) (s : num) (to2 : bool) (tmp1 tmp2 : vec) : vec * vec :=
  match roots with
  | nil => (tmp1, tmp2)
  | z :: rest =>
    if to2 then poly_loop rest mad s false tmp1 (s ** mad tmp1 tmp1 (nopp F z))
    else poly_loop rest mad s true (s ** mad tmp2 tmp2 (nopp F z)) tmp2
  end.
Definition poly_evaluate (roots : list num) (scaling : num) (mad : vec -> vec -> num -> vec) (old2 input : vec) : outcome vec :=
  match roots with
  | nil => UB
  | z :: rest =>
    let s := nabs F (nre F scaling) in
    let tmp1 := s ** mad input input (nopp F z) in
    let (tmp1, tmp2) := poly_loop rest mad s true tmp1 old2 in
    let out := if Nat.even (length roots) then tmp2 else tmp1 in
    Ok (if nlt F (nre F scaling) (nzero F) then vopp F out else out)
  end.
(** dirac_functions/Polynomial.cpp 147-245: evaluate with a preconditioner. *)
Fixpoint ppoly_loop (roots : list num) (mul : vec -> vec) (pmad : vec -> vec -> num -> vec) (s : num) (to2 : bool)
    (tmp1 tmp2 : vec) : vec * vec :=
  match roots with
  | nil => (tmp1, tmp2)
  | z :: rest =>
    if to2 then ppoly_loop rest mul pmad s false tmp1 (s ** pmad (mul tmp1) tmp1 (nopp F z))
    else ppoly_loop rest mul pmad s true (s ** pmad (mul tmp2) tmp2 (nopp F z)) tmp2
  end.
Definition ppoly_evaluate (roots : list num) (scaling : num) (mul pmul : vec -> vec) (pmad : vec -> vec -> num -> vec) (input : vec)
    : outcome vec :=
  match roots with
  | nil => UB
  | z :: rest =>
    let s := nabs F (nre F scaling) in
    let tmp2 := mul input in
    let tmp1 := s ** pmad tmp2 input (nopp F z) in
    let (tmp1, tmp2) := ppoly_loop rest mul pmad s true tmp1 tmp2 in
    let out := pmul (if Nat.even (length roots) then tmp2 else tmp1) in
    Ok (if nlt F (nre F scaling) (nzero F) then vopp F out else out)
  end.
(** dirac_functions/Polynomial.cpp 247-278: the scalar version (both branches of the C++ if are the same). *)
Definition poly_scalar (roots : list num) (scaling x : num) : outcome num :=
  match roots with
  | nil => UB
  | z :: rest =>
    let s := nabs F (nre F scaling) in
    let out := fold_left (fun acc r => nmul F (nmul F s acc) (nsub F x r)) rest (nmul F s (nsub F x z)) in
    Ok (if nlt F (nre F scaling) (nzero F) then nopp F out else out)
  end.

(** dirac_functions/RationalApproximation.cpp 18-42: evaluate; [solve] is the multishift solver, whose return value is
    ignored.  Running out of alphas is undefined. *)
Fixpoint rational_sum (alphas : list num) (tmp : list vec) (out : vec) : outcome vec :=
  match tmp, alphas with
  | nil, _ => Ok out
  | v :: tmp', a :: alphas' => rational_sum alphas' tmp' (out +! a ** v)
  | _ :: _, nil => UB
  end.
Definition rational_evaluate (solve : vec -> list num -> list vec) (alphas betas : list num) (input : vec) : outcome vec :=
  rational_sum alphas (solve input betas) (vzero F).
(** dirac_functions/RationalApproximation.cpp 44-52: the scalar version; Ok None: division by zero. *)
Fixpoint rational_scalar (alphas betas : list num) (x acc : num) : outcome (option num) :=
  match alphas, betas with
  | nil, _ => Ok (Some acc)
  | _ :: _, nil => UB
  | a :: alphas', b :: betas' =>
    match ndiv F a (nadd F x b) with
    | None => Ok None
    | Some q => rational_scalar alphas' betas' x (nadd F acc q)
    end
  end.
End Solvers.
Arguments Converged {F}. Arguments Failed {F}. Arguments NotANumber {F}.

(** What the force of the overlap operator should be. *)
From Coq Require Import List.
From Verif Require Import Base SolverModel.
From mathcomp Require Import all_ssreflect all_algebra.
From Verif Require Import GaugeModel GaugeSpec DiracModel DiracSpec FForceModel OverlapModel.
Import GRing.Theory Num.Theory.
Set Implicit Arguments.
Unset Strict Implicit.
Unset Printing Implicit Defensive.
Local Open Scope ring_scope.

Section Spec.
Variable C : numClosedFieldType.
Variable n : nat.
Variable L : lattice.
Notation field := (L -> 'I_4 -> 'I_n -> C) (only parsing).
Notation links := (L -> 'I_4 -> 'M[C]_n) (only parsing).
(** The links V + e M V + e^2 Z: to first order they are moved along M. *)
Definition displaced (V M Z : links) (e : C) : links := fun x mu => V x mu + e *: (M x mu *m V x mu + e *: Z x mu).
(** F' - F is minus the derivative of weight * 2 Re X^+ D Y with respect to the links, D being what multiply computes: when
    the links are displaced, multiply still returns and the value changes by - e tr ((F' - F) M V) summed over the links, up to
    the second order. *)
Definition is_derivative (mul : links -> field -> Base.outcome field) (V M Z : links) (X Y : field) (weight : C) (F F' : links) : Prop :=
  exists K : C, 0 <= K /\ forall e, e \is Num.real -> `|e| <= 1 -> exists a b,
    [/\ mul (displaced V M Z e) Y = Ok a, mul V Y = Ok b &
    `|weight * (2%:R * 'Re (inner X a - inner X b))
      + e * \sum_x \sum_(mu < 4) \tr ((F' x mu - F x mu) *m M x mu *m V x mu)| <= `|e| ^+ 2 * K].
End Spec.

Section Energy.
Variable C : numClosedFieldType.
Variable n : nat.
Variable L : lattice.
Notation field := (L -> 'I_4 -> 'I_n -> C) (only parsing).
Notation links := (L -> 'I_4 -> 'M[C]_n) (only parsing).
(** X solves (D^2 + b) X = phi, with what multiplyAdd(X, X, b) of the squared operator returns. *)
Definition solution (add : links -> field -> field -> C -> Base.outcome field) (V : links) (b : C) (X phi : field) : Prop :=
  exists u, add V X X b = Ok u /\ feq u phi.
(** F is the derivative of the term phi^+ (D^2 + b)^-1 phi of a pseudofermion action: when the links are displaced a little the
    equation still has a solution, and whichever is used the term changes by e tr (F M V) summed over the links, up to the
    second order. *)
Definition is_energy_derivative (add : links -> field -> field -> C -> Base.outcome field) (V M Z : links) (b : C) (X phi : field) (F : links) : Prop :=
  exists r K : C, [/\ 0 < r, 0 <= K & forall e, e \is Num.real -> `|e| <= r ->
    (exists X', solution add (displaced V M Z e) b X' phi) /\
    forall X', solution add (displaced V M Z e) b X' phi ->
      `|inner phi X' - inner phi X - e * \sum_x \sum_(mu < 4) \tr (F x mu *m M x mu *m V x mu)| <= `|e| ^+ 2 * K].
End Energy.

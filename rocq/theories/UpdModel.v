(** The local updates of links: heat bath, overrelaxation and re-unitarisation.
    Numbers are exact; random numbers are arguments.  A division by zero makes the link not a number: None. *)
From mathcomp Require Import all_ssreflect all_algebra.
From Verif Require Import GaugeModel.
Import GRing.Theory Num.Theory.
Set Implicit Arguments.
Unset Strict Implicit.
Unset Printing Implicit Defensive.
Local Open Scope ring_scope.

Section Two.
Variable C : numClosedFieldType.
Notation M2 := 'M[C]_2.
(** A 2x2 matrix from its entries (at(0,0), at(0,1), at(1,0), at(1,1)). *)
Definition mat2 (a b c d : C) : M2 :=
  \matrix_(i < 2, j < 2) (if (i == 0%N :> nat) then (if (j == 0%N :> nat) then a else b) else (if (j == 0%N :> nat) then c else d)).
(** pure_gauge/PureGaugeOverrelaxation.cpp 155-170: updateLink for two colours; the link is left alone when the staple is
    almost singular. *)
Definition overrelax2 (staple link : M2) : M2 :=
  let detStaple := `|\det staple| in
  if (10%:R ^+ 4)^-1 < detStaple then detStaple^-1 *: (htrans staple *m htrans link *m htrans staple) else link.
(** pure_gauge/PureGaugeUpdater.cpp 214-219 (and 186-189): the matrix from u0, u1, u2, u3. *)
Definition draw2 (u : C * C * C * C) : M2 :=
  let: (u0, u1, u2, u3) := u in
  mat2 (u0 + 'i * u3) (u2 + 'i * u1) (- u2 + 'i * u1) (u0 - 'i * u3).
(** pure_gauge/PureGaugeUpdater.cpp 205-225: updateLink for two colours, after the draw of u. *)
Definition heatbath2 (u : C * C * C * C) (staple : M2) : option M2 :=
  let detStaple := `|\det staple| in
  if detStaple == 0 then None else
  let link := (sqrtC detStaple)^-1 *: (draw2 u *m htrans staple) in
  Some (detStaple^-1 *: (htrans staple *m htrans link *m htrans staple)).
(** utils/ReUnit.cpp 30-46: execute for two colours, one link. *)
Definition reunit2 (link : M2) : option M2 :=
  let a := 'Im (link ord0 ord0) in let b := 'Im (link ord0 ord_max) in
  let c := 'Re (link ord0 ord_max) in let d := 'Re (link ord0 ord0) in
  let norm := sqrtC (a * a + b * b + c * c + d * d) in
  if norm == 0 then None else
  let a := a / norm in let b := b / norm in let c := c / norm in let d := d / norm in
  Some (mat2 (d + 'i * a) (c + 'i * b) (- c + 'i * b) (d - 'i * a)).
End Two.

Section Many.
Variable C : numClosedFieldType.
Variable n : nat.
Notation GaugeGroup := 'M[C]_n.+1.
Implicit Types A link staple plaquette : GaugeGroup.

(** pure_gauge/PureGaugeUpdater.cpp 196-205: rows k and l of a matrix multiplied by a 2x2 matrix. *)
Definition mix (k l : 'I_n.+1) (s : 'M[C]_2) A : GaugeGroup :=
  \matrix_(i, j) if i == k then s ord0 ord0 * A k j + s ord0 ord_max * A l j
                 else if i == l then s ord_max ord0 * A k j + s ord_max ord_max * A l j
                 else A i j.
(** pure_gauge/PureGaugeUpdater.cpp 166-170 and 185-189: substaple. *)
Definition substaple (k l : 'I_n.+1) plaquette : 'M[C]_2 :=
  let P := plaquette in
  let aeff := ('Im (P k k) - 'Im (P l l)) / 2%:R in
  let beff := ('Im (P k l) + 'Im (P l k)) / 2%:R in
  let ceff := ('Re (P k l) - 'Re (P l k)) / 2%:R in
  let deff := ('Re (P k k) + 'Re (P l l)) / 2%:R in
  mat2 (deff + 'i * aeff) (ceff + 'i * beff) (- ceff + 'i * beff) (deff - 'i * aeff).
(** detStaple, from the four real numbers. *)
Definition subdet (k l : 'I_n.+1) plaquette : C :=
  let P := plaquette in
  let aeff := ('Im (P k k) - 'Im (P l l)) / 2%:R in
  let beff := ('Im (P k l) + 'Im (P l k)) / 2%:R in
  let ceff := ('Re (P k l) - 'Re (P l k)) / 2%:R in
  let deff := ('Re (P k k) + 'Re (P l l)) / 2%:R in
  aeff * aeff + beff * beff + ceff * ceff + deff * deff.
(** pure_gauge/PureGaugeUpdater.cpp 163-206: one subgroup; [u] is the draw for it; the state is (link, plaquette). *)
Definition cm_step (u : 'I_n.+1 -> 'I_n.+1 -> C * C * C * C) (state : option (GaugeGroup * GaugeGroup)) (kl : 'I_n.+1 * 'I_n.+1)
    : option (GaugeGroup * GaugeGroup) :=
  match state with
  | None => None
  | Some (link, plaquette) =>
    let: (k, l) := kl in
    let detStaple := subdet k l plaquette in
    if detStaple == 0 then None else
    let s := substaple k l plaquette in
    let subupdate := (sqrtC detStaple ^+ 3)^-1 *: (htrans s *m htrans (draw2 (u k l) *m htrans s) *m htrans s) in
    Some (mix k l subupdate link, mix k l subupdate plaquette)
  end.
(** The double loop over k < l. *)
Definition pairs : seq ('I_n.+1 * 'I_n.+1) := 
  [seq kl <- [seq (k, l) | k <- enum 'I_n.+1, l <- enum 'I_n.+1] | (nat_of_ord kl.1 < nat_of_ord kl.2)%N].
(** pure_gauge/PureGaugeUpdater.cpp 158-207: updateLink for more than two colours. *)
Definition heatbath (u : 'I_n.+1 -> 'I_n.+1 -> C * C * C * C) link staple : option (GaugeGroup * GaugeGroup) :=
  foldl (cm_step u) (Some (link, link *m staple)) pairs.

(** One row of a matrix multiplied by a number. *)
Definition scale_row (r : 'I_n.+1) (c : C) A : GaugeGroup := \matrix_(i, j) if i == r then c * A i j else A i j.
(** pure_gauge/PureGaugeOverrelaxation.cpp 124-153: updateLink for more than two colours; [qr] is the library's QR
    decomposition, [accept] the outcome of the Metropolis test. *)
Definition overrelax (qr : GaugeGroup -> GaugeGroup * GaugeGroup) (accept : GaugeGroup -> bool) link staple : GaugeGroup :=
  let Q := (qr staple).1 in
  let Q := scale_row ord0 (\det Q)^* Q in
  let trial := htrans Q *m htrans link *m htrans Q in
  if accept trial then trial else link.

(** utils/ReUnit.cpp 17-26: the projection of row i on the row j, and the division of row i by the SQUARE of its norm. *)
Definition gs_project (i j : 'I_n.+1) A : GaugeGroup :=
  let proj := \sum_k (A j k)^* * A i k in
  \matrix_(r, k) if r == i then A i k - proj * A j k else A r k.
Definition gs_row (state : option GaugeGroup) (i : 'I_n.+1) : option GaugeGroup :=
  match state with
  | None => None
  | Some A =>
    let A := foldl (fun A j => gs_project i j A) A [seq j <- enum 'I_n.+1 | (nat_of_ord j < nat_of_ord i)%N] in
    let normvec := \sum_k (A i k)^* * A i k in
    if normvec == 0 then None else Some (scale_row i `|normvec|^-1 A)
  end.
(** utils/ReUnit.cpp 16-29: execute for more than two colours, one link; cos(arg(deter)) - i sin(arg(deter)) is
    conj(deter) / |deter|, and 1 for deter = 0. *)
Definition reunit link : option GaugeGroup :=
  match foldl gs_row (Some link) (enum 'I_n.+1) with
  | None => None
  | Some A =>
    let deter := \det A in
    Some (scale_row ord_max (if deter == 0 then 1 else deter^* / `|deter|) A)
  end.
End Many.

Section Sweep.
Variable C : numClosedFieldType.
Variable L : lattice.
(** pure_gauge/PureGaugeOverrelaxation.cpp 66-122: a sweep over links in some order, without threads and MPI; [staple] is
    the staple of the gauge action. *)
Definition overrelax_link (staple : gauge C 2 L -> L -> 'I_4 -> 'M[C]_2) (U : gauge C 2 L) (p : L * 'I_4) : gauge C 2 L :=
  set_link U p.1 p.2 (overrelax2 (staple U p.1 p.2) (U p.1 p.2)).
Definition overrelax_sweep staple (U : gauge C 2 L) (order : seq (L * 'I_4)) : gauge C 2 L :=
  foldl (overrelax_link staple) U order.
End Sweep.

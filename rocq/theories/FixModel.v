(** Landau gauge fixing (source/gauge_fixing), for any number of colours and any periodic lattice, in exact
    arithmetic.  A division by zero gives a value that is not a number: [None] for a transformation.  Undefined
    behaviour gives [None] for the whole call.  The random numbers drawn are arguments. *)
From mathcomp Require Import all_ssreflect all_algebra.
From Verif Require Import GaugeModel.
Import GRing.Theory Num.Theory.
Set Implicit Arguments.
Unset Strict Implicit.
Unset Printing Implicit Defensive.
Local Open Scope ring_scope.

Section Fix.
Variable C : numClosedFieldType.
Variable n : nat.                       (* numberColors *)
Notation GaugeGroup := 'M[C]_n.
Variable L : lattice.
Notation gauge := (gauge C n L).
Variable odd_site : L -> bool.          (* (x + y + z + t) % 2 with the global coordinates *)
Variable gexp : GaugeGroup -> GaugeGroup.                (* ExponentialMap::exp *)
Variable rexp : C -> C.                                  (* std::exp on real numbers *)
Variable eig : GaugeGroup -> GaugeGroup * 'rV[C]_n.      (* Eigen::ComplexEigenSolver *)
Implicit Types (U V : gauge) (g : L -> GaugeGroup).

(** LandauGaugeFixing.cpp 246-258. *)
Definition functional U : C := \sum_(x : L) \sum_(mu < 4) retr (U x mu).

(** The numbers drawn by generateRandomGaugeTransformation at a site: two for every pair, one for every diagonal
    generator. *)
Record normals := Normals { n_re : 'I_n -> 'I_n -> C; n_im : 'I_n -> 'I_n -> C; n_dg : 'I_n -> C }.
(** GaugeFixing.cpp 47-88: [mt] is MULTITHREADING, where line 76 has no epsilon; [g] is the previous content. *)
Definition random_transformation (mt : bool) (epsilon : C) (w : L -> normals) g : L -> GaugeGroup := fun x =>
  gexp (random_momentum (fun i j => epsilon * n_re (w x) i j / 2%:R) (fun i j => epsilon * n_im (w x) i j / 2%:R)
          (fun i => (if mt then n_dg (w x) i else epsilon * n_dg (w x) i) / 2%:R) (g x)).

(** GaugeFixing.cpp 119-131. *)
Definition metropolis (delta u : C) : bool :=
  if delta < - 50%:R then false else if 0 <= delta then true else u < rexp delta.

(** LandauGaugeFixing.cpp 19-24. *)
Definition fix_staple U (x : L) : GaugeGroup := \sum_(mu < 4) (U x mu + htrans (U (sdn mu x) mu)).
(** LandauGaugeFixing.cpp 29-34. *)
Definition sub_block (S : GaugeGroup) (k l : 'I_n) : GaugeGroup :=
  \matrix_(a, b) if ((a == k) || (a == l)) && ((b == k) || (b == l)) then S a b else (a == b)%:R.
(** LandauGaugeFixing.cpp 35-42.  The square root is that of a non-negative number for a solver as in FixSpec.v. *)
Definition polar (Q : GaugeGroup) : option GaugeGroup :=
  let: (m, lam) := eig (htrans Q *m Q) in
  if [exists i, lam ord0 i == 0] then None
  else Some (Q *m m *m diag_mx (map_mx (fun z => 1 / sqrtC z) lam) *m htrans m).
(** LandauGaugeFixing.cpp 43-47: 1e-10. *)
Definition tolerance : C := 10%:R ^- 10.
(** LandauGaugeFixing.cpp 29-47: one pair; the state is gauge_transformation[site] and the staple. *)
Definition pair_step (s : option (GaugeGroup * GaugeGroup)) (kl : 'I_n * 'I_n) : option (GaugeGroup * GaugeGroup) :=
  obind (fun s : GaugeGroup * GaugeGroup =>
    omap (fun omega => if tolerance < `|\tr (htrans omega *m omega) - n%:R| then s
                       else (htrans omega *m s.1, htrans omega *m s.2))
         (polar (sub_block s.2 kl.1 kl.2))) s.
(** LandauGaugeFixing.cpp 27-28: the order of the pairs. *)
Definition pairs : seq ('I_n * 'I_n) := [seq kl : 'I_n * 'I_n <- [seq (k, l) | k <- enum 'I_n, l <- enum 'I_n] | (kl.1 < kl.2)%N].
(** LandauGaugeFixing.cpp 25-60: the transformation at an active site (with fewer than two colours there are no
    pairs; the code has no branch for one colour). *)
Definition relax (S : GaugeGroup) : option GaugeGroup :=
  if n == 2%N then (if \det S == 0 then None else Some (htrans ((sqrtC (\det S))^-1 *: S)))
  else omap fst (foldl pair_step (Some (1%:M, S)) pairs).
(** LandauGaugeFixing.cpp 12-68: at one site. *)
Definition relax_site U (i : nat) (x : L) : option GaugeGroup :=
  if odd_site x == odd i then relax (fix_staple U x) else Some 1%:M.
(** The whole transformation: not a number as soon as one site is not. *)
Definition relaxation U (i : nat) : option (L -> GaugeGroup) :=
  if [forall x, relax_site U i x : bool] then Some (fun x => odflt 1%:M (relax_site U i x)) else None.

(** ** LandauGaugeFixing.cpp 115-244: gaugeFixing *)
(** One of the three chains: functionalValue, gaugeFixed. *)
Definition chain := (C * gauge)%type.
Record state := State { ch1 : chain; ch2 : chain; ch3 : chain; best : chain; trans : L -> GaugeGroup }.
(** What one step of the global phase draws. *)
Record draws := Draws { w1 : L -> normals; w2 : L -> normals; w3 : L -> normals;
  u1 : C; u2 : C; u3 : C; u23 : C; u12 : C }.
(** 136-150: a trial of a chain; the result is the chain, the maximum and the transformation. *)
Definition trial (mt : bool) (epsilon beta : C) (w : L -> normals) (u : C) (c top : chain) g : chain * chain * (L -> GaugeGroup) :=
  let g' := random_transformation mt epsilon w g in
  let tmp := gauge_transform g' c.2 in
  let f := functional tmp in
  (if metropolis (beta * (f - c.1)) u then (f, tmp) else c, if top.1 < f then (f, tmp) else top, g').
(** The parameters. *)
Record params := Params { multithreading : bool; eps1 : C; eps2 : C; eps3 : C; beta1 : C; beta2 : C; beta3 : C;
  precision : C }.
(** 135-211: one step of the global phase. *)
Definition global_step (p : params) (s : state) (d : draws) : state :=
  let: (c1, m1, g1) := trial (multithreading p) (eps1 p) (beta1 p) (w1 d) (u1 d) (ch1 s) (best s) (trans s) in
  let: (c2, m2, g2) := trial (multithreading p) (eps2 p) (beta2 p) (w2 d) (u2 d) (ch2 s) m1 g1 in
  let: (c3, m3, g3) := trial (multithreading p) (eps3 p) (beta3 p) (w3 d) (u3 d) (ch3 s) m2 g2 in
  let: (d2, d3) := if metropolis ((beta2 p - beta3 p) * (c2.1 - c3.1)) (u23 d) then (c3, c2) else (c2, c3) in
  let: (e1, e2) := if metropolis ((beta1 p - beta2 p) * (c1.1 - d2.1)) (u12 d) then (d2, c1) else (c1, d2) in
  State e1 e2 d3 m3 g3.
(** 222-240: the local phase from step [i] on, with [k] steps left; [conv] is convergence.  [None] is undefined
    behaviour: a division or a remainder by zero at line 223.  A transformation that is not a number gives a
    functional that is not a number, and the comparison at line 235 is false. *)
Fixpoint local_phase (local_steps output_steps : nat) (prec : C) (k i : nat) (conv : C) (top : chain) : option chain :=
  match k with
  | 0%N => Some top
  | k'.+1 =>
      if (output_steps == 0%N) || (local_steps %/ output_steps == 0)%N then None
      else
        let print := (i %% (local_steps %/ output_steps) == 0)%N in
        if print && (`|conv| < prec) && (0 < i)%N then Some top
        else
          let conv0 := if print then 0 else conv in
          match relaxation top.2 i with
          | None => local_phase local_steps output_steps prec k' i.+1 conv0 top
          | Some g =>
              let tmp := gauge_transform g top.2 in
              let f := functional tmp in
              if 0 < f - top.1
              then local_phase local_steps output_steps prec k' i.+1 (conv0 + (f - top.1)) (f, tmp)
              else local_phase local_steps output_steps prec k' i.+1 conv0 top
          end
  end.
(** 115-244; the number of steps is the length of the list of draws; [g0] is the initial content of
    gauge_transformation. *)
Definition gauge_fixing (p : params) (local_steps output_steps : nat) (ds : seq draws) g0 U : option chain :=
  let c := (functional U, U) in
  let s := foldl (global_step p) (State c c c c g0) ds in
  local_phase local_steps output_steps (precision p) local_steps 0 0 (best s).

(** ** LandauGaugeFixing.cpp 70-113: execute *)
(** 97-104: the copy chosen. *)
Definition choose (values : seq C) : nat :=
  (foldl (fun s i => if s.1 < nth 0 values i then (nth 0 values i, i) else s) (0, 0%N) (iota 0 (size values))).2.
(** 89-95: the copies; one list of draws for each. *)
Fixpoint copies (p : params) (local_steps output_steps : nat) (dss : seq (seq draws)) g0 U : option (seq chain) :=
  match dss with
  | [::] => Some [::]
  | ds :: r => obind (fun c => omap (cons c) (copies p local_steps output_steps r g0 U))
                     (gauge_fixing p local_steps output_steps ds g0 U)
  end.
(** 70-108: [None] also for maximals[0] of an empty vector. *)
Definition execute (p : params) (local_steps final_steps output_steps : nat) (dss : seq (seq draws)) (last_ : seq draws) g0 U
    : option gauge :=
  obind (fun cs =>
    if cs is [::] then None
    else let m := nth (0, U) cs (choose (unzip1 cs)) in
         omap snd (gauge_fixing p final_steps output_steps last_ g0 m.2))
    (copies p local_steps output_steps dss g0 U).

(** ** GaugeFixing.cpp 101-117 and LandauGaugeFixing.cpp 260-281 *)
Definition lie_field U : gauge := fun x mu =>
  let A := (2%:R * 'i)^-1 *: (U x mu - htrans (U x mu)) in A - (\tr A / n%:R)%:M.
Definition deviation U : C :=
  (\sum_(x : L) let dmu := \sum_(mu < 4) (lie_field U x mu - lie_field U (sdn mu x) mu) in retr (dmu *m htrans dmu))
  / #|L|%:R.
End Fix.

(** Independent vocabulary for the gauge properties: ordered products along paths, the textbook actions as sums of
    closed paths, unitary matrices and the Lie algebra, box lattices. *)
From mathcomp Require Import all_ssreflect all_algebra.
From Verif Require Import GaugeModel.
Import GRing.Theory Num.Theory.
Set Implicit Arguments.
Unset Strict Implicit.
Unset Printing Implicit Defensive.
Local Open Scope ring_scope.

Section Spec.
Variable C : numClosedFieldType.
Variable n : nat.
Variable L : lattice.
Notation GaugeGroup := 'M[C]_n.

(** The Hermitian conjugate, entry by entry. *)
Definition dagger m k (A : 'M[C]_(m, k)) : 'M[C]_(k, m) := \matrix_(i, j) (A j i)^*.
Definition unitary (A : GaugeGroup) : Prop := A *m dagger A = 1%:M.
Definition special_unitary (A : GaugeGroup) : Prop := unitary A /\ \det A = 1.
Definition anti_hermitian (A : GaugeGroup) : Prop := dagger A = - A.
Definition traceless (A : GaugeGroup) : Prop := \tr A = 0.

(** One step of a path: forwards (true) or backwards along a direction. *)
Definition step := (bool * 'I_4)%type.
Definition fwd (mu : 'I_4) : step := (true, mu).
Definition bwd (mu : 'I_4) : step := (false, mu).
Definition move (x : L) (s : step) : L := if s.1 then sup s.2 x else sdn s.2 x.
Definition endpoint (x : L) (p : seq step) : L := foldl move x p.
(** The parallel transporter along a step and along a path. *)
Definition hop (U : L -> 'I_4 -> GaugeGroup) (x : L) (s : step) : GaugeGroup :=
  if s.1 then U x s.2 else dagger (U (sdn s.2 x) s.2).
Fixpoint transport (U : L -> 'I_4 -> GaugeGroup) (x : L) (p : seq step) : GaugeGroup :=
  if p is s :: p' then hop U x s *m transport U (move x s) p' else 1%:M.

(** Plaquettes and rectangles as closed paths. *)
Definition square (mu nu : 'I_4) : seq step := [:: fwd mu; fwd nu; bwd mu; bwd nu].
Definition rectangle (mu nu : 'I_4) (a b : nat) : seq step :=
  nseq a (fwd mu) ++ nseq b (fwd nu) ++ nseq a (bwd mu) ++ nseq b (bwd nu).
Definition loop_re U (x : L) (p : seq step) : C := 'Re (\tr (transport U x p)).

(** Wilson action: - beta/N times the sum over sites and unordered planes of Re tr of the plaquette. *)
Definition wilson_action (beta : C) U : C :=
  - (beta / n%:R) * \sum_(x : L) \sum_(mu < 4) \sum_(nu < 4 | (mu < nu)%N) loop_re U x (square mu nu).
(** Tree level Symanzik improved action with the tadpole factor u0: 5/3 of each plaquette minus 1/(12 u0^2) of each
    of the two rectangles of every plane. *)
Definition symanzik_action (beta u0 : C) U : C :=
  - (beta / n%:R) * \sum_(x : L) \sum_(mu < 4) \sum_(nu < 4 | (mu < nu)%N)
     (5%:R / 3%:R * loop_re U x (square mu nu)
      - (loop_re U x (rectangle mu nu 2 1) + loop_re U x (rectangle mu nu 1 2)) / (12%:R * u0 ^+ 2)).

(** Lattices on which a plaquette (a 2x1 rectangle) never meets the same link twice. *)
Definition extent2 : Prop := forall mu (x : L), sup mu x <> x.
Definition extent3 : Prop :=
  extent2 /\ (forall mu (x : L), sup mu (sup mu x) <> x)
  /\ (forall mu nu (x : L), mu <> nu -> sup mu x <> sup nu x /\ sup mu (sup nu x) <> x).
End Spec.

(** The periodic box with extents a, b, c, d (all positive). *)
Section Box.
Variables a b c d : nat.
Definition box_site : finType := [finType of 'I_a.+1 * 'I_b.+1 * 'I_c.+1 * 'I_d.+1].
Definition cyc_up k (i : 'I_k.+1) : 'I_k.+1 := inord ((i.+1) %% k.+1).
Definition cyc_down k (i : 'I_k.+1) : 'I_k.+1 := inord ((i + k) %% k.+1).
Definition box_move (f : forall k, 'I_k.+1 -> 'I_k.+1) (mu : 'I_4) (x : box_site) : box_site :=
  let: (x0, x1, x2, x3) := x in
  match nat_of_ord mu with
  | 0 => (f a x0, x1, x2, x3) | 1 => (x0, f b x1, x2, x3) | 2 => (x0, x1, f c x2, x3) | _ => (x0, x1, x2, f d x3)
  end%N.
Definition box_sup := box_move cyc_up.
Definition box_sdn := box_move cyc_down.
End Box.

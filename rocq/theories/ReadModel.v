(** Which sites the staples, the energy and the hopping term read, as walks through the neighbour tables. *)
From Coq Require Import ZArith List Bool.
From Verif Require Import Base LayoutModel.
Import ListNotations.
Open Scope Z_scope.

(** One use of a neighbour table: LT::sup(.,mu) or LT::sdn(.,mu) (Lattice.h 201-207). *)
Inductive hop := Up (mu : nat) | Dn (mu : nat).

(** One access: the local number must lie inside the arrays of the rank (MPILayout.h 299-363 fills
    completesize entries, Lattice.h 201-207); outside it the code reads out of bounds. *)
Definition readable (L : layout) (l : Z) : bool := (0 <=? l) && (l <? lcompletesize L).
Definition hop_from (L : layout) (l : Z) (h : hop) : outcome Z :=
  if readable L l then
    match (match h with Up mu => sup L l mu | Dn mu => sdn L l mu end) with Some a => Ok a | None => UB end
  else UB.
(** The nested calls LT::sdn(LT::sup(site,mu),nu), innermost first, ending with the access lattice[.]. *)
Fixpoint walk (L : layout) (l : Z) (hs : list hop) : outcome Z :=
  match hs with
  | [] => if readable L l then Ok l else UB
  | h :: hs' => obind (hop_from L l h) (fun a => walk L a hs')
  end.

(** WilsonGaugeAction.cpp 14-19: the sites in the order in which the two lines mention them, for one nu <> mu. *)
Definition wilson_reads (mu nu : nat) : list (list hop) :=
  [[Up mu]; [Up nu]; [];
   [Dn nu; Up mu]; [Dn nu]].
(** ImprovedGaugeAction.cpp 14-25: the two plaquette lines, then the six rectangle lines, for one nu <> mu. *)
Definition improved_reads (mu nu : nat) : list (list hop) :=
  wilson_reads mu nu ++
  [[Up mu]; [Up mu; Up mu]; [Up mu; Up nu]; [Up nu]; [];
   [Up mu]; [Up nu]; [Dn mu; Up nu]; [Dn mu];
   [Up mu]; [Up mu; Up mu; Dn nu]; [Dn nu; Up mu]; [Dn nu];
   [Dn nu; Up mu]; [Dn nu]; [Dn mu; Dn nu]; [Dn mu];
   [Up mu]; [Up mu; Up nu]; [Up nu; Up nu]; [Up nu]; [];
   [Dn nu; Up mu]; [Dn nu; Dn nu; Up mu]; [Dn nu; Dn nu]; [Dn nu]].
(** ImprovedGaugeAction.cpp 51-57 (energy): the reads for one mu < nu. *)
Definition improved_energy_reads (mu nu : nat) : list (list hop) :=
  [[]; [Up mu]; [Up nu]; [Up mu; Up mu]; [Up mu; Up nu]; [Up nu; Up nu]].
(** DiracWilsonOperator.cpp 30-150: the hopping term reads the two neighbours in every direction. *)
Definition hopping_reads (mu : nat) : list (list hop) := [[Up mu]; [Dn mu]].

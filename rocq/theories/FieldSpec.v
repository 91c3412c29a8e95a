(** Independent specification of fields spread over the ranks. *)
From Coq Require Import ZArith List.
From Verif Require Import Base LayoutModel LayoutSpec.
Open Scope Z_scope.

(** The rank keeps the site, as its own or as a copy. *)
Definition keeps (g : geom) (sten : list site) (r : Z) (s : site) : Prop := owned_by g r s \/ mirrors g sten r s.
(** The last slice in direction [mu]: the link from there in that direction crosses the boundary. *)
Definition crosses (g : geom) (mu : nat) (s : site) : bool := comp s mu =? extent g mu - 1.

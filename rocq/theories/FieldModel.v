(** Fermion boundary conditions (LatticeBoundaryConditions.h, Environment.h/.cpp, actions/NFlavorFermionAction.cpp)
    and translations (utils/Translate.h). *)
From Coq Require Import ZArith List Bool String.
From Verif Require Import Base LayoutModel.
Import ListNotations.
Open Scope Z_scope.

(** ** Boundary conditions. *)
Section Bc.
Variable V : Type.
Variable neg : V -> V.        (* operator-() on matrices *)
Variable zero : V.            (* set_to_zero *)
(** lattice[site][mu] on one rank. *)
Definition links := Z -> nat -> V.
Definition set_link (f : links) (l : Z) (mu : nat) (v : V) : links :=
  fun l' mu' => if (l' =? l) && Nat.eqb mu' mu then v else f l' mu'.

(** Loop over all sites of a rank, halo included (LatticeBoundaryConditions.h 11); the body gets the global
    coordinate of the site (globalIndexX/Y/Z/T); an entry of that table that was never written is undefined. *)
Fixpoint for_sites (L : layout) (ls : list Z) (body : site -> Z -> links -> links) (f : links) : outcome links :=
  match ls with
  | [] => Ok f
  | l :: r => match global_coordinate L l with
              | None => UB
              | Some s => for_sites L r body (body s l f)
              end
  end.
Definition all_local (L : layout) : list Z := zrange (lcompletesize L).

(** LatticeBoundaryConditions.h 8-14. *)
Definition switch_antiperiodic (L : layout) (f : links) : outcome links :=
  for_sites L (all_local L) (fun s l f =>
    if st s =? gt (lgeom L) - 1 then set_link f l 3 (neg (f l 3%nat)) else f) f.
(** 16-22. *)
Definition switch_spatial (L : layout) (f : links) : outcome links :=
  for_sites L (all_local L) (fun s l f =>
    if sz s =? gz (lgeom L) - 1 then set_link f l 2 (neg (f l 2%nat)) else f) f.
(** 24-33. *)
Definition switch_full (L : layout) (f : links) : outcome links :=
  for_sites L (all_local L) (fun s l f =>
    let f := if sx s =? gx (lgeom L) - 1 then set_link f l 0 (neg (f l 0%nat)) else f in
    let f := if sy s =? gy (lgeom L) - 1 then set_link f l 1 (neg (f l 1%nat)) else f in
    let f := if sz s =? gz (lgeom L) - 1 then set_link f l 2 (neg (f l 2%nat)) else f in
    if st s =? gt (lgeom L) - 1 then set_link f l 3 (neg (f l 3%nat)) else f) f.
(** 35-47. *)
Definition switch_open (L : layout) (f : links) : outcome links :=
  for_sites L (all_local L) (fun s l f =>
    if st s =? gt (lgeom L) - 1 then fold_left (fun f mu => set_link f l mu zero) (seq 0 4) f
    else if st s =? gt (lgeom L) - 2 then set_link f l 3 zero else f) f.

(** Environment.h 26-62: setFermionBc; [None]: the option is not set (NotFoundOption is caught). *)
Definition set_fermion_bc (L : layout) (bc : option string) (f : links) : outcome links :=
  match bc with
  | None => switch_antiperiodic L f
  | Some s =>
    if String.eqb s "fermion_antiperiodic" then switch_antiperiodic L f
    else if String.eqb s "fermion_spatial_antiperiodic" then switch_spatial L f
    else if String.eqb s "fermion_full_antiperiodic" then switch_full L f
    else if String.eqb s "fermion_periodic" then Ok f
    else if String.eqb s "open" then switch_open L f
    else switch_antiperiodic L f
  end.
(** Environment.cpp 58-78: the same part of synchronize, acting on the fermionic links [f] (copied from the
    gauge links just before); [None]: the exception leaves the function and ends the program. The
    second component is what happens to the gauge links themselves. *)
Definition synchronize_bc (L : layout) (bc : option string) (f gauge : links) : option (outcome links * outcome links) :=
  match bc with
  | None => None
  | Some s =>
    if String.eqb s "fermion_antiperiodic" then Some (switch_antiperiodic L f, Ok gauge)
    else if String.eqb s "fermion_spatial_antiperiodic" then Some (switch_spatial L f, Ok gauge)
    else if String.eqb s "fermion_periodic" then Some (Ok f, Ok gauge)
    else if String.eqb s "open" then Some (switch_open L f, switch_open L gauge)
    else Some (switch_antiperiodic L f, Ok gauge)
  end.
(** actions/NFlavorFermionAction.cpp 103-133: signs put on the fermion force. *)
Definition force_bc (L : layout) (bc : option string) (f : links) : outcome links :=
  match bc with
  | None => switch_antiperiodic L f
  | Some s =>
    if String.eqb s "fermion_antiperiodic" then switch_antiperiodic L f
    else if String.eqb s "fermion_spatial_antiperiodic" then switch_spatial L f
    else if String.eqb s "fermion_periodic" then Ok f
    else if String.eqb s "open" then Ok f
    else switch_antiperiodic L f
  end.
End Bc.

(** ** Translations. *)
Section Translate.
Variable V : Type.
(** The fields of all ranks; [None]: a value that was never written or was read outside the array. *)
Definition family := Z -> Z -> option V.
(** updateHalo, as established by C08: the halo of each rank receives the values of the owners. *)
Definition halo_update (Ls : Z -> layout) (u : family) : family := fun r l =>
  if (llocalsize (Ls r) <=? l) && (l <? lcompletesize (Ls r)) then
    match global_coordinate (Ls r) l with
    | Some s => let g := lgeom (Ls r) in let o := rank_table g s in u o (local_index (Ls o) (gidx g s))
    | None => None
    end
  else u r l.
(** utils/Translate.h 14-18: one step of a direction on one rank. *)
Definition shift_rank (L : layout) (swap translated : Z -> option V) (mu : nat) : Z -> option V := fun l =>
  if (0 <=? l) && (l <? llocalsize L) then
    match sup L l mu with
    | Some k => if (0 <=? k) && (k <? lcompletesize L) then swap k else None
    | None => None
    end
  else translated l.
(** 13-20: on all ranks, followed by the halo update. State: (swap, translated). *)
Definition shift_step (Ls : Z -> layout) (mu : nat) (a : family * family) : family * family :=
  let '(swap, translated) := a in
  let t := halo_update Ls (fun r => shift_rank (Ls r) (swap r) (translated r) mu) in (t, t).
(** 12-21: for (int i = 0; i < d; ++i). *)
Definition shift_loop (Ls : Z -> layout) (d : Z) (mu : nat) (a : family * family) : family * family :=
  Nat.iter (Z.to_nat d) (shift_step Ls mu) a.
(** 6-55: the contents of [translated] after the call. *)
Definition translate (Ls : Z -> layout) (to_translate translated : family) (dx dy dz dt : Z) : family :=
  if (dx =? 0) && (dy =? 0) && (dz =? 0) && (dt =? 0) then to_translate
  else snd (shift_loop Ls dt 3 (shift_loop Ls dz 2 (shift_loop Ls dy 1 (shift_loop Ls dx 0 (to_translate, translated))))).
End Translate.

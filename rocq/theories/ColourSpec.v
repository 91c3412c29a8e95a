(** Independent specification of a colouring. *)
From Coq Require Import ZArith List Permutation.
From Verif Require Import Base LayoutModel LayoutSpec ColourModel.
Open Scope Z_scope.

Definition is_link (g : geom) (l : link) : Prop := 0 <= fst l < global_volume g /\ (snd l < 4)%nat.
(** Every extent is at least three. *)
Definition extents_at_least_3 (g : geom) : Prop := 3 <= gx g /\ 3 <= gy g /\ 3 <= gz g /\ 3 <= gt g.
(** Displaced by [a] steps in [mu] and [b] steps in [nu]. *)
Definition displaced (g : geom) (site : Z) (mu : nat) (a : Z) (nu : nat) (b : Z) : Z :=
  gidx g (site_add (site_at g site) (site_add (steps mu a) (steps nu b))).
(** The links of the plaquettes and of the 2x1 and 1x2 rectangles that contain the link (site,mu), in the
    plane (mu,nu), other than itself: a rectangle with lower corner [site + (a,b)] and sides [w] (in mu) and
    [h] (in nu) has links in direction mu at (a+i, b) and (a+i, b+h), i < w, and in direction nu at (a, b+j) and
    (a+w, b+j), j < h. *)
Definition rectangle_links (g : geom) (site : Z) (mu nu : nat) (a b : Z) (w h : Z) (l : link) : Prop :=
  exists i, (0 <= i < w /\ (l = (displaced g site mu (a + i) nu b, mu) \/ l = (displaced g site mu (a + i) nu (b + h), mu)))
         \/ (0 <= i < h /\ (l = (displaced g site mu a nu (b + i), nu) \/ l = (displaced g site mu (a + w) nu (b + i), nu))).
Definition shares_loop (g : geom) (l l' : link) : Prop :=
  exists nu a b w h, (nu < 4)%nat /\ nu <> snd l /\ ((w = 1 /\ h = 1) \/ (w = 2 /\ h = 1) \/ (w = 1 /\ h = 2)) /\
    (* the rectangle contains (site, mu) *)
    -w < a <= 0 /\ (b = 0 \/ b = -h) /\ rectangle_links g (fst l) (snd l) nu a b w h l'.

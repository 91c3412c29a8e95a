(** Property C26: link colouring. *)
From Coq Require Import ZArith List Bool Lia Permutation.
From Verif Require Import Base ListFacts LayoutModel LayoutSpec LayoutProofs LayoutFacts LayoutFacts2 HaloProps ColourModel ColourSpec ColourProofs.
Import ListNotations.
Open Scope Z_scope.

(** When the check accepts a colouring, no two links of one colour lie on a common plaquette or rectangle,
    and none is read by the staple of the other. *)
Theorem C26_accepted_independent (g : geom) (colour : link -> Z) :
  positive_extents g -> check_correctness g colour = 0 ->
  forall l l', is_link g l -> is_link g l' -> l' <> l -> colour l = colour l' ->
    ~ shares_loop g l l' /\ (forall improved, ~ In l' (staple_reads improved g l)).
Proof.
  intros Hg H l l' Hl Hl' Hne E. rewrite check_zero in H. split.
  - intros K. apply (loops_neighbours g l l' Hg Hl) in K. destruct K as [K|K]; [contradiction|].
    apply (H l l'); [now apply in_all_links|exact K|exact E].
  - intros improved K. apply reads_neighbours in K. apply (H l l'); [now apply in_all_links|exact K|exact E].
Qed.

(** Then the links of one colour can be updated in any order, or by concurrent threads in any
    interleaving of their reads and writes, with the same result, whatever the update formula. *)
Theorem C26_order_irrelevant {V} (f : link -> V -> list V -> V) (improved : bool) (g : geom) (colour : link -> Z) (c : Z) (u : link -> V) :
  positive_extents g -> check_correctness g colour = 0 ->
  let links := filter (fun l => colour l =? c) (all_links g) in
  forall o1 o2, Permutation o1 links -> Permutation o2 links ->
    (forall l, update_links V f (staple_reads improved g) o1 u l = update_links V f (staple_reads improved g) o2 u l) /\
    (forall u', jsteps V f (u, map (start_job V (staple_reads improved g)) links) (u', []) ->
       forall l, u' l = update_links V f (staple_reads improved g) o1 u l) /\
    (forall s, jsteps V f (u, map (start_job V (staple_reads improved g)) links) s -> exists u', jsteps V f s (u', [])).
Proof.
  intros Hg H links o1 o2 H1 H2. rewrite check_zero in H.
  assert (Hnd : NoDup links) by (apply NoDup_filter', NoDup_all_links).
  assert (Hind : forall l l', In l links -> In l' links -> ~ In l (staple_reads improved g l')).
  { intros l l' Hl Hl' K. apply filter_In in Hl as (Hl & El). apply filter_In in Hl' as (Hl' & El').
    apply reads_neighbours in K. apply (H l' l Hl' K). lia. }
  split; [|split].
  - intro l. rewrite (sequential_at_once V f _ links Hnd Hind u o1 H1 l). symmetry. exact (sequential_at_once V f _ links Hnd Hind u o2 H2 l).
  - intros u' K l. rewrite (sequential_at_once V f _ links Hnd Hind u o1 H1 l).
    exact (concurrent_at_once V f _ links Hnd Hind u u' K l).
  - intros (u' & js) K. apply (can_finish V f (staple_reads improved g) links Hind u (work V js) u' js); [lia|].
    apply (jinv_steps V f (staple_reads improved g) links Hind u _ _ K). now apply jinv_start.
Qed.

(** On every lattice with all extents at least three the constructor produces such a colouring in one round, the
    tables of statistics() stay in bounds, and one sweep over the colours updates every link exactly once. *)
Theorem C26_constructor_correct (g : geom) : extents_at_least_3 g ->
  warned g = false /\ check_correctness g (build g) = 0 /\
  (exists lists, statistics g (build g) = Ok (number_loops g (build g), lists)) /\
  (forall l, is_link g l -> 0 <= build g l < number_loops g (build g)) /\
  (forall c, 0 <= c < number_loops g (build g) -> exists l, is_link g l /\ build g l = c) /\
  Permutation (sweep_links g (build g)) (all_links g).
Proof.
  intros H3.
  assert (B : forall l, is_link g l -> 0 <= build g l < number_loops g (build g)).
  { intros l Hl. split; [now apply build_nonneg|]. apply number_loops_bound; [|now apply build_contiguous|exact Hl].
    intros; now apply build_nonneg. }
  split; [unfold warned; rewrite (build_accepted g H3); reflexivity|].
  split; [now apply build_accepted|]. split; [|split; [exact B|split]].
  - unfold statistics. eexists.
    replace (forallb _ _) with true; [reflexivity|]. symmetry. apply forallb_forall. intros l Hl. apply in_all_links in Hl.
    specialize (B l Hl). lia.
  - intros c Hc. now apply number_loops_used.
  - now apply sweep_permutation.
Qed.
(** On a lattice with an extent of one or two no colouring is ever accepted: a link is compared with itself. *)
Theorem C26_small_extent_never_accepted_refuted (g : geom) (nu : nat) (colour : link -> Z) :
  positive_extents g -> (nu < 4)%nat -> extent g nu <= 2 -> check_correctness g colour <> 0.
Proof.
  intros Hg Hnu He K. rewrite check_zero in K.
  set (mu := if Nat.eqb nu 0 then 1%nat else 0%nat).
  assert (Hmu : (mu < 4)%nat /\ mu <> nu) by (unfold mu; destruct (Nat.eqb_spec nu 0); lia).
  set (s := mv g 0 (Site 0 0 0 0)).
  assert (Hs : 0 <= s < global_volume g) by (now apply mv_range).
  assert (Hl : is_link g (s, mu)) by (split; [exact Hs|apply Hmu]).
  apply (K (s, mu) (s, mu)); [now apply in_all_links| |reflexivity].
  apply (in_neighbours g (s, mu) (s, mu) Hg Hl). exists nu, (0, 2, false). cbn [fst snd].
  split; [exact Hnu|]. split; [lia|]. split; [cbn; tauto|]. cbn [entry]. f_equal. rewrite <- (mv_off0 g s mu nu Hg Hs) at 1.
  unfold mv. apply gidx_same_image; [exact Hg|]. apply same_image_comp. intros m Hm.
  rewrite !comp_add. unfold off. rewrite !comp_add, !comp_steps by (try exact Hm; lia).
  destruct (Nat.eqb_spec nu m) as [->|].
  - destruct (Nat.eqb mu m); assert (P : extent g m = 1 \/ extent g m = 2) by
      (destruct Hg as (? & ? & ? & ?); destruct m as [|[|[|[|m]]]]; cbn in *; lia);
    destruct P as [-> | ->]; [exists (-2); ring|exists (-1); ring|exists (-2); ring|exists (-1); ring].
  - exists 0. destruct (Nat.eqb mu m); ring.
Qed.
(** Example 2x2x2x2: the constructor gives up after three rounds with a warning, colours exceed the number of loops, so
    the tables are written out of bounds and a sweep leaves links out. *)
Theorem C26_two_extent_out_of_bounds_refuted :
  let g := Geom 2 2 2 2 1 1 1 1 in warned g = true /\ statistics g (build g) = UB /\ sweep_links g (build g) = [].
Proof. vm_compute. auto. Qed.
(** With several processes the first check compares with colours that were never written: only owned links are initialised
    (Checkerboard.cpp 16-21) while some neighbour of an owned site is a halo site. *)
Theorem C26_uninitialised_halo_refuted (g : geom) (r : Z) (L : layout) (s : site) (mu : nat) :
  valid_geom g -> 0 <= r < number_processors g -> initialize g extended_stencil (number_processors g) r = Ok L ->
  (mu < 4)%nat -> in_box g s -> owned_by g r s -> ~ owned_by g r (wrap g (site_add s (steps mu 1))) ->
  exists k, sup L (local_index L (gidx g s)) mu = Some k /\ llocalsize L <= k < lcompletesize L.
Proof.
  intros Hg Hr HL Hmu Hs Ho Hn. pose proof (valid_pos g Hg) as Hp.
  pose proof (sizes_ordered g extended_stencil r L Hg Hr HL) as HS.
  apply (owned_local g extended_stencil r L Hg Hr HL s Hs) in Ho as Ho'.
  exists (local_index L (gidx g (site_add s (delta_plus mu)))). split; [apply (sup_spec g extended_stencil r L Hg Hr HL); [exact Hs|lia]|].
  assert (Hin : In (delta_plus mu) extended_stencil).
  { destruct mu as [|[|[|[|]]]]; try lia; cbn; tauto. }
  pose proof (stencil_readable g extended_stencil r L Hg Hr HL s (delta_plus mu) Hs Ho Hin) as K.
  rewrite steps_plus in *. set (s' := site_add s (steps mu 1)) in *.
  assert (Hb : in_box g (wrap g s')). { destruct Hp as (? & ? & ? & ?). repeat split; cbn; apply Z.mod_pos_bound; auto. }
  assert (E2 : gidx g s' = gidx g (wrap g s')).
  { rewrite <- (site_at_gidx g s' Hp). rewrite gidx_site_at; auto. now apply gidx_range. }
  rewrite E2 in *. pose proof (owned_local g extended_stencil r L Hg Hr HL (wrap g s') Hb) as O.
  destruct (Z_lt_ge_dec (local_index L (gidx g (wrap g s'))) (llocalsize L)); [|lia].
  exfalso. apply Hn. apply O. lia.
Qed.
Example C26_case : let g := Geom 3 3 3 3 1 1 1 1 in
  extents_at_least_3 g /\ (let c := build g in c (0, 0%nat) = 1 /\ c (1, 0%nat) = 2) /\
  is_link g (40, 2%nat) /\ shares_loop g (0, 0%nat) (global_sup g 0 1, 0%nat).
Proof.
  cbv zeta. split; [repeat split; cbn; lia|]. split; [vm_compute; split; reflexivity|].
  split; [split; cbn; lia|].
  exists 1%nat, 0, 0, 1, 1. split; [lia|]. split; [cbn; lia|]. split; [tauto|]. split; [lia|]. split; [tauto|].
  exists 0. left. split; [lia|]. right. vm_compute. reflexivity.
Qed.
Print Assumptions C26_accepted_independent.
Print Assumptions C26_order_irrelevant.
Print Assumptions C26_constructor_correct.
Print Assumptions C26_small_extent_never_accepted_refuted.
Print Assumptions C26_two_extent_out_of_bounds_refuted.
Print Assumptions C26_uninitialised_halo_refuted.

(** Property theorems C01-C07 and C10: lattice geometry, domain decomposition, local numbering. *)
From Coq Require Import ZArith List Bool Lia.
From Verif Require Import Base ListFacts LayoutModel LayoutSpec LayoutProofs LayoutFacts LayoutFacts2 LayoutMain.
Open Scope Z_scope.

(** ** C01 *)
Theorem C01_numbering_is_periodic_bijection (g : geom) : positive_extents g ->
  (forall s, exists i, get_global_coordinate g s = Some i /\ 0 <= i < gx g * gy g * gz g * gt g) /\
  (forall a b, get_global_coordinate g a = get_global_coordinate g b <-> same_image g a b) /\
  (forall i, 0 <= i < gx g * gy g * gz g * gt g -> exists s, in_box g s /\ get_global_coordinate g s = Some i).
Proof. exact (numbering_bijection g). Qed.
Example C01_case : get_global_coordinate (Geom 4 3 5 2 1 1 1 1) (Site (-9) 7 (-1) 3) = Some 109 /\
  get_global_coordinate (Geom 4 3 5 2 1 1 1 1) (Site 3 1 4 1) = Some 109 /\ positive_extents (Geom 4 3 5 2 1 1 1 1).
Proof. split; [vm_compute; reflexivity|split; [vm_compute; reflexivity|repeat split]]. Qed.
Print Assumptions C01_numbering_is_periodic_bijection.

(** ** C02 *)
Theorem C02_local_layout_one_period (g : geom) (s : site) : positive_extents g ->
  (forall mu, (mu < 4)%nat -> - extent g mu <= comp s mu < 2 * extent g mu) ->
  exists s', in_box g s' /\ same_image g s s' /\
    local_gidx g s = ((sx s' * gy g + sy s') * gz g + sz s') * gt g + st s'.
Proof. exact (local_one_period g s). Qed.
Theorem C02_local_layout_further_refuted (g : geom) (s : site) (mu : nat) : positive_extents g -> (mu < 4)%nat ->
  ~ (- extent g mu <= comp s mu < 2 * extent g mu) ->
  (forall nu, (nu < 4)%nat -> nu <> mu -> - extent g nu <= comp s nu < 2 * extent g nu) ->
  Some (local_gidx g s) <> get_global_coordinate g s.
Proof. exact (local_further g s mu). Qed.
Example C02_case : local_gidx (Geom 4 4 4 4 1 1 1 1) (Site (-1) 7 2 3) = 251 /\
  local_gidx (Geom 4 4 4 4 1 1 1 1) (Site 9 0 0 0) = 320.
Proof. split; reflexivity. Qed.
Print Assumptions C02_local_layout_one_period.
Print Assumptions C02_local_layout_further_refuted.

(** ** C03: on global numbers, and through the tables of a rank. *)
Theorem C03_neighbours (g : geom) (i : Z) : positive_extents g -> 0 <= i < gx g * gy g * gz g * gt g ->
  (forall mu, same_image g (site_at g (global_sup g i mu)) (site_add (site_at g i) (steps mu 1)) /\
              same_image g (site_at g (global_down g i mu)) (site_add (site_at g i) (steps mu (-1)))) /\
  (forall mu, global_sup g (global_down g i mu) mu = i /\ global_down g (global_sup g i mu) mu = i) /\
  (forall mu nu, global_sup g (global_sup g i mu) nu = global_sup g (global_sup g i nu) mu /\
                 global_down g (global_down g i mu) nu = global_down g (global_down g i nu) mu /\
                 global_sup g (global_down g i mu) nu = global_down g (global_sup g i nu) mu) /\
  (forall mu, (mu < 4)%nat -> Nat.iter (Z.to_nat (extent g mu)) (fun j => global_sup g j mu) i = i).
Proof. exact (neighbours g i). Qed.
Theorem C03_rank_tables (g : geom) (sten : list site) (r : Z) (L : layout) (l : Z) (mu : nat) :
  valid_geom g -> 0 <= r < number_processors g -> initialize g sten (number_processors g) r = Ok L ->
  In (steps mu 1) sten -> In (steps mu (-1)) sten -> 0 <= l < llocalsize L ->
  exists up down s, sup L l mu = Some up /\ sdn L l mu = Some down /\
    sdn L up mu = Some l /\ sup L down mu = Some l /\
    global_coordinate L l = Some s /\
    global_coordinate L up = Some (wrap g (site_add s (steps mu 1))) /\
    global_coordinate L down = Some (wrap g (site_add s (steps mu (-1)))).
Proof. exact (rank_tables g sten r L l mu). Qed.
Example C03_case : global_sup (Geom 2 3 4 5 1 1 1 1) 119 3 = 115 /\
  match initialize (Geom 4 2 1 4 2 1 1 2) reduced_stencil 4 1 with
  | Ok L => sup L 6 0 = Some 18 /\ sdn L 18 0 = Some 6 | _ => False end.
Proof. vm_compute. auto. Qed.
Print Assumptions C03_neighbours.
Print Assumptions C03_rank_tables.

(** ** C04 *)
Theorem C04_startup_accepts_exactly_valid_grids (g : geom) (size : Z) : positive_extents g -> positive_grid g ->
  (startup_checks g size = Ok tt <-> size = px g * py g * pz g * pt g /\ divides_evenly g) /\
  (startup_checks g size = Ok tt \/ startup_checks g size = Exit 1 \/ startup_checks g size = Exit 3).
Proof. exact (startup_exact g size). Qed.
Theorem C04_ownership_partition (g : geom) : valid_geom g ->
  (forall s, in_box g s -> exists r, owned_by g r s /\ 0 <= r < number_processors g /\
                           proc_at g (gidx g s) = r /\ forall r', owned_by g r' s -> r' = r) /\
  (forall r, 0 <= r < number_processors g ->
     exists l, NoDup l /\ (forall s, In s l <-> in_box g s /\ owned_by g r s) /\
       Z.of_nat (length l) = (gx g / px g) * (gy g / py g) * (gz g / pz g) * (gt g / pt g)).
Proof. exact (ownership g). Qed.
Example C04_case : valid_geom (Geom 4 2 6 8 2 1 3 2) /\ startup_checks (Geom 4 2 6 8 2 1 3 2) 12 = Ok tt /\
  startup_checks (Geom 4 2 6 7 2 1 3 2) 12 = Exit 3 /\ startup_checks (Geom 4 2 6 8 2 1 3 2) 8 = Exit 1 /\
  proc_at (Geom 4 2 6 8 2 1 3 2) 383 = 11.
Proof.
  split. { repeat split; cbn; try lia; try (now exists 2); try (now exists 4). }
  vm_compute. auto.
Qed.
Print Assumptions C04_startup_accepts_exactly_valid_grids.
Print Assumptions C04_ownership_partition.

(** ** C05 *)
Theorem C05_local_numbering (g : geom) (sten : list site) (r : Z) : valid_geom g -> 0 <= r < number_processors g ->
  exists L, initialize g sten (number_processors g) r = Ok L /\
    llocalsize L = (gx g / px g) * (gy g / py g) * (gz g / pz g) * (gt g / pt g) /\
    0 <= lsharedsize L <= llocalsize L /\ llocalsize L <= lcompletesize L /\
    (forall s, in_box g s ->
      (owned_by g r s /\ (exists r', mirrors g sten r' s) <-> 0 <= local_index L (gidx g s) < lsharedsize L) /\
      (owned_by g r s <-> 0 <= local_index L (gidx g s) < llocalsize L) /\
      (mirrors g sten r s <-> llocalsize L <= local_index L (gidx g s) < lcompletesize L) /\
      (~ owned_by g r s -> ~ mirrors g sten r s -> local_index L (gidx g s) = -1)) /\
    (forall l, 0 <= l < lcompletesize L -> exists s, in_box g s /\ local_index L (gidx g s) = l /\
       (forall s', in_box g s' -> local_index L (gidx g s') = l -> s' = s) /\ global_coordinate L l = Some s).
Proof. exact (local_numbering g sten r). Qed.
Example C05_case : valid_geom (Geom 6 6 1 1 2 2 1 1) /\
  match initialize (Geom 6 6 1 1 2 2 1 1) standard_stencil 4 2 with
  | Ok L => (llocalsize L, lsharedsize L, lcompletesize L) = (9, 8, 23) /\
            (* an inner site, a site mirrored elsewhere, a halo site, a site not stored *)
            map (fun s => local_index L (gidx (Geom 6 6 1 1 2 2 1 1) s)) [Site 4 1 0 0; Site 5 0 0 0; Site 2 0 0 0; Site 1 1 0 0]
            = [8; 5; 14; -1]
  | _ => False end.
Proof.
  split. { repeat split; cbn; try lia; try (now exists 1); try (now exists 3). }
  vm_compute. auto.
Qed.
Print Assumptions C05_local_numbering.

(** ** C06 *)
Theorem C06_stencil_readable (g : geom) (sten : list site) (r : Z) (L : layout) (s d : site) :
  valid_geom g -> 0 <= r < number_processors g -> initialize g sten (number_processors g) r = Ok L ->
  in_box g s -> owned_by g r s -> In d sten ->
  exists l, local_index L (gidx g (site_add s d)) = l /\ 0 <= l < lcompletesize L /\
            global_coordinate L l = Some (wrap g (site_add s d)).
Proof. exact (stencil_reads g sten r L s d). Qed.
Example C06_case : In (Site 1 (-1) 0 0) standard_stencil /\ owned_by (Geom 6 6 1 1 2 2 1 1) 2 (Site 5 0 0 0) /\
  match initialize (Geom 6 6 1 1 2 2 1 1) standard_stencil 4 2 with
  | Ok L => local_index L (gidx (Geom 6 6 1 1 2 2 1 1) (Site 6 (-1) 0 0)) = 15
  | _ => False end.
Proof.
  split; [cbn; tauto|]. split. { exists 1, 0, 0, 0. repeat split; cbn; lia. }
  vm_compute. reflexivity.
Qed.
Print Assumptions C06_stencil_readable.

(** ** C07 *)
Theorem C07_two_steps_back (g : geom) (r : Z) (L : layout) (l : Z) (mu nu : nat) :
  valid_geom g -> 0 <= r < number_processors g -> initialize g extended_stencil (number_processors g) r = Ok L ->
  0 <= l < llocalsize L -> (mu < 4)%nat -> (nu < 4)%nat ->
  (mu = nu \/ 2 <= local_extent g mu \/ 2 <= local_extent g nu \/ extent g mu <= 3 \/ extent g nu <= 3) ->
  exists a b s, sdn L l mu = Some a /\ sdn L a nu = Some b /\ 0 <= b < lcompletesize L /\
    global_coordinate L l = Some s /\
    global_coordinate L b = Some (wrap g (site_add (site_add s (steps mu (-1))) (steps nu (-1)))).
Proof. exact (two_back g r L l mu nu). Qed.
Theorem C07_thin_boxes_refuted (g : geom) (r : Z) (L : layout) (l : Z) (mu nu : nat) :
  valid_geom g -> 0 <= r < number_processors g -> initialize g extended_stencil (number_processors g) r = Ok L ->
  0 <= l < llocalsize L -> (mu < 4)%nat -> (nu < 4)%nat -> mu <> nu ->
  local_extent g mu = 1 -> local_extent g nu = 1 -> 4 <= extent g mu -> 4 <= extent g nu ->
  exists a, sdn L l mu = Some a /\ sdn L a nu = Some (-1).
Proof. exact (two_back_missing g r L l mu nu). Qed.
Example C07_case : local_extent (Geom 4 4 1 1 2 4 1 1) 0 = 2 /\
  match initialize (Geom 4 4 1 1 2 4 1 1) extended_stencil 8 5 with
  | Ok L => sdn L 0 0 = Some 5 /\ sdn L 5 1 = Some 3 | _ => False end /\
  match initialize (Geom 4 4 1 1 4 4 1 1) extended_stencil 16 5 with
  | Ok L => sdn L 0 0 = Some 1 /\ sdn L 1 1 = Some (-1) | _ => False end.
Proof. vm_compute. auto. Qed.
Print Assumptions C07_two_steps_back.
Print Assumptions C07_thin_boxes_refuted.

(** ** C10 *)
Theorem C10_tags_in_bounds_iff (cs : list chunk) :
  (exists ts, compute_tags cs = Ok ts) <->
  (forall c, In c cs -> forall j, (j < length (csharers c))%nat ->
     exists cj, nth_error cs j = Some cj /\ (j < length (csharers cj))%nat).
Proof. exact (tags_from_ok cs cs []). Qed.
Theorem C10_tags_in_bounds_refuted : exists g sten, valid_geom g /\ compute_tags (chunks g sten) = UB.
Proof. exact tags_out_of_bounds. Qed.
Theorem C10_single_sharer_tags_distinct_partial (cs : list chunk) (r0 : Z) ts :
  (exists c0 cs', cs = c0 :: cs' /\ csharers c0 = [r0]) ->
  (forall c, In c cs -> (length (csharers c) <= 1)%nat) -> compute_tags cs = Ok ts ->
  forall i j a b ta tb, nth_error cs i = Some a -> nth_error cs j = Some b -> i <> j ->
    cowner a = cowner b -> csharers a <> [] -> csharers b <> [] ->
    nth_error ts i = Some ta -> nth_error ts j = Some tb -> ta <> tb.
Proof. exact (tags_simple cs r0 cs [] ts). Qed.
Example C10_case : compute_tags (chunks (Geom 1 1 1 9 1 1 1 3) reduced_stencil)
  = Ok [[0]; []; [1]; [0]; []; [1]; [0]; []; [1]].
Proof. vm_compute. reflexivity. Qed.
Print Assumptions C10_tags_in_bounds_iff.
Print Assumptions C10_tags_in_bounds_refuted.
Print Assumptions C10_single_sharer_tags_distinct_partial.

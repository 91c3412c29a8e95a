(** Properties C08, C09, C11, C12: halo exchange, conversion between layouts, global sums. *)
From Coq Require Import ZArith List Lia Permutation.
From Verif Require Import Base ListFacts LayoutModel LayoutSpec LayoutProofs LayoutFacts HaloModel HaloProofs SumModel SumProofs.
Open Scope Z_scope.

(** A family of layouts, one per rank, for the examples. *)
Definition layouts (g : geom) (sten : list site) (r : Z) : layout :=
  match initialize g sten (number_processors g) r with
  | Ok L => L | _ => Layout g r [] 0 0 0 (fun _ => -1) (fun _ => -1) end.
Lemma layouts_ok g sten : valid_geom g ->
  forall r, 0 <= r < number_processors g -> initialize g sten (number_processors g) r = Ok (layouts g sten r).
Proof.
  intros Hg r Hr. unfold layouts. destruct (initialize_ok g sten r Hg Hr) as (L & E & _). now rewrite E.
Qed.

(** ** C08: one halo update, whatever the interleaving of the ranks and the order of delivery *)
Theorem C08_halo_update {V} (g : geom) (sten : list site) (lay : Z -> layout) (tags : list (list Z)) (f : nat)
    (m0 : Z -> nat -> Z -> V) :
  valid_geom g ->
  (forall r, 0 <= r < number_processors g -> initialize g sten (number_processors g) r = Ok (lay r)) ->
  let st0 := start lay (number_processors g) tags [Communicate f; Wait f] m0 in
  (exists B, forall k st, steps_n lay k st0 st -> (k <= B)%nat) /\
  (forall k st, steps_n lay k st0 st ->
    (~ finished st -> exists st', step lay st st') /\
    trunc st = false /\
    (forall r h x, 0 <= r < number_processors g -> ~ (h = f /\ llocalsize (lay r) <= x < lcompletesize (lay r)) ->
       mem st r h x = m0 r h x) /\
    (finished st -> forall r o s, in_box g s -> mirrors g sten r s -> owned_by g o s ->
       mem st r f (local_index (lay r) (gidx g s)) = m0 o f (local_index (lay o) (gidx g s)))).
Proof. exact (one_update g sten lay tags f m0). Qed.
Theorem C08_halo_update_terminates {V} (g : geom) (sten : list site) (lay : Z -> layout) (tags : list (list Z)) (f : nat)
    (m0 : Z -> nat -> Z -> V) :
  valid_geom g ->
  (forall r, 0 <= r < number_processors g -> initialize g sten (number_processors g) r = Ok (lay r)) ->
  exists k st, steps_n lay k (start lay (number_processors g) tags [Communicate f; Wait f] m0) st /\ finished st.
Proof. intros Hg HL. exact (run_finishes g sten Hg lay HL tags [Communicate f; Wait f] m0). Qed.

(** A periodic chain of nine sites on three ranks: site 3 belongs to rank 1 and is mirrored by rank 0. Every
    complete run puts there the value of rank 1, here 1000 * owner + index in the owner's array. *)
Example C08_case :
  let g := Geom 1 1 1 9 1 1 1 3 in
  valid_geom g /\ mirrors g reduced_stencil 0 (Site 0 0 0 3) /\ owned_by g 1 (Site 0 0 0 3) /\
  exists k st, steps_n (layouts g reduced_stencil) k
      (start (layouts g reduced_stencil) 3 [[0]; []; [1]; [0]; []; [1]; [0]; []; [1]] [Communicate 7; Wait 7]
         (fun r f x => 1000 * r + x)) st /\
    mem st 0 7%nat (local_index (layouts g reduced_stencil 0) 3) = 1000.
Proof.
  intros g.
  assert (Hg : valid_geom g). { repeat split; cbn; try lia; try (now exists 1); try (now exists 3); try (now exists 9). }
  assert (Ho : owned_by g 1 (Site 0 0 0 3)). { exists 0, 0, 0, 1. repeat split; cbn; lia. }
  assert (Hm : mirrors g reduced_stencil 0 (Site 0 0 0 3)).
  { split.
    - intros (a & b & c & d & P & E & Q). destruct P as (P1 & P2 & P3 & P4). destruct Q as (Q1 & Q2 & Q3 & Q4). unfold rank_of_position in E. cbn in *. lia.
    - exists (Site 0 0 0 2), (Site 0 0 0 1). repeat split; cbn; try lia; try tauto; try (now exists 0).
      exists 0, 0, 0, 0. repeat split; cbn; lia. }
  split; auto. split; auto. split; auto.
  destruct (C08_halo_update_terminates g reduced_stencil (layouts g reduced_stencil)
     [[0]; []; [1]; [0]; []; [1]; [0]; []; [1]] 7%nat (fun r f x => 1000 * r + x) Hg (layouts_ok _ _ Hg)) as (k & st & H & F).
  exists k, st. split; auto.
  destruct (C08_halo_update g reduced_stencil (layouts g reduced_stencil)
     [[0]; []; [1]; [0]; []; [1]; [0]; []; [1]] 7%nat (fun r f x => 1000 * r + x) Hg (layouts_ok _ _ Hg)) as (_ & K).
  destruct (K k st H) as (_ & _ & _ & D). specialize (D F 0 1 (Site 0 0 0 3)).
  assert (Hb : in_box g (Site 0 0 0 3)) by (repeat split; cbn; lia).
  etransitivity; [exact (D Hb Hm Ho)|]. vm_compute. reflexivity.
Qed.
Print Assumptions C08_halo_update.
Print Assumptions C08_halo_update_terminates.

(** ** C09: several updates in flight, in any pattern of calls equal on all ranks, with the same tags *)
Theorem C09_updates_in_flight {V} (g : geom) (sten : list site) (lay : Z -> layout) (tags : list (list Z))
    (calls : list call) (m0 : Z -> nat -> Z -> V) :
  valid_geom g ->
  (forall r, 0 <= r < number_processors g -> initialize g sten (number_processors g) r = Ok (lay r)) ->
  let st0 := start lay (number_processors g) tags calls m0 in
  (exists B, forall k st, steps_n lay k st0 st -> (k <= B)%nat) /\
  (forall k st, steps_n lay k st0 st ->
    (~ finished st -> exists st', step lay st st') /\
    trunc st = false /\
    (forall r f x, ~ (llocalsize (lay r) <= x < lcompletesize (lay r)) -> 0 <= r < number_processors g -> mem st r f x = m0 r f x) /\
    (forall r f x, ~ In (Communicate f) calls -> mem st r f x = m0 r f x) /\
    (forall f r o s, finished st -> (exists A B, calls = A ++ Communicate f :: B /\ In (Wait f) B) ->
       in_box g s -> mirrors g sten r s -> owned_by g o s ->
       mem st r f (local_index (lay r) (gidx g s)) = m0 o f (local_index (lay o) (gidx g s)))).
Proof. intros Hg HL. exact (halo_summary g sten lay tags Hg HL calls m0). Qed.
Example C09_case :
  let g := Geom 1 1 1 9 1 1 1 3 in let calls := [Communicate 0; Communicate 1; Wait 1; Wait 0] in
  valid_geom g /\
  exists k st, steps_n (layouts g reduced_stencil) k
      (start (layouts g reduced_stencil) 3 [[0]; []; [1]; [0]; []; [1]; [0]; []; [1]] calls
         (fun r f x => 1000 * r + 100 * Z.of_nat f + x)) st /\
    mem st 0 0%nat (local_index (layouts g reduced_stencil 0) 3) = 1000 /\
    mem st 0 1%nat (local_index (layouts g reduced_stencil 0) 3) = 1100.
Proof.
  intros g calls.
  assert (Hg : valid_geom g). { repeat split; cbn; try lia; try (now exists 1); try (now exists 3); try (now exists 9). }
  split; auto.
  destruct (run_finishes g reduced_stencil Hg _ (layouts_ok _ _ Hg) [[0]; []; [1]; [0]; []; [1]; [0]; []; [1]] calls
     (fun r f x => 1000 * r + 100 * Z.of_nat f + x)) as (k & st & H & F).
  exists k, st. split; auto.
  destruct (C09_updates_in_flight g reduced_stencil _ [[0]; []; [1]; [0]; []; [1]; [0]; []; [1]] calls
     (fun r f x => 1000 * r + 100 * Z.of_nat f + x) Hg (layouts_ok _ _ Hg)) as (_ & K).
  destruct (K k st H) as (_ & _ & _ & _ & D). destruct C08_case as (_ & Hm & Ho & _).
  assert (Hb : in_box g (Site 0 0 0 3)) by (repeat split; cbn; lia).
  split.
  - etransitivity; [refine (D 0%nat 0 1 (Site 0 0 0 3) F _ Hb Hm Ho)|vm_compute; reflexivity].
    exists [], [Communicate 1; Wait 1; Wait 0]; split; cbn; auto.
  - etransitivity; [refine (D 1%nat 0 1 (Site 0 0 0 3) F _ Hb Hm Ho)|vm_compute; reflexivity].
    exists [Communicate 0], [Wait 1; Wait 0]; split; cbn; auto.
Qed.
Print Assumptions C09_updates_in_flight.

(** ** C11: assignment between layouts of the same lattice and process grid *)
Theorem C11_conversion {V} (g : geom) (stenL stenM : list site) (layL layM : Z -> layout) (tags : list (list Z)) (f : nat)
    (old cur : Z -> Z -> V) :
  valid_geom g ->
  (forall r, 0 <= r < number_processors g -> initialize g stenL (number_processors g) r = Ok (layL r)) ->
  (forall r, 0 <= r < number_processors g -> initialize g stenM (number_processors g) r = Ok (layM r)) ->
  exists new, (forall r, 0 <= r < number_processors g -> convert_owned (layL r) (layM r) (old r) (cur r) = Ok (new r)) /\
   forall m0 k st, (forall r, 0 <= r < number_processors g -> m0 r f = new r) ->
    steps_n layL k (start layL (number_processors g) tags [Communicate f; Wait f] m0) st -> finished st ->
    forall r o s, in_box g s -> owned_by g o s -> (r = o \/ mirrors g stenL r s) ->
      mem st r f (local_index (layL r) (gidx g s)) = old o (local_index (layM o) (gidx g s)).
Proof. exact (conversion g stenL stenM layL layM tags f old cur). Qed.
(** From the eight-neighbour layout to the extended one: the two number the same box differently. *)
Example C11_case :
  let g := Geom 3 6 1 1 1 2 1 1 in
  valid_geom g /\
  map (local_index (layouts g reduced_up_stencil 0)) [0; 1; 2] = [0; 3; 4] /\
  map (local_index (layouts g standard_stencil 0)) [0; 1; 2] = [0; 6; 1] /\
  match convert_owned (layouts g standard_stencil 0) (layouts g reduced_up_stencil 0) (fun x => 10 * x) (fun _ => -5) with
  | Ok new => map new [0; 1; 6; 9] = [0; 40; 30; -5] | _ => False end.
Proof.
  intros g.
  split. { repeat split; cbn; try lia; try (now exists 1); try (now exists 3); try (now exists 2). }
  vm_compute. auto.
Qed.
Print Assumptions C11_conversion.

(** ** C12: global sums *)
Theorem C12_global_sum {V} (add : V -> V -> V) (zero : V) :
  (forall a b c, add a (add b c) = add (add a b) c) -> (forall a b, add a b = add b a) -> (forall a, add zero a = a) ->
  forall (g : geom) (sten : list site) (lay : Z -> layout), valid_geom g ->
  (forall r, 0 <= r < number_processors g -> initialize g sten (number_processors g) r = Ok (lay r)) ->
  forall (F : site -> V) (m : Z -> Z -> V) (T : nat) (events : Z -> list (nat * V)) (t : tree) (sites : list site),
  (forall r s, 0 <= r < number_processors g -> in_box g s -> owned_by g r s -> m r (local_index (lay r) (gidx g s)) = F s) ->
  (forall r, 0 <= r < number_processors g -> (forall e, In e (events r) -> (fst e < T)%nat) /\
      Permutation (map snd (events r)) (map (m r) (zrange (llocalsize (lay r))))) ->
  Permutation (leaves t) (zrange (number_processors g)) ->
  NoDup sites -> (forall s, In s sites <-> in_box g s) ->
  global_sum add zero T events t = fold_right add zero (map F sites).
Proof. exact (global_sum_spec add zero). Qed.
(** Two ranks of two sites, two threads, calls and ranks in unnatural orders: 4 + 30 + 200 + 1000. *)
Example C12_case :
  let g := Geom 1 1 1 4 1 1 1 2 in
  let F s := match st s with 0 => 4 | 1 => 30 | 2 => 200 | _ => 1000 end in
  let m r l := match global_coordinate (layouts g reduced_stencil r) l with Some s => F s | None => 0 end in
  let events r := if r =? 0 then [(1%nat, m 0 1); (0%nat, m 0 0)] else [(1%nat, m 1 1); (1%nat, m 1 0)] in
  valid_geom g /\
  (forall r, 0 <= r < 2 -> (forall e, In e (events r) -> (fst e < 2)%nat) /\
     Permutation (map snd (events r)) (map (m r) (zrange (llocalsize (layouts g reduced_stencil r))))) /\
  global_sum Z.add 0 2 events (Node (Leaf 1) (Leaf 0)) = 1234.
Proof.
  intros g F m events. split. { repeat split; cbn; try lia; try (now exists 1); try (now exists 2); try (now exists 4). }
  split; [|vm_compute; reflexivity].
  intros r Hr. assert (r = 0 \/ r = 1) as [-> | ->] by lia.
  - split; [intros e [<-|[<-|[]]]; cbn; lia|]. vm_compute. apply perm_swap.
  - split; [intros e [<-|[<-|[]]]; cbn; lia|]. vm_compute. apply perm_swap.
Qed.
Print Assumptions C12_global_sum.

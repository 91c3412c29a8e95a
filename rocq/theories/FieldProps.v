(** Properties C23, C24, C25: fermion boundary conditions and translations. *)
From Coq Require Import ZArith List Bool Lia String.
From Verif Require Import Base ListFacts LayoutModel LayoutSpec LayoutProofs LayoutFacts LayoutFacts2 LayoutMain HaloProps
  FieldModel FieldSpec FieldProofs.
Import ListNotations.
Open Scope Z_scope.

(** ** C23. [dirs] are the directions of the switch: antiperiodic [3], spatial [2], full [0;1;2;3].
    Every link kept by the rank (halo copies included) in such a direction that leaves the last slice
    changes sign, every other one is unchanged, and nothing outside the array of the rank is touched. *)
Inductive sign_switch {V} (neg : V -> V) (L : layout) : list nat -> (links V -> outcome (links V)) -> Prop :=
| Antiperiodic : sign_switch neg L [3%nat] (switch_antiperiodic V neg L)
| Spatial : sign_switch neg L [2%nat] (switch_spatial V neg L)
| Full : sign_switch neg L [0; 1; 2; 3]%nat (switch_full V neg L).

Lemma switch_acts {V} (neg : V -> V) g sten r L dirs sw : valid_geom g -> 0 <= r < number_processors g ->
  initialize g sten (number_processors g) r = Ok L -> sign_switch neg L dirs sw ->
  acts V g sten r L sw (flip V g neg dirs).
Proof.
  intros Hg Hr HL H. destruct H.
  - exact (acts_antiperiodic V g sten r L Hg Hr HL neg).
  - exact (acts_spatial V g sten r L Hg Hr HL neg).
  - exact (acts_full V g sten r L Hg Hr HL neg).
Qed.

Theorem C23_sign_flip {V} (neg : V -> V) (g : geom) (sten : list site) (r : Z) (L : layout) dirs sw (f : links V) :
  valid_geom g -> 0 <= r < number_processors g -> initialize g sten (number_processors g) r = Ok L ->
  sign_switch neg L dirs sw ->
  exists f', sw f = Ok f' /\
    (forall s mu, in_box g s -> keeps g sten r s -> In mu dirs -> comp s mu = extent g mu - 1 ->
       f' (local_index L (gidx g s)) mu = neg (f (local_index L (gidx g s)) mu)) /\
    (forall s mu, in_box g s -> keeps g sten r s -> ~ In mu dirs \/ comp s mu <> extent g mu - 1 ->
       f' (local_index L (gidx g s)) mu = f (local_index L (gidx g s)) mu) /\
    (forall l mu, ~ 0 <= l < lcompletesize L -> f' l mu = f l mu).
Proof.
  intros Hg Hr HL H. destruct (switch_acts neg g sten r L dirs sw Hg Hr HL H f) as (f' & E & P1 & P2).
  exists f'. split; [exact E|]. split; [|split; [|exact P2]]; intros s mu Hs Hk.
  - intros Hd Hc. rewrite P1 by assumption. unfold flip, crosses.
    assert (K : existsb (Nat.eqb mu) dirs = true). { apply existsb_exists. exists mu. split; [exact Hd|apply Nat.eqb_refl]. }
    now rewrite K, Hc, Z.eqb_refl.
  - intros Hd. rewrite P1 by assumption. unfold flip, crosses.
    destruct (existsb (Nat.eqb mu) dirs) eqn:K; [|reflexivity].
    apply existsb_exists in K as (m & Hm & Em). apply Nat.eqb_eq in Em. subst m.
    destruct Hd as [Hd|Hd]; [contradiction|]. now destruct (Z.eqb_spec (comp s mu) (extent g mu - 1)).
Qed.

Theorem C23_twice {V} (neg : V -> V) (g : geom) (sten : list site) (r : Z) (L : layout) dirs sw (f : links V) :
  (forall v, neg (neg v) = v) ->
  valid_geom g -> 0 <= r < number_processors g -> initialize g sten (number_processors g) r = Ok L ->
  sign_switch neg L dirs sw ->
  exists f' f'', sw f = Ok f' /\ sw f' = Ok f'' /\ forall l mu, f'' l mu = f l mu.
Proof.
  intros Hn Hg Hr HL H. pose proof (switch_acts neg g sten r L dirs sw Hg Hr HL H) as A.
  destruct (A f) as (f' & E & P1 & P2). destruct (A f') as (f'' & E' & P1' & P2').
  exists f', f''. split; [exact E|]. split; [exact E'|].
  apply (keeps_extension g sten r L V f'' f Hg Hr HL).
  - intros s mu Hs Hk. rewrite P1', P1 by assumption. unfold flip.
    destruct (existsb (Nat.eqb mu) dirs && crosses g mu s); auto.
  - intros l mu Hl. now rewrite P2', P2.
Qed.

Theorem C23_commute {V} (neg : V -> V) (g : geom) (sten : list site) (r : Z) (L : layout) d1 d2 sw1 sw2 (f : links V) :
  valid_geom g -> 0 <= r < number_processors g -> initialize g sten (number_processors g) r = Ok L ->
  sign_switch neg L d1 sw1 -> sign_switch neg L d2 sw2 ->
  exists f1 f12 f2 f21, sw1 f = Ok f1 /\ sw2 f1 = Ok f12 /\ sw2 f = Ok f2 /\ sw1 f2 = Ok f21 /\
    forall l mu, f12 l mu = f21 l mu.
Proof.
  intros Hg Hr HL H1 H2.
  pose proof (switch_acts neg g sten r L d1 sw1 Hg Hr HL H1) as A1.
  pose proof (switch_acts neg g sten r L d2 sw2 Hg Hr HL H2) as A2.
  destruct (A1 f) as (f1 & E1 & P1 & Q1). destruct (A2 f1) as (f12 & E12 & P12 & Q12).
  destruct (A2 f) as (f2 & E2 & P2 & Q2). destruct (A1 f2) as (f21 & E21 & P21 & Q21).
  exists f1, f12, f2, f21. do 4 (split; [assumption|]).
  apply (keeps_extension g sten r L V f12 f21 Hg Hr HL).
  - intros s mu Hs Hk. rewrite P12, P1, P21, P2 by assumption. unfold flip.
    destruct (existsb (Nat.eqb mu) d1 && crosses g mu s), (existsb (Nat.eqb mu) d2 && crosses g mu s); reflexivity.
  - intros l mu Hl. now rewrite Q12, Q1, Q21, Q2.
Qed.

(** Open boundary: exactly the links that leave or lie on the last time slice, and those that lead to it, vanish. *)
Theorem C23_open {V} (zero : V) (g : geom) (sten : list site) (r : Z) (L : layout) (f : links V) :
  valid_geom g -> 0 <= r < number_processors g -> initialize g sten (number_processors g) r = Ok L ->
  exists f', switch_open V zero L f = Ok f' /\
    (forall s mu, in_box g s -> keeps g sten r s -> (mu < 4)%nat ->
      f' (local_index L (gidx g s)) mu =
      if (st s =? gt g - 1) || (Nat.eqb mu 3 && (st s =? gt g - 2)) then zero else f (local_index L (gidx g s)) mu) /\
    (forall l mu, ~ 0 <= l < lcompletesize L -> f' l mu = f l mu).
Proof.
  intros Hg Hr HL. destruct (acts_open V g sten r L Hg Hr HL zero f) as (f' & E & P & Q).
  exists f'. split; [exact E|]. split; [|exact Q]. intros s mu Hs Hk Hmu. rewrite P by assumption. unfold cut.
  destruct (Nat.ltb_spec mu 4); [|lia]. reflexivity.
Qed.

Definition g23 := Geom 2 2 1 4 1 1 1 2.
Lemma g23_ok : valid_geom g23.
Proof. repeat split; cbn; try lia; try (now exists 1); try (now exists 2); try (now exists 4). Qed.
Definition at23 (r : Z) (s : site) : Z := local_index (layouts g23 reduced_stencil r) (gidx g23 s).
Definition run23 (o : outcome (links Z)) (l : Z) (mu : nat) : Z :=
  match o with Ok f => f l mu | _ => 0 end.
Example C23_case :
  let L := layouts g23 reduced_stencil 1 in
  (* rank 1 owns the last slice, rank 0 has a copy of it *)
  run23 (switch_antiperiodic Z Z.opp L (fun l mu => 100 + l)) (at23 1 (Site 0 1 0 3)) 3 = - (100 + at23 1 (Site 0 1 0 3)) /\
  run23 (switch_antiperiodic Z Z.opp L (fun l mu => 100 + l)) (at23 1 (Site 0 1 0 3)) 2 = 100 + at23 1 (Site 0 1 0 3) /\
  run23 (switch_antiperiodic Z Z.opp L (fun l mu => 100 + l)) (at23 1 (Site 0 1 0 2)) 3 = 100 + at23 1 (Site 0 1 0 2) /\
  (let L0 := layouts g23 reduced_stencil 0 in
   at23 0 (Site 0 1 0 3) >= llocalsize L0 /\
   run23 (switch_antiperiodic Z Z.opp L0 (fun l mu => 100 + l)) (at23 0 (Site 0 1 0 3)) 3 = - (100 + at23 0 (Site 0 1 0 3))).
Proof. vm_compute. repeat split; discriminate. Qed.
Print Assumptions C23_sign_flip.
Print Assumptions C23_twice.
Print Assumptions C23_commute.
Print Assumptions C23_open.

(** ** C24. For every name but one the two places agree, for every field. *)
Theorem C24_names_consistent {V} (neg : V -> V) (zero : V) (L : layout) (name : string) (f gauge : links V) :
  name <> "fermion_full_antiperiodic"%string ->
  exists gauge', synchronize_bc V neg zero L (Some name) f gauge = Some (set_fermion_bc V neg zero L (Some name) f, gauge').
Proof.
  intros H. unfold synchronize_bc, set_fermion_bc.
  destruct (String.eqb name "fermion_antiperiodic"); [eauto|].
  destruct (String.eqb name "fermion_spatial_antiperiodic"); [eauto|].
  destruct (String.eqb_spec name "fermion_full_antiperiodic"); [contradiction|].
  destruct (String.eqb name "fermion_periodic"); [eauto|].
  destruct (String.eqb name "open"); eauto.
Qed.
(** The signs of the force agree as well, unless the name is full_antiperiodic or open. *)
Theorem C24_force_consistent {V} (neg : V -> V) (zero : V) (L : layout) (bc : option string) (f : links V) :
  bc <> Some "fermion_full_antiperiodic"%string -> bc <> Some "open"%string ->
  force_bc V neg L bc f = set_fermion_bc V neg zero L bc f.
Proof.
  destruct bc as [name|]; [|reflexivity]. intros H1 H2. unfold force_bc, set_fermion_bc.
  destruct (String.eqb name "fermion_antiperiodic"); [reflexivity|].
  destruct (String.eqb name "fermion_spatial_antiperiodic"); [reflexivity|].
  destruct (String.eqb_spec name "fermion_full_antiperiodic"); [congruence|].
  destruct (String.eqb name "fermion_periodic"); [reflexivity|].
  destruct (String.eqb_spec name "open"); [congruence|reflexivity].
Qed.
(** With full antiperiodic boundary conditions, on every lattice and for every rank that keeps a site on
    the last x slice: the link leaving it in the x direction changes sign when the field is set and does
    not when the field is re-synchronised, nor does the force. *)
Theorem C24_names_consistent_refuted {V} (neg : V -> V) (zero : V) (g : geom) (sten : list site) (r : Z) (L : layout)
    (s : site) (f gauge : links V) :
  valid_geom g -> 0 <= r < number_processors g -> initialize g sten (number_processors g) r = Ok L ->
  in_box g s -> keeps g sten r s -> sx s = gx g - 1 ->
  let name := Some "fermion_full_antiperiodic"%string in
  exists f1 f2 f3 gauge', set_fermion_bc V neg zero L name f = Ok f1 /\
    synchronize_bc V neg zero L name f gauge = Some (Ok f2, gauge') /\ force_bc V neg L name f = Ok f3 /\
    f1 (local_index L (gidx g s)) 0%nat = neg (f (local_index L (gidx g s)) 0%nat) /\
    f2 (local_index L (gidx g s)) 0%nat = f (local_index L (gidx g s)) 0%nat /\
    f3 (local_index L (gidx g s)) 0%nat = f (local_index L (gidx g s)) 0%nat.
Proof.
  intros Hg Hr HL Hs Hk Hx name.
  destruct (acts_full V g sten r L Hg Hr HL neg f) as (f1 & E1 & P1 & _).
  destruct (acts_antiperiodic V g sten r L Hg Hr HL neg f) as (f2 & E2 & P2 & _).
  exists f1, f2, f2, (Ok gauge). split; [exact E1|].
  split. { unfold name, synchronize_bc. cbn [String.eqb Ascii.eqb Bool.eqb]. now rewrite E2. }
  split; [exact E2|].
  rewrite P1, P2 by assumption. unfold flip, crosses. cbn [existsb Nat.eqb orb andb comp extent].
  rewrite Hx, Z.eqb_refl. auto.
Qed.
(** Without the option the first place falls back to antiperiodic and the second one ends the program. *)
Theorem C24_missing_option_refuted {V} (neg : V -> V) (zero : V) (L : layout) (f gauge : links V) :
  set_fermion_bc V neg zero L None f = switch_antiperiodic V neg L f /\ synchronize_bc V neg zero L None f gauge = None.
Proof. split; reflexivity. Qed.
Example C24_case : let L := layouts g23 reduced_stencil 0 in let f := fun (l : Z) (mu : nat) => 100 + l in
  keeps g23 reduced_stencil 0 (Site 1 0 0 0) /\
  run23 (set_fermion_bc Z Z.opp 0 L (Some "fermion_full_antiperiodic"%string) f) (at23 0 (Site 1 0 0 0)) 0 < 0 /\
  match synchronize_bc Z Z.opp 0 L (Some "fermion_full_antiperiodic"%string) f f with
  | Some (o, _) => run23 o (at23 0 (Site 1 0 0 0)) 0 > 0 | None => False end.
Proof.
  cbv zeta. split; [left; exists 0, 0, 0, 0; repeat split; cbn; lia|]. vm_compute. split; reflexivity.
Qed.
Print Assumptions C24_names_consistent.
Print Assumptions C24_names_consistent_refuted.

(** ** C25. For displacements that are not negative every rank gets, at its own sites and in its halo,
    the value at the displaced site (periodically); no read leaves the arrays. *)
Theorem C25_translate_partial {V} (g : geom) (sten : list site) (Ls : Z -> layout) (u t : family V) (F : site -> V) (dx dy dz dt : Z) :
  valid_geom g ->
  (forall r, 0 <= r < number_processors g -> initialize g sten (number_processors g) r = Ok (Ls r)) ->
  (forall mu, (mu < 4)%nat -> In (delta_plus mu) sten) ->
  0 <= dx -> 0 <= dy -> 0 <= dz -> 0 <= dt ->
  (forall r s, 0 <= r < number_processors g -> in_box g s -> keeps g sten r s ->
     u r (local_index (Ls r) (gidx g s)) = Some (F s)) ->
  forall r s, 0 <= r < number_processors g -> in_box g s -> keeps g sten r s ->
    translate V Ls u t dx dy dz dt r (local_index (Ls r) (gidx g s)) = Some (F (wrap g (site_add s (Site dx dy dz dt)))).
Proof. intros Hg HLs Hst H1 H2 H3 H4 Hu. exact (translate_nonneg V g sten Ls Hg HLs Hst u t F dx dy dz dt Hu H1 H2 H3 H4). Qed.
(** Negative components are taken as zero when another one is positive ... *)
Theorem C25_negative_ignored_refuted {V} (g : geom) (sten : list site) (Ls : Z -> layout) (u t : family V) (F : site -> V) (dx dy dz dt : Z) :
  valid_geom g ->
  (forall r, 0 <= r < number_processors g -> initialize g sten (number_processors g) r = Ok (Ls r)) ->
  (forall mu, (mu < 4)%nat -> In (delta_plus mu) sten) ->
  0 < dx \/ 0 < dy \/ 0 < dz \/ 0 < dt ->
  (forall r s, 0 <= r < number_processors g -> in_box g s -> keeps g sten r s ->
     u r (local_index (Ls r) (gidx g s)) = Some (F s)) ->
  forall r s, 0 <= r < number_processors g -> in_box g s -> keeps g sten r s ->
    translate V Ls u t dx dy dz dt r (local_index (Ls r) (gidx g s)) =
    Some (F (wrap g (site_add s (Site (Z.max 0 dx) (Z.max 0 dy) (Z.max 0 dz) (Z.max 0 dt))))).
Proof. intros Hg HLs Hst Hd Hu. exact (translate_general V g sten Ls Hg HLs Hst u t F dx dy dz dt Hu Hd). Qed.
(** ... and otherwise the result is never written: it keeps what it contained before the call. *)
Theorem C25_negative_unwritten_refuted {V} (Ls : Z -> layout) (u t : family V) (dx dy dz dt : Z) :
  dx <= 0 -> dy <= 0 -> dz <= 0 -> dt <= 0 -> ~ (dx = 0 /\ dy = 0 /\ dz = 0 /\ dt = 0) ->
  translate V Ls u t dx dy dz dt = t.
Proof. exact (translate_negative V Ls u t dx dy dz dt). Qed.
Definition fam23 : family Z := fun r l =>
  match global_coordinate (layouts g23 reduced_stencil r) l with Some s => Some (gidx g23 s) | None => None end.
Example C25_case :
  let Ls := layouts g23 reduced_stencil in
  translate Z Ls fam23 (fun _ _ => None) 1 0 0 2 0 (at23 0 (Site 1 1 0 1)) = Some (gidx g23 (Site 0 1 0 3)) /\
  translate Z Ls fam23 (fun _ _ => None) 1 0 0 2 1 (at23 1 (Site 1 1 0 1)) = Some (gidx g23 (Site 0 1 0 3)) /\
  translate Z Ls fam23 (fun _ _ => None) 1 0 0 (-2) 0 (at23 0 (Site 1 1 0 1)) = Some (gidx g23 (Site 0 1 0 1)) /\
  translate Z Ls fam23 (fun _ _ => None) 0 0 0 (-2) 0 (at23 0 (Site 1 1 0 1)) = None.
Proof. vm_compute. repeat split. Qed.
Print Assumptions C25_translate_partial.
Print Assumptions C25_negative_ignored_refuted.
Print Assumptions C25_negative_unwritten_refuted.

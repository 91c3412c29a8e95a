(** Property theorems C72: every site read by the staples, the energy and the hopping term is in the arrays of
    the rank and is the site meant. *)
From Coq Require Import ZArith List Bool Lia.
From Verif Require Import Base ListFacts LayoutModel LayoutSpec LayoutProofs LayoutFacts LayoutFacts2 LayoutMain ReadModel.
Import ListNotations.
Open Scope Z_scope.

(** Specification: the displacement of a walk is the sum of its unit steps. *)
Definition hop_step (h : hop) : site := match h with Up mu => steps mu 1 | Dn mu => steps mu (-1) end.
Fixpoint displaced (s : site) (hs : list hop) : site :=
  match hs with [] => s | h :: hs' => displaced (site_add s (hop_step h)) hs' end.
(** The walk reads one element, which is the image of s + displacement in the box. *)
Definition reads_right (g : geom) (L : layout) (l : Z) (hs : list hop) : Prop :=
  exists s b, global_coordinate L l = Some s /\ walk L l hs = Ok b /\ 0 <= b < lcompletesize L /\
    global_coordinate L b = Some (wrap g (displaced s hs)).

Section Walk.
Variables (g : geom) (sten : list site) (r : Z) (L : layout).
Hypotheses (Hg : valid_geom g) (Hr : 0 <= r < number_processors g)
  (HL : initialize g sten (number_processors g) r = Ok L).

Definition in_arrays (s : site) : Prop := 0 <= local_index L (gidx g s) < lcompletesize L.
Lemma readableP l : readable L l = true <-> 0 <= l < lcompletesize L.
Proof. unfold readable. rewrite andb_true_iff, Z.leb_le, Z.ltb_lt. tauto. Qed.

Lemma steps_plus mu : delta_plus mu = steps mu 1.
Proof. destruct mu as [|[|[|mu]]]; reflexivity. Qed.
Lemma hop_spec s h : in_arrays s ->
  hop_from L (local_index L (gidx g s)) h = Ok (local_index L (gidx g (site_add s (hop_step h)))).
Proof.
  intros Hs. unfold hop_from. rewrite (proj2 (readableP _) Hs). pose proof (valid_pos g Hg) as Hp.
  unfold in_arrays in Hs. rewrite <- (gidx_wrap g Hg s) in Hs |- *.
  assert (E : forall d, gidx g (site_add (wrap g s) d) = gidx g (site_add s d)).
  { intros d. apply gidx_same_image; auto. now apply same_image_add, same_image_wrap. }
  destruct h as [mu|mu]; cbn [hop_step].
  - rewrite (sup_spec g sten r L Hg Hr HL) by (auto using wrap_in_box). now rewrite steps_plus, E.
  - rewrite (sdn_spec g sten r L Hg Hr HL) by (auto using wrap_in_box). now rewrite steps_minus, E.
Qed.

Fixpoint stays (s : site) (hs : list hop) : Prop :=
  in_arrays s /\ match hs with [] => True | h :: hs' => stays (site_add s (hop_step h)) hs' end.
Lemma stays_last s hs : stays s hs -> in_arrays (displaced s hs).
Proof. revert s. induction hs as [|h hs IH]; cbn; intros s [H1 H2]; auto. Qed.
Lemma walk_stays s hs : stays s hs -> walk L (local_index L (gidx g s)) hs = Ok (local_index L (gidx g (displaced s hs))).
Proof.
  revert s. induction hs as [|h hs IH]; cbn [stays walk displaced]; intros s [H1 H2].
  - now rewrite (proj2 (readableP _) H1).
  - rewrite hop_spec by auto. cbn. now apply IH.
Qed.
Lemma walk_right l s hs : 0 <= l < lcompletesize L -> global_coordinate L l = Some s -> local_index L (gidx g s) = l ->
  stays s hs -> reads_right g L l hs.
Proof.
  intros Hl Hc El Hs. exists s. eexists. split; auto. rewrite <- El. split; [now apply walk_stays|].
  pose proof (stays_last s hs Hs) as Hd. unfold in_arrays in Hd. split; [exact Hd|].
  rewrite <- (gidx_wrap g Hg) in *. apply (coordinate_at g sten r L Hg Hr HL); auto. apply wrap_in_box, Hg.
Qed.
End Walk.

(** Displacements of all prefixes of a walk. *)
Fixpoint prefixes (d : site) (hs : list hop) : list site :=
  d :: match hs with [] => [] | h :: hs' => prefixes (site_add d (hop_step h)) hs' end.
Definition site_eqb (d e : site) := (sx e =? sx d) && (sy e =? sy d) && (sz e =? sz d) && (st e =? st d).
Lemma site_eqbP d e : site_eqb d e = true -> e = d.
Proof.
  unfold site_eqb. rewrite !andb_true_iff, !Z.eqb_eq. intros (((A & B) & C) & F).
  destruct d, e; cbn in *; congruence.
Qed.
Definition covered (sten extra : list site) (d : site) : bool :=
  existsb (site_eqb d) (Site 0 0 0 0 :: sten ++ extra).
Definition all_covered sten extra (w : list (list hop)) : bool :=
  forallb (fun hs => forallb (covered sten extra) (prefixes (Site 0 0 0 0) hs)) w.

Lemma prefixes_stay g sten r L extra s hs d :
  valid_geom g -> 0 <= r < number_processors g -> initialize g sten (number_processors g) r = Ok L ->
  in_box g s -> owned_by g r s ->
  (forall e, In e extra -> in_arrays g L (site_add s e)) ->
  forallb (covered sten extra) (prefixes d hs) = true -> stays g L (site_add s d) hs.
Proof.
  intros Hg Hr HL Hs Ho Hx. revert d. induction hs as [|h hs IH]; intros d H;
    cbn [prefixes forallb] in H; rewrite andb_true_iff in H; destruct H as [H1 H2]; cbn [stays].
  all: assert (A : in_arrays g L (site_add s d)).
  1,3: unfold covered in H1; apply existsb_exists in H1 as (e & He & E); apply site_eqbP in E; subst e;
       destruct He as [<-|He]; [|apply in_app_or in He as [He|He]; [|now apply Hx]];
       [|exact (stencil_readable g sten r L Hg Hr HL s d Hs Ho He)];
       (replace (site_add s (Site 0 0 0 0)) with s by (destruct s; unfold site_add; cbn; f_equal; lia));
       apply (owned_local g sten r L Hg Hr HL s Hs) in Ho; pose proof (sizes_ordered g sten r L Hg Hr HL);
       unfold in_arrays; lia.
  - auto.
  - split; auto. rewrite site_add_assoc. now apply IH.
Qed.

Lemma covered_right g sten r L extra l w :
  valid_geom g -> 0 <= r < number_processors g -> initialize g sten (number_processors g) r = Ok L ->
  0 <= l < llocalsize L ->
  (forall s e, in_box g s -> owned_by g r s -> In e extra -> in_arrays g L (site_add s e)) ->
  all_covered sten extra w = true -> forall hs, In hs w -> reads_right g L l hs.
Proof.
  intros Hg Hr HL Hl Hx Hc hs Hw. pose proof (sizes_ordered g sten r L Hg Hr HL) as HS.
  destruct (coordinate_of g sten r L Hg Hr HL l ltac:(lia)) as (s & Ec & Hs & El).
  assert (Ho : owned_by g r s) by (apply (owned_local g sten r L Hg Hr HL); auto; lia).
  apply (walk_right g sten r L Hg Hr HL l s); auto; [lia|].
  replace s with (site_add s (Site 0 0 0 0)) by (destruct s; unfold site_add; cbn; f_equal; lia).
  apply (prefixes_stay g sten r L extra); auto. unfold all_covered in Hc. rewrite forallb_forall in Hc. now apply Hc.
Qed.

Ltac dirs mu nu := destruct mu as [|[|[|[|mu]]]]; [| | | |lia]; (destruct nu as [|[|[|[|nu]]]]; [| | | |lia]);
  try congruence; reflexivity.

(** ** C72 *)
Theorem C72_wilson_staple_reads (g : geom) (sten : list site) (r : Z) (L : layout) (l : Z) (mu nu : nat) :
  sten = standard_stencil \/ sten = extended_stencil ->
  valid_geom g -> 0 <= r < number_processors g -> initialize g sten (number_processors g) r = Ok L ->
  0 <= l < llocalsize L -> (mu < 4)%nat -> (nu < 4)%nat -> mu <> nu ->
  forall hs, In hs (wilson_reads mu nu) -> reads_right g L l hs.
Proof.
  intros Hsten Hg Hr HL Hl Hm Hn Hne. apply (covered_right g sten r L [] l); auto; [now intros s e _ _ []|].
  destruct Hsten; subst sten; clear HL; dirs mu nu.
Qed.

Theorem C72_improved_staple_reads (g : geom) (r : Z) (L : layout) (l : Z) (mu nu : nat) :
  valid_geom g -> 0 <= r < number_processors g -> initialize g extended_stencil (number_processors g) r = Ok L ->
  0 <= l < llocalsize L -> (mu < 4)%nat -> (nu < 4)%nat -> mu <> nu ->
  (2 <= local_extent g mu \/ 2 <= local_extent g nu \/ extent g mu <= 3 \/ extent g nu <= 3) ->
  forall hs, In hs (improved_reads mu nu) -> reads_right g L l hs.
Proof.
  intros Hg Hr HL Hl Hm Hn Hne Hc.
  apply (covered_right g extended_stencil r L [site_add (steps mu (-1)) (steps nu (-1))] l); auto.
  - intros s e Hs Ho [<-|[]]. pose proof (diagonal_readable g r L s mu nu Hg Hr HL Hs Ho Hm Hn ltac:(tauto)) as D.
    rewrite !steps_minus, site_add_assoc in D. exact D.
  - clear HL Hc. dirs mu nu.
Qed.
(** The remaining boxes: the walk fails for exactly one of the reads. *)
Theorem C72_improved_staple_thin_boxes_refuted (g : geom) (r : Z) (L : layout) (l : Z) (mu nu : nat) :
  valid_geom g -> 0 <= r < number_processors g -> initialize g extended_stencil (number_processors g) r = Ok L ->
  0 <= l < llocalsize L -> (mu < 4)%nat -> (nu < 4)%nat -> mu <> nu ->
  local_extent g mu = 1 -> local_extent g nu = 1 -> 4 <= extent g mu -> 4 <= extent g nu ->
  In [Dn mu; Dn nu] (improved_reads mu nu) /\ walk L l [Dn mu; Dn nu] = UB.
Proof.
  intros Hg Hr HL Hl Hm Hn Hne L1 L2 E1 E2. split; [cbn; tauto|].
  destruct (two_back_missing g r L l mu nu Hg Hr HL Hl Hm Hn Hne L1 L2 E1 E2) as (a & A & B).
  pose proof (sizes_ordered g _ r L Hg Hr HL) as HS.
  assert (R : readable L l = true) by (unfold readable; apply andb_true_intro; rewrite Z.leb_le, Z.ltb_lt; lia).
  cbn [walk]. unfold hop_from at 1. rewrite R, A. cbn [obind]. unfold hop_from. destruct (readable L a); [|reflexivity].
  rewrite B. cbn [obind]. unfold readable. reflexivity.
Qed.

Theorem C72_improved_energy_reads (g : geom) (r : Z) (L : layout) (l : Z) (mu nu : nat) :
  valid_geom g -> 0 <= r < number_processors g -> initialize g extended_stencil (number_processors g) r = Ok L ->
  0 <= l < llocalsize L -> (mu < 4)%nat -> (nu < 4)%nat -> mu <> nu ->
  forall hs, In hs (improved_energy_reads mu nu) -> reads_right g L l hs.
Proof.
  intros Hg Hr HL Hl Hm Hn Hne. apply (covered_right g extended_stencil r L [] l); auto; [now intros s e _ _ []|].
  clear HL; dirs mu nu.
Qed.

Theorem C72_hopping_reads (g : geom) (sten : list site) (r : Z) (L : layout) (l : Z) (mu : nat) :
  sten = reduced_stencil \/ sten = standard_stencil \/ sten = extended_stencil ->
  valid_geom g -> 0 <= r < number_processors g -> initialize g sten (number_processors g) r = Ok L ->
  0 <= l < llocalsize L -> (mu < 4)%nat ->
  forall hs, In hs (hopping_reads mu) -> reads_right g L l hs.
Proof.
  intros Hsten Hg Hr HL Hl Hm. apply (covered_right g sten r L [] l); auto; [now intros s e _ _ []|].
  destruct Hsten as [E|[E|E]]; subst sten; clear HL; (destruct mu as [|[|[|[|mu]]]]; [| | | |lia]); reflexivity.
Qed.

Example C72_case :
  match initialize (Geom 4 4 1 1 2 4 1 1) extended_stencil 8 5 with
  | Ok L => walk L 0 [Up 0%nat; Up 0%nat; Dn 1%nat] <> UB /\ walk L 0 [Dn 0%nat; Dn 1%nat] = Ok 3 | _ => False end /\
  match initialize (Geom 4 4 1 1 4 4 1 1) extended_stencil 16 5 with
  | Ok L => walk L 0 [Dn 0%nat; Dn 1%nat] = UB /\ walk L 0 [Dn 0%nat; Up 1%nat] <> UB | _ => False end.
Proof. vm_compute. repeat split; discriminate. Qed.
Print Assumptions C72_wilson_staple_reads.
Print Assumptions C72_improved_staple_reads.
Print Assumptions C72_improved_staple_thin_boxes_refuted.
Print Assumptions C72_improved_energy_reads.
Print Assumptions C72_hopping_reads.

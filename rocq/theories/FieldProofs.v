(** Proofs about boundary conditions and translations. *)
From Coq Require Import ZArith List Bool Lia String ZifyBool ZifyNat.
From Verif Require Import Base ListFacts LayoutModel LayoutSpec LayoutProofs LayoutFacts LayoutFacts2 LayoutMain FieldModel FieldSpec.
Import ListNotations.
Open Scope Z_scope.

Section Bc.
Variables (V : Type).
Variables (g : geom) (sten : list site) (r : Z) (L : layout).
Hypothesis Hg : valid_geom g.
Hypothesis Hr : 0 <= r < number_processors g.
Hypothesis HL : initialize g sten (number_processors g) r = Ok L.
Notation links := (links V).

(** A loop whose body changes only the links of its own site, link by link. *)
Lemma for_sites_spec (body : site -> Z -> links -> links) (h : site -> nat -> V -> V) :
  (forall s l f l' mu, body s l f l' mu = if l' =? l then h s mu (f l' mu) else f l' mu) ->
  forall ls f, NoDup ls -> (forall l, In l ls -> exists s, global_coordinate L l = Some s) ->
  exists f', for_sites V L ls body f = Ok f' /\
    forall l mu, (In l ls -> forall s, global_coordinate L l = Some s -> f' l mu = h s mu (f l mu)) /\
                 (~ In l ls -> f' l mu = f l mu).
Proof.
  intro Hb. induction ls as [|l ls IH]; intros f Hn Hc.
  - exists f. split; [reflexivity|]. split; [intros []|reflexivity].
  - inversion Hn as [|? ? Hl Hls]. subst. cbn [for_sites].
    destruct (Hc l (or_introl eq_refl)) as (s & Es). rewrite Es.
    destruct (IH (body s l f) Hls) as (f' & E & P); [intros; apply Hc; now right|].
    exists f'. split; [exact E|]. intros l' mu. destruct (P l' mu) as (P1 & P2). split.
    + intros [<-|Hi] s' Es'.
      * rewrite P2 by auto. rewrite Hb, Z.eqb_refl. congruence.
      * rewrite (P1 Hi s' Es'), Hb. destruct (Z.eqb_spec l' l); [congruence|reflexivity].
    + intros Hi. rewrite P2 by (intro; apply Hi; now right). rewrite Hb.
      destruct (Z.eqb_spec l' l) as [E'|]; [|reflexivity]. exfalso. apply Hi. now left.
Qed.

Lemma all_sites_spec (body : site -> Z -> links -> links) (h : site -> nat -> V -> V) :
  (forall s l f l' mu, body s l f l' mu = if l' =? l then h s mu (f l' mu) else f l' mu) ->
  forall f, exists f', for_sites V L (all_local L) body f = Ok f' /\
    (forall s mu, in_box g s -> keeps g sten r s -> f' (local_index L (gidx g s)) mu = h s mu (f (local_index L (gidx g s)) mu)) /\
    (forall l mu, ~ 0 <= l < lcompletesize L -> f' l mu = f l mu).
Proof.
  intros Hb f. unfold all_local.
  pose proof (sizes_ordered g sten r L Hg Hr HL) as HS.
  destruct (for_sites_spec body h Hb (zrange (lcompletesize L)) f) as (f' & E & P).
  - apply NoDup_zrange.
  - intros l Hl. apply in_zrange in Hl. destruct (coordinate_of g sten r L Hg Hr HL l Hl) as (s & Es & _). eauto.
  - exists f'. split; [exact E|]. split.
    + intros s mu Hs Hk.
      assert (K : 0 <= local_index L (gidx g s) < lcompletesize L).
      { destruct Hk as [Hk|Hk].
        - apply (owned_local g sten r L Hg Hr HL s Hs) in Hk. lia.
        - apply (mirrors_local g sten r L Hg Hr HL s Hs) in Hk. lia. }
      apply (P (local_index L (gidx g s)) mu); [now apply in_zrange|].
      now apply (coordinate_at g sten r L Hg Hr HL).
    + intros l mu Hl. apply (P l mu). intro K. apply in_zrange in K. lia.
Qed.

Variables (neg : V -> V) (zero : V).
Lemma set_link_spec f l mu v l' mu' : set_link V f l mu v l' mu' =
  if l' =? l then (if Nat.eqb mu' mu then v else f l' mu') else f l' mu'.
Proof. unfold set_link. destruct (l' =? l), (Nat.eqb mu' mu); reflexivity. Qed.

(** The change of one link by the two single-direction switches and the full one. *)
Definition flip (dirs : list nat) (s : site) (mu : nat) (v : V) : V :=
  if existsb (Nat.eqb mu) dirs && crosses g mu s then neg v else v.

Definition acts (sw : links -> outcome links) (h : site -> nat -> V -> V) : Prop :=
  forall f, exists f', sw f = Ok f' /\
    (forall s mu, in_box g s -> keeps g sten r s -> f' (local_index L (gidx g s)) mu = h s mu (f (local_index L (gidx g s)) mu)) /\
    (forall l mu, ~ 0 <= l < lcompletesize L -> f' l mu = f l mu).

Ltac site_body :=
  intros s l f0 l' mu; cbv beta zeta; rewrite (L_geom g sten r L Hg Hr HL);
  unfold flip, crosses; cbn [existsb].

Lemma set_link_1 (f : links) l mu (v : V) (b : bool) l' mu' :
  (if b then set_link V f l mu v else f) l' mu' =
  if l' =? l then (if Nat.eqb mu' mu && b then v else f l' mu') else f l' mu'.
Proof. destruct b; rewrite ?set_link_spec; destruct (l' =? l), (Nat.eqb mu' mu); reflexivity. Qed.

Lemma acts_antiperiodic : acts (switch_antiperiodic V neg L) (flip [3%nat]).
Proof using Hg Hr HL.
  intro f. apply all_sites_spec. site_body. rewrite set_link_1.
  destruct (Z.eqb_spec l' l) as [->|]; [|reflexivity].
  destruct (Nat.eqb_spec mu 3) as [->|]; [|reflexivity]. reflexivity.
Qed.
Lemma acts_spatial : acts (switch_spatial V neg L) (flip [2%nat]).
Proof using Hg Hr HL.
  intro f. apply all_sites_spec. site_body. rewrite set_link_1.
  destruct (Z.eqb_spec l' l) as [->|]; [|reflexivity].
  destruct (Nat.eqb_spec mu 2) as [->|]; [|reflexivity]. reflexivity.
Qed.
Lemma acts_full : acts (switch_full V neg L) (flip [0; 1; 2; 3]%nat).
Proof using Hg Hr HL.
  intro f. apply all_sites_spec. site_body. rewrite !set_link_1.
  destruct (Z.eqb_spec l' l) as [->|]; [|reflexivity].
  destruct mu as [|[|[|[|mu]]]]; cbn -[Z.eqb Z.sub]; rewrite ?Z.eqb_refl; try reflexivity.
Qed.
(** Open boundary conditions: on the last slice every link is removed, and the links leading to it as well. *)
Definition cut (s : site) (mu : nat) (v : V) : V :=
  if (Nat.ltb mu 4 && (st s =? gt g - 1)) || (Nat.eqb mu 3 && (st s =? gt g - 2)) then zero else v.
Lemma acts_open : acts (switch_open V zero L) cut.
Proof using Hg Hr HL.
  intro f. apply all_sites_spec. site_body. unfold cut. cbn [fold_left seq].
  destruct (st s =? gt g - 1) eqn:E1.
  - rewrite !set_link_spec. destruct (l' =? l); [|reflexivity].
    destruct mu as [|[|[|[|mu]]]]; cbn; try reflexivity.
  - rewrite andb_false_r. cbn [orb]. destruct (st s =? gt g - 2) eqn:E2.
    + rewrite set_link_spec. destruct (l' =? l); [|reflexivity]. now rewrite andb_true_r.
    + rewrite andb_false_r. now destruct (l' =? l).
Qed.
Lemma acts_id : acts (fun f => Ok f) (fun s mu v => v).
Proof. intro f. exists f. auto. Qed.
End Bc.

Lemma keeps_extension g sten r L V (f f' : Z -> nat -> V) : valid_geom g -> 0 <= r < number_processors g ->
  initialize g sten (number_processors g) r = Ok L ->
  (forall s mu, in_box g s -> keeps g sten r s -> f (local_index L (gidx g s)) mu = f' (local_index L (gidx g s)) mu) ->
  (forall l mu, ~ 0 <= l < lcompletesize L -> f l mu = f' l mu) -> forall l mu, f l mu = f' l mu.
Proof.
  intros Hg Hr HL H1 H2 l mu.
  assert (D : 0 <= l < lcompletesize L \/ ~ 0 <= l < lcompletesize L) by lia. destruct D as [D|D]; [|auto].
  destruct (coordinate_of g sten r L Hg Hr HL l D) as (s & _ & Hs & E). rewrite <- E. apply H1; [exact Hs|].
  rewrite <- E in D. unfold keeps.
  pose proof (owned_local g sten r L Hg Hr HL s Hs). pose proof (mirrors_local g sten r L Hg Hr HL s Hs).
  destruct (Z_lt_ge_dec (local_index L (gidx g s)) (llocalsize L)); [left; apply H; lia|right; apply H0; lia].
Qed.

Section Translate.
Variables (V : Type) (g : geom) (sten : list site) (Ls : Z -> layout).
Hypothesis Hg : valid_geom g.
Hypothesis HLs : forall r, 0 <= r < number_processors g -> initialize g sten (number_processors g) r = Ok (Ls r).
Hypothesis Hsten : forall mu, (mu < 4)%nat -> In (delta_plus mu) sten.
Notation family := (family V).

(** The fields of the ranks are the pieces of [F], halos included. *)
Definition represents (u : family) (F : site -> V) : Prop :=
  forall r s, 0 <= r < number_processors g -> in_box g s -> keeps g sten r s ->
    u r (local_index (Ls r) (gidx g s)) = Some (F s).
Definition represents_owned (u : family) (F : site -> V) : Prop :=
  forall r s, 0 <= r < number_processors g -> in_box g s -> owned_by g r s ->
    u r (local_index (Ls r) (gidx g s)) = Some (F s).

Lemma owner_exists s : in_box g s -> 0 <= rank_table g s < number_processors g /\ owned_by g (rank_table g s) s.
Proof.
  intros Hs. assert (Ho : owned_by g (rank_table g s) s).
  { apply proc_at_owned; [exact Hg|exact Hs|]. unfold proc_at. rewrite site_at_gidx by now apply valid_pos.
    now rewrite wrap_id. }
  split; [|exact Ho]. now apply (owned_range g (rank_table g s) s Hg).
Qed.

Lemma halo_update_represents u F : represents_owned u F -> represents (halo_update V Ls u) F.
Proof.
  intros H r s Hr Hs Hk. unfold halo_update.
  pose proof (owned_local g sten r (Ls r) Hg Hr (HLs r Hr) s Hs) as O.
  pose proof (mirrors_local g sten r (Ls r) Hg Hr (HLs r Hr) s Hs) as M.
  destruct Hk as [Hk|Hk].
  - apply O in Hk as Hk'. destruct (Z.leb_spec (llocalsize (Ls r)) (local_index (Ls r) (gidx g s))); [lia|].
    cbn [andb]. apply H; auto.
  - apply M in Hk as Hk'. destruct (Z.leb_spec (llocalsize (Ls r)) (local_index (Ls r) (gidx g s))); [|lia].
    destruct (Z.ltb_spec (local_index (Ls r) (gidx g s)) (lcompletesize (Ls r))); [|lia]. cbn [andb].
    pose proof (sizes_ordered g sten r (Ls r) Hg Hr (HLs r Hr)) as HS.
    rewrite (coordinate_at g sten r (Ls r) Hg Hr (HLs r Hr) s Hs) by lia.
    rewrite (L_geom g sten r (Ls r) Hg Hr (HLs r Hr)). cbv zeta.
    destruct (owner_exists s Hs) as (Ho & Ho'). now apply H.
Qed.

Lemma shift_represents mu u t F : (mu < 4)%nat -> represents u F ->
  represents (snd (shift_step V Ls mu (u, t))) (fun s => F (wrap g (site_add s (steps mu 1)))).
Proof.
  intros Hmu H. unfold shift_step. cbn [snd]. apply halo_update_represents.
  intros r s Hr Hs Ho. unfold shift_rank.
  pose proof (HLs r Hr) as HL.
  apply (owned_local g sten r (Ls r) Hg Hr HL s Hs) in Ho as Ho'.
  pose proof (sizes_ordered g sten r (Ls r) Hg Hr HL) as HS.
  destruct (Z.leb_spec 0 (local_index (Ls r) (gidx g s))); [|lia].
  destruct (Z.ltb_spec (local_index (Ls r) (gidx g s)) (llocalsize (Ls r))); [|lia]. cbn [andb].
  rewrite (sup_spec g sten r (Ls r) Hg Hr HL s mu Hs) by lia.
  assert (E : delta_plus mu = steps mu 1). { destruct mu as [|[|[|[|]]]]; try lia; reflexivity. }
  pose proof (stencil_readable g sten r (Ls r) Hg Hr HL s (delta_plus mu) Hs Ho (Hsten mu Hmu)) as K.
  destruct (Z.leb_spec 0 (local_index (Ls r) (gidx g (site_add s (delta_plus mu))))); [|lia].
  destruct (Z.ltb_spec (local_index (Ls r) (gidx g (site_add s (delta_plus mu)))) (lcompletesize (Ls r))); [|lia].
  cbn [andb]. rewrite E in *.
  pose proof (valid_pos g Hg) as Hp.
  set (s' := site_add s (steps mu 1)) in *.
  assert (Hb : in_box g (wrap g s')). { destruct Hp as (? & ? & ? & ?). repeat split; cbn; apply Z.mod_pos_bound; auto. }
  assert (E2 : gidx g s' = gidx g (wrap g s')).
  { rewrite <- (site_at_gidx g s' Hp). rewrite gidx_site_at; auto. now apply gidx_range. }
  rewrite E2 in *. apply H; auto.
  unfold keeps.
  pose proof (owned_local g sten r (Ls r) Hg Hr HL (wrap g s') Hb) as O.
  pose proof (mirrors_local g sten r (Ls r) Hg Hr HL (wrap g s') Hb) as M.
  destruct (Z_lt_ge_dec (local_index (Ls r) (gidx g (wrap g s'))) (llocalsize (Ls r))); [left; apply O; lia|right; apply M; lia].
Qed.

Lemma represents_ext u F G : (forall s, in_box g s -> F s = G s) -> represents u F -> represents u G.
Proof. intros E H r s Hr Hs Hk. rewrite <- E by exact Hs. now apply H. Qed.

Lemma wrap_wrap_add a b : wrap g (site_add (wrap g a) b) = wrap g (site_add a b).
Proof.
  destruct a as [ax ay az at_], b as [bx b_y bz bt]. unfold wrap, site_add. cbn [sx sy sz st].
  now rewrite !Zplus_mod_idemp_l.
Qed.

Lemma shift_iter mu n u t F : (mu < 4)%nat -> represents u F ->
  represents (fst (Nat.iter n (shift_step V Ls mu) (u, t))) (fun s => F (wrap g (site_add s (steps mu (Z.of_nat n))))).
Proof.
  intros Hmu H. induction n as [|n IH].
  - cbn [Nat.iter fst]. apply (represents_ext u F); [|exact H]. intros s Hs.
    f_equal. replace (site_add s (steps mu (Z.of_nat 0))) with s; [symmetry; now apply wrap_id|].
    destruct s as [x y z t']. destruct mu as [|[|[|]]]; unfold site_add, steps; cbn; f_equal; lia.
  - change (Nat.iter (S n) (shift_step V Ls mu) (u, t)) with (shift_step V Ls mu (Nat.iter n (shift_step V Ls mu) (u, t))).
    destruct (Nat.iter n (shift_step V Ls mu) (u, t)) as [u' t'] eqn:E. cbn [fst] in IH.
    pose proof (shift_represents mu u' t' _ Hmu IH) as K.
    assert (E' : fst (shift_step V Ls mu (u', t')) = snd (shift_step V Ls mu (u', t'))) by reflexivity.
    rewrite E'. revert K. apply represents_ext. intros s Hs. rewrite wrap_wrap_add. f_equal. f_equal.
    destruct s as [x y z w]. destruct mu as [|[|[|]]]; unfold site_add, steps; cbn [sx sy sz st]; f_equal; lia.
Qed.

Lemma shift_loop_represents mu d u t F : (mu < 4)%nat -> represents u F ->
  represents (fst (shift_loop V Ls d mu (u, t))) (fun s => F (wrap g (site_add s (steps mu (Z.max 0 d))))).
Proof.
  intros Hmu H. unfold shift_loop. replace (Z.max 0 d) with (Z.of_nat (Z.to_nat d)) by lia. now apply shift_iter.
Qed.
Lemma shift_loop_sync mu d a : 0 < d \/ fst a = snd a -> fst (shift_loop V Ls d mu a) = snd (shift_loop V Ls d mu a).
Proof.
  intros H. unfold shift_loop. destruct (Z.to_nat d) as [|n] eqn:E.
  - destruct H as [H|H]; [lia|exact H].
  - change (Nat.iter (S n) (shift_step V Ls mu) a) with (shift_step V Ls mu (Nat.iter n (shift_step V Ls mu) a)).
    destruct (Nat.iter n (shift_step V Ls mu) a) as [u t]. reflexivity.
Qed.
Lemma shift_loop_represents' mu d a F : (mu < 4)%nat -> represents (fst a) F ->
  represents (fst (shift_loop V Ls d mu a)) (fun s => F (wrap g (site_add s (steps mu (Z.max 0 d))))).
Proof. destruct a. apply shift_loop_represents. Qed.

(** What the function computes in every case in which it writes its result. *)
Lemma translate_general u t F dx dy dz dt : represents u F -> (0 < dx \/ 0 < dy \/ 0 < dz \/ 0 < dt) ->
  represents (translate V Ls u t dx dy dz dt)
    (fun s => F (wrap g (site_add s (Site (Z.max 0 dx) (Z.max 0 dy) (Z.max 0 dz) (Z.max 0 dt))))).
Proof.
  intros H Hd. unfold translate.
  destruct ((dx =? 0) && (dy =? 0) && (dz =? 0) && (dt =? 0)) eqn:E.
  { exfalso. lia. }
  set (a0 := (u, t)). set (a1 := shift_loop V Ls dx 0 a0). set (a2 := shift_loop V Ls dy 1 a1).
  set (a3 := shift_loop V Ls dz 2 a2). set (a4 := shift_loop V Ls dt 3 a3).
  assert (Hs : fst a4 = snd a4).
  { apply shift_loop_sync. destruct Hd as [Hd|[Hd|[Hd|Hd]]]; [right|right|right|left; exact Hd].
    - apply shift_loop_sync. right. apply shift_loop_sync. right. apply shift_loop_sync. now left.
    - apply shift_loop_sync. right. apply shift_loop_sync. now left.
    - apply shift_loop_sync. now left. }
  rewrite <- Hs.
  assert (H1 : represents (fst a1) (fun s => F (wrap g (site_add s (steps 0 (Z.max 0 dx)))))).
  { apply shift_loop_represents'; [lia|exact H]. }
  assert (H2 := shift_loop_represents' 1 dy a1 _ ltac:(lia) H1).
  assert (H3 := shift_loop_represents' 2 dz a2 _ ltac:(lia) H2).
  assert (H4 := shift_loop_represents' 3 dt a3 _ ltac:(lia) H3).
  revert H4. apply represents_ext. intros s _. cbv beta.
  rewrite wrap_wrap_add, site_add_assoc, wrap_wrap_add, site_add_assoc, wrap_wrap_add. f_equal. f_equal.
  destruct s as [x y z w]. unfold site_add, steps. cbn [sx sy sz st]. f_equal; lia.
Qed.
Lemma translate_nonneg u t F dx dy dz dt : represents u F -> 0 <= dx -> 0 <= dy -> 0 <= dz -> 0 <= dt ->
  represents (translate V Ls u t dx dy dz dt) (fun s => F (wrap g (site_add s (Site dx dy dz dt)))).
Proof.
  intros H H1 H2 H3 H4.
  assert (D : (0 < dx \/ 0 < dy \/ 0 < dz \/ 0 < dt) \/ (dx = 0 /\ dy = 0 /\ dz = 0 /\ dt = 0)) by lia.
  destruct D as [D|(-> & -> & -> & ->)].
  - pose proof (translate_general u t F dx dy dz dt H D) as K. now rewrite !Z.max_r in K by assumption.
  - unfold translate. cbn [Z.eqb andb]. apply (represents_ext u F); [|exact H]. intros s Hs.
    f_equal. replace (site_add s (Site 0 0 0 0)) with s; [symmetry; now apply wrap_id|].
    destruct s. unfold site_add. cbn. f_equal; lia.
Qed.
End Translate.
Lemma shift_loop_none V Ls mu d a : d <= 0 -> shift_loop V Ls d mu a = a.
Proof. intros H. unfold shift_loop. now replace (Z.to_nat d) with 0%nat by lia. Qed.
Lemma translate_negative V Ls (u t : family V) dx dy dz dt : dx <= 0 -> dy <= 0 -> dz <= 0 -> dt <= 0 ->
  ~ (dx = 0 /\ dy = 0 /\ dz = 0 /\ dt = 0) -> translate V Ls u t dx dy dz dt = t.
Proof.
  intros. unfold translate. destruct ((dx =? 0) && (dy =? 0) && (dz =? 0) && (dt =? 0)) eqn:E; [lia|].
  rewrite !shift_loop_none by assumption. reflexivity.
Qed.

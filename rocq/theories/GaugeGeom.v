(** The neighbour tables of MPILayout.h (LayoutModel.global_sup, global_down) give a lattice in the sense of
    GaugeModel.v, with the distinctness properties that follow from the extents. *)
From Coq Require Import ZArith List Lia.
From mathcomp Require Import all_ssreflect.
From Verif Require Import Base LayoutModel LayoutSpec LayoutProofs LayoutFacts LayoutFacts2 LayoutMain ColourProofs.
From Verif Require Import GaugeModel GaugeSpec.
Set Implicit Arguments.
Unset Strict Implicit.
Unset Printing Implicit Defensive.
Local Open Scope Z_scope.

Lemma gup_range g i mu : positive_extents g -> 0 <= global_sup g i mu < global_volume g.
Proof. intros; apply gidx_range; assumption. Qed.
Lemma gdown_range g i mu : positive_extents g -> 0 <= global_down g i mu < global_volume g.
Proof. intros; apply gidx_range; assumption. Qed.

Lemma mv_eq g i d e mu : positive_extents g -> mv g i d = mv g i e -> (mu < 4)%coq_nat ->
  (extent g mu | comp d mu - comp e mu).
Proof.
intros Hg E Hmu. destruct (numbering_bijection g Hg) as (_ & H & _).
assert (S : same_image g (site_add (site_at g i) d) (site_add (site_at g i) e)).
{ apply H. unfold mv, gidx in E. 
  destruct (numbering_bijection g Hg) as (T & _ & _).
  destruct (T (site_add (site_at g i) d)) as (a & Ea & _). destruct (T (site_add (site_at g i) e)) as (b & Eb & _).
  rewrite Ea Eb in E |- *. cbn in E. now rewrite E. }
destruct S as (S0 & S1 & S2 & S3).
destruct mu as [|[|[|[|mu]]]]; [| | | |lia]; cbn in *.
- replace (sx d - sx e) with (sx (site_at g i) + sx d - (sx (site_at g i) + sx e)) by lia. exact S0.
- replace (sy d - sy e) with (sy (site_at g i) + sy d - (sy (site_at g i) + sy e)) by lia. exact S1.
- replace (sz d - sz e) with (sz (site_at g i) + sz d - (sz (site_at g i) + sz e)) by lia. exact S2.
- replace (st d - st e) with (st (site_at g i) + st d - (st (site_at g i) + st e)) by lia. exact S3.
Qed.
Lemma comp_steps_same mu k : (mu < 4)%coq_nat -> comp (steps mu k) mu = k.
Proof. intros H. destruct mu as [|[|[|[|mu]]]]; cbn; auto; lia. Qed.
Lemma comp_steps_other mu nu k : (mu < 4)%coq_nat -> (nu < 4)%coq_nat -> mu <> nu -> comp (steps mu k) nu = 0.
Proof.
intros H H' ne. destruct mu as [|[|[|[|mu]]]], nu as [|[|[|[|nu]]]]; cbn; auto; try lia.
Qed.
Lemma comp_add' d e mu : comp (site_add d e) mu = comp d mu + comp e mu.
Proof. destruct mu as [|[|[|mu]]]; reflexivity. Qed.
Lemma self_mv g i mu : positive_extents g -> 0 <= i < global_volume g -> i = mv g i (steps mu 0).
Proof.
intros Hg Hi. unfold mv. assert (E : site_add (site_at g i) (steps mu 0) = site_at g i).
{ destruct (site_at g i). destruct mu as [|[|[|mu]]]; unfold site_add; cbn; f_equal; lia. }
rewrite E. symmetry. now apply gidx_site_at.
Qed.
Lemma no_div e k : 0 < k < e -> ~ (e | k).
Proof. intros H (q & Hq). destruct (Z.eq_dec q 0); [subst; lia|]. nia. Qed.

Lemma gup_neq g i mu : positive_extents g -> 0 <= i < global_volume g -> (mu < 4)%coq_nat -> 2 <= extent g mu ->
  global_sup g i mu <> i.
Proof.
intros Hg Hi Hmu He E. rewrite mv_sup (self_mv mu Hg Hi) mv_mv in E; [|exact Hg].
apply (mv_eq (mu := mu) Hg) in E; [|exact Hmu]. rewrite comp_add' !comp_steps_same in E; auto.
apply (no_div (e := extent g mu) (k := 1)) in E; lia.
Qed.
Lemma gup2_neq g i mu : positive_extents g -> 0 <= i < global_volume g -> (mu < 4)%coq_nat -> 3 <= extent g mu ->
  global_sup g (global_sup g i mu) mu <> i.
Proof.
intros Hg Hi Hmu He E. rewrite !mv_sup mv_mv in E; [|exact Hg].
rewrite [X in _ = X](self_mv mu Hg Hi) in E.
apply (mv_eq (mu := mu) Hg) in E; [|exact Hmu]. rewrite comp_add' !comp_steps_same in E; auto.
apply (no_div (e := extent g mu) (k := 2)) in E; lia.
Qed.
Lemma gup_mixed g i mu nu : positive_extents g -> 0 <= i < global_volume g -> (mu < 4)%coq_nat -> (nu < 4)%coq_nat -> mu <> nu ->
  2 <= extent g mu -> global_sup g i mu <> global_sup g i nu /\ global_sup g (global_sup g i nu) mu <> i.
Proof.
intros Hg Hi Hmu Hnu ne He. split; intros E.
- rewrite !mv_sup in E. apply (mv_eq (mu := mu) Hg) in E; [|exact Hmu].
  rewrite comp_steps_same in E; auto. rewrite comp_steps_other in E; auto.
  apply (no_div (e := extent g mu) (k := 1)) in E; lia.
- rewrite !mv_sup mv_mv in E; [|exact Hg]. rewrite [X in _ = X](self_mv mu Hg Hi) in E.
  apply (mv_eq (mu := mu) Hg) in E; [|exact Hmu]. rewrite comp_add' !comp_steps_same in E; auto.
  rewrite comp_steps_other in E; auto. apply (no_div (e := extent g mu) (k := 1)) in E; lia.
Qed.

(** The lattice: sites are the global indices. *)
Section Geom.
Variable g : geom.
Hypothesis Hg : positive_extents g.
Definition vol : nat := Z.to_nat (global_volume g).
Lemma in_vol z : 0 <= z < global_volume g -> leq (S (Z.to_nat z)) vol.
Proof. intros H. apply/ltP. unfold vol. lia. Qed.
Lemma of_vol (x : 'I_vol) : 0 <= Z.of_nat x < global_volume g.
Proof.
have H : (nat_of_ord x < Z.to_nat (global_volume g))%coq_nat by apply/ltP; exact: ltn_ord.
split; [lia|]. apply Nat2Z.inj_lt in H. destruct (Z.le_gt_cases 0 (global_volume g)).
- rewrite Z2Nat.id in H; lia.
- rewrite (Z2Nat.inj_neg) in H || idtac. destruct (global_volume g); cbn in *; lia.
Qed.
Definition geom_sup (mu : 'I_4) (x : 'I_vol) : 'I_vol := Ordinal (in_vol (gup_range (Z.of_nat x) mu Hg)).
Definition geom_sdn (mu : 'I_4) (x : 'I_vol) : 'I_vol := Ordinal (in_vol (gdown_range (Z.of_nat x) mu Hg)).
Lemma geom_supE mu x : Z.of_nat (geom_sup mu x) = global_sup g (Z.of_nat x) mu.
Proof. cbn. rewrite Z2Nat.id; [reflexivity|]. apply (gup_range (Z.of_nat x) mu Hg). Qed.
Lemma geom_sdnE mu x : Z.of_nat (geom_sdn mu x) = global_down g (Z.of_nat x) mu.
Proof. cbn. rewrite Z2Nat.id; [reflexivity|]. apply (gdown_range (Z.of_nat x) mu Hg). Qed.
Lemma ord_Z (x y : 'I_vol) : Z.of_nat x = Z.of_nat y -> x = y.
Proof. intros E. apply: val_inj. exact (Nat2Z.inj _ _ E). Qed.
Lemma geom_supK mu : cancel (geom_sup mu) (geom_sdn mu).
Proof. intros x. apply ord_Z. rewrite geom_sdnE geom_supE. apply down_sup; [exact Hg|apply of_vol]. Qed.
Lemma geom_sdnK mu : cancel (geom_sdn mu) (geom_sup mu).
Proof. intros x. apply ord_Z. rewrite geom_supE geom_sdnE. apply sup_down; [exact Hg|apply of_vol]. Qed.
Lemma geom_supC mu nu x : geom_sup mu (geom_sup nu x) = geom_sup nu (geom_sup mu x).
Proof.
apply ord_Z. rewrite !geom_supE.
destruct (neighbours g (Z.of_nat x) Hg (of_vol x)) as (_ & _ & H & _).
destruct (H nu mu) as (H1 & _). exact H1.
Qed.
Definition geom_lattice : lattice := Lattice geom_supK geom_sdnK geom_supC.

Lemma ord4 (mu : 'I_4) : (mu < 4)%coq_nat.
Proof. apply/ltP. exact: ltn_ord. Qed.
Lemma geom_extent2 : (forall mu, (mu < 4)%coq_nat -> 2 <= extent g mu) -> extent2 geom_lattice.
Proof.
intros H mu x E. apply (f_equal (fun y : 'I_vol => Z.of_nat y)) in E. change (sup mu x) with (geom_sup mu x) in E.
rewrite geom_supE in E. revert E. apply gup_neq; [exact Hg|apply of_vol|apply ord4|apply H, ord4].
Qed.
Lemma geom_extent3 : (forall mu, (mu < 4)%coq_nat -> 3 <= extent g mu) -> extent3 geom_lattice.
Proof.
intros H. split; [|split].
- apply geom_extent2. intros mu Hmu. specialize (H mu Hmu). lia.
- intros mu x E. apply (f_equal (fun y : 'I_vol => Z.of_nat y)) in E. change (sup mu (sup mu x)) with (geom_sup mu (geom_sup mu x)) in E.
  rewrite !geom_supE in E. revert E. apply gup2_neq; [exact Hg|apply of_vol|apply ord4|apply H, ord4].
- intros mu nu x ne. assert (ne' : (mu : nat) <> nu) by (intros E; apply ne; apply: val_inj; exact E).
  destruct (gup_mixed (g := g) (i := Z.of_nat x) Hg (of_vol x) (ord4 mu) (ord4 nu) ne') as (H1 & H2).
  { specialize (H mu (ord4 mu)). lia. }
  split; intros E; apply (f_equal (fun y : 'I_vol => Z.of_nat y)) in E.
  + apply H1. change (sup mu x) with (geom_sup mu x) in E. change (sup nu x) with (geom_sup nu x) in E. now rewrite !geom_supE in E.
  + apply H2. change (sup mu (sup nu x)) with (geom_sup mu (geom_sup nu x)) in E. now rewrite !geom_supE in E.
Qed.
End Geom.

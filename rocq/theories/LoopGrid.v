(** The coordinates of MPILayout.h and of the abstract box satisfy the laws of [grid]. *)
From Coq Require Import ZArith List Lia.
Close Scope N_scope.
From mathcomp Require Import all_ssreflect.
From Verif Require Import Base LayoutModel LayoutSpec LayoutProofs LayoutFacts LayoutFacts2 LayoutMain ColourProofs.
From Verif Require Import GaugeModel GaugeSpec GaugeProofs3 GaugeGeom LoopModel.
Set Implicit Arguments.
Unset Strict Implicit.
Unset Printing Implicit Defensive.

Section Box.
Variables a b c d : nat.
Definition box_ext (mu : 'I_4) : nat :=
  match nat_of_ord mu with 0 => a.+1 | 1 => b.+1 | 2 => c.+1 | _ => d.+1 end%nat.
Definition box_coord (x : box a b c d) (mu : 'I_4) : nat :=
  let: (x0, x1, x2, x3) := x in match nat_of_ord mu with 0 => x0 | 1 => x1 | 2 => x2 | _ => x3 end%nat.
Lemma box_coord_lt x mu : (leq (S (box_coord x mu)) (box_ext mu)).
Proof. by case: x => [[[x0 x1] x2] x3]; rewrite /box_coord /box_ext; case: mu => [[|[|[|m]]] h] /=. Qed.
Lemma box_coord_up (x : box a b c d) mu : box_coord (GaugeModel.sup mu x) mu = modn (S (box_coord x mu)) (box_ext mu).
Proof.
case: x => [[[x0 x1] x2] x3]; rewrite /= /box_coord /box_ext /box_sup /box_move.
by case: mu => [[|[|[|m]]] h] /=; rewrite /cyc_up inordK ?ltn_pmod.
Qed.
Lemma box_coord_other (x : box a b c d) mu nu : nu != mu -> box_coord (GaugeModel.sup mu x) nu = box_coord x nu.
Proof.
case: x => [[[x0 x1] x2] x3]; rewrite /= /box_coord /box_sup /box_move -(eqtype.inj_eq val_inj).
by case: mu => [[|[|[|[|m]]]] h] //; case: nu => [[|[|[|[|k]]]] h'].
Qed.
Lemma box_coord_inj x y : (forall mu, box_coord x mu = box_coord y mu) -> x = y.
Proof.
case: x y => [[[x0 x1] x2] x3] [[[y0 y1] y2] y3] H; have := H (inord 3); have := H (inord 2); have := H (inord 1); have := H (inord 0).
by rewrite /box_coord !inordK // => /val_inj -> /val_inj -> /val_inj -> /val_inj ->.
Qed.
Lemma box_card : #|box a b c d| = muln (muln (muln (box_ext (inord 0)) (box_ext (inord 1))) (box_ext (inord 2))) (box_ext (inord 3)).
Proof. by rewrite /box /= !card_prod !card_ord /box_ext !inordK. Qed.
Definition box_grid : grid := Grid box_coord_lt box_coord_up box_coord_other box_coord_inj box_card.
End Box.

Section Geom.
Variable g : geom.
Hypothesis Hg : positive_extents g.
Local Open Scope Z_scope.
Definition geom_ext (mu : 'I_4) : nat := Z.to_nat (extent g mu).
Definition geom_coord (x : geom_lattice Hg) (mu : 'I_4) : nat := Z.to_nat (comp (site_at g (Z.of_nat (nat_of_ord x))) mu).
Lemma ext_pos mu : 0 < extent g mu.
Proof. destruct Hg as (? & ? & ? & ?). destruct mu as [|[|[|mu]]]; cbn; auto. Qed.
Lemma box_comp s mu : in_box g s -> 0 <= comp s mu < extent g mu.
Proof. intros (? & ? & ? & ?). destruct mu as [|[|[|mu]]]; cbn; auto. Qed.
Lemma comp_wrap s mu : comp (wrap g s) mu = comp s mu mod extent g mu.
Proof. destruct mu as [|[|[|mu]]]; reflexivity. Qed.
Lemma geom_coord_lt x mu : leq (S (geom_coord x mu)) (geom_ext mu).
Proof.
apply/ltP. unfold geom_coord, geom_ext.
pose proof (box_comp mu (site_at_in_box g _ Hg (of_vol x))). lia.
Qed.
Lemma geom_coord_sup x mu nu :
  comp (site_at g (Z.of_nat (nat_of_ord (GaugeModel.sup mu x : geom_lattice Hg)))) nu
  = (comp (site_at g (Z.of_nat (nat_of_ord x))) nu + comp (steps mu 1) nu) mod extent g nu.
Proof.
change (GaugeModel.sup mu x) with (geom_sup Hg mu x). rewrite geom_supE /global_sup -steps_plus.
rewrite site_at_gidx; [|exact Hg]. rewrite comp_wrap comp_add'. reflexivity.
Qed.
Lemma geom_coord_up (x : geom_lattice Hg) mu : geom_coord (GaugeModel.sup mu x) mu = modn (S (geom_coord x mu)) (geom_ext mu).
Proof.
unfold geom_coord at 1. rewrite geom_coord_sup (comp_steps_same (mu := mu)); [|exact (ord4 mu)].
pose proof (box_comp mu (site_at_in_box g _ Hg (of_vol x))) as H.
unfold geom_coord, geom_ext. set (k := comp _ _) in *. clearbody k.
destruct (Z.eq_dec (k + 1) (extent g mu)) as [E|E].
- rewrite E Z_mod_same_full. rewrite (_ : S (Z.to_nat k) = Z.to_nat (extent g mu)); [by rewrite modnn|lia].
- rewrite Z.mod_small; [|lia]. rewrite modn_small; [lia|]. apply/ltP. lia.
Qed.
Lemma geom_coord_other (x : geom_lattice Hg) mu nu : nu != mu -> geom_coord (GaugeModel.sup mu x) nu = geom_coord x nu.
Proof.
move=> ne. unfold geom_coord. rewrite geom_coord_sup (comp_steps_other (mu := mu) (nu := nu)).
- pose proof (box_comp nu (site_at_in_box g _ Hg (of_vol x))) as H. rewrite Z.add_0_r Z.mod_small; [reflexivity|exact H].
- exact (ord4 mu).
- exact (ord4 nu).
- move=> E. by move/eqP: ne; apply; apply: val_inj.
Qed.
Lemma geom_coord_inj x y : (forall mu, geom_coord x mu = geom_coord y mu) -> x = y.
Proof.
intros H. apply ord_Z. rewrite -(gidx_site_at g _ Hg (of_vol x)) -(gidx_site_at g _ Hg (of_vol y)). f_equal.
assert (K : forall mu : 'I_4, comp (site_at g (Z.of_nat (nat_of_ord x))) mu = comp (site_at g (Z.of_nat (nat_of_ord y))) mu).
{ intros mu. specialize (H mu). unfold geom_coord in H.
  pose proof (box_comp mu (site_at_in_box g _ Hg (of_vol x))).
  pose proof (box_comp mu (site_at_in_box g _ Hg (of_vol y))). lia. }
pose proof (K (inord 0)) as K0. pose proof (K (inord 1)) as K1. pose proof (K (inord 2)) as K2. pose proof (K (inord 3)) as K3.
rewrite !inordK in K0 K1 K2 K3 => //. cbn in K0, K1, K2, K3.
destruct (site_at g (Z.of_nat x)), (site_at g (Z.of_nat y)). cbn in *. congruence.
Qed.
Lemma geom_card : #|geom_lattice Hg| = muln (muln (muln (geom_ext (inord 0)) (geom_ext (inord 1))) (geom_ext (inord 2))) (geom_ext (inord 3)).
Proof.
rewrite /= card_ord /vol /geom_ext !inordK // /extent /global_volume. destruct Hg as (? & ? & ? & ?).
rewrite !Z2Nat.inj_mul //; try lia; nia.
Qed.
Definition geom_grid : grid := Grid geom_coord_lt geom_coord_up geom_coord_other geom_coord_inj geom_card.
End Geom.

(** The real numbers of the standard library as a MathComp real closed field, hence complex numbers over them as an
    instance of the abstract complex numbers used by the gauge files, with the true exponential function. *)
From Coq Require Import Reals Lra ClassicalEpsilon FunctionalExtensionality.
From mathcomp Require Import all_ssreflect all_algebra.
From mathcomp Require Import complex.
Set Implicit Arguments.
Unset Strict Implicit.
Unset Printing Implicit Defensive.

Section Structures.
Definition eqRb (x y : R) : bool := if Req_EM_T x y then true else false.
Lemma eqRP : Equality.axiom eqRb.
Proof. by move=> x y; rewrite /eqRb; case: Req_EM_T => h; constructor. Qed.
Definition R_find (P : pred R) (k : nat) : option R :=
  match excluded_middle_informative (exists x, P x) with
  | left h => Some (proj1_sig (constructive_indefinite_description _ h))
  | right _ => None
  end.
Lemma R_find1 P k x : R_find P k = Some x -> P x.
Proof. by rewrite /R_find; case: excluded_middle_informative => // h [<-]; case: constructive_indefinite_description. Qed.
Lemma R_find2 (P : pred R) : (exists x, P x) -> exists k, R_find P k.
Proof. by move=> h; exists 0%nat; rewrite /R_find; case: excluded_middle_informative. Qed.
Lemma R_find3 (P Q : pred R) : P =1 Q -> R_find P =1 R_find Q.
Proof. by move=> h k; have -> : P = Q by apply: functional_extensionality. Qed.
End Structures.
Canonical R_eqType := EqType R (EqMixin eqRP).
Definition R_choiceMixin := Choice.Mixin R_find1 R_find2 R_find3.
Canonical R_choiceType := ChoiceType R R_choiceMixin.
Lemma RplusA : associative Rplus. Proof. by move=> x y z; rewrite Rplus_assoc. Qed.
Definition R_zmodMixin := ZmodMixin RplusA Rplus_comm Rplus_0_l Rplus_opp_l.
Canonical R_zmodType := ZmodType R R_zmodMixin.
Lemma RmultA : associative Rmult. Proof. by move=> x y z; rewrite Rmult_assoc. Qed.
Lemma RmultDl : left_distributive Rmult Rplus. Proof. by move=> x y z; rewrite Rmult_plus_distr_r. Qed.
Lemma R1_neq0 : R1 != R0. Proof. by apply/eqP; lra. Qed.
Definition R_ringMixin := ComRingMixin RmultA Rmult_comm Rmult_1_l RmultDl R1_neq0.
Canonical R_ringType := RingType R R_ringMixin.
Canonical R_comRingType := ComRingType R Rmult_comm.
Definition Rinvx (x : R) : R := if x == R0 then R0 else Rinv x.
Lemma RmulV (x : R) : x != R0 -> Rmult (Rinvx x) x = R1.
Proof. by move=> h; rewrite /Rinvx (negPf h) Rinv_l //; apply/eqP. Qed.
Lemma RinvR0 : Rinvx R0 = R0. Proof. by rewrite /Rinvx eqxx. Qed.
Definition R_unitMixin := FieldUnitMixin RmulV RinvR0.
Canonical R_unitRingType := UnitRingType R R_unitMixin.
Canonical R_comUnitRingType := [comUnitRingType of R].
Lemma R_field : GRing.Field.mixin_of R_unitRingType. Proof. by []. Qed.
Canonical R_idomainType := IdomainType R (FieldIdomainMixin R_field).
Canonical R_fieldType := FieldType R R_field.

Definition leRb (x y : R) : bool := if Rle_dec x y then true else false.
Definition ltRb (x y : R) : bool := if Rlt_dec x y then true else false.
Lemma leRP x y : reflect (Rle x y) (leRb x y).
Proof. by rewrite /leRb; case: Rle_dec => h; constructor. Qed.
Lemma ltRP x y : reflect (Rlt x y) (ltRb x y).
Proof. by rewrite /ltRb; case: Rlt_dec => h; constructor. Qed.
Local Open Scope R_scope.
Lemma le0_add x y : leRb 0 x -> leRb 0 y -> leRb 0 (x + y).
Proof. by move=> /leRP a /leRP b; apply/leRP; lra. Qed.
Lemma le0_mul x y : leRb 0 x -> leRb 0 y -> leRb 0 (x * y).
Proof. by move=> /leRP a /leRP b; apply/leRP; apply: Rmult_le_pos. Qed.
Lemma le0_anti x : leRb 0 x -> leRb x 0 -> x = 0.
Proof. by move=> /leRP a /leRP b; lra. Qed.
Lemma sub_ge0R x y : leRb 0 (y + - x) = leRb x y.
Proof. by apply/leRP/leRP; lra. Qed.
Lemma le0_total x : leRb 0 x || leRb x 0.
Proof. by apply/orP; case: (Rle_dec 0 x) => h; [left|right]; apply/leRP; lra. Qed.
Lemma R_lt_def x y : ltRb x y = (y != x) && leRb x y.
Proof.
apply/ltRP/andP => [h|[/eqP h /leRP h']]; last by lra.
by split; [apply/eqP; lra|apply/leRP; lra].
Qed.
Definition R_numMixin := @RealLeMixin R_idomainType leRb ltRb Rabs le0_add le0_mul le0_anti sub_ge0R le0_total Rabs_Ropp
  (fun x h => Rabs_pos_eq x (elimT (leRP 0 x) h)) R_lt_def.
Canonical R_porderType := POrderType ring_display R R_numMixin.
Canonical R_latticeType := LatticeType R R_numMixin.
Canonical R_distrLatticeType := DistrLatticeType R R_numMixin.
Canonical R_orderType := OrderType R R_numMixin.
Canonical R_numDomainType := NumDomainType R R_numMixin.
Canonical R_normedZmodType := NormedZmodType R R R_numMixin.
Canonical R_numFieldType := [numFieldType of R].
Canonical R_realDomainType := [realDomainType of R].
Canonical R_realFieldType := [realFieldType of R].

Lemma poly_continuous (p : {poly R}) : continuity (fun x : R => p.[x]%R).
Proof.
elim/poly_ind: p => [|p c IH].
  have -> : (fun x : R => (0 : {poly R}).[x]%R) = (fun _ => 0) by apply: functional_extensionality => x; rewrite horner0.
  by move=> x; apply: continuity_pt_const => a b.
have -> : (fun x : R => (p * 'X + c%:P)%R.[x]%R) = (fun x => p.[x]%R * x + c).
  by apply: functional_extensionality => x; rewrite hornerMXaddC.
move=> x; apply: continuity_pt_plus; last by apply: continuity_pt_const => a b.
apply: continuity_pt_mult; first exact: IH.
exact: derivable_continuous_pt (derivable_pt_id x).
Qed.
Lemma R_rcf : Num.real_closed_axiom R_numDomainType.
Proof.
move=> p a b /leRP ab /andP[/leRP pa /leRP pb].
have [pa0|pan] := Req_EM_T p.[a]%R 0.
  by exists a; [apply/andP; split; apply/leRP; [apply: Rle_refl|]|apply/eqP].
have [pb0|pbn] := Req_EM_T p.[b]%R 0.
  by exists b; [apply/andP; split; apply/leRP; [|apply: Rle_refl]|apply/eqP].
have pa' : p.[a]%R < 0 by change (p.[a]%R <= 0) in pa; lra.
have pb' : 0 < p.[b]%R by change (0 <= p.[b]%R) in pb; lra.
have ab' : a < b by have [e|] := Req_dec a b; [rewrite e in pa'; lra|lra].
have [x [[xa xb] x0]] := IVT _ _ _ (poly_continuous p) ab' pa' pb'.
by exists x; [apply/andP; split; apply/leRP|apply/eqP].
Qed.
Canonical R_rcfType := RcfType R R_rcf.

(** Complex numbers over the reals, and their exponential. *)
Definition CR : numClosedFieldType := [numClosedFieldType of R[i]].
Definition cexpR (z : R[i]) : R[i] := let: (x +i* y)%C := z in (exp x * cos y +i* (exp x * sin y))%C.
Lemma cexpR0 : cexpR 0%R = 1%R.
Proof.
apply/eqP; rewrite eq_complex; apply/andP; split; apply/eqP.
  by change (exp 0 * cos 0 = 1); rewrite exp_0 cos_0; ring.
by change (exp 0 * sin 0 = 0); rewrite exp_0 sin_0; ring.
Qed.
Lemma cexpRD (z w : R[i]) : cexpR (z + w)%R = (cexpR z * cexpR w)%R.
Proof.
case: z => x y; case: w => u v; apply/eqP; rewrite eq_complex /=; apply/andP.
rewrite /GRing.add /GRing.mul /GRing.opp /= exp_plus cos_plus sin_plus.
by split; apply: (introT (eqRP _ _)); ring.
Qed.
Lemma cexpRJ (z : R[i]) : cexpR (z^*)%C = ((cexpR z)^*)%C.
Proof.
case: z => x y; apply/eqP; rewrite eq_complex /=; apply/andP.
by rewrite /GRing.opp /= cos_neg sin_neg; split; apply: (introT (eqRP _ _)); ring.
Qed.
From Verif Require Import GaugeModel GaugeSpec ExpSpec.
Lemma cexpR_good : good_cexp (C := CR) cexpR.
Proof.
split; [exact: cexpR0|exact: cexpRD|].
exact: cexpRJ.
Qed.

(** C65 for links: the sampler over the real numbers with the update of the link. *)
From Coq Require Import Reals List.
From Verif Require Import Su2Model Su2Proofs Su2Props.
From mathcomp Require Import all_ssreflect all_algebra.
From mathcomp Require Import complex.
From Verif Require Import RealField GaugeModel GaugeSpec GaugeProofs GaugeProofs2 GaugeProofs3 UpdModel UpdProofs UpdProofs2.
Import GRing.Theory Num.Theory.
Set Implicit Arguments.
Unset Strict Implicit.
Unset Printing Implicit Defensive.
Local Open Scope ring_scope.
Local Open Scope complex_scope.

Lemma real_is_real (x : R) : (x%:C : CR) \is Num.real.
Proof. by rewrite CrealE; apply/eqP; rewrite -[LHS]/((x%:C)^*)%C /= /GRing.opp /= Ropp_0. Qed.
Theorem C65_link (L : lattice) (U : gauge CR 2 L) (x : L) (mu : 'I_4) (b : R) (draws : list (R * R * R * R)) (v1 v2 u0 u1 u2 u3 : R) :
  Rlt R0 b -> Forall draw_ok draws -> heatbath_draw b draws v1 v2 = Some (Some (u0, u1, u2, u3)) ->
  (forall x mu, special_unitary (U x mu)) -> \det (wilson_staple U x mu) != 0 ->
  exists2 V, heatbath2 (u0%:C, u1%:C, u2%:C, u3%:C) (wilson_staple U x mu) = Some V &
    special_unitary V /\ retr (V *m wilson_staple U x mu) = 2%:R * sqrtC (\det (wilson_staple U x mu)) * u0%:C.
Proof.
move=> Hb Hd E H d0; have [_ S] := C65_sphere _ _ _ _ _ _ _ _ Hb Hd E.
have q := wilson_quat x mu H.
have hu : unit4 ((u0%:C, u1%:C, u2%:C, u3%:C) : CR * CR * CR * CR).
  do 4 (split; first exact: real_is_real).
  by rewrite !expr2 -!rmorphM -!rmorphD /= [X in X%:C](S : _ = 1).
have [V [EV [su ES]]] := heatbath2_correct q d0 hu; exists V => //; split=> //.
by rewrite ES (retr_draw hu) // ger0_real // sqrtC_ge0 quat_det_ge0.
Qed.
Print Assumptions C65_link.

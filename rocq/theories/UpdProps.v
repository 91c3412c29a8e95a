(** Properties C32-C34 and C64: overrelaxation, heat bath and re-unitarisation of links. *)
From mathcomp Require Import all_ssreflect all_algebra all_field.
From Verif Require Import GaugeModel GaugeSpec GaugeProofs GaugeProofs2 GaugeProofs3 GaugeGeom UpdModel UpdProofs UpdProofs2.
Import GRing.Theory Num.Theory.
Set Implicit Arguments.
Unset Strict Implicit.
Unset Printing Implicit Defensive.
Local Open Scope ring_scope.

(** ** C32: overrelaxation with two colours; one link, then a sweep over any list of links. *)
Theorem C32_wilson (C : numClosedFieldType) (L : lattice) (beta : C) (U : gauge C 2 L) (order : seq (L * 'I_4)) :
  extent2 L -> (forall x mu, special_unitary (U x mu)) ->
  let U' := overrelax_sweep (@wilson_staple C 2 L) U order in
  (forall x mu, special_unitary (U' x mu)) /\ wilson_action beta U' = wilson_action beta U.
Proof. by move=> e H; apply: (overrelax_sweep_ok (wilson_step beta e)). Qed.
Theorem C32_improved (C : numClosedFieldType) (L : lattice) (beta u0 : C) (U : gauge C 2 L) (order : seq (L * 'I_4)) :
  u0 \is Num.real -> extent3 L -> (forall x mu, special_unitary (U x mu)) ->
  let U' := overrelax_sweep (improved_staple u0) U order in
  (forall x mu, special_unitary (U' x mu)) /\ symanzik_action beta u0 U' = symanzik_action beta u0 U.
Proof. by move=> r e H; apply: (overrelax_sweep_ok (improved_step beta r e)). Qed.
Theorem C32_twice (C : numClosedFieldType) (L : lattice) (U : gauge C 2 L) (p : L * 'I_4) :
  extent2 L -> (forall x mu, special_unitary (U x mu)) ->
  forall y nu, overrelax_link (@wilson_staple C 2 L) (overrelax_link (@wilson_staple C 2 L) U p) p y nu = U y nu.
Proof. exact: overrelax_link_twice. Qed.
(** A sweep followed by the sweep in the opposite order restores the configuration. *)
Theorem C32_sweep_back (C : numClosedFieldType) (L : lattice) (U : gauge C 2 L) (order : seq (L * 'I_4)) :
  extent2 L -> (forall x mu, special_unitary (U x mu)) ->
  forall y nu, overrelax_sweep (@wilson_staple C 2 L) (overrelax_sweep (@wilson_staple C 2 L) U order) (rev order) y nu = U y nu.
Proof. exact: overrelax_sweep_back. Qed.
(** The step is the reflection of the link at the staple whenever it is not skipped: the link moves. *)
Theorem C32_moves (C : numClosedFieldType) (L : lattice) (U : gauge C 2 L) (x : L) (mu : 'I_4) (r : C) (V : 'M[C]_2) :
  0 < r -> special_unitary V -> wilson_staple U x mu = r *: V -> (10%:R ^+ 4)^-1 < r ^+ 2 ->
  overrelax_link (@wilson_staple C 2 L) U (x, mu) x mu = dagger V *m dagger (U x mu) *m dagger V.
Proof. exact: overrelax_link_reflects. Qed.
Definition tau3 : 'M[algCnumClosedField]_2 := mat2 'i 0 0 (- 'i).
Lemma tau3_su : special_unitary tau3.
Proof.
apply: quat_su; first by rewrite /quat !mat2E conjCi conjC0 oppr0.
by rewrite det2 !mat2E mul0r subr0 mulrN -expr2 sqrCi opprK.
Qed.
Lemma tau3_staple x mu : wilson_staple ((fun _ _ => tau3) : gauge algCnumClosedField 2 (box 1 1 1 1)) x mu = 6%:R *: dagger tau3.
Proof.
have [u _] := tau3_su.
rewrite /wilson_staple (eq_bigr (fun _ => 2%:R *: htrans tau3)) => [|i _].
  by rewrite sumr_const cardC1 card_ord scalerMnl -mulrnA daggerE.
by rewrite (unitary_r u) mul1mx -mulmxA (unitary_l u) mulmx1 scaler_nat mulr2n.
Qed.
Example C32_case :
  let U : gauge algCnumClosedField 2 (box 1 1 1 1) := fun _ _ => tau3 in
  extent2 (box 1 1 1 1) /\ (forall x mu, special_unitary (U x mu)) /\
  (forall x mu, wilson_staple U x mu = 6%:R *: dagger tau3) /\ overrelax2 (6%:R *: dagger tau3) 1%:M = - 1%:M.
Proof.
move=> U; split; first exact: box_extent2.
split; first by move=> x mu; exact: tau3_su.
split; first exact: tau3_staple.
have [u d] := tau3_su.
rewrite /overrelax2 detZ2 daggerE det_htrans d conjC1 mulr1 ger0_norm ?exprn_ge0 ?ler0n //.
have -> : (10%:R ^+ 4)^-1 < 6%:R ^+ 2 :> algCnumClosedField.
  apply: (@Order.POrderTheory.lt_trans _ _ 1); first by rewrite invf_lt1 ?exprn_gt0 ?ltr0n // exprn_egt1 // ltr1n.
  by rewrite exprn_egt1 // ltr1n.
rewrite htransZ htransK htrans1 mulmx1 conjC_nat -scalemxAl -scalemxAr !scalerA.
rewrite (_ : _ * 6%:R = 1) ?scale1r; last by rewrite -mulrA -expr2 mulVf // expf_neq0 // pnatr_eq0.
by apply: eq2; rewrite mul2 !mat2E !mxE /= ?(mulr0, mul0r, addr0, add0r, oppr0, mulrNN) -?expr2 ?sqrCi ?mulr1n ?mulr0n ?oppr0.
Qed.
Print Assumptions C32_wilson.
Print Assumptions C32_improved.
Print Assumptions C32_twice.
Print Assumptions C32_sweep_back.
Print Assumptions C32_moves.

(** ** C33: the heat bath with two colours.  Every draw on the unit sphere gives a link of the group, the real trace of
    link times staple depends on u0 only, and it is undefined for a singular staple only. *)
Theorem C33_group (C : numClosedFieldType) (L : lattice) (U : gauge C 2 L) (x : L) (mu : 'I_4) (u0 u1 u2 u3 : C) :
  (forall x mu, special_unitary (U x mu)) -> \det (wilson_staple U x mu) != 0 ->
  u0 \is Num.real -> u1 \is Num.real -> u2 \is Num.real -> u3 \is Num.real -> u0 ^+ 2 + u1 ^+ 2 + u2 ^+ 2 + u3 ^+ 2 = 1 ->
  exists2 V, heatbath2 (u0, u1, u2, u3) (wilson_staple U x mu) = Some V &
    special_unitary V /\ retr (V *m wilson_staple U x mu) = 2%:R * sqrtC (\det (wilson_staple U x mu)) * u0.
Proof.
move=> H d0 h0 h1 h2 h3 h4; have q := wilson_quat x mu H.
have hu : unit4 (u0, u1, u2, u3) by [].
have [V [E [su EV]]] := heatbath2_correct q d0 hu; exists V => //; split=> //.
by rewrite EV (retr_draw hu) // ger0_real // sqrtC_ge0 quat_det_ge0.
Qed.
(** Every group element is reached by some draw. *)
Theorem C33_onto (C : numClosedFieldType) (L : lattice) (U : gauge C 2 L) (x : L) (mu : 'I_4) (V : 'M[C]_2) :
  (forall x mu, special_unitary (U x mu)) -> \det (wilson_staple U x mu) != 0 -> special_unitary V ->
  exists u0 u1 u2 u3, (u0 \is Num.real /\ u1 \is Num.real /\ u2 \is Num.real /\ u3 \is Num.real /\
    u0 ^+ 2 + u1 ^+ 2 + u2 ^+ 2 + u3 ^+ 2 = 1) /\ heatbath2 (u0, u1, u2, u3) (wilson_staple U x mu) = Some V.
Proof. by move=> H; apply: heatbath2_onto; apply: wilson_quat. Qed.
Theorem C33_singular (C : numClosedFieldType) (staple : 'M[C]_2) u : heatbath2 u staple = None <-> \det staple = 0.
Proof. by rewrite /heatbath2 normr_eq0; split=> [|->]; [case: eqP | rewrite eqxx]. Qed.
Example C33_case :
  let U : gauge algCnumClosedField 2 (box 1 1 1 1) := fun _ _ => tau3 in
  (forall x mu, special_unitary (U x mu)) /\ (forall x mu, \det (wilson_staple U x mu) = 36%:R) /\
  (3%:R / 5%:R) ^+ 2 + 0 ^+ 2 + (4%:R / 5%:R) ^+ 2 + 0 ^+ 2 = 1 :> algCnumClosedField.
Proof.
move=> U; split; first by move=> x mu; exact: tau3_su.
split; first by move=> x mu; rewrite tau3_staple detZ2 daggerE det_htrans (proj2 tau3_su) conjC1 mulr1 -natrX.
rewrite !expr0n /= !addr0 !expr_div_n -mulrDl -!natrX -natrD divff // pnatr_eq0; exact: isT.
Qed.
Print Assumptions C33_group.
Print Assumptions C33_onto.
Print Assumptions C33_singular.

(** ** C34: re-unitarisation. *)
Theorem C34_two_colours (C : numClosedFieldType) (A : 'M[C]_2) :
  (forall V, reunit2 A = Some V -> special_unitary V) /\ (special_unitary A -> reunit2 A = Some A).
Proof. by split; [exact: reunit2_su | exact: reunit2_fix]. Qed.
(** For two colours it fails for a zero first row only, in particular never for a non-singular link. *)
Theorem C34_two_colours_defined (C : numClosedFieldType) (A : 'M[C]_2) : \det A != 0 -> exists2 V, reunit2 A = Some V & special_unitary V.
Proof. exact: reunit2_defined. Qed.
(** A positive multiple of a group element goes to the group element. *)
Theorem C34_two_colours_scaled (C : numClosedFieldType) (r : C) (A : 'M[C]_2) :
  0 < r -> special_unitary A -> reunit2 (r *: A) = Some A.
Proof. exact: reunit2_scaled. Qed.
Theorem C34_unitary (C : numClosedFieldType) (n : nat) (A : 'M[C]_n.+1) : unitary A ->
  exists2 V, reunit A = Some V & special_unitary V.
Proof. by move=> uA; exists (scale_row ord_max (\det A)^* A); [exact: reunit_unitary | exact: fix_det_su]. Qed.
Theorem C34_fixed (C : numClosedFieldType) (n : nat) (A : 'M[C]_n.+1) : special_unitary A -> reunit A = Some A.
Proof. exact: reunit_fix. Qed.
(** For more than two colours the code divides the rows by the square of their norm: the result is never unitary when the
    first row of the link is not exactly normalised. *)
Theorem C34_first_row_refuted (C : numClosedFieldType) (n : nat) (A V : 'M[C]_n.+2) :
  \sum_k `|A ord0 k| ^+ 2 != 1 -> reunit A = Some V -> ~ unitary V.
Proof. by move=> /eqP ne E u; apply: ne; exact: (reunit_first_row E u). Qed.
(** A multiple of the identity becomes the inverse multiple. *)
Theorem C34_scaled_refuted (C : numClosedFieldType) (n : nat) (r : C) : 0 < r -> reunit (r%:M : 'M[C]_n.+1) = Some (r^-1)%:M.
Proof. exact: reunit_scalar. Qed.
(** The witness: twice the identity becomes half the identity. *)
Example C34_case (C : numClosedFieldType) : reunit (2%:R%:M : 'M[C]_3) = Some (2%:R^-1)%:M /\
  \sum_k `|(2%:R%:M : 'M[C]_3) ord0 k| ^+ 2 != 1.
Proof.
split; last by rewrite !big_ord_recl big_ord0 !mxE /= ?mulr0n ?mulr1n !normr0 !expr0n /= !addr0 normr_nat -natrX (eqr_nat C 4 1).
by apply: reunit_scalar; rewrite ltr0n.
Qed.
Print Assumptions C34_two_colours.
Print Assumptions C34_two_colours_defined.
Print Assumptions C34_two_colours_scaled.
Print Assumptions C34_unitary.
Print Assumptions C34_fixed.
Print Assumptions C34_first_row_refuted.
Print Assumptions C34_scaled_refuted.

(** ** C64: more than two colours. *)
Theorem C64_heat_bath (C : numClosedFieldType) (n : nat) u (link staple : 'M[C]_n.+1) result :
  (forall k l, unit4 (u k l)) -> special_unitary link -> heatbath u link staple = Some result ->
  special_unitary result.1 /\ result.2 = result.1 *m staple.
Proof. exact: heatbath_ok. Qed.
(** One subgroup: the two diagonal elements of link times staple get the trace drawn for them and the others stay. *)
Theorem C64_subgroup (C : numClosedFieldType) (n : nat) u (link staple : 'M[C]_n.+1) (k l : 'I_n.+1) link' plaquette' :
  k != l -> unit4 (u k l) -> special_unitary link -> 
  cm_step u (Some (link, link *m staple)) (k, l) = Some (link', plaquette') ->
  special_unitary link' /\ plaquette' = link' *m staple /\
  'Re (plaquette' k k) + 'Re (plaquette' l l) = 2%:R * sqrtC (subdet k l (link *m staple)) * (u k l).1.1.1 /\
  (forall i, i != k -> i != l -> plaquette' i i = (link *m staple) i i).
Proof. by move=> ne hu su; exact: cm_step_ok. Qed.
(** Every subgroup k < l is used exactly once. *)
Theorem C64_subgroups n (k l : 'I_n.+1) : count_mem (k, l) (pairs n) = (k < l)%N.
Proof. by rewrite count_uniq_mem ?pairs_uniq // pairs_all. Qed.
Theorem C64_overrelaxation (C : numClosedFieldType) (n : nat) qr accept (link staple : 'M[C]_n.+1) :
  unitary (qr staple).1 -> special_unitary link -> special_unitary (overrelax qr accept link staple).
Proof. exact: overrelax_su. Qed.
Theorem C64_proposal_reversible (C : numClosedFieldType) (n : nat) qr (link staple : 'M[C]_n.+1) :
  unitary (qr staple).1 -> overrelax qr xpredT (overrelax qr xpredT link staple) staple = link.
Proof. exact: overrelax_involution. Qed.
Example C64_case : special_unitary (1%:M : 'M[algCnumClosedField]_3) /\
  unit4 ((3%:R / 5%:R, 0, 4%:R / 5%:R, 0) : algCnumClosedField * _ * _ * _) /\
  subdet (ord0 : 'I_3) ord_max (1%:M *m (2%:R%:M : 'M[algCnumClosedField]_3)) = 4%:R.
Proof.
split; first exact: su1.
split.
  by split; [rewrite rpred_div ?realn|split; [rewrite rpred0|split; [rewrite rpred_div ?realn|split; [rewrite rpred0|case: C33_case => _ [_ ->]]]]].
rewrite mul1mx /subdet !mxE /= !mulr1n !mulr0n.
have -> : 'Re (2%:R : algCnumClosedField) = 2%:R by apply/Creal_ReP; rewrite realn.
have -> : 'Im (2%:R : algCnumClosedField) = 0 by apply/Creal_ImP; rewrite realn.
have -> : 'Re (0 : algCnumClosedField) = 0 by apply/Creal_ReP; rewrite rpred0.
have -> : 'Im (0 : algCnumClosedField) = 0 by apply/Creal_ImP; rewrite rpred0.
rewrite !subrr addr0 !mul0r !add0r -natrD.
have -> : 4%:R / 2%:R = 2%:R :> algCnumClosedField by rewrite -[4%:R]/((2 * 2)%:R) natrM mulfK // pnatr_eq0.
by rewrite -natrM.
Qed.
Print Assumptions C64_heat_bath.
Print Assumptions C64_subgroup.
Print Assumptions C64_subgroups.
Print Assumptions C64_overrelaxation.
Print Assumptions C64_proposal_reversible.

(** Properties C30 and C59: Wilson loops, Polyakov loops, Polyakov loop correlator. *)
From mathcomp Require Import all_ssreflect all_algebra all_field.
From Verif Require Import GaugeModel GaugeSpec GaugeProofs GaugeProofs2 GaugeProofs3 LoopModel LoopProofs LoopGrid.
Import GRing.Theory Num.Theory.
Set Implicit Arguments.
Unset Strict Implicit.
Unset Printing Implicit Defensive.
Local Open Scope ring_scope.

(** ** C30 *)
(** Every entry (R, T) of the table is the average over all sites of Re tr of the ordered product around the rectangle of
    R steps in direction 0 and T steps in direction t_dir, divided by the number of colours. *)
Theorem C30_wilson_loops (C : numClosedFieldType) (n : nat) (L : lattice) (U : gauge C n L) (tdir : 'I_4) (rmax tmax : nat) :
  (0 < rmax)%N -> (0 < tmax)%N -> exists tab, wilson_loop_table U tdir rmax tmax = Some tab /\
    size tab = (rmax * tmax)%N /\
    forall R T v, ((R, T, v) \in tab) =
      [&& (0 < R <= rmax)%N, (0 < T <= tmax)%N & v == (\sum_(x : L) loop_re U x (rectangle ord0 tdir R T)) / (n%:R * #|L|%:R)].
Proof.
rewrite /wilson_loop_table => r0 t0; rewrite (gtn_eqF r0) (gtn_eqF t0) /=.
set tab := [seq _ | _ <- _, _ <- _]; exists tab; split=> //; split; first by rewrite size_allpairs !size_iota.
move=> R T v; apply/allpairsP/and3P => [[[r t] /= [hr ht [-> -> ->]]]|[/andP[hR hR'] /andP[hT hT'] /eqP ->]].
  by rewrite !mem_iota !add0n in hr ht *; rewrite wilson_loopE hr ht.
exists (R.-1, T.-1); rewrite /= !mem_iota !add0n !prednK //; split=> //.
by rewrite wilson_loopE !prednK.
Qed.
Theorem C30_wilson_loops_empty_refuted (C : numClosedFieldType) (n : nat) (L : lattice) (U : gauge C n L) (tdir : 'I_4) (rmax tmax : nat) :
  rmax = 0%N \/ tmax = 0%N -> wilson_loop_table U tdir rmax tmax = None.
Proof. by rewrite /wilson_loop_table => -[->|->]; rewrite ?eqxx ?orbT. Qed.
(** For the direction 3 the Polyakov loop is the average over all positions; for another direction it is that average
    times glob[3] / glob[nu]. *)
Definition average_straight_loop (C : numClosedFieldType) (n : nat) (L : grid) (U : gauge C n L) (nu : 'I_4) : C :=
  (\sum_(x : L) \tr (transport U x (nseq (ext L nu) (fwd nu)))) / (n%:R * #|L|%:R).
Lemma polyakov_average (C : numClosedFieldType) (n : nat) (L : grid) (U : gauge C n L) (nu : 'I_4) :
  (0 < #|L|)%N ->
  polyakov_loop U nu = (ext L (inord 3))%:R / (ext L nu)%:R * average_straight_loop U nu.
Proof.
move=> Lne; have /card_gt0P[x0 _] := Lne.
have e0 mu : (ext L mu)%:R != 0 :> C by rewrite pnatr_eq0 -lt0n (ext_gt0 x0).
apply: (mulIf (e0 nu)); rewrite polyakov_all /average_straight_loop card_grid.
rewrite mulrAC mulfVK // mulrC -mulrA; congr (_ * _).
by rewrite [in RHS]natrM [in RHS]mulrA invfM -/(spatial_volume L) -natrM mulfVK.
Qed.
Theorem C30_polyakov_temporal (C : numClosedFieldType) (n : nat) (L : grid) (U : gauge C n L) : (0 < #|L|)%N ->
  polyakov_loop U (inord 3) = average_straight_loop U (inord 3).
Proof.
move=> Lne; rewrite polyakov_average // divff ?mul1r // pnatr_eq0 -lt0n.
by have /card_gt0P[x0 _] := Lne; exact: (ext_gt0 x0).
Qed.
Theorem C30_polyakov_spatial_partial (C : numClosedFieldType) (n : nat) (L : grid) (U : gauge C n L) (nu : 'I_4) : (0 < #|L|)%N ->
  ext L nu = ext L (inord 3) -> polyakov_loop U nu = average_straight_loop U nu.
Proof.
move=> Lne e; rewrite polyakov_average // e divff ?mul1r // pnatr_eq0 -lt0n.
by have /card_gt0P[x0 _] := Lne; exact: (ext_gt0 x0).
Qed.
(** With different extents the value for a spatial direction is not the average unless the average vanishes. *)
Theorem C30_polyakov_spatial_refuted (C : numClosedFieldType) (n : nat) (L : grid) (U : gauge C n L) (nu : 'I_4) : (0 < #|L|)%N ->
  ext L nu <> ext L (inord 3) -> average_straight_loop U nu != 0 -> polyakov_loop U nu <> average_straight_loop U nu.
Proof.
move=> Lne ne an; rewrite polyakov_average // -[X in _ <> X]mul1r => /(mulIf an) E; apply: ne.
have /card_gt0P[x0 _] := Lne.
have e0 : (ext L nu)%:R != 0 :> C by rewrite pnatr_eq0 -lt0n (ext_gt0 x0).
apply/eqP; rewrite -(eqr_nat C) -[X in _ == X](mulfVK e0) E mul1r //.
Qed.
Theorem C30_gauge_invariant (C : numClosedFieldType) (n : nat) (L : grid) (U : gauge C n L) (om : L -> 'M[C]_n)
    (tdir nu : 'I_4) (rmax tmax : nat) : (forall x, unitary (om x)) ->
  wilson_loop_table (gauge_transform om U) tdir rmax tmax = wilson_loop_table U tdir rmax tmax /\
  polyakov_loop (gauge_transform om U) nu = polyakov_loop U nu.
Proof.
move=> u; split; last first.
  by rewrite !polyakovE; congr (_ / _); apply: eq_bigr => x _; rewrite trace_gauge // straight_closed.
rewrite /wilson_loop_table; case: ifP => // _; congr Some.
congr flatten; apply: eq_map => r; apply: eq_map => t; congr (_, _, _).
rewrite !wilson_loopE; congr (_ / _); apply: eq_bigr => x _.
by rewrite loop_gauge // rectangle_closed.
Qed.
Example C30_case : let L := box_grid 3 3 3 7 in let U : gauge algCnumClosedField 3 L := fun _ _ => 1%:M in
  (0 < #|L|)%N /\ ext L (inord 0) <> ext L (inord 3) /\ average_straight_loop U (inord 0) = 1 /\ polyakov_loop U (inord 0) = 2%:R.
Proof.
move=> L U; have c : #|L| = 512%N by rewrite card_grid /= /box_ext !inordK.
have c0 : (0 < #|L|)%N by rewrite c.
have a1 : average_straight_loop U (inord 0) = 1.
  rewrite /average_straight_loop (eq_bigr (fun _ => 3%:R)) => [|x _].
    by rewrite sumr_const -[3%:R *+ _]mulr_natr divff // -natrM pnatr_eq0 muln_eq0 c.
  have -> : transport U x (nseq (ext L (inord 0)) (fwd (inord 0))) = 1%:M.
    by move: (nseq _ _) => p; elim: p x => //= s p IH x; rewrite IH mulmx1 /hop /U; case: s => [[] ?] //=; rewrite daggerE htrans1.
  by rewrite mxtrace1.
split=> //; split; first by rewrite /= /box_ext !inordK.
split=> //; rewrite polyakov_average // a1 mulr1 /= /box_ext !inordK //.
by rewrite -[8%N]/(2 * 4)%N natrM mulfK // pnatr_eq0.
Qed.
Print Assumptions C30_wilson_loops.
Print Assumptions C30_wilson_loops_empty_refuted.
Print Assumptions C30_polyakov_temporal.
Print Assumptions C30_polyakov_spatial_partial.
Print Assumptions C30_polyakov_spatial_refuted.
Print Assumptions C30_gauge_invariant.

(** ** C59 *)
(** The l-th number is the correlation of the Polyakov loops of all pairs of spatial positions at distance l + 1 along direction 0. *)
Theorem C59_correlator (C : numClosedFieldType) (n : nat) (L : grid) (U : gauge C n L) (l : nat) :
  let loop x := \tr (transport U x (nseq (ext L (inord 3)) (fwd (inord 3)))) in
  polyakov_correlator U l =
    (\sum_(x : L | coord x (inord 3) == 0%N) (loop x)^* * loop (endpoint x (nseq l.+1 (fwd (inord 0))))) / (n * spatial_volume L)%:R.
Proof.
move=> loop; rewrite /polyakov_correlator; congr (_ / _); apply: eq_bigr => x x0.
have up k : coord (iter k (sup (inord 0)) x) (inord 3) = 0%N.
  elim: k => [|k IH]; first exact/eqP.
  by rewrite iterS coord_other // -val_eqE /= !inordK.
by rewrite shiftedE !polyakov_fieldE ?up ?(eqP x0) // /loop endpoint_nseq.
Qed.
Theorem C59_gauge_invariant (C : numClosedFieldType) (n : nat) (L : grid) (U : gauge C n L) (om : L -> 'M[C]_n) (l : nat) :
  (forall x, unitary (om x)) -> polyakov_correlator (gauge_transform om U) l = polyakov_correlator U l.
Proof.
move=> u; rewrite !C59_correlator /=; congr (_ / _); apply: eq_bigr => x _.
by rewrite !trace_gauge // straight_closed.
Qed.
(** The number printed "at l" is not the correlation at distance l: two sites in direction 0 with opposite loops. *)
Definition alternating : gauge algCnumClosedField 1 (box_grid 1 0 0 0) :=
  fun x mu => if (mu == inord 3) && (coord x (inord 0) == 1%N) then (-1)%:M else 1%:M.
Lemma box_0_site (x : box_grid 1 0 0 0) : coord x (inord 3) = 0%N.
Proof.
have e3 : ext (box_grid 1 0 0 0) (inord 3) = 1%N by rewrite /= /box_ext !inordK.
by have := coord_lt x (inord 3); rewrite e3; case: (coord x (inord 3)).
Qed.
Lemma alternating_loop x : \tr (transport alternating x (nseq 1 (fwd (inord 3)))) = if coord x (inord 0) == 1%N then -1 else 1.
Proof. by rewrite /= mulmx1 /hop /= /alternating eqxx /=; case: ifP => _; rewrite mxtrace_scalar. Qed.
Lemma alternating_up (x : box_grid 1 0 0 0) : (coord (sup (inord 0) x) (inord 0) == 1%N) = ~~ (coord x (inord 0) == 1%N).
Proof.
have e0 : ext (box_grid 1 0 0 0) (inord 0) = 2%N by rewrite /= /box_ext !inordK.
by rewrite coord_up e0; have := coord_lt x (inord 0); rewrite e0; case: (coord x (inord 0)) => [|[|?]].
Qed.
Theorem C59_label_refuted : exists (U : gauge algCnumClosedField 1 (box_grid 1 0 0 0)),
  let loop x := \tr (transport U x (nseq 1 (fwd (inord 3)))) in
  (forall x mu, special_unitary (U x mu) \/ U x mu = (-1)%:M) /\
  polyakov_correlator U 0 = -1 /\
  (\sum_(x : box_grid 1 0 0 0 | coord x (inord 3) == 0%N) (loop x)^* * loop x) / (1 * spatial_volume (box_grid 1 0 0 0))%:R = 1.
Proof.
exists alternating => loop; split.
  by move=> x mu; rewrite /alternating; case: ifP => _; [right|left; exact: su1].
have sv : spatial_volume (box_grid 1 0 0 0) = 2%N by rewrite /spatial_volume /= /box_ext !inordK.
have cd : #|box_grid 1 0 0 0| = 2%N by rewrite card_grid /= /box_ext !inordK.
have e3 : ext (box_grid 1 0 0 0) (inord 3) = 1%N by rewrite /= /box_ext !inordK.
have all (P : pred (box_grid 1 0 0 0)) (f : box_grid 1 0 0 0 -> algCnumClosedField) v : (forall x, P x) -> (forall x, f x = v) -> \sum_(x | P x) f x = 2%:R * v.
  move=> HP Hf; rewrite (eq_bigl predT) => [|x]; last by rewrite HP.
  by rewrite (eq_bigr (fun=> v)) // sumr_const cd mulr_natl.
rewrite C59_correlator e3 sv mul1n; split.
  rewrite (all _ _ (-1)) ?mulrN1 ?mulNr ?divff ?pnatr_eq0 // => x; first by rewrite box_0_site.
  rewrite endpoint_nseq !alternating_loop alternating_up.
  by case: eqP => _ /=; rewrite ?rmorphN rmorph1 ?mulr1 ?mul1r.
rewrite (all _ _ 1) ?mulr1 ?divff ?pnatr_eq0 // => x; first by rewrite box_0_site.
rewrite /loop alternating_loop.
by case: eqP => _ /=; rewrite ?rmorphN rmorph1 ?mulrNN ?mulr1.
Qed.
Example C59_case : let L := box_grid 3 3 3 7 in exists om : L -> 'M[algCnumClosedField]_3, forall x, unitary (om x).
Proof. by move=> L; exists (fun=> 1%:M) => x; exact: unitary1. Qed.
Print Assumptions C59_correlator.
Print Assumptions C59_gauge_invariant.
Print Assumptions C59_label_refuted.

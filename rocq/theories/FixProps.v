(** Properties of Landau gauge fixing (C52, C71). *)
From mathcomp Require Import all_ssreflect all_algebra all_field.
From Verif Require Import GaugeModel GaugeSpec GaugeProofs GaugeProofs2 GaugeProofs3 ExpSpec EigProofs FixModel FixSpec FixProofs FixProofs2 FixProofs3 FixProofs4 FixProofs5.
Import GRing.Theory Num.Theory Order.POrderTheory.
Set Implicit Arguments.
Unset Strict Implicit.
Unset Printing Implicit Defensive.
Local Open Scope ring_scope.

(** ** C52 *)
(** Two colours: whatever is drawn, what execute returns is the input seen from rotated frames of SU(2), and its
    functional is not smaller. *)
Theorem C52_two_colours (C : numClosedFieldType) (L : lattice) (odd_site : L -> bool) (gexp : 'M[C]_2 -> 'M[C]_2) (rexp : C -> C)
    (eig : 'M[C]_2 -> 'M[C]_2 * 'rV[C]_2) (p : params C) (ls fs os : nat) (dss : seq (seq (draws C 2 L))) (ds : seq (draws C 2 L))
    (g0 : L -> 'M[C]_2) (U V : gauge C 2 L) :
  good_hermitian_eig eig -> good_exp gexp -> real_params p ->
  (forall j i d0, (j < size dss)%N -> (i < size (nth [::] dss j))%N -> real_draws (nth d0 (nth [::] dss j) i)) ->
  (forall i d0, (i < size ds)%N -> real_draws (nth d0 ds i)) ->
  (forall x mu, special_unitary (U x mu)) ->
  execute odd_site gexp rexp eig p ls fs os dss ds g0 U = Some V ->
  copy_of (@special_unitary C 2) U V /\ (forall x mu, special_unitary (V x mu)) /\ landau U <= landau V.
Proof.
move=> He Hx rp rd rl su e; have [[g [Gg eg]] le] := execute_good He Hx rp rd rl (fun _ => su) e.
have sg x : special_unitary (g x) by have [u d] := Gg x; split=> //; exact: d.
split; first by exists g. 
split; last by rewrite -!landauE.
by move=> x mu; rewrite eg; apply: suM; [exact: suM|rewrite daggerE; exact: suH].
Qed.

(** Any number of colours: a copy by unitary matrices whose functional is not smaller. *)
Theorem C52_unitary_copy (C : numClosedFieldType) (n : nat) (L : lattice) (odd_site : L -> bool) (gexp : 'M[C]_n -> 'M[C]_n)
    (rexp : C -> C) (eig : 'M[C]_n -> 'M[C]_n * 'rV[C]_n) (p : params C) (ls fs os : nat) (dss : seq (seq (draws C n L)))
    (ds : seq (draws C n L)) (g0 : L -> 'M[C]_n) (U V : gauge C n L) :
  good_hermitian_eig eig -> good_exp gexp -> real_params p ->
  (forall j i d0, (j < size dss)%N -> (i < size (nth [::] dss j))%N -> real_draws (nth d0 (nth [::] dss j) i)) ->
  (forall i d0, (i < size ds)%N -> real_draws (nth d0 ds i)) ->
  (forall x mu, special_unitary (U x mu)) ->
  execute odd_site gexp rexp eig p ls fs os dss ds g0 U = Some V ->
  copy_of (@unitary C n) U V /\ landau U <= landau V.
Proof.
move=> He Hx rp rd rl su e; have [[g [Gg eg]] le] := execute_good He Hx rp rd rl (fun _ => su) e.
by split; [exists g; split=> // x; case: (Gg x)|rewrite -!landauE].
Qed.

(** Three colours: the relaxation does not keep the determinant.  There are SU(3) configurations on a lattice with two
    sites in every direction for which execute, with one copy and one local step, returns links none of which is in
    SU(3), for every eigensolver, exponential and random number. *)
Theorem C52_special_unitary_refuted (C : numClosedFieldType) : exists U : gauge C 3 (box 1 1 1 1),
  (forall x mu, special_unitary (U x mu)) /\
  forall (gexp : 'M[C]_3 -> 'M[C]_3) (rexp : C -> C) (eig : 'M[C]_3 -> 'M[C]_3 * 'rV[C]_3) (p : params C) (g0 : box 1 1 1 1 -> 'M[C]_3),
  good_hermitian_eig eig ->
  exists V, execute (@box_odd 1 1 1 1) gexp rexp eig p 1 0 1 [:: [::]] [::] g0 U = Some V /\
  (forall x mu, ~ special_unitary (V x mu)) /\ ~ copy_of (@special_unitary C 3) U V.
Proof.
exists (Uw C); split; first exact: Uw_su.
move=> gexp rexp eig p g0 He; have [V [e h]] := execute_w He gexp rexp p g0.
exists V; split=> //; split=> // -[g [sg eg]].
apply: (h (ord0, ord0, ord0, ord0) ord0); rewrite eg; apply: suM; last by rewrite daggerE; exact: suH.
by apply: suM => //; exact: Uw_su.
Qed.

(** The call is defined exactly when there is a copy and output_steps is positive and at most each number of steps
    that is not zero; otherwise it divides by zero or reads an empty vector. *)
Theorem C52_defined (C : numClosedFieldType) (n : nat) (L : lattice) (odd_site : L -> bool) (gexp : 'M[C]_n -> 'M[C]_n)
    (rexp : C -> C) (eig : 'M[C]_n -> 'M[C]_n * 'rV[C]_n) (p : params C) (ls fs os : nat) (dss : seq (seq (draws C n L)))
    (ds : seq (draws C n L)) (g0 : L -> 'M[C]_n) (U : gauge C n L) :
  (exists V, execute odd_site gexp rexp eig p ls fs os dss ds g0 U = Some V) <->
  (0 < size dss)%N /\ (ls = 0%N \/ (0 < os <= ls)%N) /\ (fs = 0%N \/ (0 < os <= fs)%N).
Proof.
have d := execute_defined odd_site gexp rexp eig p ls fs os dss ds g0 U.
have s l : steps_ok l os <-> l = 0%N \/ (0 < os <= l)%N.
  rewrite /steps_ok; split; first by case/orP=> [/eqP|]; [left|right].
  by case=> [->|h]; rewrite ?eqxx // h orbT.
split.
  by case=> V e; move: d; rewrite e /= => /esym /andP [/andP [a /s b] /s c].
case=> a [/s b /s c]; move: d; rewrite a b c /=; case: (execute _ _ _ _ _ _ _ _ _ _ _ _) => // V _; by exists V.
Qed.

(** The copy kept is the best one when some copy has a positive functional ... *)
Theorem C52_best_copy (C : numClosedFieldType) (values : seq C) (i : nat) : (forall j, nth 0 values j \is Num.real) ->
  (exists j, (j < size values)%N /\ 0 < nth 0 values j) -> (i < size values)%N ->
  nth 0 values i <= nth 0 values (choose values).
Proof.
move=> r [j [hj pj]] hi; have hc := choose_max r hj pj.
case: (real_ltP (real0 C) (r i)) => [pi|ni]; first exact: choose_max.
by apply: (le_trans ni); apply: (le_trans _ hc); exact: ltW.
Qed.
(** ... but not when none has: the maximum starts from zero. *)
Theorem C52_best_copy_refuted (C : numClosedFieldType) :
  let values := [:: - 2%:R; - 1] : seq C in
  choose values = 0%N /\ nth 0 values (choose values) < nth 0 values 1.
Proof.
have l2 : (0 < - 2%:R :> C) = false by rewrite oppr_gt0 ltrn0.
have l1 : (0 < - 1 :> C) = false by rewrite oppr_gt0 ltr10.
have e : choose [:: - 2%:R; - 1 : C] = 0%N by rewrite /choose /= l2 /= l1.
by split; rewrite ?e //= ltr_opp2 ltr1n.
Qed.

(** ** C71 *)
(** On a lattice whose extents are all even, a relaxation step never lowers the functional, for any number of colours:
    no step of the local phase would need to be rejected in exact arithmetic. *)
Theorem C71_relaxation (C : numClosedFieldType) (n : nat) (a b c d : nat) (eig : 'M[C]_n -> 'M[C]_n * 'rV[C]_n)
    (U : gauge C n (box a b c d)) (i : nat) (g : box a b c d -> 'M[C]_n) :
  good_hermitian_eig eig -> (forall x mu, special_unitary (U x mu)) ->
  odd a -> odd b -> odd c -> odd d ->
  relaxation (@box_odd a b c d) eig U i = Some g ->
  (forall x, unitary (g x)) /\ landau U <= landau (gauge_transform g U).
Proof.
move=> He su oa ob oc od e; have bi := box_bipartite oa ob oc od.
split; last by rewrite -!landauE; apply: (relaxation_up He bi (fun _ => su) e).
by move=> x; have [[h _] _] := relaxation_ok He (fun _ => su) e x.
Qed.

(** ** Instances *)
Lemma hermitian_eig_exists (C : numClosedFieldType) n : exists eig : 'M[C]_n -> 'M[C]_n * 'rV[C]_n, good_hermitian_eig eig.
Proof.
have [eig He] := good_eig_exists C n.
exists (fun A => ((eig ('i *: A)).1, (- 'i) *: (eig ('i *: A)).2)) => A hA.
have [] := He ('i *: A).
  move: hA; rewrite /hermitian /anti_hermitian !daggerE => hA; rewrite htransZ hA conjCi scaleNr //.
move=> u e; split=> //=; set V := (eig _).1 in u e *; set l := (eig _).2 in e *.
have -> : A = (- 'i) *: ('i *: A) by rewrite scalerA mulNr -expr2 sqrCi opprK scale1r.
by rewrite -scalemxAl e scalemxAr; congr (_ *m _); rewrite -linearZ.
Qed.
Section Example_.
Let C := algCnumClosedField.
Let L := box 1 1 1 1.
Let w0 : normals C 2 := Normals (fun _ _ => 1) (fun _ _ => 2%:R) (fun _ => 3%:R).
Let d0 : draws C 2 L := Draws (fun _ => w0) (fun _ => w0) (fun _ => w0) 0 1 0 1 0.
Let p0 : params C := Params true (1 / 2%:R) 1 2%:R 1 2%:R 3%:R (1 / 10%:R).
Let U0 : gauge C 2 L := fun x mu => if mu == ord0 then - 1%:M else 1%:M.
Example fix_two : exists (eig : 'M[C]_2 -> 'M[C]_2 * 'rV[C]_2) (V : gauge C 2 L), good_hermitian_eig eig /\
  execute (@box_odd 1 1 1 1) (fun _ => 1%:M) (fun _ => 1) eig p0 4 2 1 [:: [:: d0]; [:: d0; d0]] [:: d0] (fun _ => 1%:M) U0 = Some V /\
  copy_of (@special_unitary C 2) U0 V /\ landau U0 <= landau V.
Proof.
have [eig He] := hermitian_eig_exists C 2.
have [V eV] : exists V, execute (@box_odd 1 1 1 1) (fun _ => 1%:M) (fun _ => 1) eig p0 4 2 1 [:: [:: d0]; [:: d0; d0]] [:: d0] (fun _ => 1%:M) U0 = Some V.
  by apply/C52_defined; split=> //; split; right.
exists eig, V; split=> //; split=> //.
have rd : real_draws d0 by move=> x; split; [|split]; split=> *; rewrite ?realn ?real1.
have [|||||c [_ l]] := C52_two_colours He _ _ _ _ _ eV; last by split.
- by move=> A _ _; exact: su1.
- by split; rewrite /= ?rpredM ?realV ?realn ?real1.
- by move=> [|[|//]] [|[|//]] d _.
- by move=> [|//] d _.
move=> x mu; rewrite /U0; case: ifP => _; last exact: su1.
split; last by rewrite -scaleN1r detZ det1 mulr1 sqrrN expr1n.
by rewrite /unitary daggerE -scaleN1r htransZ htrans1 rmorphN rmorph1 -scalemxAl -scalemxAr scalerA mulrNN !mul1r scale1r mulmx1.
Qed.
Example fix_strict : exists (eig : 'M[C]_3 -> 'M[C]_3 * 'rV[C]_3) (U : gauge C 3 L) g,
  good_hermitian_eig eig /\ (forall x mu, special_unitary (U x mu)) /\
  relaxation (@box_odd 1 1 1 1) eig U 0 = Some g /\ landau U < landau (gauge_transform g U).
Proof.
have [eig He] := hermitian_eig_exists C 3; have [g [eg hg]] := relaxation_w He.
exists eig, (Uw C), g; split=> //; split; first exact: Uw_su.
by split=> //; rewrite -!landauE; exact: functional_w.
Qed.
Example best_three : choose [:: 1; 3%:R; 2%:R : C] = 1%N.
Proof. by rewrite /choose /= ltr01 /= (_ : 1 < 3%:R :> C) ?ltr1n //= ltr_nat. Qed.
End Example_.

Print Assumptions C52_two_colours.
Print Assumptions C52_unitary_copy.
Print Assumptions C52_special_unitary_refuted.
Print Assumptions C52_defined.
Print Assumptions C52_best_copy.
Print Assumptions C52_best_copy_refuted.
Print Assumptions C71_relaxation.

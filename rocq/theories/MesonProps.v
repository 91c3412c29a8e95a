(** C83: the meson correlators. *)
From Coq Require Import ZArith.
From mathcomp Require Import all_ssreflect all_algebra all_field.
From Verif Require Import GaugeModel GaugeSpec GaugeProofs GaugeProofs2 GaugeProofs3 LoopModel LoopGrid GammaModel DiracModel DiracSpec DiracProofs DiracProofs2.
From Verif Require Import StochModel StochSpec StochProofs StochProofs2 StochProofs3 StochProofs4 StochProofs5 MesonModel MesonSpec MesonProofs MesonProofs2 MesonProofs3 MesonProofs4.
Import GRing.Theory Num.Theory Order.POrderTheory.
Set Implicit Arguments.
Unset Strict Implicit.
Unset Printing Implicit Defensive.
Local Open Scope ring_scope.

Lemma wilson_solves (C : numClosedFieldType) (n : nat) (L : lattice) (kappa : C) (U : L -> 'I_4 -> 'M[C]_n) old S :
  solves (wilson_multiply kappa false U old) S -> solves (dirac kappa U) S.
Proof. by move=> sol v x a c; rewrite -[RHS](sol v) wilson_correct. Qed.

Lemma factorE (C : numClosedFieldType) (kappa z : C) : factor kappa * z = 4%:R * kappa ^+ 2 * z.
Proof. by rewrite /factor expr2 mulrA. Qed.

(** The pion correlator: pseudoscalar fields at both ends; never negative. *)
Theorem C83_pion (C : numClosedFieldType) (n : nat) (G : grid) (D S : (G -> 'I_4 -> 'I_n -> C) -> G -> 'I_4 -> 'I_n -> C) (kappa : C) (o : G) :
  linear_on D -> solves D S -> (forall v w, inner v (g5 (D w)) = inner (g5 (D v)) w) -> (forall mu, coord o mu = 0%N) ->
  pion_exact S kappa = [seq 4%:R * kappa ^+ 2 * correlator S o (gamma_five C) (gamma_five C) t | t <- iota 0 (ext G d3)]
  /\ forall t, 0 <= pion_operator S t.
Proof.
move=> lin sol herm o0; split.
  apply/eq_in_map => t; rewrite mem_iota add0n => /andP [_ lt].
  by rewrite (pion_correlator lin sol o0 herm) // factorE.
move=> t; do 5! [apply: sumr_ge0 => ? _]; rewrite mulrC -normCK.
by rewrite (Creal_ReP _ _) ?exprn_ge0 ?normr_ge0 // ger0_real // exprn_ge0.
Qed.
(** The numbers called scalar are the correlator of the time component of the vector current. *)
Theorem C83_vector (C : numClosedFieldType) (n : nat) (G : grid) (D S : (G -> 'I_4 -> 'I_n -> C) -> G -> 'I_4 -> 'I_n -> C) (kappa : C) (o : G) :
  linear_on D -> solves D S -> (forall v w, inner v (g5 (D w)) = inner (g5 (D v)) w) -> (forall mu, coord o mu = 0%N) ->
  scalar_exact S kappa = [seq 4%:R * kappa ^+ 2 * correlator S o (gamma C d3) (gamma C d3) t | t <- iota 0 (ext G d3)].
Proof.
move=> lin sol herm o0; apply/eq_in_map => t; rewrite mem_iota add0n => /andP [_ lt].
by rewrite (scalar_correlator lin sol o0 herm) // factorE.
Qed.
(** They are not the scalar correlator, not even up to the sign on each configuration: a configuration of SU(2). *)
Theorem C83_scalar_refuted (C : numClosedFieldType) :
  exists (U : box_grid 0 0 0 0 -> 'I_4 -> 'M[C]_2) (kappa : C) S (o : box_grid 0 0 0 0),
  [/\ forall x mu, unitary (U x mu) /\ \det (U x mu) = 1, kappa \is Num.real, forall old, solves (wilson_multiply kappa false U old) S,
      forall mu, coord o mu = 0%N &
      scalar_exact S kappa <> [seq 4%:R * kappa ^+ 2 * correlator S o 1%:M 1%:M t | t <- iota 0 (ext (box_grid 0 0 0 0) d3)]].
Proof.
exists (@twisted C), 6%:R^-1, (@solve1 C), (ord0, ord0, ord0, ord0).
have o0 : forall mu, coord ((ord0, ord0, ord0, ord0) : box_grid 0 0 0 0) mu = 0%N by apply: ord4P.
split => //.
- move=> x mu; rewrite /twisted; case: ifP => _; last by split; [exact: unitary1|exact: det1].
  split; last first.
    by rewrite /twist det_diag big_ord_recl big_ord1 !mxE /eps /= mulr1 mulrN1 mulrN -expr2 sqrCi opprK.
  have e : dagger (twist C) = diag_mx (\row_c - ('i * eps C c)).
    apply/matrixP => a b; rewrite /twist !mxE eq_sym; case: eqP => [->|_]; last by rewrite !mulr0n conjC0.
    by rewrite !mulr1n rmorphM conjCi eps_conj mulNr.
  rewrite /unitary e /twist mulmx_diag; apply/matrixP => a b; rewrite !mxE.
  by rewrite mulrN mulrACA eps2 mulr1 -expr2 sqrCi opprK.
- by rewrite realV realn.
- by move=> old v x a c; rewrite wilson_correct; exact: solves1.
- rewrite /scalar_exact (_ : ext (box_grid 0 0 0 0) d3 = 1%N) //= (vector1 C o0) (scalar1 C o0) factorE => - [].
  move/mulfI => h; have k0 : 4%:R * 6%:R^-1 ^+ 2 != 0 :> C by rewrite mulf_neq0 ?expf_neq0 ?invr_neq0 ?pnatr_eq0.
  by move/eqP: (h k0); rewrite -subr_eq0 opprK -natrD pnatr_eq0.
Qed.
(** The numbers called ps: minus the sum of the two correlators of the axial current with the pseudoscalar field. *)
Theorem C83_ps (C : numClosedFieldType) (n : nat) (G : grid) (D S : (G -> 'I_4 -> 'I_n -> C) -> G -> 'I_4 -> 'I_n -> C) (kappa : C) (o : G) :
  linear_on D -> solves D S -> (forall v w, inner v (g5 (D w)) = inner (g5 (D v)) w) -> (forall mu, coord o mu = 0%N) ->
  let axial := gamma C d3 *m gamma_five C in
  ps_exact S kappa = [seq - (4%:R * kappa ^+ 2 * (correlator S o (gamma_five C) axial t + correlator S o axial (gamma_five C) t)) | t <- iota 0 (ext G d3)].
Proof.
move=> lin sol herm o0 axial; apply/eq_in_map => t; rewrite mem_iota add0n => /andP [_ lt].
by rewrite (ps_correlator lin sol o0 herm) // factorE mulrN.
Qed.
(** The PCAC mass: the symmetric difference of ps over four times the pion correlator, periodic in time. *)
Theorem C83_pcac (C : numClosedFieldType) (n : nat) (G : grid) (D S : (G -> 'I_4 -> 'I_n -> C) -> G -> 'I_4 -> 'I_n -> C) (o : G) :
  linear_on D -> solves D S -> (forall v w, inner v (g5 (D w)) = inner (g5 (D v)) w) -> (forall mu, coord o mu = 0%N) ->
  let axial := gamma C d3 *m gamma_five C in
  let P t := correlator S o (gamma_five C) (gamma_five C) t in
  let A t := correlator S o (gamma_five C) axial t + correlator S o axial (gamma_five C) t in
  let T := ext G d3 in
  pcac_mass S = [seq if P t == 0 then None else Some ((A (t.+1 %% T)%N - A ((t + (T - 1)) %% T)%N) / (4%:R * P t)) | t <- iota 0 T].
Proof.
move=> lin sol herm o0 axial P A T; apply/eq_in_map => t; rewrite mem_iota add0n => /andP [_ lt].
have T0 : (0 < T)%N by exact: leq_ltn_trans lt.
rewrite /pcac_at (pion_correlator lin sol o0 herm) // mulf_eq0 pnatr_eq0 /= -/(P t); case: ifP => // _; congr Some; congr (_ / _).
have -> : (if t == (T - 1)%N then 0%N else (t + 1)%N) = (t.+1 %% T)%N.
  case: eqP => [->|ne]; first by rewrite subn1 prednK // modnn.
  rewrite addn1 modn_small // ltn_neqAle lt andbT; apply/eqP => h; apply: ne; by rewrite -/T -h subn1.
have -> : (if t == 0%N then (T - 1)%N else (t - 1)%N) = ((t + (T - 1)) %% T)%N.
  case: eqP => [->|/eqP]; first by rewrite add0n modn_small // subn1 prednK.
  rewrite -lt0n => t0; rewrite addnBA // addnC -addnBA // modnDl modn_small // subn1.
  exact: leq_ltn_trans (leq_pred _) lt.
rewrite !(ps_correlator lin sol o0 herm) ?ltn_pmod // -/(A _) -/(A _); by rewrite opprK addrC.
Qed.
(** For free quarks on a lattice with three time slices the PCAC mass written is zero, although the correlator of the axial
    current with the pseudoscalar field has a symmetric difference that is not zero. *)
Theorem C83_pcac_refuted (C : numClosedFieldType) (n : nat) : (0 < n)%N ->
  exists (U : box_grid 0 0 0 2 -> 'I_4 -> 'M[C]_n) (kappa : C) S (o : box_grid 0 0 0 2),
  let A t := correlator S o (gamma C d3 *m gamma_five C) (gamma_five C) t in
  [/\ forall x mu, unitary (U x mu), kappa \is Num.real, forall old, solves (wilson_multiply kappa false U old) S,
      forall mu, coord o mu = 0%N & pcac_mass S = nseq 3 (Some 0) /\ A 0%N - A 2%N != 0].
Proof.
move=> n0; exists (@unit_links C n 2), 10%:R^-1, (@solve3 C n), (ord0, ord0, ord0, ord0).
have o0 : forall mu, coord ((ord0, ord0, ord0, ord0) : box_grid 0 0 0 2) mu = 0%N by apply: ord4P.
have n14 : 5%:R / 14%:R != 0 :> C by rewrite mulf_neq0 ?invr_neq0 ?pnatr_eq0.
have nn : n%:R != 0 :> C by rewrite pnatr_eq0 -lt0n.
move=> A; split => //.
- by move=> x mu; exact: unitary1.
- by rewrite realV realn.
- by move=> old v x a c; rewrite wilson_correct; exact: solves3.
split; last first.
  rewrite /A !(axial3 _ _ o0) // !(al_site _ o0) // !(be_site _ o0) //= !mulr0 oppr0 sub0r opprK.
  by rewrite mulrN !mulf_neq0 ?oppr_eq0 ?mulf_neq0 ?invr_neq0 ?pnatr_eq0 // -lt0n.
have h t : (t < 3)%N -> pcac_at (@solve3 C n) t = Some 0.
  move=> lt; rewrite /pcac_at (pion3 _ _ o0) // !(ps3 _ _ o0).
  - rewrite subrr mul0r ifN // !mulf_neq0 ?pnatr_eq0 -?lt0n //.
    have p : 0 < al C (site (ord0, ord0, ord0, ord0) t) (ord0, ord0, ord0, ord0).
      by rewrite (al_site _ o0) //; case: ifP => _; rewrite !mulr_gt0 ?invr_gt0 ?ltr0n.
    rewrite gt_eqF // ltr_spaddl ?exprn_gt0 // -realEsqr (be_site _ o0) //.
    by case: ifP => _; [exact: real0|case: ifP => _; rewrite ?rpredN rpred_div ?realn].
  - by move: t lt => [|[|[|t]]].
  - by move: t lt => [|[|[|t]]].
by rewrite /pcac_mass (_ : ext _ _ = 3%N) //= !h.
Qed.
(** The numbers ps cancel: added over all the translations of a gauge field and of its time reflection they vanish. *)
Theorem C83_cancel (C : numClosedFieldType) (n : nat) (G : grid) (kappa : C) (theta : G -> G) (U : G -> 'I_4 -> 'M[C]_n) S S' (o : G) (t : nat) :
  kappa \is Num.real -> time_reflection theta -> (forall mu, coord o mu = 0%N) -> (t < ext G d3)%N ->
  (forall k old, solves (wilson_multiply kappa false (translated k U) old) (S k)) ->
  (forall k old, solves (wilson_multiply kappa false (translated k (reflected theta U)) old) (S' k)) ->
  \sum_(y : G) ps_operator (S (coord y)) t + \sum_(y : G) ps_operator (S' (coord y)) t = 0.
Proof.
move=> kr th o0 lt sol sol'.
have to y : translation (coord y) o = y by apply: coord_inj => mu; rewrite coord_translation o0 add0n modn_small // coord_lt.
pose z : 'I_4 -> nat := fun _ => 0%N; pose zf : G -> 'I_4 -> 'I_n -> C := fun _ _ _ => 0.
have one (V : G -> 'I_4 -> 'M[C]_n) W : (forall k old, solves (wilson_multiply kappa false (translated k V) old) (W k)) ->
    \sum_(y : G) ps_operator (W (coord y)) t = - \sum_(y : G) (correlator (W z) y (gamma_five C) (gamma C d3 *m gamma_five C) t
      + correlator (W z) y (gamma C d3 *m gamma_five C) (gamma_five C) t).
  move=> h; rewrite -sumrN; apply: eq_bigr => y _.
  have hd k : solves (dirac kappa (translated k V)) (W k) by apply: wilson_solves (h k zf).
  rewrite (ps_correlator (lin_dirac kappa (translated (coord y) V)) (hd _) o0 (fun v w => dirac_herm _ v w kr)) //.
  by congr (- (_ + _)); rewrite (correlator_translated (U := V) (k := coord y) o _ _ t (hd z) (hd _)) to.
rewrite (one U S sol) (one (reflected theta U) S' sol') -opprD.
have s1 : solves (dirac kappa U) (S z) by exact: (wilson_solves (sol z zf)).
have s2 : solves (dirac kappa (reflected theta U)) (S' z) by exact: (wilson_solves (sol' z zf)).
by rewrite (axial_cancel th (ltnW lt) s1 s2) oppr0.
Qed.
(** The origin: with t_source_origin = k the source is k steps after the origin. *)
Theorem C83_origin (C : numClosedFieldType) (n : nat) (G : grid) (kappa : C) (U : G -> 'I_4 -> 'M[C]_n) (k : nat) S S' old (o : G) :
  kappa \is Num.real -> (forall mu, coord o mu = if mu == d3 then (k %% ext G d3)%N else 0%N) ->
  solves (wilson_multiply kappa false U old) S -> solves (wilson_multiply kappa false (wrap k U) old) S' ->
  [/\ pion_exact S' kappa = [seq 4%:R * kappa ^+ 2 * correlator S o (gamma_five C) (gamma_five C) t | t <- iota 0 (ext G d3)],
      scalar_exact S' kappa = [seq 4%:R * kappa ^+ 2 * correlator S o (gamma C d3) (gamma C d3) t | t <- iota 0 (ext G d3)] &
      let axial := gamma C d3 *m gamma_five C in
      ps_exact S' kappa = [seq - (4%:R * kappa ^+ 2 * (correlator S o (gamma_five C) axial t + correlator S o axial (gamma_five C) t)) | t <- iota 0 (ext G d3)]].
Proof.
move=> kr oE /wilson_solves sol /wilson_solves sol'.
pose o' : G := iter (ext G d3 - k %% ext G d3) (sup d3) o.
have T0 : (0 < ext G d3)%N by exact: leq_ltn_trans (coord_lt o d3).
have o0 mu : coord o' mu = 0%N.
  rewrite /o' coord_iter oE; case: eqP => [->|//]; by rewrite subnKC ?modnn // ltnW // ltn_pmod.
have oo : iter k (sup d3) o' = o.
  apply: coord_inj => mu; rewrite coord_iter o0 add0n oE; by case: eqP => [->|].
have herm v w := dirac_herm (wrap k U) v w kr; have lin := lin_dirac kappa (wrap k U).
have e A B t : correlator S' o' A B t = correlator S o A B t by rewrite (correlator_wrap o' A B t sol sol') oo.
split.
- by rewrite (C83_pion kappa lin sol' herm o0).1; apply/eq_map => t; rewrite e.
- by rewrite (C83_vector kappa lin sol' herm o0); apply/eq_map => t; rewrite e.
- by rewrite (C83_ps kappa lin sol' herm o0); apply/eq_map => t; rewrite !e.
Qed.
(** None of the numbers written depends on the gauge. *)
Theorem C83_gauge (C : numClosedFieldType) (n : nat) (G : grid) (kappa : C) (U : G -> 'I_4 -> 'M[C]_n) om S S' old (o : G) :
  kappa \is Num.real -> (forall mu, coord o mu = 0%N) -> (forall y, unitary (om y)) ->
  solves (wilson_multiply kappa false U old) S -> solves (wilson_multiply kappa false (gauge_transform om U) old) S' ->
  [/\ pion_exact S' kappa = pion_exact S kappa, scalar_exact S' kappa = scalar_exact S kappa,
      ps_exact S' kappa = ps_exact S kappa & pcac_mass S' = pcac_mass S].
Proof.
move=> kr o0 un /wilson_solves sol /wilson_solves sol'.
have e A B t : correlator S' o A B t = correlator S o A B t by rewrite (correlator_gauge o A B t un sol sol').
have hV (V : G -> 'I_4 -> 'M[C]_n) v w := dirac_herm V v w kr; have linV (V : G -> 'I_4 -> 'M[C]_n) := lin_dirac kappa V.
split.
- by rewrite (C83_pion kappa (linV _) sol' (hV _) o0).1 (C83_pion kappa (linV _) sol (hV _) o0).1; apply/eq_map => t; rewrite e.
- by rewrite (C83_vector kappa (linV _) sol' (hV _) o0) (C83_vector kappa (linV _) sol (hV _) o0); apply/eq_map => t; rewrite e.
- by rewrite (C83_ps kappa (linV _) sol' (hV _) o0) (C83_ps kappa (linV _) sol (hV _) o0); apply/eq_map => t; rewrite !e.
- by rewrite (C83_pcac (linV _) sol' (hV _) o0) (C83_pcac (linV _) sol (hV _) o0); apply/eq_map => t; rewrite !e.
Qed.
(** The disconnected contributions written for one random source: their average over the noise is four times the trace. *)
Theorem C83_disconnected (C : numClosedFieldType) (n : nat) (G : grid) (D S : (G -> 'I_4 -> 'I_n -> C) -> G -> 'I_4 -> 'I_n -> C) (kappa : C) (t : nat) :
  linear_on D -> solves D S -> (t.+1 < ext G d3)%N ->
  let slice (j : G * 'I_4 * 'I_n) := coord j.1.1 d3 == t.+1 in
  let volume := (ext G d0 * ext G d1 * ext G d2)%:R in
  average (fun ts : {ffun 'I_4 -> tape n G} => nth 0 (eta_disconnected S kappa ts) t)
    = 4%:R * (2%:R * kappa * trace_on slice (fun v => g5 (S v)) / volume)
  /\ average (fun ts : {ffun 'I_4 -> tape n G} => nth 0 (scalar_disconnected S kappa ts) t)
    = 4%:R * (2%:R * kappa * trace_on slice S / volume).
Proof.
move=> lin sol lt slice volume; have linS := lin_solve lin sol.
have lt' : (t < ext G d3 - 1)%N by rewrite ltn_subRL add1n.
split.
- rewrite (avg_ext (g := fun ts : {ffun 'I_4 -> tape n G} => (2%:R * kappa / volume) * eta_operator S ts t.+1)).
    by rewrite avgZ (eta_average linS) -/slice mulrCA; congr (_ * _); rewrite mulrAC.
  by move=> ts; rewrite (nth_map 0%N) ?size_iota // nth_iota // add1n -/volume mulrAC.
- rewrite (avg_ext (g := fun ts : {ffun 'I_4 -> tape n G} => (2%:R * kappa / volume) * scalar_disconnected_operator S ts t.+1)).
    by rewrite avgZ (scalar_average linS) -/slice mulrCA; congr (_ * _); rewrite mulrAC.
  by move=> ts; rewrite (nth_map 0%N) ?size_iota // nth_iota // add1n -/volume mulrAC.
Qed.
(** Free quarks on a lattice with two time slices: the average is not the trace. *)
Theorem C83_disconnected_refuted (C : numClosedFieldType) (n : nat) : (0 < n)%N ->
  exists (U : box_grid 0 0 0 1 -> 'I_4 -> 'M[C]_n) (kappa : C) S,
  let slice (j : box_grid 0 0 0 1 * 'I_4 * 'I_n) := coord j.1.1 d3 == 1%N in
  [/\ forall x mu, unitary (U x mu), kappa \is Num.real, forall old, solves (wilson_multiply kappa false U old) S &
      average (fun ts : {ffun 'I_4 -> tape n (box_grid 0 0 0 1)} => nth 0 (scalar_disconnected S kappa ts) 0%N)
        <> 2%:R * kappa * trace_on slice S / (ext (box_grid 0 0 0 1) d0 * ext (box_grid 0 0 0 1) d1 * ext (box_grid 0 0 0 1) d2)%:R].
Proof.
move=> n0; exists (@unit_links C n 1), 16%:R^-1, (@solve2 C n) => slice; split.
- by move=> x mu; exact: unitary1.
- by rewrite realV realn.
- by move=> old v x a c; rewrite wilson_correct; exact: solves2.
have [_] := C83_disconnected (t := 0%N) 16%:R^-1 (lin_dirac _ _) (@solves2 C n) isT.
move=> -> /eqP; have := trace2 C (isT : (1 < 2)%N) n0; rewrite -/slice => nz.
rewrite -subr_eq0 -{2}[2%:R * _ * _ / _]mul1r -mulrBl (_ : 4%:R = 3%:R + 1) ?addrK; last by rewrite -(natrD _ 3 1).
by rewrite !mulf_eq0 !invr_eq0 !pnatr_eq0 (negPf nz).
Qed.
(** The first time slice is not written. *)
Theorem C83_slice_refuted (C : numClosedFieldType) (n : nat) (G : grid) (S : (G -> 'I_4 -> 'I_n -> C) -> G -> 'I_4 -> 'I_n -> C) (kappa : C) ts :
  (0 < ext G d3)%N -> [/\ size (pion_exact S kappa) = ext G d3, (size (eta_disconnected S kappa ts)).+1 = ext G d3
    & (size (scalar_disconnected S kappa ts)).+1 = ext G d3].
Proof. by move=> T0; rewrite !size_map !size_iota subn1 prednK. Qed.

(** A case: a heavy Wilson operator with any unitary links on an eight by four by four by six lattice. *)
Example C83_case (U : box_grid 7 3 3 5 -> 'I_4 -> 'M[algC]_3) :
  exists kappa S (o : box_grid 7 3 3 5) (theta : box_grid 7 3 3 5 -> box_grid 7 3 3 5),
  [/\ kappa != 0, kappa \is Num.real, solves (wilson_multiply kappa false U (fun _ _ _ => 0)) S,
      forall mu, coord o mu = 0%N & time_reflection theta]
  /\ [/\ linear_on (dirac kappa U), solves (dirac kappa U) S & forall v w, inner v (g5 (dirac kappa U w)) = inner (g5 (dirac kappa U v)) w].
Proof.
have [k0 h0 h] := heavy U.
have p : 0 < k0 / 2%:R by rewrite divr_gt0 ?ltr0n.
have [S sol] : exists S, solves (dirac (k0 / 2%:R) U) S.
  apply: h; rewrite gtr0_norm // ltr_pdivr_mulr ?ltr0n // mulr_natr mulr2n ltr_addl //.
have kr : k0 / 2%:R \is Num.real by exact: gtr0_real.
pose refl (i : 'I_6) : 'I_6 := Ordinal (ltn_pmod (6 - i) (isT : (0 < 6)%N)).
exists (k0 / 2%:R), S, (ord0, ord0, ord0, ord0), (fun x => (x.1, refl x.2)); split; last first.
  by split=> [||v w]; [exact: lin_dirac|exact: sol|exact: dirac_herm].
split=> //; first by rewrite gt_eqF.
- by move=> v x a c; rewrite wilson_correct /= sol.
- exact: ord4P.
- by move=> [[[x0 x1] x2] x3]; split=> //; apply: ord4P.
Qed.
(** A case for the cancellation: heavy quarks and links that are the same at every site. *)
Example C83_case_cancel (V : 'I_4 -> 'M[algC]_2) (theta : box_grid 3 3 3 5 -> box_grid 3 3 3 5) :
  exists kappa S S', let U : box_grid 3 3 3 5 -> 'I_4 -> 'M[algC]_2 := fun _ mu => V mu in
  [/\ kappa != 0, kappa \is Num.real,
    forall (k : 'I_4 -> nat) old, solves (wilson_multiply kappa false (translated k U) old) (S k) &
    forall (k : 'I_4 -> nat) old, solves (wilson_multiply kappa false (translated k (reflected theta U)) old) (S' k)].
Proof.
have [k1 p1 h1] := heavy (fun (_ : box_grid 3 3 3 5) mu => V mu).
have [k2 p2 h2] := heavy (reflected theta (fun (_ : box_grid 3 3 3 5) mu => V mu)).
have p : 0 < k1 * k2 / (k1 + k2) by rewrite divr_gt0 ?mulr_gt0 ?addr_gt0.
have [S sol] : exists S, solves (dirac (k1 * k2 / (k1 + k2)) (fun (_ : box_grid 3 3 3 5) mu => V mu)) S.
  by apply: h1; rewrite gtr0_norm // ltr_pdivr_mulr ?addr_gt0 // ltr_pmul2l // ltr_addr.
have [S' sol'] : exists S', solves (dirac (k1 * k2 / (k1 + k2)) (reflected theta (fun (_ : box_grid 3 3 3 5) mu => V mu))) S'.
  by apply: h2; rewrite gtr0_norm // ltr_pdivr_mulr ?addr_gt0 // mulrC ltr_pmul2l // ltr_addl.
exists (k1 * k2 / (k1 + k2)), (fun _ => S), (fun _ => S') => U; split; first by rewrite gt_eqF.
- exact: gtr0_real.
- by move=> k old v x a c; rewrite wilson_correct /= -[RHS](sol v).
- by move=> k old v x a c; rewrite wilson_correct /= -[RHS](sol' v).
Qed.

Print Assumptions C83_pion.
Print Assumptions C83_vector.
Print Assumptions C83_scalar_refuted.
Print Assumptions C83_ps.
Print Assumptions C83_pcac.
Print Assumptions C83_pcac_refuted.
Print Assumptions C83_cancel.
Print Assumptions C83_origin.
Print Assumptions C83_gauge.
Print Assumptions C83_disconnected.
Print Assumptions C83_disconnected_refuted.
Print Assumptions C83_slice_refuted.

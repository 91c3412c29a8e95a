(** Proofs: the disconnected contributions, and two configurations on which the propagator is known. *)
From Coq Require Import ZArith Ring Field.
From mathcomp Require Import all_ssreflect all_algebra.
From Verif Require Import GaugeModel GaugeSpec GaugeProofs GaugeProofs2 GaugeProofs3 LoopModel LoopGrid GammaModel GammaSpec GammaProofs DiracModel DiracSpec DiracProofs DiracProofs2 AdjProofs3.
From Verif Require Import StochModel StochSpec StochProofs StochProofs2 StochProofs3 StochProofs4 MesonModel MesonSpec MesonProofs MesonProofs2 MesonProofs3.
Import GRing.Theory Num.Theory.
Set Implicit Arguments.
Unset Strict Implicit.
Unset Printing Implicit Defensive.
Local Open Scope ring_scope.

Section Disconnected.
Variable C : numClosedFieldType.
Variable n : nat.
Variable G : grid.
Notation field := (G -> 'I_4 -> 'I_n -> C) (only parsing).
Notation average := (@average C _).
Variable S : field -> field.
Hypothesis linS : linear_on S.
Notation slice t := (fun j : G * 'I_4 * 'I_n => coord j.1.1 d3 == t).
Lemma diagonal_average x nu c : average (fun tp : tape n G => (noise C tp x nu c)^* * S (noise C tp) x nu c) = element S (x, nu, c) (x, nu, c).
Proof.
rewrite (@avg_ext _ _ _ (fun tp : tape n G => \sum_j element S (x, nu, c) j * (sg C tp (x, nu, c) * sg C tp j))); last first.
  move=> tp; have := op_expand (noise C tp) (x, nu, c) linS; rewrite {1}/at_ /= => ->.
  have -> : noise C tp x nu c = sg C tp (x, nu, c) by exact: (noise_sg C tp (x, nu, c)).
  rewrite sg_conj mulr_sumr; apply: eq_bigr => j _; by rewrite noise_sg mulrCA.
rewrite avg_sum (bigD1 (x, nu, c)) //= [X in _ + X]big1 ?addr0; last first.
  by move=> j /negPf ne; rewrite avgZ avg2 eq_sym ne mulr0.
by rewrite avgZ avg2 eqxx mulr1.
Qed.
Lemma dotr_average x mu nu : average (fun ts : {ffun 'I_4 -> tape n G} => dotr S ts x mu nu) = \sum_c element S (x, nu, c) (x, nu, c).
Proof.
rewrite /dotr avg_sum; apply: eq_bigr => c _.
by rewrite (avg_one (card_tape _) (fun tp => (noise C tp x nu c)^* * S (noise C tp) x nu c)) diagonal_average.
Qed.
Lemma sum3 (P : pred G) (F : G -> 'I_4 -> 'I_n -> C) : \sum_(x : G | P x) \sum_(a < 4) \sum_c F x a c = \sum_(j : G * 'I_4 * 'I_n | P j.1.1) F j.1.1 j.1.2 j.2.
Proof.
rewrite pair_big_dep /= pair_big_dep /=; apply: eq_big => [[[x a] c]|[[x a] c] _] //=.
by rewrite !andbT.
Qed.
Lemma fourE (z : C) : 4%:R * z = \sum_(mu < 4) z.
Proof. by rewrite sumr_const card_ord mulr_natl. Qed.
Lemma eta_average t : average (fun ts : {ffun 'I_4 -> tape n G} => eta_operator S ts t) = 4%:R * trace_on (slice t) (fun v => g5 (S v)).
Proof.
rewrite /eta_operator avg_sum /trace_on -(sum3 (fun x => coord x d3 == t) (fun x a c => element (fun v => g5 (S v)) (x, a, c) (x, a, c))).
rewrite mulr_sumr; apply: eq_bigr => x _; rewrite avg_sum fourE; apply: eq_bigr => mu _.
rewrite avg_sum; apply: eq_bigr => nu _.
rewrite (@avg_ext _ _ _ (fun ts : {ffun 'I_4 -> tape n G} => sgn C nu * dotr S ts x mu nu)); last first.
  by move=> ts; rewrite /sgn; case: ifP => _; rewrite ?mul1r ?mulN1r.
by rewrite avgZ dotr_average mulr_sumr; apply: eq_bigr => c _; rewrite element_g5.
Qed.
Lemma scalar_average t : average (fun ts : {ffun 'I_4 -> tape n G} => scalar_disconnected_operator S ts t) = 4%:R * trace_on (slice t) S.
Proof.
rewrite /scalar_disconnected_operator avg_sum /trace_on -(sum3 (fun x => coord x d3 == t) (fun x a c => element S (x, a, c) (x, a, c))).
rewrite mulr_sumr; apply: eq_bigr => x _; rewrite avg_sum fourE; apply: eq_bigr => mu _.
by rewrite avg_sum; apply: eq_bigr => nu _; rewrite dotr_average.
Qed.
End Disconnected.

(** Free quarks on a lattice with one spatial site. *)
Section Free.
Variable C : numClosedFieldType.
Add Ring CMes4 : (Crth C).
Add Field CMes4f : (Cfth C).
Variables n m : nat.
Notation G := (box_grid 0 0 0 m).
Notation field := (G -> 'I_4 -> 'I_n -> C) (only parsing).
Definition p3 (a : 'I_4) : 'I_4 := match nat_of_ord a with 0%N => d2 | 1%N => d3 | 2%N => d0 | _ => d1 end.
Lemma p3K a : p3 (p3 a) = a. Proof. by move: a; apply: ord4P. Qed.
Lemma gact3 (a : 'I_4) (f : 'I_4 -> C) : gact d3 a f = f (p3 a). Proof. by move: a; apply: ord4P. Qed.
Lemma spatial mu (x : G) : mu != d3 -> sup mu x = x.
Proof.
move=> ne; apply: coord_inj => nu; case: (nu =P mu) => [->|/eqP h]; last by rewrite coord_other.
rewrite coord_up; have := coord_lt x mu; have -> : ext G mu = 1%N by move: mu ne {nu}; apply: ord4P.
by rewrite modn1 ltnS leqn0 => /eqP ->.
Qed.
Lemma spatial' mu (x : G) : mu != d3 -> sdn mu x = x.
Proof. by move=> ne; rewrite -{1}(spatial x ne) supK. Qed.
Definition unit_links : G -> 'I_4 -> 'M[C]_n := fun _ _ => 1%:M.
Lemma mulv1 (w : 'I_n -> C) c : mulv 1%:M w c = w c.
Proof. by rewrite /mulv (bigD1 c) //= big1 ?addr0 ?mxE ?eqxx ?mul1r // => e /negPf ne; rewrite mxE eq_sym ne mul0r. Qed.
Lemma n2 : 2%:R = 1 + 1 :> C. Proof. by rewrite mulr2n. Qed.
Lemma n6 : 6%:R = (1 + 1) * (1 + 1 + 1) :> C. Proof. by rewrite (_ : 6 = 2 * 3)%N // natrM -n2 !mulrS mulr0n addr0 addrA. Qed.
Lemma hop_free (v : field) x a c : hopping unit_links v x a c =
  6%:R * v x a c + (v (sup d3 x) a c + v (sdn d3 x) a c) - (v (sup d3 x) (p3 a) c - v (sdn d3 x) (p3 a) c).
Proof.
have e (mu b : 'I_4) : up unit_links v x mu b c = v (sup mu x) b c by rewrite /up mulv1.
have e' (mu b : 'I_4) : dn unit_links v x mu b c = v (sdn mu x) b c by rewrite /dn htrans1 mulv1.
rewrite hoppingE sum4E.
have h (mu : 'I_4) : mu != d3 -> up unit_links v x mu a c - gact mu a (fun b => up unit_links v x mu b c)
         + (dn unit_links v x mu a c + gact mu a (fun b => dn unit_links v x mu b c)) = 2%:R * v x a c.
  move=> ne; rewrite -!gammaE e e' !spatial ?spatial' //.
  under eq_bigr => b _ do rewrite e spatial //.
  under [X in _ + (_ + X)]eq_bigr => b _ do rewrite e' spatial' //.
  rewrite n2; move: (\sum_(b < 4) _) (v x a c) => p q; cring_fold C; ring.
rewrite (h d0) // (h d1) // (h d2) // !gact3 !e !e' n6 n2.
move: (v x a c) (v (sup d3 x) a c) (v (sdn d3 x) a c) (v (sup d3 x) _ c) (v (sdn d3 x) _ c) => q1 q2 q3 q4 q5; cring_fold C; ring.
Qed.
Lemma around (x : G) : iter m.+1 (sup d3) x = x.
Proof.
apply: coord_inj => nu; rewrite coord_iter; case: eqP => // ->.
by rewrite (_ : ext G d3 = m.+1) // modnDr modn_small // (coord_lt x d3).
Qed.
End Free.

(** Three time slices, kappa = 1/10. *)
Section Three.
Variable C : numClosedFieldType.
Add Ring CMes5 : (Crth C).
Variable n : nat.
Notation G := (box_grid 0 0 0 2).
Notation field := (G -> 'I_4 -> 'I_n -> C) (only parsing).
Lemma sup3 (x : G) : sup d3 (sup d3 x) = sdn d3 x.
Proof. by apply: (can_inj (supK d3)); rewrite sdnK; exact: (around x). Qed.
Lemma sdn3 (x : G) : sdn d3 (sdn d3 x) = sup d3 x.
Proof. by rewrite -sup3 sdnK. Qed.
Definition solve3 (v : field) : field := fun x a c =>
  5%:R / 14%:R * (8%:R * v x a c + 3%:R * (v (sup d3 x) a c + v (sdn d3 x) a c) + (v (sdn d3 x) (p3 a) c - v (sup d3 x) (p3 a) c)).
Notation one := (1 : C).
Lemma n3 : 3%:R = 1 + 1 + 1 :> C. Proof. by rewrite !mulrS mulr0n addr0 addrA. Qed.
Lemma n8 : 8%:R = (1 + 1) * ((1 + 1) * (1 + 1)) :> C. Proof. by rewrite (_ : 8 = 2 * (2 * 2))%N // !natrM n2. Qed.
Lemma n10 : 10%:R = (1 + 1) * ((1 + 1) * (1 + 1) + 1) :> C.
Proof. by rewrite (_ : 10 = 2 * (2 * 2 + 1))%N // natrM natrD natrM n2. Qed.
Lemma n28 : 28%:R = (1 + 1) * (1 + 1) * ((1 + 1 + 1) * (1 + 1) + 1) :> C.
Proof. by rewrite (_ : 28 = (2 * 2) * (3 * 2 + 1))%N // natrM natrD !natrM n2 n3. Qed.
Lemma dirac10 (v : field) x a c : dirac 10%:R^-1 (@unit_links C n 2) v x a c
  = 10%:R^-1 * ((1 + 1) * (1 + 1) * v x a c - (v (sup d3 x) a c + v (sdn d3 x) a c) + (v (sup d3 x) (p3 a) c - v (sdn d3 x) (p3 a) c)).
Proof.
have e : v x a c = 10%:R^-1 * (10%:R * v x a c) by rewrite mulKf // pnatr_eq0.
rewrite /dirac hop_free {1}e n10 n6.
move: ((1 + 1) * ((1 + 1) * (1 + 1) + 1))^-1 (v x a c) (v (sup d3 x) a c) (v (sdn d3 x) a c) (v (sup d3 x) _ c) (v (sdn d3 x) _ c) => u q1 q2 q3 q4 q5; cring_fold C; ring.
Qed.
Lemma solves3 : solves (dirac 10%:R^-1 (@unit_links C n 2)) solve3.
Proof.
move=> v x a c; rewrite dirac10 /solve3 !sup3 !sdn3 !supK !sdnK !p3K.
have e : v x a c = 10%:R^-1 * (5%:R / 14%:R) * (28%:R * v x a c).
  rewrite [RHS]mulrA -[LHS]mul1r; congr (_ * _).
  have h10 : 10%:R != 0 :> C by rewrite pnatr_eq0.
  have h14 : 14%:R != 0 :> C by rewrite pnatr_eq0.
  apply: (mulfI h10); rewrite mulr1 !mulrA mulfV // mul1r; apply: (mulIf h14).
  by rewrite [RHS]mulrAC divfK // -!natrM.
rewrite [RHS]e n28 n8 n3.
move: (10%:R^-1) (5%:R / 14%:R) (v x a c) (v (sup d3 x) a c) (v (sdn d3 x) a c) (v (sup d3 x) _ c) (v (sdn d3 x) _ c) (v x (p3 a) c) => u w q1 q2 q3 q4 q5 q6; cring_fold C; ring.
Qed.
Notation g5m := (gamma_five C).
Notation g3 := (gamma C d3).
Lemma g3p a b : g3 a b = (p3 a == b)%:R.
Proof. by rewrite g3E mxE; move: a b; apply: ord4P; apply: ord4P. Qed.
Definition al (x o : G) : C := 5%:R / 14%:R * (8%:R * (x == o)%:R + 3%:R * ((sup d3 x == o)%:R + (sdn d3 x == o)%:R)).
Definition be (x o : G) : C := 5%:R / 14%:R * ((sdn d3 x == o)%:R - (sup d3 x == o)%:R).
Lemma prop3 x o (d c : 'I_n) : prop solve3 x o d c = (d == c)%:R *: (al x o *: 1%:M + be x o *: g3).
Proof.
apply/matrixP => a b; have h := g3p a b; move: (g3) h => Z h.
rewrite mxE /element /solve3 /= /unit_field ![in RHS]mxE h !xpair_eqE /al /be -!mulnb !natrM.
move: (5%:R / 14%:R) (8%:R : C) (3%:R : C) ((x == o)%:R : C) ((sup d3 x == o)%:R : C) ((sdn d3 x == o)%:R : C) ((a == b)%:R : C) ((p3 a == b)%:R : C) ((d == c)%:R : C) => q1 q2 q3 q4 q5 q6 q7 q8 q9.
cring_fold C; ring.
Qed.
Variable o : G.
Hypothesis o0 : forall mu, coord o mu = 0%N.
Let lD := lin_dirac (10%:R^-1 : C) (@unit_links C n 2).
Let k10 : (10%:R^-1 : C) \is Num.real. Proof. by rewrite realV realn. Qed.
Let herm v w := dirac_herm (@unit_links C n 2) v w k10.
Lemma correlator3 A B t : (t < 3)%N -> correlator solve3 o A B t
  = \sum_(x : G | coord x d3 == t) \sum_c \sum_d \tr (g5m *m A *m prop solve3 x o d c *m (B *m g5m) *m htrans (prop solve3 x o d c)).
Proof. by move=> lt; exact: (correlatorE solves3 o0 herm). Qed.
Lemma prop3C x (d c : 'I_n) : prop solve3 x o d c *m g3 = g3 *m prop solve3 x o d c.
Proof. by rewrite prop3 -scalemxAl -scalemxAr mulmxDl mulmxDr -!scalemxAl -!scalemxAr mul1mx mulmx1. Qed.
Lemma ps3 t : (t < 3)%N -> ps_operator solve3 t = 0.
Proof.
move=> lt; rewrite (ps_correlator lD solves3 o0 herm) // !correlator3 // -big_split /= big1 ?oppr0 // => x _.
rewrite -big_split /= big1 // => c _; rewrite -big_split /= big1 // => d _.
rewrite !g55 mul1mx mulmx1 -(mulmxA g3) g55 mulmx1 [g5m *m (g3 *m g5m)]mulmxA g53 !mulNmx -(mulmxA g3 g5m) g55 mulmx1.
by rewrite (raddfN (mxtrace_additive _ _)) /= prop3C subrr.
Qed.
Definition site (t : nat) : G := iter t (sup d3) o.
Lemma site_coord t : coord (site t) d3 = (t %% 3)%N.
Proof. by rewrite /site coord_iter eqxx o0 add0n. Qed.
Lemma same (x y : G) : (x == y) = (coord x d3 == coord y d3).
Proof.
apply/eqP/eqP => [->//|h]; apply: coord_inj; apply: ord4P => //.
- by have := coord_lt x d0; have := coord_lt y d0; rewrite /= !ltnS !leqn0 => /eqP -> /eqP ->.
- by have := coord_lt x d1; have := coord_lt y d1; rewrite /= !ltnS !leqn0 => /eqP -> /eqP ->.
- by have := coord_lt x d2; have := coord_lt y d2; rewrite /= !ltnS !leqn0 => /eqP -> /eqP ->.
Qed.
Lemma slice3 (F : G -> C) t : (t < 3)%N -> \sum_(x : G | coord x d3 == t) F x = F (site t).
Proof. by move=> lt; rewrite (big_pred1 (site t)) // => x; rewrite /= same site_coord modn_small. Qed.
Lemma b3 : [/\ ((0 %% 3)%N == 0%N) = true, ((1 %% 3)%N == 0%N) = false, ((2 %% 3)%N == 0%N) = false, ((3 %% 3)%N == 0%N) = true & ((4 %% 3)%N == 0%N) = false].
Proof. by []. Qed.
Lemma al_site t : (t < 3)%N -> al (site t) o = if t == 0%N then 5%:R / 14%:R * 8%:R else 5%:R / 14%:R * 3%:R.
Proof.
move=> lt; rewrite /al -[sup d3 (site t)]/(site t.+1).
have -> : sdn d3 (site t) = site t.+2 by rewrite -sup3.
rewrite !same !site_coord o0.
by case: t lt => [|[|[|t]]] // _; case: b3 => h0 h1 h2 h3 h4; rewrite ?h0 ?h1 ?h2 ?h3 ?h4 /= !(mulr0, addr0, add0r, mulr1).
Qed.
Lemma be_site t : (t < 3)%N -> be (site t) o = if t == 0%N then 0 else if t == 1%N then 5%:R / 14%:R else - (5%:R / 14%:R).
Proof.
move=> lt; rewrite /be -[sup d3 (site t)]/(site t.+1).
have -> : sdn d3 (site t) = site t.+2 by rewrite -sup3.
rewrite !same !site_coord o0.
by case: t lt => [|[|[|t]]] // _; case: b3 => h0 h1 h2 h3 h4; rewrite ?h0 ?h1 ?h2 ?h3 ?h4 /= !(subrr, subr0, sub0r, mulr0, mulr1, mulrN1).
Qed.
Lemma al_real x : (al x o)^* = al x o.
Proof. by apply/CrealP; rewrite /al; repeat first [exact: realn | rewrite realV | apply: realM | apply: realD]. Qed.
Lemma be_real x : (be x o)^* = be x o.
Proof. by apply/CrealP; rewrite /be; repeat first [exact: realn | rewrite realV | apply: realM | apply: realB]. Qed.
Lemma mm3 x (d c : 'I_n) : prop solve3 x o d c *m htrans (prop solve3 x o d c)
  = (d == c)%:R *: ((al x o ^+ 2 + be x o ^+ 2) *: 1%:M + (2%:R * (al x o * be x o)) *: g3).
Proof.
rewrite prop3 htransZ htransD !htransZ g3H htrans1 al_real be_real conjC_nat -scalemxAl -scalemxAr scalerA -natrM mulnb andbb.
congr (_ *: _); rewrite mulmxDl !mulmxDr -!scalemxAl -!scalemxAr g33 !mul1mx !mulmx1 !scalerA.
rewrite (mulrC (be x o)) n2 mulrDl mul1r !scalerDl -!expr2.
by rewrite [X in _ + X = _]addrC addrACA.
Qed.
Lemma tr13 : \tr (1%:M : 'M[C]_4) = 4%:R. Proof. exact: mxtrace1. Qed.
Lemma tr33 : \tr g3 = 0.
Proof. by rewrite /mxtrace sum4E !g3p /= !addr0. Qed.
Lemma sum_delta (z : C) : \sum_c \sum_(d < n) (d == c)%:R * z = n%:R * z.
Proof.
rewrite (eq_bigr (fun=> z)); first by rewrite sumr_const card_ord mulr_natl.
by move=> c _; rewrite (bigD1 c) //= eqxx mul1r big1 ?addr0 // => d /negPf ->; rewrite mul0r.
Qed.
Lemma pion3 t : (t < 3)%N -> pion_operator solve3 t = n%:R * (4%:R * (al (site t) o ^+ 2 + be (site t) o ^+ 2)).
Proof.
move=> lt; rewrite (pion_correlator lD solves3 o0 herm) // correlator3 // slice3 // -sum_delta.
apply: eq_bigr => c _; apply: eq_bigr => d _; rewrite g55 mul1mx mulmx1 mm3 mxtraceZ mxtraceD !mxtraceZ tr13 tr33 mulr0 addr0.
by rewrite [4%:R * _]mulrC.
Qed.
Lemma axial3 t : (t < 3)%N -> correlator solve3 o (g3 *m g5m) g5m t = - (n%:R * (8%:R * (al (site t) o * be (site t) o))).
Proof.
move=> lt; rewrite correlator3 // slice3 // -mulrN -sum_delta.
apply: eq_bigr => c _; apply: eq_bigr => d _.
rewrite g55 mulmx1 [g5m *m (g3 *m g5m)]mulmxA g53 mulNmx -(mulmxA g3 g5m) g55 mulmx1 -mulmxA mm3 mulNmx -scalemxAr mulmxDr -!scalemxAr.
rewrite g33 mulmx1 (raddfN (mxtrace_additive _ _)) /= mxtraceZ mxtraceD !mxtraceZ tr13 tr33 mulr0 add0r -mulrN; congr (_ * - _).
by rewrite mulrAC -natrM.
Qed.
End Three.

(** Two time slices, kappa = 1/16. *)
Section Two.
Variable C : numClosedFieldType.
Add Ring CMes6 : (Crth C).
Variable n : nat.
Notation G := (box_grid 0 0 0 1).
Notation field := (G -> 'I_4 -> 'I_n -> C) (only parsing).
Lemma sup2 (x : G) : sdn d3 x = sup d3 x.
Proof. by apply: (can_inj (supK d3)); rewrite sdnK; symmetry; exact: (around x). Qed.
Definition solve2 (v : field) : field := fun x a c => (5%:R * v x a c + v (sup d3 x) a c) / 3%:R.
Lemma n5 : 5%:R = (1 + 1) * (1 + 1) + 1 :> C. Proof. by rewrite (_ : 5 = 2 * 2 + 1)%N // natrD natrM n2. Qed.
Lemma n16 : 16%:R = (1 + 1) * ((1 + 1) * ((1 + 1) * (1 + 1))) :> C. Proof. by rewrite (_ : 16 = 2 * (2 * (2 * 2)))%N // !natrM n2. Qed.
Lemma n48 : 48%:R = (1 + 1) * ((1 + 1) * ((1 + 1) * (1 + 1))) * (1 + 1 + 1) :> C.
Proof. by rewrite (_ : 48 = 2 * (2 * (2 * 2)) * 3)%N // !natrM n2 n3. Qed.
Lemma dirac16 (v : field) x a c : dirac 16%:R^-1 (@unit_links C n 1) v x a c = 16%:R^-1 * (1 + 1) * (5%:R * v x a c - v (sup d3 x) a c).
Proof.
have e : v x a c = 16%:R^-1 * (16%:R * v x a c) by rewrite mulKf // pnatr_eq0.
rewrite /dirac hop_free sup2 {1}e n6 n5; move: (16%:R^-1) => u; rewrite n16.
move: (v x a c) (v (sup d3 x) a c) (v (sup d3 x) _ c) => q1 q2 q3; cring_fold C; ring.
Qed.
Lemma solves2 : solves (dirac 16%:R^-1 (@unit_links C n 1)) solve2.
Proof.
move=> v x a c; rewrite dirac16 /solve2.
have -> : sup d3 (sup d3 x) = x by exact: (around x).
have e : v x a c = 16%:R^-1 * 3%:R^-1 * (48%:R * v x a c).
  rewrite [RHS]mulrA -[LHS]mul1r; congr (_ * _).
  by rewrite (_ : 48 = 3 * 16)%N // natrM mulrA mulfVK ?mulVf ?pnatr_eq0.
rewrite [RHS]e n48 n5; move: (16%:R^-1) (3%:R^-1) (v x a c) (v (sup d3 x) a c) => u w q1 q2; cring_fold C; ring.
Qed.
Lemma trace2 t : (t < 2)%N -> (0 < n)%N -> trace_on (fun j : G * 'I_4 * 'I_n => coord j.1.1 d3 == t) solve2 != 0.
Proof.
move=> lt n0; rewrite /trace_on (eq_bigr (fun=> 5%:R / 3%:R)).
  rewrite sumr_const -mulr_natr !mulf_neq0 ?invr_eq0 ?pnatr_eq0 // -lt0n; apply/card_gt0P.
  exists ((ord0, ord0, ord0, inord t), d0, Ordinal n0); apply/eqP; by rewrite /= inordK.
move=> [[x a] c] _; rewrite /element /solve2 /unit_field /= eqxx !xpair_eqE mulr1.
have -> : (sup d3 x == x) = false.
  apply/negP => /eqP h; have := coord_up x d3; rewrite h (_ : ext G d3 = 2%N) //; have := coord_lt x d3; rewrite (_ : ext G d3 = 2%N) //.
  by move: (coord x d3) => [|[|k]].
by rewrite addr0.
Qed.
End Two.

(** One site, kappa = 1/6, and links i and -i in the first direction. *)
Section One.
Variable C : numClosedFieldType.
Add Ring CMes7 : (Crth C).
Notation G := (box_grid 0 0 0 0).
Notation field := (G -> 'I_4 -> 'I_2 -> C) (only parsing).
Definition eps (c : 'I_2) : C := if c == ord0 then 1 else -1.
Lemma eps2 c : eps c * eps c = 1. Proof. by rewrite /eps; case: ifP => _; rewrite ?mulrNN mulr1. Qed.
Definition twist : 'M[C]_2 := diag_mx (\row_c ('i * eps c)).
Definition twisted : G -> 'I_4 -> 'M[C]_2 := fun _ mu => if mu == d0 then twist else 1%:M.
Definition solve1 (v : field) : field := fun x a c => - (3%:R * ('i * eps c)) * gact d0 a (fun b => v x b c).
Lemma alone mu (x : G) : sup mu x = x.
Proof. by case: (mu =P d3) => [->|/eqP ne]; [exact: (around x)|exact: spatial]. Qed.
Lemma alone' mu (x : G) : sdn mu x = x.
Proof. by rewrite -{1}(alone mu x) supK. Qed.
Lemma mulvd (w : 'I_2 -> C) c : mulv twist w c = 'i * eps c * w c.
Proof. by rewrite /mulv /twist (bigD1 c) //= big1 ?addr0 ?mxE ?eqxx ?mulr1n // => e /negPf ne; rewrite mxE mxE eq_sym ne mulr0n mul0r. Qed.
Lemma eps_conj c : (eps c)^* = eps c. Proof. by rewrite /eps; case: ifP => _; rewrite ?rmorphN conjC1. Qed.
Lemma twistH : htrans twist = - twist.
Proof.
apply/matrixP => a b; rewrite /htrans /twist !mxE eq_sym; case: eqP => [->|_]; last by rewrite !mulr0n conjC0 oppr0.
by rewrite !mulr1n rmorphM conjCi eps_conj mulNr.
Qed.
Lemma mulvN (A : 'M[C]_2) (w : 'I_2 -> C) c : mulv (- A) w c = - mulv A w c.
Proof. by rewrite /mulv -sumrN; apply: eq_bigr => e _; rewrite mxE mulNr. Qed.
Lemma hop1 (v : field) x a c : hopping twisted v x a c = 6%:R * v x a c - (1 + 1) * ('i * eps c * gact d0 a (fun b => v x b c)).
Proof.
rewrite hoppingE sum4E.
have h (mu : 'I_4) : mu != d0 -> up twisted v x mu a c - gact mu a (fun b => up twisted v x mu b c)
         + (dn twisted v x mu a c + gact mu a (fun b => dn twisted v x mu b c)) = 2%:R * v x a c.
  move=> ne.
  have e (b : 'I_4) : up twisted v x mu b c = v x b c by rewrite /up /twisted (negPf ne) mulv1 alone.
  have e' (b : 'I_4) : dn twisted v x mu b c = v x b c by rewrite /dn /twisted (negPf ne) htrans1 mulv1 alone'.
  rewrite -!gammaE e e'.
  under eq_bigr => b _ do rewrite e.
  under [X in _ + (_ + X)]eq_bigr => b _ do rewrite e'.
  rewrite n2; move: (\sum_(b < 4) _) (v x a c) => p q; cring_fold C; ring.
rewrite (h d1) // (h d2) // (h d3) //.
have e (b : 'I_4) : up twisted v x d0 b c = 'i * eps c * v x b c by rewrite /up /twisted eqxx mulvd alone.
have e' (b : 'I_4) : dn twisted v x d0 b c = - ('i * eps c * v x b c) by rewrite /dn /twisted eqxx twistH mulvN mulvd alone'.
rewrite -!gammaE e e'.
under eq_bigr => b _ do rewrite e mulrCA.
under [X in _ + (_ + X) + _ = _]eq_bigr => b _ do rewrite e' mulrN mulrCA.
rewrite sumrN -mulr_sumr n6 n2; move: (\sum_(b < 4) _) (v x a c) ('i * eps c) => p q r; cring_fold C; ring.
Qed.
Lemma gact00 (a : 'I_4) (f : 'I_4 -> C) : gact d0 a (fun b => gact d0 b f) = f a.
Proof. by move: a; apply: ord4P; rewrite /= ?mulNr ?mulrN mulrA -expr2 sqrCi mulN1r opprK. Qed.
Lemma gactZ (mu a : 'I_4) z (f : 'I_4 -> C) : gact mu a (fun b => z * f b) = z * gact mu a f.
Proof. by rewrite -!gammaE mulr_sumr; apply: eq_bigr => b _; rewrite mulrCA. Qed.
Lemma solves1 : solves (dirac 6%:R^-1 twisted) solve1.
Proof.
move=> v x a c; rewrite /dirac hop1 /solve1 gactZ gact00.
have n0 : 6%:R != 0 :> C by rewrite pnatr_eq0.
rewrite mulrBr mulKf // opprB addrC subrK.
have e : 'i * eps c * (- (3%:R * ('i * eps c)) * v x a c) = 3%:R * v x a c.
  have h : 'i * eps c * ('i * eps c) = -1 by rewrite mulrACA -expr2 sqrCi eps2 mulr1.
  move: h; move: ('i * eps c) (3%:R : C) (v x a c) => p q r h.
  by rewrite mulrA mulrN mulrCA h mulrN1 opprK.
by rewrite e [(1 + 1) * _]mulrA -n2 -natrM mulKf.
Qed.
Notation g5m := (gamma_five C).
Notation g3 := (gamma C d3).
Notation g0 := (gamma C d0).
Lemma g0E : g0 = \matrix_(a, b) (if (a + b == 3)%N then if (a < 2)%N then - 'i else 'i else 0).
Proof. by apply/matrixP => a b; rewrite !mxE; move: a b; apply: ord4P; apply: ord4P; rewrite /= gcE. Qed.
Lemma g0H : htrans g0 = g0.
Proof.
rewrite g0E; apply/matrixP => a b; rewrite /htrans !mxE; move: a b.
by apply: ord4P; apply: ord4P; rewrite /= ?rmorphN ?conjCi ?opprK ?conjC0.
Qed.
Lemma g00 : g0 *m g0 = 1%:M.
Proof.
rewrite g0E; apply/matrixP => a b; rewrite !mxE sum4E !mxE; move: a b.
by apply: ord4P; apply: ord4P; rewrite /= ?mulr0 ?mul0r ?addr0 ?add0r ?mulrN ?mulNr -?expr2 ?sqrCi ?opprK.
Qed.
Lemma g30 : g3 *m g0 = - (g0 *m g3).
Proof.
rewrite g0E g3E; apply/matrixP => a b; rewrite !mxE !sum4E !mxE; move: a b.
by apply: ord4P; apply: ord4P; rewrite /= ?mulr0 ?mul0r ?addr0 ?add0r ?mulr1 ?mul1r ?opprK ?oppr0.
Qed.
Lemma g50 : g5m *m g0 = - (g0 *m g5m).
Proof.
rewrite g5mE mul_mx_diag mul_diag_mx g0E; apply/matrixP => a b; rewrite !mxE; move: a b.
by apply: ord4P; apply: ord4P; rewrite /sgn /= ?mul0r ?mulr0 ?oppr0 ?mul1r ?mulr1 ?mulrN1 ?mulN1r ?opprK.
Qed.
Definition z1 c : C := - (3%:R * ('i * eps c)).
Lemma lone (x o : G) : x = o.
Proof. by case: x o => [[[x0 x1] x2] x3] [[[y0 y1] y2] y3]; rewrite (ord1 x0) (ord1 x1) (ord1 x2) (ord1 x3) (ord1 y0) (ord1 y1) (ord1 y2) (ord1 y3). Qed.
Lemma prop1 x o (d c : 'I_2) : prop solve1 x o d c = (d == c)%:R *: (z1 c *: g0).
Proof.
apply/matrixP => a b; rewrite mxE /element /solve1 -gammaE /= /unit_field.
have h : \sum_(b' < 4) g0 a b' * (((x, b', d) == (o, b, c))%:R : C) = (d == c)%:R * g0 a b.
  rewrite (bigD1 b) //= !xpair_eqE eqxx andbT (_ : (x == o) = true) /=; last first.
    by apply/eqP; exact: lone.
  by rewrite big1 ?addr0 1?mulrC // => b' /negPf ne; rewrite !xpair_eqE ne andbF mulr0.
rewrite h; move: (g0) => Z; rewrite !mxE; case: (d =P c) => [->|_]; last by rewrite !mul0r mulr0.
by rewrite !mul1r.
Qed.
Lemma z1z c : z1 c * (z1 c)^* = 9%:R.
Proof.
rewrite /z1 rmorphN !rmorphM /= conjCi eps_conj rmorph_nat mulrNN mulrACA (mulrACA 'i) -expr2 eps2 mulr1 mulrN -expr2 sqrCi opprK mulr1.
by rewrite -natrX.
Qed.
Variable o : G.
Hypothesis o0 : forall mu, coord o mu = 0%N.
Let k6 : (6%:R^-1 : C) \is Num.real. Proof. by rewrite realV realn. Qed.
Let herm v w := dirac_herm twisted v w k6.
Lemma correlator1 A B z : (g5m *m A *m g0 *m (B *m g5m) *m g0) = z *: 1%:M -> correlator solve1 o A B 0 = 72%:R * z.
Proof.
move=> h; rewrite (correlatorE solves1 o0 herm) // (big_pred1 o) => [|x]; last first.
  have -> : x = o by exact: lone.
  by rewrite (o0 d3) [RHS]eqxx.
rewrite (eq_bigr (fun=> 36%:R * z)) => [|c _].
  by rewrite sumr_const card_ord -mulr_natl mulrA -natrM.
rewrite (bigD1 c) //= [X in _ + X]big1 ?addr0 => [|d /negPf ne]; last first.
  by rewrite !prop1 ne !scale0r mulmx0 mul0mx mul0mx mxtrace0.
rewrite !prop1 eqxx !scale1r htransZ g0H -!(scalemxAr, scalemxAl) h !mxtraceZ mxtrace1 !mulrA.
by rewrite [X in X * _ * _]mulrC z1z mulrAC -natrM.
Qed.
Lemma scalar1 : correlator solve1 o 1%:M 1%:M 0 = - 72%:R.
Proof.
rewrite (@correlator1 _ _ (-1)) ?mulrN1 // mulmx1 mul1mx g50 !mulNmx -(mulmxA g0 g5m g5m) g55 mulmx1 g00.
by rewrite scaleN1r.
Qed.
Lemma vector1 : scalar_operator solve1 0 = 72%:R.
Proof.
rewrite (scalar_correlator (lin_dirac _ _) solves1 o0 herm) // (@correlator1 _ _ 1) ?mulr1 // scale1r.
rewrite -(mulmxA g5m g3 g0) g30 mulmxN !mulNmx (mulmxA g5m g0 g3) -(mulmxA (g5m *m g0) g3) (mulmxA g3 g3) g33 mul1mx.
by rewrite g50 !mulNmx opprK -(mulmxA g0) g55 mulmx1 g00.
Qed.
End One.

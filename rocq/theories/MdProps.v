(** Properties C37 (reversibility) and C38 (total time) of the molecular dynamics integrators, C39 (the HMC decision). *)
From Coq Require Import Reals.
From mathcomp Require Import all_ssreflect all_algebra.
From Verif Require Import GaugeModel GaugeSpec GaugeProofs GaugeProofs2 GaugeProofs3 ExpModel ExpSpec ExpProofs EigProofs RealField
  MdModel MdSpec MdProofs SmearProofs SmearProps.
Import Order.TTheory GRing.Theory Num.Theory.
Set Implicit Arguments.
Unset Strict Implicit.
Unset Printing Implicit Defensive.
Local Open Scope ring_scope.

(** ** C37 *)
Theorem C37_reversible (C : numClosedFieldType) (n : nat) (L : lattice) (cexp : C -> C) (eig : 'M[C]_n -> 'M[C]_n * 'rV[C]_n)
    (i : integrator C) (lv : levels C n L) (t : C) (s s' : state C n L) :
  good_cexp cexp -> good_eig eig -> good_integrator i -> good_levels lv -> t \is Num.real -> good_state s ->
  integrate (link_exp cexp eig) i lv t s = Some s' ->
  (exists s'', integrate (link_exp cexp eig) i lv t (flip s') = Some s'' /\ same s'' (flip s)) /\
  (exists s'', integrate (link_exp cexp eig) i lv (- t) s' = Some s'' /\ same s'' s).
Proof.
move=> Hc He gi gl tR g; rewrite /integrate; case: ifP => // d [<-]; split.
- eexists; split; first by [].
  have gw := good_words gi gl tR; rewrite !wordE.
  have gr := run_good cexp eig gw g.
  have fr := flip_run cexp He gw gr.
  refine (same_trans fr _); apply: flip_same.
  by apply: pal_inv => //; exact: pal_word.
- eexists; split; first by [].
  by rewrite !wordE neg_word; apply: pal_inv => //; [exact: pal_word|exact: good_words].
Qed.
(** The links stay special unitary and the momenta in the Lie algebra. *)
Theorem C37_stays_in_group (C : numClosedFieldType) (n : nat) (L : lattice) (cexp : C -> C) (eig : 'M[C]_n -> 'M[C]_n * 'rV[C]_n)
    (i : integrator C) (lv : levels C n L) (t : C) (s s' : state C n L) :
  good_cexp cexp -> good_eig eig -> good_integrator i -> good_levels lv -> t \is Num.real -> good_state s ->
  (forall x mu, special_unitary (links s x mu)) ->
  integrate (link_exp cexp eig) i lv t s = Some s' ->
  (forall x mu, special_unitary (links s' x mu)) /\ good_state s'.
Proof.
move=> Hc He gi gl tR g u; rewrite /integrate; case: ifP => // d [<-]; rewrite wordE.
by split; [apply: run_su|apply: run_good] => //; exact: good_words.
Qed.
(** The Wilson action and the improved action, nested four levels deep, give an instance. *)
Lemma action_good (C : numClosedFieldType) (n : nat) (L : lattice) (improved : bool) (beta : C) : beta \is Num.real ->
  good_force (@flow_action C n L improved beta).
Proof. by move=> bR; split; [exact: action_ext|exact: action_algebra]. Qed.
Example C37_case : exists (eig : 'M[CR]_3 -> 'M[CR]_3 * 'rV[CR]_3) (lv : levels CR 3 (box 3 3 3 3)) (s s' : state CR 3 (box 3 3 3 3)),
  good_eig eig /\ good_levels lv /\ size lv = 3%N /\ good_state s /\ (forall x mu, momenta s x mu != 0) /\
  integrate (link_exp (C:=CR) cexpR eig) (Omelyan (1 / 5%:R)) lv 1 s = Some s'.
Proof.
have [eig He] := good_eig_exists CR 3.
pose lv : levels CR 3 (box 3 3 3 3) := [:: (flow_action true 6%:R, 2%N); (flow_action false 1, 3%N); (flow_action true (- 1), 5%N)].
pose s : state CR 3 (box 3 3 3 3) := State (fun _ _ => 1%:M) (fun _ _ => tiny_exponent 1 1) (fun _ _ => 0).
have [a t _ e] := tiny_exponent_ok 1 (@ltr01 CR).
exists eig, lv, s, (integrate_from (link_exp (C:=CR) cexpR eig) (Omelyan (1 / 5%:R)) lv 1 s).
split=> //; split.
  move=> l [|[|[|//]]] <-; apply: action_good; [exact: realn|exact: rpred1|].
  by rewrite rpredN; exact: rpred1.
split=> //; split; first by move=> x mu.
split=> // x mu; apply/eqP => z; move/eqP: e; rewrite /= in z.
by rewrite z mulmx0 mxtrace0 oppr0 expr1n mulr1 eq_sym pnatr_eq0.
Qed.

(** ** C38 *)
(** Forces that do not depend on the links change the momenta by exactly the total time times their sum: each force acts for
    total time t. Without forces the links move along the one-parameter groups of their momenta for total time t. *)
Theorem C38_total_time (C : numClosedFieldType) (n : nat) (L : lattice) (cexp : C -> C) (eig : 'M[C]_n -> 'M[C]_n * 'rV[C]_n)
    (i : integrator C) (lv : levels C n L) (t : C) (s s' : state C n L) :
  good_cexp cexp -> good_eig eig -> nonsingular i -> all (fun l => 0 < l.2)%N lv -> good_state s ->
  integrate (link_exp cexp eig) i lv t s = Some s' ->
  ((forall l, List.In l lv -> forall U V x mu, l.1 U x mu = l.1 V x mu) ->
   forall x mu, momenta s' x mu = momenta s x mu - t *: \sum_(l <- lv) l.1 (links s) x mu) /\
  ((forall l, List.In l lv -> forall U x mu, l.1 U x mu = 0) ->
   forall x mu, momenta s' x mu = momenta s x mu /\ links s' x mu = link_exp cexp eig t (momenta s x mu) *m links s x mu).
Proof.
move=> Hc He ns p g; rewrite /integrate; case: ifP => // d [<-]; split=> h x mu; rewrite wordE.
- rewrite (run_constant _ _ _ _ _ (links s)); last exact: (allQ_word (Q := fun f => forall U V y nu, f U y nu = f V y nu)).
  by rewrite total_word // /whole add0r.
- have [|h1 ->] := run_free Hc He x mu (s := s) (fun y nu => proj1 (g y nu)) (w := word i lv t).
    exact: (allQ_word (Q := fun f => forall U y nu, f U y nu = 0)).
  split; first exact: h1.
  rewrite total_word // /whole big1 // addr0; congr (link_exp _ _ _ _ *m _); exact: mulr1.
Qed.
(** The example of C37 with constant forces, and with the fourth order composition. *)
Example C38_case : exists (eig : 'M[CR]_3 -> 'M[CR]_3 * 'rV[CR]_3) (lv : levels CR 3 (box 3 3 3 3)) (s s' : state CR 3 (box 3 3 3 3)) (r : CR),
  good_eig eig /\ nonsingular (FourthOrder r) /\ size lv = 2%N /\ good_state s /\
  (forall l, List.In l lv -> forall U V x mu, l.1 U x mu = l.1 V x mu) /\
  integrate (link_exp (C:=CR) cexpR eig) (FourthOrder r) lv 1 s = Some s' /\
  forall x mu, momenta s' x mu = - (tiny_exponent 1 1 + tiny_exponent 1 2%:R).
Proof.
have [eig He] := good_eig_exists CR 3.
pose lv : levels CR 3 (box 3 3 3 3) := [:: (fun _ _ _ => tiny_exponent 1 1, 2%N); (fun _ _ _ => tiny_exponent 1 2%:R, 3%N)].
pose s : state CR 3 (box 3 3 3 3) := State (fun _ _ => 1%:M) (fun _ _ => 0) (fun _ _ => 0).
have g : good_state s by move=> x mu; rewrite /= /anti_hermitian /traceless daggerE htrans0 oppr0 mxtrace0.
have cst l : List.In l lv -> forall U V x mu, l.1 U x mu = l.1 V x mu by move=> [|[|//]] <-.
have r3 : 3.-root (2%:R : CR) ^+ 3 = 2%:R by rewrite rootCK.
pose i := FourthOrder (3.-root (2%:R : CR)).
have E : integrate (link_exp (C:=CR) cexpR eig) i lv 1 s = Some (integrate_from (link_exp (C:=CR) cexpR eig) i lv 1 s) by [].
exists eig, lv, s, (integrate_from (link_exp (C:=CR) cexpR eig) i lv 1 s), (3.-root 2%:R).
do 4 (split; first by []); split; first exact: cst.
split; first exact: E.
have [h _] := C38_total_time cexpR_good He (i := i) r3 (lv := lv) isT g E.
by move=> x mu; rewrite (h cst) scale1r sub0r !big_cons big_nil addr0.
Qed.
(** With zero steps at the outermost level fourth_omelyan does nothing at all, whatever the time and the momenta. *)
Theorem C38_zero_steps_refuted (C : numClosedFieldType) (n : nat) (L : lattice) (cexp : C -> C) (eig : 'M[C]_n -> 'M[C]_n * 'rV[C]_n)
    (theta rho mu lambda t : C) (rest : levels C n L) (f : force C n L) (s : state C n L) (x : L) (nu : 'I_4) :
  unitary (links s x nu) -> link_exp cexp eig t (momenta s x nu) != 1%:M ->
  exists s', integrate (link_exp cexp eig) (FourthOmelyan theta rho mu lambda) ((f, 0%N) :: rest) t s = Some s' /\
             links s' x nu <> link_exp cexp eig t (momenta s x nu) *m links s x nu.
Proof.
move=> u /eqP ne; exists s; split=> // E; apply: ne.
by have := congr1 (fun M => M *m htrans (links s x nu)) E; rewrite -mulmxA !unitary_r // mulmx1.
Qed.
(** The variants for one force keep the step in an int: when the length of a step is below one, nothing moves. *)
Theorem C38_integer_step_refuted (C : numClosedFieldType) (n : nat) (L : lattice) (cexp : C -> C) (eig : 'M[C]_n -> 'M[C]_n * 'rV[C]_n)
    (trunc : C -> C) (theta rho mu lambda t : C) (k : nat) (f : force C n L) (s : state C n L) :
  good_cexp cexp -> good_eig eig -> (forall z, `|z| < 1 -> trunc z = 0) -> good_force f -> good_state s -> `|t / k%:R| < 1 ->
  same (omelyan_single (link_exp cexp eig) trunc lambda f k t s) s /\
  same (fourth_omelyan_single (link_exp cexp eig) trunc theta rho mu lambda f k t s) s.
Proof.
move=> Hc He ht gf g tk; rewrite /omelyan_single /fourth_omelyan_single ht //.
pose zero (o : op C n L) := match o with Kick f' e => e = 0 | Drift e => e = 0 end.
pose fix zeros (w : seq (op C n L)) : Prop := if w is o :: w' then zero o /\ zeros w' else True.
have Zc w w' : zeros w -> zeros w' -> zeros (w ++ w') by elim: w => //= o w IH [zo zw] zw'; split=> //; exact: IH.
have Zn m w : zeros w -> zeros (flatten (nseq m w)) by move=> zw; elim: m => //= m IH; exact: Zc.
have Z w s0 : good_state s0 -> zeros w -> same (run (link_exp cexp eig) w s0) s0.
  elim: w s0 => [|o w IH] s0 g0; first by [].
  move=> [zo zw]; have e : same (run_op (link_exp cexp eig) o s0) s0.
    case: o zo => [f' e|e] /= -> y nu /=; split=> //; first by rewrite scale0r subr0.
    by have [a _] := g0 y nu; rewrite link_exp_0 // mul1mx.
  have g1 : good_state (run_op (link_exp cexp eig) o s0) by move=> y nu; have [_ ->] := e y nu.
  exact: same_trans (IH _ g1 zw) e.
split.
- rewrite (omelyan_bodyE (lexp := link_exp cexp eig) _ _ _ _ _ (N' := fun t => [:: Drift n L t])) //; apply: Z => //.
  rewrite /omelyan_word_body mul0r !mulr0; split=> //; apply: (Zc) => //; apply: (Zc) => //.
  by apply: (Zn).
- rewrite (fourth_omelyan_bodyE (lexp := link_exp cexp eig) _ _ _ _ _ _ _ _ (N' := fun t => [:: Drift n L t])) //; apply: Z => //.
  by rewrite /fourth_omelyan_word_body !mulr0 mul0r; apply: (Zn).
Qed.
Example C38_integer_step_case : exists (trunc : CR -> CR) (t : CR), (forall z, `|z| < 1 -> trunc z = 0) /\ trunc 1 = 1 /\ `|t / 20%:R| < 1 /\ t = 1.
Proof.
exists (fun z => if `|z| < 1 then 0 else z), 1; split; first by move=> z ->.
rewrite normr1 ltxx; split=> //; split=> //; rewrite mul1r normfV normr_nat invf_lt1 ?ltr0n // ltr1n //.
Qed.
(** The variant for one force of the leap frog takes the step and not the length, and covers the number of steps times it. *)
Theorem C38_single_step (C : numClosedFieldType) (n : nat) (L : lattice) (cexp : C -> C) (eig : 'M[C]_n -> 'M[C]_n * 'rV[C]_n)
    (f : force C n L) (k : nat) (step : C) (s : state C n L) : (0 < k)%N ->
  leapfrog_single (link_exp cexp eig) f k step s = leapfrog_from (link_exp cexp eig) [:: (f, k)] (k%:R * step) s.
Proof.
by move=> k0; rewrite /leapfrog_single /= (mulrC k%:R) mulfK // pnatr_eq0 -lt0n.
Qed.

(** ** C39 *)
(** The Metropolis rule: the probability min(1, exp(-delta)). *)
Theorem C39_decision (C : numClosedFieldType) (rexp : C -> C) (uniform energyOld energyNew : C) :
  uniform \is Num.real -> energyOld \is Num.real -> energyNew \is Num.real -> uniform < 1 ->
  (forall z, z \is Num.real -> rexp z \is Num.real) -> (forall z, z \is Num.real -> 0 < z -> 1 < rexp z) ->
  (decide rexp uniform energyOld energyNew != 0%N) = (uniform < Num.min 1 (rexp (energyOld - energyNew))) /\
  (energyNew < energyOld -> decide rexp uniform energyOld energyNew = 1%N).
Proof.
move=> uR oR nR u1 eR e1; rewrite /decide opprB subr_lt0; split; last by move=> ->.
have dR : energyOld - energyNew \is Num.real by rewrite rpredB.
case: ifP => [lt|_].
- by rewrite /Order.min e1 ?subr_gt0 // u1.
- rewrite /Order.min; case: (boolP (1 < rexp _)) => h; first by rewrite (lt_trans u1 h) u1.
  by case: ifP.
Qed.
Theorem C39_decision_value (C : numClosedFieldType) (uniform value : C) : uniform < 1 ->
  (decide_value uniform value != 0%N) = (uniform < Num.min 1 value).
Proof.
move=> u1; rewrite /decide_value /Order.min; case: (boolP (1 < value)) => h; first by rewrite u1.
by case: ifP.
Qed.
Theorem C39_step (C : numClosedFieldType) (rexp : C -> C) (Env Mom : Type) (p : nat) (evolve : 'I_p.+1 -> Env * Mom -> Env * Mom)
    (energy : 'I_p.+1 -> Env -> C) (kinetic : 'I_p.+1 -> Mom -> C) (momenta : 'I_p.+1 -> Mom) (uniform : 'I_p.+1 -> C) (env : 'I_p.+1 -> Env) :
  let result := hmc_execute rexp evolve energy kinetic momenta uniform env in
  ((forall r, result r = env r) \/ (forall r, result r = (evolve r (env r, momenta r)).1)) /\
  (let proposal := evolve ord0 (env ord0, momenta ord0) in
   kinetic ord0 proposal.2 + energy ord0 proposal.1 < kinetic ord0 (momenta ord0) + energy ord0 (env ord0) ->
   forall r, result r = (evolve r (env r, momenta r)).1).
Proof.
rewrite /hmc_execute /metropolis /bcast /local_decision eqxx; split.
- by move: (_ != 0%N) => [|]; [right|left].
- by move=> lt r; rewrite /decide subr_lt0 lt.
Qed.
(** Two processes with different energies and different random numbers, where only the first would accept. *)
Example C39_case : hmc_execute (C := CR) (fun z => z) (p := 1) (fun _ e => (e.1.+1, e.2)) (fun r e => if r == ord0 then - e%:R else e%:R) (fun _ _ => 0)
  (fun _ => tt) (fun _ => 0) (fun r => 3%N) = (fun=> 4%N).
Proof. by rewrite /hmc_execute /metropolis /bcast /local_decision eqxx /decide !add0r subr_lt0 ltr_opp2 ltr_nat. Qed.
Print Assumptions C37_reversible.
Print Assumptions C37_stays_in_group.
Print Assumptions C37_case.
Print Assumptions C38_total_time.
Print Assumptions C38_zero_steps_refuted.
Print Assumptions C38_integer_step_refuted.
Print Assumptions C38_single_step.
Print Assumptions C39_decision.
Print Assumptions C39_decision_value.
Print Assumptions C39_step.

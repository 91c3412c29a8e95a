(** Proofs: the written means and errors, and operators that can be inverted. *)
From Coq Require Import ZArith.
From mathcomp Require Import all_ssreflect all_algebra.
From Verif Require Import GaugeModel GaugeSpec GaugeProofs GaugeProofs2 LoopModel GammaModel DiracModel DiracSpec DiracProofs DiracProofs2.
From Verif Require Import PertProofs VecProofs FForceProofs2 StochModel StochSpec StochProofs StochProofs2 StochProofs3 StochProofs4.
Import GRing.Theory Num.Theory Order.POrderTheory.
Set Implicit Arguments.
Unset Strict Implicit.
Unset Printing Implicit Defensive.
Local Open Scope ring_scope.

Section Written.
Variable C : numClosedFieldType.
Variable T : finType.
Hypothesis T0 : (0 < #|T|)%N.
Variable N : nat.
Notation runs := {ffun 'I_N -> T}.
Lemma size_runs (f : T -> C) (s : runs) : size [seq f (s i) | i <- enum 'I_N] = N.
Proof. by rewrite size_map size_enum_ord. Qed.
Lemma sum_runs (f g : T -> C) (s : runs) (h : C -> C) : \sum_(z <- [seq f (s i) | i <- enum 'I_N]) h z = \sum_i h (f (s i)).
Proof. by rewrite big_map big_enum. Qed.
Lemma mean_runs (f : T -> C) (s : runs) : (0 < N)%N -> mean [seq f (s i) | i <- enum 'I_N] = Some (the_mean f s).
Proof.
move=> N0; have := size_runs f s; have := sum_runs f f s id.
rewrite /mean; case: [seq _ | _ <- _] => [_ e|z r -> ->] //; by rewrite -e in N0.
Qed.
Lemma mean_estimate (f : T -> C) : (0 < N)%N ->
  exists m : runs -> C, (forall s : runs, mean [seq f (s i) | i <- enum 'I_N] = Some (m s))
    /\ average m = average f /\ spread m = spread f / N%:R.
Proof.
move=> N0; exists (the_mean f); split; first by move=> s; exact: mean_runs.
by rewrite avg_mean // spread_mean.
Qed.
Lemma sd_runs (f : T -> C) (s : runs) : (1 < N)%N ->
  standard_deviation [seq f (s i) | i <- enum 'I_N] = Some (sqrtC (squares f s / (N - 1)%:R)).
Proof.
move=> N1; have e := size_runs f s; have e1 := sum_runs f f s id.
have e2 := sum_runs f f s (fun z => (z - the_mean f s) * (z - the_mean f s)).
have m : (\sum_(z <- [seq f (s i) | i <- enum 'I_N]) z) / (size [seq f (s i) | i <- enum 'I_N])%:R = the_mean f s by rewrite e e1.
move: e e2 m; rewrite /standard_deviation; case: [seq _ | _ <- _] => [|z [|z' r]] e e2 m; [by rewrite -e in N1|by rewrite -e in N1|].
by rewrite m e2 e.
Qed.
Lemma sd_estimate (f : T -> C) : (1 < N)%N -> (forall t, f t \is Num.real) ->
  exists d : runs -> C, (forall s : runs, standard_deviation [seq f (s i) | i <- enum 'I_N] = Some (d s))
    /\ (forall s, 0 <= d s) /\ average (fun s => d s ^+ 2) = spread f.
Proof.
move=> N1 fr; have N0 : (0 < N)%N by exact: ltnW.
have mr s : the_mean f s \is Num.real by rewrite rpredM ?realV ?realn // /total rpred_sum.
exists (fun s => sqrtC (squares f s / (N - 1)%:R)); split; first by move=> s; exact: sd_runs.
split.
  move=> s; rewrite sqrtC_ge0 divr_ge0 ?ler0n //; apply: sumr_ge0 => i _.
  by rewrite -expr2 real_exprn_even_ge0 // rpredB.
rewrite (@avg_ext _ _ _ (fun s => squares f s / (N - 1)%:R)); last by move=> s; rewrite sqrtCK.
rewrite avgZr avg_squares // mulrAC mulfV ?mul1r; last by rewrite pnatr_eq0 subn_eq0 -ltnNge.
apply: avg_ext => t; have c : centred f t \is Num.real by rewrite rpredB ?fr // /average rpredM ?realV ?realn // rpred_sum.
by rewrite real_normK // expr2.
Qed.
End Written.

Section Solve.
Variable C : numClosedFieldType.
Variable n : nat.
Variable L : lattice.
Notation field := (L -> 'I_4 -> 'I_n -> C) (only parsing).
Lemma written_estimate (S : field -> field) (f : measured C -> C) N : (0 < N)%N ->
  exists re im : {ffun 'I_N -> tape n L} -> C,
    (forall s : {ffun 'I_N -> tape n L}, written S f [seq s i | i <- enum 'I_N] = (Some (re s), Some (im s)))
    /\ average re + 'i * average im = average (fun t => f (measure S t)).
Proof.
move=> N0; have t0 := @card_tape [finType of L * 'I_4 * 'I_n].
have [re [hr [ar _]]] := @mean_estimate C _ t0 N (fun t => 'Re (f (measure S t))) N0.
have [im [hi [ai _]]] := @mean_estimate C _ t0 N (fun t => 'Im (f (measure S t))) N0.
exists re, im; split; first by move=> s; rewrite /written -hr -hi -!map_comp.
by rewrite ar ai -avgZ -avgD; apply: avg_ext => t; rewrite -Crect.
Qed.
(** An operator without zero modes can be solved. *)
Lemma unit_ker m (A : 'M[C]_m) : (forall u : 'cV_m, A *m u = 0 -> u = 0) -> A \in unitmx.
Proof.
move=> h; rewrite -unitmx_tr -row_free_unit -kermx_eq0; apply/eqP/row_matrixP => i; rewrite row0.
apply: trmx_inj; rewrite trmx0; apply: h.
by rewrite -{1}[A]trmxK -trmx_mul -row_mul mulmx_ker row0 trmx0.
Qed.
Lemma solvable (D : field -> field) : linear_on D -> (forall v, feq (D v) (fun _ _ _ => 0) -> feq v (fun _ _ _ => 0)) ->
  exists S, solves D S.
Proof.
move=> lin ker; have z : vec (fun (_ : L) (_ : 'I_4) (_ : 'I_n) => 0 : C) = 0 by apply/matrixP => i j; rewrite !mxE.
have u : opmx D \in unitmx.
  apply: unit_ker => w h; rewrite -(unvecK w) -z; apply: vec_ext; apply: ker; apply: vec_inj.
  by rewrite vec_op // unvecK h z.
exists (fun v => unvec (invmx (opmx D) *m vec v)) => v; apply: vec_inj.
by rewrite vec_op // unvecK mulmxA mulmxV ?mul1mx.
Qed.
Lemma heavy (U : L -> 'I_4 -> 'M[C]_n) : exists2 k0 : C, 0 < k0 & forall kappa, `|kappa| < k0 -> exists S, solves (dirac kappa U) S.
Proof.
have lh : linear_on (hopping U) by split=> [v w h|al v w]; [exact: hopping_ext|exact: hopping_linear].
pose h := nrm (opmx (hopping U)); have h0 : 0 <= h by exact: nrm_ge0.
have h1 : 0 < h + 1 by rewrite ltr_paddl ?ltr01.
exists (h + 1)^-1; first by rewrite invr_gt0.
move=> k hk; apply: solvable; first exact: lin_dirac.
move=> v hv; suff z : vec v = 0.
  by move=> x a c; rewrite -(vecE v) z mxE.
have e : vec v = k *: (opmx (hopping U) *m vec v).
  rewrite -vec_op //; apply/matrixP => i j; rewrite !mxE.
  have := hv (enum_val i).1.1 (enum_val i).1.2 (enum_val i).2; rewrite /dirac => /eqP; rewrite subr_eq0 => /eqP ->; by [].
apply: nrm_eq0; set N := nrm (vec v); have N0 : 0 <= N by exact: nrm_ge0.
have le : N <= `|k| * (h * N) by rewrite /N {1}e nrmZ ler_wpmul2l ?normr_ge0 // nrmM.
have le2 : N <= (h + 1)^-1 * (h * N).
  by apply: (le_trans le); rewrite ler_wpmul2r ?mulr_ge0 // ltW.
have : (h + 1) * N <= h * N by rewrite -(ler_pmul2l h1) in le2; rewrite mulrA mulfV ?mul1r ?gt_eqF // in le2.
by rewrite mulrDl mul1r -[X in _ <= X]addr0 ler_add2l.
Qed.
End Solve.

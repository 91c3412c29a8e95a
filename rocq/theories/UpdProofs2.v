(** Local updates on the lattice and for more than two colours. *)
From mathcomp Require Import all_ssreflect all_algebra all_fingroup.
From Verif Require Import GaugeModel GaugeSpec GaugeProofs GaugeProofs2 UpdModel UpdProofs.
Import GRing.Theory Num.Theory.
Set Implicit Arguments.
Unset Strict Implicit.
Unset Printing Implicit Defensive.
Local Open Scope ring_scope.

Section Lattice.
Variable C : numClosedFieldType.
Variable L : lattice.
Implicit Types U : gauge C 2 L.
Definition group_valued U := forall x mu, special_unitary (U x mu).
Lemma set_link_same U x mu V : set_link U x mu V x mu = V.
Proof. by rewrite /set_link !eqxx. Qed.
Lemma set_link_other U x mu V y nu : (y != x) || (nu != mu) -> set_link U x mu V y nu = U y nu.
Proof. by rewrite /set_link -negb_and => /negbTE ->. Qed.
Lemma set_link_su U x mu V : group_valued U -> special_unitary V -> group_valued (set_link U x mu V).
Proof. by move=> H HV y nu; rewrite /set_link; case: ifP. Qed.
Lemma wilson_quat U x mu : group_valued U -> quat (wilson_staple U x mu).
Proof.
move=> H; rewrite wilson_stapleE; apply: quat_sum => nu _; apply: quatD; apply: su_quat; exact: transport_su.
Qed.
Lemma improved_quat u0 U x mu : u0 \is Num.real -> group_valued U -> quat (improved_staple u0 U x mu).
Proof.
move=> r H; rewrite improved_stapleE; apply: quat_sum => nu _.
have cp : c_plaq C \is Num.real by rewrite /c_plaq rpred_div // realn.
have cr : c_rect u0 \is Num.real by apply: c_rect_real.
by repeat apply: quatD; try apply: quatN; apply: quatZ => //; apply: su_quat; exact: transport_su.
Qed.
Lemma wilson_staple_local U x mu V : extent2 L -> wilson_staple (set_link U x mu V) x mu = wilson_staple U x mu.
Proof.
move=> e2; apply: eq_bigr => nu ne.
have s1 : sup nu x != x by apply/eqP; exact: e2.
have s2 : sdn nu x != x by apply/eqP => E; move: (@e2 nu (sdn nu x)); rewrite sdnK E.
by rewrite !set_link_other ?ne ?s1 ?s2 ?orbT.
Qed.
Definition action_step (act : gauge C 2 L -> C) (st : gauge C 2 L -> L -> 'I_4 -> 'M[C]_2) : Prop :=
  forall U x mu V, group_valued U -> quat (st U x mu) /\
    exists beta, act (set_link U x mu V) - act U = delta_action beta U V (st U x mu) x mu.
Lemma overrelax_link_ok act st : action_step act st -> forall U p, group_valued U ->
  group_valued (overrelax_link st U p) /\ act (overrelax_link st U p) = act U.
Proof.
move=> Ha U [x mu] H /=; rewrite /overrelax_link /=.
have [q [b E]] := Ha U x mu (overrelax2 (st U x mu) (U x mu)) H.
split; first by apply: set_link_su => //; apply: overrelax2_su.
by apply/eqP; rewrite -subr_eq0 E /delta_action overrelax2_action // subrr mulr0 mul0r.
Qed.
Lemma overrelax_sweep_ok act st : action_step act st -> forall order U, group_valued U ->
  group_valued (overrelax_sweep st U order) /\ act (overrelax_sweep st U order) = act U.
Proof.
move=> Ha; elim=> [|p order IH] U H //=; have [H1 H2] := overrelax_link_ok Ha p H.
by have [H3 H4] := IH _ H1; split=> //; rewrite H4.
Qed.
Lemma wilson_step beta : extent2 L -> action_step (wilson_action beta) (@wilson_staple C 2 L).
Proof.
move=> e2 U x mu V H; split; first exact: wilson_quat.
by exists beta; rewrite -!wilson_is_action wilson_change.
Qed.
Lemma improved_step beta u0 : u0 \is Num.real -> extent3 L -> action_step (symanzik_action beta u0) (improved_staple u0).
Proof.
move=> r e3 U x mu V H; split; first exact: improved_quat.
by exists beta; rewrite -!improved_is_action // improved_change.
Qed.
Lemma overrelax_link_twice U p : extent2 L -> group_valued U ->
  forall y nu, overrelax_link (@wilson_staple C 2 L) (overrelax_link (@wilson_staple C 2 L) U p) p y nu = U y nu.
Proof.
case: p => x mu e2 H y nu; rewrite /overrelax_link /= wilson_staple_local // set_link_same overrelax2K; last exact: wilson_quat.
by rewrite /set_link; case: (boolP ((y == x) && (nu == mu))) => [/andP [/eqP -> /eqP ->]|].
Qed.
Lemma overrelax_link_reflects U x mu (r : C) (V : 'M[C]_2) :
  0 < r -> special_unitary V -> wilson_staple U x mu = r *: V -> (10%:R ^+ 4)^-1 < r ^+ 2 ->
  overrelax_link (@wilson_staple C 2 L) U (x, mu) x mu = dagger V *m dagger (U x mu) *m dagger V.
Proof.
move=> r0 [uV dV] E h; rewrite /overrelax_link /= set_link_same E /overrelax2 detZ2 dV mulr1.
have rR : r \is Num.real by rewrite gtr0_real.
rewrite ger0_norm ?exprn_ge0 ?(Order.POrderTheory.ltW r0) // h htransZ (conj_Creal rR) -!scalemxAl -!scalemxAr !scalerA.
rewrite (_ : _ * r * r = 1) ?scale1r ?daggerE //.
by rewrite -mulrA -expr2 mulVf // expf_neq0 // (Order.POrderTheory.gt_eqF r0).
Qed.
Lemma overrelax_link_ext U V p : (forall y nu, U y nu = V y nu) ->
  forall y nu, overrelax_link (@wilson_staple C 2 L) U p y nu = overrelax_link (@wilson_staple C 2 L) V p y nu.
Proof.
move=> E y nu; rewrite /overrelax_link /set_link E.
by have -> : wilson_staple U p.1 p.2 = wilson_staple V p.1 p.2; [apply: eq_bigr => k _; rewrite !E | rewrite !E].
Qed.
Lemma overrelax_sweep_ext order U V : (forall y nu, U y nu = V y nu) ->
  forall y nu, overrelax_sweep (@wilson_staple C 2 L) U order y nu = overrelax_sweep (@wilson_staple C 2 L) V order y nu.
Proof. by elim: order U V => //= p order IH U V E; apply: IH; apply: overrelax_link_ext. Qed.
Lemma overrelax_sweep_back U order : extent2 L -> group_valued U ->
  forall y nu, overrelax_sweep (@wilson_staple C 2 L) (overrelax_sweep (@wilson_staple C 2 L) U order) (rev order) y nu = U y nu.
Proof.
move=> e2; elim: order U => // p order IH U H y nu.
have [H1 _] := overrelax_link_ok (wilson_step 0 e2) p H.
rewrite rev_cons -cats1 /overrelax_sweep foldl_cat /=.
rewrite -[RHS](overrelax_link_twice p e2 H); apply: overrelax_link_ext => y' nu'; exact: IH.
Qed.
End Lattice.

Section TwoMore.
Variable C : numClosedFieldType.
Notation M2 := 'M[C]_2.
Notation o := (ord0 : 'I_2).
Notation e := (ord_max : 'I_2).
Add Ring TwoRing : (Crth C).
(** Every group element is the matrix of a draw. *)
Lemma draw2_onto (V : M2) : special_unitary V -> exists2 u, unit4 u & draw2 u = V.
Proof.
move=> su; have [qa qb] := su_quat su; have [_ d] := su.
exists ('Re (V o o), 'Im (V o e), 'Re (V o e), 'Im (V o o)).
  do 4 (split; first by rewrite ?Creal_Re ?Creal_Im).
  move: d; rewrite (quat_det (su_quat su)) !normC2_Re_Im => <-; cring_fold C; ring.
have conj z : z^* = 'Re z - 'i * 'Im z :> C by rewrite {1}[z]Crect conj_pair ?Creal_Re ?Creal_Im.
by apply: eq2; rewrite mat2E ?qa ?qb ?conj -?Crect // opprB addrC.
Qed.
Lemma heatbath2_onto (S V : M2) : quat S -> \det S != 0 -> special_unitary V ->
  exists u0 u1 u2 u3, (u0 \is Num.real /\ u1 \is Num.real /\ u2 \is Num.real /\ u3 \is Num.real /\
    u0 ^+ 2 + u1 ^+ 2 + u2 ^+ 2 + u3 ^+ 2 = 1) /\ heatbath2 (u0, u1, u2, u3) S = Some V.
Proof.
move=> q d0 su; set r := sqrtC (\det S).
have r2 : r ^+ 2 = \det S by rewrite sqrtCK.
have r0 : r != 0 by rewrite sqrtC_eq0.
have rR : r \is Num.real by rewrite ger0_real // sqrtC_ge0 quat_det_ge0.
have su2 : special_unitary (htrans (r^-1 *: (V *m S))).
  apply: suH; apply: quat_su.
    by apply: quatZ; [rewrite rpredV | apply: quatM => //; exact: su_quat].
  by rewrite detZ2 det_mulmx (proj2 su) mul1r -r2 -exprMn mulVf // expr1n.
have [[[[u0 u1] u2] u3] hu Eu] := draw2_onto su2.
exists u0, u1, u2, u3; split; first exact: hu.
have [W [E [_ EW]]] := heatbath2_correct q d0 hu; rewrite E; congr Some.
move: EW; rewrite Eu htransK scalerA divff // scale1r => EW.
have : W *m S *m htrans S = V *m S *m htrans S by rewrite EW.
rewrite -!mulmxA !quatHr // !mul_mx_scalar => /(congr1 (fun M : M2 => (\det S)^-1 *: M)).
by rewrite !scalerA !mulVf // !scale1r.
Qed.
Lemma reunit2_defined (A : M2) : \det A != 0 -> exists2 V, reunit2 A = Some V & special_unitary V.
Proof.
move=> d0; case E: (reunit2 A) => [V|]; first by exists V => //; exact: reunit2_su E.
move: E; rewrite /reunit2; case: eqP => // /eqP; rewrite sqrtC_eq0 => n0 _.
have : `|A o o| ^+ 2 + `|A o e| ^+ 2 == 0 by apply/eqP; rewrite !normC2_Re_Im -[RHS](eqP n0) !expr2; cring_fold C; ring.
rewrite paddr_eq0 ?exprn_ge0 // !expf_eq0 /= !normr_eq0 => /andP [/eqP h1 /eqP h2].
by move: d0; rewrite det2 h1 h2 !mul0r subrr eqxx.
Qed.
Lemma reunit2_scaled (r : C) (A : M2) : 0 < r -> special_unitary A -> reunit2 (r *: A) = Some A.
Proof.
move=> r0 su; rewrite -[RHS]reunit2_fix // /reunit2 !mxE.
have rR : r \is Num.real by rewrite gtr0_real.
rewrite !(ReMl rR) !(ImMl rR).
set a := 'Im (A o o); set b := 'Im _; set c := 'Re _; set d := 'Re _.
have -> : r * a * (r * a) + r * b * (r * b) + r * c * (r * c) + r * d * (r * d) = r ^+ 2 * (a * a + b * b + c * c + d * d).
  by rewrite expr2; cring_fold C; ring.
have r0' : r != 0 by rewrite (Order.POrderTheory.gt_eqF r0).
have -> : sqrtC (r ^+ 2 * (a * a + b * b + c * c + d * d)) = r * sqrtC (a * a + b * b + c * c + d * d).
  by rewrite rootCMl ?exprn_ge0 ?(Order.POrderTheory.ltW r0) // sqrCK // (Order.POrderTheory.ltW r0).
have F x n : r * x / (r * n) = x / n by rewrite -mulf_div divff // mul1r.
by rewrite mulf_eq0 (negbTE r0') /= !F.
Qed.
End TwoMore.

Section Many.
Variable C : numClosedFieldType.
Add Ring CringU2 : (Crth C).
Variable n : nat.
Notation G := 'M[C]_n.+1.
Notation o := (ord0 : 'I_2).
Notation e := (ord_max : 'I_2).
Implicit Types (A B link staple plaquette : G) (k l : 'I_n.+1) (s t : 'M[C]_2).

Lemma mixE k l s A i j : mix k l s A i j =
  if i == k then s o o * A k j + s o e * A l j else if i == l then s e o * A k j + s e e * A l j else A i j.
Proof. by rewrite mxE. Qed.
Lemma mix_mul k l s A B : mix k l s A *m B = mix k l s (A *m B).
Proof.
apply/matrixP => i j; rewrite [LHS]mxE mixE.
under eq_bigr do rewrite mixE.
case: (i == k); last case: (i == l).
- by rewrite !mxE !mulr_sumr -big_split; apply: eq_bigr => r _ /=; rewrite mulrDl !mulrA.
- by rewrite !mxE !mulr_sumr -big_split; apply: eq_bigr => r _ /=; rewrite mulrDl !mulrA.
- by rewrite mxE.
Qed.
Lemma mix_comp k l s t A : k != l -> mix k l s (mix k l t A) = mix k l (s *m t) A.
Proof.
move=> ne; have ne' : (l == k) = false by rewrite eq_sym (negbTE ne).
apply/matrixP => i j; rewrite !mixE !mul2 !eqxx ne'.
by case: (i == k); last case: (i == l) => //; cring_fold C; ring.
Qed.
Lemma mix1 k l A : k != l -> mix k l 1%:M A = A.
Proof.
move=> ne; apply/matrixP => i j; rewrite mixE !mxE /= !mulr1n !mulr0n !mul1r !mul0r addr0 add0r.
by case: eqP => [->|_] //; case: eqP => [->|].
Qed.
Lemma mix_htrans k l s : k != l -> htrans (mix k l s 1%:M) = mix k l (htrans s) 1%:M.
Proof.
move=> ne; have ne' : (l == k) = false by rewrite eq_sym (negbTE ne).
apply/matrixP => i j; rewrite mixE !ht2 ![htrans _ _ _]mxE ![map_mx _ _ _ _]mxE mixE.
rewrite ![1%:M _ _]mxE [k == j]eq_sym [l == j]eq_sym.
case: (altP (i =P k)) => [->|ik]; case: (altP (j =P k)) => [->|jk]; rewrite ?eqxx ?ne' ?(negbTE ne) ?(negbTE jk) ?(negbTE ik) /=.
all: try (case: (altP (j =P l)) => [->|jl]).
all: try (case: (altP (i =P l)) => [->|il]).
all: rewrite ?eqxx ?ne' ?(negbTE ne) ?(negbTE jk) ?(negbTE ik) ?(negbTE jl) ?(negbTE il) /= ?mulr1n ?mulr0n.
all: rewrite ?(mulr0, mulr1, addr0, add0r) ?rmorph0 //.
all: try by rewrite eq_sym ?(negbTE jl) ?(negbTE il) mulr0n rmorph0.
all: try by rewrite ?[l == i]eq_sym ?[k == i]eq_sym ?(negbTE jl) ?(negbTE il) ?(negbTE ik) ?(negbTE jk) ?mulr0n ?mulr0 ?addr0 ?rmorph0.
- by case: (j == l); rewrite ?mulr1 ?mulr0 ?rmorph0.
- by rewrite eq_sym; case: (_ == _); rewrite ?rmorph1 ?rmorph0.
Qed.
Lemma mix_unitary k l s : k != l -> unitary s -> unitary (mix k l s 1%:M).
Proof. by move=> ne u; rewrite /unitary daggerE mix_htrans // mix_mul mul1mx mix_comp // unitary_r // mix1. Qed.
(** The determinant. *)
Lemma mat2_eta s : s = mat2 (s o o) (s o e) (s e o) (s e e).
Proof. by apply: eq2; rewrite !mat2E. Qed.
Section Det.
Variables (k l : 'I_n.+1) (A : G).
Hypothesis ne : k != l.
Let T a b c d := \det (mix k l (mat2 a b c d) A).
Let ne' : (l == k) = false. Proof. by rewrite eq_sym (negbTE ne). Qed.
Lemma T1 a b c d : T a b c d = a * T 1 0 c d + b * T 0 1 c d.
Proof.
apply: (@determinant_multilinear _ _ _ _ _ k).
- by apply/rowP => j; rewrite !mxE !eqxx /=; cring_fold C; ring.
- by apply/matrixP => i j; rewrite !mxE eq_sym (negbTE (neq_lift _ _)).
- by apply/matrixP => i j; rewrite !mxE eq_sym (negbTE (neq_lift _ _)).
Qed.
Lemma T2 a b c d : T a b c d = c * T a b 1 0 + d * T a b 0 1.
Proof.
apply: (@determinant_multilinear _ _ _ _ _ l).
- by apply/rowP => j; rewrite !mxE !eqxx ne' /=; cring_fold C; ring.
- by apply/matrixP => i j; rewrite !mxE; case: (_ == k) => //; rewrite eq_sym (negbTE (neq_lift _ _)).
- by apply/matrixP => i j; rewrite !mxE; case: (_ == k) => //; rewrite eq_sym (negbTE (neq_lift _ _)).
Qed.
Lemma T1010 : T 1 0 1 0 = 0.
Proof. by apply: (determinant_alternate ne) => j; rewrite !mxE !eqxx ne' /=. Qed.
Lemma T0101 : T 0 1 0 1 = 0.
Proof. by apply: (determinant_alternate ne) => j; rewrite !mxE !eqxx ne' /=. Qed.
Lemma T1001 : T 1 0 0 1 = \det A.
Proof.
congr (\det _); rewrite -[RHS](mix1 A ne); congr (mix k l _ A).
by apply: eq2; rewrite mat2E mxE.
Qed.
Lemma T0110 : T 0 1 1 0 = - \det A.
Proof.
have -> : T 0 1 1 0 = \det (xrow k l A).
  congr (\det _); apply/matrixP => i j; rewrite !mxE /=.
  rewrite !(mul1r, mul0r, addr0, add0r).
  by case: tpermP => [->|->|/eqP/negbTE -> /eqP/negbTE ->] //; rewrite ?eqxx ?ne'.
by rewrite xrowE det_mulmx det_perm odd_tperm ne expr1 mulN1r.
Qed.
Lemma mix_det s : \det (mix k l s A) = \det s * \det A.
Proof.
rewrite {1}(mat2_eta s) -/(T _ _ _ _) T1 (T2 1 0) (T2 0 1) T1010 T0101 T1001 T0110 det2; cring_fold C; ring.
Qed.
End Det.
Lemma mix_su k l s A : k != l -> special_unitary s -> special_unitary A -> special_unitary (mix k l s A).
Proof.
move=> ne [us ds] [uA dA]; split; last by rewrite mix_det // ds dA mulr1.
by rewrite -[A]mul1mx -mix_mul; apply: unitaryM => //; apply: mix_unitary.
Qed.

(** One subgroup. *)
Lemma substapleE k l (P : G) : substaple k l P = mat2 ((P k k + (P l l)^* ) / 2%:R) ((P k l - (P l k)^* ) / 2%:R)
  ((P l k - (P k l)^* ) / 2%:R) ((P l l + (P k k)^* ) / 2%:R).
Proof.
have X (z : C) : z = 'Re z + 'i * 'Im z := Crect z.
have Y (z : C) : z^* = 'Re z - 'i * 'Im z by rewrite {1}[z]X conj_pair ?Creal_Re ?Creal_Im.
rewrite /substaple; move: (2%:R^-1 : C) => h.
by apply: eq2; rewrite !mat2E !Y;
   [rewrite [X in _ = (X + _) * _](X (P k k))|rewrite [X in _ = (X + _) * _](X (P k l))
   |rewrite [X in _ = (X + _) * _](X (P l k))|rewrite [X in _ = (X + _) * _](X (P l l))]; cring_fold C; ring.
Qed.
Lemma real_half (x : C) : x \is Num.real -> x / 2%:R \is Num.real.
Proof. by move=> h; rewrite rpred_div // realn. Qed.
Lemma substaple_quat k l (P : G) : quat (substaple k l P).
Proof.
rewrite /substaple; apply: mat2_quat; apply: real_half; (apply: rpredD || apply: rpredB); try apply: rpredNr; solve [exact: Creal_Re | exact: Creal_Im].
Qed.
Lemma subdetE k l (P : G) : subdet k l P = \det (substaple k l P).
Proof. by rewrite mat2_det. Qed.
Lemma mix_substaple k l s (P : G) : k != l -> quat s -> substaple k l (mix k l s P) = s *m substaple k l P.
Proof.
move=> ne [qa qb]; have ne' : (l == k) = false by rewrite eq_sym (negbTE ne).
rewrite !substapleE !mixE !eqxx ne' qa qb.
by apply: eq2; rewrite mul2 !mat2E ?qa ?qb !(rmorphD, rmorphM, rmorphN, conjCK) /=; cring_fold C; ring.
Qed.
Lemma cube_simpl (S D : 'M[C]_2) : quat S -> \det S != 0 -> let r := sqrtC (\det S) in
  (r ^+ 3)^-1 *: (htrans S *m htrans (D *m htrans S) *m htrans S) = r^-1 *: (htrans D *m htrans S).
Proof.
move=> q d0 r; have r0 : r != 0 by rewrite sqrtC_eq0.
rewrite htransM htransK !mulmxA quatHl // mul_scalar_mx -scalemxAl scalerA; congr (_ *: _).
have <- : r ^+ 2 = \det S by rewrite sqrtCK.
by rewrite exprS invfM -mulrA mulVf ?mulr1 // expf_neq0.
Qed.
Lemma cm_step_ok u (st : G) link plaq k l st' : k != l -> unit4 (u k l) -> special_unitary link -> plaq = link *m st ->
  cm_step u (Some (link, plaq)) (k, l) = Some st' ->
  special_unitary st'.1 /\ st'.2 = st'.1 *m st /\
  'Re (st'.2 k k) + 'Re (st'.2 l l) = 2%:R * sqrtC (subdet k l plaq) * (u k l).1.1.1 /\
  (forall i, i != k -> i != l -> st'.2 i i = plaq i i).
Proof.
move=> ne hu su E; rewrite /= ; case: ifP => // /negbT; rewrite subdetE => d0 [<-] /=.
set s := _ *: _; have q := substaple_quat k l plaq.
have Es : s = (sqrtC (\det (substaple k l plaq)))^-1 *: (htrans (draw2 (u k l)) *m htrans (substaple k l plaq)) by exact: cube_simpl.
have [su_s Es2] := heat_su q d0 (draw2_su hu); rewrite -Es in su_s Es2.
split; first exact: mix_su.
split; first by rewrite mix_mul E.
split; last by move=> i ik il; rewrite mixE (negbTE ik) (negbTE il).
have := mix_substaple plaq ne (su_quat su_s); rewrite Es2 => Em.
have rR : sqrtC (\det (substaple k l plaq)) \is Num.real by rewrite ger0_real // sqrtC_ge0 quat_det_ge0.
rewrite -(retr_draw hu rR) -Em /retr /mxtrace sum2 !mat2E.
set a := 'Re _; set b := 'Re _; set c := 'Im _; set d := 'Im _.
have -> : (a + b) / 2%:R + 'i * ((c - d) / 2%:R) + ((a + b) / 2%:R - 'i * ((c - d) / 2%:R)) = a + b.
  by rewrite addrACA subrr addr0 -mulr2n -mulr_natr mulfVK // pnatr_eq0.
by rewrite (Creal_ReP _ _) // rpredD ?Creal_Re.
Qed.
Lemma pairs_neq k l : (k, l) \in pairs n -> k != l.
Proof. by rewrite mem_filter /= => /andP [h _]; apply/eqP => E; move: h; rewrite E ltnn. Qed.
Lemma cm_none u ps : foldl (cm_step u) (None : option (G * G)) ps = None.
Proof. by elim: ps. Qed.
Lemma heatbath_ok u link st st' : (forall k l, unit4 (u k l)) -> special_unitary link ->
  heatbath u link st = Some st' -> special_unitary st'.1 /\ st'.2 = st'.1 *m st.
Proof.
move=> hu su; rewrite /heatbath.
have : all (fun kl => kl.1 != kl.2) (pairs n) by apply/allP => [[k l]]; exact: pairs_neq.
have : link *m st = link *m st by [].
move: {1 3}(link *m st) => plaq; elim: (pairs n) link plaq su => [|[k l] ps IH] link plaq su E H; first by case=> <-.
move: H => /andP [ne H] Hf.
have [st1 Hs] : {st1 | cm_step u (Some (link, plaq)) (k, l) = Some st1}.
  case Ec: (cm_step _ _ _) => [st1|]; first by exists st1.
  by move: Hf; rewrite (_ : foldl _ _ _ = foldl (cm_step u) (cm_step u (Some (link, plaq)) (k, l)) ps) // Ec cm_none.
have [s1 [s2 _]] := cm_step_ok ne (hu k l) su E Hs.
apply: (IH st1.1 st1.2) => //; move: Hf; rewrite (_ : foldl _ _ _ = foldl (cm_step u) (cm_step u (Some (link, plaq)) (k, l)) ps) // Hs.
by case: (st1).
Qed.
(** The loop visits every pair k < l once. *)
Lemma pairs_all k l : ((k, l) \in pairs n) = (k < l)%N.
Proof.
rewrite mem_filter /=; case: (k < l)%N => //=.
by apply/allpairsP; exists (k, l); rewrite !mem_enum.
Qed.
Lemma pairs_uniq : uniq (pairs n).
Proof. by apply: filter_uniq; apply: allpairs_uniq; rewrite ?enum_uniq // => [[a b] [c d]]. Qed.

(** Overrelaxation for more than two colours. *)
Lemma scale_row_det r c A : \det (scale_row r c A) = c * \det A.
Proof.
rewrite (@determinant_multilinear _ _ (scale_row r c A) A A r c 0).
- by rewrite mul0r addr0.
- by apply/rowP => j; rewrite !mxE eqxx mul0r addr0.
- by apply/matrixP => i j; rewrite !mxE eq_sym (negbTE (neq_lift _ _)).
- by apply/matrixP => i j; rewrite !mxE eq_sym (negbTE (neq_lift _ _)).
Qed.
Lemma scale_rowE r c A : scale_row r c A = diag_mx (\row_i if i == r then c else 1) *m A.
Proof.
by apply/matrixP => i j; rewrite mul_diag_mx !mxE; case: eqP => // _; rewrite mul1r.
Qed.
Lemma scale_row1 r A : scale_row r 1 A = A.
Proof. by apply/matrixP => i j; rewrite mxE mul1r if_same. Qed.
Lemma diag_unitary (d : 'rV[C]_n.+1) : (forall i, d 0 i * (d 0 i)^* = 1) -> unitary (diag_mx d).
Proof.
move=> h; apply/matrixP => i j; rewrite mul_diag_mx !mxE.
case: (altP (i =P j)) => [->|ne]; first by rewrite eqxx mulr1n h.
by rewrite eq_sym (negbTE ne) mulr0n rmorph0 mulr0.
Qed.
Lemma scale_row_unitary r c A : c * c^* = 1 -> unitary A -> unitary (scale_row r c A).
Proof.
move=> hc uA; rewrite scale_rowE; apply: unitaryM => //; apply: diag_unitary => i.
by rewrite !mxE; case: ifP => // _; rewrite rmorph1 mulr1.
Qed.
Lemma unitary_det A : unitary A -> \det A * (\det A)^* = 1.
Proof. by move=> h; rewrite -det_htrans -det_mulmx -daggerE h det1. Qed.
Lemma fix_det_su r A : unitary A -> special_unitary (scale_row r (\det A)^* A).
Proof.
move=> uA; have h := unitary_det uA; split; last by rewrite scale_row_det mulrC.
by apply: scale_row_unitary => //; rewrite conjCK mulrC.
Qed.
Lemma overrelax_su qr accept link staple : unitary (qr staple).1 -> special_unitary link -> special_unitary (overrelax qr accept link staple).
Proof.
move=> hQ su; rewrite /overrelax; case: ifP => // _.
by have sQ := fix_det_su ord0 hQ; do 2 (apply: suM; last exact: suH); apply: suH.
Qed.
(** The proposal is its own inverse, so it is the proposal of a reversible Metropolis step. *)
Lemma overrelax_involution qr link staple : unitary (qr staple).1 ->
  overrelax qr xpredT (overrelax qr xpredT link staple) staple = link.
Proof.
move=> hQ; rewrite /overrelax; set Q := scale_row _ _ _.
have [uQ _] : special_unitary Q by exact: fix_det_su.
have E1 : htrans Q *m Q = 1%:M := unitary_l uQ.
by rewrite !htransM !htransK !mulmxA E1 mul1mx -!mulmxA (unitary_r uQ) mulmx1.
Qed.

(** Re-unitarisation. *)
Lemma unitary_rows A i j : unitary A -> \sum_k (A j k)^* * A i k = (i == j)%:R.
Proof.
move=> h; rewrite (_ : (i == j)%:R = (1%:M : G) i j); last by rewrite mxE.
by rewrite -h mxE; apply: eq_bigr => k _; rewrite !mxE mulrC.
Qed.
Lemma gs_project_fix A i j : unitary A -> i != j -> gs_project i j A = A.
Proof.
move=> uA ne; apply/matrixP => r k; rewrite mxE unitary_rows // (negbTE ne) mul0r subr0.
by case: eqP => // ->.
Qed.
Lemma gs_row_fix A i : unitary A -> gs_row (Some A) i = Some A.
Proof.
move=> uA; rewrite /gs_row.
have F (t : seq 'I_n.+1) : all (fun j : 'I_n.+1 => j < i)%N t -> foldl (fun A j => gs_project i j A) A t = A.
  elim: t => //= j t IH /andP [lt H]; rewrite gs_project_fix ?IH //.
  by apply/eqP => E; move: lt; rewrite E ltnn.
rewrite F; first by rewrite unitary_rows // eqxx oner_eq0 normr1 invr1 scale_row1.
by apply/allP => j; rewrite mem_filter => /andP [].
Qed.
Lemma gs_rows_fix A (s : seq 'I_n.+1) : unitary A -> foldl (@gs_row C n) (Some A) s = Some A.
Proof. by move=> uA; elim: s => // i s IH; rewrite [LHS](_ : _ = foldl (@gs_row C n) (gs_row (Some A) i) s) // gs_row_fix. Qed.
Lemma reunit_unitary A : unitary A -> reunit A = Some (scale_row ord_max (\det A)^* A).
Proof.
move=> uA; rewrite /reunit gs_rows_fix //; have h := unitary_det uA.
have d0 : \det A != 0 by apply/eqP => E; move: h; rewrite E mul0r => /esym/eqP; rewrite oner_eq0.
have n1 : `|\det A| = 1 by apply/eqP; rewrite -(@pexpr_eq1 _ _ 2) // normCK h.
by rewrite (negbTE d0) n1 divr1.
Qed.
Lemma reunit_fix A : special_unitary A -> reunit A = Some A.
Proof. by case=> uA dA; rewrite reunit_unitary // dA rmorph1 scale_row1. Qed.

(** Only row i changes in the step of row i. *)
Lemma gs_project_row A i j r k : r != i -> gs_project i j A r k = A r k.
Proof. by move=> ne; rewrite mxE (negbTE ne). Qed.
Lemma gs_row_row A B i r k : gs_row (Some A) i = Some B -> r != i -> B r k = A r k.
Proof.
rewrite /gs_row; case: ifP => // _ [<-] ne; rewrite mxE (negbTE ne).
by elim: [seq _ <- _ | _] A => //= j s IH A; rewrite IH gs_project_row.
Qed.
Lemma gs_none (s : seq 'I_n.+1) : foldl (@gs_row C n) None s = None.
Proof. by elim: s. Qed.
Lemma gs_rows_row A B (s : seq 'I_n.+1) r k : foldl (@gs_row C n) (Some A) s = Some B -> r \notin s -> B r k = A r k.
Proof.
elim: s A => [|i s IH] A; first by case=> ->.
rewrite [foldl _ _ _](_ : _ = foldl (@gs_row C n) (gs_row (Some A) i) s) // inE negb_or.
case E: (gs_row _ _) => [A1|]; last by rewrite gs_none.
by move=> H /andP [ne no]; rewrite (IH A1 H no) (gs_row_row k E ne).
Qed.
Lemma gs_first A B : gs_row (Some A) ord0 = Some B ->
  \sum_k (A ord0 k)^* * A ord0 k != 0 /\ forall k, B ord0 k = `|\sum_k (A ord0 k)^* * A ord0 k|^-1 * A ord0 k.
Proof.
have E : [seq j <- enum 'I_n.+1 | (nat_of_ord j < nat_of_ord (ord0 : 'I_n.+1))%N] = [::].
  by apply/eqP; rewrite -size_eq0 size_filter -leqn0 leqNgt -has_count; apply/hasPn.
by rewrite /gs_row E /=; case: ifP => // /negbT h [<-]; split=> // k; rewrite mxE eqxx.
Qed.
End Many.
Section Reunit.
Variable C : numClosedFieldType.
Variable n : nat.
Notation G := 'M[C]_n.+2.
Lemma reunit_first_row (A V : G) : reunit A = Some V -> unitary V -> \sum_k `|A ord0 k| ^+ 2 = 1.
Proof.
rewrite /reunit enum_ordSl (_ : foldl _ _ _ = foldl (@gs_row C n.+1) (gs_row (Some A) ord0) [seq lift ord0 i | i <- enum 'I_n.+1]) //.
case E: (gs_row _ _) => [A1|]; last by rewrite gs_none.
case E2: (foldl _ _ _) => [A2|] // [<-] uV.
have [d0 h0] := gs_first E.
have h2 k : A2 ord0 k = A1 ord0 k.
  by apply: (gs_rows_row k E2); apply/mapP => [[x _]] /eqP; rewrite (negbTE (neq_lift _ _)).
have H : \sum_k (`|\sum_k (A ord0 k)^* * A ord0 k|^-1 * A ord0 k)^* * (`|\sum_k (A ord0 k)^* * A ord0 k|^-1 * A ord0 k) = 1.
  rewrite -[RHS](unitary_rows ord0 ord0 uV).
  by apply: eq_bigr => k _; rewrite mxE /= h2 h0.
move: d0 H; set N := \sum_k (A ord0 k)^* * A ord0 k => d0 H.
have NE : N = \sum_k `|A ord0 k| ^+ 2 by apply: eq_bigr => k _; rewrite normCK mulrC.
have N0 : 0 <= N by rewrite NE sumr_ge0 // => k _; rewrite exprn_ge0.
have Nc : (N^-1)^* = N^-1 by rewrite conj_Creal // rpredV ger0_real.
have H2 : N^-1 * N^-1 * N = 1.
  rewrite -[RHS]H (ger0_norm N0) {3}/N mulr_sumr; apply: eq_bigr => k _.
  by rewrite rmorphM Nc mulrACA.
by move: H2; rewrite -mulrA mulVf // mulr1 => /(congr1 GRing.inv); rewrite invrK invr1 -NE.
Qed.
End Reunit.
Section Diag.
Variable C : numClosedFieldType.
Variable n : nat.
Notation G := 'M[C]_n.+1.
Implicit Types d : 'rV[C]_n.+1.
Lemma gs_project_diag d i j : j != i -> gs_project i j (diag_mx d) = diag_mx d.
Proof.
move=> ne; apply/matrixP => r k; rewrite mxE big1 ?mul0r ?subr0 => [|l _]; first by case: eqP => [->|].
rewrite !mxE; case: (altP (j =P l)) => [<-|_]; last by rewrite mulr0n conjC0 mul0r.
by rewrite [i == j]eq_sym (negbTE ne) mulr0n mulr0.
Qed.
Lemma gs_row_diag d i : d 0 i != 0 ->
  gs_row (Some (diag_mx d)) i = Some (diag_mx (\row_j if j == i then d 0 i / `|d 0 i| ^+ 2 else d 0 j)).
Proof.
move=> d0; rewrite /gs_row.
have F (t : seq 'I_n.+1) : all (fun j : 'I_n.+1 => j < i)%N t -> foldl (fun A j => gs_project i j A) (diag_mx d) t = diag_mx d.
  elim: t => //= j t IH /andP [lt H]; rewrite gs_project_diag ?IH //.
  by apply/eqP => E; move: lt; rewrite E ltnn.
rewrite F; last by apply/allP => j; rewrite mem_filter => /andP [].
have -> : \sum_k (diag_mx d i k)^* * diag_mx d i k = `|d 0 i| ^+ 2.
  rewrite (bigD1 i) //= big1 ?addr0 => [|k ne]; last by rewrite !mxE eq_sym (negbTE ne) mulr0n mulr0.
  by rewrite !mxE eqxx mulr1n mulrC normCK.
rewrite expf_eq0 normr_eq0 (negbTE d0) andbF ger0_norm ?exprn_ge0 //; congr Some.
apply/matrixP => r k; rewrite !mxE; case: (altP (r =P i)) => [->|//].
by rewrite mulrC -mulrnAl.
Qed.
Lemma gs_rows_diag (s : seq 'I_n.+1) d : uniq s -> (forall i, d 0 i != 0) ->
  foldl (@gs_row C n) (Some (diag_mx d)) s = Some (diag_mx (\row_j if j \in s then d 0 j / `|d 0 j| ^+ 2 else d 0 j)).
Proof.
elim: s d => [|i s IH] d; first by move=> _ _; congr Some; congr diag_mx; apply/rowP => j; rewrite mxE.
move=> /andP [ni us] d0; rewrite [LHS](_ : _ = foldl (@gs_row C n) (gs_row (Some (diag_mx d)) i) s) // gs_row_diag // IH //.
  congr Some; congr diag_mx; apply/rowP => j; rewrite !mxE inE; case: (altP (j =P i)) => [->|//].
  by rewrite (negbTE ni).
move=> j; rewrite mxE; case: (j == i); last exact: d0.
by rewrite mulf_neq0 // invr_eq0 expf_eq0 normr_eq0 (negbTE (d0 _)).
Qed.
Lemma reunit_scalar (r : C) : 0 < r -> reunit (r%:M : G) = Some (r^-1)%:M.
Proof.
move=> r0; have rn : r != 0 by rewrite (Order.POrderTheory.gt_eqF r0).
have S (x : C) : x%:M = diag_mx (\row_(j < n.+1) x) by apply/matrixP => i j; rewrite !mxE.
rewrite /reunit S gs_rows_diag ?enum_uniq //; last by move=> i; rewrite mxE.
rewrite (_ : (\row_j _) = \row_(j < n.+1) r^-1).
  rewrite -S det_scalar expf_eq0 invr_eq0 (negbTE rn) andbF.
  have rp : 0 < r^-1 ^+ n.+1 by rewrite exprn_gt0 // invr_gt0.
  rewrite (conj_Creal (gtr0_real rp)) (gtr0_norm rp) divff ?scale_row1 //.
  by rewrite (Order.POrderTheory.gt_eqF rp).
by apply/rowP => j; rewrite !mxE mem_enum gtr0_norm // expr2 invfM mulrA divff // mul1r.
Qed.
End Diag.

(** Proofs about several calls of the multigrid solver and about the multishift solver. *)
From Coq Require Import List Ring.
From Verif Require Import Base.
From mathcomp Require Import all_ssreflect all_algebra.
From Verif Require Import GaugeProofs SolverModel SolverSpec SolverProofs SolverProofs2 GmresModel GmresSpec GmresProofs MgSolveModel MgSolveSpec MgSolveProofs.
Import GRing.Theory Num.Theory Order.POrderTheory.
Set Implicit Arguments.
Unset Strict Implicit.
Unset Printing Implicit Defensive.
Local Open Scope ring_scope.

Section Proofs.
Variable C : numClosedFieldType.
Add Ring CringMg : (Crth C).
Variable m : nat.
Notation vector := 'cV[C]_m.
Implicit Types (M T D G : 'M[C]_m).

Lemma solve_spec cs us N eps M direction (b : vector) guess :
  match mg_solve cs us N eps (mulmx M) direction b guess with
  | MgDone x ms le =>
      residual2 M b x <= residual2 M b (mg_start eps b guess) /\
      (if N is O then [/\ x = mg_start eps b guess, ms = O & le = None]
       else le = Some (residual2 M b x) /\ (if residual2 M b x < eps then (ms < N)%N else ms == N))
  | MgNotANumber ms => ms = N
  | MgUndefined => False
  end.
Proof.
have := mg_loop_spec direction eps None (start_inv mg_arrays M b (mg_start eps b guess) cs us) (add0n N).
rewrite /mg_solve; case: mg_loop => // x ms le [h H]; rewrite !residual2E; split=> //.
by case: N H => [|N].
Qed.
Lemma solve_limit cs us N eps M direction (b : vector) guess : (mg_limit (mg_solve cs us N eps (mulmx M) direction b guess) <= N)%N.
Proof.
have := solve_spec cs us N eps M direction b guess; case: mg_solve => [x ms le|ms|] //=; last by move->.
case: N => [|N] [_]; first by case=> _ ->.
by case=> _; case: ifP => _; [exact: ltnW|move/eqP->].
Qed.
Definition call_solved (q : mg_call C m) (r : mg_result C m) : bool :=
  if r is MgDone x _ _ then has_solved (call_dirac q) (call_source q) (mg_start (call_precision q) (call_source q) (call_guess q)) x (call_precision q)
  else false.
Lemma call_budget N q : (call_solved q (mg_do N q) + mg_limit (mg_do N q) <= N)%N.
Proof.
have := solve_spec (call_c q) (call_u q) N (call_precision q) (call_dirac q) (call_direction q) (call_source q) (call_guess q).
rewrite /mg_do; case: mg_solve => [x ms le|ms|] //=; last by move->.
rewrite /has_solved; case: N => [|N] [_].
  by case=> -> -> _; case: (_ < _).
case=> _; case: ifP => h; first by move=> lt; case: (~~ _) => //=; rewrite add0n ltnW.
by rewrite andbF => /eqP ->.
Qed.
Lemma run_budget N (calls : seq (mg_call C m)) :
  (count (fun p => call_solved p.1 p.2) (zip calls (mg_run N calls)) + last N (map (@mg_limit C m) (mg_run N calls)) <= N)%N.
Proof.
elim: calls N => [|q calls IH] N //=.
apply: leq_trans (call_budget N q); rewrite -addnA leq_add2l.
exact: IH.
Qed.
Lemma run_zero (calls : seq (mg_call C m)) :
  mg_run 0 calls = [seq MgDone (mg_start (call_precision q) (call_source q) (call_guess q)) 0 None | q <- calls].
Proof. by elim: calls => [|q calls IH] //=; rewrite IH. Qed.
Lemma solve_again cs us cs' us' N eps M direction (b : vector) guess x K e :
  ~~ (residual2 M b (mg_start eps b guess) < eps) ->
  mg_solve cs us N eps (mulmx M) direction b guess = MgDone x K e -> (K < N)%N ->
  exists x' e', mg_solve cs' us' K eps (mulmx M) direction b guess = MgDone x' K e' /\ ~~ (residual2 M b x' < eps).
Proof.
move=> big h KN; rewrite (solve_same M b direction eps K cs' us' cs us guess).
have [|x' [e' [E1 E2]]] := loop_again None (start_inv mg_arrays M b (mg_start eps b guess) cs us) (add0n N) _ h KN.
  by rewrite /= -residual2E.
by exists x', e'; rewrite residual2E; split=> //; move: E1; rewrite subn0.
Qed.

Lemma loop_ext (A : vector -> vector) d d' eps N n k le s : d =1 d' -> mg_loop A d eps N n k le s = mg_loop A d' eps N n k le s.
Proof.
move=> h; elim: n k le s => [|n IH] k le s //=; rewrite /mg_step h; case: (d' _) => [u0|] //.
by case: gm_step => // t; rewrite IH.
Qed.
Lemma unit_step (A : vector -> vector) d k s u0 : d (gres s) = Some u0 ->
  gm_orthogonalize (gc s) (gu s) (k %% 15) (A u0, u0) = (A u0, u0) -> gnorm (A u0) = 1 ->
  mg_step A d k s = GOk (GmState (gsol s + gdot (A u0) (gres s) *: u0) (gres s - gdot (A u0) (gres s) *: A u0)
    (set_nth 0 (gc s) (k %% 15) (A u0)) (set_nth 0 (gu s) (k %% 15) u0)).
Proof.
move=> E O n1; rewrite /mg_step E /gm_step /= leqNgt ltn_mod /= O /= n1 sqrtC1 oner_eq0 invr1.
by rewrite !scale1r.
Qed.
(** A direction that solves the equation. *)
Lemma solve_exact cs us N eps T T' (b : vector) guess : T *m T' = 1%:M -> 0 < eps -> T *m mg_start eps b guess != b ->
  mg_solve cs us N.+1 eps (mulmx T) (fun r => Some (T' *m r)) b guess = MgDone (T' *m b) 0 (Some 0).
Proof.
move=> TT e0 ne; rewrite /mg_solve; set x0 := mg_start _ _ _ in ne *; rewrite /= /mg_step /= /gm_step /=.
rewrite mulmxA TT mul1mx; set r := b - T *m x0.
have r0 : r != 0 by rewrite subr_eq0 eq_sym.
have nr : gnorm r != 0 by apply: contraNneq r0 => /gnorm_eq0 ->.
rewrite sqrtC_eq0 (negbTE nr) mod0n /=.
have al : gdot ((sqrtC (gnorm r))^-1 *: r) r = sqrtC (gnorm r).
  rewrite gdotZl -/(gnorm r) conj_Creal ?realV ?ger0_real ?sqrtC_ge0 ?gnorm_ge0 //.
  by rewrite -{2}(sqrtCK (gnorm r)) expr2 mulKf // sqrtC_eq0.
have q0 : sqrtC (gnorm r) != 0 by rewrite sqrtC_eq0.
rewrite al !scalerA mulfV // !scale1r subrr {1}/gnorm gdot0r e0 /r mulmxBr mulmxA (mulmx1C TT) mul1mx addrC subrK.
by rewrite /gnorm gdot0r.
Qed.
Lemma solve_zero cs us eps M direction (b : vector) guess :
  mg_solve cs us 0 eps (mulmx M) direction b guess = MgDone (mg_start eps b guess) 0 None.
Proof. by []. Qed.

Lemma rest_zero eps G (T : C -> 'M[C]_m) direction (source : vector) shifts guesses fresh previous :
  (forall s, s \in shifts -> 0 <= s) ->
  mgs_rest 0 eps (mulmx G) (fun mu => mulmx (T mu)) direction source shifts guesses fresh previous
  = map (fun _ => (Some previous, (0%N, 0%N))) shifts.
Proof.
elim: shifts guesses => [|s shifts IH] guesses hs //=.
have s0 : (s < 0) = false by apply: le_gtF; apply: hs; rewrite mem_head.
rewrite /mgs_small s0 !solve_zero /= IH // => t ht; apply: hs; by rewrite inE ht orbT.
Qed.
Lemma multishift_stops maxSteps epsilon N eps mad G (T T' : C -> 'M[C]_m) (b : vector) s shifts fresh :
  T (- sqrtC s) *m T' (- sqrtC s) = 1%:M -> 0 < eps -> (forall t, t \in s :: shifts -> 0 <= t <= 1000%:R^-1) ->
  let y := T' (- sqrtC s) *m (G *m b) in
  T (- sqrtC s) *m mg_start eps (G *m b) None != G *m b -> eps < gnorm (G *m y) ->
  mgs_solve maxSteps epsilon N.+1 eps mad (mulmx G) (fun mu => mulmx (T mu)) (fun mu r => Some (T' mu *m r)) b (s :: shifts) fresh
  = map (fun _ => (Some (G *m y), (0%N, 0%N))) (s :: shifts).
Proof.
move=> TT e0 hs y ne big.
have sm t : t \in s :: shifts -> ~~ mgs_is_large t.
  by move=> /hs /andP [t0 t1]; rewrite /mgs_is_large negb_or (le_gtF t0) (le_gtF t1).
have s0 t : t \in s :: shifts -> (t < 0) = false by move=> /hs /andP [t0 _]; exact: le_gtF.
rewrite /mgs_solve /= sm ?mem_head //= /mgs_small s0 ?mem_head // solve_exact // -/y solve_zero /= big.
rewrite rest_zero // => t ht; have /andP [] // : 0 <= t <= 1000%:R^-1.
by apply: hs; rewrite inE ht orbT.
Qed.

Lemma startE eps (b : vector) guess : mg_start eps b guess = first_guess eps b guess.
Proof. by rewrite /mg_start /first_guess gnormE. Qed.
Lemma gnorm_add (u v : vector) : gnorm (u + v) <= 2%:R * (gnorm u + gnorm v).
Proof.
have e : 2%:R * (gnorm u + gnorm v) = gnorm (u + v) + gnorm (u - v).
  rewrite /gnorm !gdotDl !gdotDr !gdotNl !gdotNr opprK mulr_natl mulr2n.
  move: (gdot u u) (gdot v v) (gdot u v) (gdot v u) => a d p q.
  by cring_fold C; ring.
by rewrite e ler_addl gnorm_ge0.
Qed.

Lemma bound_gnorm (M : 'M[C]_m) (L : C) (v : vector) : square_bound M L -> gnorm (M *m v) <= L * gnorm v.
Proof. by move=> h; rewrite !gnormE; exact: h. Qed.
(** The residual of the square from those of the two factors. *)
Lemma square_residual D G (s : C) (source x y : vector) : G *m G = 1%:M -> 0 <= s ->
  G *m source - shifted_square D G s *m x
  = G *m (source - twisted_matrix D G (- sqrtC s) *m y)
    + (G *m D - ('i * sqrtC s)%:M) *m (G *m (G *m y - twisted_matrix D G (sqrtC s) *m x)).
Proof.
move=> GG s0; rewrite /twisted_matrix /shifted_square mulrN; set z := 'i * sqrtC s.
have zz : z * z = - s by rewrite /z mulrACA -!expr2 sqrCi sqrtCK mulN1r.
have h (w : C) (v : vector) : G *m ((D + w *: G) *m v) = G *m D *m v + w *: v.
  by rewrite mulmxDl mulmxDr mulmxA -scalemxAl -scalemxAr mulmxA GG mul1mx.
rewrite [G *m (source - _)]mulmxBr [G *m (G *m y - _)]mulmxBr !h (mulmxA G G y) GG mul1mx.
rewrite mulmxDl mul_scalar_mx mulmxBl mul_scalar_mx mulmxBr mulmxDr -scalemxAr -mulmxA.
move: (G *m D) => Q; move: (G *m source) (Q *m y) (Q *m (Q *m x)) (Q *m x) => a p q r.
rewrite !(scalerBr, scalerDr, scaleNr) scalerA zz scaleNr.
apply/matrixP => i j; rewrite !mxE; move: (a i j) (p i j) (q i j) (r i j) (x i j) (y i j) => a' p' q' r' x' y'.
by cring_fold C; ring.
Qed.
Lemma small_bound limit eps D G direction (source : vector) s guess1 guess2 y x l1 l2 (Lambda : C) :
  G *m G = 1%:M -> square_bound G 1 -> 0 <= Lambda -> square_bound (G *m D - ('i * sqrtC s)%:M) Lambda -> 0 <= s ->
  mgs_small limit eps (mulmx G) (fun mu => mulmx (twisted_matrix D G mu)) direction source s guess1 guess2
    = (Some (y, x), (l1, l2)) -> (l1 < limit)%N -> (l2 < l1)%N ->
  residual2 (shifted_square D G s) (G *m source) x < 2%:R * (1 + Lambda) * eps.
Proof.
move=> GG G1 L0 QL s0; rewrite /mgs_small (le_gtF s0).
have := solve_spec [::] [::] limit eps (twisted_matrix D G (- sqrtC s)) (direction (- sqrtC s)) source guess1.
case: mg_solve => // y' k1 e1 [_ H1].
have := solve_spec [::] [::] k1 eps (twisted_matrix D G (sqrtC s)) (direction (sqrtC s)) (G *m y') guess2.
case: mg_solve => // x' k2 e2 [_ H2] [_ <- <- <-] lt1 lt2.
have r1 : residual2 (twisted_matrix D G (- sqrtC s)) source y' < eps.
  case: limit lt1 H1 => // n lt1 [_]; case: ifP => // _ /eqP E; by rewrite E ltnn in lt1.
have r2 : residual2 (twisted_matrix D G (sqrtC s)) (G *m y') x' < eps.
  case: (k1) lt2 H2 => // n lt2 [_]; case: ifP => // _ /eqP E; by rewrite E ltnn in lt2.
rewrite residual2E (square_residual D source x' y' GG s0).
apply: (le_lt_trans (gnorm_add _ _)); rewrite -mulrA ltr_pmul2l ?ltr0n // mulrDl mul1r; apply: ltr_le_add.
  apply: le_lt_trans r1; rewrite residual2E -[X in _ <= X]mul1r; exact: bound_gnorm.
apply: (le_trans (bound_gnorm _ QL)); rewrite ler_wpmul2l //.
apply: le_trans (ltW r2); rewrite residual2E -[X in _ <= X]mul1r; exact: bound_gnorm.
Qed.
(** One vector does not solve the equations of two shifts. *)
Lemma two_shifts D G (s t : C) (b x : vector) :
  `|s - t| ^+ 2 * (\sum_i `|x i ord0| ^+ 2) <= 2%:R * (residual2 (shifted_square D G s) b x + residual2 (shifted_square D G t) b x).
Proof.
rewrite -gnormE !residual2E [X in 2%:R * X]addrC.
have -> : `|s - t| ^+ 2 * gnorm x = gnorm ((s - t) *: x) by rewrite /gnorm gdotZl gdotZr mulrA normCKC.
have -> : (s - t) *: x = (b - shifted_square D G t *m x) + - (b - shifted_square D G s *m x).
  rewrite /shifted_square !mulmxDl !mul_scalar_mx scalerBl opprB.
  move: (G *m D *m _ *m x) => q; apply/matrixP => i j; rewrite !mxE.
  by move: (b i j) (q i j) (x i j) => b' q' x'; cring_fold C; ring.
have -> : gnorm (b - shifted_square D G s *m x) = gnorm (- (b - shifted_square D G s *m x)).
  by rewrite [RHS]/gnorm gdotNl gdotNr opprK.
exact: gnorm_add.
Qed.

(** All the shifts. *)
Definition before (limit : nat) (r : seq (option vector * (nat * nat))) (i : nat) : nat :=
  if i is j.+1 then (nth (None, (0, 0))%N r j).2.2 else limit.
Definition good (D G : 'M[C]_m) (eps Lambda : C) (b : vector) (limit : nat) (s : C) (e : option vector * (nat * nat)) : Prop :=
  [/\ (e.2.1 <= limit)%N, (e.2.2 <= e.2.1)%N & forall x, e.1 = Some x -> (e.2.1 < limit)%N -> (e.2.2 < e.2.1)%N ->
     residual2 (shifted_square D G s) b x < 2%:R * (1 + Lambda) * eps].
Section Shifts.
Variables (D G : 'M[C]_m) (eps Lambda : C) (b : vector) (direction : C -> vector -> option vector).
Hypotheses (GG : G *m G = 1%:M) (G1 : square_bound G 1) (L0 : 0 <= Lambda).
Let T mu := mulmx (p := 1) (twisted_matrix D G mu).
Lemma small_good limit s g1 g2 e ls : square_bound (G *m D - ('i * sqrtC s)%:M) Lambda -> 0 <= s ->
  mgs_small limit eps (mulmx G) T direction (G *m b) s g1 g2 = (e, ls) -> good D G eps Lambda b limit s (omap snd e, ls).
Proof.
move=> QL s0 E; have B := small_bound GG G1 L0 QL s0.
have bE : G *m (G *m b) = b by rewrite mulmxA GG mul1mx.
have [H1 H2] : (ls.1 <= limit)%N /\ (ls.2 <= ls.1)%N.
  move: E; rewrite /mgs_small (le_gtF s0); rewrite {1}/T.
  have := solve_limit [::] [::] limit eps (twisted_matrix D G (- sqrtC s)) (direction (- sqrtC s)) (G *m b) g1.
  case: mg_solve => [y l1 le|l1|] /= H; try by case=> _ <-.
  have := solve_limit [::] [::] l1 eps (twisted_matrix D G (sqrtC s)) (direction (sqrtC s)) (G *m y) g2.
  by rewrite {1}/T; case: mg_solve => [x l2 le2|l2|] /= H'; case=> _ <-.
split=> // x'; case: e ls E H1 H2 => [[y x]|] [l1 l2] E _ _ //= [<-].
by rewrite -{1}bE; exact: (B _ _ _ _ _ _ _ _ _ _ E).
Qed.
Lemma none_good l s : good D G eps Lambda b l s (None, (l, l)).
Proof. by split. Qed.
Lemma before_cons limit (e : option vector * (nat * nat)) r i : before limit (e :: r) i.+1 = before e.2.2 r i.
Proof. by case: i. Qed.
Lemma nones_good l (ss : seq C) i : (i < size ss)%N ->
  let r := map (fun _ => (None, (l, l))) ss in good D G eps Lambda b (before l r i) (nth 0 ss i) (nth (None, (0, 0))%N r i).
Proof.
move=> h r; rewrite /r (nth_map 0) //.
have -> : before l [seq (None, (l, l)) | _ <- ss] i = l.
  by case: i h => [|i] h //; rewrite /before (nth_map 0) //; exact: ltnW.
exact: none_good.
Qed.
Lemma rest_good limit ss guesses fresh previous :
  (forall s, s \in ss -> 0 <= s /\ square_bound (G *m D - ('i * sqrtC s)%:M) Lambda) ->
  let r := mgs_rest limit eps (mulmx G) T direction (G *m b) ss guesses fresh previous in
  size r = size ss /\ forall i, (i < size ss)%N -> good D G eps Lambda b (before limit r i) (nth 0 ss i) (nth (None, (0, 0))%N r i).
Proof.
elim: ss limit guesses previous => [|s ss IH] limit guesses previous hs //=.
have [s0 QL] := hs s (mem_head _ _).
have hs' t : t \in ss -> 0 <= t /\ square_bound (G *m D - ('i * sqrtC t)%:M) Lambda by move=> h; apply: hs; rewrite inE h orbT.
case E: (mgs_small _ _ _ _ _ _ _ _ _) => [[[y x]|] [l1 l2]] /=; have S := small_good QL s0 E.
  have [H1 H2] := IH l2 (match guesses with [::] => [::] | [:: _] => [::] | _ :: _ :: _ => [:: y] end) x hs'.
  by split=> [|[|i] h] //; [rewrite /= H1|rewrite before_cons; exact: H2].
split=> [|[|i] h] //; first by rewrite /= size_map.
by rewrite before_cons; have := @nones_good l2 ss i h.
Qed.
Lemma before_cat limit (r1 r2 : seq (option vector * (nat * nat))) i : before limit (r1 ++ r2) (size r1 + i)
  = if i is 0%N then before limit r1 (size r1) else before limit r2 i.
Proof.
case: i => [|i]; rewrite ?addn0 ?addnS /before.
  by case E: (size r1) => [|j] //; rewrite nth_cat E ltnSn.
by rewrite nth_cat ltnNge leq_addr /= addKn.
Qed.
Lemma multishift_good maxSteps epsilon mad limit ss fresh i :
  (forall s, s \in drop (find (fun s => ~~ mgs_is_large s) ss) ss -> 0 <= s /\ square_bound (G *m D - ('i * sqrtC s)%:M) Lambda) ->
  let r := mgs_solve maxSteps epsilon limit eps mad (mulmx G) T direction b ss fresh in
  size r = size ss /\
  ((find (fun s => ~~ mgs_is_large s) ss <= i < size ss)%N ->
   good D G eps Lambda b (before limit r i) (nth 0 ss i) (nth (None, (0, 0))%N r i)).
Proof.
move=> hs /=; rewrite /mgs_solve; set k := find _ _ in hs *; set first := map _ _.
have kle : (k <= size ss)%N := find_size _ _.
have sf : size first = k by rewrite size_map size_takel.
have bk : before limit first k = limit.
  rewrite /before; case E: k => [|j] //; rewrite (nth_map 0) // size_takel -?E //.
have dk : size (drop k ss) = (size ss - k)%N by rewrite size_drop.
have nE j : nth 0 ss (k + j) = nth 0 (drop k ss) j by rewrite nth_drop.
case E: (drop k ss) dk hs nE => [|s rest] /= dk hs nE.
  have ek : size ss = k by apply/eqP; rewrite eqn_leq kle andbT -subn_eq0 -dk.
  by rewrite sf ek; split=> // /andP [h1 h2]; move: (leq_ltn_trans h1 h2); rewrite ltnn.
have ssE : size ss = (k + (size rest).+1)%N by rewrite dk addnC subnK.
have [s0 Qs] := hs s (mem_head _ _).
have hs' t : t \in rest -> 0 <= t /\ square_bound (G *m D - ('i * sqrtC t)%:M) Lambda by move=> h; apply: hs; rewrite inE h orbT.
have final (r : seq (option vector * (nat * nat))) : size r = (size rest).+1 ->
  (forall j, (j < (size rest).+1)%N -> good D G eps Lambda b (before limit r j) (nth 0 (s :: rest) j) (nth (None, (0, 0))%N r j)) ->
  size (first ++ r) = size ss /\ ((k <= i < size ss)%N ->
   good D G eps Lambda b (before limit (first ++ r) i) (nth 0 ss i) (nth (None, (0, 0))%N (first ++ r) i)).
  move=> sr gr; split; first by rewrite size_cat sf sr ssE.
  move=> /andP [ki]; rewrite -(subnKC ki) ssE ltn_add2l => lt; rewrite nE -{1}sf before_cat sf bk.
  rewrite nth_cat sf ltnNge leq_addr /= addKn.
  by have := gr _ lt; case: (i - k)%N.
case F: (mgs_small _ _ _ _ _ _ _ _ _) => [[[y x]|] [l1 l2]] /=; have S := small_good Qs s0 F; apply: final.
- by have [H _] := rest_good l2 [:: y; y] fresh x hs'; rewrite /= H.
- by have [_ H] := rest_good l2 [:: y; y] fresh x hs'; case=> [|j] h //; rewrite before_cons; exact: H.
- by rewrite /= size_map.
- by case=> [|j] h //; rewrite before_cons; have := @nones_good l2 rest j h.
Qed.
End Shifts.
(** The large shifts: the loop is that of the conjugate gradient. *)
Section Large.
Local Notation E := (exact C m).
Lemma shift_cg n mad (A : vector -> vector) eps s x r p nr : adds A mad -> hermitian_op (shifted A s) ->
  shift_loop E n mad eps s x r p nr = cg_loop E n (shifted A s) eps x r p nr.
Proof.
move=> mE hA; elim: n x r p nr => [|n IH] x r p nr //=; rewrite mE -/(shifted A s p).
have -> : 'Re (scalar_product p (shifted A s p)) = scalar_product p (shifted A s p).
  by apply/Creal_ReP; apply/CrealP; rewrite spC hA.
by case: ifP => // _; case: ifP => // _; case: ifP.
Qed.
Lemma large_solved maxSteps eps mad (A : vector -> vector) (b : vector) s : adds A mad -> linear_op (shifted A s) ->
  hermitian_op (shifted A s) -> positive_op (shifted A s) -> 0 < eps -> b != 0 -> (m <= maxSteps)%N ->
  exists2 x, mgs_large maxSteps eps mad b s = Some x & residual_norm (shifted A s) b x < eps.
Proof.
move=> mE lA hA pA e0 b0 hm.
have A0 : shifted A s 0 = 0 by have := lA (-1) 0 0; rewrite !scaleN1r oppr0 addr0 addNr.
have [|y Ey] := @cg_complete C m maxSteps (shifted A s) eps b (Some 0) lA hA pA e0 _ hm; first by rewrite A0.
have sy := cg_sound lA Ey; exists y => //; rewrite /mgs_large (shift_cg _ _ _ _ _ _ mE hA).
by move: Ey; rewrite /cg_solve /= A0 subr0 => ->.
Qed.
Lemma multishift_large maxSteps eps mad limit precision gamma5 tw direction (b : vector) ss fresh i :
  (i < find (fun s => ~~ mgs_is_large s) ss)%N ->
  nth (None, (0, 0))%N (mgs_solve maxSteps eps limit precision mad gamma5 tw direction b ss fresh) i
  = (mgs_large maxSteps eps mad b (nth 0 ss i), (limit, limit)).
Proof.
rewrite /mgs_solve; set k := find _ _ => lt; set first := map _ _.
have kle : (k <= size ss)%N := find_size _ _.
have sf : size first = k by rewrite size_map size_takel.
have h : nth (None, (0, 0))%N first i = (mgs_large maxSteps eps mad b (nth 0 ss i), (limit, limit)).
  by rewrite (nth_map 0) ?size_takel // nth_take.
case: (drop k ss) => [|s rest] //.
by case: mgs_small => [[[y x]|] [l1 l2]]; rewrite nth_cat sf lt.
Qed.
End Large.
End Proofs.

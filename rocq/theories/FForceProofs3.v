(** The fermion force is the gradient of the pseudofermion action, for any representation of the links. *)
From Coq Require Import List.
From mathcomp Require Import all_ssreflect all_algebra.
From Verif Require Import GaugeModel GaugeSpec GaugeProofs GaugeProofs2 DiracModel DiracSpec DiracProofs DiracProofs2.
From Verif Require Import AdjModel AdjSpec AdjProofs AdjProofs5 FForceModel FForceSpec FForceProofs FForceProofs2.
Import Order.POrderTheory GRing.Theory Num.Theory.
Set Implicit Arguments.
Unset Strict Implicit.
Unset Printing Implicit Defensive.
Local Open Scope ring_scope.

Lemma F2_nil A B (R : A -> B -> Prop) m : Forall2 R nil m -> m = nil.
Proof. by move=> h; inversion h. Qed.
Lemma F2_cons A B (R : A -> B -> Prop) a l m : Forall2 R (a :: l) m -> exists b m', [/\ m = b :: m', R a b & Forall2 R l m'].
Proof. by move=> h; inversion h; exists y, l'. Qed.
Section Ext.
Variable C : numClosedFieldType.
Variable n : nat.
Variable L : lattice.
Notation field := (L -> 'I_4 -> 'I_n -> C) (only parsing).
Notation links := (L -> 'I_4 -> 'M[C]_n) (only parsing).
Notation part := (field * seq (C * field))%type (only parsing).
Variable k : C.
Implicit Types (V M : links) (v w X Y : field).

Lemma hermitian_links V V' v : (forall x mu, V x mu = V' x mu) -> feq (hermitian_dirac k V v) (hermitian_dirac k V' v).
Proof.
move=> E; apply: g5_ext => x a c; rewrite /dirac; congr (_ - _ * _).
by apply: eq_bigr => mu _; apply: eq_bigr => b _; congr (_ * _ + _ * _); apply: eq_bigr => e _; rewrite E.
Qed.
Lemma hermitian_ext V v w : feq v w -> feq (hermitian_dirac k V v) (hermitian_dirac k V w).
Proof. by move=> E; apply: g5_ext; exact: dirac_ext. Qed.
Lemma shifted_links V V' b v : (forall x mu, V x mu = V' x mu) -> feq (shifted k V b v) (shifted k V' b v).
Proof.
by move=> E x a c; rewrite /shifted (hermitian_links _ E) (hermitian_ext _ (hermitian_links v E)).
Qed.
Lemma derivative_ext V X Y Y' x mu : feq Y Y' -> wilson_derivative k V X Y x mu = wilson_derivative k V X Y' x mu.
Proof.
move=> E.
have S t a (w w' : 'I_4 -> 'I_n -> C) : (forall b, w b =1 w' b) -> spin_sum t k mu a w =1 spin_sum t k mu a w'.
  by move=> h c; rewrite !spin_sumE; congr (_ * _); apply: eq_bigr => b _; rewrite h.
have T (u u' w w' : 'I_n -> C) : u =1 u' -> w =1 w' -> tensor u w = tensor u' w'.
  by move=> h h'; apply/matrixP => i j; rewrite !mxE h h'.
rewrite !derivative_split /derivative_half; congr (_ + _ - _ + (_ + _ - _)); apply: eq_bigr => a _; apply: T => //.
- by apply: S => b c; rewrite E.
- by apply: S => b; apply: mulv_ext => c; rewrite E.
- by apply: mulv_ext => c; rewrite E.
Qed.
(** What the loops accumulate. *)
Lemma nflavor_derivativeE V (run : seq part) x mu : nflavor_derivative k V run x mu =
  - \sum_(q <- run) \sum_(t <- q.2) t.1 *: wilson_derivative k V t.2 (hermitian_dirac k V t.2) x mu.
Proof.
have inn (s : seq (C * field)) F : foldl (fun F (t : C * field) => add_derivative k V F t.2 (wilson_multiply k true V t.2 t.2) t.1) F s x mu
    = F x mu - \sum_(t <- s) t.1 *: wilson_derivative k V t.2 (hermitian_dirac k V t.2) x mu.
  elim: s F => [|t s IH] F /=; first by rewrite big_nil subr0.
  rewrite IH big_cons opprD addrA /add_derivative; congr (_ - _ *: _ - _).
  by apply: derivative_ext => y a c; rewrite wilson_correct.
have out (s : seq part) F : foldl (fun F (p : part) =>
    foldl (fun F (t : C * field) => add_derivative k V F t.2 (wilson_multiply k true V t.2 t.2) t.1) F p.2) F s x mu
    = F x mu - \sum_(q <- s) \sum_(t <- q.2) t.1 *: wilson_derivative k V t.2 (hermitian_dirac k V t.2) x mu.
  elim: s F => [|q s IH] F /=; first by rewrite big_nil subr0.
  by rewrite IH inn big_cons opprD addrA.
by rewrite /nflavor_derivative out sub0r.
Qed.
Lemma inner_suml v (s : seq (C * field)) :
  inner v (fun x a c => \sum_(t <- s) t.1 * t.2 x a c) = \sum_(t <- s) t.1 * inner v t.2.
Proof.
elim: s => [|t s IH].
  by rewrite big_nil /inner big1 // => x _; rewrite big1 // => a _; rewrite big1 // => c _; rewrite big_nil mulr0.
rewrite big_cons -IH /inner mulr_sumr -big_split; apply: eq_bigr => x _; rewrite mulr_sumr -big_split.
apply: eq_bigr => a _; rewrite mulr_sumr -big_split; apply: eq_bigr => c _ /=.
by rewrite big_cons mulrDr mulrCA.
Qed.
Lemma energyE (run : seq part) : nflavor_energy run = 'Re (action_value run).
Proof.
rewrite /nflavor_energy /action_value (raddf_sum (Re_additive C)) /=; apply: eq_bigr => q _.
by rewrite dotE inner_suml.
Qed.

(** Sums of terms with errors of second order. *)
Hypothesis kR : k \is Num.real.
Variables (V M Z : links).
Hypothesis uV : forall x mu, unitary (V x mu).
Hypothesis aM : forall x mu, anti_hermitian (M x mu).
Definition slope_term X : C := \sum_x \sum_(mu < 4) \tr (wilson_derivative k V X (hermitian_dirac k V X) x mu *m M x mu *m V x mu).
Definition slope (run : seq part) : C := \sum_(q <- run) \sum_(t <- q.2) t.1 * slope_term t.2.
Let V' e := curve V (fun x mu => M x mu *m V x mu) Z e.
(** d is within second order of e times s, for all the values v' reached at e. *)
Definition first_order (T : Type) (sol : C -> T -> Prop) (value : T -> C) (t0 : T) (s : C) : Prop :=
  exists r K : C, [/\ 0 < r, 0 <= K & forall e, e \is Num.real -> `|e| <= r ->
    (exists t, sol e t) /\ forall t, sol e t -> `|value t - value t0 + e * s| <= `|e| ^+ 2 * K].
Lemma first_order_add (T1 T2 T : Type) sol1 sol2 (val1 : T1 -> C) (val2 : T2 -> C) t1 t2 s1 s2
    (sol : C -> T -> Prop) (val : T -> C) t s :
  first_order sol1 val1 t1 s1 -> first_order sol2 val2 t2 s2 ->
  (forall e u1 u2, sol1 e u1 -> sol2 e u2 -> exists u, sol e u) ->
  (forall e u, sol e u -> exists u1 u2, [/\ sol1 e u1, sol2 e u2 & val u = val1 u1 + val2 u2]) ->
  val t = val1 t1 + val2 t2 -> s = s1 + s2 -> first_order sol val t s.
Proof.
move=> [r1 [K1 [r1p K1p H1]]] [r2 [K2 [r2p K2p H2]]] ex un vt ->.
exists (r1 * r2 / (r1 + r2)), (K1 + K2); split; first by rewrite divr_gt0 ?mulr_gt0 ?addr_gt0.
  by rewrite addr_ge0.
move=> e eR le.
have rp : 0 < r1 + r2 by rewrite addr_gt0.
have le1 : `|e| <= r1.
  apply: (le_trans le); rewrite ler_pdivr_mulr // mulrDr ler_addr mulr_ge0 // ltW //.
have le2 : `|e| <= r2.
  apply: (le_trans le); rewrite ler_pdivr_mulr // mulrDr mulrC ler_addl mulr_ge0 // ltW //.
have [[u1 e1] b1] := H1 e eR le1; have [[u2 e2] b2] := H2 e eR le2.
split; first by exact: ex e1 e2.
move=> u /un [w1 [w2 [h1 h2 ->]]]; rewrite vt opprD !mulrDr (addrACA (val1 w1)) (addrACA (val1 w1 - _)).
by apply: (le_trans (ler_norm_add _ _)); rewrite ler_add ?b1 ?b2.
Qed.
Lemma first_order_scale T (sol : C -> T -> Prop) val t s (a : C) :
  first_order sol val t s -> first_order sol (fun u => a * val u) t (a * s).
Proof.
move=> [r [K [rp Kp H]]]; exists r, (`|a| * K); split=> //; first by rewrite mulr_ge0.
move=> e eR le; have [ex b] := H e eR le; split=> // u su.
by rewrite [e * _]mulrCA -mulrBr -mulrDr normrM mulrCA ler_wpmul2l ?b.
Qed.
Lemma term_order b phi X : b \is Num.real -> regular k V b -> feq (shifted k V b X) phi ->
  first_order (fun e X' => feq (shifted k (V' e) b X') phi) (inner phi) X (slope_term X).
Proof. by move=> bR reg sX; apply: one_term. Qed.
Let sols phi e := Forall2 (fun (ab : C * C) (t : C * field) => t.1 = ab.1 /\ feq (shifted k (V' e) ab.2 t.2) phi).
Lemma terms_order phi abs ts :
  Forall (fun ab => [/\ ab.1 \is Num.real, ab.2 \is Num.real & regular k V ab.2]) abs ->
  Forall2 (fun (ab : C * C) (t : C * field) => t.1 = ab.1 /\ feq (shifted k V ab.2 t.2) phi) abs ts ->
  first_order (fun e => sols phi e abs) (fun ts => \sum_(t <- ts) t.1 * inner phi t.2) ts (\sum_(t <- ts) t.1 * slope_term t.2).
Proof.
elim: abs ts => [|ab abs IH] ts wp; first move=> /F2_nil ->.
  exists 1, 0; split; [exact: ltr01 | exact: lexx |] => e eR le; split; first by exists nil; constructor.
  by move=> us /F2_nil ->; rewrite !big_nil subrr mulr0 addr0 normr0 mulr0.
move=> h0; have [y [l' [E [ta sX] H]]] := F2_cons h0; rewrite E {h0 E}.
have [aR bR reg] := Forall_inv wp.
have T := first_order_scale ab.1 (term_order bR reg sX).
apply: (first_order_add T (IH _ (Forall_inv_tail wp) H)).
- move=> e X' us h1 h2; exists ((ab.1, X') :: us); by constructor.
- move=> e us h0; have [t [us' [-> [ua uX] h]]] := F2_cons h0.
  by exists t.2, us'; split=> //; rewrite big_cons ua.
- by rewrite big_cons ta.
- by rewrite big_cons ta.
Qed.
Lemma run_order action run : well_posed k V action -> solved k V action run ->
  first_order (fun e => solved k (V' e) action) (@action_value C n L) run (slope run).
Proof.
elim: action run => [|p action IH] run wp; first move=> /F2_nil ->.
  exists 1, 0; split; [exact: ltr01 | exact: lexx |] => e eR le; split; first by exists nil; constructor.
  by move=> us /F2_nil ->; rewrite /action_value /slope !big_nil subrr mulr0 addr0 normr0 mulr0.
move=> h0; have [q [l' [E [pq ts] H]]] := F2_cons h0; rewrite E {h0 E}.
apply: (first_order_add (terms_order (Forall_inv wp) ts) (IH _ (Forall_inv_tail wp) H)).
- move=> e us rs h1 h2; exists ((p.1, us) :: rs); by constructor.
- move=> e us h0; have [t [us' [-> [ua uX] h]]] := F2_cons h0.
  by exists t.2, us'; split=> //; rewrite /action_value big_cons ua.
- by rewrite /action_value big_cons pq.
- by rewrite /slope big_cons.
Qed.
End Ext.

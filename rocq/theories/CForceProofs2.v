(** First order perturbation theory for the pseudofermion action of a family of operators. *)
From Coq Require Import List.
From mathcomp Require Import all_ssreflect all_algebra.
From Verif Require Import GaugeModel GaugeSpec GaugeProofs GaugeProofs2 DiracModel DiracSpec DiracProofs DiracProofs2.
From Verif Require Import FForceModel FForceSpec PertProofs VecProofs FForceProofs2 FForceProofs3 CForceSpec CForceProofs.
Import Order.POrderTheory GRing.Theory Num.Theory.
Set Implicit Arguments.
Unset Strict Implicit.
Unset Printing Implicit Defensive.
Local Open Scope ring_scope.

Section Family.
Variable C : numClosedFieldType.
Variable n : nat.
Variable L : lattice.
Notation field := (L -> 'I_4 -> 'I_n -> C) (only parsing).
Notation links := (L -> 'I_4 -> 'M[C]_n) (only parsing).
Notation part := (field * seq (C * field))%type (only parsing).
Variable Q : links -> field -> field.
Hypothesis Q_linear : forall U, linear_op (Q U).
Local Notation N := #|[finType of L * 'I_4 * 'I_n]|.
Lemma vec_shifted_by U b v : vec (shifted_by Q U b v) = (opmx (Q U) *m opmx (Q U) + b%:M) *m vec v.
Proof.
rewrite mulmxDl mul_scalar_mx -mulmxA -!vec_op; try exact: Q_linear.
by apply/matrixP => i j; rewrite !mxE.
Qed.
Lemma regular_by_unit U b : regular_by Q U b -> opmx (Q U) *m opmx (Q U) + b%:M \in unitmx.
Proof.
move=> reg; apply: unit_inj => u; rewrite -{1}(unvecK u) -vec_shifted_by => z.
have : feq (unvec u) (fun _ _ _ => 0).
  by apply: reg => x a c; rewrite -vecE z mxE.
by move/vec_ext; rewrite unvecK => ->; apply/matrixP => i j; rewrite !mxE.
Qed.
(** Regular equations have solutions. *)
Lemma regular_by_solution U b phi : regular_by Q U b -> exists X, feq (shifted_by Q U b X) phi.
Proof.
move=> /regular_by_unit u; exists (unvec (invmx (opmx (Q U) *m opmx (Q U) + b%:M) *m vec phi)).
by apply: vec_inj; rewrite vec_shifted_by unvecK mulmxA mulmxV // mul1mx.
Qed.
Variables (V : links) (V' : C -> links) (d : field -> field).
Hypothesis Q_herm : forall v w, inner v (Q V w) = inner (Q V v) w.
Hypothesis d_linear : linear_op d.
Hypothesis Q_exp : mexp (fun e => opmx (Q (V' e))) (opmx (Q V)) (opmx d).
Definition slope_term_by X : C := inner X (d (Q V X)) + inner (Q V X) (d X).
Definition slope_by (run : seq part) : C := \sum_(q <- run) \sum_(t <- q.2) t.1 * slope_term_by t.2.
Lemma term_order_by b phi X : b \is Num.real -> regular_by Q V b -> feq (shifted_by Q V b X) phi ->
  first_order (fun e X' => feq (shifted_by Q (V' e) b X') phi) (inner phi) X (slope_term_by X).
Proof.
move=> bR reg sX.
pose q := opmx (Q V); pose dm := opmx d; pose A := q *m q + b%:M; pose B := dm *m q + q *m dm.
pose F e := opmx (Q (V' e)) *m opmx (Q (V' e)) + b%:M; pose R := remainder F A B.
have FE : mexp F A B.
  apply: mexp_ext (mexp_add (mexp_mul Q_exp Q_exp) (mexp_const b%:M)) _ _ _ => //.
  by rewrite addr0 addrC.
have qH : htrans q = q by apply: opmx_herm; [exact: Q_linear | exact: Q_herm].
have AH : htrans A = A by rewrite /A htransD htransM qH htrans_scalar (CrealP bR).
have AU : A \in unitmx by exact: regular_by_unit.
have AX : A *m vec X = vec phi by rewrite -vec_shifted_by; exact: vec_ext.
have [rho Rb] := remainder_bound FE.
have [r [K [r0 K0 H]]] := perturb B AH AU Rb AX.
exists (r / (1 + r)), K; split=> //; first by rewrite divr_gt0 ?addr_gt0 ?ltr01.
move=> e eR le.
have rp : 0 < 1 + r by rewrite addr_gt0 ?ltr01.
have le1 : `|e| <= 1 by apply: (le_trans le); rewrite ler_pdivr_mulr // mul1r ler_addr ler01.
have ler : `|e| <= r by apply: (le_trans le); rewrite ler_pdivr_mulr // mulrDr mulr1 ler_addl mulr_ge0 ?ltW.
have EM : opmx (Q (V' e)) *m opmx (Q (V' e)) + b%:M = moved A B R e by exact: (remainderE FE eR le1).
have [mU HX] := H e ler.
split.
  exists (unvec (invmx (moved A B R e) *m vec phi)); apply: vec_inj.
  by rewrite vec_shifted_by EM unvecK mulmxA mulmxV // mul1mx.
move=> X' sX'; have sX2 : moved A B R e *m vec X' = vec phi by rewrite -EM -vec_shifted_by; exact: vec_ext.
have := HX _ sX2; rewrite !innerE /slope_term_by -(Q_herm X) !innerE (vec_op _ (Q_linear V)) !(vec_op _ d_linear) (vec_op _ (Q_linear V)).
by rewrite !mulmxA -quadD -mulmxDl.
Qed.
Let sols phi e := Forall2 (fun (ab : C * C) (t : C * field) => t.1 = ab.1 /\ feq (shifted_by Q (V' e) ab.2 t.2) phi).
Lemma terms_order_by phi abs ts :
  Forall (fun ab => [/\ ab.1 \is Num.real, ab.2 \is Num.real & regular_by Q V ab.2]) abs ->
  Forall2 (fun (ab : C * C) (t : C * field) => t.1 = ab.1 /\ feq (shifted_by Q V ab.2 t.2) phi) abs ts ->
  first_order (fun e => sols phi e abs) (fun ts => \sum_(t <- ts) t.1 * inner phi t.2) ts (\sum_(t <- ts) t.1 * slope_term_by t.2).
Proof.
elim: abs ts => [|ab abs IH] ts wp; first move=> /F2_nil ->.
  exists 1, 0; split; [exact: ltr01 | exact: lexx |] => e eR le; split; first by exists nil; constructor.
  by move=> us /F2_nil ->; rewrite !big_nil subrr mulr0 addr0 normr0 mulr0.
move=> h0; have [y [l' [E [ta sX] H]]] := F2_cons h0; rewrite E {h0 E}.
have [aR bR reg] := Forall_inv wp.
have T := first_order_scale ab.1 (term_order_by bR reg sX).
apply: (first_order_add T (IH _ (Forall_inv_tail wp) H)).
- move=> e X' us h1 h2; exists ((ab.1, X') :: us); by constructor.
- move=> e us h0; have [t [us' [-> [ua uX] h]]] := F2_cons h0.
  by exists t.2, us'; split=> //; rewrite big_cons ua.
- by rewrite big_cons ta.
- by rewrite big_cons ta.
Qed.
Lemma run_order_by action run : well_posed_by Q V action -> solved_by Q V action run ->
  first_order (fun e => solved_by Q (V' e) action) (@action_value C n L) run (slope_by run).
Proof.
elim: action run => [|p action IH] run wp; first move=> /F2_nil ->.
  exists 1, 0; split; [exact: ltr01 | exact: lexx |] => e eR le; split; first by exists nil; constructor.
  by move=> us /F2_nil ->; rewrite /action_value /slope_by !big_nil subrr mulr0 addr0 normr0 mulr0.
move=> h0; have [q [l' [E [pq ts] H]]] := F2_cons h0; rewrite E {h0 E}.
apply: (first_order_add (terms_order_by (Forall_inv wp) ts) (IH _ (Forall_inv_tail wp) H)).
- move=> e us rs h1 h2; exists ((p.1, us) :: rs); by constructor.
- move=> e us h0; have [t [us' [-> [ua uX] h]]] := F2_cons h0.
  by exists t.2, us'; split=> //; rewrite /action_value big_cons ua.
- by rewrite /action_value big_cons pq.
- by rewrite /slope_by big_cons.
Qed.
(** Positive shifts are regular, and well posed actions have solutions. *)
Lemma regular_by_positive b : 0 < b -> regular_by Q V b.
Proof.
move=> b0 v h; apply: inner_eq0.
have E : inner (Q V v) (Q V v) + b * inner v v = 0.
  rewrite -Q_herm -[RHS](_ : inner v (fun _ _ _ => 0) = 0); last first.
    by rewrite /inner big1 // => x _; rewrite big1 // => a _; rewrite big1 // => c _; rewrite mulr0.
  rewrite -(inner_ext (v := v) (fun _ _ _ => erefl) h) /shifted_by /inner mulr_sumr -big_split; apply: eq_bigr => x _.
  rewrite mulr_sumr -big_split; apply: eq_bigr => a _; rewrite mulr_sumr -big_split; apply: eq_bigr => c _ /=.
  by rewrite mulrDr [b * _]mulrCA.
have p : 0 <= b * inner v v by rewrite mulr_ge0 ?inner_ge0 // ltW.
have z : b * inner v v = 0.
  by apply/eqP; rewrite eq_le p andbT -E ler_addr inner_ge0.
by move/eqP: z; rewrite mulf_eq0 gt_eqF //= => /eqP.
Qed.
Lemma well_posed_by_run action : well_posed_by Q V action -> exists run, solved_by Q V action run.
Proof.
elim: action => [|p l IH] wp; first by exists nil; constructor.
have [run sv] := IH (Forall_inv_tail wp).
have [ts st] : exists ts, Forall2 (fun (ab : C * C) (t : C * field) => t.1 = ab.1 /\ feq (shifted_by Q V ab.2 t.2) p.1) p.2 ts.
  elim: (p.2) (Forall_inv wp) => [|ab s IHs] w; first by exists nil; constructor.
  have [ts st] := IHs (Forall_inv_tail w); have [_ _ reg] := Forall_inv w.
  by have [X sX] := regular_by_solution p.1 reg; exists ((ab.1, X) :: ts); constructor.
by exists ((p.1, ts) :: run); constructor.
Qed.
End Family.

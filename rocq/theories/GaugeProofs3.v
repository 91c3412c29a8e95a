(** Box lattices, forces and momenta. *)
From Coq Require Import Ring Lia.
From mathcomp Require Import all_ssreflect all_algebra.
From Verif Require Import GaugeModel GaugeSpec GaugeProofs GaugeProofs2.
Import GRing.Theory Num.Theory.
Set Implicit Arguments.
Unset Strict Implicit.
Unset Printing Implicit Defensive.
Local Open Scope ring_scope.

(** * The periodic box. *)
Section Cyc.
Variable k : nat.
Lemma cyc_upK : cancel (@cyc_up k) (@cyc_down k).
Proof.
move=> i; apply: val_inj; rewrite /cyc_down /cyc_up /= inordK ?ltn_pmod // inordK ?ltn_pmod //.
by rewrite modnDml addSnnS modnDr modn_small.
Qed.
Lemma cyc_downK : cancel (@cyc_down k) (@cyc_up k).
Proof.
move=> i; apply: val_inj; rewrite /cyc_down /cyc_up /= inordK ?ltn_pmod // inordK ?ltn_pmod //.
by rewrite -addn1 modnDml addn1 -addnS modnDr modn_small.
Qed.
Lemma cyc_up_neq (i : 'I_k.+1) : (0 < k)%N -> cyc_up i <> i.
Proof.
move=> k0 /(congr1 val); rewrite /cyc_up /= inordK ?ltn_pmod // => E.
case: (ltnP i.+1 k.+1) => h; first by rewrite modn_small // in E; move/eqP: E; rewrite eqn_leq ltnn.
have e : (i : nat) = k by apply/eqP; rewrite eqn_leq -ltnS ltn_ord.
by move: E; rewrite e modnn => E0; rewrite -E0 in k0.
Qed.
Lemma cyc_up2_neq (i : 'I_k.+1) : (1 < k)%N -> cyc_up (cyc_up i) <> i.
Proof.
move=> k0 /(congr1 val); rewrite /cyc_up /= inordK ?ltn_pmod // inordK ?ltn_pmod //.
rewrite -addn1 modnDml addn1 => E.
case: (ltnP i.+2 k.+1) => h; first by rewrite modn_small // in E; lia.
have : (i : nat) = k \/ i.+1 = k.
  by have /ltP := ltn_ord i; move/leP: h; lia.
case=> e; move: E.
  by rewrite e -addn1 modnDl modn_small ?ltnS ?(ltnW k0) // => E1; rewrite -E1 in k0.
by rewrite e modnn => E1; move: k0; rewrite -e -E1.
Qed.
End Cyc.

Section BoxLattice.
Variables a b c d : nat.
Lemma box_supK mu : cancel (@box_sup a b c d mu) (box_sdn mu).
Proof.
case=> [[[x0 x1] x2] x3]; rewrite /box_sup /box_sdn /box_move /=.
by case: (nat_of_ord mu) => [|[|[|m]]]; rewrite cyc_upK.
Qed.
Lemma box_sdnK mu : cancel (@box_sdn a b c d mu) (box_sup mu).
Proof.
case=> [[[x0 x1] x2] x3]; rewrite /box_sup /box_sdn /box_move /=.
by case: (nat_of_ord mu) => [|[|[|m]]]; rewrite cyc_downK.
Qed.
Lemma box_supC mu nu x : @box_sup a b c d mu (box_sup nu x) = box_sup nu (box_sup mu x).
Proof.
case: x => [[[x0 x1] x2] x3]; rewrite /box_sup /box_move /=.
by case: (nat_of_ord mu) => [|[|[|m]]]; case: (nat_of_ord nu) => [|[|[|m']]].
Qed.
Definition box : lattice := Lattice box_supK box_sdnK box_supC.

Lemma box_extent2 : (0 < a)%N -> (0 < b)%N -> (0 < c)%N -> (0 < d)%N -> extent2 box.
Proof.
move=> ha hb hc hd mu [[[x0 x1] x2] x3]; rewrite /= /box_sup /box_move /=.
by case: (nat_of_ord mu) => [|[|[|m]]] => -[]; apply: cyc_up_neq.
Qed.
Lemma box_extent3 : (1 < a)%N -> (1 < b)%N -> (1 < c)%N -> (1 < d)%N -> extent3 box.
Proof.
move=> ha hb hc hd; split; first by apply: box_extent2; apply: ltnW.
split.
  move=> mu [[[x0 x1] x2] x3]; rewrite /= /box_sup /box_move /=.
  by case: (nat_of_ord mu) => [|[|[|m]]] => -[]; apply: cyc_up2_neq.
have [ha' hb' hc' hd'] : [/\ (0 < a)%N, (0 < b)%N, (0 < c)%N & (0 < d)%N] by split; apply: ltnW.
move=> mu nu [[[x0 x1] x2] x3] ne; rewrite /= /box_sup /box_move /=.
have ne' : (mu : nat) <> nu by move=> E; apply: ne; apply: val_inj.
case: mu nu {ne} ne' => [[|[|[|[|m]]]] hm] [[|[|[|[|m']]]] hm'] //= _.
all: split; case=> *; (try by apply: (@cyc_up_neq a x0)); (try by apply: (@cyc_up_neq b x1));
  (try by apply: (@cyc_up_neq c x2)); (try by apply: (@cyc_up_neq d x3)).
Qed.
End BoxLattice.

(** * Forces. *)
Section Force.
Variable C : numClosedFieldType.
Variable n : nat.
Variable L : lattice.
Notation GaugeGroup := 'M[C]_n.
Add Ring Cring3 : (Crth C).
Ltac cring := cring_fold C; ring.
Implicit Types (A B S : GaugeGroup).

Lemma tr_traceless (M : GaugeGroup) : \tr (M - (\tr M / n%:R)%:M) = 0.
Proof.
rewrite (raddfB (mxtrace_additive _ _)) /= mxtrace_scalar.
case: n M => [|m] M; first by rewrite mulr0n subr0 /mxtrace big_ord0.
by rewrite -mulr_natr divfK ?subrr // pnatr_eq0.
Qed.
Lemma force_traceless beta A S : traceless (gauge_force beta A S).
Proof. exact: tr_traceless. Qed.
Lemma anti_sub (M : GaugeGroup) : htrans M = - M -> htrans (M - (\tr M / n%:R)%:M) = - (M - (\tr M / n%:R)%:M).
Proof.
move=> h; rewrite htransB htrans_scalar h.
have -> : (\tr M / n%:R)^* = - (\tr M / n%:R).
  rewrite rmorphM /= fmorphV /= conjC_nat -tr_htrans h.
  by rewrite (raddfN (mxtrace_additive _ _)) mulNr.
by rewrite [in LHS]raddfN opprK opprB addrC.
Qed.
Lemma force_anti_hermitian beta A S : beta \is Num.real -> anti_hermitian (gauge_force beta A S).
Proof.
move=> bR; rewrite /anti_hermitian daggerE; apply: anti_sub.
rewrite htransN htransZ htransB htransK; congr (- _).
have -> : (4%:R^-1 * beta / n%:R)^* = 4%:R^-1 * beta / n%:R.
  by apply: conj_Creal; rewrite !rpredM ?rpredV ?realn.
by rewrite -scalerN opprB.
Qed.
Lemma force_gauge beta (om om' : GaugeGroup) A S : unitary om -> unitary om' ->
  gauge_force beta (om *m A *m htrans om') (om' *m S *m htrans om) = om *m gauge_force beta A S *m htrans om.
Proof.
move=> u u'; rewrite /gauge_force.
have -> : om *m A *m htrans om' *m (om' *m S *m htrans om) = om *m (A *m S) *m htrans om.
  by rewrite !mulmxA -(mulmxA _ (htrans om') om') unitary_l // mulmx1.
move: (A *m S) => M; rewrite !htransM htransK.
have -> : om *m (htrans M *m htrans om) - om *m M *m htrans om = om *m (htrans M - M) *m htrans om.
  by rewrite mulmxBr mulmxBl mulmxA.
set k := (4%:R^-1 * beta / n%:R).
rewrite scalemxAl scalemxAr -mulNmx -mulmxN; set F := - (_ *: _).
have -> : \tr (om *m F *m htrans om) = \tr F by rewrite mxtrace_mulC mulmxA unitary_l // mul1mx.
by rewrite mulmxBr mulmxBl mul_mx_scalar -scalemxAl unitary_r // scalemx1.
Qed.

(** The force is the gradient of the action: moving a link along an anti-Hermitian traceless P. *)
Lemma retr_anti A B : htrans A = - A -> retr (A *m (htrans B - B)) = - (2%:R * retr (A *m B)).
Proof.
move=> h; rewrite mulmxBr retrB -[retr (A *m htrans B)]retr_htrans htransM htransK h mulmxN retrN retrC.
by rewrite -opprD mulr_natl.
Qed.
Lemma gradient_arith (f i b m q : C) : f * f * i = 1 -> f * - (i * b * m * - (f * q)) = b * m * q.
Proof. move=> h; transitivity ((f * f * i) * (b * m * q)); [cring | by rewrite h mul1r]. Qed.
Lemma force_gradient beta (P A S : GaugeGroup) : beta \is Num.real -> anti_hermitian P -> traceless P ->
  2%:R * retr (P *m gauge_force beta A S) = beta / n%:R * retr (P *m A *m S).
Proof.
move=> bR; rewrite /anti_hermitian daggerE => h t.
rewrite /gauge_force mulmxBr retrB mul_mx_scalar.
set z := \tr _ / _; have -> : retr (z *: P) = 0 by rewrite /retr mxtraceZ t mulr0 raddf0.
rewrite subr0 mulmxN retrN -scalemxAr retrZ ?retr_anti //; last by rewrite !rpredM ?rpredV ?realn.
rewrite mulmxA; set q := retr _.
have n4 : (4%:R : C) = 2%:R * 2%:R by rewrite -natrM.
have i4 : (2%:R * 2%:R) * (4%:R^-1 : C) = 1 by rewrite -n4 divff // pnatr_eq0.
exact: gradient_arith i4.
Qed.

(** Moving one link along P, to all orders, and the kinetic energy. *)
Lemma delta_gradient (beta eps : C) (U : gauge C n L) (P S : GaugeGroup) (x : L) (mu : 'I_4) :
  beta \is Num.real -> eps \is Num.real -> anti_hermitian P -> traceless P ->
  delta_action beta U (U x mu + eps *: (P *m U x mu)) S x mu = - (eps * (2%:R * retr (P *m gauge_force beta (U x mu) S))).
Proof.
move=> bR eR h t; rewrite force_gradient // /delta_action mulmxDl retrD addrC addKr -scalemxAl retrZ //.
set q := retr _; by rewrite -!mulrA mulNr; congr (- _); rewrite mulrCA; congr (_ * _); rewrite mulrCA mulrC -mulrA.
Qed.
Lemma kinetic_step (eps : C) (P F : GaugeGroup) : eps \is Num.real ->
  - retr ((P - eps *: F) *m (P - eps *: F)) - - retr (P *m P) = eps * (2%:R * retr (P *m F)) - eps ^+ 2 * retr (F *m F).
Proof.
move=> eR; rewrite mulmxBr !mulmxBl !retrB -!scalemxAr -!scalemxAl !retrZ // (retrC F P) expr2.
have -> : 2%:R = 1 + 1 :> C by rewrite -mulr2n.
set a := retr _; set b := retr _; set c := retr _; move: a b c => a b c.
cring.
Qed.
End Force.

(** * Momenta. *)
Section Momenta.
Variable C : numClosedFieldType.
Variable n : nat.
Notation GaugeGroup := 'M[C]_n.
Implicit Types (A : GaugeGroup) (i j a b : 'I_n).

Definition good A a b := A b a = - (A a b)^*.
Lemma good_sym A a b : good A a b -> good A b a.
Proof. by rewrite /good => ->; rewrite rmorphN conjCK opprK. Qed.
Lemma msetE A i j v a b : mset A i j v a b = if (a == i) && (b == j) then v else A a b.
Proof. by rewrite mxE. Qed.

(** A fold whose every step preserves R, and whose step at [i] establishes R i. *)
Lemma fold_establish (T : eqType) (X : Type) (f : X -> T -> X) (R : T -> X -> Prop) (I : X -> Prop) s x :
  I x -> (forall x t, I x -> I (f x t)) ->
  (forall x t, I x -> R t (f x t)) -> (forall x t u, I x -> R u x -> R u (f x t)) ->
  I (foldl f x s) /\ forall t, t \in s -> R t (foldl f x s).
Proof.
move=> Ix If Re Rp.
have keep : forall s x u, I x -> R u x -> I (foldl f x s) /\ R u (foldl f x s).
  by elim=> [|t s' IH] y u Iy Ry //=; apply: IH; [exact: If | exact: Rp].
elim: s x Ix => [|t s IH] x Ix //=; have [I1 R1] := IH _ (If _ t Ix); split=> // u.
rewrite inE => /orP[/eqP ->|]; last exact: R1.
by case: (keep s (f x t) t (If _ _ Ix) (Re _ _ Ix)).
Qed.

Section Drawn.
Variables (re im : 'I_n -> 'I_n -> C) (dg : 'I_n -> C).
Hypothesis reR : forall i j, re i j \is Num.real.
Hypothesis imR : forall i j, im i j \is Num.real.
Hypothesis dgR : forall i, dg i \is Num.real.

Definition put A i j := if (i < j)%N then mset (mset A i j (re i j + 'i * im i j)) j i (- re i j + 'i * im i j) else A.
Lemma put_good A i j : i != j -> (i < j)%N -> good (put A i j) i j.
Proof.
move=> ne lt; rewrite /good /put lt !msetE !eqxx /= (negPf ne) /=.
by rewrite rmorphD rmorphM conjCi /= !conj_Creal // mulNr opprD opprK.
Qed.
Lemma put_keep A i j a b : a != b -> good A a b -> good (put A i j) a b.
Proof.
move=> ne g; rewrite /put; case: ifP => // lt.
have nij : i != j by apply/eqP => E; rewrite E ltnn in lt.
case: (boolP ((a == i) && (b == j))) => [/andP[/eqP -> /eqP ->]|n1].
  by have := put_good A nij lt; rewrite /put lt.
case: (boolP ((a == j) && (b == i))) => [/andP[/eqP -> /eqP ->]|n2].
  by apply: good_sym; have := put_good A nij lt; rewrite /put lt.
by rewrite /good !msetE [(b == j) && (a == i)]andbC [(b == i) && (a == j)]andbC (negPf n1) (negPf n2).
Qed.
Lemma off_diagonal_good A a b : a != b -> good (off_diagonal re im A) a b.
Proof.
move=> ne; wlog lt : a b ne / (a < b)%N.
  move=> H; case: (ltngtP a b) => [|lt|E]; first exact: H.
    by apply: good_sym; apply: H => //; rewrite eq_sym.
  by case/eqP: ne; apply: val_inj.
rewrite /off_diagonal.
pose R (t : 'I_n) (A : GaugeGroup) := forall u : 'I_n, (t < u)%N -> good A t u.
have inner : forall A i, R i (foldl (fun A j => put A i j) A (enum 'I_n)).
  move=> B i u lu; have ni : i != u by apply/eqP => E; rewrite E ltnn in lu.
  have [_ H] := @fold_establish _ _ (fun A j => put A i j) (fun j A => (i < j)%N -> good A i j) (fun _ => True) (enum 'I_n) B I
    (fun _ _ _ => I) (fun A j _ l => ltac:(by apply: put_good => //; apply/eqP => E; rewrite E ltnn in l))
    (fun A j u' _ h l => ltac:(by apply: put_keep (h l); apply/eqP => E; rewrite E ltnn in l)).
  by apply: (H u) => //; rewrite mem_enum.
have keep : forall s A i t, R t A -> R t (foldl (fun A j => put A i j) A s).
  elim=> [|j s IH] B i t h //=; apply: IH => u l; apply: put_keep (h u l).
  by apply/eqP => E; rewrite E ltnn in l.
have [_ H] := @fold_establish _ _ (fun A i => foldl (fun A j => put A i j) A (enum 'I_n)) R (fun _ => True) (enum 'I_n) A I
  (fun _ _ _ => I) (fun A i _ => inner A i) (fun A i t _ => keep _ A i t).
by apply: (H a) => //; rewrite mem_enum.
Qed.

Lemma clear_good A : (forall a b, a != b -> good A a b) ->
  (forall a b, good (clear_diagonal A) a b) /\ \tr (clear_diagonal A) = 0.
Proof.
move=> g.
have st : forall (B : GaugeGroup) (i : 'I_n), (forall a b, a != b -> good B a b) -> forall a b, a != b -> good (mset B i i 0) a b.
  move=> B i h a b ne; rewrite /good !msetE.
  have n1 : (b == i) && (a == i) = false by apply/negP => /andP[/eqP eb /eqP ea]; rewrite ea eb eqxx in ne.
  have n2 : (a == i) && (b == i) = false by rewrite andbC.
  by rewrite n1 n2; apply: h.
have st1 : forall (B : GaugeGroup) (i : 'I_n), mset B i i 0 i i = 0 by move=> B i; rewrite msetE eqxx.
have st2 : forall (B : GaugeGroup) (i u : 'I_n), B u u = 0 -> mset B i i 0 u u = 0 by move=> B i u h; rewrite msetE; case: ifP.
have [I0 H] := @fold_establish _ _ (fun A i => mset A i i 0) (fun i A => A i i = 0)
  (fun A => forall a b, a != b -> good A a b) (enum 'I_n) A g st
  (fun A i _ => st1 A i) (fun A i u _ h => st2 A i u h).
have z i : clear_diagonal A i i = 0 by apply: H; rewrite mem_enum.
split; last by rewrite /mxtrace big1.
move=> a b; case: (altP (a =P b)) => [->|]; last exact: I0.
by rewrite /good z conjC0 oppr0.
Qed.

Definition add_at A j (v : C) := mset A j j (A j j + v).
Lemma add_at_good A j v : v^* = - v -> (forall a b, good A a b) -> forall a b, good (add_at A j v) a b.
Proof.
move=> hv g a b; rewrite /good !msetE [(a == j) && _]andbC.
case: ifP => _; last exact: g.
by rewrite rmorphD hv /= opprD opprK -(g j j).
Qed.
Lemma add_at_trace A j v : \tr (add_at A j v) = \tr A + v.
Proof.
rewrite /mxtrace (bigD1 j) //= msetE !eqxx /= [in RHS](bigD1 j) //= addrAC; congr (_ + _ + _).
by apply: eq_bigr => i ne; rewrite msetE (negPf ne).
Qed.
Lemma imag_conj (v : C) : v \is Num.real -> ('i * v)^* = - ('i * v).
Proof. by move=> h; rewrite rmorphM conjCi /= conj_Creal // mulNr. Qed.
Lemma fold_add_at A (i : 'I_n) v s : v^* = - v -> (forall a b, good A a b) ->
  let B := foldl (fun A (j : 'I_n) => if (j < i)%N then add_at A j v else A) A s in
  (forall a b, good B a b) /\ \tr B = \tr A + v *+ count (fun j : 'I_n => (j < i)%N) s.
Proof.
move=> hv; elim: s A => [|j s IH] A g /=; first by rewrite mulr0n addr0.
case: ifP => lt; last exact: IH.
have [h1 h2] := IH _ (add_at_good j hv g); split=> //.
by rewrite h2 add_at_trace mulrnDr mulr1n addrA.
Qed.
Lemma count_below (i : 'I_n) : count (fun j : 'I_n => (j < i)%N) (enum 'I_n) = i.
Proof.
have -> : count (fun j : 'I_n => (j < i)%N) (enum 'I_n) = count (fun m : nat => (m < i)%N) (map val (enum 'I_n)) by elim: (enum 'I_n) => //= ? ? ->.
rewrite val_enum_ord; have := ltnW (ltn_ord i); move: (nat_of_ord i) => k le.
rewrite -(subnK le) addnC iotaD count_cat.
have -> : count (fun m : nat => (m < k)%N) (iota 0 k) = k.
  by rewrite (@eq_in_count _ _ predT) ?count_predT ?size_iota // => m; rewrite mem_iota add0n.
rewrite (@eq_in_count _ _ pred0) ?count_pred0 ?addn0 // => m; rewrite mem_iota add0n => /andP[h _].
by rewrite ltnNge h.
Qed.
Lemma sqrt_inv (i : nat) : (0 < i)%N -> sqrtC (2%:R / (i * i.+1)%:R : C) = (sqrtC ((i * i.+1)%:R / 2%:R))^-1.
Proof.
move=> i0; have p : (0 : C) <= (i * i.+1)%:R / 2%:R by rewrite divr_ge0 ?ler0n.
by rewrite -rootCV // invf_div.
Qed.
Definition diag_step A i : GaugeGroup :=
  if (0 < i)%N then
    let A := foldl (fun A (j : 'I_n) => if (j < i)%N then add_at A j ('i * (dg i / sqrtC ((i * i.+1)%:R / 2%:R))) else A)
                   A (enum 'I_n) in
    add_at A i ('i * (- dg i * i%:R * sqrtC (2%:R / (i * i.+1)%:R)))
  else A.
Lemma diag_step_good A i : (forall a b, good A a b) -> \tr A = 0 ->
  (forall a b, good (diag_step A i) a b) /\ \tr (diag_step A i) = 0.
Proof.
move=> g t; rewrite /diag_step; case: ifP => i0 //.
have rR : sqrtC ((i * i.+1)%:R / 2%:R : C) \is Num.real by rewrite ger0_real // sqrtC_ge0 divr_ge0 ?ler0n.
have vI : ('i * (dg i / sqrtC ((i * i.+1)%:R / 2%:R)))^* = - ('i * (dg i / sqrtC ((i * i.+1)%:R / 2%:R))).
  by apply: imag_conj; rewrite rpredM ?rpredV.
have [g1 t1] := fold_add_at i (enum 'I_n) vI g.
have wI : ('i * (- dg i * i%:R * sqrtC (2%:R / (i * i.+1)%:R)))^* = - ('i * (- dg i * i%:R * sqrtC (2%:R / (i * i.+1)%:R))).
  by apply: imag_conj; rewrite sqrt_inv // !rpredM ?rpredV ?rpredN ?realn.
split; first exact: add_at_good.
rewrite add_at_trace t1 t add0r count_below sqrt_inv // -mulr_natr.
by rewrite !mulNr mulrN -!mulrA [(_)^-1 * _]mulrC subrr.
Qed.
Lemma add_diagonal_good A : (forall a b, good A a b) -> \tr A = 0 ->
  (forall a b, good (add_diagonal dg A) a b) /\ \tr (add_diagonal dg A) = 0.
Proof.
change (add_diagonal dg A) with (foldl diag_step A (enum 'I_n)).
elim: (enum 'I_n) A => [|i s IH] A g t //=.
by have [g1 t1] := diag_step_good i g t; apply: IH.
Qed.

Lemma random_momentum_algebra A :
  anti_hermitian (random_momentum re im dg A) /\ traceless (random_momentum re im dg A).
Proof.
have [g t] := clear_good (off_diagonal_good A).
have [g' t'] := add_diagonal_good g t.
split=> //; apply/matrixP => i j; rewrite !mxE.
by rewrite /random_momentum (g' i j) rmorphN conjCK.
Qed.
End Drawn.
End Momenta.

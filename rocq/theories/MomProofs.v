(** The entries of a random momentum and its kinetic energy. *)
From Coq Require Import Ring Lia.
From mathcomp Require Import all_ssreflect all_algebra.
From Verif Require Import GaugeModel GaugeSpec GaugeProofs GaugeProofs2 GaugeProofs3.
Import GRing.Theory Num.Theory.
Set Implicit Arguments.
Unset Strict Implicit.
Unset Printing Implicit Defensive.
Local Open Scope ring_scope.

Section Mom.
Variable C : numClosedFieldType.
Variable n : nat.
Notation GaugeGroup := 'M[C]_n.
Implicit Types (A : GaugeGroup) (i j k a b : 'I_n).
Section Entries.
Variables (re im : 'I_n -> 'I_n -> C) (dg : 'I_n -> C).

(** * Off the diagonal. *)
Definition holds A a b := A a b = re a b + 'i * im a b /\ A b a = - re a b + 'i * im a b.
Notation putm := (put re im).
Lemma putm_holds A i j : (i < j)%N -> holds (putm A i j) i j.
Proof.
move=> lt; rewrite /holds /put lt !msetE !eqxx /=.
by have /negPf -> : i != j by apply/eqP => E; rewrite E ltnn in lt.
Qed.
Lemma putm_keep A i j a b : (a < b)%N -> holds A a b -> holds (putm A i j) a b.
Proof.
move=> lab g; rewrite /put; case: ifP => // lt.
case: (boolP ((a == i) && (b == j))) => [/andP[/eqP -> /eqP ->]|n1].
  by have := putm_holds A lt; rewrite /put lt.
have n2 : (a == j) && (b == i) = false.
  by apply/negP => /andP[/eqP ea /eqP eb]; move: lab; rewrite ea eb ltnNge (ltnW lt).
by rewrite /holds !msetE n2 (negPf n1) [(b == i) && _]andbC n2 [(b == j) && _]andbC (negPf n1) /= .
Qed.
Lemma off_diagonal_holds A a b : (a < b)%N -> holds (off_diagonal re im A) a b.
Proof.
move=> lt; rewrite /off_diagonal.
pose R (t : 'I_n) (A : GaugeGroup) := forall u : 'I_n, (t < u)%N -> holds A t u.
have inner : forall A i, R i (foldl (fun A j => putm A i j) A (enum 'I_n)).
  move=> B i u lu.
  have [_ H] := @fold_establish _ _ (fun A j => putm A i j) (fun j A => (i < j)%N -> holds A i j) (fun _ => True) (enum 'I_n) B I
    (fun _ _ _ => I) (fun A j _ l => putm_holds A l)
    (fun A j u' _ h l => putm_keep i j l (h l)).
  by apply: (H u) => //; rewrite mem_enum.
have keep : forall s A i t, R t A -> R t (foldl (fun A j => putm A i j) A s).
  by elim=> [|j s IH] B i t h //=; apply: IH => u l; apply: putm_keep (h u l).
have [_ H] := @fold_establish _ _ (fun A i => foldl (fun A j => putm A i j) A (enum 'I_n)) R (fun _ => True) (enum 'I_n) A I
  (fun _ _ _ => I) (fun A i _ => inner A i) (fun A i t _ => keep _ A i t).
by apply: (H a) => //; rewrite mem_enum.
Qed.
Lemma clear_entry A a b : clear_diagonal A a b = if a == b then 0 else A a b.
Proof.
have H s : foldl (fun A i => mset A i i 0) A s a b = if (a == b) && (a \in s) then 0 else A a b.
  elim: s A => [|i s IH] B /=; first by rewrite andbF.
  rewrite IH inE msetE; case: (altP (a =P b)) => [<-|ne] /=; last first.
    by case: ifP => // /andP[/eqP ea /eqP eb]; rewrite ea eb eqxx in ne.
  by rewrite andbb; case: (a \in s); rewrite ?orbT ?orbF.
by rewrite /clear_diagonal H mem_enum andbT.
Qed.

(** * The diagonal. *)
Lemma add_atE A j v : add_at A j v = A + v *: delta_mx j j.
Proof.
apply/matrixP => a b; rewrite msetE !mxE; case: (altP (a =P j)) => [->|_] /=; last by rewrite mulr0 addr0.
by case: (altP (b =P j)) => [->|_] /=; rewrite ?mulr1 ?mulr0 ?addr0.
Qed.
Lemma foldl_add (T : Type) (f : T -> GaugeGroup) (step : GaugeGroup -> T -> GaugeGroup) A s :
  (forall B t, step B t = B + f t) -> foldl step A s = A + \sum_(t <- s) f t.
Proof.
move=> h; elim: s A => [|t s IH] A /=; first by rewrite big_nil addr0.
by rewrite IH big_cons h addrA.
Qed.
(** [dcoef i k] is the entry k of the diagonal matrix that belongs to the draw i. *)
Definition dnorm i : C := (sqrtC ((i * i.+1)%:R / 2%:R))^-1.
Definition dcoef i k : C := if (k < i)%N then dnorm i else if k == i then - i%:R * dnorm i else 0.
Lemma add_diagonal_entry A a b :
  add_diagonal dg A a b = A a b + if a == b then 'i * \sum_i dg i * dcoef i a else 0.
Proof.
pose W i : GaugeGroup := 'i *: diag_mx (\row_k (dg i * dcoef i k)).
have St : forall B i, diag_step dg B i = B + W i.
  move=> B i; rewrite /diag_step; case: ifP => i0; last first.
    suff -> : W i = 0 by rewrite addr0.
    apply/matrixP => x y; rewrite !mxE /dcoef.
    have z : (i : nat) = 0%N by case: (nat_of_ord i) i0.
    rewrite z ltn0 oppr0 mul0r; case: (x == i); rewrite mulr0 mul0rn mulr0 //.
  rewrite (@foldl_add _ (fun j : 'I_n => if (j < i)%N then ('i * (dg i / sqrtC ((i * i.+1)%:R / 2%:R))) *: delta_mx j j else 0)); last first.
    by move=> D j; case: ifP => _; rewrite ?addr0 // add_atE.
  rewrite add_atE -addrA; congr (_ + _); rewrite big_enum /=.
  apply/matrixP => x y; rewrite !mxE summxE (bigD1 x) //= big1 ?addr0; last first.
    move=> j nj; case: ifP => _; rewrite ?mxE //.
    by rewrite eq_sym (negPf nj) /= mulr0.
  rewrite sqrt_inv // -/(dnorm i) /dcoef.
  case: (altP (x =P y)) => [<-|ne]; last first.
    have -> : (x == i) && (y == i) = false by apply/negP => /andP[/eqP ea /eqP eb]; rewrite ea eb eqxx in ne.
    rewrite mulr0n !mulr0 addr0; case: ifP => _; rewrite !mxE ?eqxx //=.
    by rewrite eq_sym (negPf ne) mulr0.
  rewrite andbb mulr1n; case: (altP (x =P i)) => [->|ne].
    by rewrite ltnn mxE add0r mulr1 !mulNr !mulrN !mulrA.
  rewrite mulr0 addr0; case: ifP => _; rewrite !mxE ?mulr0 //.
  by rewrite !eqxx mulr1.
change (add_diagonal dg A) with (foldl (diag_step dg) A (enum 'I_n)).
rewrite (foldl_add A _ St) big_enum /= !mxE summxE; congr (_ + _).
under eq_bigr do rewrite !mxE.
case: ifP => _; last by rewrite big1 // => i _; rewrite mulr0n mulr0.
by rewrite mulr_sumr; apply: eq_bigr.
Qed.

(** The diagonal matrices are orthogonal and have norm 2. *)
Lemma sum_below (i : 'I_n) (v : C) : \sum_(k < n | (k < i)%N) v = i%:R * v.
Proof.
have -> : \sum_(k < n | (k < i)%N) v = \sum_(k <- enum 'I_n | (k < i)%N) v by rewrite big_enum_cond.
by rewrite big_const_seq count_below iter_addr_0 mulr_natl.
Qed.
Lemma dcoef_sum i : \sum_k dcoef i k = 0.
Proof.
rewrite (bigID (fun k : 'I_n => (k < i)%N)) /=.
rewrite (eq_bigr (fun _ => dnorm i)); last by move=> k h; rewrite /dcoef h.
rewrite sum_below (bigD1 i) /=; last by rewrite ltnn.
rewrite big1 /dcoef ?ltnn ?eqxx ?addr0 ?mulNr ?subrr // => k /andP[/negPf h /negPf h'].
by rewrite h h'.
Qed.
Lemma dnorm2 i : (0 < i)%N -> (i * i.+1)%:R * dnorm i ^+ 2 = 2%:R.
Proof.
move=> i0; have nz : (i * i.+1)%:R != 0 :> C by rewrite pnatr_eq0 muln_eq0 negb_or -!lt0n i0.
by rewrite /dnorm exprVn sqrtCK invf_div mulrC divfK.
Qed.
Lemma dcoef_orth i i' : (0 < i)%N -> (0 < i')%N -> \sum_k dcoef i k * dcoef i' k = if i == i' then 2%:R else 0.
Proof.
move=> p p'; wlog le : i i' p p' / (i <= i')%N.
  move=> H; case: (leqP i i') => h; first exact: H.
  by rewrite eq_sym -H ?(ltnW h) //; apply: eq_bigr => k _; rewrite mulrC.
case: (altP (i =P i')) => [<-|ne]; last first.
  have lt : (i < i')%N by rewrite ltn_neqAle le andbT.
  rewrite (eq_bigr (fun k => dcoef i k * dnorm i')); first by rewrite -mulr_suml dcoef_sum mul0r.
  move=> k _; rewrite /dcoef; case: (ltnP k i) => h; first by rewrite (ltn_trans h lt).
  case: (altP (k =P i)) => [->|_]; last by rewrite !mul0r.
  by rewrite lt.
rewrite (bigID (fun k : 'I_n => (k < i)%N)) /=.
rewrite (eq_bigr (fun _ => dnorm i ^+ 2)); last by move=> k h; rewrite /dcoef h expr2.
rewrite sum_below (bigD1 i) /=; last by rewrite ltnn.
rewrite big1 /dcoef ?ltnn ?eqxx ?addr0; last by move=> k /andP[/negPf h /negPf h']; rewrite h h' mul0r.
rewrite -[RHS](dnorm2 p) natrM -(addn1 i) natrD !mulNr mulrN opprK.
by rewrite mulrDr mulrDl mulr1 addrC; congr (_ + _); rewrite expr2 mulrACA.
Qed.
Lemma diag_norm : \sum_k (\sum_i dg i * dcoef i k) ^+ 2 = 2%:R * \sum_(i < n | (0 < i)%N) dg i ^+ 2.
Proof.
have z i k : ~~ (0 < i)%N -> dcoef i k = 0.
  rewrite -eqn0Ngt => /eqP z; rewrite /dcoef z ltn0 oppr0 mul0r; by case: ifP.
transitivity (\sum_k \sum_(i < n | (0 < i)%N) \sum_(i' < n | (0 < i')%N) (dg i * dg i') * (dcoef i k * dcoef i' k)).
  apply: eq_bigr => k _; rewrite (bigID (fun i : 'I_n => (0 < i)%N)) /= [X in _ + X]big1 ?addr0; last first.
    by move=> i /z ->; rewrite mulr0.
  rewrite expr2 mulr_suml; apply: eq_bigr => i _; rewrite mulr_sumr; apply: eq_bigr => i' _.
  by rewrite mulrACA.
rewrite exchange_big mulr_sumr /=; apply: eq_bigr => i p; rewrite exchange_big /= (bigD1 i) //= [X in _ + X]big1 ?addr0.
  by rewrite -mulr_sumr dcoef_orth // eqxx mulrC expr2.
by move=> i' /andP[p' ne]; rewrite -mulr_sumr dcoef_orth // eq_sym (negPf ne) mulr0.
Qed.
End Entries.

Section Energy.
Variables (re im : 'I_n -> 'I_n -> C) (dg : 'I_n -> C).
Hypothesis reR : forall i j, re i j \is Num.real.
Hypothesis imR : forall i j, im i j \is Num.real.
Hypothesis dgR : forall i, dg i \is Num.real.

Lemma anti_retr (P : GaugeGroup) : anti_hermitian P -> - retr (P *m P) = \sum_i \sum_j `|P i j| ^+ 2.
Proof.
move=> ah; have e i j : P j i = - (P i j)^*.
  by have /matrixP/(_ j i) := ah; rewrite !mxE => ->; rewrite opprK.
have r : \sum_i \sum_j `|P i j| ^+ 2 \is Num.real.
  by apply: rpred_sum => i _; apply: rpred_sum => j _; rewrite rpredX // normr_real.
have -> : P *m P = - (P *m htrans P).
  apply/matrixP => i j; rewrite !mxE -sumrN; apply: eq_bigr => k _.
  by rewrite (e j k) /htrans !mxE mulrN.
rewrite /retr linearN raddfN /= opprK.
have -> : \tr (P *m htrans P) = \sum_i \sum_j `|P i j| ^+ 2.
  by apply: eq_bigr => i _; rewrite mxE; apply: eq_bigr => j _; rewrite !mxE normCK.
by apply/Creal_ReP.
Qed.
Lemma normR (u v : C) : u \is Num.real -> v \is Num.real -> `|u + 'i * v| ^+ 2 = u ^+ 2 + v ^+ 2.
Proof. by move=> hu hv; rewrite normC2_rect. Qed.

Lemma one_energy A :
  - retr (random_momentum re im dg A *m random_momentum re im dg A)
  = 2%:R * (\sum_(i < n) \sum_(j < n | (i < j)%N) (re i j ^+ 2 + im i j ^+ 2) + \sum_(i < n | (0 < i)%N) dg i ^+ 2).
Proof.
have [ah _] := random_momentum_algebra reR imR dgR A.
rewrite anti_retr // mulrDr -(diag_norm dg).
set P := random_momentum _ _ _ _.
have ed i : P i i = 'i * \sum_k dg k * dcoef k i.
  by rewrite /P /random_momentum add_diagonal_entry eqxx clear_entry eqxx add0r.
have eu i j : i != j -> P i j = off_diagonal re im A i j.
  by move=> ne; rewrite /P /random_momentum add_diagonal_entry clear_entry (negPf ne) addr0.
have dR k i : dcoef k i \is Num.real.
  have rR : dnorm k \is Num.real.
    by rewrite rpredV ger0_real // sqrtC_ge0 divr_ge0 ?ler0n.
  rewrite /dcoef; case: ifP => // _; case: ifP => _; last exact: real0.
  by rewrite rpredM // rpredN realn.
have nd i : `|P i i| ^+ 2 = (\sum_k dg k * dcoef k i) ^+ 2.
  have sR : \sum_k dg k * dcoef k i \is Num.real by apply: rpred_sum => k _; rewrite rpredM.
  by rewrite ed -[X in `|X|]add0r normR ?real0 // expr0n add0r.
have nu i j : (i < j)%N -> `|P i j| ^+ 2 = re i j ^+ 2 + im i j ^+ 2.
  move=> lt; have ne : i != j by apply/eqP => E; rewrite E ltnn in lt.
  by rewrite eu //; have [-> _] := off_diagonal_holds re im A lt; rewrite normR.
have nl i j : (j < i)%N -> `|P i j| ^+ 2 = re j i ^+ 2 + im j i ^+ 2.
  move=> lt; have ne : i != j by apply/eqP => E; rewrite E ltnn in lt.
  by rewrite eu //; have [_ ->] := off_diagonal_holds re im A lt; rewrite normR ?rpredN // sqrrN.
have sp i : \sum_j `|P i j| ^+ 2 = \sum_(j < n | (i < j)%N) (re i j ^+ 2 + im i j ^+ 2)
    + \sum_(j < n | (j < i)%N) (re j i ^+ 2 + im j i ^+ 2) + (\sum_k dg k * dcoef k i) ^+ 2.
  rewrite (bigD1 i) //= nd addrC; congr (_ + _).
  rewrite (bigID (fun j : 'I_n => (i < j)%N)) /=; congr (_ + _).
    rewrite (eq_bigl (fun j : 'I_n => (i < j)%N)); last first.
      by move=> j; case: (ltnP i j) => h; rewrite ?andbF // andbT; apply/eqP => E; rewrite E ltnn in h.
    by apply: eq_bigr => j; apply: nu.
  rewrite (eq_bigl (fun j : 'I_n => (j < i)%N)); last first.
    by move=> j; rewrite -leqNgt [(j < i)%N]ltn_neqAle.
  by apply: eq_bigr => j; apply: nl.
under eq_bigr do rewrite sp.
rewrite big_split /= big_split /=; congr (_ + _).
rewrite mulr_natl mulr2n; congr (_ + _).
by rewrite (exchange_big_dep predT).
Qed.
End Energy.

Variable L : lattice.
Lemma energy_of_draws (re im : L -> 'I_4 -> 'I_n -> 'I_n -> C) (dg : L -> 'I_4 -> 'I_n -> C) (A : L -> 'I_4 -> GaugeGroup) :
  (forall x mu i j, re x mu i j \is Num.real) -> (forall x mu i j, im x mu i j \is Num.real) ->
  (forall x mu i, dg x mu i \is Num.real) ->
  momenta_energy (fun x mu => random_momentum (fun i j => re x mu i j / 2%:R) (fun i j => im x mu i j / 2%:R)
                                (fun i => dg x mu i / 2%:R) (A x mu))
  = (\sum_(x : L) \sum_(mu < 4) (\sum_(i < n) \sum_(j < n | (i < j)%N) (re x mu i j ^+ 2 + im x mu i j ^+ 2)
                                 + \sum_(i < n | (0 < i)%N) dg x mu i ^+ 2)) / 2%:R.
Proof.
move=> r1 r2 r3; rewrite /momenta_energy mulr_suml; apply: eq_bigr => x _; rewrite mulr_suml; apply: eq_bigr => mu _.
have h (c : C) : c \is Num.real -> c / 2%:R \is Num.real by move=> ?; rewrite rpredM // rpredV realn.
rewrite one_energy; try by move=> *; apply: h.
have q (c : C) : (c / 2%:R) ^+ 2 = c ^+ 2 / 4%:R by rewrite expr_div_n -natrX.
have e4 : 4%:R = 2%:R * 2%:R :> C by rewrite -natrM.
have e (c : C) : 2%:R * (c / 4%:R) = c / 2%:R.
  by rewrite e4 invfM mulrCA mulVKf ?pnatr_eq0.
rewrite -e; congr (_ * _); rewrite mulrDl; congr (_ + _); rewrite mulr_suml; apply: eq_bigr => i _ //.
by rewrite mulr_suml; apply: eq_bigr => j _; rewrite !q mulrDl.
Qed.
Lemma energy_positive (P : gauge C n L) : (forall x mu, anti_hermitian (P x mu)) ->
  0 <= momenta_energy P /\ (momenta_energy P = 0 <-> forall x mu, P x mu = 0).
Proof.
move=> ah; have e : momenta_energy P = \sum_(x : L) \sum_(mu < 4) \sum_i \sum_j `|P x mu i j| ^+ 2.
  by apply: eq_bigr => x _; apply: eq_bigr => mu _; rewrite anti_retr.
have p0 x mu i j : 0 <= `|P x mu i j| ^+ 2 by rewrite exprn_ge0.
split; first by rewrite e; do 4 (apply: sumr_ge0 => ? _).
split=> [z x mu|z].
  apply/matrixP => i j; rewrite mxE.
  have z0 : \sum_(x : L) \sum_(mu < 4) \sum_i \sum_j `|P x mu i j| ^+ 2 = 0 by rewrite -e.
  have /psumr_eq0P/(_ z0 x isT) z1 : forall x : L, true -> 0 <= \sum_(mu < 4) \sum_i \sum_j `|P x mu i j| ^+ 2.
    by move=> ? _; do 3 (apply: sumr_ge0 => ? _).
  have /psumr_eq0P/(_ z1 mu isT) z2 : forall mu : 'I_4, true -> 0 <= \sum_i \sum_j `|P x mu i j| ^+ 2.
    by move=> ? _; do 2 (apply: sumr_ge0 => ? _).
  have /psumr_eq0P/(_ z2 i isT) z3 : forall i : 'I_n, true -> 0 <= \sum_j `|P x mu i j| ^+ 2.
    by move=> ? _; apply: sumr_ge0 => ? _.
  have /psumr_eq0P/(_ z3 j isT) z4 : forall j : 'I_n, true -> 0 <= `|P x mu i j| ^+ 2 by [].
  by apply/eqP; move/eqP: z4; rewrite sqrf_eq0 normr_eq0.
by rewrite e big1 // => x _; rewrite big1 // => mu _; rewrite z big1 // => i _; rewrite big1 // => j _; rewrite mxE normr0 expr0n.
Qed.
End Mom.

(** The adjoint generators of three colours, checked against the commutators by computing in the integers extended by
    the imaginary unit and the square root of three. *)
From mathcomp Require Import all_ssreflect all_algebra.
From Verif Require Import GaugeModel GaugeSpec GaugeProofs GaugeProofs2 AdjTables AdjModel AdjSpec AdjProofs AdjProofs2 AdjProofs3.
Import GRing.Theory Num.Theory.
Set Implicit Arguments.
Unset Strict Implicit.
Unset Printing Implicit Defensive.
Local Open Scope ring_scope.

(** a + b i + (c + d i) sqrt 3 *)
Record quad := q { qa : int; qb : int; qc : int; qd : int }.
Definition qadd u v := q (qa u + qa v) (qb u + qb v) (qc u + qc v) (qd u + qd v).
Definition qsub u v := q (qa u - qa v) (qb u - qb v) (qc u - qc v) (qd u - qd v).
Definition qmul u v :=
  q (qa u * qa v - qb u * qb v + (qc u * qc v - qd u * qd v) *+ 3)
    (qa u * qb v + qb u * qa v + (qc u * qd v + qd u * qc v) *+ 3)
    (qa u * qc v - qb u * qd v + (qc u * qa v - qd u * qb v))
    (qa u * qd v + qb u * qc v + (qc u * qb v + qd u * qa v)).
Definition qeq u v := [&& qa u == qa v, qb u == qb v, qc u == qc v & qd u == qd v].
Definition p0 : int := 0.
Definition p1 : int := 1.
Definition p2 : int := 2%:R.
Definition p3 : int := 3%:R.
Definition m1 : int := - 1.
Definition m2 : int := - 2%:R.
Definition m3 : int := - 3%:R.
Definition z0 := q p0 p0 p0 p0.
(** Three times the table of the fundamental representation. *)
Definition ftab := Eval cbv in
  [:: [:: z0; q p3 p0 p0 p0; z0; q p3 p0 p0 p0; z0; z0; z0; z0; z0];
   [:: z0; z0; q p3 p0 p0 p0; z0; z0; z0; q p3 p0 p0 p0; z0; z0];
   [:: z0; z0; z0; z0; z0; q p3 p0 p0 p0; z0; q p3 p0 p0 p0; z0];
   [:: z0; q p0 m3 p0 p0; z0; q p0 p3 p0 p0; z0; z0; z0; z0; z0];
   [:: z0; z0; q p0 m3 p0 p0; z0; z0; z0; q p0 p3 p0 p0; z0; z0];
   [:: z0; z0; z0; z0; z0; q p0 m3 p0 p0; z0; q p0 p3 p0 p0; z0];
   [:: q p3 p0 p0 p0; z0; z0; z0; q m3 p0 p0 p0; z0; z0; z0; z0];
   [:: q p0 p0 p1 p0; z0; z0; z0; q p0 p0 p1 p0; z0; z0; z0; q p0 p0 m2 p0]].
(** Twice the table of the adjoint representation. *)
Definition atab := Eval cbv in
  [:: [:: z0; z0; z0; z0; z0; z0; z0; z0; z0; z0; z0; z0; z0; q p0 m1 p0 p0; z0; z0; z0; z0; z0; z0; q p0 m1 p0 p0; z0; z0; z0; z0; z0; z0; z0; z0; z0; q p0 m2 p0 p0; z0; z0; z0; q p0 p1 p0 p0; z0; z0; z0; z0; z0; z0; q p0 p1 p0 p0; z0; z0; z0; z0; z0; z0; z0; z0; z0; q p0 p2 p0 p0; z0; z0; z0; z0; z0; z0; z0; z0; z0; z0; z0; z0];
   [:: z0; z0; z0; z0; z0; q p0 p1 p0 p0; z0; z0; z0; z0; z0; z0; z0; z0; z0; z0; z0; z0; z0; q p0 m1 p0 p0; z0; z0; z0; z0; z0; z0; q p0 p1 p0 p0; z0; z0; z0; z0; z0; z0; z0; z0; z0; z0; z0; q p0 m1 p0 p0; q p0 p0 p0 m1; q p0 m1 p0 p0; z0; z0; z0; z0; z0; z0; z0; z0; z0; z0; z0; q p0 p1 p0 p0; z0; z0; z0; z0; z0; z0; z0; q p0 p0 p0 p1; z0; z0; z0];
   [:: z0; z0; z0; z0; q p0 p1 p0 p0; z0; z0; z0; z0; z0; z0; q p0 p1 p0 p0; z0; z0; z0; z0; z0; z0; z0; z0; z0; z0; z0; z0; z0; q p0 m1 p0 p0; z0; z0; z0; z0; z0; z0; q p0 m1 p0 p0; z0; z0; z0; z0; z0; z0; z0; z0; z0; z0; z0; z0; z0; q p0 p1 p0 p0; q p0 p0 p0 m1; z0; z0; z0; z0; z0; q p0 m1 p0 p0; z0; z0; z0; z0; z0; z0; z0; q p0 p0 p0 p1; z0; z0];
   [:: z0; z0; z0; z0; z0; z0; q p0 p2 p0 p0; z0; z0; z0; q p0 m1 p0 p0; z0; z0; z0; z0; z0; z0; q p0 p1 p0 p0; z0; z0; z0; z0; z0; z0; z0; z0; z0; z0; z0; z0; z0; z0; z0; z0; z0; z0; z0; q p0 m1 p0 p0; z0; z0; z0; z0; z0; z0; q p0 p1 p0 p0; z0; z0; z0; q p0 m2 p0 p0; z0; z0; z0; z0; z0; z0; z0; z0; z0; z0; z0; z0; z0; z0; z0];
   [:: z0; z0; q p0 m1 p0 p0; z0; z0; z0; z0; z0; z0; z0; z0; z0; z0; z0; q p0 p1 p0 p0; q p0 p0 p0 p1; q p0 p1 p0 p0; z0; z0; z0; z0; z0; z0; z0; z0; z0; z0; z0; z0; q p0 p1 p0 p0; z0; z0; z0; z0; z0; z0; z0; z0; z0; z0; z0; z0; z0; q p0 m1 p0 p0; z0; z0; z0; z0; z0; q p0 m1 p0 p0; z0; z0; z0; z0; z0; z0; z0; q p0 p0 p0 m1; z0; z0; z0; z0; z0; z0];
   [:: z0; q p0 m1 p0 p0; z0; z0; z0; z0; z0; z0; q p0 p1 p0 p0; z0; z0; z0; z0; z0; z0; z0; z0; z0; z0; z0; z0; z0; q p0 m1 p0 p0; q p0 p0 p0 p1; z0; z0; z0; z0; q p0 m1 p0 p0; z0; z0; z0; z0; z0; z0; q p0 p1 p0 p0; z0; z0; z0; z0; z0; z0; z0; z0; z0; z0; z0; z0; z0; z0; q p0 p1 p0 p0; z0; z0; z0; z0; z0; z0; z0; q p0 p0 p0 m1; z0; z0; z0; z0; z0];
   [:: z0; z0; z0; q p0 m2 p0 p0; z0; z0; z0; z0; z0; z0; z0; z0; q p0 m1 p0 p0; z0; z0; z0; z0; z0; z0; z0; z0; q p0 p1 p0 p0; z0; z0; q p0 p2 p0 p0; z0; z0; z0; z0; z0; z0; z0; z0; q p0 p1 p0 p0; z0; z0; z0; z0; z0; z0; z0; z0; q p0 m1 p0 p0; z0; z0; z0; z0; z0; z0; z0; z0; z0; z0; z0; z0; z0; z0; z0; z0; z0; z0; z0; z0; z0];
   [:: z0; z0; z0; z0; z0; z0; z0; z0; z0; z0; z0; z0; q p0 p0 p0 m1; z0; z0; z0; z0; z0; z0; z0; z0; q p0 p0 p0 m1; z0; z0; z0; z0; z0; z0; z0; z0; z0; z0; z0; q p0 p0 p0 p1; z0; z0; z0; z0; z0; z0; z0; z0; q p0 p0 p0 p1; z0; z0; z0; z0; z0; z0; z0; z0; z0; z0; z0; z0; z0; z0; z0; z0; z0; z0; z0; z0; z0]].
Definition f_ (k a b : nat) := nth z0 (nth [::] ftab k) (a * 3 + b).
Definition s3 (f : nat -> quad) := qadd (qadd (f 0%N) (f 1%N)) (f 2%N).
Definition comm (i k a b : nat) := s3 (fun c => qsub (qmul (f_ i a c) (f_ k c b)) (qmul (f_ k a c) (f_ i c b))).
(** The commutator of two generators as a list of nine entries. *)
Definition comm_list (i k : nat) := [seq comm i k a b | a <- iota 0 3, b <- iota 0 3].
Definition tr3 (m : nat) (l : seq quad) := s3 (fun a => s3 (fun b => qmul (f_ m a b) (nth z0 l (b * 3 + a)))).
Definition q54 := q 54%:R 0 0 0.
Definition check := all (fun i => all (fun k => let l := comm_list i k in
  all (fun m => qeq (tr3 m l) (qmul q54 (nth z0 (nth [::] atab i) (m * 8 + k)))) (iota 0 8)) (iota 0 8)) (iota 0 8).
Lemma check_ok : check.
Proof. by vm_compute. Qed.

Section Value.
Variable C : numClosedFieldType.
Add Ring CringQ : (Crth C).
Notation r3 := (sqrtC (3%:R : C)).
Definition phi (u : quad) : C := (qa u)%:~R + (qb u)%:~R * 'i + ((qc u)%:~R + (qd u)%:~R * 'i) * r3.
Lemma phiD u v : phi (qadd u v) = phi u + phi v.
Proof.
rewrite /phi /= !rmorphD /=; move: (_%:~R) (_%:~R) (_%:~R) (_%:~R) (_%:~R) (_%:~R) (_%:~R) (_%:~R) 'i r3 => a b c e f g h k i r.
by cring_fold C; ring.
Qed.
Lemma phiB u v : phi (qsub u v) = phi u - phi v.
Proof.
rewrite /phi /= !rmorphB /=; move: (_%:~R) (_%:~R) (_%:~R) (_%:~R) (_%:~R) (_%:~R) (_%:~R) (_%:~R) 'i r3 => a b c e f g h k i r.
by cring_fold C; ring.
Qed.
Lemma phiM u v : phi (qmul u v) = phi u * phi v.
Proof.
have ii : cmul 'i 'i = copp (c1 C) by rewrite /cmul /copp /c1 -expr2 sqrCi.
have rr : cmul r3 r3 = cadd (cadd (c1 C) (c1 C)) (c1 C) by rewrite /cmul /cadd /c1 -expr2 sqrtCK nat3.
case: u => a b c e; case: v => a' b' c' e'; rewrite /phi /=; move: r3 rr => r rr.
rewrite !mulrS !mulr0n !addr0 !(rmorphD, rmorphN, rmorphM) /=.
move: (a%:~R) (b%:~R) (c%:~R) (e%:~R) (a'%:~R) (b'%:~R) (c'%:~R) (e'%:~R) => {}a {}b {}c {}e {}a' {}b' {}c' {}e'.
by cring_fold C; ring [ii rr].
Qed.
Lemma qeqP u v : qeq u v -> u = v.
Proof. by case: u => a b c e; case: v => a' b' c' e' /and4P [/eqP /= -> /eqP /= -> /eqP /= -> /eqP /= ->]. Qed.
Lemma phi_s3 f : phi (s3 f) = \sum_(a < 3) phi (f a).
Proof. by rewrite /s3 !phiD sum3. Qed.

Notation T_ k := (2%:R^-1 *: fill 3 (nth [::] (fund_table3 C) k)).
Lemma three0 : 3%:R != 0 :> C. Proof. by rewrite pnatr_eq0. Qed.
Lemma phiF (k : nat) (a b : 'I_3) : (k < 8)%N -> fill 3 (nth [::] (fund_table3 C) k) a b = 3%:R^-1 * phi (f_ k a b).
Proof.
move=> Hk; rewrite mxE; apply: (mulfI three0); rewrite mulrA divff ?three0 // mul1r.
have e1 : 3%:R * (1 / r3) = r3 by rewrite mul1r -rt3m.
have e2 : 3%:R * (- 2%:R / r3) = (- 2%:R) * r3 by rewrite mulrCA -rt3m.
by case: k Hk => [|[|[|[|[|[|[|[|k]]]]]]]] // _; case: (ord3 a) => ->; case: (ord3 b) => ->;
  rewrite /f_ /phi /= ?(e1, e2) ?(mulr0z, mulr1z, mul0r, mul1r, mulr0, addr0, add0r, mulr1, mulrN) // mulNr.
Qed.
Lemma TE (k : nat) (a b : 'I_3) : (k < 8)%N -> (T_ k : 'M[C]_3) a b = 2%:R^-1 * (3%:R^-1 * phi (f_ k a b)).
Proof. by move=> Hk; rewrite mxE phiF. Qed.
Lemma nth_comm_list i k (a b : 'I_3) : nth z0 (comm_list i k) (a * 3 + b) = comm i k a b.
Proof. by case: (ord3 a) => ->; case: (ord3 b) => ->. Qed.
Lemma phi_comm i k (a b : 'I_3) : (i < 8)%N -> (k < 8)%N ->
  (T_ i *m T_ k - T_ k *m T_ i) a b = 36%:R^-1 * phi (comm i k a b).
Proof.
move=> Hi Hk; rewrite /comm phi_s3 mulr_sumr 2!mxE [in X in _ + X]mxE mxE -sumrB; apply: eq_bigr => c _.
rewrite phiB !phiM !TE //.
have -> : 36%:R^-1 = 2%:R^-1 * 3%:R^-1 * (2%:R^-1 * 3%:R^-1) :> C by rewrite -!invfM -!natrM.
by move: 2%:R^-1 3%:R^-1 (phi _) (phi _) (phi _) (phi _) => ? ? ? ? ? ?; cring_fold C; ring.
Qed.
Lemma phi_tr m i k : (m < 8)%N -> (i < 8)%N -> (k < 8)%N ->
  \tr (T_ m *m (T_ i *m T_ k - T_ k *m T_ i)) = 216%:R^-1 * phi (tr3 m (comm_list i k)).
Proof.
move=> Hm Hi Hk; rewrite mxtr_mul /tr3 phi_s3 mulr_sumr; apply: eq_bigr => a _.
rewrite phi_s3 mulr_sumr; apply: eq_bigr => b _; rewrite phi_comm // nth_comm_list phiM TE //.
have -> : 216%:R^-1 = 2%:R^-1 * 3%:R^-1 * 36%:R^-1 :> C by rewrite -!invfM -!natrM.
by move: 2%:R^-1 3%:R^-1 36%:R^-1 (phi _) (phi _) => ? ? ? ? ?; cring_fold C; ring.
Qed.
Lemma table3_entries : adj_table3 C = [seq [seq 2%:R^-1 * phi u | u <- l] | l <- atab].
Proof.
rewrite /=.
have e0 : 2%:R^-1 * phi (q 0 0 0 0) = 0 by rewrite /phi /= !(mulr0z, mul0r, addr0, mulr0).
have e1 : 2%:R^-1 * phi (q 0 1 0 0) = 'i / 2%:R by rewrite /phi /= !(mulr0z, mul0r, addr0, mulr0, add0r, mulr1z, mul1r) mulrC.
have e2 : 2%:R^-1 * phi (q 0 (-1) 0 0) = - ('i / 2%:R).
  by rewrite /phi /= !(mulr0z, mul0r, addr0, mulr0, add0r, mulrNz, mulr1z, mul1r, mulNr) mulrN mulrC.
have e3 : 2%:R^-1 * phi (q 0 2%:R 0 0) = 'i.
  by rewrite /phi /= !(mulr0z, mul0r, addr0, mulr0, add0r) mulrA mulVf ?mul1r // pnatr_eq0.
have e4 : 2%:R^-1 * phi (q 0 (- 2%:R) 0 0) = - 'i.
  by rewrite /phi /= !(mulr0z, mul0r, addr0, mulr0, add0r, mulrNz, mulNr) mulrN mulrA mulVf ?mul1r // pnatr_eq0.
have e5 : 2%:R^-1 * phi (q 0 0 0 1) = ('i * r3) / 2%:R.
  by rewrite /phi /= !(mulr0z, mul0r, addr0, mulr0, add0r, mulr1z, mul1r) mulrC.
have e6 : 2%:R^-1 * phi (q 0 0 0 (-1)) = - (('i * r3) / 2%:R).
  by rewrite /phi /= !(mulr0z, mul0r, addr0, mulr0, add0r, mulrNz, mulr1z, mul1r, mulNr) mulrN mulrC.
by rewrite !(e0, e1, e2, e3, e4, e5, e6).
Qed.
Lemma table3_adjoint (i : nat) : (i < 8)%N -> fill (3 * 3 - 1) (nth [::] (adj_table3 C) i) = loop_adjoint (loop_generators C 3) i.
Proof.
move=> Hi; apply/matrixP => m k; rewrite adjE -table3_loops mxE table3_entries.
have Hm : (m < 8)%N := ltn_ord m; have Hk : (k < 8)%N := ltn_ord k.
rewrite !(nth_map [::]) // phi_tr //.
have sz : size (nth [::] atab i) = 64%N by case: i Hi => [|[|[|[|[|[|[|[|i]]]]]]]].
rewrite (nth_map z0); last by rewrite sz (@leq_trans (m * 8 + 8)) ?ltn_add2l // -mulSnr (leq_mul2r 8 m.+1 8).
have /allP /(_ i) := check_ok; rewrite mem_iota => /(_ Hi) /allP /(_ k); rewrite mem_iota => /(_ Hk) /allP /(_ m).
rewrite mem_iota => /(_ Hm) /qeqP ->; rewrite phiM mulrA mulrA; congr (_ * _).
have -> : phi q54 = 54%:R by rewrite /phi /= !(mulr0z, mul0r, addr0).
have -> : 216%:R = (2%:R * 2%:R) * 54%:R :> C by rewrite -!natrM.
by rewrite invfM mulrA -[in RHS]mulrA mulVf ?pnatr_eq0 // mulr1 invfM mulrA divff ?mul1r // pnatr_eq0.
Qed.
End Value.

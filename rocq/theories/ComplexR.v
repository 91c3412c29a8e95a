(** Complex numbers over the real numbers of the standard library: the ideal counterpart of
    std::complex<real_t> (MatrixTypedef.h 29, 34), without rounding. *)
From Coq Require Import Reals Lra Field.
Open Scope R_scope.

Record C := mkC { re : R; im : R }.
Declare Scope C_scope.
Delimit Scope C_scope with C.
Bind Scope C_scope with C.

Definition RtoC (x : R) : C := mkC x 0.
Definition C0 : C := mkC 0 0.
Definition C1 : C := mkC 1 0.
Definition Ci : C := mkC 0 1.
Definition Cadd (a b : C) : C := mkC (re a + re b) (im a + im b).
Definition Copp (a : C) : C := mkC (- re a) (- im a).
Definition Csub (a b : C) : C := mkC (re a - re b) (im a - im b).
Definition Cmul (a b : C) : C := mkC (re a * re b - im a * im b) (re a * im b + im a * re b).
Definition Cconj (a : C) : C := mkC (re a) (- im a).
(** |a|^2 *)
Definition Cnorm2 (a : C) : R := re a * re a + im a * im a.
Definition Cinv (a : C) : C := mkC (re a / Cnorm2 a) (- im a / Cnorm2 a).
Definition Cscale (x : R) (a : C) : C := mkC (x * re a) (x * im a).

Infix "+" := Cadd : C_scope.
Infix "-" := Csub : C_scope.
Infix "*" := Cmul : C_scope.
Notation "- a" := (Copp a) : C_scope.

Lemma C_eq (a b : C) : re a = re b -> im a = im b -> a = b.
Proof. destruct a, b; cbn; intros -> ->; reflexivity. Qed.
Lemma C_dec (a b : C) : {a = b} + {a <> b}.
Proof.
  destruct (Req_EM_T (re a) (re b)) as [E1|N1]; [destruct (Req_EM_T (im a) (im b)) as [E2|N2]|].
  - left. now apply C_eq.
  - right. intros ->. contradiction.
  - right. intros ->. contradiction.
Qed.

Lemma C_ring_theory : ring_theory C0 C1 Cadd Cmul Csub Copp eq.
Proof. constructor; intros; apply C_eq; cbn; ring. Qed.
Add Ring C_ring : C_ring_theory.

(** Goals that are polynomial identities in real and imaginary parts. *)
Ltac creal := apply C_eq; cbn [re im Cadd Copp Csub Cmul Cconj Cscale RtoC C0 C1 Ci]; unfold Cnorm2; ring.

Lemma Cconj_conj a : Cconj (Cconj a) = a.                         Proof. creal. Qed.
Lemma Cconj_add a b : Cconj (a + b) = (Cconj a + Cconj b)%C.      Proof. creal. Qed.
Lemma Cconj_mul a b : Cconj (a * b) = (Cconj a * Cconj b)%C.      Proof. creal. Qed.
Lemma Cconj_opp a : Cconj (- a) = (- Cconj a)%C.                  Proof. creal. Qed.
Lemma Cconj_sub a b : Cconj (a - b) = (Cconj a - Cconj b)%C.      Proof. creal. Qed.
Lemma Cconj_RtoC x : Cconj (RtoC x) = RtoC x.                     Proof. creal. Qed.
Lemma Cmul_conj a : (a * Cconj a)%C = RtoC (Cnorm2 a).            Proof. creal. Qed.
Lemma Cscale_mul x a : Cscale x a = (RtoC x * a)%C.               Proof. creal. Qed.

Lemma Cnorm2_ge0 a : 0 <= Cnorm2 a.
Proof. unfold Cnorm2. pose proof (Rle_0_sqr (re a)). pose proof (Rle_0_sqr (im a)). unfold Rsqr in *. lra. Qed.
Lemma Cnorm2_eq0 a : Cnorm2 a = 0 -> a = C0.
Proof.
  unfold Cnorm2. intro H. pose proof (Rle_0_sqr (re a)) as P. pose proof (Rle_0_sqr (im a)) as Q. unfold Rsqr in *.
  apply C_eq; cbn; apply Rmult_integral_contrapositive_currified || idtac.
  - destruct (Req_dec (re a) 0) as [E|N]; [exact E|]. exfalso.
    assert (0 < re a * re a) by (apply Rsqr_pos_lt in N; exact N). lra.
  - destruct (Req_dec (im a) 0) as [E|N]; [exact E|]. exfalso.
    assert (0 < im a * im a) by (apply Rsqr_pos_lt in N; exact N). lra.
Qed.
Lemma Cnorm2_mul a b : Cnorm2 (a * b) = Cnorm2 a * Cnorm2 b.
Proof. unfold Cnorm2. cbn. ring. Qed.
Lemma Cnorm2_RtoC x : Cnorm2 (RtoC x) = x * x.
Proof. unfold Cnorm2; cbn; ring. Qed.
Lemma C_integral a b : (a * b)%C = C0 -> a = C0 \/ b = C0.
Proof.
  intro H. assert (E : Cnorm2 a * Cnorm2 b = 0) by (rewrite <- Cnorm2_mul, H; unfold Cnorm2; cbn; ring).
  apply Rmult_integral in E as [E|E]; [left|right]; now apply Cnorm2_eq0.
Qed.
Lemma C1_neq_C0 : C1 <> C0.
Proof. intro H. apply (f_equal re) in H. cbn in H. lra. Qed.
Lemma C_field_theory : field_theory C0 C1 Cadd Cmul Csub Copp (fun a b => (a * Cinv b)%C) Cinv eq.
Proof.
  constructor; [exact C_ring_theory|exact C1_neq_C0|reflexivity|].
  intros a H. assert (N : Cnorm2 a <> 0) by (intro E; apply H; now apply Cnorm2_eq0).
  apply C_eq; cbn; unfold Cnorm2 in *; field; exact N.
Qed.
Add Field C_field : C_field_theory.
Lemma RtoC_inj x y : RtoC x = RtoC y -> x = y.
Proof. intro H. now apply (f_equal re) in H. Qed.
Lemma RtoC_add x y : RtoC (x + y) = (RtoC x + RtoC y)%C. Proof. creal. Qed.
Lemma RtoC_mul x y : RtoC (x * y) = (RtoC x * RtoC y)%C. Proof. creal. Qed.
Lemma RtoC_opp x : RtoC (- x) = (- RtoC x)%C. Proof. creal. Qed.

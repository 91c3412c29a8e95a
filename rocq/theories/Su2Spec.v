(** Two by two complex matrices: product, adjoint, determinant, the group and its algebra. *)
From Coq Require Import Reals.
From Verif Require Import ComplexR Su2Model.
Open Scope R_scope.

Definition one2 : mat2 := M2 C1 C0 C0 C1.
Definition zero2 : mat2 := M2 C0 C0 C0 C0.
Definition mul2 (a b : mat2) : mat2 :=
  M2 (m00 a * m00 b + m01 a * m10 b) (m00 a * m01 b + m01 a * m11 b)
     (m10 a * m00 b + m11 a * m10 b) (m10 a * m01 b + m11 a * m11 b).
Definition adj2 (a : mat2) : mat2 := M2 (Cconj (m00 a)) (Cconj (m10 a)) (Cconj (m01 a)) (Cconj (m11 a)).
Definition det2 (a : mat2) : C := (m00 a * m11 a - m01 a * m10 a)%C.
Definition opp2 (a : mat2) : mat2 := M2 (- m00 a) (- m01 a) (- m10 a) (- m11 a).
Definition scale2 (t : R) (a : mat2) : mat2 := M2 (Cscale t (m00 a)) (Cscale t (m01 a)) (Cscale t (m10 a)) (Cscale t (m11 a)).
Definition su2 (a : mat2) : Prop := mul2 a (adj2 a) = one2 /\ mul2 (adj2 a) a = one2 /\ det2 a = C1.
Definition algebra2 (a : mat2) : Prop := adj2 a = opp2 a /\ (m00 a + m11 a)%C = C0.
(** Half of the sum of the squared moduli, whose root the code uses as norm. *)
Definition norm2 (a : mat2) : R := sqrt ((Cnorm2 (m00 a) + Cnorm2 (m01 a) + Cnorm2 (m10 a) + Cnorm2 (m11 a)) / 2).
(** Entrywise derivative of a matrix function of one real variable. *)
Definition derivative_C (f : R -> C) (t : R) (d : C) : Prop :=
  derivable_pt_lim (fun s => re (f s)) t (re d) /\ derivable_pt_lim (fun s => im (f s)) t (im d).
Definition derivative2 (f : R -> mat2) (t : R) (d : mat2) : Prop :=
  derivative_C (fun s => m00 (f s)) t (m00 d) /\ derivative_C (fun s => m01 (f s)) t (m01 d) /\
  derivative_C (fun s => m10 (f s)) t (m10 d) /\ derivative_C (fun s => m11 (f s)) t (m11 d).
(** The exponential: the solution of E(0) = 1, E' = X E. *)
Definition exponential_curve (x : mat2) (E : R -> mat2) : Prop :=
  E 0 = one2 /\ forall t, derivative2 E t (mul2 x (E t)).

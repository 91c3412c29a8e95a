(** The hand-written tables for two and three colours: generators in the fundamental and in the adjoint
    representation, and the entries of the adjoint link in terms of the real and imaginary parts of the fundamental
    link.  The entries are transcribed one by one from the source. *)
From mathcomp Require Import all_ssreflect all_algebra.
Import GRing.Theory Num.Theory.
Set Implicit Arguments.
Unset Strict Implicit.
Unset Printing Implicit Defensive.
Local Open Scope ring_scope.

Section Tables.
Variable C : numClosedFieldType.

(** utils/LieGenerators.h 20-22: the entries filled in for two colours with Eigen, row by row, before the division by
    two; the other matrix libraries fill in the same values (28-54). *)
Definition fund_table2 : seq (seq C) :=
  [:: [:: 0; 1;
      1; 0];
   [:: 0; - 'i;
      'i; 0];
   [:: 1; 0;
      0; - 1]].
(** utils/LieGenerators.h 75-77: two colours, adjoint. *)
Definition adj_table2 : seq (seq C) :=
  [:: [:: 0; 0; 0;
      0; 0; - 'i;
      0; 'i; 0];
   [:: 0; 0; 'i;
      0; 0; 0;
      - 'i; 0; 0];
   [:: 0; - 'i; 0;
      'i; 0; 0;
      0; 0; 0]].
(** utils/LieGenerators.h 124-131: three colours, before the division by two. *)
Definition fund_table3 : seq (seq C) :=
  [:: [:: 0; 1; 0;
      1; 0; 0;
      0; 0; 0];
   [:: 0; 0; 1;
      0; 0; 0;
      1; 0; 0];
   [:: 0; 0; 0;
      0; 0; 1;
      0; 1; 0];
   [:: 0; - 'i; 0;
      'i; 0; 0;
      0; 0; 0];
   [:: 0; 0; - 'i;
      0; 0; 0;
      'i; 0; 0];
   [:: 0; 0; 0;
      0; 0; - 'i;
      0; 'i; 0];
   [:: 1; 0; 0;
      0; - 1; 0;
      0; 0; 0];
   [:: 1 / sqrtC 3%:R; 0; 0;
      0; 1 / sqrtC 3%:R; 0;
      0; 0; - 2%:R / sqrtC 3%:R]].
(** utils/LieGenerators.h 149-156: three colours, adjoint. *)
Definition adj_table3 : seq (seq C) :=
  [:: [:: 0; 0; 0; 0; 0; 0; 0; 0;
      0; 0; 0; 0; 0; - ('i / 2%:R); 0; 0;
      0; 0; 0; 0; - ('i / 2%:R); 0; 0; 0;
      0; 0; 0; 0; 0; 0; - 'i; 0;
      0; 0; 'i / 2%:R; 0; 0; 0; 0; 0;
      0; 'i / 2%:R; 0; 0; 0; 0; 0; 0;
      0; 0; 0; 'i; 0; 0; 0; 0;
      0; 0; 0; 0; 0; 0; 0; 0];
   [:: 0; 0; 0; 0; 0; 'i / 2%:R; 0; 0;
      0; 0; 0; 0; 0; 0; 0; 0;
      0; 0; 0; - ('i / 2%:R); 0; 0; 0; 0;
      0; 0; 'i / 2%:R; 0; 0; 0; 0; 0;
      0; 0; 0; 0; 0; 0; - ('i / 2%:R); - (('i * sqrtC 3%:R) / 2%:R);
      - ('i / 2%:R); 0; 0; 0; 0; 0; 0; 0;
      0; 0; 0; 0; 'i / 2%:R; 0; 0; 0;
      0; 0; 0; 0; ('i * sqrtC 3%:R) / 2%:R; 0; 0; 0];
   [:: 0; 0; 0; 0; 'i / 2%:R; 0; 0; 0;
      0; 0; 0; 'i / 2%:R; 0; 0; 0; 0;
      0; 0; 0; 0; 0; 0; 0; 0;
      0; - ('i / 2%:R); 0; 0; 0; 0; 0; 0;
      - ('i / 2%:R); 0; 0; 0; 0; 0; 0; 0;
      0; 0; 0; 0; 0; 0; 'i / 2%:R; - (('i * sqrtC 3%:R) / 2%:R);
      0; 0; 0; 0; 0; - ('i / 2%:R); 0; 0;
      0; 0; 0; 0; 0; ('i * sqrtC 3%:R) / 2%:R; 0; 0];
   [:: 0; 0; 0; 0; 0; 0; 'i; 0;
      0; 0; - ('i / 2%:R); 0; 0; 0; 0; 0;
      0; 'i / 2%:R; 0; 0; 0; 0; 0; 0;
      0; 0; 0; 0; 0; 0; 0; 0;
      0; 0; 0; 0; 0; - ('i / 2%:R); 0; 0;
      0; 0; 0; 0; 'i / 2%:R; 0; 0; 0;
      - 'i; 0; 0; 0; 0; 0; 0; 0;
      0; 0; 0; 0; 0; 0; 0; 0];
   [:: 0; 0; - ('i / 2%:R); 0; 0; 0; 0; 0;
      0; 0; 0; 0; 0; 0; 'i / 2%:R; ('i * sqrtC 3%:R) / 2%:R;
      'i / 2%:R; 0; 0; 0; 0; 0; 0; 0;
      0; 0; 0; 0; 0; 'i / 2%:R; 0; 0;
      0; 0; 0; 0; 0; 0; 0; 0;
      0; 0; 0; - ('i / 2%:R); 0; 0; 0; 0;
      0; - ('i / 2%:R); 0; 0; 0; 0; 0; 0;
      0; - (('i * sqrtC 3%:R) / 2%:R); 0; 0; 0; 0; 0; 0];
   [:: 0; - ('i / 2%:R); 0; 0; 0; 0; 0; 0;
      'i / 2%:R; 0; 0; 0; 0; 0; 0; 0;
      0; 0; 0; 0; 0; 0; - ('i / 2%:R); ('i * sqrtC 3%:R) / 2%:R;
      0; 0; 0; 0; - ('i / 2%:R); 0; 0; 0;
      0; 0; 0; 'i / 2%:R; 0; 0; 0; 0;
      0; 0; 0; 0; 0; 0; 0; 0;
      0; 0; 'i / 2%:R; 0; 0; 0; 0; 0;
      0; 0; - (('i * sqrtC 3%:R) / 2%:R); 0; 0; 0; 0; 0];
   [:: 0; 0; 0; - 'i; 0; 0; 0; 0;
      0; 0; 0; 0; - ('i / 2%:R); 0; 0; 0;
      0; 0; 0; 0; 0; 'i / 2%:R; 0; 0;
      'i; 0; 0; 0; 0; 0; 0; 0;
      0; 'i / 2%:R; 0; 0; 0; 0; 0; 0;
      0; 0; - ('i / 2%:R); 0; 0; 0; 0; 0;
      0; 0; 0; 0; 0; 0; 0; 0;
      0; 0; 0; 0; 0; 0; 0; 0];
   [:: 0; 0; 0; 0; 0; 0; 0; 0;
      0; 0; 0; 0; - (('i * sqrtC 3%:R) / 2%:R); 0; 0; 0;
      0; 0; 0; 0; 0; - (('i * sqrtC 3%:R) / 2%:R); 0; 0;
      0; 0; 0; 0; 0; 0; 0; 0;
      0; ('i * sqrtC 3%:R) / 2%:R; 0; 0; 0; 0; 0; 0;
      0; 0; ('i * sqrtC 3%:R) / 2%:R; 0; 0; 0; 0; 0;
      0; 0; 0; 0; 0; 0; 0; 0;
      0; 0; 0; 0; 0; 0; 0; 0]].

Section Links.
(** real(fundamental.at(i, j)) and imag(fundamental.at(i, j)). *)
Variables x y : nat -> nat -> C.
(** utils/ConvertLattice.h 26-34: rows of the adjoint link for two colours. *)
Definition link_table2 : seq (seq C) :=
  [:: [:: y 0 1 * y 1 0 + y 0 0 * y 1 1 + x 0 1 * x 1 0 + x 0 0 * x 1 1;
      - (y 1 1 * x 0 0) + y 1 0 * x 0 1 - (y 0 1 * x 1 0) + y 0 0 * x 1 1;
      y 0 0 * y 1 0 - (y 0 1 * y 1 1) + x 0 0 * x 1 0 - (x 0 1 * x 1 1)];
  [:: y 1 1 * x 0 0 + y 1 0 * x 0 1 - (y 0 1 * x 1 0) - (y 0 0 * x 1 1);
      - (y 0 1 * y 1 0) + y 0 0 * y 1 1 - (x 0 1 * x 1 0) + x 0 0 * x 1 1;
      y 1 0 * x 0 0 - (y 1 1 * x 0 1) - (y 0 0 * x 1 0) + y 0 1 * x 1 1];
  [:: y 0 0 * y 0 1 - (y 1 0 * y 1 1) + x 0 0 * x 0 1 - (x 1 0 * x 1 1);
      - (y 0 1 * x 0 0) + y 0 0 * x 0 1 + y 1 1 * x 1 0 - (y 1 0 * x 1 1);
      2%:R^-1 * (y 0 0 * y 0 0 - (y 0 1 * y 0 1) - (y 1 0 * y 1 0) + y 1 1 * y 1 1 + x 0 0 * x 0 0 - (x 0 1 * x 0 1) - (x 1 0 * x 1 0) + x 1 1 * x 1 1)]].
(** utils/ConvertLattice.h 36-99: rows of the adjoint link for three colours. *)
Definition link_table3 : seq (seq C) :=
  [:: [:: y 0 1 * y 1 0 + y 0 0 * y 1 1 + x 0 1 * x 1 0 + x 0 0 * x 1 1;
      y 0 2 * y 1 0 + y 0 0 * y 1 2 + x 0 2 * x 1 0 + x 0 0 * x 1 2;
      y 0 2 * y 1 1 + y 0 1 * y 1 2 + x 0 2 * x 1 1 + x 0 1 * x 1 2;
      - (y 1 1 * x 0 0) + y 1 0 * x 0 1 - (y 0 1 * x 1 0) + y 0 0 * x 1 1;
      - (y 1 2 * x 0 0) + y 1 0 * x 0 2 - (y 0 2 * x 1 0) + y 0 0 * x 1 2;
      - (y 1 2 * x 0 1) + y 1 1 * x 0 2 - (y 0 2 * x 1 1) + y 0 1 * x 1 2;
      y 0 0 * y 1 0 - (y 0 1 * y 1 1) + x 0 0 * x 1 0 - (x 0 1 * x 1 1);
      y 0 0 * y 1 0 / sqrtC 3%:R + y 0 1 * y 1 1 / sqrtC 3%:R + (- 2%:R) * (y 0 2 * y 1 2) / sqrtC 3%:R + x 0 0 * x 1 0 / sqrtC 3%:R + x 0 1 * x 1 1 / sqrtC 3%:R + (- 2%:R) * (x 0 2 * x 1 2) / sqrtC 3%:R];
  [:: y 0 1 * y 2 0 + y 0 0 * y 2 1 + x 0 1 * x 2 0 + x 0 0 * x 2 1;
      y 0 2 * y 2 0 + y 0 0 * y 2 2 + x 0 2 * x 2 0 + x 0 0 * x 2 2;
      y 0 2 * y 2 1 + y 0 1 * y 2 2 + x 0 2 * x 2 1 + x 0 1 * x 2 2;
      - (y 2 1 * x 0 0) + y 2 0 * x 0 1 - (y 0 1 * x 2 0) + y 0 0 * x 2 1;
      - (y 2 2 * x 0 0) + y 2 0 * x 0 2 - (y 0 2 * x 2 0) + y 0 0 * x 2 2;
      - (y 2 2 * x 0 1) + y 2 1 * x 0 2 - (y 0 2 * x 2 1) + y 0 1 * x 2 2;
      y 0 0 * y 2 0 - (y 0 1 * y 2 1) + x 0 0 * x 2 0 - (x 0 1 * x 2 1);
      y 0 0 * y 2 0 / sqrtC 3%:R + y 0 1 * y 2 1 / sqrtC 3%:R + (- 2%:R) * (y 0 2 * y 2 2) / sqrtC 3%:R + x 0 0 * x 2 0 / sqrtC 3%:R + x 0 1 * x 2 1 / sqrtC 3%:R + (- 2%:R) * (x 0 2 * x 2 2) / sqrtC 3%:R];
  [:: y 1 1 * y 2 0 + y 1 0 * y 2 1 + x 1 1 * x 2 0 + x 1 0 * x 2 1;
      y 1 2 * y 2 0 + y 1 0 * y 2 2 + x 1 2 * x 2 0 + x 1 0 * x 2 2;
      y 1 2 * y 2 1 + y 1 1 * y 2 2 + x 1 2 * x 2 1 + x 1 1 * x 2 2;
      - (y 2 1 * x 1 0) + y 2 0 * x 1 1 - (y 1 1 * x 2 0) + y 1 0 * x 2 1;
      - (y 2 2 * x 1 0) + y 2 0 * x 1 2 - (y 1 2 * x 2 0) + y 1 0 * x 2 2;
      - (y 2 2 * x 1 1) + y 2 1 * x 1 2 - (y 1 2 * x 2 1) + y 1 1 * x 2 2;
      y 1 0 * y 2 0 - (y 1 1 * y 2 1) + x 1 0 * x 2 0 - (x 1 1 * x 2 1);
      y 1 0 * y 2 0 / sqrtC 3%:R + y 1 1 * y 2 1 / sqrtC 3%:R + (- 2%:R) * (y 1 2 * y 2 2) / sqrtC 3%:R + x 1 0 * x 2 0 / sqrtC 3%:R + x 1 1 * x 2 1 / sqrtC 3%:R + (- 2%:R) * (x 1 2 * x 2 2) / sqrtC 3%:R];
  [:: y 1 1 * x 0 0 + y 1 0 * x 0 1 - (y 0 1 * x 1 0) - (y 0 0 * x 1 1);
      y 1 2 * x 0 0 + y 1 0 * x 0 2 - (y 0 2 * x 1 0) - (y 0 0 * x 1 2);
      y 1 2 * x 0 1 + y 1 1 * x 0 2 - (y 0 2 * x 1 1) - (y 0 1 * x 1 2);
      - (y 0 1 * y 1 0) + y 0 0 * y 1 1 - (x 0 1 * x 1 0) + x 0 0 * x 1 1;
      - (y 0 2 * y 1 0) + y 0 0 * y 1 2 - (x 0 2 * x 1 0) + x 0 0 * x 1 2;
      - (y 0 2 * y 1 1) + y 0 1 * y 1 2 - (x 0 2 * x 1 1) + x 0 1 * x 1 2;
      y 1 0 * x 0 0 - (y 1 1 * x 0 1) - (y 0 0 * x 1 0) + y 0 1 * x 1 1;
      y 1 0 * x 0 0 / sqrtC 3%:R + y 1 1 * x 0 1 / sqrtC 3%:R + (- 2%:R) * (y 1 2 * x 0 2) / sqrtC 3%:R - (y 0 0 * x 1 0 / sqrtC 3%:R) - (y 0 1 * x 1 1 / sqrtC 3%:R) + 2%:R * (y 0 2 * x 1 2) / sqrtC 3%:R];
  [:: y 2 1 * x 0 0 + y 2 0 * x 0 1 - (y 0 1 * x 2 0) - (y 0 0 * x 2 1);
      y 2 2 * x 0 0 + y 2 0 * x 0 2 - (y 0 2 * x 2 0) - (y 0 0 * x 2 2);
      y 2 2 * x 0 1 + y 2 1 * x 0 2 - (y 0 2 * x 2 1) - (y 0 1 * x 2 2);
      - (y 0 1 * y 2 0) + y 0 0 * y 2 1 - (x 0 1 * x 2 0) + x 0 0 * x 2 1;
      - (y 0 2 * y 2 0) + y 0 0 * y 2 2 - (x 0 2 * x 2 0) + x 0 0 * x 2 2;
      - (y 0 2 * y 2 1) + y 0 1 * y 2 2 - (x 0 2 * x 2 1) + x 0 1 * x 2 2;
      y 2 0 * x 0 0 - (y 2 1 * x 0 1) - (y 0 0 * x 2 0) + y 0 1 * x 2 1;
      y 2 0 * x 0 0 / sqrtC 3%:R + y 2 1 * x 0 1 / sqrtC 3%:R + (- 2%:R) * (y 2 2 * x 0 2) / sqrtC 3%:R - (y 0 0 * x 2 0 / sqrtC 3%:R) - (y 0 1 * x 2 1 / sqrtC 3%:R) + 2%:R * (y 0 2 * x 2 2) / sqrtC 3%:R];
  [:: y 2 1 * x 1 0 + y 2 0 * x 1 1 - (y 1 1 * x 2 0) - (y 1 0 * x 2 1);
      y 2 2 * x 1 0 + y 2 0 * x 1 2 - (y 1 2 * x 2 0) - (y 1 0 * x 2 2);
      y 2 2 * x 1 1 + y 2 1 * x 1 2 - (y 1 2 * x 2 1) - (y 1 1 * x 2 2);
      - (y 1 1 * y 2 0) + y 1 0 * y 2 1 - (x 1 1 * x 2 0) + x 1 0 * x 2 1;
      - (y 1 2 * y 2 0) + y 1 0 * y 2 2 - (x 1 2 * x 2 0) + x 1 0 * x 2 2;
      - (y 1 2 * y 2 1) + y 1 1 * y 2 2 - (x 1 2 * x 2 1) + x 1 1 * x 2 2;
      y 2 0 * x 1 0 - (y 2 1 * x 1 1) - (y 1 0 * x 2 0) + y 1 1 * x 2 1;
      y 2 0 * x 1 0 / sqrtC 3%:R + y 2 1 * x 1 1 / sqrtC 3%:R + (- 2%:R) * (y 2 2 * x 1 2) / sqrtC 3%:R - (y 1 0 * x 2 0 / sqrtC 3%:R) - (y 1 1 * x 2 1 / sqrtC 3%:R) + 2%:R * (y 1 2 * x 2 2) / sqrtC 3%:R];
  [:: y 0 0 * y 0 1 - (y 1 0 * y 1 1) + x 0 0 * x 0 1 - (x 1 0 * x 1 1);
      y 0 0 * y 0 2 - (y 1 0 * y 1 2) + x 0 0 * x 0 2 - (x 1 0 * x 1 2);
      y 0 1 * y 0 2 - (y 1 1 * y 1 2) + x 0 1 * x 0 2 - (x 1 1 * x 1 2);
      - (y 0 1 * x 0 0) + y 0 0 * x 0 1 + y 1 1 * x 1 0 - (y 1 0 * x 1 1);
      - (y 0 2 * x 0 0) + y 0 0 * x 0 2 + y 1 2 * x 1 0 - (y 1 0 * x 1 2);
      - (y 0 2 * x 0 1) + y 0 1 * x 0 2 + y 1 2 * x 1 1 - (y 1 1 * x 1 2);
      2%:R^-1 * (y 0 0 * y 0 0) + (- 1 / 2%:R) * (y 0 1 * y 0 1) + (- 1 / 2%:R) * (y 1 0 * y 1 0) + 2%:R^-1 * (y 1 1 * y 1 1) + 2%:R^-1 * (x 0 0 * x 0 0) + (- 1 / 2%:R) * (x 0 1 * x 0 1) + (- 1 / 2%:R) * (x 1 0 * x 1 0) + 2%:R^-1 * (x 1 1 * x 1 1);
      2%:R^-1 * (y 0 0 * y 0 0 / sqrtC 3%:R) + 2%:R^-1 * (y 0 1 * y 0 1 / sqrtC 3%:R) - (y 0 2 * y 0 2 / sqrtC 3%:R) + (- 1 / 2%:R) * (y 1 0 * y 1 0) / sqrtC 3%:R + (- 1 / 2%:R) * (y 1 1 * y 1 1) / sqrtC 3%:R + y 1 2 * y 1 2 / sqrtC 3%:R + 2%:R^-1 * (x 0 0 * x 0 0 / sqrtC 3%:R) + 2%:R^-1 * (x 0 1 * x 0 1 / sqrtC 3%:R) - (x 0 2 * x 0 2 / sqrtC 3%:R) + (- 1 / 2%:R) * (x 1 0 * x 1 0) / sqrtC 3%:R + (- 1 / 2%:R) * (x 1 1 * x 1 1) / sqrtC 3%:R + x 1 2 * x 1 2 / sqrtC 3%:R];
  [:: y 0 0 * y 0 1 / sqrtC 3%:R + y 1 0 * y 1 1 / sqrtC 3%:R + (- 2%:R) * (y 2 0 * y 2 1) / sqrtC 3%:R + x 0 0 * x 0 1 / sqrtC 3%:R + x 1 0 * x 1 1 / sqrtC 3%:R + (- 2%:R) * (x 2 0 * x 2 1) / sqrtC 3%:R;
      y 0 0 * y 0 2 / sqrtC 3%:R + y 1 0 * y 1 2 / sqrtC 3%:R + (- 2%:R) * (y 2 0 * y 2 2) / sqrtC 3%:R + x 0 0 * x 0 2 / sqrtC 3%:R + x 1 0 * x 1 2 / sqrtC 3%:R + (- 2%:R) * (x 2 0 * x 2 2) / sqrtC 3%:R;
      y 0 1 * y 0 2 / sqrtC 3%:R + y 1 1 * y 1 2 / sqrtC 3%:R + (- 2%:R) * (y 2 1 * y 2 2) / sqrtC 3%:R + x 0 1 * x 0 2 / sqrtC 3%:R + x 1 1 * x 1 2 / sqrtC 3%:R + (- 2%:R) * (x 2 1 * x 2 2) / sqrtC 3%:R;
      - (y 0 1 * x 0 0 / sqrtC 3%:R) + y 0 0 * x 0 1 / sqrtC 3%:R - (y 1 1 * x 1 0 / sqrtC 3%:R) + y 1 0 * x 1 1 / sqrtC 3%:R + 2%:R * (y 2 1 * x 2 0) / sqrtC 3%:R + (- 2%:R) * (y 2 0 * x 2 1) / sqrtC 3%:R;
      - (y 0 2 * x 0 0 / sqrtC 3%:R) + y 0 0 * x 0 2 / sqrtC 3%:R - (y 1 2 * x 1 0 / sqrtC 3%:R) + y 1 0 * x 1 2 / sqrtC 3%:R + 2%:R * (y 2 2 * x 2 0) / sqrtC 3%:R + (- 2%:R) * (y 2 0 * x 2 2) / sqrtC 3%:R;
      - (y 0 2 * x 0 1 / sqrtC 3%:R) + y 0 1 * x 0 2 / sqrtC 3%:R - (y 1 2 * x 1 1 / sqrtC 3%:R) + y 1 1 * x 1 2 / sqrtC 3%:R + 2%:R * (y 2 2 * x 2 1) / sqrtC 3%:R + (- 2%:R) * (y 2 1 * x 2 2) / sqrtC 3%:R;
      2%:R^-1 * (y 0 0 * y 0 0 / sqrtC 3%:R) + (- 1 / 2%:R) * (y 0 1 * y 0 1) / sqrtC 3%:R + 2%:R^-1 * (y 1 0 * y 1 0 / sqrtC 3%:R) + (- 1 / 2%:R) * (y 1 1 * y 1 1) / sqrtC 3%:R - (y 2 0 * y 2 0 / sqrtC 3%:R) + y 2 1 * y 2 1 / sqrtC 3%:R + 2%:R^-1 * (x 0 0 * x 0 0 / sqrtC 3%:R) + (- 1 / 2%:R) * (x 0 1 * x 0 1) / sqrtC 3%:R + 2%:R^-1 * (x 1 0 * x 1 0 / sqrtC 3%:R) + (- 1 / 2%:R) * (x 1 1 * x 1 1) / sqrtC 3%:R - (x 2 0 * x 2 0 / sqrtC 3%:R) + x 2 1 * x 2 1 / sqrtC 3%:R;
      (1 / 6%:R) * (y 0 0 * y 0 0) + (1 / 6%:R) * (y 0 1 * y 0 1) + (- 1 / 3%:R) * (y 0 2 * y 0 2) + (1 / 6%:R) * (y 1 0 * y 1 0) + (1 / 6%:R) * (y 1 1 * y 1 1) + (- 1 / 3%:R) * (y 1 2 * y 1 2) + (- 1 / 3%:R) * (y 2 0 * y 2 0) + (- 1 / 3%:R) * (y 2 1 * y 2 1) + (2%:R / 3%:R) * (y 2 2 * y 2 2) + (1 / 6%:R) * (x 0 0 * x 0 0) + (1 / 6%:R) * (x 0 1 * x 0 1) + (- 1 / 3%:R) * (x 0 2 * x 0 2) + (1 / 6%:R) * (x 1 0 * x 1 0) + (1 / 6%:R) * (x 1 1 * x 1 1) + (- 1 / 3%:R) * (x 1 2 * x 1 2) + (- 1 / 3%:R) * (x 2 0 * x 2 0) + (- 1 / 3%:R) * (x 2 1 * x 2 1) + (2%:R / 3%:R) * (x 2 2 * x 2 2)]].
End Links.
End Tables.

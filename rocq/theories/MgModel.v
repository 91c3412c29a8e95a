(** Multigrid: projection between fine and coarse vectors, the coarse operator and the orthogonalisation of the
    block basis (source/multigrid), for any number of processes, local sites, blocks, threads and basis vectors.
    Arithmetic is exact; a division by zero gives [None].  The halo updates are not modelled: fields are given on
    the sites of the processes, and the Dirac operator is a function of such fields.  The dimension of the basis
    and that of the layout are equal here (they can differ: BlockModel.v). *)
From mathcomp Require Import all_ssreflect all_algebra.
Import GRing.Theory Num.Theory.
Set Implicit Arguments.
Unset Strict Implicit.
Unset Printing Implicit Defensive.
Local Open Scope ring_scope.

Section Mg.
Variable C : numClosedFieldType.
Variable n : nat.                 (* diracVectorLength *)
Variables P S T : finType.        (* processes, sites of one process, threads of one process *)
Variable nb : nat.                (* Layout::totalNumberOfBlocks *)
Variable d : nat.                 (* Layout::basisDimension *)
Variable blk : P -> S -> 'I_nb.   (* Layout::index(site) *)
Variable thr : P -> S -> T.       (* the thread that runs an iteration of an omp parallel for over the sites *)

(** reduced_dirac_vector_t: [site][mu][c]. *)
Definition index := (P * S * 'I_4 * 'I_n)%type.
Definition field := {ffun index -> C}.
(** multigrid_vector_t on every process: data[i]. *)
Definition coarse := P -> nat -> C.
(** vectorspace[i]. *)
Definition basis := nat -> field.
Implicit Types (u v f : field) (b : basis) (c : coarse) (p : P) (k : 'I_nb) (t : T).

(** MultiGridProjector.cpp 30-41, BlockBasis.cpp 64-75 and 154-165: proj[k][t]. *)
Definition partial_dot u v p k t : C :=
  \sum_(s | (blk p s == k) && (thr p s == t)) \sum_(mu < 4) \sum_(a < n) (u (p, s, mu, a))^* * v (p, s, mu, a).
(** BlockBasis.cpp 76-78 and 166-168: the sum over the threads; no sum over the processes. *)
Definition block_dot u v p k : C := \sum_t partial_dot u v p k t.
(** AlgebraUtils.h dot (175-190): summed over all processes. *)
Definition dot u v : C := \sum_p \sum_s \sum_(mu < 4) \sum_(a < n) (u (p, s, mu, a))^* * v (p, s, mu, a).

(** MultiGridProjector.cpp 8-50: fine to coarse; output[i*totalNumberOfBlocks + j] += proj[j][t]. *)
Definition restrict b f : coarse := fun p m =>
  \sum_(i < d) \sum_t \sum_(j < nb) if (m == i * nb + j)%N then partial_dot (b i) f p j t else 0.
(** MultiGridProjector.cpp 52-64 with MultiGridVector.h 40-42: coarse to fine. *)
Definition prolong b c : field :=
  [ffun x : index => let: (p, s, mu, a) := x in \sum_(i < d) c p (nb * i + blk p s)%N * b i (p, s, mu, a)].

(** MultiGridOperator.cpp 8-67: multiply; [D] is dirac->multiply. *)
Definition coarse_multiply (D : field -> field) b c : coarse := restrict b (D (prolong b c)).
(** MultiGridOperator.cpp 69-125: multiplyAdd; [D] is dirac->multiplyAdd. *)
Definition coarse_multiply_add (D : field -> field -> C -> field) b c (alpha : C) : coarse :=
  restrict b (D (prolong b c) (prolong b c) alpha).
(** MultiGridOperator.cpp 127-147: asMatrix as seen by process [p]: every process sets its own component. *)
Definition as_matrix (D : field -> field) b p (j i : nat) : C :=
  coarse_multiply D b (fun _ m => if m == i then 1 else 0) p j.

(** Assignment to vectorspace[i]. *)
Definition put b (i : nat) v : basis := fun j => if j == i then v else b j.

(** BlockBasis.cpp 134-140 and 44-50: vectorspace[i] -= dot(vectorspace[j],vectorspace[i])*vectorspace[j]. *)
Definition global_sub (i : nat) b (j : nat) : basis := put b i [ffun x => b i x - dot (b j) (b i) * b j x].
(** AlgebraUtils.h 32-47: normalize. *)
Definition global_normalize b (i : nat) : option basis :=
  let norm := 'Re (dot (b i) (b i)) in
  if norm == 0 then None else Some (put b i [ffun x => b i x / sqrtC norm]).
(** BlockBasis.cpp 149-175 and 59-85: the same on every block. *)
Definition block_sub (i : nat) b (j : nat) : basis :=
  put b i [ffun x : index => let: (p, s, _, _) := x in b i x - block_dot (b j) (b i) p (blk p s) * b j x].
(** BlockBasis.cpp 179-206 and 89-116: every block gets norm one. *)
Definition block_normalize b (i : nat) : option basis :=
  let norm p k := \sum_t 'Re (partial_dot (b i) (b i) p k t) in
  if [exists ps : P * S, norm ps.1 (blk ps.1 ps.2) == 0] then None
  else Some (put b i [ffun x : index => let: (p, s, _, _) := x in b i x / sqrtC (norm p (blk p s))]).

(** A loop whose body may divide by zero. *)
Fixpoint loop (body : basis -> nat -> option basis) (is_ : seq nat) b : option basis :=
  match is_ with [::] => Some b | i :: r => obind (loop body r) (body b i) end.

(** BlockBasis.cpp 132-144 and 147-210. *)
Definition global_step b (i : nat) : option basis := global_normalize (foldl (global_sub i) b (iota 0 i)) i.
Definition block_step b (i : nat) : option basis := block_normalize (foldl (block_sub i) b (iota 0 i)) i.
(** BlockBasis.cpp 123-211: orthogonalize(). *)
Definition orthogonalize b : option basis :=
  obind (loop block_step (iota 0 d)) (loop global_step (iota 0 d) b).

(** BlockBasis.cpp 57-120: one iteration of the second loop of orthogonalize(index). *)
Definition one_step (i : nat) b (j : nat) : option basis :=
  block_normalize (if j != i then block_sub i b j else b) i.
(** BlockBasis.cpp 33-121: orthogonalize(index). *)
Definition orthogonalize_one b (i : nat) : option basis :=
  obind (loop (one_step i) (iota 0 d))
        (global_normalize (foldl (fun b j => if j != i then global_sub i b j else b) b (iota 0 d)) i).
End Mg.

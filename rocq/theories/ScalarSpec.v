(** Independent vocabulary for the scalar properties: a proposal changes one component of one field at one site, and a
    Metropolis step accepts it according to the change of the total action. *)
From mathcomp Require Import all_ssreflect all_algebra.
From Verif Require Import GaugeModel LoopModel ScalarModel.
Import GRing.Theory Num.Theory.
Set Implicit Arguments.
Unset Strict Implicit.
Unset Printing Implicit Defensive.
Local Open Scope ring_scope.

Section Spec.
Variable C : numClosedFieldType.
Variables n m a f : nat.
Variable L : lattice.
Notation state := (scalars C n m a f L).

(** The field values of a state with one value replaced. *)
Definition replace_adj (s : state) (i : 'I_a) (x : L) (v : 'cV[C]_m) (s' : state) : Prop :=
  adj s' (i, x) = v /\ (forall j y, (j, y) != (i, x) -> adj s' (j, y) = adj s (j, y)) /\ fund s' = fund s.
Definition replace_fund (s : state) (i : 'I_f) (x : L) (v : 'cV[C]_n) (s' : state) : Prop :=
  fund s' (i, x) = v /\ (forall j y, (j, y) != (i, x) -> fund s' (j, y) = fund s (j, y)) /\ adj s' = adj s.

(** All adjoint field values and links are real. *)
Definition real_vector k (v : 'cV[C]_k) : Prop := forall c, v c 0 \is Num.real.
Definition real_matrix k (A : 'M[C]_k) : Prop := forall b c, A b c \is Num.real.
Definition real_adjoint (s : state) : Prop := forall i x, real_vector (adj s (i, x)).

(** One Metropolis proposal: which number is shifted, by how much, and the uniform number of the decision. *)
Inductive proposal :=
| OnAdj (i : 'I_a) (x : L) (c : 'I_m) (p u : C)
| OnFund (i : 'I_f) (x : L) (c : 'I_n) (p u : C).
Definition uniform q := match q with OnAdj _ _ _ _ u => u | OnFund _ _ _ _ u => u end.
Definition proposed (s : state) (q : proposal) : state :=
  match q with
  | OnAdj i x c p _ => Scalars [ffun r => \col_d (adj s r d 0 + p *+ ((r == (i, x)) && (d == c)))] (fund s)
  | OnFund i x c p _ => Scalars (adj s) [ffun r => \col_d (fund s r d 0 + p *+ ((r == (i, x)) && (d == c)))]
  end.
(** The textbook Metropolis step for an action, counting the accepted proposals. *)
Definition metropolis_step (action : state -> C) (rexp : C -> C) (st : state * nat) (q : proposal) : state * nat :=
  let s' := proposed st.1 q in
  let delta := action s' - action st.1 in
  if (delta < 0) || (uniform q < rexp (- delta)) then (s', st.2.+1) else st.

(** The proposals at one site: every adjoint field, then every fundamental field; for each, [hits] rounds over the
    components. *)
Definition site_proposals (padj uadj : L -> 'I_a -> nat -> 'I_m -> C) (pfund ufund : L -> 'I_f -> nat -> 'I_n -> C)
    (hits : nat) (x : L) : seq proposal :=
  flatten [seq [seq OnAdj i x q.2 (padj x i q.1 q.2) (uadj x i q.1 q.2) | q <- [seq (t, c) | t <- iota 0 hits, c <- enum 'I_m]]
             | i <- enum 'I_a]
  ++ flatten [seq [seq OnFund i x q.2 (pfund x i q.1 q.2) (ufund x i q.1 q.2) | q <- [seq (t, c) | t <- iota 0 hits, c <- enum 'I_n]]
             | i <- enum 'I_f].
End Spec.
Arguments OnAdj {C n m a f L} _ _ _ _ _.
Arguments OnFund {C n m a f L} _ _ _ _ _.

(** Nearest neighbours. *)
Definition neighbours (L : lattice) (x y : L) : Prop := exists mu, y = sup mu x \/ y = sdn mu x.
(** The parity of a site of a grid: whether the sum of its coordinates is odd. *)
Definition odd_site (G : grid) (x : G) : bool := odd (\sum_(mu < 4) coord x mu).

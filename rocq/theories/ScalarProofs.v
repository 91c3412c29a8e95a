(** Proofs about the scalar action and the Metropolis update. *)
From Coq Require Import ZArith.
From Verif Require Import Base.
From mathcomp Require Import all_ssreflect all_algebra.
From Verif Require Import GaugeModel GaugeSpec GaugeProofs LoopModel ScalarModel ScalarSpec.
Import GRing.Theory Num.Theory.
Set Implicit Arguments.
Unset Strict Implicit.
Unset Printing Implicit Defensive.
Local Open Scope ring_scope.

Section Dot.
Variable C : numClosedFieldType.
Lemma vdotE k (v w : 'cV[C]_k) : vdot v w = (htrans v *m w) 0 0.
Proof. by rewrite /vdot mxE; apply: eq_bigr => i _; rewrite !mxE. Qed.
Lemma vdotDl k (u v w : 'cV[C]_k) : vdot (u + v) w = vdot u w + vdot v w.
Proof. by rewrite !vdotE htransD mulmxDl mxE. Qed.
Lemma vdotNl k (v w : 'cV[C]_k) : vdot (- v) w = - vdot v w.
Proof. by rewrite !vdotE htransN mulNmx mxE. Qed.
Lemma vdot_suml k (I : Type) (r : seq I) (P : pred I) (F : I -> 'cV[C]_k) w :
  vdot (\sum_(i <- r | P i) F i) w = \sum_(i <- r | P i) vdot (F i) w.
Proof.
by rewrite vdotE htrans_sum mulmx_suml summxE; apply: eq_bigr => i _; rewrite vdotE.
Qed.
Lemma vdot_ht k l (A : 'M[C]_(k, l)) (v : 'cV[C]_k) (w : 'cV[C]_l) : vdot (htrans A *m v) w = vdot v (A *m w).
Proof. by rewrite !vdotE htransM htransK mulmxA. Qed.
Lemma vdotC k (v w : 'cV[C]_k) : vdot v w = (vdot w v)^*.
Proof. by rewrite /vdot rmorph_sum; apply: eq_bigr => i _; rewrite rmorphM conjCK mulrC. Qed.
Lemma Re_sum (I : Type) (r : seq I) (P : pred I) (F : I -> C) :
  'Re (\sum_(i <- r | P i) F i) = \sum_(i <- r | P i) 'Re (F i).
Proof. exact: raddf_sum. Qed.
Lemma Re_vdotC k (v w : 'cV[C]_k) : 'Re (vdot v w) = 'Re (vdot w v).
Proof. by rewrite vdotC Re_conj. Qed.
Lemma Re_real (z : C) : z \is Num.real -> 'Re z = z.
Proof. by move=> /Creal_ReP. Qed.
Lemma vdot_real k (v w : 'cV[C]_k) : real_vector v -> real_vector w -> vdot v w \is Num.real.
Proof. by move=> V W; apply: rpred_sum => i _; rewrite rpredM // conj_Creal. Qed.
Lemma mulmx_real k (A : 'M[C]_k) (v : 'cV[C]_k) : real_matrix A -> real_vector v -> real_vector (A *m v).
Proof. by move=> HA V c; rewrite mxE; apply: rpred_sum => i _; rewrite rpredM. Qed.
End Dot.

Section Change.
Variable C : numClosedFieldType.
Add Ring CringS : (Crth C).
Variable L : lattice.
Variable k : nat.
Variable V : L -> 'I_4 -> 'M[C]_k.
Implicit Types phi : L -> 'cV[C]_k.
Definition hopping phi : C := \sum_(mu < 4) \sum_(x : L) 'Re (vdot (phi x) (V x mu *m phi (sup mu x))).
Lemma kinetic_off phi phi' x0 : extent2 L -> (forall y, y != x0 -> phi' y = phi y) -> kinetic V phi' x0 = kinetic V phi x0.
Proof.
move=> E H; apply: eq_bigr => mu _; rewrite !H //; first by apply/eqP => e; apply: (E mu x0); rewrite -{1}e sdnK.
by apply/eqP; apply: E.
Qed.
Lemma hopping_change phi phi' x0 : extent2 L -> (forall y, y != x0 -> phi' y = phi y) ->
  hopping phi' - hopping phi = - 'Re (vdot (kinetic V phi x0) (phi' x0)) + 'Re (vdot (kinetic V phi x0) (phi x0)).
Proof.
move=> E H; rewrite /hopping /kinetic !vdot_suml !Re_sum -!sumrN -!big_split /=; apply: eq_bigr => mu _.
have ne : x0 != sdn mu x0 by apply/eqP => e; apply: (E mu (sdn mu x0)); rewrite sdnK -e.
rewrite -sumrB (@sum_support _ _ [:: x0; sdn mu x0]) /=; first last.
- move=> x; rewrite !inE negb_or => /andP[nx nd]; rewrite H // H ?subrr //.
  by rewrite sup_eq.
- by rewrite inE ne.
rewrite !big_cons big_nil addr0 sdnK (H (sup mu x0)); last by apply/eqP; apply: E.
rewrite (H (sdn mu x0)); last by rewrite eq_sym.
rewrite !vdotDl !vdotNl !vdot_ht !raddfD !raddfN /=.
rewrite (Re_vdotC (V x0 mu *m _) (phi' x0)) (Re_vdotC (V x0 mu *m _) (phi x0)); cring_fold C; ring.
Qed.
End Change.

Section Energy.
Variable C : numClosedFieldType.
Add Ring CringT : (Crth C).
Variables n m a f : nat.
Variable L : lattice.
Variable U : L -> 'I_4 -> 'M[C]_n.
Variable R : L -> 'I_4 -> 'M[C]_m.
Variable gens : seq 'M[C]_m.
Variable g : couplings C.
Notation state := (scalars C n m a f L).
Implicit Types s : state.
Hypothesis ext : extent2 L.
Hypothesis realR : forall x mu, real_matrix (R x mu).
Lemma energyE s : real_adjoint s -> energy U R gens g s =
  \sum_(i < a) hopping R (fun x => adj s (i, x)) + \sum_(i < f) hopping U (fun x => fund s (i, x)) + \sum_(x : L) potential gens g s x.
Proof.
move=> H; rewrite /energy; congr (_ + _ + _).
- apply: eq_bigr => i _; apply: eq_bigr => mu _; apply: eq_bigr => x _.
  rewrite Re_real; last by apply: vdot_real => //; apply: mulmx_real.
  by apply: eq_bigr => c _; rewrite conj_Creal; last exact: H.
- by apply: eq_bigr => i _; apply: eq_bigr => mu _; apply: eq_bigr => x _; rewrite -Re_sum.
Qed.
Lemma potential_here s s' x : (forall i, adj s' (i, x) = adj s (i, x)) -> (forall i, fund s' (i, x) = fund s (i, x)) ->
  potential gens g s' x = potential gens g s x.
Proof.
move=> Ha Hf; rewrite /potential.
have -> : square_fundamental s' x = square_fundamental s x by apply: eq_bigr => i _; rewrite Hf.
have -> : square_adjoint s' x = square_adjoint s x by apply: eq_bigr => i _; rewrite Ha.
congr (_ + _ + _ + _ + _); apply: eq_bigr => T _.
by have -> : \sum_(i < a) 'Re (vdot (adj s' (i, x)) (T *m adj s' (i, x))) = \sum_(i < a) 'Re (vdot (adj s (i, x)) (T *m adj s (i, x)))
  by apply: eq_bigr => i _; rewrite Ha.
Qed.
Lemma potential_change s s' x0 : (forall i x, x != x0 -> adj s' (i, x) = adj s (i, x)) ->
  (forall i x, x != x0 -> fund s' (i, x) = fund s (i, x)) ->
  \sum_x potential gens g s' x - \sum_x potential gens g s x = potential gens g s' x0 - potential gens g s x0.
Proof.
move=> Ha Hf; rewrite -sumrB (@sum_support _ _ [:: x0]) //; first by rewrite big_seq1.
by move=> x; rewrite inE => ne; rewrite (@potential_here s) ?subrr // => i; [rewrite Ha | rewrite Hf].
Qed.
Lemma sum_change b (F F' : 'I_b -> C) i : (forall j, j != i -> F' j = F j) -> \sum_j F' j - \sum_j F j = F' i - F i.
Proof.
move=> H; rewrite (bigD1 i) //= [\sum_j F j](bigD1 i) //= (eq_bigr F); last by [].
by cring_fold C; ring.
Qed.
Lemma hopping_ext k (V : L -> 'I_4 -> 'M[C]_k) phi phi' : phi =1 phi' -> hopping V phi = hopping V phi'.
Proof. by move=> H; apply: eq_bigr => mu _; apply: eq_bigr => x _; rewrite !H. Qed.
Lemma glueA (A B D A' D' d1 d2 d3 d4 : C) : A - A' = - d1 + d3 -> D - D' = d2 - d4 ->
  A + B + D - (A' + B + D') = - d1 + d2 - (- d3 + d4).
Proof.
move=> e1 e2; have -> : A + B + D - (A' + B + D') = (A - A') + (D - D') by cring_fold C; ring.
by rewrite e1 e2; cring_fold C; ring.
Qed.
Lemma glueF (A B D B' D' d1 d2 d3 d4 : C) : B - B' = - d1 + d3 -> D - D' = d2 - d4 ->
  A + B + D - (A + B' + D') = - d1 + d2 - (- d3 + d4).
Proof.
move=> e1 e2; have -> : A + B + D - (A + B' + D') = (B - B') + (D - D') by cring_fold C; ring.
by rewrite e1 e2; cring_fold C; ring.
Qed.
Lemma adj_change s s' i x v : replace_adj s i x v s' -> real_adjoint s -> real_vector v ->
  energy U R gens g s' - energy U R gens g s
  = energy_adjoint gens g s' x (kinetic R (fun y => adj s (i, y)) x) i - energy_adjoint gens g s x (kinetic R (fun y => adj s (i, y)) x) i.
Proof.
move=> [Hv [Ho Hf]] Hs rv.
have Hs' : real_adjoint s'.
  move=> j y; case: (altP ((j, y) =P (i, x))) => [[-> ->]|ne]; first by rewrite Hv.
  by rewrite Ho.
rewrite !energyE // (_ : \sum_(j < f) hopping U (fun y => fund s' (j, y)) = \sum_(j < f) hopping U (fun y => fund s (j, y))); last by rewrite Hf.
rewrite /energy_adjoint.
have P := @potential_change s s' x.
have Q := @sum_change _ (fun j => hopping R (fun y => adj s (j, y))) (fun j => hopping R (fun y => adj s' (j, y))) i.
have K := @hopping_change C L m R (fun y => adj s (i, y)) (fun y => adj s' (i, y)) x ext.
set KK := kinetic _ _ _ in K *.
have kr : real_vector KK.
  move=> c; rewrite summxE; apply: rpred_sum => mu _; rewrite !mxE rpredB //.
    by rewrite rpredN; apply: rpred_sum => d _; apply: rpredM; [exact: realR | exact: Hs].
  apply: rpred_sum => d _; apply: rpredM; last exact: Hs.
  by rewrite !mxE conj_Creal; exact: realR.
rewrite !(Re_real (vdot_real kr _)) in K; try exact: Hs'; try exact: Hs.
apply: glueA.
- rewrite Q; last by move=> j ne; apply: hopping_ext => y; apply: Ho; apply: contra ne => /eqP[-> _].
  by rewrite K // => y ne; apply: Ho; apply: contra ne => /eqP[->].
- by apply: P => j y ne; [apply: Ho; apply: contra ne => /eqP[_ ->] | rewrite Hf].
Qed.
Lemma fund_change s s' i x v : replace_fund s i x v s' -> real_adjoint s ->
  energy U R gens g s' - energy U R gens g s
  = energy_fundamental gens g s' x (kinetic U (fun y => fund s (i, y)) x) i
    - energy_fundamental gens g s x (kinetic U (fun y => fund s (i, y)) x) i.
Proof.
move=> [Hv [Ho Ha]] Hs.
have Hs' : real_adjoint s' by rewrite /real_adjoint Ha.
rewrite !energyE // (_ : \sum_(j < a) hopping R (fun y => adj s' (j, y)) = \sum_(j < a) hopping R (fun y => adj s (j, y))); last by rewrite Ha.
rewrite /energy_fundamental.
have P := @potential_change s s' x.
have Q := @sum_change _ (fun j => hopping U (fun y => fund s (j, y))) (fun j => hopping U (fun y => fund s' (j, y))) i.
have K := @hopping_change C L n U (fun y => fund s (i, y)) (fun y => fund s' (i, y)) x ext.
apply: glueF.
- rewrite Q; last by move=> j ne; apply: hopping_ext => y; apply: Ho; apply: contra ne => /eqP[-> _].
  by rewrite K // => y ne; apply: Ho; apply: contra ne => /eqP[->].
- by apply: P => j y ne; [rewrite Ha | apply: Ho; apply: contra ne => /eqP[_ ->]].
Qed.
End Energy.

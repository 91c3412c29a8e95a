(** Properties C50, C51 and C66: scalar fields. *)
From Coq Require Import ZArith.
From Verif Require Import Base.
From mathcomp Require Import all_ssreflect all_algebra all_field.
From Verif Require Import GaugeModel GaugeSpec GaugeProofs GaugeProofs2 GaugeProofs3 LoopModel LoopGrid.
From Verif Require Import ScalarModel ScalarSpec ScalarProofs ScalarProofs2 ScalarProofs3 ScalarWitness.
Import GRing.Theory Num.Theory.
Set Implicit Arguments.
Unset Strict Implicit.
Unset Printing Implicit Defensive.
Local Open Scope ring_scope.

(** ** C50: the local energy of the Metropolis update and the total action. *)
Theorem C50_adjoint (C : numClosedFieldType) (n m a f : nat) (L : lattice) (U : L -> 'I_4 -> 'M[C]_n) (R : L -> 'I_4 -> 'M[C]_m)
    (gens : seq 'M[C]_m) (g : couplings C) (s s' : scalars C n m a f L) (i : 'I_a) (x : L) (v : 'cV[C]_m) :
  extent2 L -> (forall x mu, real_matrix (R x mu)) -> real_adjoint s -> real_vector v -> replace_adj s i x v s' ->
  let K := kinetic R (fun y => adj s (i, y)) x in
  energy_adjoint gens g s' x K i - energy_adjoint gens g s x K i = energy U R gens g s' - energy U R gens g s.
Proof. by move=> e r rs rv h; rewrite (adj_change U gens g e r h rs rv). Qed.
Theorem C50_fundamental (C : numClosedFieldType) (n m a f : nat) (L : lattice) (U : L -> 'I_4 -> 'M[C]_n) (R : L -> 'I_4 -> 'M[C]_m)
    (gens : seq 'M[C]_m) (g : couplings C) (s s' : scalars C n m a f L) (i : 'I_f) (x : L) (v : 'cV[C]_n) :
  extent2 L -> (forall x mu, real_matrix (R x mu)) -> real_adjoint s -> replace_fund s i x v s' ->
  let K := kinetic U (fun y => fund s (i, y)) x in
  energy_fundamental gens g s' x K i - energy_fundamental gens g s x K i = energy U R gens g s' - energy U R gens g s.
Proof. by move=> e r rs h; rewrite (fund_change U gens g e r h rs). Qed.
(** The whole update is the textbook Metropolis algorithm for the total action, with the proposals in the order in which
    the sites of the two blocks are visited. *)
Theorem C50_metropolis (C : numClosedFieldType) (n m a f : nat) (G : grid) (U : G -> 'I_4 -> 'M[C]_n) (R : G -> 'I_4 -> 'M[C]_m)
    (gens : seq 'M[C]_m) (g : couplings C) (rexp : C -> C) padj uadj pfund ufund (hits : nat) (order : seq G)
    (s : scalars C n m a f G) :
  extent2 G -> (forall x mu, real_matrix (R x mu)) -> (forall x i t c, padj x i t c \is Num.real) -> real_adjoint s ->
  metropolis U R gens g rexp padj uadj pfund ufund hits a f order s
  = Ok (foldl (metropolis_step (energy U R gens g) rexp) (s, 0%N)
         (flatten [seq site_proposals padj uadj pfund ufund hits x
                    | x <- [seq x <- order | ~~ odd_site x] ++ [seq x <- order | odd_site x]])).
Proof.
move=> e r rp rs; rewrite /metropolis !eqxx /= /half_sweep map_cat flatten_cat foldl_cat.
have E b : [seq x <- order | parity x == nat_of_bool b] = [seq x <- order | odd_site x == b].
  by apply: eq_filter => x; rewrite parityE; case: odd_site; case: b.
have E0 := E false; have E1 := E true; rewrite /= in E0 E1; rewrite E0 E1.
have -> : [seq x <- order | odd_site x == false] = [seq x <- order | ~~ odd_site x] by apply: eq_filter => x; case: odd_site.
have -> : [seq x <- order | odd_site x == true] = [seq x <- order | odd_site x] by apply: eq_filter => x; case: odd_site.
have [e1 r1] := sites_ref U gens g rexp uadj pfund ufund hits e r rp [seq x <- order | ~~ odd_site x] (st := (s, 0%N)) rs.
rewrite -e1; congr Ok.
by have [-> _] := sites_ref U gens g rexp uadj pfund ufund hits e r rp [seq x <- order | odd_site x] r1.
Qed.
(** With a wrong number of fields in the configuration the program stops. *)
Theorem C50_exit (C : numClosedFieldType) (n m a f : nat) (G : grid) U R gens g rexp padj uadj pfund ufund hits cfg_a cfg_f order
    (s : scalars C n m a f G) :
  (cfg_a <> a -> metropolis U R gens g rexp padj uadj pfund ufund hits cfg_a cfg_f order s = Exit 109)
  /\ (cfg_a = a -> cfg_f <> f -> metropolis U R gens g rexp padj uadj pfund ufund hits cfg_a cfg_f order s = Exit 107).
Proof.
rewrite /metropolis; split=> [/eqP -> //|-> /eqP ->]; by rewrite eqxx.
Qed.
(** On a lattice with an extent of one site the kinetic coupling contains the field that is changed, and the two changes
    differ. *)
Theorem C50_extent_one_refuted (C : numClosedFieldType) :
  exists (L : lattice) (U : L -> 'I_4 -> 'M[C]_1) (R : L -> 'I_4 -> 'M[C]_0) (g : couplings C) (s s' : scalars C 1 0 0 1 L) x v,
    replace_fund s ord0 x v s' /\ real_adjoint s /\ (forall x mu, unitary (U x mu)) /\
    let K := kinetic U (fun y => fund s (ord0, y)) x in
    energy_fundamental [::] g s' x K ord0 - energy_fundamental [::] g s x K ord0 <> energy U R [::] g s' - energy U R [::] g s.
Proof.
pose L := box 0 0 0 0; pose x : L := (ord0, ord0, ord0, ord0).
have one (y : L) : y = x by case: y => [[[a b] c] d]; rewrite /x !ord1.
exists L, (@one_links C L), (@no_links C L), (g16 C), (Scalars [ffun=> 0] [ffun=> 0]), (Scalars [ffun=> 0] [ffun=> 1%:M]), x, 1%:M.
set s := Scalars _ _; set s' := Scalars _ _.
split; first by split; [rewrite ffunE | split=> // j y; rewrite (one y) (ord1 j) eqxx].
split; first by move=> i y c; rewrite ffunE mxE rpred0.
split; first by move=> y mu; exact: unitary1.
have P0 (t : scalars C 1 0 0 1 L) : \sum_y potential [::] (g16 C) t y = 0 by apply: big1 => y _; exact: no_potential.
rewrite /energy_fundamental !no_potential /energy !P0.
have K0 : kinetic (@one_links C L) (fun y => fund s (ord0, y)) x = 0.
  by apply: big1 => mu _; rewrite !ffunE !mulmx0 subr0 oppr0.
rewrite K0 !vdot0 raddf0 oppr0 !addr0 subrr !big_ord0 !add0r !big_ord1.
rewrite [X in _ - X]big1 => [|mu _]; last by apply: big1 => y _; rewrite big_ord1 ffunE mxE conjC0 mul0r raddf0.
rewrite subr0 (eq_bigr (fun=> 1)) => [|mu _]; last first.
  rewrite (bigD1 x) //= [X in _ + X]big1 => [|y]; last by rewrite (one y) eqxx.
  by rewrite addr0 big_ord1 !ffunE mul1mx !mxE eqxx mulr1n conjC1 mulr1 Re_real // rpred1.
rewrite sumr_const card_ord => /eqP; rewrite eq_sym pnatr_eq0; by [].
Qed.
(** The hypotheses are met: one adjoint and one fundamental field on a 4 x 3 x 2 x 5 lattice, a real value replaced. *)
Example C50_case :
  let s : scalars algCnumClosedField 2 3 1 1 (box 3 2 1 4) := Scalars [ffun=> \col_c c%:R] [ffun=> \col_c 'i] in
  let x : box 3 2 1 4 := (ord_max, ord0, ord0, ord0) in
  extent2 (box 3 2 1 4) /\ real_adjoint s /\ real_vector (\col_(c < 3) (5%:R : algC)) /\
  replace_adj s ord0 x (\col_c 5%:R) (Scalars [ffun q => if q.2 == x then \col_c 5%:R else \col_c c%:R] [ffun=> \col_c 'i]) /\
  adj s (ord0, x) <> \col_c 5%:R.
Proof.
set s := Scalars _ _ => /=; set x := (_, _, _, _); split; first exact: box_extent2.
split; first by move=> i y c; rewrite ffunE mxE realn.
split; first by move=> c; rewrite mxE realn.
split; last by rewrite ffunE => /colP /(_ ord0); rewrite !mxE => /eqP; rewrite eqr_nat.
split; first by rewrite ffunE.
split=> // j y; rewrite !ffunE /= => /negbTE; rewrite (ord1 j) => h; case: ifP => // /eqP e; by rewrite e eqxx in h.
Qed.

(** ** C51: sites of one parity. *)
Theorem C51_parity (G : grid) (x y : G) :
  (forall mu, ~~ odd (ext G mu)) -> parity x = parity y -> ~ neighbours x y.
Proof. by move=> ev e nb; exact: parity_neighbours ev nb e. Qed.
(** The result does not depend on the order in which the sites are visited (random numbers belong to sites). *)
Theorem C51_metropolis (C : numClosedFieldType) (n m a f : nat) (G : grid) (U : G -> 'I_4 -> 'M[C]_n) (R : G -> 'I_4 -> 'M[C]_m)
    gens g rexp padj uadj pfund ufund hits cfg_a cfg_f (order order' : seq G) (s : scalars C n m a f G) :
  (forall mu, ~~ odd (ext G mu)) -> perm_eq order order' ->
  metropolis U R gens g rexp padj uadj pfund ufund hits cfg_a cfg_f order s
  = metropolis U R gens g rexp padj uadj pfund ufund hits cfg_a cfg_f order' s.
Proof.
move=> ev pm; rewrite /metropolis; case: ifP => // _; case: ifP => // _; congr Ok.
have H b st : half_sweep (update_site U R gens g rexp padj uadj pfund ufund hits) order b st
            = half_sweep (update_site U R gens g rexp padj uadj pfund ufund hits) order' b st.
  apply: (foldl_perm (P := fun x => parity x = b)); last first.
  - by move=> y; rewrite mem_filter => /andP[/eqP ->].
  - by rewrite perm_filter.
  by move=> x y st' px py; apply: update_commute; apply: C51_parity => //; rewrite px py.
by rewrite !H.
Qed.
(** Any update of a site that reads and writes only the site itself and reads its neighbours. *)
Theorem C51_any_update (V : eqType) (G : grid) (upd : (G -> V) -> G -> V) (block : nat) (order order' : seq G) (s : G -> V) :
  (forall mu, ~~ odd (ext G mu)) -> perm_eq order order' -> uniq order ->
  (forall x s s', (forall y, y = x \/ neighbours x y -> s y = s' y) -> upd s x = upd s' x) ->
  let step := fun s x => fun y => if y == x then upd s x else s y in
  forall x, half_sweep step order block s x = half_sweep step order' block s x
    /\ half_sweep step order block s x = if (x \in order) && (parity x == block) then upd s x else s x.
Proof.
move=> ev pm un loc step.
suff H : forall l st, uniq l -> (forall x, x \in l -> parity x = block) ->
    forall x, foldl step st l x = if x \in l then upd st x else st x.
  have Q l : uniq l -> forall x, half_sweep step l block s x = if (x \in l) && (parity x == block) then upd s x else s x.
    move=> ul x; rewrite /half_sweep H ?filter_uniq //; first by rewrite mem_filter andbC.
    by move=> y; rewrite mem_filter => /andP[/eqP].
  by move=> x; split; rewrite !Q -?(perm_uniq pm) // (perm_mem pm).
elim=> [|z l IH] st //= /andP[nz ul] Hl x.
rewrite IH //; last by move=> y hy; apply: Hl; rewrite inE hy orbT.
rewrite inE /step; case: (altP (x =P z)) => [->|ne] /=; first by rewrite (negbTE nz).
case: ifP => // hx; apply: loc => y hy; case: (altP (y =P z)) => // e; subst y.
case: hy => [e|nb]; first by rewrite e eqxx in ne.
by case: (C51_parity ev _ nb); rewrite (Hl x) ?(Hl z) // inE ?eqxx // hx orbT.
Qed.
(** On a lattice with an odd extent there are neighbours of equal parity, and the result depends on the order. *)
Theorem C51_odd_refuted (G : grid) (x0 : G) (mu : 'I_4) :
  odd (ext G mu) -> (1 < ext G mu)%N -> exists x y : G, [/\ x <> y, neighbours x y & parity x = parity y].
Proof. exact: odd_neighbours. Qed.
Theorem C51_order_refuted (C : numClosedFieldType) (rexp : C -> C) : (forall z, z <= 0 -> rexp z <= 1) ->
  exists (U : box_grid 2 1 1 1 -> 'I_4 -> 'M[C]_1) (R : box_grid 2 1 1 1 -> 'I_4 -> 'M[C]_0) g padj uadj pfund ufund
         (order order' : seq (box_grid 2 1 1 1)) (s : scalars C 1 0 0 1 (box_grid 2 1 1 1)),
    [/\ perm_eq order (enum (box_grid 2 1 1 1)), perm_eq order' (enum (box_grid 2 1 1 1)) &
      metropolis U R [::] g rexp padj uadj pfund ufund 1 0 1 order s <> metropolis U R [::] g rexp padj uadj pfund ufund 1 0 1 order' s].
Proof.
move=> small.
exists (@one_links C _), (@no_links C _), (g16 C), (@no_adj C _), (@no_adj C _), (fun x _ _ _ => shifts C x), (fun _ _ _ _ => 1).
exists (corner :: far :: rest), (far :: corner :: rest), (slice C); split; [exact: (proj1 order_perm) | exact: (proj2 order_perm) |].
rewrite /metropolis /= => -[] e; exact: (orders_differ small) e.
Qed.
Example C51_case : exists x y : box_grid 3 1 5 7, [/\ x <> y, neighbours x y & parity x <> parity y].
Proof.
pose x : box_grid 3 1 5 7 := (ord0, ord0, ord0, ord0); exists x, (sup d0 x); split; last first.
- by apply: parity_neighbours; [case=> [[|[|[|[|?]]]] h] | exists d0; left].
- by exists d0; left.
by move/esym; apply: box_extent2.
Qed.

(** ** C66: the scalar action is bounded below. *)
Theorem C66_heavy (C : numClosedFieldType) (n m a f : nat) (L : lattice) (U : L -> 'I_4 -> 'M[C]_n) (R : L -> 'I_4 -> 'M[C]_m)
    (gens : seq 'M[C]_m) (g : couplings C) (s : scalars C n m a f L) :
  (forall x mu, unitary (U x mu)) -> (forall x mu, unitary (R x mu)) -> (forall x mu, real_matrix (R x mu)) -> real_adjoint s ->
  24%:R <= mass_adjoint g -> 24%:R <= mass_fundamental g ->
  0 <= lambda_fundamental g -> 0 <= lambda_adjoint g -> 0 <= lambda_mixed g -> 0 <= lambda_8 g ->
  0 <= energy U R gens g s.
Proof. exact: heavy. Qed.
(** Without quartic couplings and with a squared mass below 8 the action of constant fields falls below every bound. *)
Theorem C66_light_refuted (C : numClosedFieldType) (n m a f : nat) (L : lattice) (R : L -> 'I_4 -> 'M[C]_m) (gens : seq 'M[C]_m) (ma mf bound : C) :
  (0 < #|L|)%N -> 0 < mf < 8%:R -> bound \is Num.real ->
  exists s : scalars C n.+1 m a f.+1 L, energy (fun _ _ => 1%:M) R gens (Couplings ma mf 0 0 0 0) s < bound.
Proof. by move=> hL /andP[_ h] hB; have [t [_ H]] := light n a f R gens ma hL h hB; exists (constant L n m a f t). Qed.
Example C66_case : (0 < #|box 3 2 1 4|)%N /\ (0 < (1 : algCnumClosedField)) /\ ((1 : algCnumClosedField) < 8%:R) /\ ((24%:R : algCnumClosedField) <= 25%:R).
Proof. by rewrite ltr01 ltr1n ler_nat; split=> //; apply/card_gt0P; exists (ord0, ord0, ord0, ord0). Qed.

Print Assumptions C50_adjoint.
Print Assumptions C50_fundamental.
Print Assumptions C50_metropolis.
Print Assumptions C50_exit.
Print Assumptions C50_extent_one_refuted.
Print Assumptions C51_parity.
Print Assumptions C51_metropolis.
Print Assumptions C51_any_update.
Print Assumptions C51_odd_refuted.
Print Assumptions C51_order_refuted.
Print Assumptions C66_heavy.
Print Assumptions C66_light_refuted.

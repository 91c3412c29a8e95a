(** Proofs about the gamma tables and the constructor of Gamma.  The tables have finitely many entries, so identities
    between them are decided by comparing all of them. *)
From Coq Require Import ZArith List Lia Bool.
From Verif Require Import GammaModel GammaSpec.
Import ListNotations.

Definition gi_eqb (x y : gi) : bool := (Z.eqb (fst x) (fst y)) && (Z.eqb (snd x) (snd y)).
Lemma gi_eqbP x y : gi_eqb x y = true -> x = y.
Proof.
  destruct x, y. unfold gi_eqb; cbn. rewrite andb_true_iff, !Z.eqb_eq. now intros [-> ->].
Qed.
Definition all4 (f : nat -> bool) : bool := f 0%nat && f 1%nat && f 2%nat && f 3%nat.
Lemma all4P f : all4 f = true -> forall a, (a < 4)%nat -> f a = true.
Proof.
  unfold all4. rewrite !andb_true_iff. intros [[[H0 H1] H2] H3] a Ha.
  do 4 (destruct a as [|a]; [assumption|]). lia.
Qed.
Definition meqb (A B : mat) : bool := all4 (fun a => all4 (fun b => gi_eqb (A a b) (B a b))).
Lemma meqbP A B : meqb A B = true -> meq A B.
Proof.
  intros H a b Ha Hb. apply gi_eqbP. exact (all4P _ (all4P _ H a Ha) b Hb).
Qed.
Lemma mat1 (f g : nat -> mat) : all4 (fun mu => meqb (f mu) (g mu)) = true ->
  forall mu, (mu < 4)%nat -> meq (f mu) (g mu).
Proof. intros H mu Hm. exact (meqbP _ _ (all4P _ H mu Hm)). Qed.
Lemma mat2 (f g : nat -> nat -> mat) : all4 (fun mu => all4 (fun nu => meqb (f mu nu) (g mu nu))) = true ->
  forall mu nu, (mu < 4)%nat -> (nu < 4)%nat -> meq (f mu nu) (g mu nu).
Proof. intros H mu nu Hm Hn. exact (meqbP _ _ (all4P _ (all4P _ H mu Hm) nu Hn)). Qed.
Lemma mat16 (f g : nat -> mat) : forallb (fun k => meqb (f k) (g k)) (seq 0 16) = true ->
  forall k, (k < 16)%nat -> meq (f k) (g k).
Proof. rewrite forallb_forall. intros H k Hk. apply meqbP, H, in_seq. lia. Qed.

Lemma clifford mu nu : (mu < 4)%nat -> (nu < 4)%nat ->
  meq (madd (mmul (gam mu) (gam nu)) (mmul (gam nu) (gam mu)))
      (mscale (if Nat.eqb mu nu then (2, 0) else (0, 0))%Z mone).
Proof. revert mu nu. apply mat2. vm_compute. reflexivity. Qed.
Lemma gam_hermitian mu : (mu < 4)%nat -> meq (mdag (gam mu)) (gam mu).
Proof. revert mu. apply mat1. vm_compute. reflexivity. Qed.
Lemma gam5_hermitian : meq (mdag gam5) gam5.
Proof. apply meqbP. vm_compute. reflexivity. Qed.
Lemma gam5_square : meq (mmul gam5 gam5) mone.
Proof. apply meqbP. vm_compute. reflexivity. Qed.
Lemma gam5_anti mu : (mu < 4)%nat -> meq (mmul gam5 (gam mu)) (mscale (-1, 0)%Z (mmul (gam mu) gam5)).
Proof. revert mu. apply mat1. vm_compute. reflexivity. Qed.
Lemma gam5_product : meq (mmul (mmul (gam 0) (gam 1)) (mmul (gam 2) (gam 3))) gam5.
Proof. apply meqbP. vm_compute. reflexivity. Qed.
Lemma g5idpg_eq mu : (mu < 4)%nat -> meq (at3 gamma5_id_plus_gamma mu) (mmul gam5 (madd mone (gam mu))).
Proof. revert mu. apply mat1. vm_compute. reflexivity. Qed.
Lemma g5idmg_eq mu : (mu < 4)%nat ->
  meq (at3 gamma5_id_minus_gamma mu) (mmul gam5 (madd mone (mscale (-1, 0)%Z (gam mu)))).
Proof. revert mu. apply mat1. vm_compute. reflexivity. Qed.
Lemma g5g_eq mu : (mu < 4)%nat -> meq (at3 gamma5gammamu mu) (mmul gam5 (gam mu)).
Proof. revert mu. apply mat1. vm_compute. reflexivity. Qed.
Lemma sigma_eq mu nu : (mu < 4)%nat -> (nu < 4)%nat ->
  meq (mscale (2, 0)%Z (at4 sigma_table mu nu))
      (mscale (0, 1)%Z (madd (mmul (gam mu) (gam nu)) (mscale (-1, 0)%Z (mmul (gam nu) (gam mu))))).
Proof. revert mu nu. apply mat2. vm_compute. reflexivity. Qed.
Lemma g5sigma_eq mu nu : (mu < 4)%nat -> (nu < 4)%nat ->
  meq (at4 gamma5_sigma mu nu) (mmul gam5 (at4 sigma_table mu nu)).
Proof. revert mu nu. apply mat2. vm_compute. reflexivity. Qed.
Lemma chroma_eq k : (k < 16)%nat -> meq (at3 chroma_table k) (gproduct k).
Proof. revert k. apply mat16. vm_compute. reflexivity. Qed.
Lemma basis_hermitian k : (k < 16)%nat -> meq (mdag (at3 basis_table k)) (at3 basis_table k).
Proof. revert k. apply mat16. vm_compute. reflexivity. Qed.
Lemma basis_square k : (k < 16)%nat -> meq (mmul (at3 basis_table k) (at3 basis_table k)) mone.
Proof. revert k. apply mat16. vm_compute. reflexivity. Qed.
Lemma basis_trace k l : (k < 16)%nat -> (l < 16)%nat ->
  mtrace (mmul (at3 basis_table k) (at3 basis_table l)) = (if Nat.eqb k l then (4, 0) else (0, 0))%Z.
Proof.
  intros Hk Hl. apply gi_eqbP.
  assert (H : forallb (fun k => forallb (fun l => gi_eqb (mtrace (mmul (at3 basis_table k) (at3 basis_table l)))
     (if Nat.eqb k l then (4, 0) else (0, 0))%Z) (seq 0 16)) (seq 0 16) = true) by (vm_compute; reflexivity).
  rewrite forallb_forall in H. specialize (H k). rewrite forallb_forall in H.
  - apply H; apply in_seq; lia.
Qed.
Lemma basis_names : meq (at3 basis_table 0) mone /\ meq (at3 basis_table 1) gam5 /\
  forall mu, (mu < 4)%nat -> meq (at3 basis_table (2 + mu)) (gam mu).
Proof.
  split; [|split]; [apply meqbP; vm_compute; reflexivity| apply meqbP; vm_compute; reflexivity|].
  apply mat1. vm_compute. reflexivity.
Qed.

(** The constructor. *)
Lemma loop_S {S} k (f : nat -> S -> S) s : loop (Datatypes.S k) f s = f k (loop k f s).
Proof. unfold loop. rewrite seq_S, fold_left_app. reflexivity. Qed.
Lemma at_setE A r c v a b : at_set A r c v a b = if (a =? r) && (b =? c) then v else A a b.
Proof. reflexivity. Qed.
Lemma set_row l r s nu (g : nat -> gi) (A : big) a b :
  loop l (fun rho A => at_set A (r + nu) (s + rho) (g rho)) A a b
  = if (a =? r + nu) && (s <=? b) && (b <? s + l) then g (b - s) else A a b.
Proof.
  induction l as [|l IH].
  - destruct (a =? r + nu), (s <=? b) eqn:E; cbn [andb]; try reflexivity.
    rewrite Nat.add_0_r, (proj2 (Nat.ltb_ge b s)); [reflexivity|]. now apply Nat.leb_le.
  - rewrite loop_S, at_setE, IH.
    destruct (a =? r + nu) eqn:Ea; cbn [andb]; [|reflexivity].
    destruct (Nat.eqb_spec b (s + l)).
    + subst. rewrite (proj2 (Nat.leb_le s (s + l))) by lia. rewrite (proj2 (Nat.ltb_lt (s + l) (s + S l))) by lia.
      cbn. f_equal. lia.
    + destruct (Nat.leb_spec s b); cbn [andb]; [|reflexivity].
      destruct (Nat.ltb_spec b (s + l)), (Nat.ltb_spec b (s + S l)); try reflexivity; lia.
Qed.
(** The copying loops read only entries which they do not write. *)
Lemma copy_row l r s nu (A : big) a b : nu < r ->
  loop l (fun rho A => at_set A (r + nu) (s + rho) (A nu rho)) A a b
  = if (a =? r + nu) && (s <=? b) && (b <? s + l) then A nu (b - s) else A a b.
Proof.
  intros Hr. rewrite <- (set_row l r s nu (fun rho => A nu rho) A a b).
  revert a b. induction l as [|l IH]; intros a b; [reflexivity|].
  rewrite !loop_S, !at_setE. destruct ((a =? r + nu) && (b =? s + l)); [|apply IH].
  rewrite IH, set_row. rewrite (proj2 (Nat.eqb_neq nu (r + nu))) by lia. reflexivity.
Qed.
Lemma copy_block k l r s (A : big) a b : k <= r ->
  loop k (fun nu A => loop l (fun rho A => at_set A (r + nu) (s + rho) (A nu rho)) A) A a b
  = if (r <=? a) && (a <? r + k) && (s <=? b) && (b <? s + l) then A (a - r) (b - s) else A a b.
Proof.
  revert a b. induction k as [|k IH]; intros a b Hr.
  - destruct (Nat.leb_spec r a), (Nat.ltb_spec a (r + 0)); cbn; try reflexivity; lia.
  - rewrite loop_S, copy_row by lia. rewrite !IH by lia.
    rewrite (proj2 (Nat.leb_gt r k)) by lia. cbn [andb].
    destruct (Nat.eqb_spec a (r + k)).
    + subst a. rewrite (proj2 (Nat.leb_le r (r + k))) by lia.
      rewrite (proj2 (Nat.ltb_lt (r + k) (r + S k))) by lia.
      rewrite (proj2 (Nat.ltb_ge (r + k) (r + k))) by lia. cbn [andb].
      replace (r + k - r) with k by lia. reflexivity.
    + cbn [andb]. destruct (Nat.leb_spec r a); cbn [andb]; [|reflexivity].
      destruct (Nat.ltb_spec a (r + k)), (Nat.ltb_spec a (r + S k)); try reflexivity; lia.
Qed.
Lemma set_block t a b :
  assign_corner t a b = if (a <? 4) && (b <? 4) then at2 t a b else e0.
Proof.
  unfold assign_corner.
  assert (H : forall k, loop k (fun nu A => loop 4 (fun rho A => at_set A nu rho (at2 t nu rho)) A) (fun _ _ => e0) a b
    = if (a <? k) && (b <? 4) then at2 t a b else e0).
  { induction k as [|k IH]; [reflexivity|]. rewrite loop_S.
    pose proof (set_row 4 k 0 0 (fun rho => at2 t k rho)
      (loop k (fun nu A => loop 4 (fun rho A => at_set A nu rho (at2 t nu rho)) A) (fun _ _ => e0)) a b) as H.
    rewrite !Nat.add_0_r in H. cbn [Nat.add] in H. rewrite H, IH. clear H IH.
    rewrite Nat.sub_0_r. destruct (Nat.eqb_spec a k).
    - subst. rewrite (proj2 (Nat.ltb_lt k (S k))) by lia. rewrite (proj2 (Nat.ltb_ge k k)) by lia. reflexivity.
    - cbn [andb]. destruct (Nat.ltb_spec a k), (Nat.ltb_spec a (S k)); try reflexivity; lia. }
  apply H.
Qed.
Lemma div_block c nu : nu < 4 -> forall d, (d * 4 <=? c * 4 + nu) && (c * 4 + nu <? d * 4 + 4) = (c =? d).
Proof.
  intros Hn d. destruct (Nat.eqb_spec c d).
  - subst. rewrite (proj2 (Nat.leb_le _ _)), (proj2 (Nat.ltb_lt _ _)) by lia. reflexivity.
  - destruct (Nat.leb_spec (d * 4) (c * 4 + nu)), (Nat.ltb_spec (c * 4 + nu) (d * 4 + 4)); try reflexivity; lia.
Qed.
Lemma copy_blocks_eq t n c d nu rho : c < n -> d < n -> nu < 4 -> rho < 4 ->
  copy_blocks n (assign_corner t) (c * 4 + nu) (d * 4 + rho) = if c =? d then at2 t nu rho else e0.
Proof.
  intros Hc Hd Hnu Hrho. unfold copy_blocks.
  set (body := fun c d (A : big) => if (c =? 0) && (d =? 0) then A
    else if c =? d then loop 4 (fun nu A => loop 4 (fun rho A => at_set A (c * 4 + nu) (d * 4 + rho) (A nu rho)) A) A else A).
  (* Entries of any block after the columns d' < m of row block k. *)
  pose (I := fun (k : nat) (A : big) => forall c d nu rho, nu < 4 -> rho < 4 ->
     A (c * 4 + nu) (d * 4 + rho) = if (c =? d) && ((c =? 0) || (c <? k)) then at2 t nu rho else e0).
  assert (Hin : forall m k A, I k A ->
     forall c d nu rho, nu < 4 -> rho < 4 -> loop m (body k) A (c * 4 + nu) (d * 4 + rho)
       = if (c =? d) && ((c =? 0) || (c <? k) || ((c =? k) && (k <? m))) then at2 t nu rho else e0).
  { induction m as [|m IH]; intros k A HI c' d' nu' rho' Hn Hr.
    - cbn. rewrite HI by assumption. rewrite andb_false_r, orb_false_r. reflexivity.
    - rewrite loop_S. specialize (IH k A HI). unfold body at 1.
      destruct (Nat.eqb_spec k 0) as [->|Hk]; cbn [andb].
      + assert (E : forall X : big, (if m =? 0 then X else if 0 =? m then loop 4 (fun nu A => loop 4
            (fun rho A => at_set A (0 * 4 + nu) (m * 4 + rho) (A nu rho)) A) X else X) = X).
        { intros X. rewrite (Nat.eqb_sym 0 m). destruct (m =? 0); reflexivity. }
        rewrite E, IH by assumption.
        destruct (c' =? d'); cbn [andb]; [|reflexivity]. destruct (c' =? 0) eqn:E0; cbn; [reflexivity|].
        reflexivity.
      + destruct (Nat.eqb_spec k m) as [<-|Hm].
        * rewrite copy_block by lia. rewrite <- !andb_assoc, andb_assoc, (div_block c' nu'), (div_block d' rho') by assumption.
          destruct (Nat.eqb_spec c' k) as [->|Hck]; cbn [andb].
          -- destruct (Nat.eqb_spec d' k) as [->|Hdk].
             ++ replace (k * 4 + nu' - k * 4) with (0 * 4 + nu') by lia.
                replace (k * 4 + rho' - k * 4) with (0 * 4 + rho') by lia.
                rewrite IH by assumption. cbn [Nat.eqb andb orb]. rewrite Nat.eqb_refl. cbn [andb].
                rewrite (proj2 (Nat.ltb_lt k (S k))) by lia. rewrite !orb_true_r. reflexivity.
             ++ rewrite IH by assumption. rewrite (proj2 (Nat.eqb_neq k d')) by lia. reflexivity.
          -- rewrite IH by assumption. rewrite (proj2 (Nat.eqb_neq c' k)) by assumption. reflexivity.
        * rewrite IH by assumption.
          destruct (Nat.ltb_spec k m), (Nat.ltb_spec k (S m)); try reflexivity; lia. }
  assert (Hout : forall k, k <= n -> I k (loop k (fun c A => loop n (body c) A) (assign_corner t))).
  { induction k as [|k IH]; intros Hk.
    - intros c' d' nu' rho' Hn Hr. cbn [loop seq fold_left]. rewrite set_block.
      destruct (Nat.eqb_spec c' d') as [<-|Hcd]; cbn [andb].
      + rewrite (proj2 (Nat.ltb_ge c' 0)), orb_false_r by lia. destruct (Nat.eqb_spec c' 0) as [->|Hc0].
        * cbn [Nat.mul Nat.add]. now rewrite (proj2 (Nat.ltb_lt nu' 4)), (proj2 (Nat.ltb_lt rho' 4)) by assumption.
        * rewrite (proj2 (Nat.ltb_ge (c' * 4 + nu') 4)) by lia. reflexivity.
      + destruct (Nat.ltb_spec (c' * 4 + nu') 4), (Nat.ltb_spec (d' * 4 + rho') 4); try reflexivity; lia.
    - rewrite loop_S. intros c' d' nu' rho' Hn Hr. rewrite (Hin n k _ (IH ltac:(lia))) by assumption.
      rewrite (proj2 (Nat.ltb_lt k n)), andb_true_r by lia.
      destruct (c' =? d'); cbn [andb]; [|reflexivity]. destruct (c' =? 0); cbn [orb]; [reflexivity|].
      destruct (Nat.ltb_spec c' k), (Nat.ltb_spec c' (S k)), (Nat.eqb_spec c' k); cbn; try reflexivity; lia. }
  specialize (Hout n (Nat.le_refl n) c d nu rho Hnu Hrho). cbv beta in Hout. refine (eq_trans Hout _).
  rewrite (proj2 (Nat.ltb_lt c n)), orb_true_r, andb_true_r by assumption. reflexivity.
Qed.

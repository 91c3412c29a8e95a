(** Properties C18, C19, C21, C22: configuration files. *)
From Coq Require Import ZArith List Bool Lia ZifyBool.
From Verif Require Import Base ListFacts LayoutModel LayoutSpec LayoutProofs LayoutFacts HaloProps FormatModel FormatSpec FormatProofs.
Import ListNotations.
Open Scope Z_scope.

(** ** C22: XDR *)
Theorem C22_int z rest : is_int32 z ->
  xdr_get_int (xdr_put_int z ++ rest) = Some (z, rest) /\ length (xdr_put_int z) = 4%nat /\ Forall is_byte (xdr_put_int z).
Proof. intro H. split; [exact (get_put_int z rest H)|]. split; [apply be_length|apply be_bytes]. Qed.
Theorem C22_double w rest : is_bits 64 w ->
  xdr_get_double (xdr_put_double w ++ rest) = Some (w, rest) /\ length (xdr_put_double w) = 8%nat /\
  Forall is_byte (xdr_put_double w).
Proof. intro H. split; [exact (get_put_double w rest H)|]. split; [apply be_length|apply be_bytes]. Qed.
Theorem C22_float w rest : is_bits 32 w ->
  xdr_get_float (xdr_put_float w ++ rest) = Some (w, rest) /\ length (xdr_put_float w) = 4%nat /\
  Forall is_byte (xdr_put_float w).
Proof. intro H. split; [exact (get_put_float w rest H)|]. split; [apply be_length|apply be_bytes]. Qed.

(** Sequences of items of mixed kinds. *)
Inductive item := IInt (z : Z) | IDouble (w : Z) | IFloat (w : Z).
Definition item_ok (i : item) : Prop :=
  match i with IInt z => is_int32 z | IDouble w => is_bits 64 w | IFloat w => is_bits 32 w end.
Definition put_item (i : item) : list Z :=
  match i with IInt z => xdr_put_int z | IDouble w => xdr_put_double w | IFloat w => xdr_put_float w end.
(** Reads one item of the same kind as [i]. *)
Definition get_like (i : item) (l : list Z) : option (item * list Z) :=
  match i with
  | IInt _ => match xdr_get_int l with Some (z, r) => Some (IInt z, r) | None => None end
  | IDouble _ => match xdr_get_double l with Some (w, r) => Some (IDouble w, r) | None => None end
  | IFloat _ => match xdr_get_float l with Some (w, r) => Some (IFloat w, r) | None => None end
  end.
Fixpoint get_all (shape : list item) (l : list Z) : option (list item * list Z) :=
  match shape with
  | [] => Some ([], l)
  | i :: s => match get_like i l with
              | None => None
              | Some (x, r) => match get_all s r with Some (xs, r') => Some (x :: xs, r') | None => None end
              end
  end.
Theorem C22_sequence (items : list item) (rest : list Z) : Forall item_ok items ->
  get_all items (flat_map put_item items ++ rest) = Some (items, rest).
Proof.
  induction items as [|i l IH]; intro H; [reflexivity|]. inversion H as [|? ? Hi Hl]; subst.
  cbn [flat_map get_all]. rewrite <- app_assoc.
  destruct i; cbn [put_item get_like item_ok] in *;
    [rewrite (get_put_int _ _ Hi)|rewrite (get_put_double _ _ Hi)|rewrite (get_put_float _ _ Hi)]; now rewrite IH.
Qed.
(** Past the end nothing is read. *)
Theorem C22_end_of_file l :
  ((length l < 4)%nat -> xdr_get_int l = None /\ xdr_get_float l = None) /\ ((length l < 8)%nat -> xdr_get_double l = None).
Proof.
  unfold xdr_get_int, xdr_get_float, xdr_get_double.
  split; intro H; rewrite take_bytes_short by assumption; auto.
Qed.
(** -2, the double 1.0 (pattern 3FF0000000000000) and the float -1.0 (BF800000) as bytes and back. *)
Example C22_case :
  flat_map put_item [IInt (-2); IDouble 4607182418800017408; IFloat 3212836864] =
    [255; 255; 255; 254; 63; 240; 0; 0; 0; 0; 0; 0; 191; 128; 0; 0] /\
  Forall item_ok [IInt (-2); IDouble 4607182418800017408; IFloat 3212836864].
Proof. split; [reflexivity|]. repeat constructor; unfold is_int32, is_bits; cbn; try lia; discriminate. Qed.
Print Assumptions C22_sequence.

(** ** C18: native format *)
Theorem C18_native_round_trip (N : nat) (g1 g2 : geom) (sten1 sten2 : list site) (Ls1 Ls2 : Z -> layout)
    (F : global_field) (u1 : Z -> nfield) (files : Z -> option (list Z)) :
  valid_geom g1 -> valid_geom g2 -> same_lattice g1 g2 -> int_extents g1 -> doubles N F ->
  (forall p, 0 <= p < number_processors g1 -> initialize g1 sten1 (number_processors g1) p = Ok (Ls1 p)) ->
  (forall p, 0 <= p < number_processors g2 -> initialize g2 sten2 (number_processors g2) p = Ok (Ls2 p)) ->
  (forall p s, in_box g1 s -> owned_by g1 p s -> forall mu i j, (mu < 4)%nat -> (i < N)%nat -> (j < N)%nat ->
     u1 p (local_index (Ls1 p) (gidx g1 s)) mu i j = F s mu i j) ->
  (forall p, 0 <= p < number_processors g1 ->
     files p = match native_file N (Ls1 p) (u1 p) with Ok bs => Some bs | _ => None end) ->
  forall r u, 0 <= r < number_processors g2 ->
  exists u', read_native N (Ls2 r) (Some (native_descriptor (Ls1 0))) files u = Ok (true, u') /\
    forall s, in_box g2 s -> (owned_by g2 r s \/ mirrors g2 sten2 r s) ->
    forall mu i j, (mu < 4)%nat -> (i < N)%nat -> (j < N)%nat ->
      u' (local_index (Ls2 r) (gidx g2 s)) mu i j = F s mu i j.
Proof.
  intros Hg1 Hg2 Hs HI HF H1 H2 Hu Hf.
  refine (native_restores N g1 g2 sten1 sten2 Ls1 Ls2 F u1 files Hg1 Hg2 Hs HI HF H1 H2 Hu _).
  intros p Hp. destruct (native_file_ok N g1 sten1 p (Ls1 p) (u1 p) Hg1 Hp (H1 p Hp)) as (bs & E).
  exists bs. split; [exact E|]. now rewrite (Hf p Hp), E.
Qed.
(** Another lattice is refused and the configuration left as it was. *)
Theorem C18_other_lattice_refused N L d files u :
  ~ (d_x d = gx (lgeom L) /\ d_y d = gy (lgeom L) /\ d_z d = gz (lgeom L) /\ d_t d = gt (lgeom L)) ->
  read_native N L (Some d) files u = Ok (false, u).
Proof. exact (native_other_size N L d files u). Qed.
(** When the file of a later process is missing the call reports failure, but the configuration has already
    been overwritten by the files before it. *)
Theorem C18_failed_read_unchanged_refuted :
  exists g L files u u', valid_geom g /\ initialize g reduced_stencil 1 0 = Ok L /\
    read_native 1 L (Some (Descriptor 1 1 1 2 2 1)) files u = Ok (false, u') /\
    u' (local_index L 0) 0%nat 0%nat 0%nat <> u (local_index L 0) 0%nat 0%nat 0%nat.
Proof.
  set (g := Geom 1 1 1 2 1 1 1 1).
  assert (Hg : valid_geom g). { repeat split; cbn; try lia; try (now exists 1); now exists 2. }
  destruct (initialize_ok g reduced_stencil 0 Hg) as (L & E & _); [cbn; lia|].
  exists g, (layouts g reduced_stencil 0),
    (fun p => if p =? 0 then Some (put_site 1 (Site 0 0 0 0) (fun _ _ _ => (7, 8))) else None), (fun _ _ _ _ => (0, 0)).
  eexists. split; [exact Hg|]. split; [apply (layouts_ok g reduced_stencil Hg); cbn; lia|].
  split; [vm_compute; reflexivity|]. vm_compute. discriminate.
Qed.

(** A periodic lattice of 2 x 1 x 1 x 4 sites written by 4 ranks and read by 2, two colours. *)
Example C18_case :
  let g1 := Geom 2 1 1 4 2 1 1 2 in let g2 := Geom 2 1 1 4 1 1 1 2 in
  valid_geom g1 /\ valid_geom g2 /\ same_lattice g1 g2 /\ int_extents g1 /\
  let F := fun s (mu i j : nat) => (1000 + sx s * 10 + st s, Z.of_nat (100 * mu + 10 * i + j)) in
  let u1 := fun p l => F (match global_coordinate (layouts g1 reduced_stencil p) l with Some s => s | None => Site 0 0 0 0 end) in
  let files := fun p => match native_file 2 (layouts g1 reduced_stencil p) (u1 p) with Ok bs => Some bs | _ => None end in
  match read_native 2 (layouts g2 reduced_stencil 1) (Some (native_descriptor (layouts g1 reduced_stencil 0))) files (fun _ _ _ _ => (0, 0)) with
  | Ok (true, u') => u' (local_index (layouts g2 reduced_stencil 1) (gidx g2 (Site 1 0 0 3))) 3%nat 1%nat 0%nat = (1013, 310)
  | _ => False
  end.
Proof.
  cbn zeta. split; [|split; [|split; [|split]]].
  - repeat split; cbn; try lia; try (now exists 1); try (now exists 2).
  - repeat split; cbn; try lia; try (now exists 1); try (now exists 2).
  - repeat split.
  - repeat split; cbn; lia.
  - vm_compute. reflexivity.
Qed.
Print Assumptions C18_native_round_trip.
Print Assumptions C18_failed_read_unchanged_refuted.

(** ** C21: the parallel muenster writer *)
Theorem C21_parallel_stream (data : Type) (words : data -> list Z) (K : nat) (g : geom) (sten : list site)
    (Ls : Z -> layout) (u : Z -> Z -> data) (F : site -> data) (stale : Z -> site -> list Z) :
  valid_geom g ->
  (forall r, 0 <= r < number_processors g -> initialize g sten (number_processors g) r = Ok (Ls r)) ->
  (forall d, length (words d) = K) ->
  (forall r s, in_box g s -> owned_by g r s -> u r (local_index (Ls r) (gidx g s)) = F s) ->
  exists P, (forall r, 0 <= r < number_processors g -> writer_program data words K (Ls r) r (u r) (stale r) = Some (P r)) /\
  exists pending : wstate -> nat,
  forall s, wreach (wstart (number_processors g) P) s ->
    (prog s 0 = [] -> out s = serial_words data words g F /\ forall r, prog s r = [] /\ (r <> 0 -> chan s r = [])) /\
    (prog s 0 <> [] -> exists s', wstep false s s') /\
    (exists rest, serial_words data words g F = out s ++ rest) /\
    (forall b s', wstep b s s' -> (pending s' < pending s)%nat).
Proof.
  intros Hg HL HK Hu.
  destruct (all_rows_spec g) as (rs & Hrs & Hsites & Hruns); [destruct Hg as ((X & _) & _); exact X|].
  rewrite Forall_forall in Hruns.
  exists (P data words K Ls u stale rs). split.
  - intros r Hr. exact (P_program data words K g sten Ls u stale Hg HL rs Hrs r Hr).
  - exists (pending g). intros s R.
    destruct (writer_result data words K g sten Ls u F stale Hg HL HK Hu rs Hrs Hsites Hruns s R) as (A & B & C).
    split; [exact A|]. split; [exact B|]. split; [exact C|]. intros b s' St.
    exact (pending_step data words K g sten Ls u F stale Hg HL Hu rs Hrs Hsites Hruns b s s' R St).
Qed.
(** Row of four sites over two ranks in x: rank 0 writes its two sites, receives the two of rank 1. *)
Example C21_case :
  let g := Geom 4 1 1 1 2 1 1 1 in
  valid_geom g /\
  writer_program Z (fun d => [d]) 1 (layouts g reduced_stencil 0) 0 (fun l => 10 + l) (fun _ => [-7])
    = Some [Emit [10; 11]; Recv 1 2] /\
  writer_program Z (fun d => [d]) 1 (layouts g reduced_stencil 1) 1 (fun l => 20 + l) (fun _ => [-7]) = Some [Send [20; 21]].
Proof.
  cbn zeta. split; [|split; vm_compute; reflexivity].
  repeat split; cbn; try lia; try (now exists 1); try (now exists 2).
Qed.
Print Assumptions C21_parallel_stream.

(** ** C19: muenster format for two colours *)
Section C19.
(** Any kind of doubles and floats for which rounding commutes with changing the sign. *)
Variables (D : Type) (neg : D -> D) (to_float : D -> Z) (of_float : Z -> D).
Hypothesis neg_neg : forall a, neg (neg a) = a.
Hypothesis round_neg : forall a, of_float (to_float (neg a)) = neg (of_float (to_float a)).
Hypothesis float_bits : forall a, is_bits 32 (to_float a).
Notation link := (mat2 D).

(** Written by any process grid (every interleaving of its ranks), read by any other. *)
Theorem C19_su2_round_trip (g1 g2 : geom) (sten1 sten2 : list site) (Ls1 Ls2 : Z -> layout)
    (F : site -> nat -> link) (u1 : Z -> Z -> nat -> link) (stale : Z -> site -> list Z) (trailer : list Z) :
  valid_geom g1 -> valid_geom g2 -> same_lattice g1 g2 ->
  (forall p, 0 <= p < number_processors g1 -> initialize g1 sten1 (number_processors g1) p = Ok (Ls1 p)) ->
  (forall p, 0 <= p < number_processors g2 -> initialize g2 sten2 (number_processors g2) p = Ok (Ls2 p)) ->
  (forall p s, in_box g1 s -> owned_by g1 p s -> u1 p (local_index (Ls1 p) (gidx g1 s)) = F s) ->
  (forall s mu, su2_shape D neg (F s mu)) ->
  exists P, (forall p, 0 <= p < number_processors g1 ->
      writer_program (nat -> link) (site_words D neg to_float) 16 (Ls1 p) p (u1 p) (stale p) = Some (P p)) /\
  forall s0, wreach (wstart (number_processors g1) P) s0 -> prog s0 0 = [] ->
  forall r u, 0 <= r < number_processors g2 ->
  exists u', read_muenster_links (nat -> link) 16 (site_of_words D neg of_float) (Ls2 r)
      (flat_map xdr_put_float (out s0) ++ trailer) u = Ok (u', trailer) /\
    forall s, in_box g2 s -> (owned_by g2 r s \/ mirrors g2 sten2 r s) -> forall mu, (mu < 4)%nat ->
      let m := u' (local_index (Ls2 r) (gidx g2 s)) mu in
      m00 D m = rounded D to_float of_float (m00 D (F s mu)) /\ m01 D m = rounded D to_float of_float (m01 D (F s mu)) /\
      m10 D m = rounded D to_float of_float (m10 D (F s mu)) /\ m11 D m = rounded D to_float of_float (m11 D (F s mu)).
Proof.
  intros Hg1 Hg2 Hs H1 H2 Hu Hsu.
  assert (HK : forall d : nat -> link, length (site_words D neg to_float d) = 16%nat) by reflexivity.
  destruct (C21_parallel_stream (nat -> link) (site_words D neg to_float) 16 g1 sten1 Ls1 u1 F stale Hg1 H1 HK Hu)
    as (P & HP & pend & Q).
  exists P. split; [exact HP|]. intros s0 R Hfin r u Hr.
  destruct (Q s0 R) as (A & _). destruct (A Hfin) as [Eo _]. rewrite Eo.
  replace (serial_words (nat -> link) (site_words D neg to_float) g1 F)
    with (serial_words (nat -> link) (site_words D neg to_float) g2 F)
    by (destruct Hs as (S1 & S2 & S3 & S4); unfold serial_words; now rewrite S1, S2, S3, S4).
  assert (Hw : forall s, Forall (is_bits 32) (site_words D neg to_float (F s))).
  { intro s. unfold site_words, link_words. cbn [flat_map seq app]. repeat constructor; apply float_bits. }
  destruct (read_muenster_spec (nat -> link) (nat -> link) (site_words D neg to_float) 16 (site_of_words D neg of_float)
     g2 sten2 r (Ls2 r) F Hg2 Hr (H2 r Hr) HK Hw trailer u) as (u' & E & B).
  exists u'. split; [exact E|]. intros s Hb Hk mu Hmu. cbn zeta. rewrite (B s Hb Hk).
  exact (su2_round_trip D neg to_float of_float (F s) mu Hmu neg_neg round_neg (Hsu s mu)).
Qed.
(** Whatever four numbers are read, the link has the shape of an SU(2) matrix times a real number. *)
Theorem C19_read_shape a b c d : su2_shape D neg (link_of_words D neg of_float a b c d).
Proof. exact (su2_always_shape D neg of_float a b c d neg_neg). Qed.
End C19.

(** Trailer: read back as written for a kappa that is not negative. *)
Theorem C19_trailer plaq beta kappa sweep g : float_negative kappa = false -> is_int32 sweep ->
  is_int32 (gx g) -> is_int32 (gy g) -> is_int32 (gz g) -> is_int32 (gt g) ->
  read_trailer (trailer_words plaq beta kappa sweep g) = TrailerRead plaq beta kappa 1 sweep (gx g) (gy g) (gz g) (gt g) /\
  forall me, muenster_success me g (read_trailer (trailer_words plaq beta kappa sweep g)) = Ok true.
Proof.
  intros Hk Hs X Y Z' T. rewrite (trailer_ok plaq beta kappa sweep g Hk Hs X Y Z' T). split; [reflexivity|].
  intro me. unfold muenster_success. rewrite !Z.eqb_refl. destruct (me =? 0); reflexivity.
Qed.
(** A configuration written with any negative kappa (allowed: the sign of the mass term) cannot be read
    back: the reader compares extents it never read. *)
Theorem C19_negative_kappa_refuted plaq beta kappa sweep g : float_negative kappa = true ->
  read_trailer (trailer_words plaq beta kappa sweep g) = Uninitialised.
Proof. exact (trailer_negative plaq beta kappa sweep g). Qed.
(** A file of another lattice makes rank 0 report failure and every other rank success: the ranks go
    different ways. *)
Theorem C19_ranks_agree_refuted plaq beta kappa n sweep ex ey ez et g me :
  me <> 0 -> ~ (ex = gx g /\ ey = gy g /\ ez = gz g /\ et = gt g) ->
  muenster_success 0 g (TrailerRead plaq beta kappa n sweep ex ey ez et) = Ok false /\
  muenster_success me g (TrailerRead plaq beta kappa n sweep ex ey ez et) = Ok true.
Proof.
  intros Hme H. unfold muenster_success. cbn [Z.eqb]. split.
  - f_equal. destruct (Z.eqb_spec ex (gx g)); [|reflexivity]. destruct (Z.eqb_spec ey (gy g)); [|reflexivity].
    destruct (Z.eqb_spec ez (gz g)); [|reflexivity]. destruct (Z.eqb_spec et (gt g)); [|reflexivity]. tauto.
  - destruct (Z.eqb_spec me 0); [contradiction|reflexivity].
Qed.
(** Integers with a sign-magnitude "float": the assumptions of C19 are met and the entries come back. *)
Definition ex_to (z : Z) : Z := Z.abs z mod 2 ^ 31 + (if z <? 0 then 2 ^ 31 else 0).
Definition ex_of (w : Z) : Z := if w <? 2 ^ 31 then w else 2 ^ 31 - w.
Example C19_case :
  (forall a, Z.opp (Z.opp a) = a) /\ (forall a, ex_of (ex_to (- a)) = - ex_of (ex_to a)) /\
  (forall a, is_bits 32 (ex_to a)) /\
  let m := Mat2 Z (3, -4) (-5, 12) (5, 12) (3, 4) in
  su2_shape Z Z.opp m /\
  site_of_words Z Z.opp ex_of (site_words Z Z.opp ex_to (fun _ => m)) 2 = m.
Proof.
  split; [intro; lia|].
  assert (B : forall a, 0 <= Z.abs a mod 2 ^ 31 < 2 ^ 31) by (intro; apply Z.mod_pos_bound; lia).
  split; [|split].
  - intro a. unfold ex_of, ex_to. rewrite Z.abs_opp. specialize (B a). set (k := Z.abs a mod 2 ^ 31) in *.
    assert (Hz : a = 0 -> k = 0) by (intros ->; reflexivity).
    change (2 ^ 31) with 2147483648 in *. clearbody k. 
    destruct (Z.ltb_spec (-a) 0), (Z.ltb_spec a 0); try lia;
    repeat match goal with |- context[if ?x <? ?y then _ else _] => destruct (Z.ltb_spec x y) end; lia.
  - intro a. unfold is_bits, ex_to. specialize (B a). change (2 ^ 31) with 2147483648 in *. change (2 ^ 32) with 4294967296.
    destruct (a <? 0); lia.
  - split; [split; reflexivity|]. vm_compute. reflexivity.
Qed.
(** kappa = 0.125 (float pattern 3E000000) on a 4^3 x 8 lattice, sweep 17; and kappa = -0.125. *)
Example C19_trailer_case :
  float_negative 1040187392 = false /\ float_negative 3187671040 = true /\
  read_trailer (trailer_words 0 0 1040187392 17 (Geom 4 4 4 8 1 1 1 1)) = TrailerRead 0 0 1040187392 1 17 4 4 4 8.
Proof. vm_compute. repeat split. Qed.
Print Assumptions C19_su2_round_trip.
Print Assumptions C19_trailer.
Print Assumptions C19_negative_kappa_refuted.

(** Link colouring (pure_gauge/Checkerboard.cpp) and the sweeps that use it
    (pure_gauge/PureGaugeUpdater.cpp, PureGaugeOverrelaxation.cpp), for one process: every site is local and
    sup, sdn are those of the whole periodic lattice. *)
From Coq Require Import ZArith List Bool.
From Verif Require Import Base LayoutModel.
Import ListNotations.
Open Scope Z_scope.

(** A link: site index and direction. *)
Definition link := (Z * nat)%type.
Definition link_eqb (a b : link) : bool := (fst a =? fst b) && Nat.eqb (snd a) (snd b).
Definition lupd {A} (f : link -> A) (a : link) (v : A) : link -> A := fun b => if link_eqb b a then v else f b.

(** All links in the order of the loops: site outer, mu inner (Checkerboard.cpp 27-28, 122-123, 177-178). *)
Definition all_links (g : geom) : list link :=
  flat_map (fun s => map (fun mu => (s, mu)) (seq 0 4)) (zrange (global_volume g)).

(** Checkerboard.cpp 33-97 and 271-293: the links that (site,mu) is compared with, for one nu. *)
Definition compared (g : geom) (site : Z) (mu nu : nat) : list link :=
  let sup := global_sup g in let sdn := global_down g in
  [ (site, nu);
    (sdn site mu, mu);
    (sdn site mu, nu);
    (sup site mu, mu);
    (sup site mu, nu);
    (sup (sup site mu) mu, nu);
    (sdn (sdn site nu) nu, mu);
    (sdn (sdn site nu) nu, nu);
    (sup (sdn (sdn site nu) nu) mu, nu);
    (sdn site nu, mu);
    (sdn site nu, nu);
    (sdn (sdn site mu) nu, mu);
    (sdn (sdn site mu) nu, nu);
    (sup (sdn site nu) mu, mu);
    (sup (sdn site nu) mu, nu);
    (sdn (sup (sup site mu) mu) nu, nu);
    (sup site nu, mu);
    (sup site nu, nu);
    (sup (sdn site mu) nu, mu);
    (sup (sup site mu) nu, mu);
    (sup (sup site mu) nu, nu);
    (sup (sup site nu) nu, mu) ].
(** The loop over nu, without nu = mu (29-30). *)
Definition others (mu : nat) : list nat := filter (fun nu => negb (Nat.eqb nu mu)) (seq 0 4).
Definition neighbours (g : geom) (l : link) : list link :=
  flat_map (compared g (fst l) (snd l)) (others (snd l)).

(** addValue, 216-230. *)
Fixpoint add_value (l : list Z) (value : Z) : list Z :=
  match l with
  | [] => [value]
  | i :: r => if i =? value then l else if i >? value then value :: l else i :: add_value r value
  end.
(** getValue, 232-240. *)
Fixpoint get_value_from (tmp : Z) (l : list Z) : Z :=
  match l with [] => tmp | i :: r => if negb (tmp =? i) then tmp else get_value_from (tmp + 1) r end.
Definition get_value (l : list Z) : Z := get_value_from 0 l.

(** State of the constructor: colours and forbidden colours of each link. *)
Record cstate := CS { colour : link -> Z; forbidden : link -> list Z }.
(** One comparison, 34-35: updateEqual 242-255 or updateDifferent 257-262. The arguments of updateEqual are
    references, and the two links may be the same one: each step reads what the steps before it wrote. *)
Definition compare_links (a : link) (st : cstate) (b : link) : cstate :=
  if colour st a =? colour st b then
    let f1 := lupd (forbidden st) a (add_value (forbidden st a) (colour st b)) in
    let c1 := lupd (colour st) a (get_value (f1 a)) in
    let f2 := lupd f1 b (add_value (f1 b) (c1 a)) in
    CS c1 f2
  else
    let f1 := lupd (forbidden st) b (add_value (forbidden st b) (colour st a)) in
    let f2 := lupd f1 a (add_value (f1 a) (colour st b)) in
    CS (colour st) f2.
(** 27-101: one round over all links. *)
Definition turn (g : geom) (st : cstate) (a : link) : cstate := fold_left (compare_links a) (neighbours g a) st.
Definition round (g : geom) (st : cstate) : cstate := fold_left (turn g) (all_links g) st.
(** checkCorrectness, 264-304. *)
Definition check_correctness (g : geom) (colour : link -> Z) : Z :=
  Z.of_nat (length (filter (fun p => colour (fst p) =? colour (snd p))
    (flat_map (fun a => map (fun b => (a, b)) (neighbours g a)) (all_links g)))).
(** 15-24 and 102-104: at most three rounds, as long as the check fails. *)
Definition cinit : cstate := CS (fun _ => 0) (fun _ => [0]).
Fixpoint rounds (n : nat) (g : geom) (st : cstate) : cstate :=
  match n with
  | O => st
  | S n => if check_correctness g (colour st) =? 0 then st else rounds n g (round g st)
  end.
Definition build (g : geom) : link -> Z := colour (rounds 3 g cinit).
(** The warning of 111-112: the constructor does not refuse an incorrect colouring. *)
Definition warned (g : geom) : bool := negb (check_correctness g (build g) =? 0).

(** statistics, 117-194: the distinct colours in order of appearance; their number is the number of loops; the lists of
    links per colour are stored in an array of that size indexed by the colour. *)
Fixpoint distinct (seen : list Z) (l : list Z) : list Z :=
  match l with
  | [] => seen
  | c :: r => if existsb (Z.eqb c) seen then distinct seen r else distinct (seen ++ [c]) r
  end.
Definition number_loops (g : geom) (colour : link -> Z) : Z := Z.of_nat (length (distinct [] (map colour (all_links g)))).
Definition statistics (g : geom) (colour : link -> Z) : outcome (Z * list (list link)) :=
  let n := number_loops g colour in
  if forallb (fun l => (0 <=? colour l) && (colour l <? n)) (all_links g)
  then Ok (n, map (fun c => filter (fun l => colour l =? c) (all_links g)) (zrange n))
  else UB.
(** The loops over colours of PureGaugeUpdater.cpp 63-80 and PureGaugeOverrelaxation.cpp 76-92: for each colour below the number of
    loops, all links whose colour is that one (getColor, not the lists); the links in the order of the updates. *)
Definition sweep_links (g : geom) (colour : link -> Z) : list link :=
  flat_map (fun c => filter (fun l => colour l =? c) (all_links g)) (zrange (number_loops g colour)).

(** Links read by the staple of (site,mu): actions/WilsonGaugeAction.cpp 15-16. *)
Definition wilson_reads (g : geom) (site : Z) (mu nu : nat) : list link :=
  let sup := global_sup g in let sdn := global_down g in
  [ (sup site mu, nu); (sup site nu, mu); (site, nu);
    (sup (sdn site nu) mu, nu); (sdn site nu, mu); (sdn site nu, nu) ].
(** actions/ImprovedGaugeAction.cpp 15-23. *)
Definition improved_reads (g : geom) (site : Z) (mu nu : nat) : list link :=
  let sup := global_sup g in let sdn := global_down g in
  wilson_reads g site mu nu ++
  [ (sup site mu, mu); (sup (sup site mu) mu, nu); (sup (sup site mu) nu, mu); (sup site nu, mu); (site, nu);
    (sup site mu, nu); (sup site nu, mu); (sup (sdn site mu) nu, mu); (sdn site mu, nu); (sdn site mu, mu);
    (sup site mu, mu); (sdn (sup (sup site mu) mu) nu, nu); (sup (sdn site nu) mu, mu); (sdn site nu, mu); (sdn site nu, nu);
    (sup (sdn site nu) mu, nu); (sdn site nu, mu); (sdn (sdn site mu) nu, mu); (sdn (sdn site mu) nu, nu); (sdn site mu, mu);
    (sup site mu, nu); (sup (sup site mu) nu, nu); (sup (sup site nu) nu, mu); (sup site nu, nu); (site, nu);
    (sup (sdn site nu) mu, nu); (sup (sdn (sdn site nu) nu) mu, nu); (sdn (sdn site nu) nu, mu); (sdn (sdn site nu) nu, nu); (sdn site nu, nu) ].
Definition staple_reads (improved : bool) (g : geom) (l : link) : list link :=
  flat_map (if improved then improved_reads g (fst l) (snd l) else wilson_reads g (fst l) (snd l)) (others (snd l)).

(** The update of one link (PureGaugeUpdater.cpp updateLink, PureGaugeOverrelaxation.cpp updateLink): a new value
    computed from the link itself, the links of its staple and random numbers; [f l old values] leaves the
    formula open and lets every link have its own random numbers. *)
Section Update.
Variable V : Type.
Variable f : link -> V -> list V -> V.
Variable reads : link -> list link.
Definition update_link (u : link -> V) (l : link) : link -> V := lupd u l (f l (u l) (map u (reads l))).
Definition update_links (ls : list link) (u : link -> V) : link -> V := fold_left update_link ls u.
(** The same updates by concurrent threads ("omp parallel for"): each job reads its own link and the links of its
    staple one at a time and then writes its link; the steps of different jobs interleave in any order. *)
Record job := Job { jlink : link; jgot : list V; jleft : list link }.
Definition start_job (l : link) : job := Job l [] (l :: reads l).
Inductive jstep : (link -> V) * list job -> (link -> V) * list job -> Prop :=
| JRead u j1 j2 l got a left :
    jstep (u, j1 ++ Job l got (a :: left) :: j2) (u, j1 ++ Job l (got ++ [u a]) left :: j2)
| JWrite u j1 j2 l got v0 :
    jstep (u, j1 ++ Job l (v0 :: got) [] :: j2) (lupd u l (f l v0 got), j1 ++ j2).
Inductive jsteps : (link -> V) * list job -> (link -> V) * list job -> Prop :=
| JRefl s : jsteps s s
| JTrans s t r : jstep s t -> jsteps t r -> jsteps s r.
End Update.

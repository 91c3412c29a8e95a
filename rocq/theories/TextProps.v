(** Theorems C13, C14, C15 and C17: configuration files, list options, sweep schedule, retry of reads. *)
From Coq Require Import ZArith List Bool Ascii String Lia.
From Verif Require Import Base TextModel TextSpec TextProofs.
Import ListNotations.
Open Scope Z_scope.

(** ** C13: configuration lines *)
Theorem C13_line (d : table) (l : text) :
  (comment l \/ blank l -> read_line d l = Ok d) /\
  (forall n v, assigns l n v -> exists d', read_line d l = Ok d' /\ d' n = (match d n with Some _ => Some v | None => None end) /\
      (forall m, m <> n -> d' m = d m)) /\
  (~ comment l -> ~ blank l -> (forall n v, ~ assigns l n v) -> read_line d l = Exit 77).
Proof. exact (config_line d l). Qed.
Lemma field_char_dec c : {field_char c} + {~ field_char c}.
Proof. apply in_dec, ascii_dec. Qed.
Ltac is_field := apply word_char_spec; reflexivity.
Ltac is_gap := let c := fresh in let H := fresh in intros c H;
  repeat (destruct H as [<-|H]; [rewrite <- word_char_spec; discriminate|]); destruct H.
Ltac is_word := split; [discriminate|]; let c := fresh in let H := fresh in intros c H;
  repeat (destruct H as [<-|H]; [split; [is_field|discriminate]|]); destruct H.
Example C13_line_case : assigns (txt " be ta =  1.5  ") (txt "beta") (txt "1.5") /\ comment (txt "# beta = 3") /\ blank (txt "  ") /\
  (forall d, read_line d (txt "a = 1 # two") = Exit 77).
Proof.
  split.
  - split; [intros [r H]; discriminate|]. exists (txt "beta=1.5"). split; [now apply unspaced_spec|]. split; [is_word|].
    right. split; [is_word|]. exists [], (txt "="), []. repeat split; try is_gap; discriminate.
  - split; [now eexists|]. split; [intros c [<-|[<-|[]]]; auto|]. reflexivity.
Qed.
Print Assumptions C13_line.

Theorem C13_file (d : table) (ls : list text) :
  ((exists d', read_lines d ls = Ok d') <-> (forall l, In l ls -> comment l \/ blank l \/ exists n v, assigns l n v)) /\
  (~ (exists d', read_lines d ls = Ok d') -> read_lines d ls = Exit 77) /\
  (forall d' n, read_lines d ls = Ok d' ->
     (d n = None -> d' n = None) /\
     ((forall l v, In l ls -> ~ assigns l n v) -> d' n = d n) /\
     (forall l1 l l2 v, ls = l1 ++ l :: l2 -> assigns l n v -> (forall l' v', In l' l2 -> ~ assigns l' n v') ->
        d n <> None -> d' n = Some v)).
Proof. exact (config_file d ls). Qed.
(** beta is set twice, kappa once, gamma is unknown. *)
Example C13_file_case :
  let d := set_option (set_option (fun _ => None) (txt "beta") (txt "5")) (txt "kappa") (txt "0.1") in
  let f := (txt "#comment" ++ [chr 10] ++ txt "beta = 1" ++ [chr 10; chr 10] ++ txt "gamma=7" ++ [chr 10] ++ txt "beta=2" ++ [chr 10] ++ txt "kappa :0.2")%list in
  match read_file d f with
  | Ok d' => d' (txt "beta") = Some (txt "2") /\ d' (txt "gamma") = None /\ d' (txt "kappa") = Some (txt "0.1") /\ d' (txt "kappa:0.2") = None
  | _ => False end.
Proof. vm_compute. auto. Qed.
Print Assumptions C13_file.

Theorem C13_lines_of_file (ls : list text) : (forall l, In l ls -> ~ In (ascii_of_nat 10) l) ->
  getlines (flat_map (fun l => l ++ [ascii_of_nat 10]) ls) = ls.
Proof. exact (getlines_joined ls). Qed.
Example C13_lines_of_file_case : getlines (txt "ab" ++ [chr 10; chr 10] ++ txt "c" ++ [chr 10])%list = [txt "ab"; []; txt "c"].
Proof. reflexivity. Qed.
Print Assumptions C13_lines_of_file.

Theorem C13_spaces (d : table) (l l' b : text) : ~ comment l -> ~ comment l' -> unspaced l b -> unspaced l' b -> read_line d l = read_line d l'.
Proof. exact (spaces_irrelevant d l l' b). Qed.
Example C13_spaces_case : unspaced (txt " a = 1") (txt "a=1") /\ unspaced (txt "a= 1  ") (txt "a=1") /\ ~ comment (txt " a = 1") /\ ~ comment (txt "a= 1  ").
Proof. repeat split; try (now apply unspaced_spec); intros [r H]; discriminate. Qed.
Print Assumptions C13_spaces.

(** A '#' inside a line: after a value and before a word it makes a third field, and the program stops. *)
Theorem C13_inline_comment_stops (d : table) (n v w : text) : word n -> word v -> word w ->
  read_line d (n ++ txt " = " ++ v ++ txt " # " ++ w)%list = Exit 77.
Proof. exact (inline_comment d n v w). Qed.
Example C13_inline_comment_case : word (txt "beta") /\ word (txt "1.0") /\ word (txt "coupling").
Proof. split; [is_word|]. split; is_word. Qed.
Print Assumptions C13_inline_comment_stops.

(** A comment sign after a space is not a comment: " #beta" sets beta to the empty value. *)
Theorem C13_indented_comment (d : table) (n : text) : word n -> d n <> None ->
  exists d', read_line d (txt " #" ++ n)%list = Ok d' /\ d' n = Some [].
Proof. exact (indented_comment d n). Qed.
Example C13_indented_comment_case : word (txt "beta") /\ set_option (fun _ => None) (txt "beta") (txt "5") (txt "beta") <> None.
Proof. split; [is_word|discriminate]. Qed.
Print Assumptions C13_indented_comment.

(** ** C14: list options *)
Theorem C14_list_option :
  (forall p es rest, ~ In "{"%char p -> es <> [] -> (forall e, In e es -> element e) ->
     parse_list (p ++ "{"%char :: joined es ++ "}"%char :: rest) = Ok es) /\
  (forall v, (~ In "{"%char v <-> parse_list v = Exit 1)) /\
  (forall p es last, ~ In "{"%char p -> (forall e, In e (es ++ [last]) -> element e) -> joined (es ++ [last]) <> [] ->
     parse_list (p ++ "{"%char :: joined (es ++ [last])) = Ok es) /\
  (forall p, ~ In "{"%char p -> parse_list (p ++ ["{"%char]) = UB).
Proof. exact list_option. Qed.
Example C14_case :
  element (txt "{Plaquette,1,1}") /\ element (txt "(1.0,2.0)") /\
  parse_list (txt "{{Plaquette,1,1},(1.0,2.0),,x}") = Ok [txt "{Plaquette,1,1}"; txt "(1.0,2.0)"; []; txt "x"] /\
  parse_list (txt "{a,b,c") = Ok [txt "a"; txt "b"] /\ parse_list (txt "a,b}") = Exit 1.
Proof.
  split.
  { apply (bal_group _ "{"%char "}"%char (txt "Plaquette,1,1") []); [left; auto|left; auto| |constructor].
    repeat constructor; try (unfold opening, closing; intros [|]; discriminate); auto. }
  split.
  { apply (bal_group _ "("%char ")"%char (txt "1.0,2.0") []); [right; auto|right; auto| |constructor].
    repeat constructor; try (unfold opening, closing; intros [|]; discriminate); auto. }
  vm_compute. auto.
Qed.
Print Assumptions C14_list_option.

(** ** C15: the schedule *)
Theorem C15_schedule (items : list spec_item) (rest : text) (n : nat) :
  items <> [] -> (forall i, In i items -> good_item sweep_names i /\ numeral_value (it_steps i) <> 0) ->
  exists sws tr, load_sweeps ("{"%char :: joined (map item_text items) ++ "}"%char :: rest) = Ok sws /\
    simulate n sws = Ok tr /\
    forall j i, nth_error items j = Some i ->
      Z.of_nat (count_occ Nat.eq_dec tr j) = numeral_value (it_calls i) * ceil_div (Z.of_nat n) (numeral_value (it_steps i)).
Proof. exact (schedule items rest n). Qed.
Example C15_case :
  let items := [Item (txt "PureGaugeCM") (txt "1") (txt "2"); Item (txt "Plaquette") (txt "3") (txt "1")] in
  (forall i, In i items -> good_item sweep_names i /\ numeral_value (it_steps i) <> 0) /\
  ("{"%char :: joined (map item_text items) ++ txt "}")%list = txt "{{PureGaugeCM,1,2},{Plaquette,3,1}}" /\
  obind (load_sweeps (txt "{{PureGaugeCM,1,2},{Plaquette,3,1}}")) (simulate 4) = Ok [0; 0; 1; 0; 0; 0; 0; 0; 0; 1]%nat.
Proof.
  split; [|vm_compute; auto].
  assert (P : forall l, forallb (fun c => negb (existsb (Ascii.eqb c) (txt "{}(),"))) l = true -> plain l).
  { intros l H c Hc. rewrite forallb_forall in H. specialize (H c Hc). unfold opening, closing.
    split; [|split]; [intros [-> | ->]|intros [-> | ->]|intros ->]; discriminate. }
  assert (N : forall l, l <> [] -> forallb (fun c => existsb (Ascii.eqb c) (txt "0123456789")) l = true -> numeral l).
  { intros l Hl H. split; auto. intros c Hc. rewrite forallb_forall in H. specialize (H c Hc).
    apply existsb_exists in H as (d & Hd & E). apply Ascii.eqb_eq in E as ->. exact Hd. }
  intros i [<-|[<-|[]]]; (split; [|vm_compute; discriminate]); (split; [now apply P|]); (split; [vm_compute; tauto|]);
    (split; [now apply N|]); (split; [now apply N|]); vm_compute; auto.
Qed.
Print Assumptions C15_schedule.

(** At sweep number [s] each sweep whose step divides [s] runs its calls, in the order of the list. *)
Theorem C15_one_cycle (sws : list sweep) (s : Z) : (forall sw, In sw sws -> sw_jump sw <> 0) ->
  call_all s 0 sws = Ok (flat_map (fun p => if s mod sw_jump (snd p) =? 0 then repeat (fst p) (Z.to_nat (sw_times (snd p))) else [])
                         (combine (seq 0 (List.length sws)) sws)).
Proof. exact (one_cycle sws s). Qed.
Example C15_one_cycle_case : call_all 6 0 [Sweep (txt "Plaquette") 3 2; Sweep (txt "Output") 4 1; Sweep (txt "ReUnit") 1 1] = Ok [0; 0; 2]%nat.
Proof. reflexivity. Qed.
Print Assumptions C15_one_cycle.

Theorem C15_zero_step_undefined (sws : list sweep) (n : nat) : (0 < n)%nat -> (exists sw, In sw sws /\ sw_jump sw = 0) -> simulate n sws = UB.
Proof. exact (zero_step sws n). Qed.
Example C15_zero_step_case : obind (load_sweeps (txt "{{Plaquette,0,1}}")) (simulate 1) = UB.
Proof. reflexivity. Qed.
Print Assumptions C15_zero_step_undefined.

(** The default value of warm_up_sweeps (main.cpp 134) names a sweep that does not exist: without that option in the
    configuration file the program stops before the first sweep, whatever the number of sweeps. *)
Theorem C15_default_warm_up_refuted :
  load_sweeps (txt "{{TestCommunications,1,1},{PureGaugeCM,1,1},{Plaquette,1,1}}") = Exit 1.
Proof. reflexivity. Qed.
Print Assumptions C15_default_warm_up_refuted.

(** ** C17: retry of reads *)
Theorem C17_read_next (readable : Z -> bool) (step c : Z) :
  (forall k, (k < 99)%nat -> readable (c + Z.of_nat k * step) = true -> (forall k', (k' < k)%nat -> readable (c + Z.of_nat k' * step) = false) ->
     read_next readable step c = Ok (c + Z.of_nat k * step, c + Z.of_nat (S k) * step)) /\
  ((forall k, (k < 99)%nat -> readable (c + Z.of_nat k * step) = false) -> read_next readable step c = Exit 73).
Proof. exact (read_next_spec readable step c). Qed.
Example C17_case : read_next (fun n => n =? 7) 2 1 = Ok (7, 9) /\ read_next (fun n => n =? 8) 2 1 = Exit 73.
Proof. vm_compute. auto. Qed.
Print Assumptions C17_read_next.

Theorem C17_read_many (readable : Z -> bool) (step : Z) (n : nat) (c : Z) (out : list Z) : read_many readable step n c = Ok out ->
  List.length out = n /\
  exists ks, List.length ks = n /\ out = map (fun k => c + Z.of_nat k * step) ks /\
    (forall k, In k ks -> readable (c + Z.of_nat k * step) = true) /\
    (forall i j a b, (i < j)%nat -> nth_error ks i = Some a -> nth_error ks j = Some b -> (a < b)%nat) /\
    (forall k, ~ In k ks -> (exists m, In m ks /\ (k < m)%nat) -> readable (c + Z.of_nat k * step) = false).
Proof. exact (read_many_spec readable step n c out). Qed.
Example C17_many_case : read_many (fun n => negb (n mod 5 =? 0)) 2 5 1 = Ok [1; 3; 7; 9; 11].
Proof. reflexivity. Qed.
Print Assumptions C17_read_many.

(** The claim "the program never stops after a successful read" fails: a read that succeeds at the hundredth attempt is
    followed by exit(73). *)
Theorem C17_stop_after_success_refuted (step c : Z) : step <> 0 ->
  let readable n := n =? c + 99 * step in
  readable (c + 99 * step) = true /\ read_next readable step c = Exit 73.
Proof. exact (stop_after_success step c). Qed.
Example C17_refuted_case : read_next (fun n => n =? 100) 1 1 = Exit 73 /\ read_next (fun n => n =? 99) 1 1 = Ok (99, 100).
Proof. vm_compute. auto. Qed.
Print Assumptions C17_stop_after_success_refuted.

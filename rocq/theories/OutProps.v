(** Theorem C16: output documents. *)
From Coq Require Import ZArith List Bool Ascii String Lia.
From Verif Require Import Base TextModel TextSpec OutModel OutSpec OutProofs.
Import ListNotations.

Theorem C16_xml_document (files : str -> option str) (ops : list out_op) :
  values_ok xml_value ops -> (forall n, nested (meaning n n ops)) -> (forall k, file_ok Xml (files k)) ->
  exists o, exec_all Xml (fresh files) (ops ++ [Print]) = Ok o /\
   forall n, xml_name n -> files n = None -> used_before ops n -> exists f, ofiles o n = Some f /\
     read_xml false [] f = Begin (lit "root") :: meaning n n ops ++ [End (lit "root")] /\ nested (read_xml false [] f).
Proof. exact (xml_balanced files ops). Qed.
Example C16_xml_case :
  let a := lit "plaquette" in
  let ops := [Push a; Write a (lit "0.5"); Print; Write a (lit "0.25"); Push a; Pop a; Pop a] in
  (values_ok xml_value ops /\ forall n, nested (meaning n n ops)) /\
  match exec_all Xml (fresh (fun _ => None)) (ops ++ [Print]) with
  | Ok o => match ofiles o a with
     | Some f => read_xml false [] f = [Begin (lit "root"); Begin a; Value (lit "0.5"); Value (lit "0.25"); Begin a; End a; End a; End (lit "root")]
     | None => False end
  | _ => False end.
Proof.
  intros a ops. split; [|vm_compute; reflexivity]. split.
  - intros n v [H|[H|[H|[H|[H|[H|[H|[]]]]]]]]; try discriminate; injection H as <- <-; (split; [discriminate|]); intros c Hc;
      repeat (destruct Hc as [<-|Hc]; [split; [discriminate|reflexivity]|]); destruct Hc.
  - intros n. unfold meaning, ops. cbn [flat_map call_tokens app]. destruct (list_eq_dec ascii_dec a n) as [<-|]; cbn [app]; [|constructor].
    apply (nested_group a [Value (lit "0.5"); Value (lit "0.25"); Begin a; End a] []); [|constructor].
    do 2 constructor. apply (nested_group a [] []); constructor.
Qed.
Print Assumptions C16_xml_document.

(** In the txt format the groups of the calls are nested in the same way, but the brace that opens the document is never
    closed: the document as a whole is never balanced. *)
Theorem C16_txt_document (files : str -> option str) (ops : list out_op) :
  values_ok txt_value ops -> (forall n, nested (meaning [] n ops)) ->
  exists o, exec_all Txt (fresh files) (ops ++ [Print]) = Ok o /\
   forall n, files n = None -> used_before ops n -> exists f, ofiles o n = Some f /\
     read_txt [] f = Begin [] :: meaning [] n ops /\ ~ nested (read_txt [] f).
Proof. exact (txt_balanced files ops). Qed.
Example C16_txt_case :
  let a := lit "plaquette" in
  let ops := [Push a; Write a (lit "(1,2)"); Print; Write a (lit "0.25"); Push a; Pop a; Pop a] in
  match exec_all Txt (fresh (fun _ => None)) (ops ++ [Print]) with
  | Ok o => match ofiles o a with
     | Some f => f = lit "{" ++ nl ++ tab ++ lit "{(1,2), 0.25" ++ tab ++ lit "{}," ++ nl ++ lit "}," ++ nl /\
        read_txt [] f = [Begin []; Begin []; Value (lit "(1,2)"); Value (lit "0.25"); Begin []; End []; End []]
     | None => False end
  | _ => False end.
Proof. vm_compute. auto. Qed.
Print Assumptions C16_txt_document.

(** Printing in portions. *)
Theorem C16_txt_portions (files : str -> option str) (ops1 ops2 : list out_op) : never_early ops1 ->
  filter (fun p => negb (is_print p)) ops1 = filter (fun p => negb (is_print p)) ops2 ->
  exists o1 o2, exec_all Txt (fresh files) (ops1 ++ [Print]) = Ok o1 /\ exec_all Txt (fresh files) (ops2 ++ [Print]) = Ok o2 /\
    forall n, ofiles o1 n = ofiles o2 n.
Proof. exact (txt_portions files ops1 ops2). Qed.
Example C16_txt_portions_case : let a := lit "p" in
  never_early [Push a; Print; Write a (lit "1"); Pop a] /\
  filter (fun p => negb (is_print p)) [Push a; Print; Write a (lit "1"); Pop a] =
  filter (fun p => negb (is_print p)) [Push a; Write a (lit "1"); Print; Print; Pop a].
Proof.
  split; [|reflexivity]. apply (nested_never_early (fun _ => [])). intros n. unfold meaning. cbn [flat_map call_tokens app].
  destruct (list_eq_dec ascii_dec (lit "p") n); cbn [app]; [|constructor].
  apply (nested_group [] [Value (lit "1")] []); repeat constructor.
Qed.
Print Assumptions C16_txt_portions.

Theorem C16_xml_portions (files : str -> option str) (ops1 ops2 : list out_op) (n : str) :
  values_ok xml_value ops1 -> never_early ops1 -> xml_name n -> (forall k, file_ok Xml (files k)) ->
  files n = None -> used_before ops1 n ->
  filter (fun p => negb (is_print p)) ops1 = filter (fun p => negb (is_print p)) ops2 ->
  exists o1 o2 f1 f2, exec_all Xml (fresh files) (ops1 ++ [Print]) = Ok o1 /\ exec_all Xml (fresh files) (ops2 ++ [Print]) = Ok o2 /\
    ofiles o1 n = Some f1 /\ ofiles o2 n = Some f2 /\ read_xml false [] f1 = read_xml false [] f2.
Proof. exact (xml_portions files ops1 ops2 n). Qed.
Example C16_xml_portions_case : xml_name (lit "plaquette") /\ file_ok Xml None /\ file_ok Xml (Some (xml_header ++ xml_footer)).
Proof.
  split; [|split; [exact I|cbn; lia]]. split; [|split; discriminate]. intros c Hc.
  repeat (destruct Hc as [<-|Hc]; [discriminate|]). destruct Hc.
Qed.
Print Assumptions C16_xml_portions.

(** The program stops exactly when a name is closed that was never opened or written. *)
Theorem C16_stops (fm : format) (files : str -> option str) (ops : list out_op) : (forall n, file_ok fm (files n)) ->
  ((exists o, exec_all fm (fresh files) ops = Ok o) <-> never_early ops) /\ (~ never_early ops -> exec_all fm (fresh files) ops = Exit 1).
Proof. exact (stop_iff fm files ops). Qed.
Example C16_stops_case : exec_all Txt (fresh (fun _ => None)) [Push (lit "a"); Pop (lit "b")] = Exit 1.
Proof. reflexivity. Qed.
Print Assumptions C16_stops.

(** The claim that closing a group that is not open stops the program fails once the name has been used. *)
Theorem C16_pop_refuted (fm : format) : exists o,
  exec_all fm (fresh (fun _ => None)) [Push (lit "a"); Pop (lit "a"); Pop (lit "a"); Print] = Ok o.
Proof. destruct fm; eexists; reflexivity. Qed.
Print Assumptions C16_pop_refuted.

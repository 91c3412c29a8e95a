(** Independent readers of the two output formats, and the meaning of a sequence of calls. *)
From Coq Require Import ZArith List Bool Ascii String.
From Verif Require Import Base TextModel TextSpec OutModel.
Import ListNotations.

Inductive token := Begin (name : text) | End (name : text) | Value (v : text).

Definition space (c : ascii) : bool := existsb (Ascii.eqb c) [" "%char; ascii_of_nat 9; ascii_of_nat 10].

(** Reader of the txt format: braces are group marks (they carry no name); everything else falls into words separated
    by blanks and braces; a comma at the end of a word is dropped and an empty word is nothing. *)
Definition drop_comma (w : text) : text :=
  match rev w with c :: r => if Ascii.eqb c "," then rev r else w | [] => [] end.
Definition flush (w : text) : list token := match drop_comma w with [] => [] | v => [Value v] end.
Fixpoint read_txt (cur : text) (l : text) : list token :=
  match l with
  | [] => flush cur
  | c :: l => if Ascii.eqb c "{" then flush cur ++ Begin [] :: read_txt [] l
              else if Ascii.eqb c "}" then flush cur ++ End [] :: read_txt [] l
              else if space c then flush cur ++ read_txt [] l
              else read_txt (cur ++ [c]) l
  end.
(** Reader of the xml format: tags between '<' and '>' (a declaration "<?...>" is skipped), words separated by blanks
    and tags. *)
Definition word_token (w : text) : list token := match w with [] => [] | _ => [Value w] end.
Definition tag_token (w : text) : list token :=
  match w with c :: r => if Ascii.eqb c "/" then [End r] else if Ascii.eqb c "?" then [] else [Begin w] | [] => [Begin []] end.
Fixpoint read_xml (intag : bool) (cur : text) (l : text) : list token :=
  match l with
  | [] => if intag then [] else word_token cur
  | c :: l => if intag then (if Ascii.eqb c ">" then tag_token cur ++ read_xml false [] l else read_xml true (cur ++ [c]) l)
              else if Ascii.eqb c "<" then word_token cur ++ read_xml true [] l
              else if space c then word_token cur ++ read_xml false [] l
              else read_xml false (cur ++ [c]) l
  end.

(** Names and values that can be told apart from the marks. *)
Definition txt_value (v : text) : Prop :=
  v <> [] /\ (forall c, In c v -> c <> "{"%char /\ c <> "}"%char /\ space c = false) /\ last v " "%char <> ","%char.
Definition xml_value (v : text) : Prop :=
  v <> [] /\ forall c, In c v -> c <> "<"%char /\ space c = false.
Definition xml_name (n : text) : Prop :=
  (forall c, In c n -> c <> ">"%char) /\ hd " "%char n <> "/"%char /\ hd " "%char n <> "?"%char.

(** What a sequence of calls means for the document [n]. *)
Definition call_tokens (tag : text) (n : text) (p : out_op) : list token :=
  match p with
  | Push k => if list_eq_dec ascii_dec k n then [Begin tag] else []
  | Pop k => if list_eq_dec ascii_dec k n then [End tag] else []
  | Write k v => if list_eq_dec ascii_dec k n then [Value v] else []
  | Print => []
  end.
Definition meaning (tag n : text) (ops : list out_op) : list token := flat_map (call_tokens tag n) ops.

(** Every group closed exactly once, nested. *)
Inductive nested : list token -> Prop :=
| nested_nil : nested []
| nested_value v l : nested l -> nested (Value v :: l)
| nested_group n a l : nested a -> nested l -> nested (Begin n :: a ++ End n :: l).

Definition values_ok (ok : text -> Prop) (ops : list out_op) : Prop := forall n v, In (Write n v) ops -> ok v.
(** The program stops exactly when a name is closed before its first use. *)
Definition used_before (ops : list out_op) (n : text) : Prop := exists p, In p ops /\ (p = Push n \/ exists v, p = Write n v).
Definition never_early (ops : list out_op) : Prop := forall a n b, ops = a ++ Pop n :: b -> used_before a n.

(** A file already in the folder is long enough to end with the xml footer. *)
Definition file_ok (fm : format) (f : option str) : Prop :=
  match fm, f with Xml, Some f => (9 <= List.length f)%nat | _, _ => True end.

Definition is_print (p : out_op) : bool := match p with Print => true | _ => false end.

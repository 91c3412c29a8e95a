(** Model of the output of measurements (source/io/GlobalOutput.h). Definitions only. *)
From Coq Require Import ZArith List Bool Ascii String.
From Verif Require Import Base TextModel.
Import ListNotations.

Inductive format := Txt | Xml.
(** Calls on the GlobalOutput object. A written value is given by its printed text (std::setprecision is not modelled). *)
Inductive out_op := Push (name : str) | Pop (name : str) | Write (name v : str) | Print.

Definition nl : str := [chr 10].
Definition tab : str := [chr 9].

(** output_streams and output_status (lines 184-185): name, text, status. Both maps always have the same keys. *)
Definition streams := list (str * (str * bool)).
Fixpoint find (m : streams) (n : str) : option (str * bool) :=
  match m with [] => None | (k, x) :: m => if str_eqb k n then Some x else find m n end.
Fixpoint put (m : streams) (n : str) (x : str * bool) : streams :=
  match m with [] => [(n, x)] | (k, y) :: m => if str_eqb k n then (k, x) :: m else (k, y) :: put m n x end.

(** The streams and the files baseFolder+baseName_<name>.<ext>; None is a file that does not exist. *)
Record out := Out { ostreams : streams; ofiles : str -> option str }.

Definition open_tag (n : str) : str := lit "<" ++ n ++ lit ">".
Definition close_tag (n : str) : str := lit "</" ++ n ++ lit ">".
Definition xml_header : str := lit "<?xml version=""1.0"" encoding=""UTF-8""?>" ++ nl ++ nl ++ lit "<root>" ++ nl.
Definition xml_footer : str := nl ++ lit "</root>" ++ nl.

(** 38-60 *)
Definition push_text (fm : format) (n : str) (old : option (str * bool)) : str * bool :=
  match fm, old with
  | Txt, Some (s, _) => (s ++ tab ++ lit "{", false)
  | Txt, None => (lit "{" ++ nl ++ tab ++ lit "{", false)
  | Xml, Some (s, _) => (s ++ open_tag n, false)
  | Xml, None => (open_tag n, false)
  end.
(** 62-84 *)
Definition pop_text (fm : format) (n : str) (old : option (str * bool)) : outcome (str * bool) :=
  match fm, old with
  | Txt, Some (s, _) => Ok (s ++ lit "}," ++ nl, false)
  | Xml, Some (s, _) => Ok (s ++ close_tag n, false)
  | _, None => Exit 1
  end.
(** 86-126 *)
Definition write_text (fm : format) (v : str) (old : option (str * bool)) : str * bool :=
  match fm, old with
  | Txt, Some (s, st) => ((if st then s ++ lit ", " else s) ++ v, true)
  | Txt, None => (lit "{" ++ v, true)
  | Xml, Some (s, st) => ((if st then s ++ lit " " else s) ++ v ++ lit " ", true)
  | Xml, None => (v ++ lit " ", true)
  end.
(** 128-167, one name: the new content of the file. Erasing the last nine characters of a shorter text is undefined. *)
Definition print_text (fm : format) (file : option str) (s : str) : outcome str :=
  match fm, file with
  | Txt, None => Ok s
  | Txt, Some f => Ok (f ++ s)
  | Xml, None => Ok (xml_header ++ s ++ xml_footer)
  | Xml, Some f => if Nat.leb 9 (List.length f)
      then Ok (firstn (List.length f - 9) f ++ nl ++ nl ++ s ++ xml_footer) else UB
  end.
Fixpoint print_all (fm : format) (m : streams) (files : str -> option str) : outcome out :=
  match m with
  | [] => Ok (Out [] files)
  | (n, (s, st)) :: m =>
      obind (print_text fm (files n) s) (fun f =>
        obind (print_all fm m (fun k => if str_eqb k n then Some f else files k)) (fun o =>
          Ok (Out ((n, ([], st)) :: ostreams o) (ofiles o))))
  end.

Definition exec (fm : format) (o : out) (p : out_op) : outcome out :=
  match p with
  | Push n => Ok (Out (put (ostreams o) n (push_text fm n (find (ostreams o) n))) (ofiles o))
  | Pop n => obind (pop_text fm n (find (ostreams o) n)) (fun x => Ok (Out (put (ostreams o) n x) (ofiles o)))
  | Write n v => Ok (Out (put (ostreams o) n (write_text fm v (find (ostreams o) n))) (ofiles o))
  | Print => print_all fm (ostreams o) (ofiles o)
  end.
Fixpoint exec_all (fm : format) (o : out) (l : list out_op) : outcome out :=
  match l with [] => Ok o | p :: l => obind (exec fm o p) (fun o => exec_all fm o l) end.
(** A new object and a folder with the given files. *)
Definition fresh (files : str -> option str) : out := Out [] files.

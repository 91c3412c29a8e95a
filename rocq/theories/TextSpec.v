(** Independent specification of configuration lines, list values and schedules. *)
From Coq Require Import ZArith List Ascii String.
From Verif Require Import Base.
Import ListNotations.
Open Scope Z_scope.

Notation text := (list ascii).
Definition txt (s : string) : text := list_ascii_of_string s.

(** Characters a name or a value may contain. *)
Definition field_char (c : ascii) : Prop :=
  In c (txt "abcdefghijklmnopqrstuvwxyzABCDEFGHIJKLMNOPQRSTUVWXYZ0123456789.:,{} _-/").
Definition word (w : text) : Prop := w <> [] /\ forall c, In c w -> field_char c /\ c <> " "%char.
Definition gap (s : text) : Prop := forall c, In c s -> ~ field_char c.

(** [b] is [l] without its spaces. *)
Inductive unspaced : text -> text -> Prop :=
| unspaced_nil : unspaced [] []
| unspaced_space l b : unspaced l b -> unspaced (" "%char :: l) b
| unspaced_char c l b : c <> " "%char -> unspaced l b -> unspaced (c :: l) (c :: b).

Definition comment (l : text) : Prop := exists rest, l = "#"%char :: rest.
Definition blank (l : text) : Prop := forall c, In c l -> c = " "%char.
(** The line gives the name [n] the value [v] (empty if no value is written). *)
Definition assigns (l n v : text) : Prop :=
  ~ comment l /\ exists b, unspaced l b /\ word n /\
   ((v = [] /\ exists s1 s2, b = s1 ++ n ++ s2 /\ gap s1 /\ gap s2) \/
    (word v /\ exists s1 s2 s3, b = s1 ++ n ++ s2 ++ v ++ s3 /\ gap s1 /\ gap s2 /\ s2 <> [] /\ gap s3)).

(** Texts with balanced brackets: braces and parentheses, either closing the other kind; inside a bracket
    anything balanced and commas. *)
Definition opening (c : ascii) : Prop := c = "{"%char \/ c = "("%char.
Definition closing (c : ascii) : Prop := c = "}"%char \/ c = ")"%char.
Inductive balanced (comma : Prop) : text -> Prop :=
| bal_nil : balanced comma []
| bal_char c l : ~ opening c -> ~ closing c -> (c = ","%char -> comma) -> balanced comma l -> balanced comma (c :: l)
| bal_group o c a l : opening o -> closing c -> balanced True a -> balanced comma l -> balanced comma (o :: a ++ c :: l).
(** An element of a list: no comma outside brackets. *)
Definition element (e : text) : Prop := balanced False e.
Fixpoint joined (es : list text) : text :=
  match es with [] => [] | [e] => e | e :: es => e ++ ","%char :: joined es end.

(** Decimal numbers. *)
Definition is_digit (c : ascii) : Prop := In c (txt "0123456789").
Definition numeral (l : text) : Prop := l <> [] /\ forall c, In c l -> is_digit c.
Fixpoint numeral_value (l : text) : Z :=
  match l with [] => 0 | c :: l => (Z.of_nat (nat_of_ascii c) - 48) * 10 ^ Z.of_nat (length l) + numeral_value l end.

(** The number of the multiples of [d] among 0, ..., n-1. *)
Definition ceil_div (n d : Z) : Z := (n + d - 1) / d.

(** The text of one sweep. *)
Definition spec_text (name steps calls : text) : text :=
  "{"%char :: name ++ ","%char :: steps ++ ","%char :: calls ++ ["}"%char].
Definition plain (l : text) : Prop := forall c, In c l -> ~ opening c /\ ~ closing c /\ c <> ","%char.
Record spec_item := Item { it_name : text; it_steps : text; it_calls : text }.
(** A written sweep: a name from the given list, two numbers that fit an int. *)
Definition good_item (names : list string) (i : spec_item) : Prop :=
  plain (it_name i) /\ In (it_name i) (map txt names) /\ numeral (it_steps i) /\ numeral (it_calls i) /\
  numeral_value (it_steps i) < 2 ^ 31 /\ numeral_value (it_calls i) < 2 ^ 31.
Definition item_text (i : spec_item) : text := spec_text (it_name i) (it_steps i) (it_calls i).

(** Model of configuration files, list options, sweep specifications and the sweep loop. Definitions only.
    Strings are lists of 8-bit characters. *)
From Coq Require Import ZArith List Bool Ascii String.
From Verif Require Import Base.
Import ListNotations.
Open Scope Z_scope.

Definition str := list ascii.
Definition lit (s : string) : str := list_ascii_of_string s.
Definition chr (n : nat) : ascii := ascii_of_nat n.

Fixpoint str_eqb (a b : str) : bool :=
  match a, b with
  | [], [] => true
  | x :: a, y :: b => Ascii.eqb x y && str_eqb a b
  | _, _ => false
  end.

(** ** main.cpp: configuration lines *)

(** std::getline (main.cpp 209): the lines of a file; a final newline does not open a further line. *)
Fixpoint getlines_from (cur : str) (f : str) : list str :=
  match f with
  | [] => match cur with [] => [] | _ => [cur] end
  | c :: f => if Ascii.eqb c (chr 10) then cur :: getlines_from [] f else getlines_from (cur ++ [c]) f
  end.
Definition getlines (f : str) : list str := getlines_from [] f.

(** result.erase(std::remove(...,' ')) (main.cpp 48, 62). *)
Definition remove_spaces (l : str) : str := filter (fun c => negb (Ascii.eqb c " ")) l.

(** main.cpp 43-50. rfind("#",0) finds a '#' at position 0 only. *)
Definition clean_line (l : str) : str :=
  match l with
  | c :: _ => if Ascii.eqb c "#" then [] else remove_spaces l
  | [] => []
  end.

Definition between (a c b : ascii) : bool := (nat_of_ascii a <=? nat_of_ascii c)%nat && (nat_of_ascii c <=? nat_of_ascii b)%nat.
(** The character class of main.cpp 53: letters, digits, . : , { } space _ - / *)
Definition word_char (c : ascii) : bool :=
  between "a" c "z" || between "A" c "Z" || between "0" c "9" ||
  existsb (Ascii.eqb c) (lit ".:,{} _-/").

(** main.cpp 54-64: the maximal runs of such characters, from left to right. *)
Definition emit (cur : str) : list str := match cur with [] => [] | _ => [cur] end.
Fixpoint runs_from (cur l : str) : list str :=
  match l with
  | [] => emit cur
  | c :: l => if word_char c then runs_from (cur ++ [c]) l else emit cur ++ runs_from [] l
  end.

(** main.cpp 52-74. *)
Definition parse_parameter (l : str) : outcome (str * str) :=
  match map remove_spaces (runs_from [] l) with
  | [a; b] => Ok (a, b)
  | [a] => Ok (a, [])
  | _ => Exit 77
  end.

(** The option table [desc]: name to current value. *)
Definition table := str -> option str.
Definition set_option (d : table) (n v : str) : table := fun m => if str_eqb m n then Some v else d m.

(** main.cpp 210-219: one line of the configuration file. *)
Definition read_line (d : table) (l : str) : outcome table :=
  let l := clean_line l in
  match l with
  | [] => Ok d
  | _ => obind (parse_parameter l) (fun p =>
           match d (fst p) with Some _ => Ok (set_option d (fst p) (snd p)) | None => Ok d end)
  end.
Fixpoint read_lines (d : table) (ls : list str) : outcome table :=
  match ls with [] => Ok d | l :: ls => obind (read_line d l) (fun d => read_lines d ls) end.
Definition read_file (d : table) (f : str) : outcome table := read_lines d (getlines f).

(** ** StorageParameters.cpp 13-82: list options *)

(** 18: skip to the first '{'. *)
Fixpoint skip_to (ch : ascii) (l : str) : option str :=
  match l with [] => None | c :: l => if Ascii.eqb c ch then Some l else skip_to ch l end.

(** 26-72: the loop; [state] is the bracket depth. Called with a non-empty rest; the check "index == end" comes
    after each character (69-71). *)
Fixpoint list_loop (state : nat) (tmp : str) (ris : list str) (l : str) : list str :=
  match l with
  | [] => ris
  | c :: l =>
      if Ascii.eqb c "{" || Ascii.eqb c "(" then list_loop (S state) (tmp ++ [c]) ris l
      else if Ascii.eqb c "}" then
        match state with
        | S (S s) => list_loop (S s) (tmp ++ [c]) ris l
        | _ => ris ++ [tmp]
        end
      else if Ascii.eqb c "," then
        match state with
        | S (S s) => list_loop state (tmp ++ [c]) ris l
        | _ => list_loop state [] (ris ++ [tmp]) l
        end
      else if Ascii.eqb c ")" then
        match state with
        | S (S s) => list_loop (S s) (tmp ++ [c]) ris l
        | _ => ris
        end
      else list_loop state (tmp ++ [c]) ris l
  end.
(** The whole function; when '{' is the last character the loop dereferences end(). *)
Definition parse_list (v : str) : outcome (list str) :=
  match skip_to "{" v with
  | None => Exit 1
  | Some [] => UB
  | Some l => Ok (list_loop 1 [] [] l)
  end.

(** ** FromString.h 17-22 for int: optional sign, decimal digits, 0 if there is none, saturated. *)
Definition digit (c : ascii) : option Z :=
  if between "0" c "9" then Some (Z.of_nat (nat_of_ascii c) - 48) else None.
Fixpoint digits_value (acc : Z) (l : str) : Z :=
  match l with
  | [] => acc
  | c :: l => match digit c with Some d => digits_value (10 * acc + d) l | None => acc end
  end.
Definition from_int (l : str) : Z :=
  match l with
  | c :: l' => if Ascii.eqb c "-" then Z.max (- 2 ^ 31) (- digits_value 0 l')
               else if Ascii.eqb c "+" then Z.min (2 ^ 31 - 1) (digits_value 0 l')
               else Z.min (2 ^ 31 - 1) (digits_value 0 l)
  | [] => 0
  end.
Definition to_unsigned (z : Z) : Z := z mod 2 ^ 32.

(** ** LatticeSweep.cpp *)
Record sweep := Sweep { sw_name : str; sw_jump : Z; sw_times : Z }.

(** Characters before the first [ch] and what follows it (the loops of LatticeSweep::read). *)
Fixpoint take_to (ch : ascii) (l : str) : option (str * str) :=
  match l with
  | [] => None
  | c :: l => if Ascii.eqb c ch then Some ([], l)
              else match take_to ch l with Some (a, b) => Some (c :: a, b) | None => None end
  end.

(** The names accepted by the factory LatticeSweep::getInstance. *)
Definition sweep_names : list string :=
  ["PureGaugeCM"; "Plaquette"; "PureGaugeHMC"; "TwoFlavorQCD"; "PureGaugeOverrelaxation"; "Output";
   "TestLinearAlgebra"; "TestSpeedDiracOperators"; "Eigenvalues"; "MesonCorrelator"; "OverlapChiralRotation";
   "ChiralCondensate"; "PolyakovLoop"; "PolyakovLoopEigenvalues"; "PolyakovLoopCorrelator"; "AdjointPolyakovLoop";
   "Glueball"; "GluinoGlue"; "ReUnit"; "PureGaugeWilsonLoops"; "WilsonLoop"; "TestCommunication";
   "ReadGaugeConfiguration"; "WilsonFlow"; "GaugeEnergy"; "MultiStepNFlavor"; "SingletOperators";
   "XSpaceCorrelators"; "NPRVertex"; "LandauGaugeFixing"; "MaximalAbelianGaugeFixing"; "MaximalAbelianProjection";
   "LandauGluonPropagator"; "LandauGhostPropagator"; "ScalarFermionHMC"; "HiggsGaugeHMC";
   "RandomScalarInitializer"; "MCScalar"; "MeanScalarField"; "RandomGaugeTransformation"]%string.
Definition known_sweep (n : str) : bool := existsb (fun s => str_eqb n (lit s)) sweep_names.

(** LatticeSweep::read, with the factory (exit 1 for an unknown name, exit 17 for a malformed text). *)
Definition read_sweep (l : str) : outcome sweep :=
  match skip_to "{" l with
  | None => Exit 17
  | Some l => match take_to "," l with
    | None => Exit 17
    | Some (name, l) => match take_to "," l with
      | None => Exit 17
      | Some (steps, l) => match take_to "}" l with
        | None => Exit 17
        | Some (calls, _) => if known_sweep name
            then Ok (Sweep name (to_unsigned (from_int steps)) (to_unsigned (from_int calls))) else Exit 1
        end
      end
    end
  end.
Fixpoint read_sweeps (ls : list str) : outcome (list sweep) :=
  match ls with
  | [] => Ok []
  | l :: ls => obind (read_sweep l) (fun s => obind (read_sweeps ls) (fun r => Ok (s :: r)))
  end.
(** Simulation.cpp 28-33 and 63-68: the list of sweeps of the option text. *)
Definition load_sweeps (v : str) : outcome (list sweep) := obind (parse_list v) read_sweeps.

(** LatticeSweep::call: the executions of the [j]-th sweep at sweep number [s]; the remainder by 0 is undefined. *)
Definition call_sweep (s : Z) (j : nat) (sw : sweep) : outcome (list nat) :=
  if sw_jump sw =? 0 then UB
  else Ok (if s mod sw_jump sw =? 0 then repeat j (Z.to_nat (sw_times sw)) else []).
Fixpoint call_all (s : Z) (j : nat) (sws : list sweep) : outcome (list nat) :=
  match sws with
  | [] => Ok []
  | sw :: sws => obind (call_sweep s j sw) (fun a => obind (call_all s (S j) sws) (fun b => Ok (a ++ b)))
  end.
(** Simulation.cpp 42-56 and 75-93: n cycles from sweep number 0; the result is the sequence of executions,
    each given by the position of the sweep in the list. *)
Fixpoint run_cycles (n : nat) (s : Z) (sws : list sweep) : outcome (list nat) :=
  match n with
  | O => Ok []
  | S n => obind (call_all s 0 sws) (fun a => obind (run_cycles n (s + 1) sws) (fun b => Ok (a ++ b)))
  end.
Definition simulate (n : nat) (sws : list sweep) : outcome (list nat) := run_cycles n 0 sws.

(** ** io/ReadGaugeConfiguration.cpp 26-42 *)

(** The while loop; [n] is the number of further reads allowed before "reattempt == 100" stops the program:
    at that point it stops whether or not the last read succeeded. Numbers are unbounded integers. *)
Fixpoint retry (readable : Z -> bool) (step : Z) (n : nat) (counter : Z) : outcome Z :=
  match n with
  | O => Exit 73
  | S n => let counter := counter + step in
      match n with
      | O => Exit 73
      | _ => if readable counter then Ok counter else retry readable step n counter
      end
  end.
(** execute: the number of the configuration left loaded and the next counter. *)
Definition read_next (readable : Z -> bool) (step counter : Z) : outcome (Z * Z) :=
  obind (if readable counter then Ok counter else retry readable step 99 counter)
    (fun c => Ok (c, c + step)).
(** Several executions of the sweep in a row. *)
Fixpoint read_many (readable : Z -> bool) (step : Z) (n : nat) (counter : Z) : outcome (list Z) :=
  match n with
  | O => Ok []
  | S n => obind (read_next readable step counter) (fun p =>
             obind (read_many readable step n (snd p)) (fun r => Ok (fst p :: r)))
  end.

(** * Model of abcvoting/output.py, and of [check] and [full_analysis] in properties.py *)
From Coq Require Import String Ascii.
From Coq Require Import List Arith Bool ZArith QArith.
From Verif Require Import Prelude Misc Preferences Checks Milp CheckSolver.
Import ListNotations.
Local Open Scope string_scope.
Open Scope nat_scope.
Local Open Scope list_scope.

(** output.py 24-32: the levels *)
Definition CRITICAL := 50%Z.
Definition ERROR := 40%Z.
Definition WARNING := 30%Z.
Definition INFO := 20%Z.
Definition DETAILS := 15%Z.
Definition DEBUG := 10%Z.
Definition DEBUG2 := 5%Z.
Definition DEFAULT := WARNING.

(** output.py 46-80, [Output]: the verbosity, and whether a logger is attached *)
Record output := mkOutput { verbosity : Z; has_logger : bool }.

(** [msg.split("\n")] *)
Fixpoint split_nl (s : string) : list string :=
  match s with
  | EmptyString => [EmptyString]
  | String a r =>
      if Ascii.eqb a (ascii_of_nat 10) then EmptyString :: split_nl r
      else match split_nl r with
           | l :: ls => String a l :: ls
           | [] => [String a EmptyString]
           end
  end.

Section Out.
(** [textwrap.fill(line, width=WIDTH, break_long_words=False, initial_indent=indent,
    subsequent_indent=indent)] of Python's standard library *)
Variable fill : string -> string -> string.

Definition wrapped (indent msg : string) : string := String.concat nl (map (fill indent) (split_nl msg)).

(** A message: level, text, wrap, indent. *)
Record message := mkMessage { level : Z; text : string; wrap : bool; indent : string }.

(** output.py 93-111, [Output._print]: the line printed, if any, and the entry
    sent to the logger, if any.  Note that the text logged is the wrapped one
    exactly when the message is also printed. *)
Definition print_message (o : output) (m : message) : option string * option (Z * string) :=
  let printed := Z.leb (verbosity o) (level m) in
  let msg := if printed && wrap m then wrapped (indent m) (text m) else text m in
  (if printed then Some msg else None,
   if has_logger o
   then Some (if Z.eqb (level m) DETAILS || Z.eqb (level m) DEBUG2 then DEBUG else level m, msg)
   else None).

(** output.py 82-91 [set_verbosity]; 113-233 the seven printing methods call
    [_print] with their level. *)
Inductive event := SetVerbosity (v : Z) | Print (m : message).

Record trace := mkTrace { printed : list string; logged : list (Z * string) }.

Definition opt_list {A} (x : option A) : list A := match x with Some a => [a] | None => [] end.

Fixpoint run (o : output) (h : list event) : output * trace :=
  match h with
  | [] => (o, mkTrace [] [])
  | SetVerbosity v :: r => run (mkOutput v (has_logger o)) r
  | Print m :: r =>
      let '(a, b) := print_message o m in
      let '(o', t) := run o r in
      (o', mkTrace (opt_list a ++ printed t) (opt_list b ++ logged t))
  end.

(** properties.py 14-24, [PROPERTY_NAMES] *)
Definition PROPERTY_NAMES : list string :=
  ["pareto"; "jr"; "pjr"; "ejr"; "ejr+"; "fjr"; "priceability"; "stable-priceability"; "core"].

(** properties.py 87-140, [check] *)
Definition check (gb : solver) (property_name : string) (p : profile) (committee : list nat)
  (quota : option Q) (algorithm : string) : result bool :=
  if negb (existsb (String.eqb property_name) PROPERTY_NAMES) then Err ValueError
  else if String.eqb property_name "pareto" then
    match quota with
    | Some _ => Err ValueError
    | None => check_pareto_optimality (pareto_gurobi gb) p committee algorithm
    end
  else if String.eqb property_name "jr" then check_JR p committee quota
  else if String.eqb property_name "pjr" then check_PJR (PJR_gurobi gb) p committee quota algorithm
  else if String.eqb property_name "ejr" then check_EJR (EJR_gurobi gb) p committee quota algorithm
  else if String.eqb property_name "ejr+" then check_EJR_plus p committee quota
  else if String.eqb property_name "fjr" then check_FJR (FJR_gurobi gb) p committee quota algorithm
  else if String.eqb property_name "priceability" then
    match quota with
    | Some _ => Err ValueError
    | None => check_priceability gb p committee algorithm false
    end
  else if String.eqb property_name "stable-priceability" then
    match quota with
    | Some _ => Err ValueError
    | None => check_priceability gb p committee algorithm true
    end
  else if String.eqb property_name "core" then check_core (core_gurobi gb) p committee quota algorithm
  else Err NotImplementedError.

(** properties.py 66-76: the descriptions *)
Definition description : list (string * string) :=
  [("pareto", "Pareto optimality");
   ("jr", "Justified representation (JR)");
   ("pjr", "Proportional justified representation (PJR)");
   ("ejr", "Extended justified representation (EJR)");
   ("ejr+", "EJR+");
   ("fjr", "Full justified representation (FJR)");
   ("priceability", "Priceability");
   ("stable-priceability", "Stable Priceability");
   ("core", "The core")].

(** [f"{s:50s}"] *)
Definition pad50 (s : string) : string := s ++ String.concat "" (repeat " " (50 - String.length s)).
Definition py_bool (b : bool) : string := if b then "True" else "False".

(** properties.py 81-82: the line printed for one property *)
Definition analysis_line (entry : string * bool) : message :=
  let d := match find (fun x => String.eqb (fst x) (fst entry)) description with
           | Some x => snd x | None => "" end in
  mkMessage INFO (pad50 d ++ " : " ++ py_bool (snd entry))%string true "".

(** properties.py 39-84, [full_analysis]: the result and the events at the output
    object.  What the individual checks print (at levels INFO and DETAILS, both
    below WARNING) is left out; CheckReport.v adds it.  An exception leaves the loop with the verbosity
    still at WARNING. *)
Definition full_analysis (gb : solver) (o : output) (p : profile) (committee : list nat)
  : result (list (string * bool)) * list event :=
  match rmapM (fun name => do b <- check gb name p committee None "fastest"; Ok (name, b)) PROPERTY_NAMES with
  | Err e => (Err e, [SetVerbosity WARNING])
  | Ok results =>
      (Ok results, [SetVerbosity WARNING; SetVerbosity (verbosity o)] ++ map (fun e => Print (analysis_line e)) results)
  end.

End Out.

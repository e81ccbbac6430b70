(** * What output and analyses mean *)
From Coq Require Import String.
From Coq Require Import List Arith Bool ZArith QArith.
From Verif Require Import Prelude Misc Preferences Spec SpecRules Checks SpecAxioms SpecPrice Output.
Import ListNotations.
Local Open Scope string_scope.
Open Scope nat_scope.
Local Open Scope list_scope.

(** The verbosity in force after a history: the last one set. *)
Definition in_force (v0 : Z) (h : list event) : Z :=
  fold_left (fun v e => match e with SetVerbosity v' => v' | Print _ => v end) h v0.

(** What appears on the terminal: exactly the messages whose level is at least
    the verbosity in force when they are sent. *)
Fixpoint shown (fill : string -> string -> string) (v : Z) (h : list event) : list string :=
  match h with
  | [] => []
  | SetVerbosity v' :: r => shown fill v' r
  | Print m :: r =>
      (if Z_le_dec v (level m)
       then [if wrap m then wrapped fill (indent m) (text m) else text m] else []) ++ shown fill v r
  end.

Definition messages (h : list event) : list message :=
  flat_map (fun e => match e with Print m => [m] | SetVerbosity _ => [] end) h.

(** The logging module has no level for DETAILS and DEBUG2. *)
Definition log_level (m : message) : Z :=
  if Z.eqb (level m) DETAILS then DEBUG else if Z.eqb (level m) DEBUG2 then DEBUG else level m.

(** The properties by name, for a group threshold [q]. *)
Definition satisfies (p : profile) (q : Q) (name : string) (W : list nat) : Prop :=
  (name = "pareto" -> pareto_optimal p W) /\
  (name = "jr" -> JR p q W) /\ (name = "pjr" -> PJR p q W) /\ (name = "ejr" -> EJR p q W) /\
  (name = "ejr+" -> EJR_plus p q W) /\ (name = "fjr" -> FJR p q W) /\ (name = "core" -> in_core p q W) /\
  (name = "priceability" -> passes_price_check p W false) /\
  (name = "stable-priceability" -> passes_price_check p W true).
Definition uses_quota (name : string) : Prop := In name ["jr"; "pjr"; "ejr"; "ejr+"; "fjr"; "core"].

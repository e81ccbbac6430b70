(** * Model of the rule table and parameter checks (abcrules.py 21-545) *)
From Coq Require Import String.
From Coq Require Import List Arith Bool ZArith QArith.
From Verif Require Import Prelude Misc Preferences Scores.
Import ListNotations.
Open Scope nat_scope.
Local Open Scope string_scope.

(** abcrules.py 57-73: the keys of ALGORITHM_NAMES, in order. *)
Definition ALGORITHM_IDS : list string :=
  ["gurobi"; "branch-and-bound"; "brute-force"; "mip-cbc"; "mip-gurobi"; "standard";
   "standard-fractions"; "gmpy2-fractions"; "float-fractions"; "ortools-cp"].

(** abcrules.py 21-49: MAIN_RULE_IDS *)
Definition MAIN_RULE_IDS : list string :=
  ["av"; "sav"; "pav"; "slav"; "cc"; "lexcc"; "geom2"; "seqpav"; "revseqpav"; "seqslav";
   "seqcc"; "seqphragmen"; "minimaxphragmen"; "leximaxphragmen"; "maximin-support"; "monroe";
   "greedy-monroe"; "minimaxav"; "lexminimaxav"; "equal-shares";
   "equal-shares-with-av-completion"; "equal-shares-with-increment-completion";
   "phragmen-enestroem"; "consensus-rule"; "trivial"; "rsd"; "eph"].

Definition str_in (s : string) (l : list string) : bool := existsb (String.eqb s) l.

(** [s[n:]] *)
Fixpoint drop (n : nat) (s : string) : string :=
  match n, s with
  | 0, _ => s
  | S n', String _ r => drop n' r
  | S _, EmptyString => EmptyString
  end.

(** Which optional packages are importable: gurobipy, gmpy2, ortools. *)
Record installed := mkInstalled { has_gurobi : bool; has_gmpy2 : bool; has_ortools : bool }.

(** Python [sub in s] *)
Fixpoint contains (sub s : string) : bool :=
  prefix sub s || match s with EmptyString => false | String _ r => contains sub r end.

(** abcrules.py 514-530, [_available_algorithms] *)
Definition available_algorithms (i : installed) : list string :=
  filter (fun a =>
            negb (contains "gurobi" a && negb (has_gurobi i)) &&
            negb (String.eqb a "gmpy2-fractions" && negb (has_gmpy2 i)) &&
            negb (String.eqb a "ortools-cp" && negb (has_ortools i)))
         ALGORITHM_IDS.

(** The fields of class [Rule] that the parameter checks use (abcrules.py
    88-343); names for display are in RuleReport.v. *)
Record rule := mkRule { rule_id : string; algorithms : list string; resolute_values : list bool }.

(** abcrules.py 98-107 *)
Definition THIELE_ALGORITHMS : list string :=
  ["gurobi"; "mip-gurobi"; "mip-cbc"; "branch-and-bound"; "brute-force"].
Definition OPT_RESOLUTE : list bool := [false; true].
Definition SEQ_RESOLUTE : list bool := [true; false].
Definition FRACTION_ALGORITHMS : list string :=
  ["float-fractions"; "gmpy2-fractions"; "standard-fractions"].

Section Table.
  (** [Fraction(s)] and [int(s)] on strings: [None] stands for ValueError. *)
  Variable fraction_of_string : string -> option Q.
  Variable int_of_string : string -> option Z.

  (** scores.py 27-61, [get_marginal_scorefct]: parsing the identifier. *)
  Definition get_marginal_scorefct (id : string) : result scorefct :=
    if String.eqb id "pav" then Ok Pav
    else if String.eqb id "slav" then Ok Slav
    else if String.eqb id "cc" then Ok Cc
    else if String.eqb id "av" then Ok Av
    else if prefix "geom" id then
      match fraction_of_string (drop 4 id) with Some b => Ok (Geom b) | None => Err ValueError end
    else if prefix "atleast" id then
      match int_of_string (drop 7 id) with Some z => Ok (AtLeast z) | None => Err ValueError end
    else Err UnknownScoreFunctionError.

  (** abcrules.py 109-343, [Rule.__init__], the explicitly listed rules and geomX;
      [None] when the chain of [elif]s reaches the sequential case. *)
  Definition listed_rule (id : string) : option rule :=
    let mk a r := Some (mkRule id a r) in
    if String.eqb id "av" then mk ["standard"] OPT_RESOLUTE
    else if String.eqb id "sav" then mk ["standard"] OPT_RESOLUTE
    else if String.eqb id "pav" then mk THIELE_ALGORITHMS OPT_RESOLUTE
    else if String.eqb id "slav" then mk THIELE_ALGORITHMS OPT_RESOLUTE
    else if String.eqb id "cc" then
      mk ["gurobi"; "mip-gurobi"; "ortools-cp"; "branch-and-bound"; "brute-force"; "mip-cbc"] OPT_RESOLUTE
    else if String.eqb id "lexcc" then mk ["gurobi"; "brute-force"] OPT_RESOLUTE
    else if String.eqb id "seqpav" then mk ["standard"] SEQ_RESOLUTE
    else if String.eqb id "revseqpav" then mk ["standard"] SEQ_RESOLUTE
    else if String.eqb id "seqslav" then mk ["standard"] SEQ_RESOLUTE
    else if String.eqb id "seqcc" then mk ["standard"] SEQ_RESOLUTE
    else if String.eqb id "seqphragmen" then mk FRACTION_ALGORITHMS SEQ_RESOLUTE
    else if String.eqb id "minimaxphragmen" then mk ["gurobi"; "mip-gurobi"; "mip-cbc"] OPT_RESOLUTE
    else if String.eqb id "leximaxphragmen" then mk ["gurobi"] OPT_RESOLUTE
    else if String.eqb id "maximin-support" then mk ["gurobi"; "mip-gurobi"; "mip-cbc"] SEQ_RESOLUTE
    else if String.eqb id "monroe" then
      mk ["gurobi"; "mip-gurobi"; "mip-cbc"; "ortools-cp"; "brute-force"] OPT_RESOLUTE
    else if String.eqb id "greedy-monroe" then mk ["standard"] [true]
    else if String.eqb id "minimaxav" then
      mk ["gurobi"; "mip-gurobi"; "ortools-cp"; "mip-cbc"; "brute-force"] OPT_RESOLUTE
    else if String.eqb id "lexminimaxav" then mk ["gurobi"; "brute-force"] OPT_RESOLUTE
    else if str_in id ["rule-x"; "equal-shares"; "equal-shares-with-seqphragmen-completion"] then
      mk FRACTION_ALGORITHMS SEQ_RESOLUTE
    else if String.eqb id "equal-shares-with-av-completion" then mk FRACTION_ALGORITHMS SEQ_RESOLUTE
    else if String.eqb id "equal-shares-with-increment-completion" then mk FRACTION_ALGORITHMS [true]
    else if str_in id ["rule-x-without-phragmen-phase"; "equal-shares-without-phragmen-phase";
                       "equal-shares-without-completion"] then
      mk FRACTION_ALGORITHMS SEQ_RESOLUTE
    else if String.eqb id "phragmen-enestroem" then mk FRACTION_ALGORITHMS SEQ_RESOLUTE
    else if String.eqb id "consensus-rule" then mk FRACTION_ALGORITHMS SEQ_RESOLUTE
    else if String.eqb id "trivial" then mk ["standard"] OPT_RESOLUTE
    else if String.eqb id "rsd" then mk ["standard"] [true]
    else if String.eqb id "eph" then mk FRACTION_ALGORITHMS [false; true]
    else if prefix "geom" id then mk THIELE_ALGORITHMS OPT_RESOLUTE
    else None.

  (** abcrules.py 109-343, [Rule.__init__].  [Rule(scorefct_id)] inside the
      sequential case recurses at most once more than the number of "seq"
      prefixes; a score function id never starts with "seq", so the recursive
      call is to a listed rule or fails. *)
  Definition rule_of_id (id : string) : result rule :=
    match listed_rule id with
    | Some r => Ok r
    | None =>
        if prefix "seq" id || prefix "revseq" id then
          let sid := if prefix "seq" id then drop 3 id else drop 6 id in
          match get_marginal_scorefct sid with
          | Err UnknownScoreFunctionError => Err UnknownRuleIDError
          | Err e => Err e
          | Ok _ => match listed_rule sid with
                    | Some _ => Ok (mkRule id ["standard"] SEQ_RESOLUTE)
                    | None => Err UnknownRuleIDError
                    end
          end
        else Err UnknownRuleIDError
    end.
End Table.

(** abcrules.py 339-343: the rule's algorithms that are installed, in the
    rule's own (speed) order. *)
Definition rule_available (i : installed) (r : rule) : list string :=
  filter (fun a => str_in a (available_algorithms i)) (algorithms r).

(** abcrules.py 345-360, [Rule.fastest_available_algorithm] *)
Definition fastest_available_algorithm (i : installed) (r : rule) : result string :=
  match rule_available i r with a :: _ => Ok a | [] => Err NoAvailableAlgorithm end.

(** abcrules.py 384-454, [Rule.verify_compute_parameters], checks in source
    order.  [maxn] is the Python value of [max_num_of_committees]. *)
Definition verify_compute_parameters (r : rule) (p : profile) (committeesize : Z)
           (algorithm : string) (resolute : bool) (maxn : option pyobj) : result unit :=
  if Z.ltb committeesize 1 then Err ValueError
  else if Z.ltb (Z.of_nat (num_cand p)) committeesize then Err ValueError
  else if Nat.eqb (List.length (voters p)) 0 then Err ValueError
  else if negb (str_in algorithm (algorithms r)) then Err UnknownAlgorithm
  else if negb (existsb (Bool.eqb resolute) (resolute_values r)) then Err NotImplementedError
  else if match maxn with
          | None => false
          | Some (PyOther _) => true
          | Some (PyInt z) => Z.ltb z 1
          end then Err ValueError
  else if match maxn with None => false | Some _ => resolute end then Err ValueError
  else Ok tt.

(** [max_num_of_committees] after the checks *)
Definition maxn_nat (maxn : option pyobj) : option nat :=
  match maxn with Some (PyInt z) => Some (Z.to_nat z) | _ => None end.

(** The common prologue of every [compute_*] function (e.g. abcrules.py
    661-670): resolve "fastest", then check the parameters. *)
Definition prologue (i : installed) (r : rule) (p : profile) (committeesize : Z)
           (algorithm : string) (resolute : bool) (maxn : option pyobj) : result string :=
  do alg <- (if String.eqb algorithm "fastest" then fastest_available_algorithm i r
             else Ok algorithm);
  do _ <- verify_compute_parameters r p committeesize alg resolute maxn;
  Ok alg.

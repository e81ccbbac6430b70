(** * Model of the public [compute_*] functions (parameter handling and dispatch)

    Every [compute_*] function starts by resolving "fastest" and checking the
    parameters ([prologue]), dispatches on the algorithm name and returns the
    committees; the verbose output in between is modelled in RuleReport.v; here only
    [committees[0]], which raises IndexError on an empty list.

    The functions of abcrules_gurobi.py, abcrules_mip.py and abcrules_ortools.py
    are reached through [external]: the rule, the algorithm, the profile,
    committee size, [resolute] and [max_num_of_committees].  Their own code is
    modelled in RulesSolver.v. *)
From Coq Require Import String.
From Coq Require Import List Arith Bool ZArith QArith.
From Verif Require Import Prelude Misc Preferences Scores Search Rule RulesThiele.
Import ListNotations.
Open Scope nat_scope.
Local Open Scope string_scope.

(** What the code takes from its surroundings. *)
Record env := mkEnv {
  inst : installed;                                  (* importable packages *)
  fraction_of_string : string -> option Q;           (* [Fraction(s)] *)
  int_of_string : string -> option Z;                (* [int(s)] *)
  set_order : list nat -> list nat;                  (* iteration order of a Python set *)
  sav_float_scores : profile -> list Q;              (* SAV scores in binary64, see SavFloat.v *)
  external : string -> string -> profile -> nat -> bool -> option nat -> result (list (list nat))
}.

Definition lookup_rule (e : env) (id : string) : result rule :=
  rule_of_id (fraction_of_string e) (int_of_string e) id.
Definition lookup_scorefct (e : env) (id : string) : result scorefct :=
  get_marginal_scorefct (fraction_of_string e) (int_of_string e) id.

(** [Rule(id)], "fastest", [verify_compute_parameters], then the algorithm. *)
Definition run (e : env) (id : string) (p : profile) (k : Z) (algorithm : string) (resolute : bool)
           (maxn : option pyobj)
           (body : string -> nat -> option nat -> result (list (list nat))) : result (list (list nat)) :=
  do r <- lookup_rule e id;
  do alg <- prologue (inst e) r p k algorithm resolute maxn;
  body alg (Z.to_nat k) (maxn_nat maxn).

(** [committees[0]] in the verbose output of several functions *)
Definition needs_nonempty (r : result (list (list nat))) : result (list (list nat)) :=
  do cs <- r; match cs with [] => Err IndexError | _ => Ok cs end.

(** scores.py 64-93, the public [thiele_score(scorefct_id, profile, committee)] *)
Definition score_of_id (e : env) (scorefct_id : string) (p : profile) (committee : list nat) : result Q :=
  do f <- lookup_scorefct e scorefct_id; Ok (thiele_score (marginal f) p committee).

Section Compute.
  Variable e : env.

  (** abcrules.py 604-730, [compute_thiele_method] *)
  Definition compute_thiele_method (scorefct_id : string) (p : profile) (k : Z) (algorithm : string)
             (resolute : bool) (maxn : option pyobj) : result (list (list nat)) :=
    run e scorefct_id p k algorithm resolute maxn (fun alg k maxn =>
      needs_nonempty
        (if String.eqb alg "gurobi" then external e scorefct_id alg p k resolute maxn
         else if String.eqb alg "branch-and-bound" then
           do f <- lookup_scorefct e scorefct_id;
           thiele_branchandbound (marginal f) p k resolute maxn
         else if String.eqb alg "brute-force" then
           do f <- lookup_scorefct e scorefct_id;
           thiele_bruteforce (marginal f) p k resolute maxn
         else if prefix "mip-" alg then external e scorefct_id alg p k resolute maxn
         else if String.eqb alg "ortools-cp" && String.eqb scorefct_id "cc"
              then external e scorefct_id alg p k resolute maxn
         else Err UnknownAlgorithm)).

  (** abcrules.py 819-879, [compute_pav] *)
  Definition compute_pav := compute_thiele_method "pav".
  (** abcrules.py 882-943, [compute_slav] *)
  Definition compute_slav := compute_thiele_method "slav".
  (** abcrules.py 946-1007, [compute_cc] *)
  Definition compute_cc := compute_thiele_method "cc".

  (** abcrules.py 1010-1119, [compute_lexcc] *)
  Definition compute_lexcc (p : profile) (k : Z) (algorithm : string) (resolute : bool)
             (maxn : option pyobj) : result (list (list nat)) :=
    run e "lexcc" p k algorithm resolute maxn (fun alg k maxn =>
      if String.eqb alg "brute-force" then lexcc_bruteforce p k resolute maxn
      else if String.eqb alg "gurobi" then external e "lexcc" alg p k resolute maxn
      else if prefix "mip-" alg then external e "lexcc" alg p k resolute maxn
      else Err UnknownAlgorithm).

  (** abcrules.py 1149-1270, [compute_seq_thiele_method]; the rule identifier is
      "seq" followed by the score function identifier (line 1197). *)
  Definition compute_seq_thiele_method (scorefct_id : string) (p : profile) (k : Z) (algorithm : string)
             (resolute : bool) (maxn : option pyobj) : result (list (list nat)) :=
    do f <- lookup_scorefct e scorefct_id;
    run e ("seq" ++ scorefct_id) p k algorithm resolute maxn (fun alg k maxn =>
      if String.eqb alg "standard" then
        do cs <- seq_thiele (marginal f) p k resolute maxn; sorted_committees cs
      else Err UnknownAlgorithm).

  (** abcrules.py 1346-1404, 1407-1466, 1469-1527 *)
  Definition compute_seqpav := compute_seq_thiele_method "pav".
  Definition compute_seqslav := compute_seq_thiele_method "slav".
  Definition compute_seqcc := compute_seq_thiele_method "cc".

  (** abcrules.py 1530-1659, [compute_revseq_thiele_method] *)
  Definition compute_revseq_thiele_method (scorefct_id : string) (p : profile) (k : Z) (algorithm : string)
             (resolute : bool) (maxn : option pyobj) : result (list (list nat)) :=
    do f <- lookup_scorefct e scorefct_id;
    run e ("revseq" ++ scorefct_id) p k algorithm resolute maxn (fun alg k maxn =>
      if String.eqb alg "standard" then
        if resolute then revseq_resolute (marginal f) p k
        else revseq_irresolute (set_order e) (marginal f) p k maxn
      else Err UnknownAlgorithm).

  (** abcrules.py 1728-1786, [compute_revseqpav] *)
  Definition compute_revseqpav := compute_revseq_thiele_method "pav".

  (** abcrules.py 1789-1905, [compute_separable_rule].  Simplification: for an
      identifier other than "av" and "sav" whose rule has the algorithm "standard"
      the code raises only if some voter approves a candidate. *)
  Definition compute_separable_rule (rule_id : string) (p : profile) (k : Z) (algorithm : string)
             (resolute : bool) (maxn : option pyobj) : result (list (list nat)) :=
    run e rule_id p k algorithm resolute maxn (fun alg k maxn =>
      if String.eqb alg "standard" then
        if String.eqb rule_id "sav" then
          (* [int / int] is binary64 division in Python, [Fraction / int] is exact *)
          if forallb (fun v => negb (weight_is_int v)) (voters p)
          then separable_rule SepSAV p k resolute maxn
          else separable_from_scores (sav_float_scores e p) (num_cand p) k resolute maxn
        else if String.eqb rule_id "av" then separable_rule SepAV p k resolute maxn
        else Err UnknownRuleIDError
      else Err UnknownAlgorithm).

  (** abcrules.py 1967-2025 and 2028-2090 *)
  Definition compute_sav := compute_separable_rule "sav".
  Definition compute_av := compute_separable_rule "av".

  (** abcrules.py 2093-2206, [compute_minimaxav] *)
  Definition compute_minimaxav (p : profile) (k : Z) (algorithm : string) (resolute : bool)
             (maxn : option pyobj) : result (list (list nat)) :=
    run e "minimaxav" p k algorithm resolute maxn (fun alg k maxn =>
      needs_nonempty
        (if String.eqb alg "gurobi" then external e "minimaxav" alg p k resolute maxn
         else if String.eqb alg "ortools-cp" then external e "minimaxav" alg p k resolute maxn
         else if prefix "mip-" alg then external e "minimaxav" alg p k resolute maxn
         else if String.eqb alg "brute-force" then minimaxav_bruteforce p k resolute maxn
         else Err UnknownAlgorithm)).

  (** abcrules.py 2230-2338, [compute_lexminimaxav] *)
  Definition compute_lexminimaxav (p : profile) (k : Z) (algorithm : string) (resolute : bool)
             (maxn : option pyobj) : result (list (list nat)) :=
    run e "lexminimaxav" p k algorithm resolute maxn (fun alg k maxn =>
      if negb (has_unit_weights p) then Err ValueError
      else if String.eqb alg "brute-force" then lexminimaxav_bruteforce p k resolute maxn
      else if String.eqb alg "gurobi" then external e "lexminimaxav" alg p k resolute maxn
      else Err UnknownAlgorithm).

  (** abcrules.py 4224-4305, [compute_trivial_rule] *)
  Definition compute_trivial_rule (p : profile) (k : Z) (algorithm : string) (resolute : bool)
             (maxn : option pyobj) : result (list (list nat)) :=
    run e "trivial" p k algorithm resolute maxn (fun alg k maxn =>
      if String.eqb alg "standard" then trivial_rule p k resolute maxn else Err UnknownAlgorithm).
End Compute.

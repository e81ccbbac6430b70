(** * Model of [Rule.compute] and [abcrules.compute] *)
From Coq Require Import String.
From Coq Require Import List Arith Bool ZArith QArith.
From Verif Require Import Prelude Misc Preferences Scores Search Rule RulesThiele Compute RulesSeq RulesMes ComputeSeq
  RulesMonroe RulesMore Milp RulesSolver.
Import ListNotations.
Local Open Scope string_scope.
Open Scope nat_scope.

(** [**kwargs]: every field is [None] if the keyword argument is not passed.
    [kw_other] is true if any other keyword is passed. *)
Record kwargs := mkKwargs {
  kw_algorithm : option string;
  kw_resolute : option bool;
  kw_max : option (option pyobj);               (* max_num_of_committees *)
  kw_completion : option (option string);       (* completion *)
  kw_lexicographic : option bool;               (* lexicographic_tiebreaking *)
  kw_other : bool
}.
Definition no_kwargs : kwargs := mkKwargs None None None None None false.

Definition or_default {A} (o : option A) (d : A) : A := match o with Some x => x | None => d end.
Definition given {A} (o : option A) : bool := match o with Some _ => true | None => false end.

(** A call [f(profile, committeesize, **kwargs)] of a function whose keyword
    parameters are [algorithm=da], [resolute=dr] and [max_num_of_committees=None]
    (abcrules.py 82, MAX_NUM_OF_COMMITTEES_DEFAULT); an unexpected keyword is a TypeError. *)
Definition call (f : profile -> Z -> string -> bool -> option pyobj -> result (list (list nat))) (da : string) (dr : bool)
           (p : profile) (k : Z) (kw : kwargs) : result (list (list nat)) :=
  if kw_other kw || given (kw_completion kw) || given (kw_lexicographic kw) then Err TypeError
  else f p k (or_default (kw_algorithm kw) da) (or_default (kw_resolute kw) dr) (or_default (kw_max kw) None).

(** The same for [compute_equal_shares] (abcrules.py 3034-3041), with the value of
    [completion] set by [functools.partial] (or the default "seqphragmen"). *)
Definition call_mes (e : env) (completion : option string) (p : profile) (k : Z) (kw : kwargs) : result (list (list nat)) :=
  if kw_other kw || given (kw_lexicographic kw) then Err TypeError
  else compute_equal_shares e p k (or_default (kw_algorithm kw) "fastest") (or_default (kw_resolute kw) true)
         (or_default (kw_max kw) None) (or_default (kw_completion kw) completion).

(** The same for [compute_leximaxphragmen] (abcrules.py 3589-3596) *)
Definition call_leximax (e : env) (p : profile) (k : Z) (kw : kwargs) : result (list (list nat)) :=
  if kw_other kw || given (kw_completion kw) then Err TypeError
  else compute_leximaxphragmen e p k (or_default (kw_algorithm kw) "fastest") (or_default (kw_resolute kw) false)
         (or_default (kw_max kw) None) (or_default (kw_lexicographic kw) false).

Section All.
  Variables (rnd : random) (nx : networkx) (e : env).

  (** abcrules.py 109-343 (the assignments to [self.compute_fct]) and 362-382,
      [Rule.compute]; [id] is known to be a rule identifier.  The default values are
      those of the signatures of the [compute_*] functions. *)
  Definition compute_fct (id : string) (p : profile) (k : Z) (kw : kwargs) : result (list (list nat)) :=
    if String.eqb id "av" then call (compute_av e) "fastest" false p k kw
    else if String.eqb id "sav" then call (compute_sav e) "fastest" false p k kw
    else if String.eqb id "pav" then call (compute_pav e) "fastest" false p k kw
    else if String.eqb id "slav" then call (compute_slav e) "fastest" false p k kw
    else if String.eqb id "cc" then call (compute_cc e) "fastest" false p k kw
    else if String.eqb id "lexcc" then call (compute_lexcc e) "fastest" false p k kw
    else if String.eqb id "seqpav" then call (compute_seqpav e) "fastest" true p k kw
    else if String.eqb id "revseqpav" then call (compute_revseqpav e) "fastest" true p k kw
    else if String.eqb id "seqslav" then call (compute_seqslav e) "fastest" true p k kw
    else if String.eqb id "seqcc" then call (compute_seqcc e) "fastest" true p k kw
    else if String.eqb id "seqphragmen" then call (compute_seqphragmen e) "fastest" true p k kw
    else if String.eqb id "minimaxphragmen" then call (compute_minimaxphragmen e) "fastest" false p k kw
    else if String.eqb id "leximaxphragmen" then call_leximax e p k kw
    else if String.eqb id "maximin-support" then call (compute_maximin_support e) "fastest" true p k kw
    else if String.eqb id "monroe" then call (compute_monroe nx e) "fastest" false p k kw
    else if String.eqb id "greedy-monroe" then call (compute_greedy_monroe nx e) "fastest" true p k kw
    else if String.eqb id "minimaxav" then call (compute_minimaxav e) "fastest" false p k kw
    else if String.eqb id "lexminimaxav" then call (compute_lexminimaxav e) "fastest" false p k kw
    else if str_in id ["rule-x"; "equal-shares"; "equal-shares-with-seqphragmen-completion"] then
      call_mes e (Some "seqphragmen") p k kw
    else if String.eqb id "equal-shares-with-av-completion" then call_mes e (Some "av") p k kw
    else if String.eqb id "equal-shares-with-increment-completion" then call_mes e (Some "increment") p k kw
    else if str_in id ["rule-x-without-phragmen-phase"; "equal-shares-without-phragmen-phase";
                       "equal-shares-without-completion"] then
      call_mes e None p k kw
    else if String.eqb id "phragmen-enestroem" then call (compute_phragmen_enestroem e) "fastest" true p k kw
    else if String.eqb id "consensus-rule" then call (compute_consensus_rule e) "fastest" true p k kw
    else if String.eqb id "trivial" then call (compute_trivial_rule e) "standard" false p k kw
    else if String.eqb id "rsd" then call (compute_rsd rnd e) "standard" true p k kw
    else if String.eqb id "eph" then call (compute_eph e) "float-fractions" false p k kw
    else if prefix "geom" id then call (compute_thiele_method e id) "fastest" false p k kw
    else if prefix "seq" id then call (compute_seq_thiele_method e (drop 3 id)) "fastest" true p k kw
    else call (compute_revseq_thiele_method e (drop 6 id)) "fastest" true p k kw.

  (** abcrules.py 559-601, [compute(rule_id, profile, committeesize, result=None, **kwargs)] *)
  Definition compute (id : string) (p : profile) (k : Z) (expected : option (list (list nat))) (kw : kwargs)
    : result (list (list nat)) :=
    do r <- lookup_rule e id;
    do committees <- compute_fct id p k kw;
    match expected with
    | None => Ok committees
    | Some result =>
        let resolute := or_default (kw_resolute kw) (hd false (resolute_values r)) in
        do _ <- verify_expected committees result resolute;
        Ok committees
    end.
End All.

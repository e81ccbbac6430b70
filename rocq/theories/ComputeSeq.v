(** * Model of the public [compute_*] functions of the sequential rules *)
From Coq Require Import String.
From Coq Require Import List Arith Bool ZArith QArith.
From Verif Require Import Prelude Misc Preferences Scores Search Rule RulesThiele Compute RulesSeq RulesMes.
Import ListNotations.
Open Scope nat_scope.
Local Open Scope string_scope.

Section ComputeSeq.
  Variable e : env.

  (** The choice of number type at the start of every algorithm of this family
      (e.g. abcrules.py 2803-2814): [Fraction] and gmpy2's [mpq] are both exact
      rationals; the float variant is [external e]; RulesFloat.v
      ([with_floats]) instantiates it with the model of the floating-point loops. *)
  Definition with_fractions (id alg : string) (p : profile) (k : nat) (resolute : bool) (maxn : option nat)
             (exact : result (list (list nat))) : result (list (list nat)) :=
    if String.eqb alg "float-fractions" then external e id alg p k resolute maxn
    else if String.eqb alg "standard-fractions" then exact
    else if String.eqb alg "gmpy2-fractions" then (if has_gmpy2 (inst e) then exact else Err ImportError)
    else Err UnknownAlgorithm.

  (** abcrules.py 2662-2794, [compute_seqphragmen] *)
  Definition compute_seqphragmen (p : profile) (k : Z) (algorithm : string) (resolute : bool)
             (maxn : option pyobj) : result (list (list nat)) :=
    run e "seqphragmen" p k algorithm resolute maxn (fun alg k maxn =>
      with_fractions "seqphragmen" alg p k resolute maxn (seqphragmen p k resolute maxn)).

  (** abcrules.py 3898-3984, [compute_phragmen_enestroem] *)
  Definition compute_phragmen_enestroem (p : profile) (k : Z) (algorithm : string) (resolute : bool)
             (maxn : option pyobj) : result (list (list nat)) :=
    run e "phragmen-enestroem" p k algorithm resolute maxn (fun alg k maxn =>
      with_fractions "phragmen-enestroem" alg p k resolute maxn (phragmen_enestroem p k resolute maxn)).

  (** abcrules.py 4065-4146, [compute_consensus_rule] *)
  Definition compute_consensus_rule (p : profile) (k : Z) (algorithm : string) (resolute : bool)
             (maxn : option pyobj) : result (list (list nat)) :=
    run e "consensus-rule" p k algorithm resolute maxn (fun alg k maxn =>
      with_fractions "consensus-rule" alg p k resolute maxn (consensus_rule p k resolute maxn)).

  (** abcrules.py 3102-3111: the completion argument ([None] or a string) and the rule id *)
  Definition completion_rule (completion : option string) : result (string * completion_arg) :=
    match completion with
    | None => Ok ("equal-shares-without-completion", NoCompletion)
    | Some s =>
        if String.eqb s "" then Ok ("equal-shares-without-completion", NoCompletion)
        else if String.eqb s "seqphragmen" then Ok ("equal-shares", PhragmenCompletion)
        else if String.eqb s "av" then Ok ("equal-shares-with-av-completion", AvCompletion)
        else if String.eqb s "increment" then Ok ("equal-shares-with-increment-completion", IncrementCompletion)
        else Err ValueError
    end.

  (** abcrules.py 3034-3241, [compute_equal_shares] *)
  Definition compute_equal_shares (p : profile) (k : Z) (algorithm : string) (resolute : bool)
             (maxn : option pyobj) (completion : option string) : result (list (list nat)) :=
    do ic <- completion_rule completion;
    run e (fst ic) p k algorithm resolute maxn (fun alg k maxn =>
      with_fractions (fst ic) alg p k resolute maxn (equal_shares_rule p k resolute maxn (snd ic))).

  (** abcrules.py 2963-3031, [compute_rule_x] *)
  Definition compute_rule_x (p : profile) (k : Z) (algorithm : string) (resolute : bool)
             (maxn : option pyobj) (skip_phragmen_phase : bool) : result (list (list nat)) :=
    compute_equal_shares p k algorithm resolute maxn
      (if skip_phragmen_phase then None else Some "seqphragmen").
End ComputeSeq.

(** * Specification for C63 (committee monotonicity) and C64 (tie-breaking with [resolute=True]) *)
From Coq Require Import String.
From Coq Require Import List Arith Bool ZArith QArith.
From Verif Require Import Prelude Misc Preferences Scores Rule Spec SpecRules Compute SpecCompute SpecSeq SpecAll.
Import ListNotations.
Local Open Scope string_scope.
Open Scope nat_scope.
Local Open Scope list_scope.

(** [house_monotone e p k id alg]: rules that fill one seat after the other (or remove one candidate
    after the other), in the elections with [k] and [k+1] seats for which they are specified. *)
Inductive house_monotone (e : env) (p : profile) (k : nat) : string -> string -> Prop :=
| h_av : house_monotone e p k "av" "standard"
| h_sav : fraction_weights p \/ length (sav_float_scores e p) = num_cand p -> house_monotone e p k "sav" "standard"
| h_seq : forall id f, denotes e id f -> house_monotone e p k ("seq" ++ id)%string "standard"
| h_revseq : forall id f, denotes e id f -> house_monotone e p k ("revseq" ++ id)%string "standard"
| h_seqphragmen : forall alg, exact_arithmetic e alg -> enough_support p k -> enough_support p (S k) -> house_monotone e p k "seqphragmen" alg
| h_maximin : forall alg, In alg ["gurobi"; "mip-gurobi"; "mip-cbc"] -> house_monotone e p k "maximin-support" alg
| h_consensus : forall alg, exact_arithmetic e alg -> house_monotone e p k "consensus-rule" alg
| h_trivial : house_monotone e p k "trivial" "standard".

(** Lists of candidate numbers in the order of a dictionary: the first difference decides. *)
Inductive number_first : list nat -> list nat -> Prop :=
| nf_here : forall a b l l', a < b -> number_first (a :: l) (b :: l')
| nf_later : forall a l l', number_first l l' -> number_first (a :: l) (a :: l').

(** The rules and algorithms that try the committees in this order and keep the first one. *)
Inductive keeps_first (e : env) (p : profile) : string -> string -> Prop :=
| kf_av : keeps_first e p "av" "standard"
| kf_sav : fraction_weights p \/ length (sav_float_scores e p) = num_cand p -> keeps_first e p "sav" "standard"
| kf_thiele : forall id f, denotes e id f -> keeps_first e p id "brute-force"
| kf_trivial : keeps_first e p "trivial" "standard".

(** Those that compute all winning committees and return the first one of the sorted list. *)
Inductive keeps_first_printed (e : env) (p : profile) : string -> string -> Prop :=
| kp_thiele_bb : forall id f, denotes e id f -> (forall i j, 1 <= i -> i <= j -> (f j <= f i)%Q) -> keeps_first_printed e p id "branch-and-bound"
| kp_lexcc : keeps_first_printed e p "lexcc" "brute-force"
| kp_minimaxav : keeps_first_printed e p "minimaxav" "brute-force"
| kp_lexminimaxav : unit_weights p -> keeps_first_printed e p "lexminimaxav" "brute-force"
| kp_monroe : unit_weights p -> keeps_first_printed e p "monroe" "brute-force".

(** * Which rules and algorithms the general theorems cover *)
From Coq Require Import String.
From Coq Require Import List Arith Bool ZArith QArith Permutation.
From Verif Require Import Prelude Misc Preferences Scores Rule Compute Spec SpecRules SpecCompute SpecSeq
  SpecMonroe SpecMore RulesMonroe RulesMore Milp RulesSolver SolverLex SolverPhragmen SolverCompute SpecLoads ComputeAll.
Import ListNotations.
Local Open Scope string_scope.
Open Scope nat_scope.
Local Open Scope list_scope.

(** All keyword arguments given explicitly. *)
Definition args (alg : string) (resolute : bool) (maxn : option pyobj) : kwargs :=
  mkKwargs (Some alg) (Some resolute) (Some maxn) None None false.

(** The score function is non-increasing: every geometric function with base >= 1, PAV, SLAV and CC. *)
Definition non_increasing (f : nat -> Q) : Prop := forall i j, 1 <= i -> i <= j -> (f j <= f i)%Q.

(** [listed e p k id alg]: the rule [id] with algorithm [alg], which exists with
    and without [resolute], in the elections for which it is specified. *)
Inductive listed (e : env) (p : profile) (k : nat) : string -> string -> Prop :=
| l_av : listed e p k "av" "standard"
| l_sav : fraction_weights p \/ length (sav_float_scores e p) = num_cand p -> listed e p k "sav" "standard"
| l_thiele : forall id f, denotes e id f -> listed e p k id "brute-force"
| l_thiele_bb : forall id f, denotes e id f -> non_increasing f -> listed e p k id "branch-and-bound"
| l_thiele_mip : forall id f alg, denotes e id f -> decreasing_to_zero f -> In alg ["gurobi"; "mip-gurobi"; "mip-cbc"] -> listed e p k id alg
| l_cc_cp : Forall (fun v => weight_is_int v = true) (voters p) -> listed e p k "cc" "ortools-cp"
| l_lexcc : listed e p k "lexcc" "brute-force"
| l_lexcc_gurobi : granular p -> listed e p k "lexcc" "gurobi"
| l_seq : forall id f, denotes e id f -> listed e p k ("seq" ++ id)%string "standard"
| l_revseq : forall id f, denotes e id f -> listed e p k ("revseq" ++ id)%string "standard"
| l_seqphragmen : forall alg, exact_arithmetic e alg -> enough_support p k -> listed e p k "seqphragmen" alg
| l_minimaxphragmen : forall alg, weights_at_least_one p -> k <= length (approved_candidates p) ->
    In alg ["gurobi"; "mip-gurobi"; "mip-cbc"] -> listed e p k "minimaxphragmen" alg
| l_leximaxphragmen : weights_at_least_one p -> k <= length (approved_candidates p) -> listed e p k "leximaxphragmen" "gurobi"
| l_maximin : forall alg, In alg ["gurobi"; "mip-gurobi"; "mip-cbc"] -> listed e p k "maximin-support" alg
| l_monroe : forall alg, unit_weights p -> In alg ["gurobi"; "mip-gurobi"; "mip-cbc"; "ortools-cp"; "brute-force"] -> listed e p k "monroe" alg
| l_minimaxav : forall alg, In alg ["gurobi"; "mip-gurobi"; "mip-cbc"; "ortools-cp"; "brute-force"] -> listed e p k "minimaxav" alg
| l_lexminimaxav : forall alg, unit_weights p -> In alg ["gurobi"; "brute-force"] -> listed e p k "lexminimaxav" alg
| l_mes_phragmen : forall id alg, exact_arithmetic e alg -> enough_support p k ->
    In id ["rule-x"; "equal-shares"; "equal-shares-with-seqphragmen-completion"] -> listed e p k id alg
| l_mes_av : forall alg, exact_arithmetic e alg -> listed e p k "equal-shares-with-av-completion" alg
| l_enestroem : forall alg, exact_arithmetic e alg -> listed e p k "phragmen-enestroem" alg
| l_consensus : forall alg, exact_arithmetic e alg -> listed e p k "consensus-rule" alg
| l_trivial : listed e p k "trivial" "standard"
| l_eph : forall alg, exact_arithmetic e alg -> 2 <= num_cand p -> listed e p k "eph" alg.

(** Equal Shares without completion: it may elect fewer than [k] candidates. *)
Inductive listed_short (e : env) : string -> string -> Prop :=
| ls_mes : forall id alg, exact_arithmetic e alg ->
    In id ["rule-x-without-phragmen-phase"; "equal-shares-without-phragmen-phase"; "equal-shares-without-completion"] ->
    listed_short e id alg.

(** Rules that exist only for [resolute=True]. *)
Inductive listed_resolute (e : env) (p : profile) : string -> string -> Prop :=
| lr_greedy_monroe : unit_weights p -> listed_resolute e p "greedy-monroe" "standard"
| lr_rsd : unit_weights p -> listed_resolute e p "rsd" "standard"
| lr_increment : forall alg, exact_arithmetic e alg -> unit_support p -> listed_resolute e p "equal-shares-with-increment-completion" alg.

(** [elects e p k id P]: the winning committees of the rule [id] are those with [P]. *)
Inductive elects (e : env) (p : profile) (k : nat) : string -> (list nat -> Prop) -> Prop :=
| e_av : elects e p k "av" (maximises (fun W => Qsum (map (support p) W)) p k)
| e_sav : fraction_weights p -> elects e p k "sav" (maximises (fun W => Qsum (map (sav_support p) W)) p k)
| e_sav_float : ~ fraction_weights p ->
    elects e p k "sav" (maximises (fun W => Qsum (map (fun c => nth c (sav_float_scores e p) 0%Q) W)) p k)
| e_thiele : forall id f, denotes e id f -> elects e p k id (maximises (Thiele f p) p k)
| e_lexcc : elects e p k "lexcc" (lexcc_winner p k)
| e_seq : forall id f, denotes e id f -> elects e p k ("seq" ++ id)%string (seq_thiele_winner f p k)
| e_revseq : forall id f, denotes e id f -> elects e p k ("revseq" ++ id)%string (revseq_winner f p k)
| e_seqphragmen : elects e p k "seqphragmen" (phragmen_winner p k)
| e_minimaxphragmen : elects e p k "minimaxphragmen" (minimaxphragmen_winner CMP_ACCURACY p k)
| e_leximaxphragmen : forall bounds, enough_bounds p k bounds -> elects e p k "leximaxphragmen" (leximax_winner p k bounds)
| e_maximin : elects e p k "maximin-support" (maximin_winner CMP_ACCURACY p k)
| e_monroe : elects e p k "monroe" (monroe_winner p k)
| e_minimaxav : elects e p k "minimaxav" (minimaxav_winner p k)
| e_lexminimaxav : elects e p k "lexminimaxav" (lexminimaxav_winner p k)
| e_mes_phragmen : forall id, In id ["rule-x"; "equal-shares"; "equal-shares-with-seqphragmen-completion"] ->
    elects e p k id (mes_winner p k (equal_share p k) (phragmen_completion p k))
| e_mes_av : elects e p k "equal-shares-with-av-completion" (mes_winner p k (equal_share p k) (av_completion p k))
| e_mes_short : forall id,
    In id ["rule-x-without-phragmen-phase"; "equal-shares-without-phragmen-phase"; "equal-shares-without-completion"] ->
    elects e p k id (mes_winner p k (equal_share p k) no_completion)
| e_enestroem : elects e p k "phragmen-enestroem" (enestroem_winner p k)
| e_consensus : elects e p k "consensus-rule" (consensus_winner p k)
| e_trivial : elects e p k "trivial" (is_committee p k)
| e_eph : elects e p k "eph" (eph_winner p k)
| e_greedy_monroe : elects e p k "greedy-monroe" (greedy_monroe_winner p k)
| e_rsd : elects e p k "rsd" (rsd_outcome p k)
| e_increment : elects e p k "equal-shares-with-increment-completion" (mes_increment_winner p k).

(** What the libraries are assumed to do. *)
Definition libraries_ok (p : profile) (rnd : random) (nx : networkx) (sv : solvers) (e : env) : Prop :=
  random_ok rnd /\ networkx_correct nx /\ exact_solvers p sv /\
  (forall l, Permutation (set_order e l) l) /\ (forall l l', Permutation l l' -> set_order e l = set_order e l').

(** At most [k] candidates, as an ascending list. *)
Definition is_small_committee (p : profile) (k : nat) (W : list nat) : Prop :=
  ascending W /\ length W <= k /\ Forall (fun c => c < num_cand p) W.

(** * Specification for C66 (more approvals), C67 (joining elections) and C68 (refinements) *)
From Coq Require Import String.
From Coq Require Import List Arith Bool ZArith QArith.
From Verif Require Import Prelude Misc Preferences Scores Rule Spec SpecRules Compute SpecCompute SpecSeq SolverLex SolverPhragmen SolverCompute RulesSolver SpecAll.
Import ListNotations.
Local Open Scope string_scope.
Open Scope nat_scope.
Local Open Scope list_scope.

(** [u] is [v], who possibly approves [c] in addition *)
Definition voter_gains (c : nat) (v u : voter) : Prop :=
  weight u = weight v /\ weight_is_int u = weight_is_int v /\
  (forall d, d <> c -> (In d (approved u) <-> In d (approved v))) /\ (In c (approved v) -> In c (approved u)).
(** in [q] some voters approve [c] in addition; nothing else is changed *)
Definition gains (c : nat) (p q : profile) : Prop :=
  num_cand q = num_cand p /\ Forall2 (voter_gains c) (voters p) (voters q).

(** the rules for which this cannot hurt [c], in the elections [p] and [q] for which they are specified *)
Inductive approval_monotone (e : env) (p q : profile) (k : nat) : string -> string -> Prop :=
| am_av : approval_monotone e p q k "av" "standard"
| am_sav : fraction_weights p -> approval_monotone e p q k "sav" "standard"
| am_thiele : forall id f, denotes e id f -> approval_monotone e p q k id "brute-force"
| am_thiele_bb : forall id f, denotes e id f -> non_increasing f -> approval_monotone e p q k id "branch-and-bound"
| am_thiele_mip : forall id f alg, denotes e id f -> decreasing_to_zero f -> In alg ["gurobi"; "mip-gurobi"; "mip-cbc"] -> approval_monotone e p q k id alg
| am_cc_cp : Forall (fun v => weight_is_int v = true) (voters p) -> approval_monotone e p q k "cc" "ortools-cp"
| am_lexcc : approval_monotone e p q k "lexcc" "brute-force"
| am_lexcc_gurobi : granular p -> approval_monotone e p q k "lexcc" "gurobi"
| am_seq : forall id f, denotes e id f -> approval_monotone e p q k ("seq" ++ id)%string "standard"
| am_seqphragmen : forall alg, exact_arithmetic e alg -> enough_support p k -> enough_support q k -> approval_monotone e p q k "seqphragmen" alg
| am_minimaxphragmen : forall alg, weights_at_least_one p -> k <= length (approved_candidates p) -> In alg ["gurobi"; "mip-gurobi"; "mip-cbc"] ->
    approval_monotone e p q k "minimaxphragmen" alg
| am_maximin : forall alg, In alg ["gurobi"; "mip-gurobi"; "mip-cbc"] -> approval_monotone e p q k "maximin-support" alg
| am_monroe : forall alg, unit_weights p -> In alg ["gurobi"; "mip-gurobi"; "mip-cbc"; "ortools-cp"; "brute-force"] -> approval_monotone e p q k "monroe" alg
| am_minimaxav : forall alg, In alg ["gurobi"; "mip-gurobi"; "mip-cbc"; "ortools-cp"; "brute-force"] -> approval_monotone e p q k "minimaxav" alg
| am_lexminimaxav : forall alg, unit_weights p -> In alg ["gurobi"; "brute-force"] -> approval_monotone e p q k "lexminimaxav" alg
| am_mes_phragmen : forall id alg, exact_arithmetic e alg -> enough_support p k -> enough_support q k ->
    In id ["rule-x"; "equal-shares"; "equal-shares-with-seqphragmen-completion"] -> approval_monotone e p q k id alg
| am_mes_av : forall alg, exact_arithmetic e alg -> approval_monotone e p q k "equal-shares-with-av-completion" alg
| am_mes_short : forall id alg, exact_arithmetic e alg ->
    In id ["rule-x-without-phragmen-phase"; "equal-shares-without-phragmen-phase"; "equal-shares-without-completion"] -> approval_monotone e p q k id alg
| am_enestroem : forall alg, exact_arithmetic e alg -> approval_monotone e p q k "phragmen-enestroem" alg
| am_consensus : forall alg, exact_arithmetic e alg -> approval_monotone e p q k "consensus-rule" alg
| am_trivial : approval_monotone e p q k "trivial" "standard".

(** all voters of [p] and [q] together *)
Definition joined (p q r : profile) : Prop :=
  num_cand q = num_cand p /\ num_cand r = num_cand p /\ voters r = voters p ++ voters q.

(** the rules that maximise a sum over the voters (or compare such sums one after the other), in elections for which they are specified *)
Inductive additive_rule (e : env) (p : profile) : string -> string -> Prop :=
| ad_av : additive_rule e p "av" "standard"
| ad_sav : fraction_weights p -> additive_rule e p "sav" "standard"
| ad_thiele : forall id f, denotes e id f -> additive_rule e p id "brute-force"
| ad_thiele_bb : forall id f, denotes e id f -> non_increasing f -> additive_rule e p id "branch-and-bound"
| ad_thiele_mip : forall id f alg, denotes e id f -> decreasing_to_zero f -> In alg ["gurobi"; "mip-gurobi"; "mip-cbc"] -> additive_rule e p id alg
| ad_cc_cp : Forall (fun v => weight_is_int v = true) (voters p) -> additive_rule e p "cc" "ortools-cp"
| ad_lexcc : additive_rule e p "lexcc" "brute-force"
| ad_lexcc_gurobi : granular p -> additive_rule e p "lexcc" "gurobi"
| ad_lexminimaxav : forall alg, unit_weights p -> In alg ["gurobi"; "brute-force"] -> additive_rule e p "lexminimaxav" alg
| ad_trivial : additive_rule e p "trivial" "standard".

(** [refines e p id alg id' alg']: the first rule breaks ties of the second one *)
Inductive refines (e : env) (p : profile) : string -> string -> string -> string -> Prop :=
| rf_lexcc : forall alg alg', alg = "brute-force" \/ (alg = "gurobi" /\ granular p) ->
    alg' = "brute-force" \/ alg' = "branch-and-bound" \/ In alg' ["gurobi"; "mip-gurobi"; "mip-cbc"] \/
      (alg' = "ortools-cp" /\ Forall (fun v => weight_is_int v = true) (voters p)) -> refines e p "lexcc" alg "cc" alg'
| rf_lexminimaxav : forall alg alg', unit_weights p -> In alg ["gurobi"; "brute-force"] ->
    In alg' ["gurobi"; "mip-gurobi"; "mip-cbc"; "ortools-cp"; "brute-force"] -> refines e p "lexminimaxav" alg "minimaxav" alg'.

(** ** C69: every voter approves at least as many members of [V] as of [W], some voter more *)
Definition dominates (p : profile) (V W : list nat) : Prop :=
  (forall v, In v (voters p) -> util v W <= util v V) /\ exists v, In v (voters p) /\ util v W < util v V.
(** the rules that elect undominated committees only *)
Inductive efficient (e : env) (p : profile) : string -> string -> Prop :=
| ef_av : efficient e p "av" "standard"
| ef_sav : fraction_weights p -> efficient e p "sav" "standard"
| ef_thiele : forall id f, denotes e id f -> id <> "cc" -> efficient e p id "brute-force"
| ef_thiele_bb : forall id f, denotes e id f -> id <> "cc" -> non_increasing f -> efficient e p id "branch-and-bound"
| ef_thiele_mip : forall id f alg, denotes e id f -> id <> "cc" -> decreasing_to_zero f -> In alg ["gurobi"; "mip-gurobi"; "mip-cbc"] -> efficient e p id alg
| ef_lexcc : efficient e p "lexcc" "brute-force"
| ef_lexcc_gurobi : granular p -> efficient e p "lexcc" "gurobi"
| ef_lexminimaxav : forall alg, unit_weights p -> In alg ["gurobi"; "brute-force"] -> efficient e p "lexminimaxav" alg.
(** the rules for which a committee dominating a winning one wins too *)
Inductive weakly_efficient (e : env) (p : profile) : string -> string -> Prop :=
| we_cc : forall alg, alg = "brute-force" \/ alg = "branch-and-bound" \/ In alg ["gurobi"; "mip-gurobi"; "mip-cbc"] \/
    (alg = "ortools-cp" /\ Forall (fun v => weight_is_int v = true) (voters p)) -> weakly_efficient e p "cc" alg
| we_minimaxav : forall alg, In alg ["gurobi"; "mip-gurobi"; "mip-cbc"; "ortools-cp"; "brute-force"] -> weakly_efficient e p "minimaxav" alg.

(** ** C70: the rules that elect the most approved candidates if there is a single seat *)
Inductive single_seat_av (e : env) (p : profile) : string -> string -> Prop :=
| ss_thiele : forall id f, denotes e id f -> single_seat_av e p id "brute-force"
| ss_thiele_bb : forall id f, denotes e id f -> non_increasing f -> single_seat_av e p id "branch-and-bound"
| ss_thiele_mip : forall id f alg, denotes e id f -> decreasing_to_zero f -> In alg ["gurobi"; "mip-gurobi"; "mip-cbc"] -> single_seat_av e p id alg
| ss_cc_cp : Forall (fun v => weight_is_int v = true) (voters p) -> single_seat_av e p "cc" "ortools-cp"
| ss_lexcc : single_seat_av e p "lexcc" "brute-force"
| ss_lexcc_gurobi : granular p -> single_seat_av e p "lexcc" "gurobi"
| ss_seq : forall id f, denotes e id f -> single_seat_av e p ("seq" ++ id)%string "standard"
| ss_seqphragmen : forall alg, exact_arithmetic e alg -> enough_support p 1 -> single_seat_av e p "seqphragmen" alg
| ss_monroe : forall alg, unit_weights p -> In alg ["gurobi"; "mip-gurobi"; "mip-cbc"; "ortools-cp"; "brute-force"] -> single_seat_av e p "monroe" alg
| ss_mes_phragmen : forall id alg, exact_arithmetic e alg -> enough_support p 1 ->
    In id ["rule-x"; "equal-shares"; "equal-shares-with-seqphragmen-completion"] -> single_seat_av e p id alg
| ss_mes_av : forall alg, exact_arithmetic e alg -> single_seat_av e p "equal-shares-with-av-completion" alg
| ss_enestroem : forall alg, exact_arithmetic e alg -> single_seat_av e p "phragmen-enestroem" alg
| ss_consensus : forall alg, exact_arithmetic e alg -> single_seat_av e p "consensus-rule" alg.

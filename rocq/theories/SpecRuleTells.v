(** * Which report belongs to which rule *)
From Coq Require Import String Ascii.
From Coq Require Import List Arith Bool ZArith QArith.
From Verif Require Import Prelude Misc Preferences Compute Spec SpecRules SpecCompute SpecSeq SpecMonroe SpecText Milp RulesSolver SpecLoads Output SpecRuleReport.
Import ListNotations.
Local Open Scope string_scope.
Open Scope nat_scope.
Local Open Scope list_scope.

(** ** Names *)
(** the number of characters of a text in UTF-8: every character has exactly one byte outside 128..191 *)
Definition characters (s : string) : nat :=
  length (filter (fun b => (nat_of_ascii b <? 128) || (192 <=? nat_of_ascii b)) (list_ascii_of_string s)).
(** a-z (97-122) replaced by A-Z *)
Definition capitals (s : string) : string :=
  string_of_list_ascii (map (fun b => if (97 <=? nat_of_ascii b) && (nat_of_ascii b <=? 122) then ascii_of_nat (nat_of_ascii b - 32) else b)
                            (list_ascii_of_string s)).

Definition RULE_NAMES : list (string * string) :=
  [("av", "Approval Voting (AV)");
   ("sav", "Satisfaction Approval Voting (SAV)");
   ("pav", "Proportional Approval Voting (PAV)");
   ("slav", "Sainte-Laguë Approval Voting (SLAV)");
   ("cc", "Approval Chamberlin-Courant (CC)");
   ("lexcc", "Lexicographic Chamberlin-Courant (lex-CC)");
   ("seqpav", "Sequential Proportional Approval Voting (seq-PAV)");
   ("seqslav", "Sequential Sainte-Laguë Approval Voting (seq-SLAV)");
   ("seqcc", "Sequential Approval Chamberlin-Courant (seq-CC)");
   ("revseqpav", "Reverse Sequential Proportional Approval Voting (revseq-PAV)");
   ("revseqslav", "Reverse Sequential Sainte-Laguë Approval Voting (SLAV)");
   ("revseqcc", "Reverse Sequential Approval Chamberlin-Courant (CC)");
   ("seqphragmen", "Phragmén's Sequential Rule (seq-Phragmén)");
   ("minimaxphragmen", "Phragmén's Minimax Rule (minimax-Phragmén)");
   ("leximaxphragmen", "Phragmén's Leximax Rule (leximax-Phragmén)");
   ("maximin-support", "Maximin Support Method (MMS)");
   ("monroe", "Monroe's Approval Rule (Monroe)");
   ("greedy-monroe", "Greedy Monroe");
   ("minimaxav", "Minimax Approval Voting (MAV)");
   ("lexminimaxav", "Lexicographic Minimax Approval Voting (lex-MAV)");
   ("rule-x", "Method of Equal Shares (aka Rule X) with Phragmén phase");
   ("equal-shares", "Method of Equal Shares (aka Rule X) with Phragmén phase");
   ("equal-shares-with-seqphragmen-completion", "Method of Equal Shares (aka Rule X) with Phragmén phase");
   ("equal-shares-with-av-completion", "Method of Equal Shares (aka Rule X) with AV completion");
   ("equal-shares-with-increment-completion", "Method of Equal Shares (aka Rule X) with increment completion");
   ("rule-x-without-phragmen-phase", "Method of Equal Shares (aka Rule X) without completion (second phase)");
   ("equal-shares-without-phragmen-phase", "Method of Equal Shares (aka Rule X) without completion (second phase)");
   ("equal-shares-without-completion", "Method of Equal Shares (aka Rule X) without completion (second phase)");
   ("phragmen-enestroem", "Method of Phragmén-Eneström");
   ("consensus-rule", "Consensus Rule");
   ("trivial", "Trivial Rule");
   ("rsd", "Random Serial Dictator");
   ("eph", "E Pluribus Hugo (EPH)")].
Inductive rule_name : string -> string -> Prop :=
| rn_listed : forall id name, In (id, name) RULE_NAMES -> rule_name id name
| rn_geom : forall s, rule_name ("geom" ++ s) (s ++ "-Geometric Rule")
| rn_seqgeom : forall s, rule_name ("seqgeom" ++ s) ("Sequential " ++ s ++ "-Geometric Rule")
| rn_revseqgeom : forall s, rule_name ("revseqgeom" ++ s) ("Reverse Sequential " ++ s ++ "-Geometric Rule").

Definition ALGORITHM_TITLES : list (string * string) :=
  [("gurobi", "Gurobi ILP solver"); ("mip-gurobi", "Gurobi ILP solver via Python MIP library");
   ("mip-cbc", "CBC ILP solver via Python MIP library"); ("ortools-cp", "OR-Tools CP-SAT solver");
   ("branch-and-bound", "branch-and-bound"); ("brute-force", "brute-force"); ("standard", "Standard algorithm");
   ("standard-fractions", "Standard algorithm (using standard Python fractions)");
   ("gmpy2-fractions", "Standard algorithm (using gmpy2 fractions)")].

(** ** Accounts *)
(** the loads [y] after the election of [W] *)
Definition final_loads (num : Q -> string) (p : profile) (W : list nat) (y : nat -> Q) (ms : list message) : Prop :=
  exists t s, set_text (cand_names p) W t /\ shows_voters num p y s /\
    ms = [line "" "corresponding load distribution:"; line "" (t ++ ": " ++ s ++ nl)%string].

(** [tells num e p k id resolute cs style before after]: what the rule [id] says before and after it lists the winning committees [cs]. *)
Inductive tells (num : Q -> string) (e : env) (p : profile) (k : nat) :
  string -> bool -> list (list nat) -> style -> (list message -> Prop) -> (list message -> Prop) -> Prop :=
| t_av : forall r cs, tells num e p k "av" r cs Optimising (separable_account num p k (support p)) nothing
| t_sav : forall r cs, fraction_weights p -> tells num e p k "sav" r cs Optimising (separable_account num p k (sav_support p)) nothing
| t_sav_float : forall r cs, ~ fraction_weights p ->
    tells num e p k "sav" r cs Optimising (separable_account num p k (fun c => nth c (sav_float_scores e p) 0%Q)) nothing
| t_thiele : forall id f r cs, denotes e id f -> tells num e p k id r cs Optimising (optimal_score num (capitals id) (Thiele f p) p k) nothing
| t_lexcc : forall r cs, tells num e p k "lexcc" r cs Optimising (at_least_scores num p k) nothing
| t_seq_one : forall id f cs, denotes e id f ->
    tells num e p k ("seq" ++ id)%string true cs Sequential (seq_thiele_told num f p k cs) (scores_told num f (capitals id) p cs)
| t_seq_all : forall id f cs, denotes e id f -> tells num e p k ("seq" ++ id)%string false cs Sequential nothing (scores_told num f (capitals id) p cs)
| t_revseq_one : forall id f cs, denotes e id f ->
    tells num e p k ("revseq" ++ id)%string true cs Sequential (revseq_told num f p k cs) (revseq_scores_told num f p true cs)
| t_revseq_all : forall id f cs, denotes e id f ->
    tells num e p k ("revseq" ++ id)%string false cs Sequential nothing (revseq_scores_told num f p false cs)
| t_seqphragmen_one : forall L y, length L = k ->
    tells num e p k "seqphragmen" true [isort L] Sequential (phragmen_told num p k L y) (final_loads num p (isort L) y)
| t_seqphragmen_all : forall cs,
    tells num e p k "seqphragmen" false cs Sequential nothing (loads_told num p k (negb (length cs =? 1)) cs)
| t_maximin_one : forall cs, tells num e p k "maximin-support" true cs Sequential (maximin_told num CMP_ACCURACY p k cs) nothing
| t_maximin_all : forall cs, tells num e p k "maximin-support" false cs Sequential nothing nothing
| t_monroe : forall r cs, tells num e p k "monroe" r cs Optimising (monroe_score_line p k) nothing
| t_greedy_monroe : forall W, tells num e p k "greedy-monroe" true [W] Plain (districts_told p W) nothing
| t_minimaxav : forall r cs, tells num e p k "minimaxav" r cs Optimising nothing (minimax_distances p k cs)
| t_lexminimaxav : forall r cs, tells num e p k "lexminimaxav" r cs Optimising nothing (lexminimax_distances p k cs)
| t_mes_phragmen : forall id cs, In id ["rule-x"; "equal-shares"; "equal-shares-with-seqphragmen-completion"] ->
    tells num e p k id true cs Sequential (mes_told num p k (second_phase num p k cs)) nothing
| t_mes_av : forall cs, tells num e p k "equal-shares-with-av-completion" true cs Sequential (mes_told num p k (av_second_phase p k cs)) nothing
| t_mes_short : forall id cs, In id ["rule-x-without-phragmen-phase"; "equal-shares-without-phragmen-phase"; "equal-shares-without-completion"] ->
    tells num e p k id true cs Sequential (mes_told num p k (no_second_phase p k cs)) nothing
| t_mes_all : forall id cs, In id ["rule-x"; "equal-shares"; "equal-shares-with-seqphragmen-completion"; "equal-shares-with-av-completion";
      "rule-x-without-phragmen-phase"; "equal-shares-without-phragmen-phase"; "equal-shares-without-completion"] ->
    tells num e p k id false cs Sequential nothing nothing
| t_mes_increment : forall cs, tells num e p k "equal-shares-with-increment-completion" true cs Sequential (increment_told p k cs) nothing
| t_optimising : forall id r cs, In id ["minimaxphragmen"; "leximaxphragmen"; "trivial"; "eph"] -> tells num e p k id r cs Optimising nothing nothing
| t_sequential : forall id r cs, In id ["phragmen-enestroem"; "consensus-rule"] -> tells num e p k id r cs Sequential nothing nothing
| t_rsd : forall cs, tells num e p k "rsd" true cs Plain nothing nothing.

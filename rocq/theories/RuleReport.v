(** * Model of the "optional output" of the [compute_*] functions (abcrules.py, misc.py)

    After computing the committees every [compute_*] function sends messages to the output object: a header, the mode, the
    algorithm, an account of the computation (level DETAILS) and the winning committees.  [report_*] below are these messages.
    The algorithms record what they need in [detailed_info]; here the loops that record it are written again, next to the loops of
    RulesThiele.v, RulesSeq.v, RulesMes.v and RulesSolver.v (the proofs show that they agree).
    Simplification: an exception raised while a message is formatted loses the messages before it; C76 shows that there is none.
    Numbers are printed by [str_num], Python's [str] of an int, [Fraction], [mpq] (or float, where the algorithm computes with floats). *)
From Coq Require Import String Ascii.
From Coq Require Import List Arith Bool ZArith QArith.
From Verif Require Import Prelude Misc Preferences Scores Search Rule RulesThiele Compute RulesSeq RulesMes RulesMonroe Milp RulesSolver Output CheckReport.
Import ListNotations.
Local Open Scope string_scope.
Open Scope nat_scope.
Local Open Scope list_scope.

(** ** Texts *)

(** [len(s)]: the number of code points of an UTF-8 string, i.e. of bytes that are not 10xxxxxx *)
Definition continuation (c : ascii) : bool := (128 <=? nat_of_ascii c) && (nat_of_ascii c <? 192).
Fixpoint py_len (s : string) : nat :=
  match s with
  | EmptyString => 0
  | String c r => if continuation c then py_len r else S (py_len r)
  end.
(** misc.py 238-254, [header] with the default symbol *)
Definition header (s : string) : string :=
  let border := (String.concat "" (repeat "-" (py_len s)) ++ nl)%string in (border ++ s ++ nl ++ border)%string.

(** misc.py 133-163, [str_sets_of_candidates] with names *)
Definition str_sets_with_names (sets : list (list nat)) (names : list string) : result string :=
  do l <- rmapM (fun s => str_set_with_names s names) sets;
  Ok (" " ++ String.concat (nl ++ " ") l ++ nl)%string.
(** misc.py 166-214, [str_committees_with_header(committees, cand_names, winning=True)] *)
Definition winners_text (committees : list (list nat)) (names : list string) : result string :=
  match committees with
  | [] => Ok "No winning committees"
  | _ => do t <- str_sets_with_names committees names;
         Ok ((if Nat.eqb (List.length committees) 1 then "1 winning committee:"
              else str_nat (List.length committees) ++ " winning committees:") ++ nl ++ t)%string
  end.

(** [s.upper()] for ASCII letters *)
Definition upper_ascii (c : ascii) : ascii :=
  if (97 <=? nat_of_ascii c) && (nat_of_ascii c <=? 122) then ascii_of_nat (nat_of_ascii c - 32) else c.
Fixpoint upper (s : string) : string :=
  match s with EmptyString => EmptyString | String c r => String (upper_ascii c) (upper r) end.

(** abcrules.py 57-72 *)
Definition ALGORITHM_NAMES : list (string * string) :=
  [("gurobi", "Gurobi ILP solver"); ("branch-and-bound", "branch-and-bound"); ("brute-force", "brute-force");
   ("mip-cbc", "CBC ILP solver via Python MIP library"); ("mip-gurobi", "Gurobi ILP solver via Python MIP library");
   ("standard", "Standard algorithm"); ("standard-fractions", "Standard algorithm (using standard Python fractions)");
   ("gmpy2-fractions", "Standard algorithm (using gmpy2 fractions)");
   ("float-fractions", "Standard algorithm (using floats instead of fractions)"); ("ortools-cp", "OR-Tools CP-SAT solver")].
Fixpoint assoc (key : string) (l : list (string * string)) : result string :=
  match l with
  | [] => Err KeyError
  | (a, b) :: r => if String.eqb a key then Ok b else assoc key r
  end.
Definition algorithm_name (alg : string) : result string := assoc alg ALGORITHM_NAMES.

(** abcrules.py 113-291, [longname] of the rules with a fixed identifier *)
Definition LONGNAMES : list (string * string) :=
  [("av", "Approval Voting (AV)"); ("sav", "Satisfaction Approval Voting (SAV)"); ("pav", "Proportional Approval Voting (PAV)");
   ("slav", "Sainte-Laguë Approval Voting (SLAV)"); ("cc", "Approval Chamberlin-Courant (CC)");
   ("lexcc", "Lexicographic Chamberlin-Courant (lex-CC)"); ("seqpav", "Sequential Proportional Approval Voting (seq-PAV)");
   ("revseqpav", "Reverse Sequential Proportional Approval Voting (revseq-PAV)");
   ("seqslav", "Sequential Sainte-Laguë Approval Voting (seq-SLAV)"); ("seqcc", "Sequential Approval Chamberlin-Courant (seq-CC)");
   ("seqphragmen", "Phragmén's Sequential Rule (seq-Phragmén)"); ("minimaxphragmen", "Phragmén's Minimax Rule (minimax-Phragmén)");
   ("leximaxphragmen", "Phragmén's Leximax Rule (leximax-Phragmén)"); ("maximin-support", "Maximin Support Method (MMS)");
   ("monroe", "Monroe's Approval Rule (Monroe)"); ("greedy-monroe", "Greedy Monroe"); ("minimaxav", "Minimax Approval Voting (MAV)");
   ("lexminimaxav", "Lexicographic Minimax Approval Voting (lex-MAV)");
   ("rule-x", "Method of Equal Shares (aka Rule X) with Phragmén phase");
   ("equal-shares", "Method of Equal Shares (aka Rule X) with Phragmén phase");
   ("equal-shares-with-seqphragmen-completion", "Method of Equal Shares (aka Rule X) with Phragmén phase");
   ("equal-shares-with-av-completion", "Method of Equal Shares (aka Rule X) with AV completion");
   ("equal-shares-with-increment-completion", "Method of Equal Shares (aka Rule X) with increment completion");
   ("rule-x-without-phragmen-phase", "Method of Equal Shares (aka Rule X) without completion (second phase)");
   ("equal-shares-without-phragmen-phase", "Method of Equal Shares (aka Rule X) without completion (second phase)");
   ("equal-shares-without-completion", "Method of Equal Shares (aka Rule X) without completion (second phase)");
   ("phragmen-enestroem", "Method of Phragmén-Eneström"); ("consensus-rule", "Consensus Rule"); ("trivial", "Trivial Rule");
   ("rsd", "Random Serial Dictator"); ("eph", "E Pluribus Hugo (EPH)")].
(** abcrules.py 300-303: geomX; [parameter = rule_id[4:]] *)
Definition listed_longname (id : string) : result string :=
  match assoc id LONGNAMES with
  | Ok s => Ok s
  | Err _ => if prefix "geom" id then Ok (drop 4 id ++ "-Geometric Rule")%string else Err UnknownRuleIDError
  end.
(** abcrules.py 306-338: seqX, revseqX *)
Definition longname (id : string) : result string :=
  match listed_longname id with
  | Ok s => Ok s
  | Err _ => if prefix "seq" id then (do n <- listed_longname (drop 3 id); Ok ("Sequential " ++ n)%string)
             else if prefix "revseq" id then (do n <- listed_longname (drop 6 id); Ok ("Reverse Sequential " ++ n)%string)
             else Err UnknownRuleIDError
  end.

(** ** The frame of every report *)

(** e.g. abcrules.py 717-718 (optimisation rules) and 1222-1224 (sequential rules) *)
Inductive mode := OptimisationMode | SequentialMode | NoMode.
Definition mode_messages (m : mode) (resolute : bool) : list message :=
  match m with
  | OptimisationMode => if resolute then [info ("Computing only one winning committee (resolute=True)" ++ nl)%string] else []
  | SequentialMode => if resolute then []
                      else [info "Computing all possible winning committees for any tiebreaking order";
                            info (" (aka parallel universes tiebreaking) (resolute=False)" ++ nl)%string]
  | NoMode => []
  end.
(** e.g. abcrules.py 715-728: header, mode, algorithm, details, committees, more details *)
Definition frame (id alg : string) (m : mode) (resolute : bool) (p : profile) (before : result (list message)) (committees : list (list nat))
           (after : result (list message)) : result (list message) :=
  do name <- longname id;
  do algname <- algorithm_name alg;
  do b <- before;
  do t <- winners_text committees (cand_names p);
  do a <- after;
  Ok (mkMessage INFO (header name) false "" :: mode_messages m resolute ++
      details ("Algorithm: " ++ algname ++ nl)%string "" :: b ++ info t :: a).

(** [for x in l: <messages>] *)
Definition rconcat {A} (f : A -> result (list message)) (l : list A) : result (list message) :=
  do ls <- rmapM f l; Ok (List.concat ls).
(** [enumerate(l)] *)
Definition enumerate {A} (l : list A) : list (nat * A) := combine (seq 0 (List.length l)) l.

Section RuleReport.
  Variable str_num : Q -> string.

  (** e.g. abcrules.py 2757-2760: ["(" + ", ".join(...) + ")"]; [msg[:-2]] removes the last separator (of "(" without voters, everything) *)
  Definition tuple_text (l : list Q) : string :=
    match l with
    | [] => ")"
    | _ => "(" ++ String.concat ", " (map str_num l) ++ ")"
    end%string.

  (** *** Thiele methods: abcrules.py 715-728; [committees[0]] *)
  Definition thiele_details (f : nat -> Q) (id : string) (p : profile) (cs : list (list nat)) : result (list message) :=
    match cs with
    | [] => Err IndexError
    | c :: _ => Ok [details ("Optimal " ++ upper id ++ "-score: " ++ str_num (thiele_score f p c) ++ nl)%string ""]
    end.
  Definition report_thiele (f : nat -> Q) (id alg : string) (p : profile) (resolute : bool) (cs : list (list nat)) : result (list message) :=
    frame id alg OptimisationMode resolute p (thiele_details f id p cs) cs (Ok []).

  (** *** lexcc: abcrules.py 1106-1117; the vector of _lexcc_bruteforce (1126-1142) and of _gurobi_lexcc (abcrules_gurobi.py 281-297) *)
  Definition lexcc_brute_vector (p : profile) (k : nat) : list Q :=
    snd (scan (fun s best => match lex_compare best s with LexGreater => true | _ => false end)
              (fun s best => match lex_compare best s with LexEqual => true | _ => false end)
              (lexcc_vector p k) true (repeat 0%Q k) (combinations (candidates p) k)).
  Definition lexcc_gurobi_vector (s : solver) (p : profile) (k : nat) (resolute : bool) (maxn : option nat) : result (list Q) :=
    do sc <- lexcc_iterations s p k (seq 1 (k - 1)) [];
    do opt <- optimize_rule s MIP_THRESHOLD p k (Some (atleast_score p k)) resolute maxn (lexcc_program p k sc);
    match fst opt with
    | [] => Err IndexError
    | c :: _ => Ok (sc ++ [thiele_score (atleast k) p c])
    end.
  Definition lexcc_details (vector : list Q) : list message :=
    details "At-least-ell scores:" "" ::
    map (fun il => details ("at-least-" ++ str_nat (S (fst il)) ++ ": " ++ str_num (snd il))%string " ") (enumerate vector).
  Definition report_lexcc (vector : result (list Q)) (alg : string) (p : profile) (resolute : bool) (cs : list (list nat)) : result (list message) :=
    frame "lexcc" alg OptimisationMode resolute p (do v <- vector; Ok (lexcc_details v)) cs (Ok []).

  (** *** Sequential Thiele methods *)
  (** one round: the candidate, the tied candidates, the marginal score; abcrules.py 1283-1297 *)
  Fixpoint seq_thiele_rounds (f : nat -> Q) (p : profile) (rounds : nat) (committee : list nat) : result (list (nat * list nat * Q)) :=
    match rounds with
    | 0 => Ok []
    | S r =>
        let marg := marginal_thiele_scores_add f p committee in
        do delta <- py_max marg;
        do tied <- argmax_all marg;
        match tied with
        | [] => Err IndexError
        | next :: _ => do rest <- seq_thiele_rounds f p r (committee ++ [next]); Ok ((next, tied, delta) :: rest)
        end
    end.
  (** abcrules.py 1232-1254: [committee] so far, [i] *)
  Fixpoint seq_thiele_story (f : nat -> Q) (p : profile) (committee : list nat) (i : nat) (rounds : list (nat * list nat * Q))
    : result (list message) :=
    match rounds with
    | [] => Ok []
    | (next, tied, delta) :: r =>
        let committee := committee ++ [next] in
        do name <- name_of p next;
        do tie <- (if 1 <? List.length tied then
                     do t <- str_set_with_names tied (cand_names p);
                     Ok [details ("tie broken in favor of " ++ str_nat next ++ "," ++ nl)%string " ";
                         details ("candidates " ++ t ++ " are tied")%string "";
                         details ("(all would increase the score by the same amount " ++ str_num delta ++ ")")%string " "]
                   else Ok []);
        do rest <- seq_thiele_story f p committee (S i) r;
        Ok (details ("adding candidate number " ++ str_nat (S i) ++ ": " ++ name)%string "" ::
            details ("score increases by " ++ str_num delta ++ " to a total of " ++ str_num (thiele_score f p committee))%string " " ::
            tie ++ details "" "" :: rest)
    end.
  (** abcrules.py 1261-1269 *)
  Definition score_lines (f : nat -> Q) (p : profile) (cs : list (list nat)) : result (list message) :=
    rconcat (fun c => do t <- str_set_with_names c (cand_names p); Ok [details (t ++ ": " ++ str_num (thiele_score f p c))%string " "]) cs.
  (** abcrules.py 1220-1269; at a verbosity above DETAILS the two blocks are skipped, but then none of their messages would be shown *)
  Definition report_seq_thiele (f : nat -> Q) (scorefct_id alg : string) (p : profile) (k : nat) (resolute : bool) (cs : list (list nat))
    : result (list message) :=
    frame ("seq" ++ scorefct_id)%string alg SequentialMode resolute p
      (if resolute then
         do rounds <- seq_thiele_rounds f p k [];
         do story <- seq_thiele_story f p [] 0 rounds;
         Ok (details ("starting with the empty committee (score = " ++ str_num (thiele_score f p []) ++ ")" ++ nl)%string "" :: story)
       else Ok []) cs
      (do lines <- score_lines f p cs;
       Ok (details (upper scorefct_id ++ "-score of winning committee(s):")%string "" :: lines ++ [details nl ""])).

  (** *** Reverse sequential Thiele methods *)
  (** abcrules.py 1673-1687; [tied_cands = cands_to_remove[:-1]] *)
  Fixpoint revseq_removals (f : nat -> Q) (p : profile) (rounds : nat) (committee : list nat) : result (list (nat * list nat * Q)) :=
    match rounds with
    | 0 => Ok []
    | S r =>
        let marg := marginal_thiele_scores_remove f p committee in
        do mn <- py_min marg;
        match rev (filter (fun c => Qeq_bool (nthQ marg c) mn) (candidates p)) with
        | [] => Err IndexError
        | next :: others =>
            if mem next committee
            then do rest <- revseq_removals f p r (filter (fun c => negb (c =? next)) committee); Ok ((next, rev others, mn) :: rest)
            else Err KeyError
        end
    end.
  (** abcrules.py 1622-1645 *)
  Fixpoint revseq_story (f : nat -> Q) (p : profile) (committee : list nat) (rounds : list (nat * list nat * Q)) : result (list message) :=
    match rounds with
    | [] => Ok []
    | (next, tied, delta) :: r =>
        let committee := filter (fun c => negb (c =? next)) committee in
        do name <- name_of p next;
        do tie <- (if 1 <? List.length tied then
                     do t <- str_set_with_names tied (cand_names p);
                     Ok [details ("tie broken to the disadvantage of " ++ str_nat next ++ ",")%string " ";
                         details ("candidates " ++ t ++ " are tied")%string " ";
                         details ("(all would decrease the score by the same amount " ++ str_num delta ++ ")")%string " "]
                   else Ok []);
        do rest <- revseq_story f p committee r;
        Ok (details ("removing candidate number " ++ str_nat (num_cand p - List.length committee) ++ ": " ++ name)%string "" ::
            details ("score decreases by " ++ str_num delta ++ " to a total of " ++ str_num (thiele_score f p committee))%string " " ::
            tie ++ details "" "" :: rest)
    end.
  (** abcrules.py 1608-1657 *)
  Definition report_revseq (f : nat -> Q) (scorefct_id alg : string) (p : profile) (k : nat) (resolute : bool) (cs : list (list nat))
    : result (list message) :=
    frame ("revseq" ++ scorefct_id)%string alg SequentialMode resolute p
      (if resolute then
         do rounds <- revseq_removals f p (num_cand p - k) (candidates p);
         do story <- revseq_story f p (candidates p) rounds;
         Ok (details ("full committee (" ++ str_nat (num_cand p) ++ " candidates) has a total score of " ++
                      str_num (thiele_score f p (candidates p)) ++ nl)%string "" :: story)
       else Ok []) cs
      (Ok [details ("PAV-score of winning committee:" ++ (if negb resolute && negb (Nat.eqb (List.length cs) 1) then nl else "") ++
                    String.concat "" (map (fun c => " " ++ str_num (thiele_score f p c)) cs) ++ nl)%string ""]).

  (** *** Separable rules: abcrules.py 1927-1941 and 1867-1901 *)
  Definition names_text (p : profile) (cs : list nat) : result string :=
    do l <- rmapM (name_of p) cs; Ok (" " ++ String.concat ", " l ++ nl)%string.
  Definition separable_details (score : list Q) (p : profile) (k : nat) : result (list message) :=
    match kth_largest score k with
    | None => Err IndexError
    | Some cutoff =>
        let certain := filter (fun c => Qltb cutoff (nthQ score c)) (candidates p) in
        let possible := filter (fun c => Qeq_bool (nthQ score c) cutoff) (candidates p) in
        let missing := k - List.length certain in
        let '(certain, possible, missing) :=
          if List.length possible =? missing then (isort (certain ++ possible), [], 0) else (certain, possible, missing) in
        do lines <- rmapM (fun c => do n <- name_of p c; Ok (n ++ ": " ++ str_num (nthQ score c) ++ nl)%string) (candidates p);
        do certain_names <- names_text p certain;
        do possible_names <- names_text p possible;
        Ok (details ("Scores of candidates:" ++ nl ++ String.concat "" lines ++ nl ++ "Candidates are contained in winning committees" ++ nl ++
                     "if their score is >= " ++ str_num cutoff ++ ".")%string "" ::
            (if 0 <? List.length certain then
               [details (nl ++ "The following candidates are contained in" ++ nl ++ "every winning committee:" ++ nl ++ certain_names)%string ""]
             else []) ++
            (if 0 <? List.length possible then
               [details ("The following candidates are contained in" ++ nl ++ "some of the winning committees:" ++ nl ++ possible_names ++
                         "(" ++ str_nat missing ++ " of those candidates are contained" ++ nl ++ " in every winning committee.)" ++ nl)%string ""]
             else []))
    end.
  Definition report_separable (score : list Q) (id alg : string) (p : profile) (k : nat) (resolute : bool) (cs : list (list nat))
    : result (list message) :=
    frame id alg OptimisationMode resolute p (separable_details score p k) cs (Ok []).

  (** *** Minimax AV: abcrules.py 2189-2204; [str] of a list of ints *)
  Definition distance_list (p : profile) (c : list nat) : string :=
    ("[" ++ String.concat ", " (map (fun v => str_nat (hamming (approved v) c)) (voters p)) ++ "]")%string.
  Definition report_minimaxav (alg : string) (p : profile) (resolute : bool) (cs : list (list nat)) : result (list message) :=
    frame "minimaxav" alg OptimisationMode resolute p (Ok []) cs
      (match cs with
       | [] => Err IndexError
       | c :: _ => Ok [details ("Minimum maximal distance: " ++ str_nat (minimaxav_score p c))%string "";
                       details ("Corresponding distances to voters:" ++ nl ++
                                String.concat "" (map (fun c => distance_list p c ++ nl) cs))%string ""]
       end).
  (** lexicographic minimax AV: abcrules.py 2322-2336; [opt_distances] of the brute-force algorithm (2341-2357) and of gurobi
      (abcrules_gurobi.py 731-734) *)
  Definition lexminimaxav_brute_distances (p : profile) (k : nat) : list nat :=
    snd (scan (fun s best => match lex_compare_dist best s with LexGreater => true | _ => false end)
              (fun s best => match lex_compare_dist best s with LexEqual => true | _ => false end)
              (distances p) true (repeat (num_cand p + 1) (List.length (voters p))) (combinations (candidates p) k)).
  Definition lexminimaxav_gurobi_distances (p : profile) (cs : list (list nat)) : result (list nat) :=
    match cs with
    | [] => Err IndexError
    | c :: _ => Ok (map (fun v => hamming (approved v) c) (voters p))
    end.
  Definition report_lexminimaxav (opt_distances : result (list nat)) (alg : string) (p : profile) (resolute : bool) (cs : list (list nat))
    : result (list message) :=
    frame "lexminimaxav" alg OptimisationMode resolute p (Ok []) cs
      (do ds <- opt_distances;
       match ds with
       | [] => Err ValueError
       | d :: r => Ok [details ("Minimum maximal distance: " ++ str_nat (fold_left Nat.max r d))%string "";
                       details ("Corresponding distances to voters:" ++ nl ++ String.concat "" (map (distance_list p) cs) ++ nl)%string ""]
       end).

  (** *** Monroe: abcrules.py 2465-2476 *)
  Definition report_monroe (nx : networkx) (alg : string) (p : profile) (resolute : bool) (cs : list (list nat)) : result (list message) :=
    frame "monroe" alg OptimisationMode resolute p
      (match cs with
       | [] => Err IndexError
       | c :: _ => do s <- monroescore nx p c; Ok [details ("Optimal Monroe score: " ++ str_Z s ++ nl)%string ""]
       end) cs (Ok []).
  (** Greedy Monroe: abcrules.py 2566-2617 *)
  Definition district_text (p : profile) (d : nat * list nat) : result string :=
    do name <- name_of p (fst d);
    Ok (" candidate " ++ name ++ " assigned to: " ++
        String.concat ", " (map (fun v => str_nat v ++ (if voter_approves p v (fst d) then "" else "*")) (isort (snd d))) ++ nl)%string.
  Definition greedy_monroe_details (nx : networkx) (p : profile) (k : nat) : result (list message) :=
    do r <- greedy_monroe_algorithm p k;
    let '(committees, (remaining_voters, assignment)) := r in
    match committees with
    | [] => Err IndexError
    | c :: _ =>
        do score1 <- monroescore nx p c;
        let score2 := Z.of_nat (List.length (voters p) - List.length remaining_voters) in
        do full <- complete_assignment (List.length (voters p)) k 0 assignment remaining_voters;
        do ds <- rmapM (district_text p) full;
        Ok (details "The Monroe assignment computed by Greedy Monroe" "" ::
            details ("has a Monroe score of " ++ str_Z score2 ++ ".")%string "" ::
            (if (score2 <? score1)%Z then
               [details "Monroe assignment found by Greedy Monroe is not optimal for the winning committee," "";
                details ("i.e., by redistributing voters to candidates a higher satisfaction is possible " ++
                         "(without changing the committee).")%string "";
                details ("Optimal Monroe score of the winning committee is " ++ str_Z score1 ++ ".")%string ""]
             else []) ++
            [details ("Assignment (unsatisfatied voters marked with *):" ++ nl ++ nl ++ String.concat "" ds)%string ""])
    end.
  Definition report_greedy_monroe (nx : networkx) (alg : string) (p : profile) (k : nat) (cs : list (list nat)) : result (list message) :=
    frame "greedy-monroe" alg NoMode true p (greedy_monroe_details nx p k) cs (Ok []).

  (** *** Sequential Phragmén *)
  (** abcrules.py 2833-2866: candidate, tied candidates, [opt], the loads afterwards *)
  Fixpoint phragmen_rounds (p : profile) (k rounds : nat) (committee : list nat) (load : list Q) : result (list (nat * list nat * Q * list Q)) :=
    match rounds with
    | 0 => Ok []
    | S r =>
        do opt <- py_min (map (new_maxload p k committee load) (candidates p));
        do tied <- phragmen_select p k committee load;
        match tied with
        | [] => Err IndexError
        | next :: _ =>
            let load' := phragmen_next p k committee load next in
            do rest <- phragmen_rounds p k r (isort (committee ++ [next])) load';
            Ok ((next, tied, opt, load') :: rest)
        end
    end.
  (** abcrules.py 2747-2777, and 3209-3237 (where the last line of a tie reads differently) *)
  Fixpoint phragmen_story (p : profile) (tie_line : string -> string) (i : nat) (rounds : list (nat * list nat * Q * list Q))
    : result (list message) :=
    match rounds with
    | [] => Ok []
    | (next, tied, opt, load) :: r =>
        do name <- name_of p next;
        do tie <- (if 1 <? List.length tied then
                     do t <- str_set_with_names tied (cand_names p);
                     Ok [details ("tie broken in favor of " ++ name ++ ",")%string " ";
                         details ("candidates " ++ t ++ " are tied")%string " ";
                         details (tie_line (str_num opt)) " "]
                   else Ok []);
        do rest <- phragmen_story p tie_line (S i) r;
        Ok (details ("adding candidate number " ++ str_nat (S i) ++ ": " ++ name)%string "" ::
            details ("maximum load increased to " ++ str_num opt)%string " " ::
            details " load distribution:" "" ::
            details (tuple_text load) "  " ::
            tie ++ details "" "" :: rest)
    end.
  Definition phragmen_tie_line (s : string) : string := ("(for all those new maximum load = " ++ s ++ ").")%string.
  (** abcrules.py 2866, 2944: [committee_load_pairs]; resolute: one pair, with the committee and the last load *)
  Definition last_load (start : list Q) (rounds : list (nat * list nat * Q * list Q)) : list Q :=
    fold_left (fun _ r => snd r) rounds start.
  (** irresolute: the dictionary, in the order in which the committees were first reached, with the load of the last time *)
  Fixpoint dict_set (key : list nat) (x : list Q) (d : list (list nat * list Q)) : list (list nat * list Q) :=
    match d with
    | [] => [(key, x)]
    | (k', y) :: r => if list_eq_dec Nat.eq_dec key k' then (k', x) :: r else (k', y) :: dict_set key x r
    end.
  (** one (committee, load) pair: abcrules.py 2906-2955; the pairs, the new dictionary and whether enough committees are found *)
  Fixpoint load_step (p : profile) (k : nat) (maxn : option nat) (committee : list nat) (load : list Q) (sel : list nat)
           (d : list (list nat * list Q)) : list (list nat * list Q) * list (list nat * list Q) * bool :=
    match sel with
    | [] => ([], d, false)
    | c :: r =>
        let nc := committee ++ [c] in
        let nload := phragmen_next p k committee load c in
        if List.length nc =? k then
          let d' := dict_set (isort nc) nload d in
          if match maxn with Some n => List.length d' =? n | None => false end then ([], d', true)
          else load_step p k maxn committee load r d'
        else let '(ps, d', stop) := load_step p k maxn committee load r d in ((nc, nload) :: ps, d', stop)
    end.
  Fixpoint load_pairs (p : profile) (k : nat) (maxn : option nat) (fuel : nat) (stack : list (list nat * list Q))
           (d : list (list nat * list Q)) : result (list (list nat * list Q)) :=
    match stack with
    | [] => Ok d
    | (committee, load) :: rest =>
        match fuel with
        | 0 => Err OutOfFuel
        | S fuel' =>
            do sel <- phragmen_select p k committee load;
            let '(ps, d', stop) := load_step p k maxn committee load sel d in
            if stop then Ok d' else load_pairs p k maxn fuel' (ps ++ rest) d'
        end
    end.
  (** abcrules.py 2785-2792 *)
  Definition load_lines (p : profile) (pairs : list (list nat * list Q)) : result (list message) :=
    rconcat (fun cl => do t <- str_set_with_names (fst cl) (cand_names p); Ok [details (t ++ ": " ++ tuple_text (snd cl) ++ nl)%string ""]) pairs.
  Definition report_seqphragmen (alg : string) (p : profile) (k : nat) (resolute : bool) (maxn : option nat) (cs : list (list nat))
    : result (list message) :=
    do rounds <- (if resolute then phragmen_rounds p k k [] (zero_load p) else Ok []);
    do pairs <- (if resolute then Ok (map (fun c => (c, last_load (zero_load p) rounds)) cs)
                 else load_pairs p k maxn (tree_size (num_cand p) k) [([], zero_load p)] []);
    frame "seqphragmen" alg SequentialMode resolute p (phragmen_story p phragmen_tie_line 0 rounds) cs
      (do lines <- load_lines p pairs;
       Ok (details (if resolute || (List.length cs =? 1) then "corresponding load distribution:" else "corresponding load distributions:") "" :: lines)).

  (** *** Method of Equal Shares *)
  (** abcrules.py 3370-3439 with resolute=True: candidate, tied candidates, [min(min_q.values())], the budgets afterwards; then the
      committee and the budget at which the loop ended *)
  Fixpoint mes_rounds (p : profile) (k rounds : nat) (committee : list nat) (budget : list Q)
    : result (list (nat * list nat * Q * list Q) * (list nat * list Q)) :=
    match rounds with
    | 0 => Ok ([], (committee, budget))
    | S r =>
        do d <- min_q_dict p budget (available p committee);
        match d with
        | [] => Ok ([], (committee, budget))
        | _ =>
            do cost <- py_min (map snd d);
            do tied <- mes_select p committee budget;
            match tied with
            | [] => Err IndexError
            | next :: _ =>
                let budget' := mes_next p committee budget next in
                do rest <- mes_rounds p k r (committee ++ [next]) budget';
                Ok ((next, tied, cost, budget') :: fst rest, snd rest)
            end
        end
    end.
  (** abcrules.py 3171-3195 *)
  Fixpoint mes_story (p : profile) (i : nat) (rounds : list (nat * list nat * Q * list Q)) : result (list message) :=
    match rounds with
    | [] => Ok []
    | (next, tied, cost, budget) :: r =>
        do name <- name_of p next;
        do tie <- (if 1 <? List.length tied then
                     do t <- str_set_with_names tied (cand_names p);
                     Ok [details ("tie broken in favor of " ++ name ++ ",")%string " ";
                         details ("candidates " ++ t ++ " are tied")%string " ";
                         details ("(all would impose a maximum cost of " ++ str_num cost ++ ").")%string " "]
                   else Ok []);
        do rest <- mes_story p (S i) r;
        Ok (details ("adding candidate number " ++ str_nat (S i) ++ ": " ++ name)%string "" ::
            details ("with maxmimum cost per voter q = " ++ str_num cost)%string " " ::
            details " remaining budget:" "" ::
            details (tuple_text budget) "  " ::
            tie ++ details "" "" :: rest)
    end.
  Definition mes_tie_line (s : string) : string := ("(for any of those, the new maximum load would be " ++ s ++ ").")%string.
  (** abcrules.py 3163-3237 for resolute=True without increment completion *)
  Definition mes_details (p : profile) (k : nat) (completion : completion_arg) : result (list message) :=
    do rs <- mes_rounds p k k [] (mes_start p k);
    let '(rounds, (committee, budget)) := rs in
    do story <- mes_story p 0 rounds;
    do phase2 <-
      (match completion with
       | PhragmenCompletion =>
           if List.length committee <? k then
             let start_load := map (fun iv => (- nthQ budget (fst iv) / weight (snd iv))%Q) (enum_voters p) in
             do rounds2 <- phragmen_rounds p k (k - List.length committee) committee start_load;
             do story2 <- phragmen_story p mes_tie_line (List.length committee) rounds2;
             Ok (details ("Phase 2 (seq-Phragmén):" ++ nl)%string "" ::
                 details "starting loads (= budget spent):" "" ::
                 details (tuple_text start_load ++ nl)%string "  " :: story2)
           else Ok []
       | _ => Ok []
       end);
    Ok (details ("Phase 1:" ++ nl)%string "" :: details "starting budget:" "" ::
        details ("  " ++ tuple_text (mes_start p k) ++ nl)%string "" :: story ++ phase2).
  (** abcrules.py 3463-3477: the virtual committee size *)
  Fixpoint increment_size (p : profile) (k rounds n : nat) : result nat :=
    match rounds with
    | 0 => Err RuntimeError
    | S r =>
        do cs <- equal_shares p k true None fill_none (mes_start_increment p n);
        match filter (fun c => List.length c =? k) cs with
        | [] => increment_size p k r (S n)
        | _ => Ok n
        end
    end.
  (** abcrules.py 3151-3162 *)
  Definition increment_details (p : profile) (k : nat) : result (list message) :=
    if List.length (approved_candidates p) <? k then
      Ok [details ("There are fewer candidates approved by at least one voter than the desired committee size." ++
                   " Thus Equal Shares returns all approved candidates and fills the committee with non-approved candidates.")%string ""]
    else
      do n <- increment_size p k (Z.to_nat (Qround.Qceiling (Qnat k * total_weight p + 1)) - k) k;
      Ok [details "Incrementing starting budget of voters to fill the committee." "";
          details ("Successful for a (virtual) committee size of " ++ str_nat n ++ ".")%string ""].
  Definition report_equal_shares (id : string) (completion : completion_arg) (alg : string) (p : profile) (k : nat) (resolute : bool)
             (cs : list (list nat)) : result (list message) :=
    frame id alg SequentialMode resolute p
      (match completion with
       | IncrementCompletion => increment_details p k
       | _ => if resolute then mes_details p k completion else Ok []
       end) cs (Ok []).

  (** *** Maximin support: abcrules.py 3836-3853 and 3790-3817 *)
  Fixpoint maximin_rounds (scorefct : list nat -> result (list Q)) (p : profile) (rounds : nat) (committee : list nat)
    : result (list (nat * list nat * Q)) :=
    match rounds with
    | 0 => Ok []
    | S r =>
        do scores <- scorefct committee;
        do value <- py_max scores;
        do tied <- maximin_select scorefct p committee [];
        match tied with
        | [] => Err IndexError
        | next :: _ => do rest <- maximin_rounds scorefct p r (committee ++ [next]); Ok ((next, tied, value) :: rest)
        end
    end.
  Fixpoint maximin_story (p : profile) (i : nat) (rounds : list (nat * list nat * Q)) : result (list message) :=
    match rounds with
    | [] => Ok []
    | (next, tied, value) :: r =>
        do name <- name_of p next;
        do tie <- (if 1 <? List.length tied then
                     do t <- str_set_with_names tied (cand_names p);
                     Ok [details ("tie broken in favor of " ++ str_nat next ++ ",")%string " ";
                         details ("candidates " ++ t ++ " are tied")%string " ";
                         details ("(all would give the same maximin support value " ++ str_num value ++ ")")%string " "]
                   else Ok []);
        do rest <- maximin_story p (S i) r;
        Ok (details ("adding candidate number " ++ str_nat (S i) ++ ": " ++ name)%string "" ::
            details ("giving a committee with maximin support value " ++ str_num value)%string " " ::
            tie ++ details "" "" :: rest)
    end.
  Definition report_maximin (s : solver) (alg : string) (p : profile) (k : nat) (resolute : bool) (cs : list (list nat)) : result (list message) :=
    frame "maximin-support" alg SequentialMode resolute p
      (if resolute then
         do rounds <- maximin_rounds (maximin_support_scorefct s p) p k [];
         do story <- maximin_story p 0 rounds;
         Ok (details ("starting with the empty committee" ++ nl)%string "" :: story)
       else Ok []) cs (Ok []).

  (** *** The other rules: abcrules.py 3576-3583, 3696-3703 (optimisation), 3973-3981, 4135-4143 (sequential), 4294-4301 (trivial; prints
      the committees before they are sorted), 4395-4400 (RSD), 4476-4483 (EPH) *)
  Definition report_plain (id : string) (m : mode) (alg : string) (p : profile) (resolute : bool) (cs : list (list nat)) : result (list message) :=
    frame id alg m resolute p (Ok []) cs (Ok []).
End RuleReport.

(** ** All rules *)
Section AllReports.
  Variables (str_num : Q -> string) (nx : networkx) (sv : solvers) (e : env).

  (** the solver used by an algorithm for maximin support (abcrules.py 3774-3782) *)
  Definition solver_of (alg : string) : solver := if String.eqb alg "gurobi" then gurobi sv else python_mip sv (mip_solver_id alg).

  (** The messages printed by the [compute_*] function of the rule [id] once it has computed the committees [cs]; [alg] is the algorithm
      after "fastest" has been resolved.  Not modelled: the numbers printed by "float-fractions". *)
  Definition rule_report (id alg : string) (p : profile) (k : nat) (resolute : bool) (maxn : option nat) (cs : list (list nat))
    : result (list message) :=
    let thiele sid := do f <- lookup_scorefct e sid; report_thiele str_num (marginal f) sid alg p resolute cs in
    let seq_thiele sid := do f <- lookup_scorefct e sid; report_seq_thiele str_num (marginal f) sid alg p k resolute cs in
    let revseq sid := do f <- lookup_scorefct e sid; report_revseq str_num (marginal f) sid alg p k resolute cs in
    let mes rid c := report_equal_shares str_num rid c alg p k resolute cs in
    if String.eqb id "av" then report_separable str_num (sep_scores SepAV p) id alg p k resolute cs
    else if String.eqb id "sav" then
      report_separable str_num (if forallb (fun v => negb (weight_is_int v)) (voters p) then sep_scores SepSAV p else sav_float_scores e p)
        id alg p k resolute cs
    else if str_in id ["pav"; "slav"; "cc"] then thiele id
    else if String.eqb id "lexcc" then
      report_lexcc str_num (if String.eqb alg "brute-force" then Ok (lexcc_brute_vector p k) else lexcc_gurobi_vector (gurobi sv) p k resolute maxn)
        alg p resolute cs
    else if String.eqb id "seqpav" then seq_thiele "pav"
    else if String.eqb id "revseqpav" then revseq "pav"
    else if String.eqb id "seqslav" then seq_thiele "slav"
    else if String.eqb id "seqcc" then seq_thiele "cc"
    else if String.eqb id "seqphragmen" then report_seqphragmen str_num alg p k resolute maxn cs
    else if String.eqb id "minimaxphragmen" then report_plain id OptimisationMode alg p resolute cs
    else if String.eqb id "leximaxphragmen" then report_plain id OptimisationMode alg p resolute cs
    else if String.eqb id "maximin-support" then report_maximin str_num (solver_of alg) alg p k resolute cs
    else if String.eqb id "monroe" then report_monroe nx alg p resolute cs
    else if String.eqb id "greedy-monroe" then report_greedy_monroe nx alg p k cs
    else if String.eqb id "minimaxav" then report_minimaxav alg p resolute cs
    else if String.eqb id "lexminimaxav" then
      report_lexminimaxav (if String.eqb alg "brute-force" then Ok (lexminimaxav_brute_distances p k) else lexminimaxav_gurobi_distances p cs)
        alg p resolute cs
    else if str_in id ["rule-x"; "equal-shares"; "equal-shares-with-seqphragmen-completion"] then mes "equal-shares" PhragmenCompletion
    else if String.eqb id "equal-shares-with-av-completion" then mes id AvCompletion
    else if String.eqb id "equal-shares-with-increment-completion" then mes id IncrementCompletion
    else if str_in id ["rule-x-without-phragmen-phase"; "equal-shares-without-phragmen-phase"; "equal-shares-without-completion"] then
      mes "equal-shares-without-completion" NoCompletion
    else if String.eqb id "phragmen-enestroem" then report_plain id SequentialMode alg p resolute cs
    else if String.eqb id "consensus-rule" then report_plain id SequentialMode alg p resolute cs
    else if String.eqb id "trivial" then
      report_plain id OptimisationMode alg p resolute (if resolute then [seq 0 k] else cut maxn (combinations (candidates p) k))
    else if String.eqb id "rsd" then report_plain id NoMode alg p resolute cs
    else if String.eqb id "eph" then report_plain id OptimisationMode alg p resolute cs
    else if prefix "geom" id then thiele id
    else if prefix "seq" id then seq_thiele (drop 3 id)
    else revseq (drop 6 id).
End AllReports.

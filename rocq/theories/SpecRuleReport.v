(** * What the reports of the rules say

    The sentences a user reads, in terms of the specifications of the rules. *)
From Coq Require Import String.
From Coq Require Import List Arith Bool ZArith QArith.
From Verif Require Import Prelude Misc Preferences Spec SpecRules SpecSeq SpecLoads SpecMonroe SpecText Output.
Import ListNotations.
Local Open Scope string_scope.
Open Scope nat_scope.
Local Open Scope list_scope.

(** ** Messages *)
Definition line (ind s : string) : message := mkMessage DETAILS s true ind.
Definition headline (s : string) : message := mkMessage INFO s true "".
(** a text between two lines of dashes, of width [n] *)
Definition boxed (n : nat) (s : string) : string :=
  let dashes := (String.concat "" (repeat "-" n) ++ nl)%string in (dashes ++ s ++ nl ++ dashes)%string.
Definition cand_name (p : profile) (c : nat) : string := nth c (cand_names p) "".

(** The list of the winning committees. *)
Definition winners_sentence (p : profile) (cs : list (list nat)) (t : string) : Prop :=
  exists ts, Forall2 (set_text (cand_names p)) cs ts /\
    ((length cs = 1 /\ t = "1 winning committee:" ++ nl ++ " " ++ String.concat (nl ++ " ") ts ++ nl) \/
     (length cs <> 1 /\ t = str_nat (length cs) ++ " winning committees:" ++ nl ++ " " ++ String.concat (nl ++ " ") ts ++ nl))%string.

(** Rules that search for the best committees, rules that elect candidates one by one, and others *)
Inductive style := Optimising | Sequential | Plain.
Definition mode_lines (s : style) (resolute : bool) : list message :=
  match s, resolute with
  | Optimising, true => [headline ("Computing only one winning committee (resolute=True)" ++ nl)%string]
  | Sequential, false => [headline "Computing all possible winning committees for any tiebreaking order";
                          headline (" (aka parallel universes tiebreaking) (resolute=False)" ++ nl)%string]
  | _, _ => []
  end.

(** A report: the rule's name [name] (of [width] characters), the mode, the algorithm, an account [before], the committees [cs],
    an account [after]. *)
Definition is_report (name : string) (width : nat) (algorithm : string) (s : style) (resolute : bool) (p : profile) (cs : list (list nat))
           (before after : list message -> Prop) (ms : list message) : Prop :=
  exists b a t, before b /\ after a /\ winners_sentence p cs t /\
    ms = mkMessage INFO (boxed width name) false "" :: mode_lines s resolute ++
         line "" ("Algorithm: " ++ algorithm ++ nl)%string :: b ++ headline t :: a.
Definition only_details (ms : list message) : Prop := Forall (fun m => level m = DETAILS) ms.
Definition nothing (ms : list message) : Prop := ms = [].

Section Numbers.
  (** how numbers are printed *)
  Variable num : Q -> string.
  Definition shows (x : Q) (t : string) : Prop := exists y, (y == x)%Q /\ t = num y.
  Definition shows_tuple (xs : list Q) (t : string) : Prop :=
    exists ts, Forall2 shows xs ts /\ t = ("(" ++ String.concat ", " ts ++ ")")%string.
  (** one number for every voter, in the order of the profile *)
  Definition shows_voters (p : profile) (x : nat -> Q) (t : string) : Prop := shows_tuple (map x (voter_ids p)) t.

  (** ** Optimal scores *)
  Definition optimal_score (label : string) (score : list nat -> Q) (p : profile) (k : nat) (ms : list message) : Prop :=
    exists x t, (forall W, maximises score p k W -> (score W == x)%Q) /\ shows x t /\
      ms = [line "" ("Optimal " ++ label ++ "-score: " ++ t ++ nl)%string].
  (** entry [i] (from 1) of the list: the weight of the voters with at least [i] representatives in a winning committee *)
  Definition at_least_scores (p : profile) (k : nat) (ms : list message) : Prop :=
    exists xs ts, length xs = k /\ Forall2 shows xs ts /\
      (forall W, lexcc_winner p k W -> forall i, 1 <= i <= k -> (nth (i - 1) xs 0%Q == at_least_weight p W i)%Q) /\
      ms = line "" "At-least-ell scores:" ::
           map (fun it => line " " ("at-least-" ++ str_nat (fst it) ++ ": " ++ snd it)%string) (combine (seq 1 k) ts).
  (** the largest distance between a voter and a winning committee *)
  Definition minimal_distance (winner : list nat -> Prop) (p : profile) (m : message) : Prop :=
    exists d, (forall W, winner W -> max_distance p W d) /\ m = line "" ("Minimum maximal distance: " ++ str_nat d)%string.
  Definition distance_text (p : profile) (W : list nat) : string :=
    ("[" ++ String.concat ", " (map (fun v => str_nat (distance (approved v) W)) (voters p)) ++ "]")%string.
  Definition minimax_distances (p : profile) (k : nat) (cs : list (list nat)) (ms : list message) : Prop :=
    exists m, minimal_distance (minimaxav_winner p k) p m /\
      ms = [m; line "" ("Corresponding distances to voters:" ++ nl ++ String.concat "" (map (fun W => distance_text p W ++ nl) cs))%string].
  Definition lexminimax_distances (p : profile) (k : nat) (cs : list (list nat)) (ms : list message) : Prop :=
    exists m, minimal_distance (lexminimaxav_winner p k) p m /\
      ms = [m; line "" ("Corresponding distances to voters:" ++ nl ++ String.concat "" (map (distance_text p) cs) ++ nl)%string].
  Definition monroe_score_line (p : profile) (k : nat) (ms : list message) : Prop :=
    exists s, (forall W, monroe_winner p k W -> is_monroe_score p W s) /\
      ms = [line "" ("Optimal Monroe score: " ++ str_nat s ++ nl)%string].
  (** Greedy Monroe: a partition of the voters into districts of (almost) equal size, one for every member; voters who do not approve
      their representative are marked *)
  Definition district_line (p : profile) (d : nat * list nat) (t : string) : Prop :=
    t = (" candidate " ++ cand_name p (fst d) ++ " assigned to: " ++
         String.concat ", " (map (fun i => str_nat i ++ (if likes p i (fst d) then "" else "*")) (isort (snd d))) ++ nl)%string.
  Definition districts_told (p : profile) (W : list nat) (ms : list message) : Prop :=
    exists D ts s opt, monroe_districts p W D /\ districts_score p D = s /\ is_monroe_score p W opt /\ Forall2 (district_line p) D ts /\
      ms = [line "" "The Monroe assignment computed by Greedy Monroe"; line "" ("has a Monroe score of " ++ str_nat s ++ ".")%string] ++
           (if s <? opt then
              [line "" "Monroe assignment found by Greedy Monroe is not optimal for the winning committee,";
               line "" "i.e., by redistributing voters to candidates a higher satisfaction is possible (without changing the committee).";
               line "" ("Optimal Monroe score of the winning committee is " ++ str_nat opt ++ ".")%string]
            else []) ++
           [line "" ("Assignment (unsatisfatied voters marked with *):" ++ nl ++ nl ++ String.concat "" ts)%string].

  (** ** Separable rules: [score c] for every candidate, and who is in all, or some, of the committees with the largest sum of scores *)
  Definition score_line (p : profile) (score : nat -> Q) (c : nat) (t : string) : Prop :=
    exists s, shows (score c) s /\ t = (cand_name p c ++ ": " ++ s ++ nl)%string.
  Definition listing (p : profile) (T : list nat) : string := (" " ++ String.concat ", " (map (cand_name p) T) ++ nl)%string.
  Definition separable_account (p : profile) (k : nat) (score : nat -> Q) (ms : list message) : Prop :=
    let winner := maximises (fun W => Qsum (map score W)) p k in
    exists ts cutoff t all some m,
      Forall2 (score_line p score) (seq 0 (num_cand p)) ts /\
      shows cutoff t /\ (forall c, c < num_cand p -> ((cutoff <= score c)%Q <-> exists W, winner W /\ In c W)) /\
      ascending all /\ (forall c, In c all <-> c < num_cand p /\ forall W, winner W -> In c W) /\
      ascending some /\ (forall c, In c some <-> c < num_cand p /\ (exists W, winner W /\ In c W) /\ exists W, winner W /\ ~ In c W) /\
      (forall W, winner W -> length (inter some W) = m) /\
      ms = line "" ("Scores of candidates:" ++ nl ++ String.concat "" ts ++ nl ++ "Candidates are contained in winning committees" ++ nl ++
                    "if their score is >= " ++ t ++ ".")%string ::
           match all with
           | [] => []
           | _ => [line "" (nl ++ "The following candidates are contained in" ++ nl ++ "every winning committee:" ++ nl ++ listing p all)%string]
           end ++
           match some with
           | [] => []
           | _ => [line "" ("The following candidates are contained in" ++ nl ++ "some of the winning committees:" ++ nl ++ listing p some ++
                            "(" ++ str_nat m ++ " of those candidates are contained" ++ nl ++ " in every winning committee.)" ++ nl)%string]
           end.

  (** ** Stories: how the candidates were elected one by one *)
  (** the candidates for which [P] holds, in ascending order *)
  Definition lists (P : nat -> Prop) (T : list nat) : Prop := ascending T /\ forall c, In c T <-> P c.
  (** ties are mentioned: at least two tied candidates *)
  Definition tie_told (p : profile) (T : list nat) (sentences : string -> list message) (ms : list message) : Prop :=
    (length T <= 1 /\ ms = []) \/ (2 <= length T /\ exists t, set_text (cand_names p) T t /\ ms = sentences t).
  Definition adding (p : profile) (W : list nat) (c : nat) : message :=
    line "" ("adding candidate number " ++ str_nat (S (length W)) ++ ": " ++ cand_name p c)%string.

  Section Story.
    (** as in SpecSeq.v: [choice W x c]: [c] may be added to [W] when the voters' numbers are [x]; [update W x c x']: the numbers afterwards;
        [round W x c x' T ms]: [ms] describes the election of [c], if the tied candidates are [T] *)
    Variable choice : list nat -> (nat -> Q) -> nat -> Prop.
    Variable update : list nat -> (nat -> Q) -> nat -> (nat -> Q) -> Prop.
    Variable round : list nat -> (nat -> Q) -> nat -> (nat -> Q) -> list nat -> list message -> Prop.
    (** [told W x L y ms]: starting with [W] (last choice first) and [x], the messages tell how, with ties broken towards the first
        candidate, [L] and [y] are reached. *)
    Inductive told : list nat -> (nat -> Q) -> list nat -> (nat -> Q) -> list message -> Prop :=
    | told_end : forall W x, told W x W x []
    | told_round : forall W x c x' T L y ms rest,
        lists (choice W x) T -> In c T -> (forall d, In d T -> c <= d) -> update W x c x' -> round W x c x' T ms ->
        told (c :: W) x' L y rest -> told W x L y (ms ++ line "" "" :: rest).
  End Story.

  (** *** Sequential Thiele methods *)
  Definition thiele_round (f : nat -> Q) (p : profile) (W : list nat) (x : nat -> Q) (c : nat) (x' : nat -> Q) (T : list nat)
             (ms : list message) : Prop :=
    exists gain total tie, shows (Thiele f p (c :: W) - Thiele f p W) gain /\ shows (Thiele f p (c :: W)) total /\
      tie_told p T (fun t => [line " " ("tie broken in favor of " ++ str_nat c ++ "," ++ nl)%string; line "" ("candidates " ++ t ++ " are tied")%string;
                              line " " ("(all would increase the score by the same amount " ++ gain ++ ")")%string]) tie /\
      ms = adding p W c :: line " " ("score increases by " ++ gain ++ " to a total of " ++ total)%string :: tie.
  Definition seq_thiele_told (f : nat -> Q) (p : profile) (k : nat) (cs : list (list nat)) (ms : list message) : Prop :=
    exists zero L y rest, shows 0 zero /\ length L = k /\ cs = [isort L] /\
      told (fun W _ => best_addition f p W) (no_update p) (thiele_round f p) [] (fun _ => 0%Q) L y rest /\
      ms = line "" ("starting with the empty committee (score = " ++ zero ++ ")" ++ nl)%string :: rest.
  Definition scores_told (f : nat -> Q) (label : string) (p : profile) (cs : list (list nat)) (ms : list message) : Prop :=
    exists ls, Forall2 (fun W m => exists t s, set_text (cand_names p) W t /\ shows (Thiele f p W) s /\ m = line " " (t ++ ": " ++ s)%string) cs ls /\
      ms = line "" (label ++ "-score of winning committee(s):")%string :: ls ++ [line "" nl].

  (** *** Reverse sequential Thiele methods: candidates are removed; of tied candidates the last one.  The report lists the other tied
      candidates, if there are at least two of them (finding 32). *)
  Inductive removed_told (f : nat -> Q) (p : profile) : list nat -> list nat -> list message -> Prop :=
  | removed_end : forall W, removed_told f p W W []
  | removed_round : forall W c T L loss total tie rest,
      lists (best_removal f p W) (T ++ [c]) -> shows (Thiele f p W - Thiele f p (SpecRules.without c W)) loss -> shows (Thiele f p (SpecRules.without c W)) total ->
      tie_told p T (fun t => [line " " ("tie broken to the disadvantage of " ++ str_nat c ++ ",")%string; line " " ("candidates " ++ t ++ " are tied")%string;
                              line " " ("(all would decrease the score by the same amount " ++ loss ++ ")")%string]) tie ->
      removed_told f p (SpecRules.without c W) L rest ->
      removed_told f p W L
        ((line "" ("removing candidate number " ++ str_nat (S (num_cand p - length W)) ++ ": " ++ cand_name p c)%string ::
          line " " ("score decreases by " ++ loss ++ " to a total of " ++ total)%string :: tie) ++ line "" "" :: rest).
  Definition revseq_told (f : nat -> Q) (p : profile) (k : nat) (cs : list (list nat)) (ms : list message) : Prop :=
    exists full L rest, shows (Thiele f p (seq 0 (num_cand p))) full /\ length L = k /\ cs = [L] /\ removed_told f p (seq 0 (num_cand p)) L rest /\
      ms = line "" ("full committee (" ++ str_nat (num_cand p) ++ " candidates) has a total score of " ++ full ++ nl)%string :: rest.
  (** the label is the same for all score functions (finding 32) *)
  Definition revseq_scores_told (f : nat -> Q) (p : profile) (resolute : bool) (cs : list (list nat)) (ms : list message) : Prop :=
    exists ts, Forall2 (fun W t => shows (Thiele f p W) t) cs ts /\
      ms = [line "" ("PAV-score of winning committee:" ++ (if resolute || Nat.eqb (length cs) 1 then "" else nl) ++
                     String.concat "" (map (fun t => " " ++ t) ts) ++ nl)%string].

  (** *** Sequential Phragmén; the announced maximum load is the one of the supporters of [c], or [k + 1] if there are none (finding 34) *)
  Definition announced_load (p : profile) (k : nat) (x : nat -> Q) (c : nat) : Q :=
    if 0 <? length (fans p c) then new_load p x c else Qnat (k + 1).
  Definition phragmen_round (tie_line : string -> string) (p : profile) (k : nat) (W : list nat) (x : nat -> Q) (c : nat) (x' : nat -> Q)
             (T : list nat) (ms : list message) : Prop :=
    exists load loads tie, shows (announced_load p k x c) load /\ shows_voters p x' loads /\
      tie_told p T (fun t => [line " " ("tie broken in favor of " ++ cand_name p c ++ ",")%string; line " " ("candidates " ++ t ++ " are tied")%string;
                              line " " (tie_line load)]) tie /\
      ms = adding p W c :: line " " ("maximum load increased to " ++ load)%string :: line "" " load distribution:" :: line "  " loads :: tie.
  Definition seqphragmen_tie (load : string) : string := ("(for all those new maximum load = " ++ load ++ ").")%string.
  Definition phragmen_told (p : profile) (k : nat) (L : list nat) (y : nat -> Q) : list message -> Prop :=
    told (phragmen_choice p) (phragmen_update p) (phragmen_round seqphragmen_tie p k) [] (fun _ => 0%Q) L y.
  (** for every winning committee loads that lead to it *)
  Definition loads_told (p : profile) (k : nat) (plural : bool) (cs : list (list nat)) (ms : list message) : Prop :=
    exists cs' ls, Permutation.Permutation cs' cs /\
      Forall2 (fun W m => exists L x t s, runs_from p (phragmen_choice p) (phragmen_update p) [] (fun _ => 0%Q) L x /\ length L = k /\ W = isort L /\
                 set_text (cand_names p) W t /\ shows_voters p x s /\ m = line "" (t ++ ": " ++ s ++ nl)%string) cs' ls /\
      ms = line "" (if plural then "corresponding load distributions:" else "corresponding load distribution:") :: ls.

  (** *** Method of Equal Shares *)
  Definition mes_round (p : profile) (W : list nat) (x : nat -> Q) (c : nat) (x' : nat -> Q) (T : list nat) (ms : list message) : Prop :=
    exists rho price budgets tie, price_of p x c rho /\ shows rho price /\ shows_voters p x' budgets /\
      tie_told p T (fun t => [line " " ("tie broken in favor of " ++ cand_name p c ++ ",")%string; line " " ("candidates " ++ t ++ " are tied")%string;
                              line " " ("(all would impose a maximum cost of " ++ price ++ ").")%string]) tie /\
      ms = adding p W c :: line " " ("with maxmimum cost per voter q = " ++ price)%string :: line "" " remaining budget:" :: line "  " budgets :: tie.
  Definition mes_phragmen_tie (load : string) : string := ("(for any of those, the new maximum load would be " ++ load ++ ").")%string.
  (** [second L b cs ms]: what follows the first phase *)
  Definition mes_told (p : profile) (k : nat) (second : list nat -> (nat -> Q) -> list message -> Prop) (ms : list message) : Prop :=
    exists budgets L b ms1 ms2, shows_voters p (equal_share p k) budgets /\
      told (mes_choice p) (mes_update p) (mes_round p) [] (equal_share p k) L b ms1 /\
      (length L = k \/ length L < k /\ mes_stuck p L b) /\ second L b ms2 /\
      ms = [line "" ("Phase 1:" ++ nl)%string; line "" "starting budget:"; line "" ("  " ++ budgets ++ nl)%string] ++ ms1 ++ ms2.
  (** the "starting loads" are minus the remaining budgets per weight (finding 35) *)
  Definition second_phase (p : profile) (k : nat) (cs : list (list nat)) (L : list nat) (b : nat -> Q) (ms : list message) : Prop :=
    (length L = k /\ cs = [isort L] /\ ms = []) \/
    (length L < k /\ exists loads L' y rest, shows_voters p (fun i => - b i / w p i)%Q loads /\ length L' = k /\ cs = [isort L'] /\
       told (phragmen_choice p) (phragmen_update p) (phragmen_round mes_phragmen_tie p k) L (fun i => - b i / w p i)%Q L' y rest /\
       ms = [line "" ("Phase 2 (seq-Phragmén):" ++ nl)%string; line "" "starting loads (= budget spent):"; line "  " (loads ++ nl)%string] ++ rest).
  Definition no_second_phase (p : profile) (k : nat) (cs : list (list nat)) (L : list nat) (b : nat -> Q) (ms : list message) : Prop :=
    cs = [isort L] /\ ms = [].
  Definition av_second_phase (p : profile) (k : nat) (cs : list (list nat)) (L : list nat) (b : nat -> Q) (ms : list message) : Prop :=
    ms = [] /\ exists W, cs = [W] /\ (length L = k -> W = isort L) /\ (length L < k -> av_completion p k L b W).
  (** the smallest budget (as for electing [n >= k] candidates) with which [k] candidates are elected *)
  Definition increment_told (p : profile) (k : nat) (cs : list (list nat)) (ms : list message) : Prop :=
    (length (supported p) < k /\ (exists W, cs = [W] /\ is_committee p k W /\ incl (supported p) W) /\
     ms = [line "" ("There are fewer candidates approved by at least one voter than the desired committee size." ++
                    " Thus Equal Shares returns all approved candidates and fills the committee with non-approved candidates.")%string]) \/
    (k <= length (supported p) /\ exists n L b, k <= n /\ mes_lex_ends p k (equal_share p n) L b /\ length L = k /\ cs = [isort L] /\
       (forall n' L' b', k <= n' < n -> mes_lex_ends p k (equal_share p n') L' b' -> length L' < k) /\
       ms = [line "" "Incrementing starting budget of voters to fill the committee.";
             line "" ("Successful for a (virtual) committee size of " ++ str_nat n ++ ".")%string]).

  (** *** Maximin support: the announced value is the largest maximin support reachable by adding a candidate; [c] reaches it up to [eps] *)
  Definition maximin_round (eps : Q) (p : profile) (W : list nat) (x : nat -> Q) (c : nat) (x' : nat -> Q) (T : list nat) (ms : list message) : Prop :=
    exists s value tie, (exists d, fresh p W d /\ maximin_support p (d :: W) s) /\
      (forall d s', fresh p W d -> maximin_support p (d :: W) s' -> (s' <= s)%Q) /\
      (forall s', maximin_support p (c :: W) s' -> (s <= s' + eps)%Q) /\ shows s value /\
      tie_told p T (fun t => [line " " ("tie broken in favor of " ++ str_nat c ++ ",")%string; line " " ("candidates " ++ t ++ " are tied")%string;
                              line " " ("(all would give the same maximin support value " ++ value ++ ")")%string]) tie /\
      ms = adding p W c :: line " " ("giving a committee with maximin support value " ++ value)%string :: tie.
  Definition maximin_told (eps : Q) (p : profile) (k : nat) (cs : list (list nat)) (ms : list message) : Prop :=
    exists L y rest, length L = k /\ cs = [isort L] /\
      told (maximin_choice eps p) (no_update p) (maximin_round eps p) [] (fun _ => 0%Q) L y rest /\
      ms = line "" ("starting with the empty committee" ++ nl)%string :: rest.
End Numbers.

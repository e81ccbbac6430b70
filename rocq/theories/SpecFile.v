(** * Files: contracts of the external libraries, and what reading a file means *)
From Coq Require Import String Ascii.
From Coq Require Import List Arith Bool ZArith QArith Permutation.
From Verif Require Import Prelude Misc Preferences Spec FileIO.
Import ListNotations.
Local Open Scope string_scope.
Open Scope nat_scope.
Local Open Scope list_scope.

(** ** Preflib *)

(** Names that survive a line-based text format: printable ASCII, not empty, no
    blank at either end. *)
Definition printable (a : ascii) : Prop := 32 <= nat_of_ascii a <= 126.
Definition plain_name (s : string) : Prop :=
  s <> "" /\ Forall printable (list_ascii_of_string s) /\
  hd_error (list_ascii_of_string s) <> Some " "%char /\
  hd_error (rev (list_ascii_of_string s)) <> Some " "%char.

(** Contract of preflibtools: writing a categorical instance (distinct
    alternatives with plain names; distinct ballots, each of which sorts all
    alternatives into categories; positive integer counts) and parsing the file
    gives the alternatives in the same order and the same ballots with the same
    counts, possibly in another order (preflibtools sorts by count). *)
Definition preflib_contract {T} (write : instance (Q * bool) -> T) (parse : T -> result parsed) : Prop :=
  forall i,
    NoDup (map fst (alternatives_name i)) -> Forall plain_name (map snd (alternatives_name i)) ->
    num_alternatives i = length (alternatives_name i) ->
    NoDup (map fst (multiplicity i)) ->
    Forall (fun b => Permutation (concat (fst b)) (map fst (alternatives_name i))) (multiplicity i) ->
    Forall (fun b => snd (snd b) = true /\ exists z, (0 < z)%Z /\ (fst (snd b) == inject_Z z)%Q) (multiplicity i) ->
    exists j, parse (write i) = Ok (Categorical j) /\
      alternatives_name j = alternatives_name i /\ num_alternatives j = num_alternatives i /\
      exists counted, Permutation (multiplicity j) counted /\
        Forall2 (fun a b => fst a = fst b /\ (inject_Z (snd a) == fst (snd b))%Q) counted (multiplicity i).

(** Total weight of the voters whose approval set is [A]. *)
Definition weight_of (p : profile) (A : list nat) : Q :=
  wsum (filter (fun v => set_eqb (approved v) A) (voters p)).

(** Candidates of a profile read from a file are numbered by the position of
    the alternative: [A] is the set of numbers of the alternatives in [S]. *)
Definition numbered (alts : list (nat * string)) (S A : list nat) : Prop :=
  NoDup A /\ forall i, In i A <-> exists a, nth_error (map fst alts) i = Some a /\ In a S.

(** A well-formed instance: at least one alternative, alternatives distinct,
    the ballots mention only these, each at most once; positive counts. *)
Definition wf_instance (i : instance Z) : Prop :=
  0 < num_alternatives i /\ num_alternatives i = length (alternatives_name i) /\
  NoDup (map fst (alternatives_name i)) /\
  Forall (fun b => NoDup (concat (fst b)) /\ incl (concat (fst b)) (map fst (alternatives_name i)) /\ (0 < snd b)%Z)
         (multiplicity i).

(** The alternatives in the first [t] ranks. *)
Definition top (t : nat) (b : pballot) : list nat := concat (firstn t b).

(** The set that [setsize = n] selects: nothing for an empty ballot, the
    shortest sequence of top ranks with at least [n] alternatives if there is
    one, and all alternatives otherwise. *)
Inductive size_selected (alts : list (nat * string)) (n : nat) (b : pballot) : list nat -> Prop :=
| sel_empty : concat b = [] -> size_selected alts n b []
| sel_top : forall t, n <= length (top t b) -> (forall t', t' < t -> length (top t' b) < n) ->
    size_selected alts n b (top t b)
| sel_all : concat b <> [] -> length (concat b) < n -> size_selected alts n b (map fst alts).

(** The voters read from a list of ballots, given the meaning [sel] of a ballot:
    one voter of weight 1 per count, or one voter of weight [count]. *)
Definition ballots_to_voters (sel : pballot -> list nat -> Prop) (use_weights : bool)
  (bs : list (pballot * Z)) (vs : list voter) : Prop :=
  exists groups, vs = concat groups /\
    Forall2 (fun b g => exists A, sel (fst b) A /\
      g = if use_weights then [mkVoter A (inject_Z (snd b)) true]
          else repeat (mkVoter A 1 true) (Z.to_nat (snd b))) bs groups.

(** ** YAML *)

(** Data in the model's normal form: numbers in lowest terms, distinct keys. *)
Fixpoint plain (y : yval) : Prop :=
  match y with
  | YNum q i => Qred q = q /\ (i = true -> Qden q = 1%positive)
  | YList l => (fix all l := match l with [] => True | x :: r => plain x /\ all r end) l
  | YDict d => NoDup (map fst d) /\
               (fix all d := match d with [] => True | (_, x) :: r => plain x /\ all r end) d
  | _ => True
  end.

(** No number other than ints. *)
Fixpoint int_only (y : yval) : Prop :=
  match y with
  | YNum _ i => i = true
  | YList l => (fix all l := match l with [] => True | x :: r => int_only x /\ all r end) l
  | YDict d => (fix all d := match d with [] => True | (_, x) :: r => int_only x /\ all r end) d
  | _ => True
  end.

(** Contract of the YAML library: what has been dumped is loaded again, and
    data without fractions can be dumped. *)
Definition yaml_contract {T} (dump : yval -> result T) (load : T -> result yval) : Prop :=
  (forall y f, plain y -> dump y = Ok f -> load f = Ok y) /\
  (forall y, plain y -> int_only y -> exists f, dump y = Ok f).

(** A compute instance as it comes back: the same entries, except that
    "profile" and "committeesize" are those of the file. *)
Definition restored (q : profile) (k : option Z) (c c' : compute_instance) : Prop :=
  (forall key, key <> "profile" -> key <> "committeesize" -> get key c' = get key c) /\
  get "profile" c' = Some (PProfile q) /\
  get "committeesize" c' =
    Some (PData (match k with Some z => YNum (inject_Z z) true | None => YNull end)).

(** A compute instance as the library produces them: distinct keys, plain data
    everywhere except under "profile" and "result"; the committees in the result
    are sets. *)
Definition wf_compute_instance (c : compute_instance) : Prop :=
  NoDup (map fst c) /\
  Forall (fun kv => match snd kv with
                    | PData y => plain y
                    | PProfile _ => fst kv = "profile"
                    | PCommittees l => fst kv = "result" /\ Forall (@NoDup nat) l
                    end) c.

(** An instance that may be written together with profile [p] and committee
    size [k]: it has a "rule_id", its other entries are data (a "result" is
    [None] or a list of committees), and "profile" and "committeesize", if
    present, are those of the file. *)
Definition consistent (p : profile) (k : option Z) (c : compute_instance) : Prop :=
  get "rule_id" c <> None /\
  Forall (fun kv =>
    (fst kv = "profile" -> snd kv = PProfile p) /\
    (fst kv = "committeesize" -> exists z, k = Some z /\ snd kv = PData (YNum (inject_Z z) true)) /\
    (fst kv = "result" -> snd kv = PData YNull \/ exists l, snd kv = PCommittees l) /\
    (fst kv <> "profile" -> fst kv <> "result" -> exists y, snd kv = PData y)) c.

(** The same voters, as a file stores them: order of voters and approval sets
    unchanged, weights equal as numbers. *)
Definition same_voters (p q : profile) : Prop :=
  Forall2 (fun v u => approved u = approved v /\ (weight u == weight v)%Q) (voters p) (voters q).

(** ** What an .abc.yaml file means *)

(** Python's [int(x)] of a number: rounding towards zero; [True] and [False] are 1 and 0. *)
Definition yaml_integer (y : yval) (z : Z) : Prop :=
  (exists q i, y = YNum q i /\ ((0 <= q)%Q -> (inject_Z z <= q < inject_Z (z + 1))%Q) /\ ((q < 0)%Q -> (inject_Z (z - 1) < q <= inject_Z z)%Q)) \/
  (y = YBool true /\ z = 1%Z) \/ (y = YBool false /\ z = 0%Z).
(** A candidate in a list of candidates *)
Definition yaml_candidate (y : yval) (c : nat) : Prop :=
  y = YNum (inject_Z (Z.of_nat c)) true \/ (y = YBool true /\ c = 1) \/ (y = YBool false /\ c = 0).
Definition yaml_candidates (y : yval) (A : list nat) : Prop := exists l, y = YList l /\ Forall2 yaml_candidate l A.

(** The profile in a file: one voter for each list of candidates under "profile"; the weights under
    "voter_weights", or 1; as many candidates as "num_cand" says, or up to the largest number that occurs. *)
Definition file_profile (data : list (string * yval)) (p : profile) : Prop :=
  cand_names p = map str_nat (seq 0 (num_cand p)) /\
  (exists ballots, get "profile" data = Some (YList ballots) /\ Forall2 yaml_candidates ballots (map approved (voters p))) /\
  match get "voter_weights" data with
  | Some w => w = YList (map (fun v => YNum (weight v) (weight_is_int v)) (voters p))
  | None => Forall (fun v => weight v = 1%Q /\ weight_is_int v = true) (voters p)
  end /\
  match get "num_cand" data with
  | Some n => yaml_integer n (Z.of_nat (num_cand p))
  | None => exists v, In v (voters p) /\ In (num_cand p - 1) (approved v)
  end.

(** One entry of "compute": the same entries, the profile and the committee size of the file, and the
    committees under "result". *)
Definition file_instance (p : profile) (k : option Z) (y : yval) (c : compute_instance) : Prop :=
  exists d, y = YDict d /\ get "rule_id" d <> None /\
    (forall key, key <> "profile" -> key <> "committeesize" -> key <> "result" -> get key c = option_map PData (get key d)) /\
    get "profile" c = Some (PProfile p) /\
    get "committeesize" c = Some (PData (match k with Some z => YNum (inject_Z z) true | None => YNull end)) /\
    match get "result" d with
    | None => get "result" c = None
    | Some YNull => get "result" c = Some (PData YNull)
    | Some r => exists l cs, r = YList l /\ get "result" c = Some (PCommittees cs) /\
        Forall2 yaml_candidates l cs /\ Forall (@NoDup nat) cs
    end.

(** The whole file. *)
Definition file_means (data : list (string * yval)) (p : profile) (k : option Z) : Prop :=
  wf p /\ file_profile data p /\
  (forall key v, In (key, v) data -> In key ABC_YAML_VALID_KEYS) /\
  match get "committeesize" data with Some n => exists z, k = Some z /\ yaml_integer n z | None => k = None end.
(** The entries of "compute" *)
Definition file_entries (data : list (string * yval)) (l : list yval) : Prop :=
  match get "compute" data with Some c => c = YList l | None => l = [] end.

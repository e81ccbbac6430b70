(** * Model of abcvoting/fileio.py

    Both file formats are written and parsed by external libraries
    (preflibtools, ruamel.yaml).  What they do between a Python object and the
    contents of a file is not modelled: [T] is the type of file contents, and
    the theorems quantify over every writer/parser pair satisfying the contracts
    of SpecFile.v. *)
From Coq Require Import String.
From Coq Require Import List Arith Bool ZArith QArith.
From Verif Require Import Prelude Misc Preferences.
Import ListNotations.
Local Open Scope string_scope.
Open Scope nat_scope.
Local Open Scope list_scope.

(** Python truth value of an optional int parameter: [None] and [0] are falsy. *)
Definition truthy (o : option Z) : bool :=
  match o with Some z => negb (Z.eqb z 0) | None => false end.

(** ** Preflib *)

(** a ballot: its categories (or ranks), each a tuple of alternatives *)
Definition pballot : Type := list (list nat).

(** The attributes of a preflibtools instance that fileio.py uses:
    [alternatives_name] (a dict, as the list of its items), [num_alternatives]
    and [multiplicity] (a dict from ballots to counts of type [C]). *)
Record instance (C : Type) := mkInst {
  alternatives_name : list (nat * string);
  num_alternatives : nat;
  multiplicity : list (pballot * C) }.
Arguments mkInst {C}. Arguments alternatives_name {C}. Arguments num_alternatives {C}.
Arguments multiplicity {C}.

(** What preflibtools' [get_parsed_instance] can return (counts are ints). *)
Inductive parsed :=
| Categorical (i : instance Z)
| Ordinal (i : instance Z)
| OtherInstance.

(** fileio.py 127-131: [normalize_map[cand]], the position of the alternative
    in [alternatives_name]; KeyError for an unknown alternative. *)
Fixpoint normalize (alts : list (nat * string)) (cand : nat) : result nat :=
  match alts with
  | [] => Err KeyError
  | (a, _) :: r => if a =? cand then Ok 0 else rmap S (normalize r cand)
  end.

(** fileio.py 138-141: the while loop over the categories *)
Fixpoint take_categories (alts : list (nat * string)) (setsize : Z) (acc : list nat) (prefs : pballot)
  : result (list nat) :=
  match prefs with
  | [] => Ok acc
  | cat :: r =>
      if Z.ltb (Z.of_nat (length acc)) setsize then
        do l <- rmapM (normalize alts) cat;
        take_categories alts setsize (acc ++ l) r
      else Ok acc
  end.

(** fileio.py 136-149: the approval set of one ballot *)
Definition approval_set (alts : list (nat * string)) (top_ranks setsize : option Z) (prefs : pballot)
  : result (list nat) :=
  if truthy setsize then
    let n := match setsize with Some z => z | None => 0%Z end in
    do s <- take_categories alts n [] prefs;
    if (0 <? length s) && Z.ltb (Z.of_nat (length s)) n
    then Ok (seq 0 (length alts))
    else Ok s
  else if truthy top_ranks then
    let t := Z.to_nat (match top_ranks with Some z => z | None => 0%Z end) in
    rmap (@concat nat) (rmapM (rmapM (normalize alts)) (firstn t prefs))
  else Ok [].

Definition py_cands (s : list nat) : list pyobj := map (fun c => PyInt (Z.of_nat c)) s.

(** fileio.py 135-154: the loop over [multiplicity.items()] *)
Fixpoint read_ballots (alts : list (nat * string)) (top_ranks setsize : option Z) (use_weights : bool)
  (p : profile) (l : list (pballot * Z)) : result profile :=
  match l with
  | [] => Ok p
  | (prefs, count) :: r =>
      do s <- approval_set alts top_ranks setsize prefs;
      let o :=
        if use_weights then
          match voter_new (py_cands s) (inject_Z count) true None with
          | Ok v => add_voter p (ArgVoter v)
          | Err e => (Err e, p)
          end
        else add_voters p (repeat (ArgSet (py_cands s)) (Z.to_nat count)) in
      match o with
      | (Ok _, p') => read_ballots alts top_ranks setsize use_weights p' r
      | (Err e, _) => Err e
      end
  end.

(** fileio.py 66-156, [read_preflib_file].  [file] is the outcome of the
    preflibtools parser (any exception becomes MalformattedFileException);
    [from_ordinal] is preflibtools' conversion of rankings to categories, with
    the size truncator if one is given and one category per rank otherwise
    (lines 114-122). *)
Definition read_preflib_file (from_ordinal : instance Z -> option Z -> instance Z)
  (file : result parsed) (top_ranks0 setsize : option Z) (use_weights : bool) : result profile :=
  let top_ranks := match top_ranks0, setsize with None, None => Some 1%Z | _, _ => top_ranks0 end in
  if truthy top_ranks && truthy setsize then Err ValueError
  else if truthy top_ranks && match top_ranks with Some z => Z.leb z 0 | None => false end then Err ValueError
  else if truthy setsize && match setsize with Some z => Z.leb z 0 | None => false end then Err ValueError
  else
    do inst <- match file with
               | Err _ => Err MalformattedFile
               | Ok (Categorical i) => Ok i
               | Ok (Ordinal i) =>
                   Ok (if truthy setsize then from_ordinal i setsize
                       else if truthy top_ranks then from_ordinal i None else i)
               | Ok OtherInstance => Err ValueError
               end;
    do p <- profile_new (Z.of_nat (num_alternatives inst)) (Some (map snd (alternatives_name inst)));
    read_ballots (alternatives_name inst) top_ranks setsize use_weights p (multiplicity inst).

(** fileio.py 227-230: the pair of categories written for one voter *)
Definition voter_ballot (p : profile) (v : voter) : pballot :=
  [map S (approved v); map S (filter (fun c => negb (mem c (approved v))) (candidates p))].

(** fileio.py 231-234: the multiplicity of one voter, with its Python type
    ([true]: int); a fractional weight counts as 1. *)
Definition voter_multiplicity (v : voter) : Q * bool :=
  if Qeq_bool (inject_Z (Qnum (weight v) / Zpos (Qden (weight v)))) (weight v)
  then (weight v, weight_is_int v) else (1%Q, true).

Definition pballot_eq_dec : forall a b : pballot, {a = b} + {a <> b} := list_eq_dec (list_eq_dec Nat.eq_dec).

(** fileio.py 235-239: [multiplicity[pref] = m] or [+= m] *)
Fixpoint add_multiplicity (b : pballot) (m : Q * bool) (l : list (pballot * (Q * bool)))
  : list (pballot * (Q * bool)) :=
  match l with
  | [] => [(b, m)]
  | (b', m') :: r =>
      if pballot_eq_dec b b' then (b', ((fst m' + fst m)%Q, snd m' && snd m)) :: r
      else (b', m') :: add_multiplicity b m r
  end.

(** fileio.py 199-241, [write_profile_to_preflib_cat_file], up to the call of
    preflibtools' [write]; file name, category names and the cardinality
    parameter are left out. *)
Definition write_profile_to_preflib_cat_file (p : profile) : result (instance (Q * bool)) :=
  do names <- rmapM (fun c => match nth_error (cand_names p) c with
                              | Some s => Ok (S c, s) | None => Err IndexError end) (candidates p);
  Ok (mkInst names (num_cand p)
        (fold_left (fun acc v => add_multiplicity (voter_ballot p v) (voter_multiplicity v) acc)
                   (voters p) [])).

(** ** abc.yaml *)

(** YAML data; a number carries whether it is an int (else it is a float). *)
Inductive yval :=
| YNull
| YBool (b : bool)
| YNum (q : Q) (isint : bool)
| YStr (s : string)
| YList (l : list yval)
| YDict (d : list (string * yval)).

(** A Python dict with string keys. *)
Fixpoint get {A} (k : string) (d : list (string * A)) : option A :=
  match d with
  | [] => None
  | (k', x) :: r => if String.eqb k k' then Some x else get k r
  end.
(** [d[k] = x] *)
Fixpoint put {A} (k : string) (x : A) (d : list (string * A)) : list (string * A) :=
  match d with
  | [] => [(k, x)]
  | (k', y) :: r => if String.eqb k k' then (k', x) :: r else (k', y) :: put k x r
  end.

(** The values of a compute instance: plain data, a profile, or a list of
    committees ("result"). *)
Inductive pyv :=
| PData (y : yval)
| PProfile (p : profile)
| PCommittees (l : list (list nat)).
Definition compute_instance : Type := list (string * pyv).

(** fileio.py 17-24, [ABC_YAML_VALID_KEYS] *)
Definition ABC_YAML_VALID_KEYS : list string :=
  ["profile"; "num_cand"; "committeesize"; "compute"; "voter_weights"; "description"].

(** Python's [int(x)]; converting a string is not modelled (ValueError). *)
Definition py_int (y : yval) : result Z :=
  match y with
  | YNum q _ => Ok (Z.quot (Qnum q) (Zpos (Qden q)))
  | YBool b => Ok (if b then 1 else 0)%Z
  | YStr _ => Err ValueError
  | _ => Err TypeError
  end.

(** [isinstance(x, int)] as seen by [CandidateSet] (bools are ints); other
    objects are kept apart by their position, so that an error for a repeated
    non-integer is reported as the error for a non-integer. *)
Definition py_cand (i : nat) (y : yval) : pyobj :=
  match y with
  | YNum q true => PyInt (Z.quot (Qnum q) (Zpos (Qden q)))
  | YBool b => PyInt (if b then 1 else 0)%Z
  | _ => PyOther i
  end.
Definition py_list (y : yval) : result (list yval) :=
  match y with YList l => Ok l | _ => Err TypeError end.
Definition py_cand_list (y : yval) : result (list pyobj) :=
  do l <- py_list y; Ok (map (fun iy => py_cand (fst iy) (snd iy)) (combine (seq 0 (length l)) l)).

(** fileio.py 281: [max(cand for approval_set in ... for cand in ...) + 1];
    [max] of an empty sequence is a ValueError. *)
Definition max_cand (sets : list (list pyobj)) : result Z :=
  match concat sets with
  | [] => Err ValueError
  | c :: r => if forallb is_int (c :: r)
              then Ok (fold_left Z.max (map int_val r) (int_val c) + 1)%Z
              else Err TypeError
  end.

(** fileio.py 288-293: the voters with their weights *)
Fixpoint add_weighted (p : profile) (l : list (list pyobj * yval)) : result profile :=
  match l with
  | [] => Ok p
  | (s, w) :: r =>
      match w with
      | YNum q i =>
          do v <- voter_new s q i None;
          match add_voter p (ArgVoter v) with
          | (Ok _, p') => add_weighted p' r
          | (Err e, _) => Err e
          end
      | _ => Err TypeError
      end
  end.

(** fileio.py 275-295: the profile contained in the data *)
Definition yaml_profile (data : list (string * yval)) : result profile :=
  match get "profile" data with
  | None => Err MalformattedFile
  | Some y =>
      do sets <- (do l <- py_list y; rmapM py_cand_list l);
      do nc <- match get "num_cand" data with Some n => py_int n | None => max_cand sets end;
      do p <- profile_new nc None;
      match get "voter_weights" data with
      | Some w =>
          do ws <- py_list w;
          if negb (length ws =? length sets) then Err MalformattedFile
          else add_weighted p (combine sets ws)
      | None => match add_voters p (map ArgSet sets) with
                | (Ok _, p') => Ok p'
                | (Err e, _) => Err e
                end
      end
  end.

(** fileio.py 314-318: [misc.CandidateSet(committee)] for each committee *)
Definition read_result (y : yval) : result pyv :=
  match y with
  | YNull => Ok (PData YNull)
  | YList l => do cs <- rmapM (fun c => do s <- py_cand_list c; candidate_set_new s None) l;
               Ok (PCommittees cs)
  | _ => Err TypeError
  end.

(** fileio.py 306-318: one compute instance of the file *)
Definition read_compute_instance (p : profile) (k : option Z) (y : yval) : result compute_instance :=
  match y with
  | YDict d =>
      match get "rule_id" d with
      | None => Err MalformattedFile
      | Some _ =>
          let c := map (fun kx => (fst kx, PData (snd kx))) d in
          let c := put "profile" (PProfile p) c in
          let c := put "committeesize"
                     (PData (match k with Some z => YNum (inject_Z z) true | None => YNull end)) c in
          match get "result" d with
          | None => Ok c
          | Some r => do r' <- read_result r; Ok (put "result" r' c)
          end
      end
  | _ => Err TypeError
  end.

(** fileio.py 250-324, [read_abcvoting_yaml_file], from the loaded YAML data on;
    the fourth component of the result, [data] itself, is left out. *)
Definition read_abcvoting_yaml_data (y : yval) : result (profile * option Z * list compute_instance) :=
  match y with
  | YDict data =>
      do p <- yaml_profile data;
      do k <- match get "committeesize" data with
              | Some n => rmap Some (py_int n)
              | None => Ok None
              end;
      do insts <- match get "compute" data with
                  | Some c => do l <- py_list c; rmapM (read_compute_instance p k) l
                  | None => Ok []
                  end;
      if forallb (fun kx => existsb (String.eqb (fst kx)) ABC_YAML_VALID_KEYS) data
      then Ok (p, k, insts) else Err MalformattedFile
  | _ => Err TypeError
  end.

Definition y_int (n : nat) : yval := YNum (inject_Z (Z.of_nat n)) true.

(** [f"{s:4s}"]: padded with blanks to width 4 *)
Definition pad4 (s : string) : string :=
  s ++ String.concat "" (repeat " " (4 - String.length s)).

(** preferences.py 248-262, [Profile.__str__]; [str_weight] is Python's [str]
    of a number with its type.  The final [output[:-2]] removes the last two
    characters. *)
Definition str_profile (str_weight : Q -> bool -> string) (p : profile) : result string :=
  let unit := has_unit_weights p in
  do lines <- rmapM (fun iv =>
      do s <- str_set_with_names (approved (snd iv)) (cand_names p);
      Ok (" voter " ++ pad4 (str_nat (fst iv) ++ ":") ++ " " ++
          (if unit then "" else str_weight (weight (snd iv)) (weight_is_int (snd iv)) ++ " * ") ++
          s ++ "," ++ nl)%string) (combine (seq 0 (length (voters p))) (voters p));
  let out := ((if unit then "" else "weighted ") ++ "profile with " ++ str_nat (length (voters p)) ++
             " voters and " ++ str_nat (num_cand p) ++ " candidates:" ++ nl ++ String.concat "" lines)%string in
  Ok (substring 0 (String.length out - 2) out).

Section Write.
Variable str_weight : Q -> bool -> string.

(** fileio.py 368-374: the "result" entry *)
Definition write_result (v : pyv) : result yval :=
  match v with
  | PData YNull => Ok YNull
  | PCommittees l => Ok (YList (map (fun c => YList (map y_int c)) l))
  | _ => Err TypeError
  end.

(** fileio.py 389-393: the remaining parameters; objects that are not plain
    YAML data are not modelled (TypeError). *)
Fixpoint other_params (d : list (string * pyv)) : result (list (string * yval)) :=
  match d with
  | [] => Ok []
  | (k, v) :: r =>
      if existsb (String.eqb k) ["rule_id"; "result"; "profile"; "committeesize"] then other_params r
      else match v with
           | PData y => do r' <- other_params r; Ok ((k, y) :: r')
           | _ => Err TypeError
           end
  end.

(** fileio.py 364-394: one compute instance *)
Definition write_compute_instance (p : profile) (k : option Z) (c : compute_instance) : result yval :=
  match get "rule_id" c with
  | None => Err ValueError
  | Some (PData rid) =>
      do res <- match get "result" c with
                | None => Ok []
                | Some v => do y <- write_result v; Ok [("result", y)]
                end;
      do _ <- match get "profile" c with
              | None => Ok tt
              | Some (PProfile q) =>
                  do sq <- str_profile str_weight q;
                  do sp <- str_profile str_weight p;
                  if String.eqb sq sp then Ok tt else Err ValueError
              | Some _ => Err ValueError
              end;
      do _ <- match get "committeesize" c with
              | None => Ok tt
              | Some (PData y) =>
                  do z <- py_int y;
                  match k with
                  | Some k' => if Z.eqb z k' then Ok tt else Err ValueError
                  | None => Err ValueError
                  end
              | Some _ => Err TypeError
              end;
      do others <- other_params c;
      Ok (YDict (("rule_id", rid) :: res ++ others))
  | Some _ => Err TypeError
  end.

(** fileio.py 327-402, [write_abcvoting_instance_to_yaml_file], up to the dump
    of [data].  A weight is put in lowest terms, the one form the model gives a
    Python number inside YAML data. *)
Definition yaml_data (p : profile) (committeesize : option Z) (compute_instances : option (list compute_instance))
  (description : option string) : result yval :=
  do comp <- match compute_instances with
             | None => Ok []
             | Some l => do ys <- rmapM (write_compute_instance p committeesize) l;
                         Ok [("compute", YList ys)]
             end;
  Ok (YDict (
    match description with Some s => [("description", YStr s)] | None => [] end ++
    [("profile", YList (map (fun v => YList (map y_int (approved v))) (voters p)))] ++
    (if has_unit_weights p then []
     else [("voter_weights", YList (map (fun v => YNum (Qred (weight v)) (weight_is_int v)) (voters p)))]) ++
    [("num_cand", y_int (num_cand p))] ++
    match committeesize with Some z => [("committeesize", YNum (inject_Z z) true)] | None => [] end ++
    comp)).

(** fileio.py 327-402 and 250-324 with the YAML library in between: the dump
    may fail (for instance on a [Fraction]). *)
Definition write_abcvoting_instance_to_yaml_file {T} (dump : yval -> result T)
  (p : profile) (committeesize : option Z) (compute_instances : option (list compute_instance))
  (description : option string) : result T :=
  do y <- yaml_data p committeesize compute_instances description; dump y.
Definition read_abcvoting_yaml_file {T} (load : T -> result yval) (file : T)
  : result (profile * option Z * list compute_instance) :=
  do y <- load file; read_abcvoting_yaml_data y.

End Write.

(** * A store with Voter and Profile objects (preferences.py), for claims about aliasing

    Preferences.v treats a profile as a value.  Here voters are objects with an
    address, profiles refer to them, and client code may also change a voter
    object it can reach (e.g. [profile[0].weight = 3] or
    [profile[0].approved.add(2)]).  [HeapProofs.v] shows that this store refines
    the value model and that different profiles never share voters. *)
From Coq Require Import String.
From Coq Require Import List Arith Bool ZArith QArith Lia Permutation.
From Verif Require Import Prelude Misc Preferences.
Import ListNotations.
Open Scope nat_scope.

(** preferences.py 52-67 and 118-116: a profile object holds references. *)
Record profile_obj := mkProfileObj { po_num_cand : nat; po_names : list string; po_voters : list nat }.

(** voters are allocated by appending; the address is the position *)
Record store := mkStore { voter_objs : list voter; profile_objs : list profile_obj }.

Definition dangling : voter := mkVoter [] 1 true.
Definition deref (s : store) (a : nat) : voter := nth a (voter_objs s) dangling.

(** what the client sees when looking at a profile object *)
Definition view (s : store) (o : profile_obj) : profile :=
  mkProfile (po_num_cand o) (po_names o) (map (deref s) (po_voters o)).

Definition get (s : store) (i : nat) : option profile_obj := nth_error (profile_objs s) i.

(** allocate new voter objects with the given contents *)
Definition alloc (s : store) (vs : list voter) : store * list nat :=
  (mkStore (voter_objs s ++ vs) (profile_objs s),
   seq (List.length (voter_objs s)) (List.length vs)).

Definition put (s : store) (i : nat) (o : profile_obj) : store :=
  mkStore (voter_objs s) (replace_nth i o (profile_objs s)).

(** what a client passes to [add_voter]: an existing Voter object (possibly one
    that belongs to this or to another profile) or an iterable *)
Inductive obj_arg :=
| RefVoter (a : nat)
| RefSet (l : list pyobj).

Definition arg_value (s : store) (a : obj_arg) : voter_arg :=
  match a with RefVoter r => ArgVoter (deref s r) | RefSet l => ArgSet l end.

Inductive action :=
| NewVoter (l : list pyobj) (w : Q) (wint : bool)     (* Voter(l, weight=w) *)
| NewProfile (nc : Z) (names : option (list string))  (* Profile(nc, names) *)
| Copy (i : nat)                                      (* profile.copy() *)
| Add (i : nat) (a : obj_arg)                         (* profile.add_voter(a) *)
| SetItem (i j : nat) (a : obj_arg)                   (* profile[j] = a *)
| ToUnit (i : nat)
| ToWeighted (i : nat) (ord : list (list nat) -> list (list nat))
| Poke (i j : nat) (v : voter).                       (* change the object profile[j] in place *)

(** preferences.py 118-135 on references: each argument becomes a new object *)
Fixpoint add_all (s : store) (i : nat) (args : list nat) : store :=
  match args with
  | [] => s
  | r :: rest =>
      match get s i with
      | None => s
      | Some o =>
          match unique_voter (view s o) (ArgVoter (deref s r)) with
          | Err _ => s
          | Ok v => let '(s', refs) := alloc s [v] in
                    add_all (put s' i (mkProfileObj (po_num_cand o) (po_names o) (po_voters o ++ refs))) i rest
          end
      end
  end.

(** One action; exceptions leave the store as it is (preferences.py 90-273). *)
Definition step (s : store) (a : action) : store :=
  match a with
  | NewVoter l w wi =>
      match voter_new l w wi None with Ok v => fst (alloc s [v]) | Err _ => s end
  | NewProfile nc names =>
      match profile_new nc names with
      | Ok p => mkStore (voter_objs s) (profile_objs s ++ [mkProfileObj (num_cand p) (cand_names p) []])
      | Err _ => s
      end
  | Copy i =>
      match get s i with
      | None => s
      | Some o =>
          match profile_new (Z.of_nat (po_num_cand o)) None with
          | Err _ => s
          | Ok q => add_all (mkStore (voter_objs s) (profile_objs s ++ [mkProfileObj (num_cand q) (cand_names q) []]))
                            (List.length (profile_objs s)) (po_voters o)
          end
      end
  | Add i a =>
      match get s i with
      | None => s
      | Some o =>
          match unique_voter (view s o) (arg_value s a) with
          | Err _ => s
          | Ok v => let '(s', refs) := alloc s [v] in
                    put s' i (mkProfileObj (po_num_cand o) (po_names o) (po_voters o ++ refs))
          end
      end
  | SetItem i j a =>
      match get s i with
      | None => s
      | Some o =>
          match unique_voter (view s o) (arg_value s a) with
          | Err _ => s
          | Ok v => if j <? List.length (po_voters o) then
                      let '(s', refs) := alloc s [v] in
                      put s' i (mkProfileObj (po_num_cand o) (po_names o)
                                             (replace_nth j (List.length (voter_objs s)) (po_voters o)))
                    else s
          end
      end
  | ToUnit i =>
      match get s i with
      | None => s
      | Some o =>
          match unit_copies (map (deref s) (po_voters o)) with
          | Err _ => s
          | Ok vs => let '(s', refs) := alloc s vs in
                     put s' i (mkProfileObj (po_num_cand o) (po_names o) refs)
          end
      end
  | ToWeighted i ord =>
      match get s i with
      | None => s
      | Some o => let '(s', refs) := alloc s (voters (convert_to_weighted ord (view s o))) in
                  put s' i (mkProfileObj (po_num_cand o) (po_names o) refs)
      end
  | Poke i j v =>
      match get s i with
      | None => s
      | Some o =>
          match nth_error (po_voters o) j with
          | None => s
          | Some r => mkStore (replace_nth r v (voter_objs s)) (profile_objs s)
          end
      end
  end.

(** the profile (by number of creation) an action may change; creation changes none *)
Definition target (a : action) : option nat :=
  match a with
  | NewVoter _ _ _ | NewProfile _ _ | Copy _ => None
  | Add i _ | SetItem i _ _ | ToUnit i | ToWeighted i _ | Poke i _ _ => Some i
  end.

Definition empty_store : store := mkStore [] [].

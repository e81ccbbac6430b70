(** * Distributions of load (minimax and leximax Phragmén) *)
From Coq Require Import List Arith Bool ZArith QArith Permutation.
From Verif Require Import Prelude Misc Preferences Spec SpecSeq Milp.
Import ListNotations.
Open Scope nat_scope.

(** the voters with their positions *)
Definition with_positions (p : profile) : list (nat * voter) := combine (seq 0 (length (voters p))) (voters p).

(** Every member of [W] causes a load of 1, paid by the voters that approve it.
    [l i c] is what each of the [weight v] persons that voter [i] stands for pays for [c]. *)
Definition load_distribution (p : profile) (W : list nat) (l : nat -> nat -> Q) : Prop :=
  (forall i c, 0 <= l i c)%Q /\
  forall c, In c W ->
    (Qsum (map (fun iv => weight (snd iv) * l (fst iv) c) (filter (fun iv => approves (snd iv) c) (with_positions p))) == 1)%Q.
(** the load of voter [i], whose ballot is [v] *)
Definition voter_load (W : list nat) (l : nat -> nat -> Q) (i : nat) (v : voter) : Q :=
  Qsum (map (l i) (inter (approved v) W)).

(** the committee [W] can be bought with no voter paying more than [b] *)
Definition max_load (p : profile) (W : list nat) (b : Q) : Prop :=
  exists l, load_distribution p W l /\ forall i v, In (i, v) (with_positions p) -> (voter_load W l i v <= b)%Q.

(** minimax Phragmén: no committee has a smaller maximal load; [eps] is the tolerance *)
Definition minimaxphragmen_winner (eps : Q) (p : profile) (k : nat) (W : list nat) : Prop :=
  is_committee p k W /\ exists b, max_load p W b /\
    forall W' b', is_committee p k W' -> max_load p W' b' -> (b <= b' + eps)%Q.

(** leximax Phragmén: [sorted_load p W bounds eps b]: the voters can be ordered in such a way that
    the first ones have at most the loads [bounds] (up to [eps]), all others at most load [b] *)
Definition sorted_load (p : profile) (W : list nat) (bounds : list Q) (eps b : Q) : Prop :=
  exists l order, load_distribution p W l /\ Permutation order (seq 0 (length (voters p))) /\
    forall r i v, nth_error order r = Some i -> nth_error (voters p) i = Some v ->
      match nth_error bounds r with
      | Some b_r => (voter_load W l i v <= b_r + eps)%Q
      | None => (voter_load W l i v <= b)%Q
      end.
(** no committee within the first [bounds] allows a smaller bound for the other voters *)
Definition next_bound (p : profile) (k : nat) (bounds : list Q) (eps b : Q) : Prop :=
  (exists W, is_committee p k W /\ sorted_load p W bounds eps b) /\
  forall W b', is_committee p k W -> sorted_load p W bounds eps b' -> (b <= b')%Q.
(** the loads of the leximax optimum, largest first *)
Inductive leximax_bounds (p : profile) (k : nat) (eps : Q) : list Q -> Prop :=
| lb_nil : leximax_bounds p k eps []
| lb_snoc : forall bounds b, leximax_bounds p k eps bounds -> next_bound p k bounds eps b -> leximax_bounds p k eps (bounds ++ [b]).

(** the committees that the program selects, given the loads of the voters with the largest loads *)
Definition leximax_winner (p : profile) (k : nat) (bounds : list Q) (W : list nat) : Prop :=
  is_committee p k W /\ exists b, sorted_load p W bounds ACCURACY b /\
    forall W' b', is_committee p k W' -> sorted_load p W' bounds ACCURACY b' -> (b <= b' + CMP_ACCURACY)%Q.
(** all of the leximax optimum but the last load, or its loads larger than the tolerance *)
Definition enough_bounds (p : profile) (k : nat) (bounds : list Q) : Prop :=
  leximax_bounds p k ACCURACY bounds /\ Forall (fun b => CMP_ACCURACY < b)%Q bounds /\
  (length bounds = length (voters p) - 1 \/
   (length bounds < length (voters p) - 1 /\ exists b, next_bound p k bounds ACCURACY b /\ (b <= CMP_ACCURACY)%Q)).

(** ** Maximin support

    Every voter that approves a member of [W] distributes its weight among the members it approves. *)
Definition support_distribution (p : profile) (W : list nat) (f : nat -> nat -> Q) : Prop :=
  (forall i c, 0 <= f i c)%Q /\
  forall i v, In (i, v) (with_positions p) -> inter (approved v) W <> [] ->
    (Qsum (map (f i) (inter (approved v) W)) == weight v)%Q.
(** the support that [c] receives *)
Definition received (p : profile) (f : nat -> nat -> Q) (c : nat) : Q :=
  Qsum (map (fun iv => f (fst iv) c) (filter (fun iv => approves (snd iv) c) (with_positions p))).
(** [s] is the largest support that all members of [W] can be given at the same time *)
Definition maximin_support (p : profile) (W : list nat) (s : Q) : Prop :=
  (exists f, support_distribution p W f /\ forall c, In c W -> (s <= received p f c)%Q) /\
  forall f s', support_distribution p W f -> (forall c, In c W -> (s' <= received p f c)%Q) -> (s' <= s)%Q.

(** Candidates are added one at a time; [c] may be added if no other candidate leads to a committee
    with a maximin support larger by more than [eps].  (No numbers are kept for the voters.) *)
Definition maximin_choice (eps : Q) (p : profile) (W : list nat) (unused : nat -> Q) (c : nat) : Prop :=
  fresh p W c /\ exists s, maximin_support p (c :: W) s /\
    forall d s', fresh p W d -> maximin_support p (d :: W) s' -> (s' <= s + eps)%Q.
Definition no_update (p : profile) (W : list nat) (x : nat -> Q) (c : nat) (x' : nat -> Q) : Prop := agree p x' x.
Definition maximin_winner (eps : Q) (p : profile) : nat -> list nat -> Prop :=
  run_winner p (maximin_choice eps p) (no_update p) [] (fun _ => 0%Q).
Definition maximin_lex_winner (eps : Q) (p : profile) : nat -> list nat -> Prop :=
  lex_run_winner p (maximin_choice eps p) (no_update p) [] (fun _ => 0%Q).

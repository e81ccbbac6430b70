(** * Specification for generate.py: the documented distributions and the
    contract of prefsampling *)
From Coq Require Import String.
From Coq Require Import List Arith Bool ZArith QArith.
From Verif Require Import Prelude Misc Preferences Generate.
Import ListNotations.
Local Open Scope string_scope.
Open Scope nat_scope.
Local Open Scope list_scope.

(** The documented parameters of each distribution: required, optional. *)
Definition EUCLID : list string := ["voter_prob_distribution"; "candidate_prob_distribution"].
Definition EUCLID_OPT : list string := ["voter_points"; "candidate_points"; "return_points"].
Definition documented : list (string * (list string * list string)) := [
  ("IC fixed-size", (["setsize"], []));
  ("IC", ([], ["p"]));
  ("Truncated Mallows", (["setsize"; "dispersion"], []));
  ("Urn fixed-size", (["setsize"; "replace"], []));
  ("Urn", (["p"; "replace"], []));
  ("Truncated Urn", (["setsize"; "replace"], []));
  ("Euclidean VCR", (EUCLID ++ ["voter_radius"; "candidate_radius"], EUCLID_OPT));
  ("Euclidean fixed-size", (EUCLID ++ ["setsize"], EUCLID_OPT));
  ("Euclidean Threshold", (EUCLID ++ ["threshold"], EUCLID_OPT));
  ("Resampling", (["p"; "phi"], []));
  ("Disjoint Resampling", (["p"], ["phi"; "num_groups"]));
  ("Noise", (["p"; "phi"], ["distance"]))].

Definition fixed_size (id : string) : Prop :=
  In id ["IC fixed-size"; "Truncated Mallows"; "Urn fixed-size"; "Truncated Urn"; "Euclidean fixed-size"].

Definition EUCLIDEAN : list string := ["Euclidean VCR"; "Euclidean fixed-size"; "Euclidean Threshold"].
Definition POINT_DISTRIBUTIONS : list (string * nat) :=
  [("1d_interval", 1); ("1d_gaussian", 1); ("1d_gaussian_interval", 1); ("2d_disc", 2); ("2d_square", 2);
   ("2d_gaussian", 2); ("2d_gaussian_disc", 2); ("3d_cube", 3)].
Definition DISTANCES : list string := ["hamming"; "jaccard"; "zelinka"; "bunke-shearer"].

(** Which sampler of prefsampling each distribution stands for, and where the documented parameters go:
    [Same key par]: argument [key] is parameter [par]; [Rel]: rel_num_approvals is setsize / num_cand;
    [Ordinal s key par]: the ordinal sampler is [s] with argument [key] = [par];
    [Distance]: the distance named by the parameter. *)
Inductive argument := Same (key par : string) | Rel | Ordinal (s key par : string) | Distance.
Definition sampler_table : list (string * (string * list argument)) := [
  ("IC fixed-size", ("impartial_constant_size", [Rel]));
  ("IC", ("impartial", [Same "p" "p"]));
  ("Truncated Mallows", ("truncated_ordinal", [Rel; Ordinal "mallows" "phi" "dispersion"]));
  ("Urn fixed-size", ("urn_constant_size", [Rel; Same "alpha" "replace"]));
  ("Urn", ("urn", [Same "p" "p"; Same "alpha" "replace"]));
  ("Truncated Urn", ("truncated_ordinal", [Rel; Ordinal "urn" "alpha" "replace"]));
  ("Euclidean VCR", ("euclidean_vcr", [Same "voters_radius" "voter_radius"; Same "candidates_radius" "candidate_radius"]));
  ("Euclidean fixed-size", ("euclidean_constant_size", [Rel]));
  ("Euclidean Threshold", ("euclidean_threshold", [Same "threshold" "threshold"]));
  ("Resampling", ("resampling", [Same "phi" "phi"; Same "rel_size_central_vote" "p"]));
  ("Disjoint Resampling", ("disjoint_resampling",
     [Same "phi" "phi"; Same "rel_size_central_vote" "p"; Same "num_central_votes" "num_groups"]));
  ("Noise", ("noise", [Same "phi" "phi"; Same "rel_size_central_vote" "p"; Distance]))].
Definition distance_constant : list (string * string) :=
  [("hamming", "HAMMING"); ("jaccard", "JACCARD"); ("zelinka", "ZELINKA"); ("bunke-shearer", "BUNKE_SHEARER")].

Section S.
Context {F : Type}.
Notation params := (list (string * gval F)).

(** Exactly the documented parameters (besides "id"). *)
Definition proper_keys (id : string) (dist : params) : Prop :=
  exists req opt, In (id, (req, opt)) documented /\
    (forall k, In k (map fst dist) -> k = "id" \/ In k req \/ In k opt) /\
    (forall k, In k req -> In k (map fst dist)).

(** Values of the documented type. *)
Definition proper_value (key : string) (v : gval F) : Prop :=
  (key = "setsize" -> exists z, v = GInt z) /\
  (key = "distance" -> exists s, v = GStr s /\ In s DISTANCES) /\
  (In key EUCLID -> exists d, v = GDist d /\ In (dist_name d) (map fst POINT_DISTRIBUTIONS)) /\
  (In key ["voter_points"; "candidate_points"] -> v = GNone \/ exists x l, v = GPoints (x :: l)).

(** The arguments [ps] of the sampler carry the parameters [dist] as documented; omitted optional parameters have their
    default values. *)
Definition DEFAULTS (half : F) : params := [("p", GFloat half); ("num_groups", GInt 2); ("distance", GStr "hamming")].
Definition parameter (half : F) (dist : params) (par : string) (v : gval F) : Prop :=
  lookup par dist = Some v \/ (lookup par dist = None /\ lookup par (DEFAULTS half) = Some v).
Definition passes (div : Z + F -> Z -> F) (nc : Z) (dist ps : params) (a : argument) : Prop :=
  let half := div (inl 1%Z) 2%Z in
  match a with
  | Same key par => forall v, v <> GNone -> parameter half dist par v -> lookup key ps = Some v
  | Rel => (forall z, lookup "setsize" dist = Some (GInt z) -> lookup "rel_num_approvals" ps = Some (GFloat (div (inl z) nc))) /\
           (forall f, lookup "setsize" dist = Some (GFloat f) -> lookup "rel_num_approvals" ps = Some (GFloat (div (inr f) nc)))
  | Ordinal s key par => forall v, lookup par dist = Some v -> lookup "ordinal_sampler" ps = Some (GFun s [(key, v)])
  | Distance => forall n c, parameter half dist "distance" (GStr n) -> lookup n distance_constant = Some c ->
                lookup "distance" ps = Some (GStr c)
  end.

(** Positions come from the given points, or else from the given distribution. *)
Definition points_from (points distribution : string) (dist : params) (pos : gval F) : Prop :=
  (forall l, lookup points dist = Some (GPoints l) -> pos = GPoints l) /\
  (lookup points dist = None \/ lookup points dist = Some GNone ->
   forall d f ps, lookup distribution dist = Some (GDist d) -> prefsampling_function d = Ok (f, ps) -> pos = GFun f ps).
(** The dimension is that of the first voter point, or else the digit in the distribution's name. *)
Definition dimension_from (dist : params) (dim : Z) : Prop :=
  (forall x l, lookup "voter_points" dist = Some (GPoints (x :: l)) -> dim = Z.of_nat (length x)) /\
  (lookup "voter_points" dist = None \/ lookup "voter_points" dist = Some GNone ->
   forall d, lookup "voter_prob_distribution" dist = Some (GDist d) -> first_digit (dist_name d) = Ok dim).

(** The set of candidates [s] of a sample. *)
Definition sample_of (nc : Z) (s : list pyobj) : Prop :=
  NoDup s /\ Forall (fun c => exists z, c = PyInt z /\ (0 <= z < nc)%Z) s.

(** prefsampling: asked for [nv] voters and [nc] candidates a sampler gives [nv] sets
    of candidates; with the argument rel_num_approvals = r each of them has [size r nc]
    elements. *)
Definition sampler_contract (size : F -> Z -> Z) (sampler : string -> params -> result (list (list pyobj))) : Prop :=
  forall s ps samples nv nc, (0 <= nv)%Z -> sampler s ps = Ok samples ->
    lookup "num_voters" ps = Some (GInt nv) -> lookup "num_candidates" ps = Some (GInt nc) ->
    Z.of_nat (length samples) = nv /\ Forall (sample_of nc) samples /\
    forall r, lookup "rel_num_approvals" ps = Some (GFloat r) -> Forall (fun x => Z.of_nat (length x) = size r nc) samples.

(** A sampler that does not raise. *)
Definition never_raises {A B} (f : A -> B -> result (list (list pyobj))) : Prop := forall a b, exists x, f a b = Ok x.
End S.

(** * Model of abcvoting/generate.py

    The samplers of the package prefsampling are an oracle [sampler]; positions
    (prefsampling's [sample_election_positions]) are an oracle [positions]; the
    module's random number generator contributes the value [rand].  Python floats
    are elements of an arbitrary type [F] with true division [div]. *)
From Coq Require Import String Ascii.
From Coq Require Import List Arith Bool ZArith QArith Lia.
From Verif Require Import Prelude Misc Preferences.
Import ListNotations.
Local Open Scope string_scope.
Open Scope nat_scope.
Local Open Scope list_scope.

Fixpoint lookup {A} (key : string) (l : list (string * A)) : option A :=
  match l with
  | [] => None
  | (k, v) :: r => if String.eqb k key then Some v else lookup key r
  end.

Section Floats.
Context {F : Type}.

(** generate.py 791-900, [PointProbabilityDistribution]: its attributes. *)
Record pdist := mkDist { dist_name : string; dimension : nat; center : list F; sigma : F; width : F }.

(** Python values passed as parameters.  [GFun s ps]: the prefsampling
    function [s] with the keyword arguments [ps] (a lambda of
    [prefsampling_function]). *)
Inductive gval :=
| GNone | GBool (b : bool) | GInt (z : Z) | GFloat (f : F) | GStr (s : string)
| GPoint (x : list F) | GPoints (l : list (list F)) | GDist (d : pdist)
| GFun (s : string) (ps : list (string * gval)).
Definition params := list (string * gval).

(** int() of a string, for strings of decimal digits (simplification: signs,
    blanks and underscores are rejected). *)
Definition digit (a : ascii) : option nat :=
  let n := nat_of_ascii a in if (48 <=? n) && (n <=? 57) then Some (n - 48) else None.
Fixpoint digits (acc : nat) (s : string) : option nat :=
  match s with
  | EmptyString => Some acc
  | String a r => match digit a with Some d => digits (10 * acc + d) r | None => None end
  end.
Definition int_of_string (s : string) : option nat :=
  match s with EmptyString => None | _ => digits 0 s end.
(** name.split("d_")[0] *)
Fixpoint before_d (s : string) : string :=
  match s with
  | String "d" (String "_" _) => EmptyString
  | String a r => String a (before_d r)
  | EmptyString => EmptyString
  end.

(** generate.py 869-893, [PointProbabilityDistribution.__init__]; the centre point is
    a number ([inl]) or a sequence ([inr]). *)
Definition dist_new (name : string) (c : F + list F) (sg w : F) : result pdist :=
  match int_of_string (before_d name) with
  | None => Err ValueError
  | Some d => match c with
              | inr l => if List.length l =? d then Ok (mkDist name d l sg w) else Err ValueError
              | inl x => Ok (mkDist name d (repeat x d) sg w)
              end
  end.

(** generate.py 895-974, [prefsampling_function]: the lambda as data. *)
Definition prefsampling_function (d : pdist) : result (string * params) :=
  let dim n := ("num_dimensions", GInt n) in
  let c := ("center_point", GPoint (center d)) in
  let s := ("sigmas", GFloat (sigma d)) in
  let w := ("widths", GFloat (width d)) in
  if String.eqb (dist_name d) "1d_interval" then Ok ("cube", [dim 1%Z; c; w])
  else if String.eqb (dist_name d) "1d_gaussian" then Ok ("gaussian", [dim 1%Z; c; s])
  else if String.eqb (dist_name d) "1d_gaussian_interval" then Ok ("gaussian", [dim 1%Z; c; s; ("widths", GPoint [width d])])
  else if String.eqb (dist_name d) "2d_disc" then Ok ("ball_uniform", [dim 2%Z; c; w])
  else if String.eqb (dist_name d) "2d_square" then Ok ("cube", [dim 2%Z; c; w])
  else if String.eqb (dist_name d) "2d_gaussian" then Ok ("gaussian", [dim 2%Z; c; s])
  else if String.eqb (dist_name d) "2d_gaussian_disc" then
    Ok ("ball_resampling", [dim 2%Z; ("inner_sampler", GFun "gaussian" [dim 2%Z; c; s]); c; ("width", GFloat (width d))])
  else if String.eqb (dist_name d) "3d_cube" then Ok ("cube", [dim 3%Z; c; w])
  else Err ValueError.

(** int(voter_prob_distribution.name[0]), generate.py 548 *)
Definition first_digit (s : string) : result Z :=
  match s with
  | EmptyString => Err IndexError
  | String a _ => match digit a with Some n => Ok (Z.of_nat n) | None => Err ValueError end
  end.

Variable div : Z + F -> Z -> F.
Variable rand : F.
Variable sampler : string -> params -> result (list (list pyobj)).
Variable positions : Z -> Z -> Z -> gval -> gval -> result (list (list F) * list (list F)).

(** A generated profile, and the points if return_points is set. *)
Definition generated : Type := profile * option (list (list F) * list (list F)).

(** generate.py 36-38: the loop of [prefsampling_wrapper]. *)
Fixpoint add_samples (nc : Z) (p : profile) (samples : list (list pyobj)) : result profile :=
  match samples with
  | [] => Ok p
  | s :: r => do v <- voter_new s 1 true (Some nc);
              match add_voter p (ArgVoter v) with
              | (Ok _, p') => add_samples nc p' r
              | (Err e, _) => Err e
              end
  end.

(** generate.py 19-39, [prefsampling_wrapper] *)
Definition prefsampling_wrapper (s : string) (nv nc : Z) (ps : params) : result profile :=
  do samples <- sampler s (("num_voters", GInt nv) :: ("num_candidates", GInt nc) :: ps);
  do p <- profile_new nc None;
  add_samples nc p samples.

(** Python's [/] applied to a parameter and num_cand. *)
Definition divide (a : gval) (nc : Z) : result gval :=
  match a with
  | GInt z => if Z.eqb nc 0 then Err ZeroDivisionError else Ok (GFloat (div (inl z) nc))
  | GFloat f => if Z.eqb nc 0 then Err ZeroDivisionError else Ok (GFloat (div (inr f) nc))
  | _ => Err TypeError
  end.

(** generate.py 538-560: positions given by points or by a distribution
    (arguments of other types raise; simplification: TypeError). *)
Definition voter_positions (points dist : gval) : result (gval * Z) :=
  match points, dist with
  | GNone, GNone => Ok (GNone, (-1)%Z)
  | GNone, GDist d => do f <- prefsampling_function d; do n <- first_digit (dist_name d); Ok (GFun (fst f) (snd f), n)
  | GPoints [], _ => Err IndexError
  | GPoints (x :: l), _ => Ok (GPoints (x :: l), Z.of_nat (List.length x))
  | _, _ => Err TypeError
  end.
Definition candidate_positions (points dist : gval) : result gval :=
  match points, dist with
  | GNone, GNone => Ok GNone
  | GNone, GDist d => do f <- prefsampling_function d; Ok (GFun (fst f) (snd f))
  | GPoints l, _ => Ok (GPoints l)
  | _, _ => Err TypeError
  end.

Definition is_true (v : gval) : bool :=
  match v with
  | GNone | GBool false | GInt 0 | GStr EmptyString => false
  | _ => true
  end.

(** generate.py 486-571, [prefsampling_euclidean_wrapper] *)
Definition euclidean_wrapper (nv nc : Z) (vdist cdist vpoints cpoints return_points : gval)
    (s : string) (ps : params) : result generated :=
  do vd <- voter_positions vpoints vdist;
  let '(vpos, dim) := vd in
  do cpos <- candidate_positions cpoints cdist;
  do pts <- positions nv nc dim vpos cpos;
  let '(v, c) := pts in
  do p <- prefsampling_wrapper s nv nc
            (ps ++ [("num_dimensions", GInt dim); ("voters_positions", GPoints v); ("candidates_positions", GPoints c)]);
  Ok (p, if is_true return_points then Some (v, c) else None).

(** A generator function: required and optional parameters (after num_voters,
    num_cand) and body. *)
Record generator := mkGen {
  required : list string; optional : params;
  body : Z -> Z -> (string -> gval) -> result generated }.

Definition plain (r : result profile) : result generated := do p <- r; Ok (p, None).

(** generate.py 420-483, [random_noise_model_profile]: the distance names *)
Definition noise_type (v : gval) : result gval :=
  match v with
  | GStr s => if String.eqb s "hamming" then Ok (GStr "HAMMING")
              else if String.eqb s "jaccard" then Ok (GStr "JACCARD")
              else if String.eqb s "zelinka" then Ok (GStr "ZELINKA")
              else if String.eqb s "bunke-shearer" then Ok (GStr "BUNKE_SHEARER")
              else Err ValueError
  | _ => Err ValueError
  end.

Definition POINT_OPTIONS : params :=
  [("voter_points", GNone); ("candidate_points", GNone); ("return_points", GBool false)].
Definition euclidean (req : list string) (s : string) (ps : Z -> (string -> gval) -> result params) : generator :=
  mkGen ("voter_prob_distribution" :: "candidate_prob_distribution" :: req) POINT_OPTIONS
    (fun nv nc a =>
       do l <- ps nc a;
       euclidean_wrapper nv nc (a "voter_prob_distribution") (a "candidate_prob_distribution")
         (a "voter_points") (a "candidate_points") (a "return_points") s l).

(** generate.py 93-483 and 574-788 (the generator functions) with 993-1006,
    [PROBABILITY_DISTRIBUTIONS] *)
Definition PROBABILITY_DISTRIBUTIONS : list (string * generator) := [
  ("IC fixed-size", mkGen ["setsize"] [] (fun nv nc a =>
      do r <- divide (a "setsize") nc;
      plain (prefsampling_wrapper "impartial_constant_size" nv nc [("rel_num_approvals", r)])));
  ("IC", mkGen [] [("p", GFloat (div (inl 1%Z) 2))] (fun nv nc a =>
      plain (prefsampling_wrapper "impartial" nv nc [("p", a "p")])));
  ("Truncated Mallows", mkGen ["setsize"; "dispersion"] [] (fun nv nc a =>
      do r <- divide (a "setsize") nc;
      plain (prefsampling_wrapper "truncated_ordinal" nv nc
        [("rel_num_approvals", r); ("ordinal_sampler", GFun "mallows" [("phi", a "dispersion")])])));
  ("Urn fixed-size", mkGen ["setsize"; "replace"] [] (fun nv nc a =>
      do r <- divide (a "setsize") nc;
      plain (prefsampling_wrapper "urn_constant_size" nv nc [("rel_num_approvals", r); ("alpha", a "replace")])));
  ("Urn", mkGen ["p"; "replace"] [] (fun nv nc a =>
      plain (prefsampling_wrapper "urn" nv nc [("p", a "p"); ("alpha", a "replace")])));
  ("Truncated Urn", mkGen ["setsize"; "replace"] [] (fun nv nc a =>
      do r <- divide (a "setsize") nc;
      plain (prefsampling_wrapper "truncated_ordinal" nv nc
        [("rel_num_approvals", r); ("ordinal_sampler", GFun "urn" [("alpha", a "replace")])])));
  ("Euclidean VCR", euclidean ["voter_radius"; "candidate_radius"] "euclidean_vcr" (fun _ a =>
      Ok [("voters_radius", a "voter_radius"); ("candidates_radius", a "candidate_radius")]));
  ("Euclidean fixed-size", euclidean ["setsize"] "euclidean_constant_size" (fun nc a =>
      do r <- divide (a "setsize") nc; Ok [("rel_num_approvals", r)]));
  ("Euclidean Threshold", euclidean ["threshold"] "euclidean_threshold" (fun _ a =>
      Ok [("threshold", a "threshold")]));
  ("Resampling", mkGen ["p"; "phi"] [] (fun nv nc a =>
      plain (prefsampling_wrapper "resampling" nv nc [("phi", a "phi"); ("rel_size_central_vote", a "p")])));
  ("Disjoint Resampling", mkGen ["p"] [("phi", GNone); ("num_groups", GInt 2)] (fun nv nc a =>
      let phi := match a "phi" with GNone => GFloat rand | v => v end in
      plain (prefsampling_wrapper "disjoint_resampling" nv nc
        [("phi", phi); ("rel_size_central_vote", a "p"); ("num_central_votes", a "num_groups")])));
  ("Noise", mkGen ["p"; "phi"] [("distance", GStr "hamming")] (fun nv nc a =>
      do d <- noise_type (a "distance");
      plain (prefsampling_wrapper "noise" nv nc
        [("phi", a "phi"); ("rel_size_central_vote", a "p"); ("distance", d)])))
].

Definition PROBABILITY_DISTRIBUTION_IDS : list string := map fst PROBABILITY_DISTRIBUTIONS.

(** Calling [f(num_voters, num_cand, **kwargs)]: unexpected, repeated and
    missing arguments are TypeErrors. *)
Definition call (g : generator) (nv nc : Z) (kwargs : params) : result generated :=
  if negb (forallb (fun kv => existsb (String.eqb (fst kv)) (required g ++ map fst (optional g))) kwargs) then Err TypeError
  else if negb (forallb (fun k => match lookup k kwargs with Some _ => true | None => false end) (required g)) then Err TypeError
  else body g nv nc (fun k => match lookup k (kwargs ++ optional g) with Some v => v | None => GNone end).

(** generate.py 84-90, [random_profile] (the keys of the dictionary are distinct). *)
Definition random_profile (nv nc : Z) (dist : params) : result generated :=
  match lookup "id" dist with
  | None => Err KeyError
  | Some (GStr id) =>
      match lookup id PROBABILITY_DISTRIBUTIONS with
      | None => Err ValueError
      | Some g => call g nv nc (filter (fun kv => negb (String.eqb (fst kv) "id")) dist)
      end
  | Some _ => Err ValueError
  end.
End Floats.
Arguments gval : clear implicits.
Arguments params : clear implicits.
Arguments pdist : clear implicits.
Arguments generated : clear implicits.

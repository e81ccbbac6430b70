(** * What score function identifiers mean, independent of the parser *)
From Coq Require Import String.
From Coq Require Import List Arith Bool ZArith QArith Permutation.
From Verif Require Import Prelude Misc Preferences Spec Rule Compute.
Import ListNotations.
Local Open Scope string_scope.

(** The identifiers accepted by the Thiele methods and the marginal score
    function each denotes; "geom" is followed by anything Python's [Fraction]
    parses as a positive number. *)
Inductive denotes (e : env) : string -> (nat -> Q) -> Prop :=
| den_pav : denotes e "pav" pav_w
| den_slav : denotes e "slav" slav_w
| den_cc : denotes e "cc" cc_w
| den_geom : forall s b, fraction_of_string e s = Some b -> (0 < b)%Q ->
    denotes e ("geom" ++ s) (geom_w b).

(** The identifiers accepted by [thiele_score]. *)
Inductive score_denotes (e : env) : string -> (nat -> Q) -> Prop :=
| sden_thiele : forall id f, denotes e id f -> score_denotes e id f
| sden_av : score_denotes e "av" av_w
| sden_atleast : forall s z, int_of_string e s = Some z -> score_denotes e ("atleast" ++ s) (atleast_w z).

(** The algorithms that calculate with exact fractions. *)
Definition exact_arithmetic (e : env) (alg : string) : Prop :=
  alg = "standard-fractions" \/ (alg = "gmpy2-fractions" /\ has_gmpy2 (inst e) = true).

(** The rules whose results are shown to be the same for "the same election":
    all parameter values, valid or not. *)
Definition same_results (e : env) (p q : profile) : Prop :=
  forall k resolute maxn,
    (forall id alg, In alg ["brute-force"; "branch-and-bound"]%list ->
       compute_thiele_method e id p k alg resolute maxn = compute_thiele_method e id q k alg resolute maxn) /\
    (forall id alg, compute_seq_thiele_method e id p k alg resolute maxn =
                    compute_seq_thiele_method e id q k alg resolute maxn) /\
    (forall id alg, compute_revseq_thiele_method e id p k alg resolute maxn =
                    compute_revseq_thiele_method e id q k alg resolute maxn) /\
    (forall alg, compute_av e p k alg resolute maxn = compute_av e q k alg resolute maxn) /\
    (fraction_weights p -> fraction_weights q ->
     forall alg, compute_sav e p k alg resolute maxn = compute_sav e q k alg resolute maxn) /\
    compute_lexcc e p k "brute-force" resolute maxn = compute_lexcc e q k "brute-force" resolute maxn /\
    compute_minimaxav e p k "brute-force" resolute maxn = compute_minimaxav e q k "brute-force" resolute maxn /\
    (forall alg, compute_trivial_rule e p k alg resolute maxn = compute_trivial_rule e q k alg resolute maxn).

(** The same voters in another order, each approval set listed in any order. *)
Definition relisted (v u : voter) : Prop :=
  Permutation (approved v) (approved u) /\ (weight v == weight u)%Q /\ weight_is_int v = weight_is_int u.
Definition reordered (p q : profile) : Prop :=
  num_cand p = num_cand q /\
  exists vs, Permutation (voters p) vs /\ Forall2 relisted vs (voters q).

(** * Claims C23 and C50: parameter checks and choice of the algorithm *)
From Coq Require Import String.
From Coq Require Import List Arith Bool ZArith QArith Lia Lqa Permutation Sorted.
From Verif Require Import Prelude Misc Preferences Scores Rule Spec Compute RuleProofs ExampleData.
Import ListNotations.
Open Scope nat_scope.
Local Open Scope string_scope.

(** ** C23.  [legal_size] and [legal_max] are spelled out in the statement. *)
Theorem C23_verify_compute_parameters : forall r p k alg resolute maxn,
  let legal_size := (1 <= k <= Z.of_nat (num_cand p))%Z /\ voters p <> [] in
  let legal_max := match maxn with
                   | None => True
                   | Some (PyInt z) => (1 <= z)%Z /\ resolute = false
                   | Some (PyOther _) => False
                   end in
  let out := verify_compute_parameters r p k alg resolute maxn in
  (out = Ok tt <-> legal_size /\ In alg (algorithms r) /\ In resolute (resolute_values r) /\ legal_max) /\
  (out = Err UnknownAlgorithm <-> legal_size /\ ~ In alg (algorithms r)) /\
  (out = Err NotImplementedError <-> legal_size /\ In alg (algorithms r) /\ ~ In resolute (resolute_values r)) /\
  (out = Err ValueError <-> ~ legal_size \/
       (In alg (algorithms r) /\ In resolute (resolute_values r) /\ ~ legal_max)) /\
  (out = Ok tt \/ out = Err UnknownAlgorithm \/ out = Err NotImplementedError \/ out = Err ValueError).
Proof. exact verify_exact. Qed.
Print Assumptions C23_verify_compute_parameters.

(** every [compute_*] function stops with that error *)
Theorem C23_errors_propagate : forall e id p k alg resolute maxn body r err,
  lookup_rule e id = Ok r -> alg <> "fastest" ->
  verify_compute_parameters r p k alg resolute maxn = Err err ->
  run e id p k alg resolute maxn body = Err err.
Proof. exact run_error. Qed.
Print Assumptions C23_errors_propagate.

Example C23_example : exists r, lookup_rule ex_env "pav" = Ok r /\
  verify_compute_parameters r ex_profile 4 "brute-force" true None = Ok tt /\
  verify_compute_parameters r ex_profile 5 "brute-force" true None = Err ValueError /\
  verify_compute_parameters r ex_profile 0 "brute-force" true None = Err ValueError /\
  verify_compute_parameters r ex_profile 2 "standard" true None = Err UnknownAlgorithm /\
  verify_compute_parameters r ex_profile 2 "brute-force" true (Some (PyInt 1)) = Err ValueError /\
  verify_compute_parameters r ex_profile 2 "brute-force" false (Some (PyInt 0)) = Err ValueError /\
  (exists r', lookup_rule ex_env "rsd" = Ok r' /\
     verify_compute_parameters r' ex_profile 2 "standard" false None = Err NotImplementedError).
Proof.
  eexists. split; [reflexivity|]. do 6 (split; [reflexivity|]). eexists. split; reflexivity.
Qed.

(** ** C50 *)
Theorem C50_fastest : forall e i id r, lookup_rule e id = Ok r ->
  let usable a := (In a ["gurobi"; "mip-gurobi"] -> has_gurobi i = true) /\
                  (a = "gmpy2-fractions" -> has_gmpy2 i = true) /\
                  (a = "ortools-cp" -> has_ortools i = true) in
  match fastest_available_algorithm i r with
  | Ok a => usable a /\ exists faster slower, algorithms r = (faster ++ a :: slower)%list /\
              forall b, In b faster -> ~ usable b
  | Err err => err = NoAvailableAlgorithm /\ forall b, In b (algorithms r) -> ~ usable b
  end.
Proof. exact fastest_spec. Qed.
Print Assumptions C50_fastest.

Theorem C50_fastest_exists : forall e i id r, lookup_rule e id = Ok r ->
  ((exists a, fastest_available_algorithm i r = Ok a) <-> id <> "leximaxphragmen" \/ has_gurobi i = true).
Proof. exact fastest_exists. Qed.
Print Assumptions C50_fastest_exists.

Theorem C50_fastest_accepted : forall e i id r a, lookup_rule e id = Ok r -> fastest_available_algorithm i r = Ok a ->
  forall p k resolute maxn, verify_compute_parameters r p k a resolute maxn <> Err UnknownAlgorithm.
Proof. exact fastest_passes. Qed.
Print Assumptions C50_fastest_accepted.

Example C50_example : exists r, lookup_rule ex_env "seqgeom2" = Ok r /\
  (exists r', lookup_rule ex_env "cc" = Ok r' /\
    fastest_available_algorithm (mkInstalled false true true) r' = Ok "ortools-cp") /\
  (exists r', lookup_rule ex_env "leximaxphragmen" = Ok r' /\
    fastest_available_algorithm (mkInstalled false true true) r' = Err NoAvailableAlgorithm).
Proof. eexists. split; [reflexivity|]. split; eexists; split; reflexivity. Qed.

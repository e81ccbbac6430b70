(** * The rules that maximise a Thiele score, with the algorithms that compute them exactly *)
From Coq Require Import String.
From Coq Require Import List Arith Bool ZArith QArith.
From Verif Require Import Prelude Misc Preferences Spec Compute SpecCompute SolverCompute SpecAll.
Import ListNotations.
Local Open Scope string_scope.
Open Scope nat_scope.
Local Open Scope list_scope.

(** [optimises e p id alg f]: the rule [id] with algorithm [alg] maximises the Thiele score with weights [f]. *)
Inductive optimises (e : env) (p : profile) : string -> string -> (nat -> Q) -> Prop :=
| op_bf : forall id f, denotes e id f -> optimises e p id "brute-force" f
| op_bb : forall id f, denotes e id f -> non_increasing f -> optimises e p id "branch-and-bound" f
| op_mip : forall id f alg, denotes e id f -> decreasing_to_zero f -> In alg ["gurobi"; "mip-gurobi"; "mip-cbc"] -> optimises e p id alg f
| op_cp : Forall (fun v => weight_is_int v = true) (voters p) -> optimises e p "cc" "ortools-cp" cc_w
| op_av : optimises e p "av" "standard" av_w.

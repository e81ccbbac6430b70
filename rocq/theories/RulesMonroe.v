(** * Model of the Monroe score, Monroe's rule and Greedy Monroe *)
From Coq Require Import String.
From Coq Require Import List Arith Bool ZArith QArith.
From Verif Require Import Prelude Misc Preferences Scores Search Rule RulesThiele Compute.
Import ListNotations.
Local Open Scope string_scope.
Open Scope nat_scope.

(** ** The networkx objects built by scores.py *)

(** scores.py 404-428: the bipartite graph; [(i, (cand, j))] is the edge between
    voter [i] and the node named "cand/j". *)
Definition match_edge : Type := nat * (nat * nat).

(** scores.py 447-463: the nodes of the flow network.  Candidates are nodes named
    by their integer, voters by "v" followed by their number. *)
Inductive node := NVoter (i : nat) | NCand (c : nat) | NSink.
Record arc := mkArc { arc_from : node; arc_to : node; arc_weight : Z; arc_capacity : nat }.
Record network := mkNetwork { demands : list (node * Z); arcs : list arc }.

(** networkx, as used by scores.py: [nx.bipartite.maximum_matching] (the dictionary
    is represented by the list of its voter-side entries) and the flow cost
    [nx.capacity_scaling(graph)[0]]; [None] is the exception for an infeasible network. *)
Record networkx := mkNetworkx {
  maximum_matching : list match_edge -> list match_edge;
  capacity_scaling : network -> option Z
}.

Section Monroe.
  Variable nx : networkx.

  (** [cand in profile[i].approved] *)
  Definition voter_approves (p : profile) (i cand : nat) : bool :=
    match nth_error (voters p) i with Some v => mem cand (approved v) | None => false end.

  (** scores.py 404-426: the edges *)
  Definition matching_graph (p : profile) (committee : list nat) : list match_edge :=
    let sizeofdistricts := length (voters p) / length committee in
    flat_map (fun cand =>
                flat_map (fun j =>
                            map (fun i => (i, (cand, j)))
                                (filter (fun i => voter_approves p i cand) (seq 0 (length (voters p)))))
                         (seq 0 sizeofdistricts))
             committee.

  (** scores.py 381-428, [monroescore_matching]; the matching's dictionary has an
      entry for each of the two endpoints of a matched edge (line 428) *)
  Definition monroescore_matching (p : profile) (committee : list nat) : result Z :=
    if negb (length (voters p) mod length committee =? 0) then Err ValueError
    else
      let len_dict := 2 * length (maximum_matching nx (matching_graph p committee)) in
      Ok (Z.of_nat (len_dict / 2)).

  (** scores.py 448-463: the flow network *)
  Definition flow_network (p : profile) (committee : list nat) : network :=
    let n := length (voters p) in
    let lower_bound := n / length committee in
    let overflow := (Z.of_nat n - Z.of_nat (length committee * lower_bound))%Z in
    mkNetwork
      ((NSink, overflow) :: map (fun i => (NCand i, Z.of_nat lower_bound)) committee ++
       map (fun i => (NVoter i, (-1)%Z)) (seq 0 n))
      (map (fun i => mkArc (NCand i) NSink 0%Z 1) committee ++
       flat_map (fun i => map (fun cand =>
                                 mkArc (NVoter i) (NCand cand) (if voter_approves p i cand then 0%Z else 1%Z) 1)
                              committee) (seq 0 n)).

  (** scores.py 431-467, [monroescore_flowbased] *)
  Definition monroescore_flowbased (p : profile) (committee : list nat) : result Z :=
    match capacity_scaling nx (flow_network p committee) with
    | Some cost => Ok (Z.of_nat (length (voters p)) - cost)%Z
    | None => Err RuntimeError
    end.

  (** scores.py 363-378, [monroescore]; [len(profile) % len(committee)] *)
  Definition monroescore (p : profile) (committee : list nat) : result Z :=
    match committee with
    | [] => Err ZeroDivisionError
    | _ => if length (voters p) mod length committee =? 0 then monroescore_matching p committee
           else monroescore_flowbased p committee
    end.

  (** abcrules.py 2487-2493: the loop of [_monroe_bruteforce] *)
  Fixpoint monroe_scan (p : profile) (cs : list (list nat)) (opt_committees : list (list nat)) (opt : Z)
    : result (list (list nat)) :=
    match cs with
    | [] => Ok opt_committees
    | committee :: r =>
        do score <- monroescore p committee;
        if (opt <? score)%Z then monroe_scan p r [committee] score
        else
          do score2 <- monroescore p committee;
          if (score2 =? opt)%Z then monroe_scan p r (opt_committees ++ [committee]) opt
          else monroe_scan p r opt_committees opt
    end.

  (** abcrules.py 2481-2502, [_monroe_bruteforce] *)
  Definition monroe_bruteforce (p : profile) (k : nat) (resolute : bool) (maxn : option nat)
    : result (list (list nat)) :=
    do opt <- monroe_scan p (combinations (candidates p) k) [] (-1)%Z;
    do cs <- sorted_committees opt;
    if resolute then head_only (cut maxn cs) else Ok (cut maxn cs).

  (** abcrules.py 2371-2478, [compute_monroe]; line 2471 recomputes the score of
      [committees[0]] for the output *)
  Definition compute_monroe (e : env) (p : profile) (k : Z) (algorithm : string) (resolute : bool)
             (maxn : option pyobj) : result (list (list nat)) :=
    run e "monroe" p k algorithm resolute maxn (fun alg k maxn =>
      if negb (has_unit_weights p) then Err ValueError
      else
        do cs <- (if String.eqb alg "gurobi" then external e "monroe" alg p k resolute maxn
                  else if String.eqb alg "ortools-cp" then external e "monroe" alg p k resolute maxn
                  else if prefix "mip-" alg then external e "monroe" alg p k resolute maxn
                  else if String.eqb alg "brute-force" then monroe_bruteforce p k resolute maxn
                  else Err UnknownAlgorithm);
        match cs with
        | [] => Err IndexError
        | c :: _ => do _ <- monroescore p c; Ok cs
        end).

  (** ** Greedy Monroe *)

  (** abcrules.py 2635-2638 and 2579-2582: how many voters candidate number [t] represents *)
  Definition district_size (n k t : nat) : nat :=
    if (Z.of_nat t <? Z.of_nat n - Z.of_nat (k * (n / k)))%Z then n / k + 1 else n / k.

  (** abcrules.py 2635-2639: the candidate with the most approvals among the
      remaining voters; the first one in the order of [remaining_cands].
      [for cand in remaining_cands] visits a set of small integers in ascending order. *)
  Fixpoint greedy_select (p : profile) (remaining_voters remaining_cands : list nat) (maxapprovals : Z)
           (selected : option nat) : option nat :=
    match remaining_cands with
    | [] => selected
    | cand :: r =>
        let approvals := Z.of_nat (length (filter (fun i => voter_approves p i cand) remaining_voters)) in
        if (maxapprovals <? approvals)%Z then greedy_select p remaining_voters r approvals (Some cand)
        else greedy_select p remaining_voters r maxapprovals selected
    end.

  (** abcrules.py 2632-2655: rounds [t], [t + 1], ..., [t + rounds - 1]; [None] cannot be
      removed from the set (KeyError). *)
  Fixpoint greedy_rounds (p : profile) (k t rounds : nat) (committee remaining_voters remaining_cands : list nat)
           (assignment : list (nat * list nat))
    : result (list nat * list nat * list (nat * list nat)) :=
    match rounds with
    | 0 => Ok (committee, remaining_voters, assignment)
    | S r =>
        match greedy_select p remaining_voters remaining_cands (-1)%Z None with
        | None => Err KeyError
        | Some selected =>
            let num_remove := district_size (length (voters p)) k t in
            let to_remove := firstn num_remove (filter (fun i => voter_approves p i selected) remaining_voters) in
            greedy_rounds p k (S t) r (committee ++ [selected])
              (filter (fun i => negb (mem i to_remove)) remaining_voters)
              (filter (fun c => negb (c =? selected)) remaining_cands)
              (assignment ++ [(selected, to_remove)])
        end
    end.

  (** abcrules.py 2622-2658, [_greedy_monroe_algorithm] *)
  Definition greedy_monroe_algorithm (p : profile) (k : nat)
    : result (list (list nat) * (list nat * list (nat * list nat))) :=
    do r <- greedy_rounds p k 0 k [] (seq 0 (length (voters p))) (candidates p) [];
    let '(committee, remaining_voters, assignment) := r in
    do cs <- sorted_committees [committee];
    Ok (cs, (remaining_voters, assignment)).

  (** [missing] calls of [remaining_voters.pop()]: the voters taken (from the end of
      the list) and the rest *)
  Fixpoint pop_voters (missing : nat) (remaining_voters : list nat) : result (list nat * list nat) :=
    match missing with
    | 0 => Ok ([], remaining_voters)
    | S m =>
        match rev remaining_voters with
        | [] => Err IndexError
        | v :: r => do x <- pop_voters m (rev r); Ok (v :: fst x, snd x)
        end
    end.

  (** abcrules.py 2578-2588: the unsatisfied voters are distributed *)
  Fixpoint complete_assignment (n k t : nat) (assignment : list (nat * list nat)) (remaining_voters : list nat)
    : result (list (nat * list nat)) :=
    match assignment with
    | [] => Ok []
    | (cand, vs) :: r =>
        do x <- pop_voters (district_size n k t - length vs) remaining_voters;
        do rest <- complete_assignment n k (S t) r (snd x);
        Ok ((cand, (vs ++ fst x)%list) :: rest)
    end.

  (** abcrules.py 2505-2619, [compute_greedy_monroe], together with the assignment
      that it prints; [committees[0]] exists, and its Monroe score is computed for the output *)
  Definition greedy_monroe_with_assignment (p : profile) (k : nat)
    : result (list (list nat) * list (nat * list nat)) :=
    do r <- greedy_monroe_algorithm p k;
    let '(committees, (remaining_voters, assignment)) := r in
    match committees with
    | [] => Err IndexError
    | c :: _ =>
        do _ <- monroescore p c;
        do full <- complete_assignment (length (voters p)) k 0 assignment remaining_voters;
        do cs <- sorted_committees committees;
        Ok (cs, full)
    end.

  Definition compute_greedy_monroe (e : env) (p : profile) (k : Z) (algorithm : string) (resolute : bool)
             (maxn : option pyobj) : result (list (list nat)) :=
    run e "greedy-monroe" p k algorithm resolute maxn (fun alg k maxn =>
      if negb (has_unit_weights p) then Err ValueError
      else if String.eqb alg "standard" then rmap fst (greedy_monroe_with_assignment p k)
      else Err UnknownAlgorithm).
End Monroe.

(** * Claims C24-C31, C48, C49: profiles, weights, helpers *)
From Coq Require Import String.
From Coq Require Import List Arith Bool ZArith QArith Lia Lqa Permutation Sorted.
From Verif Require Import Prelude Misc MiscProofs Preferences Scores Rule RulesThiele Spec SpecRules Compute SpecCompute
  PrefProofs EquivProofs ProfileFacts Heap HeapProofs ExampleData.
Import ListNotations.
Open Scope nat_scope.
Local Open Scope string_scope.

(** ** C24 *)
Theorem C24_sorted_committees : forall cs, Forall (@NoDup nat) cs ->
  exists l, sorted_committees cs = Ok l /\ in_printed_order l /\ Permutation l (map isort cs).
Proof. exact sorted_committees_perm. Qed.
Print Assumptions C24_sorted_committees.

(** the order of the committees, and of the members within each, is irrelevant *)
Theorem C24_sorted_committees_deterministic : forall cs ds ds', Forall (@NoDup nat) cs ->
  Permutation cs ds' -> Forall2 (@Permutation nat) ds' ds ->
  sorted_committees cs = sorted_committees ds.
Proof. exact sorted_committees_det. Qed.
Print Assumptions C24_sorted_committees_deterministic.

Theorem C24_sorted_committees_rejects : forall cs, ~ Forall (@NoDup nat) cs ->
  sorted_committees cs = Err ValueError.
Proof. exact sorted_committees_err. Qed.
Print Assumptions C24_sorted_committees_rejects.

(** printing distinguishes committees *)
Theorem C24_printed_form_injective : forall a b, NoDup a -> NoDup b ->
  str_set_of_candidates a = str_set_of_candidates b -> set_same a b.
Proof. exact str_set_inj. Qed.
Print Assumptions C24_printed_form_injective.

Example C24_example : sorted_committees [[2;10]; [10;1]; [1;2]] = Ok [[1;10]; [1;2]; [2;10]] /\
  sorted_committees [[1;1]] = Err ValueError /\ str_set_of_candidates [2;10] = "{10, 2}".
Proof. repeat split; vm_compute; reflexivity. Qed.

(** ** C25 *)
Theorem C25_compare : forall a b, compare_list_of_committees a b = true <->
  (forall c, In c a -> exists d, In d b /\ set_same c d) /\
  (forall c, In c b -> exists d, In d a /\ set_same c d).
Proof. exact compare_iff. Qed.
Print Assumptions C25_compare.

Theorem C25_compare_equivalence :
  (forall a, compare_list_of_committees a a = true) /\
  (forall a b, compare_list_of_committees a b = compare_list_of_committees b a) /\
  (forall a b c, compare_list_of_committees a b = true -> compare_list_of_committees b c = true ->
     compare_list_of_committees a c = true) /\
  (forall a b a', (forall W, In W a <-> In W a') ->
     compare_list_of_committees a b = compare_list_of_committees a' b).
Proof. exact compare_equivalence. Qed.
Print Assumptions C25_compare_equivalence.

(** [verify_expected_committees_equals_actual_committees] accepts iff the
    result is right: the expected committees, or for resolute rules a single
    committee that is one of them. *)
Theorem C25_verify_expected : forall actual expected resolute,
  verify_expected actual expected resolute = Ok tt <->
  if resolute then exists c, actual = [c] /\ exists d, In d expected /\ set_same c d
  else (forall c, In c actual -> exists d, In d expected /\ set_same c d) /\
       (forall c, In c expected -> exists d, In d actual /\ set_same c d).
Proof. exact verify_expected_iff. Qed.
Print Assumptions C25_verify_expected.

Example C25_example : compare_list_of_committees [[0;1]; [2;3]; [1;0]] [[3;2]; [1;0]] = true /\
  compare_list_of_committees [[0;1]] [[0;1]; [2;3]] = false.
Proof. split; reflexivity. Qed.

(** ** C26.  A history is any list of calls, each of which may raise. *)
Theorem C26_profile_invariant : forall nc names p ops,
  profile_new nc names = Ok p ->
  Forall (fun o => match o with OpWeighted ord => forall l, Permutation (ord l) l | _ => True end) ops ->
  let q := fold_left run_op ops p in
  wf q /\ Z.of_nat (num_cand q) = nc /\ cand_names q = cand_names p /\
  List.length (cand_names q) = num_cand q.
Proof. exact history_inv. Qed.
Print Assumptions C26_profile_invariant.

Theorem C26_profile_new : forall nc names, (exists p, profile_new nc names = Ok p) <->
  (0 < nc)%Z /\ match names with Some (n :: l) => (nc <= Z.of_nat (List.length (n :: l)))%Z | _ => True end.
Proof. exact profile_new_accepts. Qed.
Print Assumptions C26_profile_new.

Theorem C26_new_profile : forall nc names p, profile_new nc names = Ok p ->
  voters p = [] /\ Z.of_nat (num_cand p) = nc /\
  cand_names p = match names with
                 | Some (n :: l) => firstn (Z.to_nat nc) (n :: l)
                 | _ => map str_nat (seq 0 (Z.to_nat nc))
                 end.
Proof. exact new_profile_content. Qed.
Print Assumptions C26_new_profile.

(** [total_weight], [has_unit_weights], [approved_candidates] *)
Theorem C26_queries : forall p,
  (total_weight p == wsum (voters p))%Q /\
  (has_unit_weights p = true <-> unit_weights p) /\
  NoDup (approved_candidates p) /\
  (forall c, In c (approved_candidates p) <-> exists v, In v (voters p) /\ approves v c = true).
Proof. exact profile_queries. Qed.
Print Assumptions C26_queries.

(** exactly the duplicate-free lists of candidates in range are accepted *)
Theorem C26_add_voter_accepts : forall p l, (exists q, add_voter p (ArgSet l) = (Ok tt, q)) <->
  exists a, l = map (fun c => PyInt (Z.of_nat c)) a /\ NoDup a /\ Forall (fun c => c < num_cand p) a.
Proof. exact add_voter_ok_iff. Qed.
Print Assumptions C26_add_voter_accepts.

(** a raising [add_voter] or item assignment changes nothing; a raising
    [add_voters] has added exactly the voters before the offending one *)
Theorem C26_exceptions : 
  (forall p a e q, add_voter p a = (Err e, q) -> q = p /\ (e = ValueError \/ e = TypeError)) /\
  (forall p i a e q, set_voter p i a = (Err e, q) -> q = p) /\
  (forall l p r q, add_voters p l = (r, q) ->
    exists done rest, l = (done ++ rest)%list /\ add_voters p done = (Ok tt, q) /\
      match r with
      | Ok _ => rest = []
      | Err e => exists a rest', rest = a :: rest' /\ add_voter q a = (Err e, q)
      end).
Proof. exact (conj add_voter_raises (conj set_voter_raises add_voters_prefix)). Qed.
Print Assumptions C26_exceptions.

(** a successful call appends the voters, in order, or replaces one voter, and changes
    nothing else *)
Theorem C26_effects :
  (forall p a q, add_voter p a = (Ok tt, q) ->
     exists v, given a v /\ q = mkProfile (num_cand p) (cand_names p) (voters p ++ [v])%list) /\
  (forall l p q, add_voters p l = (Ok tt, q) ->
     exists vs, Forall2 given l vs /\ q = mkProfile (num_cand p) (cand_names p) (voters p ++ vs)%list) /\
  (forall p i a q, set_voter p i a = (Ok tt, q) ->
     exists v, given a v /\ i < List.length (voters p) /\ nth_error (voters q) i = Some v /\
       (forall j, j <> i -> nth_error (voters q) j = nth_error (voters p) j) /\
       num_cand q = num_cand p /\ cand_names q = cand_names p).
Proof. exact (conj add_voter_effect (conj add_voters_effect set_voter_effect)). Qed.
Print Assumptions C26_effects.

Example C26_example :
  let p := mkProfile 3 ["a";"b";"c"] [] in
  profile_new 3 (Some ["a";"b";"c";"d"]) = Ok p /\
  fold_left run_op [OpAdd (ArgSet [PyInt 2; PyInt 0]); OpAdd (ArgSet [PyInt 3]); OpAddMany [ArgSet [PyInt 1]; ArgSet [PyInt 1; PyInt 1]; ArgSet []];
                    OpSet 1 (ArgVoter (mkVoter [1] 2 true)); OpUnit] p
  = mkProfile 3 ["a";"b";"c"] [mkVoter [2;0] 1 true; mkVoter [1] 1 true; mkVoter [1] 1 true].
Proof. split; reflexivity. Qed.

(** ** C27 *)
Theorem C27_convert_to_weighted : forall ord p, (forall l, Permutation (ord l) l) -> wf p ->
  let q := convert_to_weighted ord p in
  (total_weight q == total_weight p)%Q /\ (forall c, (support q c == support p c)%Q) /\
  (forall f W, (Thiele f q W == Thiele f p W)%Q) /\
  (forall i j v u, i <> j -> nth_error (voters q) i = Some v -> nth_error (voters q) j = Some u ->
     ~ set_same (approved v) (approved u)).
Proof. exact weighted_preserves. Qed.
Print Assumptions C27_convert_to_weighted.

(** the flag [weight_is_int] records that the weight's Python type is [int];
    the hypothesis says that such weights are integers. *)
Theorem C27_convert_to_unit_weights : forall p q, wf p ->
  Forall (fun v => weight_is_int v = true -> exists z, (weight v == inject_Z z)%Q) (voters p) ->
  convert_to_unit_weights p = (Ok tt, q) ->
  (total_weight q == total_weight p)%Q /\ (forall c, (support q c == support p c)%Q) /\
  (forall f W, (Thiele f q W == Thiele f p W)%Q) /\ unit_weights q.
Proof. exact unit_preserves. Qed.
Print Assumptions C27_convert_to_unit_weights.

Theorem C27_convert_to_unit_weights_raises : forall p,
  ((exists q, convert_to_unit_weights p = (Ok tt, q)) <-> Forall (fun v => weight_is_int v = true) (voters p)) /\
  (~ Forall (fun v => weight_is_int v = true) (voters p) -> convert_to_unit_weights p = (Err TypeError, p)).
Proof. exact (fun p => conj (unit_ok_iff p) (unit_raises p)). Qed.
Print Assumptions C27_convert_to_unit_weights_raises.

(** the hypothesis on integer weights holds along every history *)
Theorem C27_int_weights_reachable : forall nc names p ops, profile_new nc names = Ok p ->
  Forall (fun o => match o with
                   | OpAdd (ArgVoter v) | OpSet _ (ArgVoter v) => weight_is_int v = true -> exists z, (weight v == inject_Z z)%Q
                   | OpAddMany l => Forall (fun a => match a with
                        | ArgVoter v => weight_is_int v = true -> exists z, (weight v == inject_Z z)%Q
                        | _ => True end) l
                   | _ => True end) ops ->
  Forall (fun v => weight_is_int v = true -> exists z, (weight v == inject_Z z)%Q) (voters (fold_left run_op ops p)).
Proof. exact history_flags. Qed.
Print Assumptions C27_int_weights_reachable.

Example C27_example : 
  convert_to_weighted (fun l => rev l) (mkp 3 [mkv [0;1] 1; mkv [1;0] 2; mkv [2] 1])
  = mkp 3 [mkv [2] 1; mkv [0;1] 3] /\
  convert_to_unit_weights (mkp 3 [mkv [2] 2; mkv [0;1] 1]) = (Ok tt, mkp 3 [mkv [2] 1; mkv [2] 1; mkv [0;1] 1]) /\
  fst (convert_to_unit_weights ex_profile) = Err TypeError.
Proof. repeat split; vm_compute; reflexivity. Qed.

(** ** C28 *)
Theorem C28_integer_weight_is_copies : forall e p v vs1 vs2 n, wf p -> voters p = (vs1 ++ v :: vs2)%list ->
  (weight v == Qnat n)%Q ->
  same_results e p (with_voters p (vs1 ++ repeat (mkVoter (approved v) 1 true) n ++ vs2)).
Proof. exact copies_results. Qed.
Print Assumptions C28_integer_weight_is_copies.

(** so results survive both weight conversions *)
Theorem C28_conversions_keep_results : forall e p, wf p ->
  (forall ord, (forall l, Permutation (ord l) l) -> same_results e p (convert_to_weighted ord p)) /\
  (forall q, Forall (fun v => weight_is_int v = true -> exists z, (weight v == inject_Z z)%Q) (voters p) ->
     convert_to_unit_weights p = (Ok tt, q) -> same_results e p q).
Proof. exact conversion_results. Qed.
Print Assumptions C28_conversions_keep_results.

Example C28_example : exists v vs1 vs2, voters ex_profile = (vs1 ++ v :: vs2)%list /\ (weight v == Qnat 2)%Q /\ wf ex_profile /\
  compute_pav ex_env ex_profile 2 "brute-force" false None =
  compute_pav ex_env (mkp 4 [mkv [0;1] 1; mkv [0;1] 1; mkv [1;2] 1; mkv [2;3] 1; mkv [3] (1#2)]) 2 "brute-force" false None.
Proof.
  exists (mkv [0;1] 2), [], [mkv [1;2] 1; mkv [2;3] 1; mkv [3] (1#2)].
  split; [reflexivity|]. split; [reflexivity|]. split; [apply ex_wf|]. vm_compute. reflexivity.
Qed.

(** ** C29 *)
Theorem C29_anonymity : forall e p q, wf p -> reordered p q -> same_results e p q.
Proof. exact reordered_results. Qed.
Print Assumptions C29_anonymity.

Example C29_example : reordered ex_profile (mkp 4 [mkv [3] (1#2); mkv [2;1] 1; mkv [1;0] 2; mkv [2;3] 1]).
Proof.
  split; [reflexivity|]. exists [mkv [3] (1#2); mkv [1;2] 1; mkv [0;1] 2; mkv [2;3] 1]. split.
  - apply (Permutation_cons_app [mkv [3] (1#2); mkv [1;2] 1] [mkv [2;3] 1]).
    apply (Permutation_cons_app [mkv [3] (1#2)] [mkv [2;3] 1]). apply perm_swap.
  - repeat constructor.
Qed.

(** ** C30 *)
Theorem C30_dominate : forall p W1 W2, NoDup W1 -> NoDup W2 ->
  exists b, dominate p W1 W2 = Ok b /\
    (b = true <-> (forall v, In v (voters p) -> util v W2 <= util v W1) /\
                  exists v, In v (voters p) /\ util v W2 < util v W1).
Proof. exact dominate_spec. Qed.
Print Assumptions C30_dominate.

Theorem C30_dominate_strict_order : forall p,
  (forall W, dominate p W W <> Ok true) /\
  (forall W1 W2, dominate p W1 W2 = Ok true -> dominate p W2 W1 <> Ok true) /\
  (forall W1 W2 W3, dominate p W1 W2 = Ok true -> dominate p W2 W3 = Ok true -> dominate p W1 W3 = Ok true).
Proof. exact dominate_order. Qed.
Print Assumptions C30_dominate_strict_order.

Theorem C30_dominate_rejects : forall p W1 W2, ~ (NoDup W1 /\ NoDup W2) -> dominate p W1 W2 = Err ValueError.
Proof. exact dominate_dup. Qed.
Print Assumptions C30_dominate_rejects.

Example C30_example : dominate ex_profile [1;2] [0;2] = Ok true /\ dominate ex_profile [0;1] [2;3] = Ok false.
Proof. split; reflexivity. Qed.

(** ** C31 *)
Theorem C31_hamming : 
  (forall a b, hamming a b = length (filter (fun x => negb (mem x b)) a) + length (filter (fun x => negb (mem x a)) b)) /\
  (forall a b, hamming a b = hamming b a) /\
  (forall a b, hamming a b = 0 <-> set_same a b) /\
  (forall a b c, NoDup a -> NoDup b -> NoDup c -> hamming a c <= hamming a b + hamming b c).
Proof. exact hamming_metric. Qed.
Print Assumptions C31_hamming.

Theorem C31_powerset : forall (A : Type) (s : list A) ms,
  (forall c, In c (powerset s ms) <-> sublist c s /\ match ms with None => True | Some m => length c <= m end) /\
  (NoDup s -> NoDup (powerset s ms)).
Proof. exact (fun A s ms => conj (powerset_In A s ms) (powerset_NoDup A s ms)). Qed.
Print Assumptions C31_powerset.

(** [binom(n,k)] counts the [k]-element subsets of an [n]-element set *)
Theorem C31_binom : forall m k, exists subsets,
  NoDup subsets /\
  (forall c, In c subsets <-> ascending c /\ length c = k /\ Forall (fun x => x < m) c) /\
  binom (Z.of_nat m) (Z.of_nat k) = Z.of_nat (length subsets).
Proof. exact binom_counts. Qed.
Print Assumptions C31_binom.

Theorem C31_binom_negative : forall n k, (n < 0 \/ k < 0 \/ n < k)%Z -> binom n k = 0%Z.
Proof. exact binom_zero. Qed.
Print Assumptions C31_binom_negative.

Example C31_example : binom 5 2 = 10%Z /\ binom 2 5 = 0%Z /\ hamming [0;1;2] [1;3] = 3 /\
  powerset [1;2] None = [[]; [1]; [2]; [1;2]] /\ powerset [1;2;3] (Some 1) = [[]; [1]; [2]; [3]].
Proof. repeat split; reflexivity. Qed.

(** ** C48 *)
Theorem C48_copy_independent : forall acts i o, let s := fold_left step acts empty_store in
  get s i = Some o -> wf (view s o) ->
  exists o', let s' := step s (Copy i) in let n := length (profile_objs s) in
    get s' n = Some o' /\ n <> i /\
    num_cand (view s' o') = num_cand (view s o) /\ voters (view s' o') = voters (view s o) /\
    cand_names (view s' o') = map str_nat (seq 0 (num_cand (view s o))) /\
    (forall later, Forall (fun a => target a <> Some i) later ->
       get (fold_left step later s') i = Some o /\ view (fold_left step later s') o = view s o) /\
    (forall later, Forall (fun a => target a <> Some n) later ->
       get (fold_left step later s') n = Some o' /\ view (fold_left step later s') o' = view s' o').
Proof. exact copy_independent. Qed.
Print Assumptions C48_copy_independent.

(** candidate names are lost: the copy is not an equal profile *)
Theorem C48_copy_keeps_names_refuted : exists p q, wf p /\ profile_copy p = Ok q /\ cand_names q <> cand_names p.
Proof.
  exists (mkProfile 2 ["a"; "b"] [mkv [0] 1]), (mkProfile 2 ["0"; "1"] [mkv [0] 1]).
  split; [wf_tac|]. split; [reflexivity|]. discriminate.
Qed.
Print Assumptions C48_copy_keeps_names_refuted.

(** the store behaves like the value model used everywhere else *)
Theorem C48_store_refines : forall acts a i o op, let s := fold_left step acts empty_store in
  target a = Some i -> as_op s a = Some op -> get s i = Some o ->
  exists o', get (step s a) i = Some o' /\ view (step s a) o' = run_op (view s o) op.
Proof. exact store_refines. Qed.
Print Assumptions C48_store_refines.

Example C48_example :
  let s := fold_left step [NewProfile 3 None; Add 0 (RefSet [PyInt 0; PyInt 2]); Copy 0; Add 1 (RefVoter 0); Poke 1 0 (mkVoter [1] 5 true)] empty_store in
  option_map (fun o => voters (view s o)) (get s 0) = Some [mkVoter [0;2] 1 true] /\
  option_map (fun o => voters (view s o)) (get s 1) = Some [mkVoter [1] 5 true; mkVoter [0;2] 1 true].
Proof. split; reflexivity. Qed.

(** ** C49 *)
Theorem C49_is_party_list : forall p, wf p -> is_party_list p = true <->
  forall v u, In v (voters p) -> In u (voters p) ->
    set_same (approved v) (approved u) \/ (forall c, In c (approved v) -> ~ In c (approved u)).
Proof. exact is_party_list_iff. Qed.
Print Assumptions C49_is_party_list.

Example C49_example : is_party_list (mkp 4 [mkv [0;1] 1; mkv [1;0] 2; mkv [2] 1; mkv [] 1]) = true /\ is_party_list ex_profile = false.
Proof. split; reflexivity. Qed.

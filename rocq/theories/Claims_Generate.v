(** * C60: random profiles (generate.py) *)
From Coq Require Import String.
From Coq Require Import List Arith Bool ZArith QArith Qround Lia SpecFloat.
From Verif Require Import Prelude Misc Preferences Spec ProfileFacts PrefProofs SavFloat Generate SpecGenerate GenerateProofs GeneratePoints.
Import ListNotations.
Local Open Scope string_scope.
Open Scope nat_scope.
Local Open Scope list_scope.

(** Whatever the samplers return: a profile that is returned is valid, has num_cand candidates with the default names, and
    its voters are the samples in order, with weight 1; the samples are those of the documented sampler, called with the
    documented arguments. *)
Theorem C60_valid : forall (F : Type) div (rand : F) sampler positions nv nc dist g,
  random_profile div rand sampler positions nv nc dist = Ok g ->
  wf (fst g) /\ Z.of_nat (num_cand (fst g)) = nc /\ cand_names (fst g) = map str_nat (seq 0 (num_cand (fst g))) /\
  exists id s arguments ps samples, lookup "id" dist = Some (GStr id) /\ In (id, (s, arguments)) sampler_table /\
    sampler s (("num_voters", GInt nv) :: ("num_candidates", GInt nc) :: ps) = Ok samples /\
    Forall (passes div nc dist ps) arguments /\
    Forall2 (fun sample v => sample = map (fun c => PyInt (Z.of_nat c)) (approved v) /\ weight v = 1%Q /\ weight_is_int v = true)
      samples (voters (fst g)).
Proof.
  intros F div rand sampler positions nv nc dist g H.
  apply random_profile_ok in H as (id & s & targs & ps & samples & E1 & Ht & Es & Hp & Hw & En & Hn & Hf).
  split; auto. split; auto. split; auto. exists id, s, targs, ps, samples. auto.
Qed.
Print Assumptions C60_valid.

(** With samplers that keep prefsampling's contract there are num_voters voters, and the fixed-size distributions give
    approval sets of size setsize, if division by and multiplication with num_cand are exact. *)
Theorem C60_sizes : forall (F : Type) div (rand : F) size sampler positions nv nc dist g id z,
  sampler_contract size sampler -> (0 <= nv)%Z ->
  random_profile div rand sampler positions nv nc dist = Ok g ->
  Z.of_nat (length (voters (fst g))) = nv /\
  (lookup "id" dist = Some (GStr id) -> fixed_size id -> lookup "setsize" dist = Some (GInt z) ->
   size (div (inl z) nc) nc = z ->
   Forall (fun v => Z.of_nat (length (approved v)) = z) (voters (fst g))).
Proof.
  intros F div rand size sampler positions nv nc dist g id z Hc Hv H.
  destruct (fixed_size_exact div rand sampler positions size nv nc dist g id z Hc Hv H) as [A B]. split; auto.
  intros E1 E2 E3 E4. rewrite E4 in B. auto.
Qed.
Print Assumptions C60_sizes.

(** Exact arithmetic meets that condition. *)
Definition Qdivide (a : Z + Q) (n : Z) : Q := match a with inl z => (inject_Z z / inject_Z n)%Q | inr q => (q / inject_Z n)%Q end.
Definition clip (n k : Z) : Z := Z.max 0 (Z.min k n).
Definition Qsize (r : Q) (n : Z) : Z := clip n (Qfloor (r * inject_Z n)).
Theorem C60_exact_sizes : forall z n, (0 < n)%Z -> (0 <= z <= n)%Z -> Qsize (Qdivide (inl z) n) n = z.
Proof.
  intros z n H Hz. unfold Qsize, Qdivide.
  assert (E : Qfloor (inject_Z z / inject_Z n * inject_Z n) = z).
  { rewrite <- (Qfloor_Z z) at 2. apply Qfloor_comp. field. intros E. unfold Qeq in E. cbn in E. lia. }
  rewrite E. unfold clip. lia.
Qed.
Print Assumptions C60_exact_sizes.

(** Binary64 arithmetic does not: [int((1/49)*49) = 0].  If prefsampling rounds down, "IC fixed-size" with setsize=1
    and 49 candidates gives empty approval sets. *)
Definition f64_divide (a : Z + spec_float) (n : Z) : spec_float :=
  match a with inl z => f64_div (f64_of_Z z) (f64_of_Z n) | inr x => f64_div x (f64_of_Z n) end.
Definition f64_size (r : spec_float) (n : Z) : Z := clip n (Qfloor (Q_of_f64 (SFmul prec64 emax64 r (f64_of_Z n)))).
Theorem C60_float_sizes_refuted : forall rand sampler positions, sampler_contract f64_size sampler -> never_raises sampler ->
  exists g, random_profile f64_divide rand sampler positions 2 49 [("id", GStr "IC fixed-size"); ("setsize", GInt 1)] = Ok g /\
  length (voters (fst g)) = 2 /\ Forall (fun v => approved v = []) (voters (fst g)).
Proof.
  intros rand sampler positions Hc Ht.
  destruct (wrapper_accepts sampler f64_size Hc Ht "impartial_constant_size" 2%Z 49%Z
              [("rel_num_approvals", GFloat (f64_divide (inl 1%Z) 49%Z))]) as [p Ep]; [lia|lia|].
  assert (H : random_profile f64_divide rand sampler positions 2 49 [("id", GStr "IC fixed-size"); ("setsize", GInt 1)] = Ok (p, None)).
  { unfold random_profile. cbn -[f64_divide prefsampling_wrapper]. unfold call. cbn -[f64_divide prefsampling_wrapper]. rewrite Ep. reflexivity. }
  exists (p, None). split; auto.
  destruct (fixed_size_exact f64_divide rand sampler positions f64_size 2 49 _ _ "IC fixed-size" 1%Z Hc ltac:(lia) H) as [A B]. split; [lia|].
  specialize (B eq_refl (or_introl eq_refl) eq_refl).
  assert (E : f64_size (f64_divide (inl 1%Z) 49%Z) 49%Z = 0%Z) by (vm_compute; reflexivity).
  eapply Forall_impl; [|exact B]. cbn beta. intros v Ev. rewrite E in Ev. destruct (approved v); [auto|cbn in Ev; lia].
Qed.
Print Assumptions C60_float_sizes_refuted.

(** Every documented specification is accepted ... *)
Theorem C60_accepts : forall (F : Type) div (rand : F) size sampler positions nv nc dist id,
  sampler_contract size sampler -> never_raises sampler -> (forall a b c d e, exists x, positions a b c d e = Ok x) ->
  (0 <= nv)%Z -> (0 < nc)%Z ->
  lookup "id" dist = Some (GStr id) -> proper_keys id dist -> (forall k v, lookup k dist = Some v -> proper_value k v) ->
  exists g, random_profile div rand sampler positions nv nc dist = Ok g.
Proof.
  intros F div rand size sampler positions nv nc dist id H1 H2 H3 H4 H5 H6 H7 H8.
  exact (random_profile_total div rand sampler positions size nv nc dist id H1 H2 H3 H4 H5 H6 H7 H8).
Qed.
Print Assumptions C60_accepts.

(** ... and others are rejected: no id, an unknown id, missing or undocumented parameters. *)
Theorem C60_rejects : forall (F : Type) div (rand : F) sampler positions nv nc dist,
  (lookup "id" dist = None -> random_profile div rand sampler positions nv nc dist = Err KeyError) /\
  (forall v, lookup "id" dist = Some v -> (forall id, In id (map fst documented) -> v <> GStr id) ->
     random_profile div rand sampler positions nv nc dist = Err ValueError) /\
  (forall id, lookup "id" dist = Some (GStr id) -> In id (map fst documented) -> ~ proper_keys id dist ->
     random_profile div rand sampler positions nv nc dist = Err TypeError).
Proof. exact @random_profile_rejects. Qed.
Print Assumptions C60_rejects.

(** Points: the dimension in the name, the dimension of the centre point and the dimension passed to the samplers agree. *)
Theorem C60_point_dimension : forall (F : Type) n d, In (n, d) POINT_DISTRIBUTIONS ->
  forall c (sg w : F) x, dist_new n c sg w = Ok x ->
  dimension x = d /\ length (center x) = d /\ first_digit n = Ok (Z.of_nat d) /\
  exists s ps, prefsampling_function x = Ok (s, ps) /\ lookup "num_dimensions" ps = Some (GInt (Z.of_nat d)) /\
     lookup "center_point" ps = Some (GPoint (center x)).
Proof. exact @known_dimension. Qed.
Print Assumptions C60_point_dimension.

(** Euclidean models: the sampler gets the points that are returned with return_points=True, voters and candidates not
    confused; they are drawn by [sample_election_positions] from the given points or distributions. *)
Theorem C60_euclidean_points : forall (F : Type) div (rand : F) sampler positions nv nc dist g id,
  random_profile div rand sampler positions nv nc dist = Ok g -> lookup "id" dist = Some (GStr id) -> In id EUCLIDEAN ->
  exists s ps samples dim vpos cpos v c,
    sampler s (("num_voters", GInt nv) :: ("num_candidates", GInt nc) :: ps) = Ok samples /\
    lookup "num_dimensions" ps = Some (GInt dim) /\ lookup "voters_positions" ps = Some (GPoints v) /\
    lookup "candidates_positions" ps = Some (GPoints c) /\
    Forall2 (fun sample v => sample = map (fun c => PyInt (Z.of_nat c)) (approved v) /\ weight v = 1%Q /\ weight_is_int v = true)
      samples (voters (fst g)) /\
    positions nv nc dim vpos cpos = Ok (v, c) /\
    points_from "voter_points" "voter_prob_distribution" dist vpos /\ dimension_from dist dim /\
    points_from "candidate_points" "candidate_prob_distribution" dist cpos /\
    (lookup "return_points" dist = Some (GBool true) -> snd g = Some (v, c)) /\
    (lookup "return_points" dist = None \/ lookup "return_points" dist = Some (GBool false) -> snd g = None).
Proof. exact @euclidean_points. Qed.
Print Assumptions C60_euclidean_points.

(** A sampler that keeps the contract. *)
Definition ex_sampler {F} (size : F -> Z -> Z) (s : string) (ps : params F) : result (list (list pyobj)) :=
  match lookup "num_voters" ps, lookup "num_candidates" ps with
  | Some (GInt nv), Some (GInt nc) =>
      let n := match lookup "rel_num_approvals" ps with Some (GFloat r) => size r nc | _ => nc end in
      Ok (repeat (map (fun c => PyInt (Z.of_nat c)) (seq 0 (Z.to_nat n))) (Z.to_nat nv))
  | _, _ => Ok []
  end.
Lemma ex_sampler_contract : forall F (size : F -> Z -> Z), (forall r n, (0 <= size r n <= Z.max 0 n)%Z) ->
  sampler_contract size (ex_sampler size) /\ never_raises (ex_sampler size).
Proof.
  intros F size Hsize. split.
  - intros s ps samples nv nc Hv H E1 E2. unfold ex_sampler in H. rewrite E1, E2 in H. injection H as <-.
    split; [rewrite repeat_length; lia|].
    set (n := match lookup "rel_num_approvals" ps with Some (GFloat r) => size r nc | _ => nc end).
    assert (Hn : (n <= Z.max 0 nc)%Z).
    { unfold n. destruct (lookup "rel_num_approvals" ps) as [[]|]; try lia. destruct (Hsize f nc); lia. }
    split.
    + apply Forall_forall. intros x Hx. apply repeat_spec in Hx. subst x. split.
      * apply FinFun.Injective_map_NoDup; [|apply seq_NoDup]. intros a b E. injection E. lia.
      * apply Forall_map, Forall_forall. intros c Hc. apply in_seq in Hc. eexists. split; [reflexivity|]. lia.
    + intros r Er. apply Forall_forall. intros x Hx. apply repeat_spec in Hx. subst x. rewrite map_length, seq_length.
      unfold n. rewrite Er. destruct (Hsize r nc). lia.
  - intros s ps. unfold ex_sampler. destruct (lookup "num_voters" ps) as [[]|]; eauto.
    destruct (lookup "num_candidates" ps) as [[]|]; eauto.
Qed.
Lemma clip_range : forall n k, (0 <= clip n k <= Z.max 0 n)%Z. Proof. intros. unfold clip. lia. Qed.

Definition ex_dist : params Q := [("setsize", GInt 2); ("id", GStr "Urn fixed-size"); ("replace", GFloat (1#2))].
Example C60_example : sampler_contract Qsize (ex_sampler Qsize) /\ never_raises (ex_sampler Qsize) /\
  sampler_contract f64_size (ex_sampler f64_size) /\ never_raises (ex_sampler f64_size) /\
  proper_keys "Urn fixed-size" ex_dist /\ (forall k v, lookup k ex_dist = Some v -> proper_value k v) /\
  exists p, random_profile Qdivide 0%Q (ex_sampler Qsize) (fun _ _ _ _ _ => Ok ([], [])) 3 5 ex_dist = Ok (p, None) /\
    map approved (voters p) = [[0;1]; [0;1]; [0;1]].
Proof.
  destruct (ex_sampler_contract Q Qsize) as [A1 A2]; [intros; apply clip_range|].
  destruct (ex_sampler_contract _ f64_size) as [B1 B2]; [intros; apply clip_range|].
  split; auto. split; auto. split; auto. split; auto. split; [|split].
  - exists ["setsize"; "replace"], []. split; [cbn; auto 10|]. split; cbn; intuition.
  - intros k v H. apply lookup_In in H. cbn in H.
    destruct H as [H|[H|[H|[]]]]; injection H as <- <-; (split; [|split; [|split]]); cbn; intros; try discriminate;
      try (exfalso; intuition discriminate); eauto.
  - eexists. split; [vm_compute; reflexivity|reflexivity].
Qed.
Definition ex_euclid : params Q :=
  [("id", GStr "Euclidean VCR"); ("voter_prob_distribution", GDist (mkDist "2d_square" 2 [0; 0]%Q 1%Q 1%Q));
   ("candidate_prob_distribution", GNone); ("candidate_points", GPoints [[0; 1]; [1; 0]]%Q);
   ("voter_radius", GInt 1); ("candidate_radius", GInt 0); ("return_points", GBool true)].
Example C60_points_example :
  let pts := ([[0; 0]; [1; 1]; [0; 1]]%Q, [[0; 1]; [1; 0]]%Q) in
  exists p, random_profile Qdivide 0%Q (ex_sampler Qsize) (fun _ _ _ _ _ => Ok pts) 3 2 ex_euclid = Ok (p, Some pts) /\
    map approved (voters p) = [[0;1]; [0;1]; [0;1]].
Proof. eexists. split; [vm_compute; reflexivity|reflexivity]. Qed.

(** * Proofs about generate.py *)
From Coq Require Import String.
From Coq Require Import List Arith Bool ZArith QArith Lia.
From Verif Require Import Prelude Misc Preferences Spec ProfileFacts MiscProofs PrefProofs Generate SpecGenerate.
Import ListNotations.
Local Open Scope string_scope.
Open Scope nat_scope.
Local Open Scope list_scope.

Lemma rbind_ok : forall A B (r : result A) (f : A -> result B) b, rbind r f = Ok b -> exists a, r = Ok a /\ f a = Ok b.
Proof. intros A B [a|e] f b H; [eauto|discriminate]. Qed.

Definition set_of (s : list pyobj) : list nat := map (fun c => Z.to_nat (int_val c)) s.
Definition sampled (s : list pyobj) : voter := mkVoter (set_of s) 1 true.

Lemma lookup_In : forall A k (l : list (string * A)) v, lookup k l = Some v -> In (k, v) l.
Proof.
  induction l as [|[k' x] l IH]; cbn; intros v H; [discriminate|].
  destruct (String.eqb_spec k' k); [subst; inversion H; auto|auto].
Qed.
Lemma lookup_some : forall A k (l : list (string * A)), In k (map fst l) <-> lookup k l <> None.
Proof.
  induction l as [|[k' x] l IH]; cbn; [intuition|].
  destruct (String.eqb_spec k' k); split; intros H; auto; try discriminate.
  - apply IH. destruct H; [congruence|auto].
  - right. apply IH. auto.
Qed.

Section P.
Context {F : Type}.
Variable div : Z + F -> Z -> F.
Variable rand : F.
Variable sampler : string -> params F -> result (list (list pyobj)).
Variable positions : Z -> Z -> Z -> gval F -> gval F -> result (list (list F) * list (list F)).

(** [v] is the voter of sample [s] *)
Definition voter_of (s : list pyobj) (v : voter) : Prop :=
  s = map (fun c => PyInt (Z.of_nat c)) (approved v) /\ weight v = 1%Q /\ weight_is_int v = true.

Lemma add_samples_ok : forall m samples p q, wf p -> num_cand p = m -> add_samples (Z.of_nat m) p samples = Ok q ->
  wf q /\ keeps p q /\ exists vs, voters q = voters p ++ vs /\ Forall2 voter_of samples vs.
Proof using.
  intros m. induction samples as [|s r IH]; intros p q Hw Hm H; cbn [add_samples] in H.
  - inversion H; subst. split; auto. split; [apply keeps_refl|]. exists []. rewrite app_nil_r. split; auto.
  - apply rbind_ok in H as (v & Ev & H). destruct (voter_new_ok _ _ _ _ _ Ev) as (Wv & A & B & C).
    unfold add_voter, unique_voter in H. rewrite Hm, (voter_new_accepts m v Wv) in H.
    apply IH in H; auto.
    + destruct H as (W & [K1 K2] & vs & E & Fv). split; auto. split; [split; auto|].
      exists (v :: vs). cbn in E. rewrite E, <- app_assoc. split; auto. constructor; auto. split; auto.
    + destruct Hw. split; auto. cbn. apply Forall_app. split; auto. constructor; [congruence|auto].
Qed.

Lemma wrapper_ok : forall s nv nc ps p, prefsampling_wrapper sampler s nv nc ps = Ok p ->
  exists samples, sampler s (("num_voters", GInt nv) :: ("num_candidates", GInt nc) :: ps) = Ok samples /\
    wf p /\ Z.of_nat (num_cand p) = nc /\ cand_names p = map str_nat (seq 0 (num_cand p)) /\
    Forall2 voter_of samples (voters p).
Proof using.
  intros s nv nc ps p H. unfold prefsampling_wrapper in H. apply rbind_ok in H as (samples & Es & H).
  apply rbind_ok in H as (q & Eq & H). unfold profile_new in Eq. destruct (Z.leb_spec nc 0); [discriminate|].
  inversion Eq; subst q; clear Eq. exists samples. split; auto.
  assert (E : nc = Z.of_nat (Z.to_nat nc)) by lia. rewrite E in H at 1.
  apply add_samples_ok in H; auto.
  - destruct H as (W & [K1 K2] & vs & Ev & Fv). cbn in K1, K2, Ev. split; auto. rewrite K1. split; [lia|]. split; auto.
    rewrite Ev; auto.
  - split; [cbn; lia|constructor].
Qed.

Lemma sample_voter : forall m s, sample_of (Z.of_nat m) s -> exists v, voter_new s 1 true (Some (Z.of_nat m)) = Ok v /\ wf_voter m v /\ voter_of s v.
Proof using.
  intros m s [Hn Hr].
  assert (E : s = map (fun c => PyInt (Z.of_nat c)) (set_of s)).
  { unfold set_of. rewrite map_map. rewrite <- (map_id s) at 1. apply map_ext_in. intros c Hc.
    rewrite Forall_forall in Hr. destruct (Hr c Hc) as (z & -> & Hz). cbn. rewrite Z2Nat.id by lia. auto. }
  assert (W : wf_voter m (sampled s)).
  { split; [|split]; cbn.
    - rewrite E in Hn. eapply NoDup_map_inv; eauto.
    - unfold set_of. apply Forall_map. eapply Forall_impl; [|exact Hr]. intros c (z & -> & Hz). cbn. lia.
    - reflexivity. }
  exists (sampled s). split; [|split; auto; split; auto].
  pose proof (voter_new_accepts m (sampled s) W) as A. cbn [approved weight weight_is_int sampled] in A. rewrite E at 1. exact A.
Qed.

Lemma add_samples_total : forall m samples p, num_cand p = m -> Forall (sample_of (Z.of_nat m)) samples ->
  exists q, add_samples (Z.of_nat m) p samples = Ok q.
Proof using.
  intros m. induction samples as [|s r IH]; intros p Hm H; cbn [add_samples]; [eauto|].
  inversion H; subst. destruct (sample_voter _ _ H2) as (v & -> & Wv & _). cbn [rbind].
  unfold add_voter, unique_voter. rewrite (voter_new_accepts _ v Wv). apply IH; auto.
Qed.

Lemma wrapper_total : forall s nv nc ps samples, (0 < nc)%Z ->
  sampler s (("num_voters", GInt nv) :: ("num_candidates", GInt nc) :: ps) = Ok samples -> Forall (sample_of nc) samples ->
  exists p, prefsampling_wrapper sampler s nv nc ps = Ok p.
Proof using.
  intros s nv nc ps samples H E Hs. unfold prefsampling_wrapper. rewrite E. cbn [rbind]. unfold profile_new.
  destruct (Z.leb_spec nc 0); [lia|]. cbn [rbind].
  assert (En : nc = Z.of_nat (Z.to_nat nc)) by lia. 
  pose proof (add_samples_total (Z.to_nat nc) samples (mkProfile (Z.to_nat nc) (map str_nat (seq 0 (Z.to_nat nc))) []) eq_refl) as A.
  rewrite <- En in A. auto.
Qed.

(** ** Arguments *)
Definition rest (dist : params F) : params F := filter (fun kv => negb (String.eqb (fst kv) "id")) dist.
Definition args (dist opt : params F) (k : string) : gval F := match lookup k (rest dist ++ opt) with Some v => v | None => GNone end.

Lemma lookup_app : forall A k (l m : list (string * A)), lookup k (l ++ m) = match lookup k l with Some v => Some v | None => lookup k m end.
Proof using. induction l as [|[k' x] l IH]; cbn; intros m; auto. destruct (String.eqb k' k); auto. Qed.
Lemma lookup_rest : forall k dist, k <> "id" -> lookup k (rest dist) = lookup k dist.
Proof using.
  intros k dist H. unfold rest. induction dist as [|[k' x] l IH]; cbn; auto. destruct (String.eqb_spec k' "id"); cbn.
  - subst. destruct (String.eqb_spec "id" k); [congruence|auto].
  - destruct (String.eqb_spec k' k); auto.
Qed.
Lemma args_given : forall dist opt k v, k <> "id" -> lookup k dist = Some v -> args dist opt k = v.
Proof using. intros dist opt k v H E. unfold args. rewrite lookup_app, lookup_rest, E; auto. Qed.
Lemma args_default : forall dist opt k, k <> "id" -> lookup k dist = None -> args dist opt k = match lookup k opt with Some v => v | None => GNone end.
Proof using. intros dist opt k H E. unfold args. rewrite lookup_app, lookup_rest, E; auto. Qed.

Lemma random_profile_call : forall nv nc dist id g, lookup "id" dist = Some (GStr id) ->
  lookup id (PROBABILITY_DISTRIBUTIONS div rand sampler positions) = Some g ->
  random_profile div rand sampler positions nv nc dist =
    if negb (forallb (fun kv => existsb (String.eqb (fst kv)) (required g ++ map fst (optional g))) (rest dist)) then Err TypeError
    else if negb (forallb (fun k => match lookup k (rest dist) with Some _ => true | None => false end) (required g)) then Err TypeError
    else body g nv nc (args dist (optional g)).
Proof using. intros nv nc dist id g E Eg. unfold random_profile. rewrite E, Eg. reflexivity. Qed.

Lemma required_given : forall dist req,
  forallb (fun k => match lookup k (rest dist) with Some _ => true | None => false end) req = true ->
  forall k, In k req -> k <> "id" -> lookup k dist <> None.
Proof using.
  intros dist req H k Hk Hn. rewrite forallb_forall in H. specialize (H k Hk). rewrite lookup_rest in H; auto.
  destruct (lookup k dist); congruence.
Qed.

Lemma euclid_ok : forall nv nc vd cd vp cp rp s l g,
  euclidean_wrapper sampler positions nv nc vd cd vp cp rp s l = Ok g ->
  exists ps, prefsampling_wrapper sampler s nv nc (l ++ ps) = Ok (fst g).
Proof using.
  intros nv nc vd cd vp cp rp s l g H. unfold euclidean_wrapper in H.
  apply rbind_ok in H as ([vpos dim] & _ & H). apply rbind_ok in H as (cpos & _ & H).
  apply rbind_ok in H as ([v c] & _ & H). apply rbind_ok in H as (p & Hp & H). injection H as <-. eauto.
Qed.

Lemma random_profile_ok : forall nv nc dist g, random_profile div rand sampler positions nv nc dist = Ok g ->
  exists id s targs ps samples, lookup "id" dist = Some (GStr id) /\ In (id, (s, targs)) sampler_table /\
    sampler s (("num_voters", GInt nv) :: ("num_candidates", GInt nc) :: ps) = Ok samples /\
    Forall (passes div nc dist ps) targs /\
    wf (fst g) /\ Z.of_nat (num_cand (fst g)) = nc /\ cand_names (fst g) = map str_nat (seq 0 (num_cand (fst g))) /\
    Forall2 voter_of samples (voters (fst g)).
Proof using.
  intros nv nc dist g H. destruct (lookup "id" dist) as [[]|] eqn:Eid; try (unfold random_profile in H; rewrite Eid in H; discriminate).
  destruct (lookup s (PROBABILITY_DISTRIBUTIONS div rand sampler positions)) as [gen|] eqn:Eg.
  2:{ unfold random_profile in H; rewrite Eid, Eg in H; discriminate. }
  rewrite (random_profile_call _ _ _ _ _ Eid Eg) in H.
  destruct (negb _) in H; [discriminate|].
  destruct (forallb (fun k => match lookup k (rest dist) with Some _ => true | None => false end) (required gen)) eqn:Hr;
    cbn [negb] in H; [|discriminate].
  pose proof (required_given _ _ Hr) as Hq. clear Hr.
  apply lookup_In in Eg.
  exists s.
  assert (K : forall smp targs ps, In (s, (smp, targs)) sampler_table ->
     prefsampling_wrapper sampler smp nv nc ps = Ok (fst g) -> Forall (passes div nc dist ps) targs ->
     exists s0 targs ps samples, Some (GStr s) = Some (@GStr F s) /\ In (s, (s0, targs)) sampler_table /\
    sampler s0 (("num_voters", GInt nv) :: ("num_candidates", GInt nc) :: ps) = Ok samples /\
    Forall (passes div nc dist ps) targs /\
    wf (fst g) /\ Z.of_nat (num_cand (fst g)) = nc /\ cand_names (fst g) = map str_nat (seq 0 (num_cand (fst g))) /\
    Forall2 voter_of samples (voters (fst g))).
  { intros smp targs ps Hin Hw Hp. apply wrapper_ok in Hw as (samples & A & B). exists smp, targs, ps, samples.
    split; [reflexivity|]. split; [exact Hin|]. split; [exact A|]. split; [exact Hp|exact B]. }
  unfold PROBABILITY_DISTRIBUTIONS in Eg. cbn [In] in Eg.
  Ltac plain_case H := unfold plain in H; apply rbind_ok in H as (p & H & Ep); injection Ep as <-; cbn [fst].
  Ltac same dist Hq := intros v Hv Hp; cbn [app lookup String.eqb Ascii.eqb Bool.eqb] in *;
     destruct Hp as [Hp|[Hp Hd]]; [rewrite (args_given dist _ _ v) by (auto; discriminate); reflexivity|
       first [exfalso; revert Hp; apply Hq; cbn; auto 10; discriminate
             |rewrite (args_default dist) by (auto; discriminate); cbn in Hd |- *; congruence]].
  repeat (destruct Eg as [Eg|Eg]; [injection Eg as <- <-; cbn [body required optional euclidean] in H, Hq |]); [..|destruct Eg].
  Ltac rel dist Er := split; intros z Ez; rewrite (args_given dist _ "setsize" _ ltac:(discriminate) Ez) in Er; cbn in Er;
      match type of Er with (if ?b then _ else _) = _ => destruct b end; try discriminate; injection Er as <-; reflexivity.
  - apply rbind_ok in H as (r & Er & H). plain_case H. eapply K; [cbn; auto 20|exact H|].
    constructor; [|constructor]. rel dist Er.
  - plain_case H. eapply K; [cbn; auto 20|exact H|]. constructor; [|constructor]. same dist Hq.
  - apply rbind_ok in H as (r & Er & H). plain_case H. eapply K; [cbn; auto 20|exact H|].
    constructor; [rel dist Er|]. constructor; [|constructor].
    intros v Ev. cbn. rewrite (args_given dist _ _ v) by (auto; discriminate). reflexivity.
  - apply rbind_ok in H as (r & Er & H). plain_case H. eapply K; [cbn; auto 20|exact H|].
    constructor; [rel dist Er|]. constructor; [same dist Hq|constructor].
  - plain_case H. eapply K; [cbn; auto 20|exact H|]. constructor; [same dist Hq|]. constructor; [same dist Hq|constructor].
  - apply rbind_ok in H as (r & Er & H). plain_case H. eapply K; [cbn; auto 20|exact H|].
    constructor; [rel dist Er|]. constructor; [|constructor].
    intros v Ev. cbn. rewrite (args_given dist _ _ v) by (auto; discriminate). reflexivity.
  - apply rbind_ok in H as (l & El & H). injection El as <-. apply euclid_ok in H as (ps & H).
    eapply K; [cbn; auto 20|exact H|]. constructor; [same dist Hq|]. constructor; [same dist Hq|constructor].
  - apply rbind_ok in H as (l & El & H). apply rbind_ok in El as (r & Er & El). injection El as <-. apply euclid_ok in H as (ps & H).
    eapply K; [cbn; auto 20|exact H|]. constructor; [rel dist Er|constructor].
  - apply rbind_ok in H as (l & El & H). injection El as <-. apply euclid_ok in H as (ps & H).
    eapply K; [cbn; auto 20|exact H|]. constructor; [same dist Hq|constructor].
  - plain_case H. eapply K; [cbn; auto 20|exact H|]. constructor; [same dist Hq|]. constructor; [same dist Hq|constructor].
  - plain_case H. eapply K; [cbn; auto 20|exact H|]. constructor; [|constructor; [same dist Hq|constructor; [same dist Hq|constructor]]].
    intros v Hv Hp. destruct Hp as [Hp|[Hp Hd]]; [|discriminate Hd]. cbn.
    rewrite (args_given dist _ _ v) by (auto; discriminate). destruct v; auto. congruence.
  - apply rbind_ok in H as (d & Ed & H). plain_case H. eapply K; [cbn; auto 20|exact H|].
    constructor; [same dist Hq|]. constructor; [same dist Hq|]. constructor; [|constructor].
    intros n c Hp Hc. cbn.
    assert (Ea : args dist [("distance", GStr "hamming")] "distance" = GStr n).
    { destruct Hp as [Hp|[Hp Hd]]; [apply args_given; auto; discriminate|].
      rewrite (args_default dist) by (auto; discriminate). cbn in Hd |- *. congruence. }
    rewrite Ea in Ed. cbn [lookup distance_constant] in Hc. unfold noise_type in Ed.
    rewrite !(String.eqb_sym n) in Ed.
    repeat match type of Hc with context [if ?b then _ else _] => destruct b end; congruence.
Qed.

Lemma wrapper_accepts : forall size, sampler_contract size sampler -> never_raises sampler ->
  forall s nv nc ps, (0 <= nv)%Z -> (0 < nc)%Z -> exists p, prefsampling_wrapper sampler s nv nc ps = Ok p.
Proof using.
  intros size Hc Ht s nv nc ps Hv Hn.
  destruct (Ht s (("num_voters", GInt nv) :: ("num_candidates", GInt nc) :: ps)) as [samples E].
  destruct (Hc _ _ _ nv nc Hv E eq_refl eq_refl) as (_ & Hs & _). eapply wrapper_total; eauto.
Qed.
Lemma plain_accepts : forall r, (exists p, r = Ok p) -> exists g : generated F, plain r = Ok g.
Proof using. intros r [p ->]. eexists. reflexivity. Qed.

Lemma known_dist : forall d : pdist F, In (dist_name d) (map fst POINT_DISTRIBUTIONS) ->
  exists f n, prefsampling_function d = Ok f /\ first_digit (dist_name d) = Ok n.
Proof using.
  intros d H. unfold prefsampling_function. cbn [POINT_DISTRIBUTIONS map fst In] in H.
  repeat (destruct H as [H|H]; [rewrite <- H; cbn; eexists _, _; split; reflexivity|]). destruct H.
Qed.

Lemma euclid_accepts : forall size, sampler_contract size sampler -> never_raises sampler ->
  (forall a b c d e, exists x, positions a b c d e = Ok x) ->
  forall nv nc, (0 <= nv)%Z -> (0 < nc)%Z -> forall vd cd vp cp rp s l,
  (exists d, vd = GDist d /\ In (dist_name d) (map fst POINT_DISTRIBUTIONS)) ->
  (exists d, cd = GDist d /\ In (dist_name d) (map fst POINT_DISTRIBUTIONS)) ->
  (vp = GNone \/ exists x l, vp = GPoints (x :: l)) -> (cp = GNone \/ exists x l, cp = GPoints (x :: l)) ->
  exists g, euclidean_wrapper sampler positions nv nc vd cd vp cp rp s l = Ok g.
Proof using.
  intros size Hc Ht Hp nv nc Hv Hn vd cd vp cp rp s l (d1 & -> & H1) (d2 & -> & H2) Hvp Hcp. unfold euclidean_wrapper.
  assert (A : exists x, voter_positions vp (GDist d1) = Ok x).
  { destruct Hvp as [->|(x & r & ->)]; cbn; [|eauto]. destruct (known_dist d1 H1) as (f & n & -> & ->). cbn. eauto. }
  destruct A as [[vpos dim] ->]. cbn [rbind].
  assert (B : exists x, candidate_positions cp (GDist d2) = Ok x).
  { destruct Hcp as [->|(x & r & ->)]; cbn; [|eauto]. destruct (known_dist d2 H2) as (f & n & -> & _). cbn. eauto. }
  destruct B as [cpos ->]. cbn [rbind].
  destruct (Hp nv nc dim vpos cpos) as [[v c] ->]. cbn [rbind].
  match goal with |- context [prefsampling_wrapper _ ?s ?a ?b ?c] => destruct (wrapper_accepts size Hc Ht s a b c Hv Hn) as [p ->] end.
  cbn. eauto.
Qed.

Lemma random_profile_total : forall size nv nc dist id, sampler_contract size sampler -> never_raises sampler ->
  (forall a b c d e, exists x, positions a b c d e = Ok x) -> (0 <= nv)%Z -> (0 < nc)%Z ->
  lookup "id" dist = Some (GStr id) -> proper_keys id dist -> (forall k v, lookup k dist = Some v -> proper_value k v) ->
  exists g, random_profile div rand sampler positions nv nc dist = Ok g.
Proof using.
  intros size nv nc dist id Hc Ht Hp Hv Hn Eid (req & opt & Hin & Hk & Hr) Hval.
  assert (Hreq : forall k, In k req -> k <> "id" -> exists v, lookup k dist = Some v /\ proper_value k v).
  { intros k Hk' _. specialize (Hr k Hk'). apply lookup_some in Hr. destruct (lookup k dist) eqn:E; [eauto|congruence]. }
  assert (W := wrapper_accepts size Hc Ht).
  assert (G : forall gen, lookup id (PROBABILITY_DISTRIBUTIONS div rand sampler positions) = Some gen -> required gen = req ->
    map fst (optional gen) = opt -> (exists g, body gen nv nc (args dist (optional gen)) = Ok g) -> ~ In "id" req ->
    exists g, random_profile div rand sampler positions nv nc dist = Ok g).
  { intros gen Eg E1 E2 Hb Hid. rewrite (random_profile_call _ _ _ _ _ Eid Eg), E1, E2.
    assert (C1 : forallb (fun kv => existsb (String.eqb (fst kv)) (req ++ opt)) (rest dist) = true).
    { apply forallb_forall. intros [k v] Hkv. apply filter_In in Hkv as [Hkv Hne]. cbn in Hne |- *.
      apply existsb_exists. exists k. split; [|apply String.eqb_refl]. apply in_or_app.
      destruct (Hk k) as [->|[]]; auto; [apply in_map_iff; exists (k, v); auto|]. discriminate. }
    assert (C2 : forallb (fun k => match lookup k (rest dist) with Some _ => true | None => false end) req = true).
    { apply forallb_forall. intros k Hk'. assert (Hne : k <> "id") by (intros ->; auto).
      destruct (Hreq k Hk' Hne) as (v & E & _). rewrite lookup_rest, E; auto. }
    rewrite C1, C2. exact Hb. }
  assert (Set_ : In "setsize" req -> forall o, exists r, divide div (args dist o "setsize") nc = Ok r).
  { intros Hs o. destruct (Hreq "setsize" Hs) as (v & E & P & _); [discriminate|]. destruct (P eq_refl) as [z ->].
    rewrite (args_given dist o "setsize" _ ltac:(discriminate) E). cbn. destruct (Z.eqb_spec nc 0); [lia|eauto]. }
  assert (Dist_ : forall k, In k EUCLID -> In k req -> k <> "id" -> forall o, exists d, args dist o k = GDist d /\ In (dist_name d) (map fst POINT_DISTRIBUTIONS)).
  { intros k Ke Hs Hne o. destruct (Hreq k Hs Hne) as (v & E & _ & _ & P & _). destruct (P Ke) as (d & -> & D).
    exists d. split; auto. apply args_given; auto. }
  assert (Pts : forall k, In k ["voter_points"; "candidate_points"] -> k <> "id" ->
     args dist POINT_OPTIONS k = GNone \/ exists x l, args dist POINT_OPTIONS k = GPoints (x :: l)).
  { intros k Hk' Hne. destruct (lookup k dist) as [v|] eqn:E.
    - rewrite (args_given dist _ _ v Hne E). apply (Hval k v E). auto.
    - rewrite (args_default dist _ _ Hne E). left. destruct Hk' as [<-|[<-|[]]]; reflexivity. }
  cbn [documented In] in Hin. unfold EUCLID, EUCLID_OPT in Hin. cbn [app] in Hin.
  Ltac not_id := cbn; intros Hx; repeat (destruct Hx as [Hx|Hx]; [discriminate|]); destruct Hx.
  Ltac euc Hc Ht Hp Hv Hn Dist_ Pts := eapply euclid_accepts; eauto; try (apply Dist_; cbn; auto; discriminate);
     try (apply Pts; cbn; auto; discriminate).
  repeat (destruct Hin as [Hin|Hin]; [injection Hin as <- <- <-; (eapply G; [reflexivity|reflexivity|reflexivity| |not_id]); cbn [body euclidean optional]|]); [..|destruct Hin].
  - destruct (Set_ (or_introl eq_refl) []) as [r ->]. cbn [rbind]. apply plain_accepts; auto.
  - apply plain_accepts; auto.
  - destruct (Set_ (or_introl eq_refl) []) as [r ->]. cbn [rbind]. apply plain_accepts; auto.
  - destruct (Set_ (or_introl eq_refl) []) as [r ->]. cbn [rbind]. apply plain_accepts; auto.
  - apply plain_accepts; auto.
  - destruct (Set_ (or_introl eq_refl) []) as [r ->]. cbn [rbind]. apply plain_accepts; auto.
  - cbn [rbind]. euc Hc Ht Hp Hv Hn Dist_ Pts.
  - destruct (Set_ ltac:(cbn; auto) POINT_OPTIONS) as [r ->]. cbn [rbind]. euc Hc Ht Hp Hv Hn Dist_ Pts.
  - cbn [rbind]. euc Hc Ht Hp Hv Hn Dist_ Pts.
  - apply plain_accepts; auto.
  - apply plain_accepts; auto.
  - assert (D : exists t, noise_type (args dist [("distance", GStr "hamming")] "distance") = Ok t).
    { destruct (lookup "distance" dist) as [v|] eqn:E.
      - rewrite (args_given dist _ "distance" v ltac:(discriminate) E). destruct (Hval _ _ E) as (_ & P & _).
        destruct (P eq_refl) as (t & -> & Ht'). cbn in Ht'.
        repeat (destruct Ht' as [<-|Ht']; [cbn; eauto|]). destruct Ht'.
      - rewrite (args_default dist _ "distance" ltac:(discriminate) E). cbn. eauto. }
    destruct D as [t ->]. cbn [rbind]. apply plain_accepts; auto.
Qed.

Lemma random_profile_rejects : forall nv nc dist,
  let r := random_profile div rand sampler positions nv nc dist in
  (lookup "id" dist = None -> r = Err KeyError) /\
  (forall v, lookup "id" dist = Some v -> (forall id, In id (map fst documented) -> v <> GStr id) -> r = Err ValueError) /\
  (forall id, lookup "id" dist = Some (GStr id) -> In id (map fst documented) -> ~ proper_keys id dist -> r = Err TypeError).
Proof using.
  intros nv nc dist r. unfold r. clear r. split; [|split].
  - intros E. unfold random_profile. rewrite E. auto.
  - intros v E H. unfold random_profile. rewrite E. destruct v; auto.
    destruct (lookup s (PROBABILITY_DISTRIBUTIONS div rand sampler positions)) eqn:El; auto.
    exfalso. apply (H s); auto. assert (Hs : lookup s (PROBABILITY_DISTRIBUTIONS div rand sampler positions) <> None) by congruence.
    apply lookup_some in Hs. exact Hs.
  - intros id E Hin Hk.
    assert (Hx : exists gen, lookup id (PROBABILITY_DISTRIBUTIONS div rand sampler positions) = Some gen /\
       In (id, (required gen, map fst (optional gen))) documented).
    { cbn [documented map fst In] in Hin. repeat (destruct Hin as [<-|Hin]; [eexists; split; [reflexivity|]; cbn; auto 20|]). destruct Hin. }
    destruct Hx as (gen & Eg & Hd). rewrite (random_profile_call _ _ _ _ _ E Eg).
    destruct (forallb _ (rest dist)) eqn:C1; auto. cbn [negb].
    destruct (forallb _ (required gen)) eqn:C2; auto. cbn [negb]. exfalso. apply Hk.
    assert (Hid : ~ In "id" (required gen)).
    { assert (D : Forall (fun e => ~ In "id" (fst (snd e))) documented).
      { unfold documented. repeat (constructor; [not_id|]). constructor. }
      rewrite Forall_forall in D. apply (D _ Hd). }
    exists (required gen), (map fst (optional gen)). split; auto. split.
    + intros k Hk'. destruct (String.eqb_spec k "id"); auto. right. rewrite forallb_forall in C1.
      apply in_map_iff in Hk' as ([k' v] & <- & Hkv). cbn in *.
      assert (Hr : In (k', v) (rest dist)). { apply filter_In. split; auto. cbn. destruct (String.eqb_spec k' "id"); auto. }
      specialize (C1 _ Hr). apply existsb_exists in C1 as (x & Hx & Ex). cbn in Ex. apply String.eqb_eq in Ex. subst x.
      apply in_app_iff in Hx. auto.
    + intros k Hk'. apply lookup_some. eapply required_given; eauto. intros ->. auto.
Qed.

Lemma fixed_size_exact : forall size nv nc dist g id z, sampler_contract size sampler -> (0 <= nv)%Z ->
  random_profile div rand sampler positions nv nc dist = Ok g ->
  Z.of_nat (length (voters (fst g))) = nv /\
  (lookup "id" dist = Some (GStr id) -> fixed_size id -> lookup "setsize" dist = Some (GInt z) ->
   Forall (fun v => Z.of_nat (length (approved v)) = size (div (inl z) nc) nc) (voters (fst g))).
Proof using.
  intros size nv nc dist g id z Hc Hv H. apply random_profile_ok in H as (id' & s & targs & ps & samples & E1 & Ht & Es & Hp & Hw & En & _ & Hf).
  destruct (Hc _ _ _ nv nc Hv Es eq_refl eq_refl) as (A & _ & B). split.
  - rewrite <- A. f_equal. symmetry. clear -Hf. induction Hf; cbn; auto.
  - intros E Hfix Ez. rewrite E1 in E. injection E as ->.
    assert (Hrel : In Rel targs).
    { unfold fixed_size in Hfix. cbn [In] in Hfix.
      repeat (destruct Hfix as [<-|Hfix]; [cbn [sampler_table In] in Ht; repeat (destruct Ht as [Ht|Ht]; [first [discriminate Ht|injection Ht as <- <-; cbn; auto]|]); destruct Ht|]). destruct Hfix. }
    rewrite Forall_forall in Hp. destruct (Hp _ Hrel) as [P _]. specialize (P z Ez).
    specialize (B (div (inl z) nc)). cbn [lookup String.eqb Ascii.eqb Bool.eqb] in B. specialize (B P).
    clear -B Hf. induction Hf as [|s v ss vs [E _] Fv IH]; constructor; inversion B; subst; auto. rewrite map_length in H1. auto.
Qed.

(** ** Points *)
Lemma known_dimension : forall n d, In (n, d) POINT_DISTRIBUTIONS -> forall c sg w (x : pdist F), dist_new n c sg w = Ok x ->
  dimension x = d /\ length (center x) = d /\ first_digit n = Ok (Z.of_nat d) /\
  exists s ps, prefsampling_function x = Ok (s, ps) /\ lookup "num_dimensions" ps = Some (GInt (Z.of_nat d)) /\
     lookup "center_point" ps = Some (GPoint (center x)).
Proof using.
  intros n d H c sg w x E. cbn [POINT_DISTRIBUTIONS In] in H.
  Ltac dim_case H E c := injection H as <- <-; unfold dist_new in E;
    match type of E with context [int_of_string ?s] => let v := eval vm_compute in (int_of_string s) in change (int_of_string s) with v in E end;
    cbv iota beta in E; destruct c as [c|c];
    [injection E as <-; (split; [reflexivity|split; [reflexivity|split; [reflexivity|eexists _, _; split; [reflexivity|split; reflexivity]]]])
    |let El := fresh in match type of E with (if ?b then _ else _) = _ => destruct b eqn:El; [injection E as <-|discriminate] end;
     apply Nat.eqb_eq in El; (split; [reflexivity|split; [exact El|split; [reflexivity|eexists _, _; split; [reflexivity|split; reflexivity]]]])].
  destruct H as [H|H]; [dim_case H E c|].
  destruct H as [H|H]; [dim_case H E c|].
  destruct H as [H|H]; [dim_case H E c|].
  destruct H as [H|H]; [dim_case H E c|].
  destruct H as [H|H]; [dim_case H E c|].
  destruct H as [H|H]; [dim_case H E c|].
  destruct H as [H|H]; [dim_case H E c|].
  destruct H as [H|H]; [dim_case H E c|].
  destruct H.
Qed.
End P.

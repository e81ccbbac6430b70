(** * The points of the Euclidean generators (C60) *)
From Coq Require Import String.
From Coq Require Import List Arith Bool ZArith QArith Lia.
From Verif Require Import Prelude Misc Preferences PrefProofs Generate SpecGenerate GenerateProofs.
Import ListNotations.
Local Open Scope string_scope.
Open Scope nat_scope.
Local Open Scope list_scope.

Section Points.
Context {F : Type}.
Variable div : Z + F -> Z -> F.
Variable rand : F.
Variable sampler : string -> params F -> result (list (list pyobj)).
Variable positions : Z -> Z -> Z -> gval F -> gval F -> result (list (list F) * list (list F)).

Lemma lookup_rel : forall k (l : params F) ps, (forall kv, In kv l -> fst kv <> k) -> lookup k (l ++ ps) = lookup k ps.
Proof using.
  intros k l ps H. rewrite lookup_app. assert (E : lookup k l = None); [|rewrite E; reflexivity].
  induction l as [|[a x] l IH]; [reflexivity|]. cbn. destruct (String.eqb_spec a k) as [->|]; [exfalso; apply (H (k, x)); [left|]; reflexivity|].
  apply IH. intros kv Hk. apply H. right. auto.
Qed.
Lemma args_absent : forall dist k, k <> "id" -> In k ["voter_points"; "candidate_points"] -> (lookup k dist = None \/ lookup k dist = Some GNone) -> args dist (POINT_OPTIONS (F := F)) k = GNone.
Proof using.
  intros dist k H Hk [E|E]; [|apply args_given; auto]. rewrite args_default by auto. cbn in Hk. destruct Hk as [<-|[<-|[]]]; reflexivity.
Qed.

Lemma voter_positions_ok : forall (dist : params F) vpos dim,
  voter_positions (args dist POINT_OPTIONS "voter_points") (args dist POINT_OPTIONS "voter_prob_distribution") = Ok (vpos, dim) ->
  points_from "voter_points" "voter_prob_distribution" dist vpos /\ dimension_from dist dim.
Proof using.
  intros dist vpos dim H. split; [split|split].
  - intros l E. rewrite (fun Hn => args_given dist _ _ _ Hn E) in H by discriminate. destruct l; [discriminate|]. cbn in H. congruence.
  - intros E d f ps Ed Ef. rewrite (args_absent dist "voter_points") in H by (auto; try discriminate; cbn; auto).
    rewrite (fun Hn => args_given dist _ _ _ Hn Ed) in H by discriminate. cbn in H. rewrite Ef in H. cbn in H. apply rbind_ok in H as (n & _ & H). congruence.
  - intros x l E. rewrite (fun Hn => args_given dist _ _ _ Hn E) in H by discriminate. cbn in H. congruence.
  - intros E d Ed. rewrite (args_absent dist "voter_points") in H by (auto; try discriminate; cbn; auto).
    rewrite (fun Hn => args_given dist _ _ _ Hn Ed) in H by discriminate. cbn in H. apply rbind_ok in H as (f & _ & H). apply rbind_ok in H as (n & En & H). congruence.
Qed.
Lemma candidate_positions_ok : forall (dist : params F) cpos,
  candidate_positions (args dist POINT_OPTIONS "candidate_points") (args dist POINT_OPTIONS "candidate_prob_distribution") = Ok cpos ->
  points_from "candidate_points" "candidate_prob_distribution" dist cpos.
Proof using.
  intros dist cpos H. split.
  - intros l E. rewrite (fun Hn => args_given dist _ _ _ Hn E) in H by discriminate. cbn in H. congruence.
  - intros E d f ps Ed Ef. rewrite (args_absent dist "candidate_points") in H by (auto; try discriminate; cbn; auto).
    rewrite (fun Hn => args_given dist _ _ _ Hn Ed) in H by discriminate. cbn in H. rewrite Ef in H. cbn in H. congruence.
Qed.

Theorem euclidean_points : forall nv nc dist g id, random_profile div rand sampler positions nv nc dist = Ok g ->
  lookup "id" dist = Some (GStr id) -> In id EUCLIDEAN ->
  exists s ps samples dim vpos cpos v c,
    sampler s (("num_voters", GInt nv) :: ("num_candidates", GInt nc) :: ps) = Ok samples /\
    lookup "num_dimensions" ps = Some (GInt dim) /\ lookup "voters_positions" ps = Some (GPoints v) /\
    lookup "candidates_positions" ps = Some (GPoints c) /\ Forall2 voter_of samples (voters (fst g)) /\
    positions nv nc dim vpos cpos = Ok (v, c) /\
    points_from "voter_points" "voter_prob_distribution" dist vpos /\ dimension_from dist dim /\
    points_from "candidate_points" "candidate_prob_distribution" dist cpos /\
    (lookup "return_points" dist = Some (GBool true) -> snd g = Some (v, c)) /\
    (lookup "return_points" dist = None \/ lookup "return_points" dist = Some (GBool false) -> snd g = None).
Proof using.
  intros nv nc dist g id H Eid Hid.
  assert (K : forall s l, (forall k, In k ["num_dimensions"; "voters_positions"; "candidates_positions"] -> forall kv, In kv l -> fst kv <> k) ->
    euclidean_wrapper sampler positions nv nc (args dist POINT_OPTIONS "voter_prob_distribution") (args dist POINT_OPTIONS "candidate_prob_distribution")
      (args dist POINT_OPTIONS "voter_points") (args dist POINT_OPTIONS "candidate_points") (args dist POINT_OPTIONS "return_points") s l = Ok g ->
    exists ps samples dim vpos cpos v c,
    sampler s (("num_voters", GInt nv) :: ("num_candidates", GInt nc) :: ps) = Ok samples /\
    lookup "num_dimensions" ps = Some (GInt dim) /\ lookup "voters_positions" ps = Some (GPoints v) /\
    lookup "candidates_positions" ps = Some (GPoints c) /\ Forall2 voter_of samples (voters (fst g)) /\
    positions nv nc dim vpos cpos = Ok (v, c) /\
    points_from "voter_points" "voter_prob_distribution" dist vpos /\ dimension_from dist dim /\
    points_from "candidate_points" "candidate_prob_distribution" dist cpos /\
    (lookup "return_points" dist = Some (GBool true) -> snd g = Some (v, c)) /\
    (lookup "return_points" dist = None \/ lookup "return_points" dist = Some (GBool false) -> snd g = None)).
  { intros s l Hl Hw. unfold euclidean_wrapper in Hw. apply rbind_ok in Hw as ([vpos dim] & E1 & Hw). apply rbind_ok in Hw as (cpos & E2 & Hw).
    apply rbind_ok in Hw as ([v c] & E3 & Hw). apply rbind_ok in Hw as (p & E4 & Hw). injection Hw as <-. apply wrapper_ok in E4 as (samples & Es & _ & _ & _ & Hf).
    apply voter_positions_ok in E1 as [E1 Ed]. apply candidate_positions_ok in E2.
    eexists _, samples, dim, vpos, cpos, v, c. split; [exact Es|]. cbn [fst snd].
    split; [rewrite lookup_rel by (apply Hl; cbn; auto); reflexivity|]. split; [rewrite lookup_rel by (apply Hl; cbn; auto); reflexivity|].
    split; [rewrite lookup_rel by (apply Hl; cbn; auto); reflexivity|]. split; [exact Hf|]. split; [exact E3|]. split; [exact E1|]. split; [exact Ed|]. split; [exact E2|].
    split; [intros E|intros [E|E]]; [rewrite (fun Hn => args_given dist _ _ _ Hn E) by discriminate|rewrite args_default by (auto; discriminate)|rewrite (fun Hn => args_given dist _ _ _ Hn E) by discriminate]; reflexivity. }
  destruct (lookup id (PROBABILITY_DISTRIBUTIONS div rand sampler positions)) as [gen|] eqn:Eg.
  2:{ unfold random_profile in H; rewrite Eid, Eg in H; discriminate. }
  rewrite (random_profile_call _ _ _ _ _ _ _ _ _ Eid Eg) in H. destruct (negb _) in H; [discriminate|]. destruct (negb _) in H; [discriminate|].
  cbn in Hid. destruct Hid as [<-|[<-|[<-|[]]]]; cbn in Eg; injection Eg as <-; cbn [body optional euclidean] in H; apply rbind_ok in H as (l & El & H).
  - injection El as <-. eexists. eapply K; [|exact H]. intros k Hk kv Hkv. cbn in Hk, Hkv. intuition subst; discriminate.
  - apply rbind_ok in El as (r & Er & El). injection El as <-. eexists. eapply K; [|exact H]. intros k Hk kv Hkv. cbn in Hk, Hkv. intuition subst; discriminate.
  - injection El as <-. eexists. eapply K; [|exact H]. intros k Hk kv Hkv. cbn in Hk, Hkv. intuition subst; discriminate.
Qed.
End Points.

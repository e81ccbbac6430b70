(** * Facts about profiles: invariants, weight conversions, dominance, party lists *)
From Coq Require Import String.
From Coq Require Import List Arith Bool ZArith QArith Lia Lqa Permutation Sorted.
From Coq Require Qcanon.
From Verif Require Import Prelude Misc MiscProofs Preferences Spec Scores ScoresProofs.
Import ListNotations.
Open Scope nat_scope.

(** ** Invariants *)

Lemma voter_new_ok : forall l w wi m v, voter_new l w wi (Some (Z.of_nat m)) = Ok v ->
  wf_voter m v /\ weight v = w /\ weight_is_int v = wi /\
  l = map (fun c => PyInt (Z.of_nat c)) (approved v).
Proof.
  intros l w wi m v H. unfold voter_new in H.
  destruct (candidate_set_new l (Some (Z.of_nat m))) as [a|] eqn:E; [|discriminate]. simpl in H.
  destruct (Qle_bool w 0) eqn:Ew; [discriminate|]. inversion H; subst. simpl.
  destruct (candidate_set_new_ok _ _ _ E) as (A & B & C). repeat split; auto.
  - simpl. specialize (C _ eq_refl). eapply Forall_impl; [|exact C]. simpl. intros. lia.
  - simpl. apply Qle_bool_false in Ew. auto.
Qed.

Lemma unique_voter_wf : forall p a v, unique_voter p a = Ok v -> wf_voter (num_cand p) v.
Proof. intros p a v H. destruct a; simpl in H; apply voter_new_ok in H; tauto. Qed.

Lemma voter_new_accepts : forall m v, wf_voter m v ->
  voter_new (map (fun c => PyInt (Z.of_nat c)) (approved v)) (weight v) (weight_is_int v) (Some (Z.of_nat m)) = Ok v.
Proof.
  intros m v (Hn & Hr & Hw). unfold voter_new. rewrite candidate_set_new_accepts; auto.
  - simpl. apply Qle_bool_false in Hw. rewrite Hw. destruct v; auto.
  - intros m' E. inversion E; subst. eapply Forall_impl; [|exact Hr]. simpl. intros. lia.
Qed.

Definition keeps (p q : profile) : Prop := num_cand q = num_cand p /\ cand_names q = cand_names p.
Lemma keeps_refl : forall p, keeps p p. Proof. split; auto. Qed.
Lemma keeps_trans : forall p q r, keeps p q -> keeps q r -> keeps p r.
Proof. intros p q r [] []. split; congruence. Qed.
Lemma keeps_with : forall p vs, keeps p (with_voters p vs).
Proof. split; auto. Qed.

Lemma add_voter_inv : forall p a, wf p -> wf (snd (add_voter p a)) /\ keeps p (snd (add_voter p a)).
Proof.
  intros p a Hw. unfold add_voter. destruct (unique_voter p a) as [v|] eqn:E; simpl; auto using keeps_refl.
  split; [|apply keeps_with]. destruct Hw. split; auto. simpl. apply Forall_app. split; auto.
  constructor; auto. eapply unique_voter_wf; eauto.
Qed.

Lemma add_voters_inv : forall l p, wf p -> wf (snd (add_voters p l)) /\ keeps p (snd (add_voters p l)).
Proof.
  induction l as [|a l IH]; intros p Hw; simpl; auto using keeps_refl.
  destruct (add_voter_inv p a Hw) as [A B]. destruct (add_voter p a) as [[u|e] q]; simpl in *; auto.
  destruct (IH q A) as [C D]. split; auto. eapply keeps_trans; eauto.
Qed.

Lemma Forall_replace_nth : forall (A:Type) (P : A -> Prop) l i x, Forall P l -> P x -> Forall P (replace_nth i x l).
Proof.
  induction l as [|y l IH]; intros i x Hl Hx; destruct i; simpl; auto; inversion Hl; subst; constructor; auto.
Qed.

Lemma set_voter_inv : forall p i a, wf p -> wf (snd (set_voter p i a)) /\ keeps p (snd (set_voter p i a)).
Proof.
  intros p i a Hw. unfold set_voter. destruct (unique_voter p a) as [v|] eqn:E; simpl; auto using keeps_refl.
  destruct (i <? List.length (voters p)); simpl; auto using keeps_refl.
  split; [|apply keeps_with]. destruct Hw. split; auto. simpl. apply Forall_replace_nth; auto.
  eapply unique_voter_wf; eauto.
Qed.

Lemma unit_copies_wf : forall m vs us, Forall (wf_voter m) vs -> unit_copies vs = Ok us -> Forall (wf_voter m) us.
Proof.
  induction vs as [|v vs IH]; simpl; intros us Hv H.
  - inversion H. constructor.
  - inversion Hv; subst. destruct (weight_is_int v); [|discriminate].
    destruct (unit_copies vs) as [rest|]; [|discriminate]. simpl in H. inversion H; subst.
    apply Forall_app. split; auto. apply Forall_forall. intros u Hu. apply repeat_spec in Hu. subst.
    destruct H2 as (A & B & C). repeat split; auto.
Qed.

Lemma unit_inv : forall p, wf p -> wf (snd (convert_to_unit_weights p)) /\ keeps p (snd (convert_to_unit_weights p)).
Proof.
  intros p Hw. unfold convert_to_unit_weights. destruct (unit_copies (voters p)) eqn:E; simpl; auto using keeps_refl.
  split; [|apply keeps_with]. destruct Hw. split; auto. simpl. eapply unit_copies_wf; eauto.
Qed.

Lemma fold_weight : forall vs a, (fold_left (fun s v => s + weight v)%Q vs a == a + wsum vs)%Q.
Proof.
  induction vs as [|v vs IH]; intros a; simpl.
  - unfold wsum; simpl. ring.
  - rewrite IH. unfold wsum; simpl. ring.
Qed.

Lemma wsum_pos : forall m vs, Forall (wf_voter m) vs -> vs <> [] -> (0 < wsum vs)%Q.
Proof.
  intros m vs H Hn. destruct vs as [|v vs]; [congruence|]. clear Hn. revert v H.
  induction vs as [|u vs IH]; intros v H; inversion H; subst.
  - unfold wsum; simpl. destruct H2 as (_ & _ & ?). lra.
  - specialize (IH u H3). unfold wsum in *. simpl in *. destruct H2 as (_ & _ & ?). lra.
Qed.

Lemma weighted_inv : forall ord p, (forall l, Permutation (ord l) l) -> wf p ->
  wf (convert_to_weighted ord p) /\ keeps p (convert_to_weighted ord p).
Proof.
  intros ord p Ho (Hm & Hv). split; [|apply keeps_with]. split; auto. simpl.
  apply Forall_forall. intros v Hi. apply in_map_iff in Hi as (a & <- & Ha).
  eapply Permutation_in in Ha; [|apply Ho]. apply nodup_In in Ha. apply in_map_iff in Ha as (u & Eu & Hu).
  rewrite Forall_forall in Hv. destruct (Hv u Hu) as (A & B & C). subst a. repeat split; simpl.
  - eapply Permutation_NoDup; [apply isort_perm|auto].
  - eapply Permutation_Forall; [apply isort_perm|auto].
  - rewrite fold_weight. rewrite Qplus_0_l. apply (wsum_pos (num_cand p)).
    + apply Forall_forall. intros x Hx. apply filter_In in Hx as [Hx _]. auto.
    + intro E. assert (Hin : In u (filter (fun v => if list_eq_dec_nat (isort (approved v)) (isort (approved u))
                                                  then true else false) (voters p))).
      { apply filter_In. split; auto. destruct (list_eq_dec_nat _ _); congruence. }
      rewrite E in Hin. destruct Hin.
Qed.

(** operations whose set iteration order is a rearrangement of the set *)
Definition legal_op (o : op) : Prop :=
  match o with OpWeighted ord => forall l, Permutation (ord l) l | _ => True end.

Lemma run_op_inv : forall p o, legal_op o -> wf p -> wf (run_op p o) /\ keeps p (run_op p o).
Proof.
  intros p o Hl Hw. destruct o; simpl; auto using add_voter_inv, add_voters_inv, set_voter_inv, unit_inv, weighted_inv.
Qed.

Lemma run_ops_inv : forall ops p, Forall legal_op ops -> wf p ->
  wf (fold_left run_op ops p) /\ keeps p (fold_left run_op ops p).
Proof.
  induction ops as [|o ops IH]; simpl; intros p Hl Hw; auto using keeps_refl.
  inversion Hl; subst. destruct (run_op_inv p o H1 Hw) as [A B]. destruct (IH _ H2 A) as [C D].
  split; auto. eapply keeps_trans; eauto.
Qed.

Lemma profile_new_ok : forall nc names p, profile_new nc names = Ok p ->
  wf p /\ voters p = [] /\ Z.of_nat (num_cand p) = nc /\ List.length (cand_names p) = num_cand p /\
  cand_names p = match names with
                 | Some (n :: l) => firstn (Z.to_nat nc) (n :: l)
                 | _ => map str_nat (seq 0 (Z.to_nat nc))
                 end.
Proof.
  intros nc names p H. unfold profile_new in H. destruct (Z.leb_spec nc 0); [discriminate|].
  assert (forall p, p = mkProfile (Z.to_nat nc) (map str_nat (seq 0 (Z.to_nat nc))) [] ->
            wf p /\ voters p = [] /\ Z.of_nat (num_cand p) = nc /\ List.length (cand_names p) = num_cand p).
  { intros q ->. unfold wf; simpl. rewrite map_length, seq_length. repeat split; auto; lia. }
  destruct names as [[|n l]|].
  - inversion H. destruct (H1 _ (eq_sym H3)) as (A & B & C & D). subst p. auto.
  - destruct (List.length (n :: l) <? Z.to_nat nc) eqn:E; [discriminate|]. apply Nat.ltb_ge in E. inversion H.
    unfold wf; cbn [voters num_cand cand_names]. rewrite firstn_length. repeat split; auto; lia.
  - inversion H. destruct (H1 _ (eq_sym H3)) as (A & B & C & D). subst p. auto.
Qed.

Lemma profile_new_accepts : forall nc names, (exists p, profile_new nc names = Ok p) <->
  (0 < nc)%Z /\ match names with Some (n :: l) => (nc <= Z.of_nat (List.length (n :: l)))%Z | _ => True end.
Proof.
  intros nc names. unfold profile_new. destruct (Z.leb_spec nc 0).
  - split; [intros (p & E); discriminate|intros []; lia].
  - destruct names as [[|n l]|].
    + split; eauto. 
    + destruct (Nat.ltb_spec (List.length (n :: l)) (Z.to_nat nc)).
      * split; [intros (p & E); discriminate|intros []; lia].
      * split; [intros _; split; lia|eauto].
    + split; eauto.
Qed.

(** add_voter accepts exactly the legal voters *)
Lemma add_voter_ok_iff : forall p l, (exists q, add_voter p (ArgSet l) = (Ok tt, q)) <->
  exists a, l = map (fun c => PyInt (Z.of_nat c)) a /\ NoDup a /\ Forall (fun c => c < num_cand p) a.
Proof.
  intros p l. unfold add_voter. split.
  - intros (q & H). destruct (unique_voter p (ArgSet l)) as [v|] eqn:E; [|discriminate].
    simpl in E. apply voter_new_ok in E as ((A & B & C) & _ & _ & D). exists (approved v). auto.
  - intros (a & -> & Hn & Hr).
    assert (Hv : wf_voter (num_cand p) (mkVoter a 1 true)) by (repeat split; simpl; auto; lra).
    pose proof (voter_new_accepts _ _ Hv) as E. simpl in E. unfold unique_voter. rewrite E. eauto.
Qed.

(** ** copy *)
Lemma add_voters_copies : forall vs p, wf p -> Forall (wf_voter (num_cand p)) vs ->
  add_voters p (map ArgVoter vs) = (Ok tt, with_voters p (voters p ++ vs)).
Proof.
  induction vs as [|v vs IH]; intros p Hw Hv.
  - simpl. rewrite app_nil_r. destruct p; auto.
  - inversion Hv; subst. cbn [map add_voters]. unfold add_voter. unfold unique_voter.
    rewrite voter_new_accepts by auto.
    rewrite IH.
    + unfold with_voters. simpl. rewrite <- app_assoc. auto.
    + destruct Hw. split; auto. simpl. apply Forall_app. auto.
    + auto.
Qed.

Lemma profile_copy_ok : forall p, wf p -> profile_copy p =
  Ok (mkProfile (num_cand p) (map str_nat (seq 0 (num_cand p))) (voters p)).
Proof.
  intros p [Hm Hv]. unfold profile_copy, profile_new. destruct (Z.leb_spec (Z.of_nat (num_cand p)) 0); [lia|].
  rewrite Nat2Z.id. cbn [rbind]. rewrite add_voters_copies; auto.
  split; simpl; auto.
Qed.

(** ** Linear functionals of the election *)

(** total of [g] over the voters, weighted *)
Definition lin (g : list nat -> Q) (vs : list voter) : Q := Qsum (map (fun v => weight v * g (approved v))%Q vs).
(** [g] does not depend on the order in which the set is listed *)
Definition set_fun (g : list nat -> Q) : Prop := forall a b, Permutation a b -> (g a == g b)%Q.

Definition same_election (p q : profile) : Prop :=
  num_cand p = num_cand q /\ forall g, set_fun g -> (lin g (voters p) == lin g (voters q))%Q.

Lemma same_election_refl : forall p, same_election p p.
Proof. split; auto. reflexivity. Qed.
Lemma same_election_sym : forall p q, same_election p q -> same_election q p.
Proof. intros p q [A B]. split; auto. intros. symmetry. auto. Qed.
Lemma same_election_trans : forall p q r, same_election p q -> same_election q r -> same_election p r.
Proof. intros p q r [A B] [C D]. split; [congruence|]. intros. rewrite B, D; auto. reflexivity. Qed.

Lemma same_election_perm : forall p vs, Permutation (voters p) vs -> same_election p (with_voters p vs).
Proof. intros p vs H. split; auto. intros g Hg. unfold lin. apply Qsum_perm, Permutation_map. auto. Qed.

Lemma lin_app : forall g a b, (lin g (a ++ b) == lin g a + lin g b)%Q.
Proof. intros. unfold lin. rewrite map_app, Qsum_app. reflexivity. Qed.

Lemma lin_repeat : forall g a b n, (lin g (repeat (mkVoter a 1 b) n) == Qnat n * g a)%Q.
Proof.
  intros g a b n. induction n; simpl.
  - unfold lin; simpl. unfold Qnat; simpl. ring.
  - unfold lin in *. simpl. rewrite IHn. rewrite Qnat_S. ring.
Qed.

(** a weight flagged as [int] is an integer *)
Definition int_flag_ok (v : voter) : Prop := weight_is_int v = true -> exists z, (weight v == inject_Z z)%Q.

Lemma int_weight_nat : forall v m, wf_voter m v -> int_flag_ok v -> weight_is_int v = true ->
  (Qnat (Z.to_nat (Qnum (Qred (weight v)))) == weight v)%Q /\ 1 <= Z.to_nat (Qnum (Qred (weight v))).
Proof.
  intros v m (_ & _ & Hp) Hi Hf. destruct (Hi Hf) as (z & Ez).
  assert (E : Qred (weight v) = inject_Z z).
  { rewrite (Qred_complete _ _ Ez). unfold inject_Z. 
    assert (G : Z.gcd z 1 = 1%Z) by apply Z.gcd_1_r.
    apply Qcanon.Qred_identity. exact G. }
  rewrite E. simpl. rewrite Ez in Hp. unfold Qlt in Hp. simpl in Hp.
  split; [|lia]. rewrite Ez. unfold Qnat. rewrite Z2Nat.id by lia. reflexivity.
Qed.

Lemma unit_copies_lin : forall m vs us, Forall (wf_voter m) vs -> Forall int_flag_ok vs ->
  unit_copies vs = Ok us -> forall g, (lin g us == lin g vs)%Q.
Proof.
  induction vs as [|v vs IH]; simpl; intros us Hv Hi H g.
  - inversion H. reflexivity.
  - inversion Hv; subst. inversion Hi; subst. destruct (weight_is_int v) eqn:Ef; [|discriminate].
    destruct (unit_copies vs) as [rest|] eqn:E; [|discriminate]. simpl in H. inversion H; subst.
    rewrite lin_app, lin_repeat. rewrite (IH rest); auto.
    destruct (int_weight_nat v m H2 H4 Ef) as [E' _]. rewrite E'. unfold lin. simpl. reflexivity.
Qed.

Lemma unit_copies_unit : forall vs us, unit_copies vs = Ok us -> Forall (fun v => weight v == 1)%Q us.
Proof.
  induction vs as [|v vs IH]; simpl; intros us H; [inversion H; constructor|].
  destruct (weight_is_int v); [|discriminate]. destruct (unit_copies vs) as [rest|]; [|discriminate].
  inversion H; subst. apply Forall_app. split; auto. apply Forall_forall. intros u Hu.
  apply repeat_spec in Hu. subst. reflexivity.
Qed.

Lemma unit_copies_ok_iff : forall vs, (exists us, unit_copies vs = Ok us) <-> Forall (fun v => weight_is_int v = true) vs.
Proof.
  induction vs as [|v vs IH]; simpl.
  - split; eauto.
  - split.
    + intros (us & H). destruct (weight_is_int v) eqn:E; [|discriminate].
      destruct (unit_copies vs) eqn:E'; [|discriminate]. constructor; auto. apply IH. eauto.
    + intro H. inversion H; subst. rewrite H2. destruct IH as [_ IH]. destruct (IH H3) as (us & ->). simpl. eauto.
Qed.

Lemma unit_copies_err : forall vs e, unit_copies vs = Err e -> e = TypeError.
Proof.
  induction vs as [|v vs IH]; simpl; intros e H; [discriminate|].
  destruct (weight_is_int v); [|congruence]. destruct (unit_copies vs); [discriminate|].
  simpl in H. apply IH. congruence.
Qed.

(** grouping by approval set *)
Lemma lin_filter_key : forall g (P : voter -> bool) vs,
  (lin g (filter P vs) == Qsum (map (fun v => if P v then weight v * g (approved v) else 0) vs))%Q.
Proof. intros. unfold lin. apply Qsum_filter. Qed.

Lemma Qsum_indicator : forall (keys : list (list nat)) x (q : Q), NoDup keys -> In x keys ->
  (Qsum (map (fun a => if list_eq_dec_nat x a then q else 0) keys) == q)%Q.
Proof.
  induction keys as [|a keys IH]; intros x q Hn Hi; [destruct Hi|]. inversion Hn; subst. simpl.
  destruct (list_eq_dec_nat x a) as [->|Hne].
  - assert (E : (Qsum (map (fun a0 => if list_eq_dec_nat a a0 then q else 0) keys) == 0)%Q).
    { apply Qsum_map_zero. intros b Hb. destruct (list_eq_dec_nat a b); [subst; contradiction|reflexivity]. }
    rewrite E. ring.
  - destruct Hi as [->|Hi]; [congruence|]. rewrite IH by auto. ring.
Qed.

Lemma weighted_lin : forall ord p g, (forall l, Permutation (ord l) l) -> set_fun g ->
  (lin g (voters (convert_to_weighted ord p)) == lin g (voters p))%Q.
Proof.
  intros ord p g Ho Hg. unfold convert_to_weighted. cbn [voters with_voters].
  set (key := fun v => isort (approved v)).
  set (keys := ord (nodup list_eq_dec_nat (map key (voters p)))).
  unfold lin at 1. rewrite map_map. cbn [weight approved].
  transitivity (Qsum (map (fun a => Qsum (map (fun v => if list_eq_dec_nat (key v) a then weight v * g (approved v) else 0)%Q (voters p))) keys)).
  { apply Qsum_map_ext. intros a Ha. rewrite fold_weight, Qplus_0_l.
    unfold wsum. rewrite <- (Qsum_map_scal _ _ (g a)) || idtac.
    rewrite Qmult_comm. rewrite <- Qsum_map_scal.
    rewrite (Qsum_filter _ (fun v => g a * weight v)%Q). apply Qsum_map_ext. intros v Hv.
    change (isort (approved v)) with (key v).
    destruct (list_eq_dec_nat (key v) a) as [<-|]; [|reflexivity].
    rewrite (Hg (approved v) (key v)) by apply isort_perm. ring. }
  rewrite Qsum_swap. unfold lin. apply Qsum_map_ext. intros v Hv. apply Qsum_indicator.
  - eapply Permutation_NoDup; [apply Permutation_sym, Ho|apply NoDup_nodup].
  - eapply Permutation_in; [apply Permutation_sym, Ho|]. apply nodup_In. apply in_map; auto.
Qed.

Lemma weighted_same_election : forall ord p, (forall l, Permutation (ord l) l) ->
  same_election p (convert_to_weighted ord p).
Proof. intros ord p Ho. split; auto. intros g Hg. symmetry. apply weighted_lin; auto. Qed.

Lemma unit_same_election : forall p q, wf p -> Forall int_flag_ok (voters p) ->
  convert_to_unit_weights p = (Ok tt, q) -> same_election p q /\ unit_weights q.
Proof.
  intros p q [_ Hw] Hi H. unfold convert_to_unit_weights in H.
  destruct (unit_copies (voters p)) as [us|] eqn:E; [|discriminate]. inversion H; subst. split.
  - split; auto. intros g _. symmetry. eapply unit_copies_lin; eauto.
  - unfold unit_weights. simpl. eapply unit_copies_unit; eauto.
Qed.

(** ** what linear functionals determine *)
Lemma total_weight_wsum : forall p, (total_weight p == wsum (voters p))%Q.
Proof. intros. unfold total_weight. rewrite fold_weight. ring. Qed.

Lemma same_total_weight : forall p q, same_election p q -> (total_weight p == total_weight q)%Q.
Proof.
  intros p q [_ H]. rewrite !total_weight_wsum. unfold wsum.
  specialize (H (fun _ => 1%Q) ltac:(intros a b _; reflexivity)). unfold lin in H.
  assert (E : forall vs, (Qsum (map (fun v => weight v * 1) vs) == Qsum (map weight vs))%Q)
    by (intros; apply Qsum_map_ext; intros; ring).
  rewrite !E in H. auto.
Qed.

Lemma support_lin : forall p c, (support p c == lin (fun a => if mem c a then 1 else 0)%Q (voters p))%Q.
Proof.
  intros p c. unfold support, supporters, wsum. rewrite Qsum_filter. unfold lin. apply Qsum_map_ext.
  intros v _. unfold approves. destruct (mem c (approved v)); ring.
Qed.

Lemma mem_perm : forall c a b, Permutation a b -> mem c a = mem c b.
Proof.
  intros c a b H. apply mem_ext. intro x. split; apply Permutation_in; auto using Permutation_sym.
Qed.

Lemma same_support : forall p q c, same_election p q -> (support p c == support q c)%Q.
Proof.
  intros p q c [_ H]. rewrite !support_lin. apply H. intros a b Hp. rewrite (mem_perm c a b Hp). reflexivity.
Qed.

Lemma sav_support_lin : forall p c, (sav_support p c ==
  lin (fun a => if mem c a then 1 / Qnat (length a) else 0)%Q (voters p))%Q.
Proof.
  intros p c. unfold sav_support, supporters. rewrite Qsum_filter. unfold lin. apply Qsum_map_ext.
  intros v _. unfold approves. destruct (mem c (approved v)); [unfold Qdiv; ring|ring].
Qed.

Lemma same_sav_support : forall p q c, same_election p q -> (sav_support p c == sav_support q c)%Q.
Proof.
  intros p q c [_ H]. rewrite !sav_support_lin. apply H. intros a b Hp.
  rewrite (mem_perm c a b Hp), (Permutation_length Hp). reflexivity.
Qed.

Lemma same_Thiele : forall f p q W, same_election p q -> (Thiele f p W == Thiele f q W)%Q.
Proof.
  intros f p q W [_ H]. unfold Thiele. apply (H (fun a => Qsum (map f (seq 1 (length (inter a W)))))).
  intros a b Hp. rewrite (Permutation_length (Permutation_inter a b W Hp)). reflexivity.
Qed.

Lemma same_at_least : forall p q W (P : nat -> bool), same_election p q ->
  (wsum (filter (fun v => P (util v W)) (voters p)) == wsum (filter (fun v => P (util v W)) (voters q)))%Q.
Proof.
  intros p q W P [_ H]. unfold wsum. rewrite !Qsum_filter.
  specialize (H (fun a => if P (length (inter a W)) then 1 else 0)%Q). unfold lin in H.
  assert (E : forall vs, (Qsum (map (fun v => if P (util v W) then weight v else 0) vs) ==
            Qsum (map (fun v => weight v * (if P (length (inter (approved v) W)) then 1 else 0)) vs))%Q).
  { intro vs. apply Qsum_map_ext. intros v _. unfold util. destruct (P (length (inter (approved v) W))); ring. }
  rewrite !E. apply H. intros a b Hp. rewrite (Permutation_length (Permutation_inter a b W Hp)). reflexivity.
Qed.

(** with positive weights, the same approval sets occur *)
Lemma lin_nonneg_zero : forall g vs, (forall v, In v vs -> 0 < weight v)%Q -> (forall a, 0 <= g a)%Q ->
  (0 <= lin g vs)%Q /\ ((lin g vs == 0)%Q -> forall v, In v vs -> (g (approved v) == 0)%Q).
Proof.
  intros g vs Hw Hg. induction vs as [|v vs IH].
  - unfold lin; simpl. split; [lra|intros _ v []].
  - destruct IH as [A B]; [intros; apply Hw; right; auto|]. unfold lin in *. simpl.
    assert (Hv : (0 <= weight v * g (approved v))%Q)
      by (apply Qmult_le_0_compat; auto; apply Qlt_le_weak, Hw; left; auto).
    split; [lra|]. intros E u [<-|Hu].
    + assert (E' : (weight v * g (approved v) == 0)%Q) by lra.
      apply Qmult_integral in E' as [E'|E']; auto.
      specialize (Hw v (or_introl eq_refl)). lra.
    + apply B; auto. lra.
Qed.

Lemma same_occurs : forall p q v, wf p -> wf q -> same_election p q -> In v (voters p) ->
  exists u, In u (voters q) /\ isort (approved u) = isort (approved v).
Proof.
  intros p q v [_ Hp] [_ Hq] [_ H] Hv.
  set (g := fun a => if list_eq_dec_nat (isort a) (isort (approved v)) then 1%Q else 0%Q).
  assert (Hg : set_fun g) by (intros a b Hab; unfold g; rewrite (isort_perm_eq a b Hab); reflexivity).
  assert (Hn : forall a, (0 <= g a)%Q) by (intro a; unfold g; destruct (list_eq_dec_nat _ _); lra).
  rewrite Forall_forall in Hp, Hq.
  destruct (lin_nonneg_zero g (voters p)) as [_ B]; auto.
  { intros u Hu. destruct (Hp u Hu) as (_ & _ & ?); auto. }
  destruct (existsb (fun u => if list_eq_dec_nat (isort (approved u)) (isort (approved v)) then true else false)
              (voters q)) eqn:E.
  - apply existsb_exists in E as (u & Hu & E). exists u. split; auto.
    destruct (list_eq_dec_nat _ _); [auto|discriminate].
  - exfalso. assert (Z : (lin g (voters q) == 0)%Q).
    { unfold lin. apply Qsum_map_zero. intros u Hu. unfold g.
      destruct (list_eq_dec_nat (isort (approved u)) (isort (approved v))) eqn:E2.
      - exfalso. apply not_true_iff_false in E. apply E. apply existsb_exists. exists u. rewrite E2. auto.
      - ring. }
    assert (Z' : (g (approved v) == 0)%Q) by (apply B; auto; rewrite H; auto).
    unfold g in Z'. destruct (list_eq_dec_nat (isort (approved v)) (isort (approved v))); [lra|congruence].
Qed.

(** ** dominance *)
Lemma dominate_spec : forall p W1 W2, NoDup W1 -> NoDup W2 ->
  exists b, dominate p W1 W2 = Ok b /\
    (b = true <-> (forall v, In v (voters p) -> util v W2 <= util v W1) /\
                  exists v, In v (voters p) /\ util v W2 < util v W1).
Proof.
  intros p W1 W2 H1 H2. unfold dominate. rewrite !candidate_set_ok by auto. cbn [rbind].
  assert (U : forall v W, List.length (inter (approved v) (isort W)) = util v W).
  { intros v W. unfold util. apply inter_length_ext. intros x _. apply isort_In. }
  destruct (existsb _ (voters p)) eqn:E.
  - exists false. split; auto. split; [discriminate|]. intros [A _].
    apply existsb_exists in E as (v & Hv & E). rewrite !U in E. apply Nat.ltb_lt in E. specialize (A v Hv). lia.
  - assert (A : forall v, In v (voters p) -> util v W2 <= util v W1).
    { intros v Hv. apply not_true_iff_false in E. destruct (Nat.le_gt_cases (util v W2) (util v W1)); auto.
      exfalso. apply E. apply existsb_exists. exists v. split; auto. rewrite !U. apply Nat.ltb_lt. auto. }
    destruct (existsb (fun v => List.length (inter (approved v) (isort W2)) <? List.length (inter (approved v) (isort W1))) (voters p)) eqn:E2.
    + exists true. split; auto. split; auto. intros _. split; auto.
      apply existsb_exists in E2 as (v & Hv & E2). rewrite !U in E2. apply Nat.ltb_lt in E2. eauto.
    + exists false. split; auto. split; [discriminate|]. intros (_ & v & Hv & Hlt).
      apply not_true_iff_false in E2. exfalso. apply E2. apply existsb_exists. exists v. split; auto.
      rewrite !U. apply Nat.ltb_lt. auto.
Qed.

Lemma dominate_dup : forall p W1 W2, ~ (NoDup W1 /\ NoDup W2) -> dominate p W1 W2 = Err ValueError.
Proof.
  intros p W1 W2 H. unfold dominate, candidate_set.
  destruct (nodupb W1) eqn:E1; [|reflexivity]. destruct (nodupb W2) eqn:E2; [|reflexivity].
  apply nodupb_NoDup in E1, E2. tauto.
Qed.

(** ** party lists *)
Lemma is_party_list_iff : forall p, wf p -> is_party_list p = true <->
  forall v u, In v (voters p) -> In u (voters p) ->
    (forall c, In c (approved v) <-> In c (approved u)) \/
    (forall c, In c (approved v) -> ~ In c (approved u)).
Proof.
  intros p [_ Hw]. rewrite Forall_forall in Hw.
  assert (Hfull : forall v u, List.length (inter (approved v) (approved u)) = List.length (approved v) ->
            incl (approved v) (approved u)).
  { intros v u E c Hc. pose proof (inter_diff_length (approved v) (approved u)) as D.
    assert (Z : diff (approved v) (approved u) = []) by (apply length_zero_iff_nil; lia).
    destruct (mem c (approved u)) eqn:M; [apply mem_In; auto|]. apply mem_false in M.
    assert (In c (diff (approved v) (approved u))) by (apply diff_In; auto). rewrite Z in H. destruct H. }
  assert (Hzero : forall v u, List.length (inter (approved v) (approved u)) = 0 ->
            forall c, In c (approved v) -> ~ In c (approved u)).
  { intros v u E c Hc Hu. apply length_zero_iff_nil in E.
    assert (In c (inter (approved v) (approved u))) by (apply inter_In; auto). rewrite E in H. destruct H. }
  split.
  - intros H v u Hv Hu. unfold is_party_list in H. rewrite forallb_forall in H.
    assert (G : forall a b, In a (voters p) -> In b (voters p) ->
              List.length (inter (approved a) (approved b)) = 0 \/
              List.length (inter (approved a) (approved b)) = List.length (approved a)).
    { intros a b Ha Hb. specialize (H a Ha). rewrite forallb_forall in H. specialize (H b Hb).
      cbv zeta in H. apply orb_true_iff in H as [H|H]; apply Nat.eqb_eq in H; auto. }
    destruct (G v u Hv Hu) as [E|E]; [right; apply Hzero; auto|].
    destruct (G u v Hu Hv) as [E'|E'].
    + right. intros c Hc Hc'. eapply Hzero; eauto.
    + left. intro c. split; apply Hfull; auto.
  - intro H. unfold is_party_list. apply forallb_forall. intros v Hv. apply forallb_forall. intros u Hu.
    cbv zeta. apply orb_true_iff. destruct (H v u Hv Hu) as [E|E].
    + right. apply Nat.eqb_eq. pose proof (inter_diff_length (approved v) (approved u)) as D.
      assert (Z : diff (approved v) (approved u) = []).
      { destruct (diff (approved v) (approved u)) as [|c l] eqn:Ed; auto.
        assert (Hc : In c (diff (approved v) (approved u))) by (rewrite Ed; left; auto).
        apply diff_In in Hc as [A B]. apply E in A. contradiction. }
      rewrite Z in D. simpl in D. lia.
    + left. apply Nat.eqb_eq. apply length_zero_iff_nil.
      destruct (inter (approved v) (approved u)) as [|c l] eqn:Ei; auto.
      assert (Hc : In c (inter (approved v) (approved u))) by (rewrite Ei; left; auto).
      apply inter_In in Hc as [A B]. exfalso. eapply E; eauto.
Qed.

(** ** truth of the integer flag along histories *)
Definition arg_flag_ok (a : voter_arg) : Prop := match a with ArgVoter v => int_flag_ok v | ArgSet _ => True end.
Definition op_flag_ok (o : op) : Prop :=
  match o with
  | OpAdd a | OpSet _ a => arg_flag_ok a
  | OpAddMany l => Forall arg_flag_ok l
  | _ => True
  end.

Lemma unique_voter_flag : forall p a v, arg_flag_ok a -> unique_voter p a = Ok v -> int_flag_ok v.
Proof.
  intros p a v Ha H. destruct a as [u|l]; simpl in H; apply voter_new_ok in H as (_ & W & I & _).
  - intro E. destruct (Ha ltac:(congruence)) as [z Hz]. exists z. rewrite W. auto.
  - intros _. exists 1%Z. rewrite W. reflexivity.
Qed.

Lemma wsum_int : forall vs, Forall int_flag_ok vs -> forallb weight_is_int vs = true ->
  exists z, (wsum vs == inject_Z z)%Q.
Proof.
  induction vs as [|v vs IH]; intros Hf Hb; [exists 0%Z; reflexivity|].
  simpl in Hb. apply andb_true_iff in Hb as [A B]. inversion Hf; subst.
  destruct (H1 A) as [z Hz]. destruct (IH H2 B) as [y Hy]. exists (z + y)%Z. unfold wsum in *. simpl.
  rewrite Hz, Hy, inject_Z_plus. reflexivity.
Qed.

Lemma run_op_flags : forall p o, op_flag_ok o -> Forall int_flag_ok (voters p) ->
  Forall int_flag_ok (voters (run_op p o)).
Proof.
  assert (Hadd : forall p a, arg_flag_ok a -> Forall int_flag_ok (voters p) ->
             Forall int_flag_ok (voters (snd (add_voter p a)))).
  { intros p a Ha Hp. unfold add_voter. destruct (unique_voter p a) as [v|] eqn:E; simpl; auto.
    apply Forall_app. split; auto. constructor; auto. eapply unique_voter_flag; eauto. }
  intros p o Ho Hp. destruct o as [a|l|i a| |ord]; simpl in *; auto.
  - clear -Hadd Ho Hp. revert p Hp. induction Ho as [|a l Ha Hl IH]; simpl; intros p Hp; auto.
    specialize (Hadd p a Ha Hp). destruct (add_voter p a) as [[u|e] q]; simpl in *; auto.
  - unfold set_voter. destruct (unique_voter p a) as [v|] eqn:E; simpl; auto.
    destruct (i <? _); simpl; auto. apply Forall_replace_nth; auto. eapply unique_voter_flag; eauto.
  - unfold convert_to_unit_weights. destruct (unit_copies (voters p)) as [us|] eqn:E; simpl; auto.
    apply unit_copies_unit in E. eapply Forall_impl; [|exact E]. intros v Hv _. exists 1%Z. exact Hv.
  - apply Forall_forall. intros v Hv. apply in_map_iff in Hv as (a & <- & _). intro Hb. simpl in *.
    destruct (wsum_int (filter (fun v => if list_eq_dec_nat (isort (approved v)) a then true else false) (voters p))) as [z Hz]; auto.
    + apply Forall_forall. intros x Hx. apply filter_In in Hx as [Hx _]. rewrite Forall_forall in Hp. auto.
    + exists z. rewrite fold_weight, Qplus_0_l. exact Hz.
Qed.

Lemma run_ops_flags : forall ops p, Forall op_flag_ok ops -> Forall int_flag_ok (voters p) ->
  Forall int_flag_ok (voters (fold_left run_op ops p)).
Proof.
  induction ops as [|o ops IH]; simpl; intros p Ho Hp; auto. inversion Ho; subst. apply IH; auto.
  apply run_op_flags; auto.
Qed.

(** ** what raising calls leave behind *)
Lemma add_voter_raises : forall p a e q, add_voter p a = (Err e, q) -> q = p /\ (e = ValueError \/ e = TypeError).
Proof.
  intros p a e q H. unfold add_voter in H. destruct (unique_voter p a) as [v|e'] eqn:E; [discriminate|].
  inversion H; subst. split; auto.
  assert (G : forall l w wi nc, voter_new l w wi nc = Err e -> e = ValueError \/ e = TypeError).
  { clear. intros l w wi nc H. unfold voter_new in H. unfold candidate_set_new in H.
    destruct (negb (py_nodupb l)); simpl in H; [inversion H; auto|].
    destruct (negb (forallb is_int l)); simpl in H; [inversion H; auto|].
    destruct (negb (forallb _ l)); simpl in H; [inversion H; auto|].
    destruct (match nc with Some _ => _ | None => _ end); simpl in H; [inversion H; auto|].
    destruct (Qle_bool w 0); inversion H; auto. }
  destruct a; simpl in E; eauto.
Qed.

Lemma add_voters_prefix : forall l p r q, add_voters p l = (r, q) ->
  exists done rest, l = done ++ rest /\ add_voters p done = (Ok tt, q) /\
    match r with
    | Ok _ => rest = []
    | Err e => exists a rest', rest = a :: rest' /\ add_voter q a = (Err e, q)
    end.
Proof.
  induction l as [|a l IH]; intros p r q H.
  - simpl in H. inversion H; subst. exists [], []. auto.
  - simpl in H. destruct (add_voter p a) as [[u|e] p'] eqn:E.
    + destruct (IH p' r q H) as (dn & rest & A & B & C). exists (a :: dn), rest. split; [simpl; congruence|].
      split; auto. simpl. rewrite E. auto.
    + inversion H; subst. destruct (add_voter_raises _ _ _ _ E) as [-> _]. exists [], (a :: l). simpl.
      split; auto. split; auto. exists a, l. auto.
Qed.

Lemma set_voter_raises : forall p i a e q, set_voter p i a = (Err e, q) -> q = p.
Proof.
  intros p i a e q H. unfold set_voter in H. destruct (unique_voter p a); [|congruence].
  destruct (i <? _); congruence.
Qed.

Lemma unit_ok_iff : forall p, (exists q, convert_to_unit_weights p = (Ok tt, q)) <->
  Forall (fun v => weight_is_int v = true) (voters p).
Proof.
  intro p. rewrite <- unit_copies_ok_iff. unfold convert_to_unit_weights. split.
  - intros [q H]. destruct (unit_copies (voters p)) as [us|]; [eauto|discriminate].
  - intros [us ->]. eauto.
Qed.
Lemma unit_raises : forall p, ~ Forall (fun v => weight_is_int v = true) (voters p) ->
  convert_to_unit_weights p = (Err TypeError, p).
Proof.
  intros p H. rewrite <- unit_copies_ok_iff in H. unfold convert_to_unit_weights.
  destruct (unit_copies (voters p)) as [us|e] eqn:E; [exfalso; eauto|].
  rewrite (unit_copies_err _ _ E). auto.
Qed.

Lemma weighted_distinct : forall ord p, (forall l, Permutation (ord l) l) -> wf p ->
  forall i j v u, i <> j -> nth_error (voters (convert_to_weighted ord p)) i = Some v ->
    nth_error (voters (convert_to_weighted ord p)) j = Some u ->
    ~ (forall c, In c (approved v) <-> In c (approved u)).
Proof.
  intros ord p Ho Hw i j v u Hne Hv Hu Hs. unfold convert_to_weighted in Hv, Hu. simpl in Hv, Hu.
  rewrite nth_error_map in Hv, Hu.
  set (keys := ord (nodup list_eq_dec_nat (map (fun v => isort (approved v)) (voters p)))) in *.
  assert (Hk : NoDup keys) by (eapply Permutation_NoDup; [apply Permutation_sym, Ho|apply NoDup_nodup]).
  assert (Ha : forall a, In a keys -> ascending a).
  { intros a Hin. eapply Permutation_in in Hin; [|apply Ho]. apply nodup_In in Hin.
    apply in_map_iff in Hin as (x & <- & Hx). apply isort_ascending. destruct Hw as [_ Hw].
    rewrite Forall_forall in Hw. apply (Hw x Hx). }
  destruct (nth_error keys i) as [a|] eqn:Ea; [|discriminate].
  destruct (nth_error keys j) as [b|] eqn:Eb; [|discriminate]. simpl in Hv, Hu. inversion Hv; inversion Hu; subst.
  simpl in Hs. apply Hne. rewrite NoDup_nth_error in Hk. apply Hk.
  - apply nth_error_Some. congruence.
  - rewrite Ea, Eb. f_equal. apply nth_error_In in Ea, Eb. apply ascending_ext; auto.
Qed.

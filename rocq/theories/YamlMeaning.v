(** * What an .abc.yaml file means *)
From Coq Require Import String Ascii.
From Coq Require Import List Arith Bool ZArith QArith Lia Lqa Permutation Sorted.
From Verif Require Import Prelude Misc MiscProofs Preferences Spec PrefProofs FileIO SpecFile FileProofs YamlProofs.
Import ListNotations.
Local Open Scope string_scope.
Open Scope nat_scope.
Local Open Scope list_scope.

Lemma py_int_iff : forall y z, py_int y = Ok z <-> yaml_integer y z.
Proof.
  intros y z. unfold yaml_integer. split.
  - intros H. destruct y; cbn in H; try discriminate.
    + right. destruct b; inversion H; auto.
    + left. exists q, isint. split; auto. inversion H as [E]. clear H. destruct q as [a b]. cbn [Qnum Qden] in *.
      unfold Qle, Qlt, inject_Z. cbn [Qnum Qden]. rewrite !Z.mul_1_r.
      pose proof (Z.quot_rem' a (Zpos b)) as D. split; intros Hs.
      * assert (0 <= a)%Z by lia. pose proof (Z.rem_bound_pos a (Zpos b) H (Pos2Z.is_pos b)). rewrite E in *. split; nia.
      * assert (a < 0)%Z by lia. rewrite E in *.
        assert (- Z.pos b < Z.rem a (Z.pos b) <= 0)%Z by (apply Z.rem_bound_pos_neg; lia). split; nia.
  - intros [(q & i & -> & H1 & H2)|[[-> ->]|[-> ->]]]; [|reflexivity|reflexivity]. cbn. f_equal.
    destruct q as [a b]. unfold Qle, Qlt, inject_Z in *. cbn [Qnum Qden] in *. rewrite !Z.mul_1_r, ?Z.mul_1_l in *.
    pose proof (Z.quot_rem' a (Zpos b)) as D. destruct (Z_lt_le_dec a 0) as [Ha|Ha].
    + destruct H2 as [X Y]; [lia|]. assert (- Z.pos b < Z.rem a (Z.pos b) <= 0)%Z by (apply Z.rem_bound_pos_neg; lia). nia.
    + destruct H1 as [X Y]; [lia|]. pose proof (Z.rem_bound_pos a (Zpos b) Ha (Pos2Z.is_pos b)). nia.
Qed.

Lemma py_cand_iff : forall y i c, plain y -> py_cand i y = PyInt (Z.of_nat c) <-> yaml_candidate y c.
Proof.
  intros y i c P. unfold yaml_candidate. split.
  - intros H. destruct y as [|b|q isint| | |]; cbn in H; try discriminate.
    + right. destruct b; inversion H as [E]; [left|right]; split; auto; lia.
    + left. destruct isint; [|discriminate]. inversion H as [E]. destruct P as [P1 P2]. specialize (P2 eq_refl).
      destruct q as [a b]. cbn [Qnum Qden] in *. subst b. rewrite Z.quot_1_r. reflexivity.
  - intros [->|[[-> ->]|[-> ->]]]; cbn; auto. rewrite Z.quot_1_r. auto.
Qed.
Lemma py_cand_list_iff : forall y A, plain y -> py_cand_list y = Ok (py_cands A) <-> yaml_candidates y A.
Proof.
  intros y A P. unfold yaml_candidates, py_cand_list. destruct y as [| | | |l|]; cbn [py_list rbind];
    try (split; [discriminate|intros (l & E & _); discriminate]).
  apply plain_list in P.
  assert (K : map (fun iy => py_cand (fst iy) (snd iy)) (combine (seq 0 (length l)) l) = py_cands A <-> Forall2 yaml_candidate l A).
  { unfold py_cands. generalize 0. revert A. induction P as [|y l Py P IH]; intros A i; cbn.
    - split; [intros H; destruct A; [constructor|discriminate]|intros H; inversion H; auto].
    - destruct A as [|c A]; cbn; [split; [discriminate|intros H; inversion H]|]. split.
      + intros H. injection H as H1 H2. constructor; [apply (py_cand_iff y i c Py); auto|eapply IH; eauto].
      + intros H. inversion H; subst. f_equal; [apply py_cand_iff; auto|apply IH; auto]. }
  split.
  - intros H. injection H as H. exists l. split; auto. apply K; auto.
  - intros (l' & E & F). inversion E; subst. f_equal. apply K; auto.
Qed.
Lemma ballots_iff : forall l As, Forall plain l -> rmapM py_cand_list l = Ok (map py_cands As) <-> Forall2 yaml_candidates l As.
Proof.
  intros l As P. rewrite rmapM_Forall2. revert As. induction P as [|y l Py P IH]; intros As.
  - destruct As; cbn; split; intros H; inversion H; constructor.
  - destruct As as [|A As]; cbn; [split; intros H; inversion H|].
    split; intros H; inversion H; subst; constructor; auto; try (apply py_cand_list_iff; auto); apply IH; auto.
Qed.

(** ** The voters *)
Lemma wf_add : forall p v, wf p -> wf_voter (num_cand p) v -> wf (with_voters p (voters p ++ [v])).
Proof. intros p v [A B] H. split; auto. cbn. apply Forall_app. auto. Qed.
Lemma add_voters_given : forall sets p q, wf p -> add_voters p (map ArgSet sets) = (Ok tt, q) ->
  exists vs, q = with_voters p (voters p ++ vs) /\ sets = map (fun v => py_cands (approved v)) vs /\
    Forall (wf_voter (num_cand p)) vs /\ Forall (fun v => weight v = 1%Q /\ weight_is_int v = true) vs.
Proof.
  induction sets as [|s sets IH]; intros p q Hw H; cbn [map add_voters] in H.
  - inversion H; subst. exists []. rewrite app_nil_r. destruct q; repeat split; auto.
  - unfold add_voter in H. cbn [unique_voter] in H.
    destruct (voter_new s 1 true (Some (Z.of_nat (num_cand p)))) as [v|] eqn:E; [|discriminate].
    apply voter_new_ok in E as (Wv & A & B & C).
    destruct (IH _ q (wf_add p v Hw Wv) H) as (vs & -> & -> & F1 & F2). exists (v :: vs). cbn [with_voters voters num_cand cand_names].
    split; [unfold with_voters; cbn; rewrite <- app_assoc; auto|]. split; [cbn; f_equal; exact C|]. split; constructor; auto.
Qed.
Lemma add_weighted_given : forall l p q, wf p -> add_weighted p l = Ok q ->
  exists vs, q = with_voters p (voters p ++ vs) /\ l = map (fun v => (py_cands (approved v), YNum (weight v) (weight_is_int v))) vs /\
    Forall (wf_voter (num_cand p)) vs.
Proof.
  induction l as [|[s w] l IH]; intros p q Hw H; cbn [add_weighted] in H.
  - inversion H; subst. exists []. rewrite app_nil_r. destruct q; repeat split; auto.
  - destruct w as [| |x i| | |]; try discriminate. destruct (voter_new s x i None) as [u|] eqn:Eu; [|discriminate]. cbn [rbind] in H.
    unfold add_voter in H. cbn [unique_voter] in H.
    destruct (voter_new (map (fun c => PyInt (Z.of_nat c)) (approved u)) (weight u) (weight_is_int u) (Some (Z.of_nat (num_cand p)))) as [v|] eqn:E; [|discriminate].
    assert (U : s = py_cands (approved u) /\ weight u = x /\ weight_is_int u = i).
    { unfold voter_new in Eu. destruct (candidate_set_new s None) as [a|] eqn:Ea; [|discriminate]. cbn [rbind] in Eu.
      destruct (Qle_bool x 0); [discriminate|]. inversion Eu; subst. cbn. apply candidate_set_new_ok in Ea as (_ & Ea & _). auto. }
    destruct U as (-> & <- & <-). apply voter_new_ok in E as (Wv & A & B & C).
    destruct (IH _ q (wf_add p v Hw Wv) H) as (vs & -> & -> & F1). exists (v :: vs). cbn [with_voters voters num_cand cand_names].
    split; [unfold with_voters; cbn; rewrite <- app_assoc; auto|]. split; [|constructor; auto].
    cbn. f_equal. rewrite A, B. f_equal. exact C.
Qed.
Lemma add_weighted_accepts : forall vs p, wf p -> Forall (wf_voter (num_cand p)) vs ->
  add_weighted p (map (fun v => (py_cands (approved v), YNum (weight v) (weight_is_int v))) vs) = Ok (with_voters p (voters p ++ vs)).
Proof.
  induction vs as [|v vs IH]; intros p Hw Hv.
  - cbn. rewrite app_nil_r. destruct p; auto.
  - inversion Hv as [|? ? Wv Hv']; subst. destruct Wv as (Hn & Hr & Hpos). cbn [map add_weighted].
    unfold voter_new at 1, py_cands at 1. rewrite candidate_set_new_accepts by (auto; discriminate). cbn [rbind].
    apply Qle_bool_false in Hpos as E. rewrite E. cbn [rbind].
    unfold add_voter, unique_voter. cbn [approved weight weight_is_int].
    rewrite voter_new_accepts by (repeat split; auto).
    rewrite IH; [unfold with_voters; cbn; rewrite <- app_assoc; auto| |auto].
    apply wf_add; auto. repeat split; auto.
Qed.

(** ** The number of candidates *)
Lemma fold_max : forall l a, (forall x, In x l -> x <= fold_left Z.max l a)%Z /\ (a <= fold_left Z.max l a)%Z /\
  (fold_left Z.max l a = a \/ In (fold_left Z.max l a) l).
Proof.
  induction l as [|y l IH]; intros a; cbn [fold_left].
  - split; [intros x []|]. split; [lia|auto].
  - destruct (IH (Z.max a y)) as (H1 & H2 & H3). split; [|split].
    + intros x [->|Hx]; [lia|auto].
    + lia.
    + destruct H3 as [H3|H3]; [|right; right; auto]. destruct (Z.max_spec a y) as [[_ E]|[_ E]]; rewrite E in *; [right; left; auto|auto].
Qed.
Lemma max_cand_iff : forall As m, (forall A, In A As -> Forall (fun c => c < m) A) -> 0 < m ->
  max_cand (map py_cands As) = Ok (Z.of_nat m) <-> exists A, In A As /\ In (m - 1) A.
Proof.
  intros As m Hr Hm.
  assert (C : concat (map py_cands As) = py_cands (concat As)).
  { induction As as [|A As IH]; auto. cbn. rewrite IH; [|intros B HB; apply Hr; right; auto]. unfold py_cands. rewrite map_app. auto. }
  assert (Hr' : Forall (fun c => c < m) (concat As)).
  { apply Forall_forall. intros c Hc. apply in_concat in Hc as (A & HA & Hc). specialize (Hr A HA). rewrite Forall_forall in Hr. auto. }
  assert (Ex : (exists A, In A As /\ In (m - 1) A) <-> In (m - 1) (concat As)).
  { rewrite in_concat. reflexivity. }
  rewrite Ex. unfold max_cand. rewrite C. clear C Ex Hr.
  revert Hr'. generalize (concat As). clear As. intros l Hr. destruct l as [|c l]; cbn [py_cands map]; [split; [discriminate|intros []]|].
  change (map (fun c : nat => PyInt (Z.of_nat c)) l) with (py_cands l). cbn [forallb is_int andb int_val].
  assert (forallb is_int (py_cands l) = true) as -> by (unfold py_cands; apply forallb_forall; intros x Hx; apply in_map_iff in Hx as (y & <- & _); auto).
  assert (map int_val (py_cands l) = map Z.of_nat l) as -> by (unfold py_cands; rewrite map_map; apply map_ext; auto).
  destruct (fold_max (map Z.of_nat l) (Z.of_nat c)) as (H1 & H2 & H3). set (M := fold_left Z.max (map Z.of_nat l) (Z.of_nat c)) in *.
  inversion Hr; subst. rewrite Forall_forall in H5. split.
  - intros E. inversion E as [E']. destruct H3 as [H3|H3]; [left; lia|]. apply in_map_iff in H3 as (x & Ex & Hx). right.
    replace (m - 1) with x by lia. auto.
  - intros [E|E].
    + f_equal. destruct H3 as [H3|H3]; [lia|]. apply in_map_iff in H3 as (x & Ex & Hx). specialize (H5 x Hx). lia.
    + f_equal. specialize (H1 (Z.of_nat (m - 1)) (in_map _ _ _ E)). destruct H3 as [H3|H3]; [lia|].
      apply in_map_iff in H3 as (x & Ex & Hx). specialize (H5 x Hx). lia.
Qed.

(** ** The profile *)
Lemma get_plain : forall data k y, plain (YDict data) -> get k data = Some y -> plain y.
Proof.
  intros data k y P E. apply plain_dict in P as [_ P]. rewrite Forall_forall in P. exact (P _ (get_In _ _ _ _ E)).
Qed.
Lemma map_approved : forall vs, map (fun v => py_cands (approved v)) vs = map py_cands (map approved vs).
Proof. intros. rewrite map_map. auto. Qed.
Lemma combine_split_eq : forall (A B C : Type) (f : C -> A) (g : C -> B) l1 l2 vs, length l1 = length l2 ->
  combine l1 l2 = map (fun v => (f v, g v)) vs -> l1 = map f vs /\ l2 = map g vs.
Proof.
  induction l1 as [|a l1 IH]; intros [|b l2] [|v vs] L E; try discriminate; auto.
  cbn in E. inversion E; subst. destruct (IH l2 vs) as [-> ->]; auto.
Qed.
Lemma combine_maps : forall (A B C : Type) (f : C -> A) (g : C -> B) vs, combine (map f vs) (map g vs) = map (fun v => (f v, g v)) vs.
Proof. induction vs as [|v vs IH]; auto. cbn. rewrite IH. auto. Qed.

Lemma yaml_profile_iff : forall data p, plain (YDict data) ->
  yaml_profile data = Ok p <-> wf p /\ file_profile data p.
Proof.
  intros data p P. split.
  - intros H. pose proof (yaml_profile_wf _ _ H) as W. split; auto. unfold yaml_profile in H.
    destruct (get "profile" data) as [y|] eqn:Ey; [|discriminate].
    destruct y as [| | | |ballots|]; try discriminate. cbn [py_list rbind] in H.
    destruct (rmapM py_cand_list ballots) as [sets|] eqn:Es; [|discriminate]. cbn [rbind] in H.
    match type of H with rbind ?X _ = _ => destruct X as [nc|] eqn:En; [|discriminate] end. cbn [rbind] in H.
    destruct (profile_new nc None) as [p0|] eqn:E0; [|discriminate]. cbn [rbind] in H.
    unfold profile_new in E0. destruct (Z.leb_spec nc 0); [discriminate|]. inversion E0 as [E0']. clear E0.
    assert (W0 : wf p0). { subst p0. split; cbn; [lia|constructor]. }
    assert (V : exists vs, p = with_voters p0 vs /\ sets = map (fun v => py_cands (approved v)) vs /\
      match get "voter_weights" data with
      | Some w => w = YList (map (fun v => YNum (weight v) (weight_is_int v)) vs)
      | None => Forall (fun v => weight v = 1%Q /\ weight_is_int v = true) vs end).
    { destruct (get "voter_weights" data) as [w|].
      - destruct (py_list w) as [ws|] eqn:Ew; [|discriminate]. cbn [rbind] in H. destruct w; try discriminate. inversion Ew; subst ws.
        destruct (Nat.eqb_spec (length l) (length sets)) as [L|L]; [|discriminate]. cbn [negb] in H.
        destruct (add_weighted_given _ _ _ W0 H) as (vs & -> & E & F). exists vs. subst p0. split; auto.
        destruct (combine_split_eq _ _ _ _ _ _ _ _ (eq_sym L) E) as [-> ->]. auto.
      - destruct (add_voters p0 (map ArgSet sets)) as [[[]|e] q] eqn:Ea; [|discriminate]. inversion H; subst q.
        destruct (add_voters_given _ _ _ W0 Ea) as (vs & -> & E & F1 & F2). exists vs. subst p0. auto. }
    destruct V as (vs & -> & -> & Hw). clear H.
    assert (Nc : num_cand p0 = Z.to_nat nc /\ cand_names p0 = map str_nat (seq 0 (Z.to_nat nc))) by (subst p0; auto).
    destruct Nc as [Nc1 Nc2]. unfold file_profile. cbn [with_voters cand_names num_cand voters].
    split; [rewrite Nc1; exact Nc2|]. split.
    { exists ballots. split; auto. apply ballots_iff.
      - apply plain_list. apply (get_plain _ _ _ P Ey).
      - rewrite Es, map_approved. auto. }
    split; [exact Hw|]. destruct (get "num_cand" data) as [n|].
    + apply py_int_iff. rewrite En, Nc1. f_equal. lia.
    + assert (Ex : exists A, In A (map approved vs) /\ In (num_cand p0 - 1) A).
      { apply max_cand_iff.
        - intros A HA. apply in_map_iff in HA as (v & <- & Hv). destruct W as [_ W]. cbn in W. rewrite Forall_forall in W. apply (W v Hv).
        - lia.
        - rewrite <- map_approved, En, Nc1. f_equal. lia. }
      destruct Ex as (A & HA & Hm). apply in_map_iff in HA as (v & <- & Hv). exists v. auto.
  - intros (W & Hn & (ballots & Eb & Fb) & Hw & Hc). unfold yaml_profile. rewrite Eb. cbn [py_list rbind].
    assert (Es : rmapM py_cand_list ballots = Ok (map py_cands (map approved (voters p)))).
    { apply ballots_iff; auto. apply plain_list. apply (get_plain _ _ _ P Eb). }
    rewrite Es. cbn [rbind]. destruct W as [Wm Wv].
    assert (En : match get "num_cand" data with Some n => py_int n | None => max_cand (map py_cands (map approved (voters p))) end = Ok (Z.of_nat (num_cand p))).
    { destruct (get "num_cand" data) as [n|]; [apply py_int_iff; auto|]. apply max_cand_iff.
      - intros A HA. apply in_map_iff in HA as (v & <- & Hv). rewrite Forall_forall in Wv. apply (Wv v Hv).
      - lia.
      - destruct Hc as (v & Hv & Hm). exists (approved v). split; auto. apply in_map; auto. }
    rewrite En. cbn [rbind]. unfold profile_new. destruct (Z.leb_spec (Z.of_nat (num_cand p)) 0); [lia|]. cbn [rbind]. rewrite Nat2Z.id.
    set (p0 := mkProfile (num_cand p) (map str_nat (seq 0 (num_cand p))) []).
    assert (W0 : wf p0) by (split; cbn; auto).
    assert (Ep : p = with_voters p0 (voters p0 ++ voters p)).
    { unfold with_voters, p0. cbn. rewrite <- Hn. destruct p; auto. }
    destruct (get "voter_weights" data) as [w|].
    + subst w. cbn [py_list rbind]. rewrite !map_length, Nat.eqb_refl. cbn [negb]. rewrite map_map, combine_maps.
      rewrite (add_weighted_accepts (voters p) p0 W0 Wv). rewrite <- Ep. auto.
    + rewrite map_map. rewrite (add_voters_sets (map approved (voters p)) p0 W0).
      * rewrite map_map. assert (map (fun v => mkVoter (approved v) 1 true) (voters p) = voters p) as ->; [|rewrite <- Ep; auto].
        clear -Hw. induction Hw as [|v vs [A B] F IH]; auto. cbn. rewrite IH. f_equal. destruct v; cbn in *; subst; auto.
      * clear -Wv. subst p0. cbn. induction Wv as [|v vs (A & B & _) F IH]; constructor; auto.
Qed.

(** ** The compute instances *)
Lemma sets_none_iff : forall l cs, Forall plain l ->
  rmapM (fun c => do s <- py_cand_list c; candidate_set_new s None) l = Ok cs <-> Forall2 yaml_candidates l cs /\ Forall (@NoDup nat) cs.
Proof.
  intros l cs P. rewrite rmapM_Forall2. revert cs.
  assert (K : forall y A, plain y -> (do s <- py_cand_list y; candidate_set_new s None) = Ok A <-> yaml_candidates y A /\ NoDup A).
  { intros y A Py. split.
    - intros H. destruct (py_cand_list y) as [s|] eqn:E; [|discriminate]. cbn [rbind] in H. apply candidate_set_new_ok in H as (N & -> & _).
      split; auto. apply py_cand_list_iff; auto.
    - intros [Y N]. apply py_cand_list_iff in Y; auto. rewrite Y. cbn [rbind]. apply candidate_set_new_accepts; auto. discriminate. }
  induction P as [|y l Py P IH]; intros cs.
  - split; [intros H; inversion H; split; constructor|intros [H _]; inversion H; constructor].
  - split.
    + intros H. inversion H; subst. apply K in H2 as [A B]; auto. apply IH in H4 as [C D]. split; constructor; auto.
    + intros [H N]. inversion H; subst. inversion N; subst. constructor; [apply K; auto|apply IH; auto].
Qed.

Lemma read_instance_meaning : forall p k y c, plain y -> read_compute_instance p k y = Ok c -> file_instance p k y c.
Proof.
  intros p k y c P H. destruct y as [| | | | |d]; try discriminate. cbn [read_compute_instance] in H.
  destruct (get "rule_id" d) as [r|] eqn:Er; [|discriminate].
  match type of H with context[put "committeesize" ?a (put "profile" ?b ?m)] => set (c0 := put "committeesize" a (put "profile" b m)) in H end.
  assert (G : forall key, key <> "profile" -> key <> "committeesize" -> get key c0 = option_map PData (get key d)).
  { intros key K1 K2. unfold c0. rewrite !get_put_other by auto. apply get_map. }
  assert (Gp : get "profile" c0 = Some (PProfile p)).
  { unfold c0. rewrite get_put_other by discriminate. apply get_put_same. }
  assert (Gk : get "committeesize" c0 = Some (PData (match k with Some z => YNum (inject_Z z) true | None => YNull end))) by apply get_put_same.
  exists d. split; auto. split; [congruence|]. destruct (get "result" d) as [ry|] eqn:Ed.
  - destruct (read_result ry) as [r'|] eqn:Ev; [|discriminate]. cbn [rbind] in H. injection H as <-.
    split; [intros key K1 K2 K3; rewrite get_put_other by auto; auto|].
    rewrite !get_put_other by discriminate. split; auto. split; auto. rewrite get_put_same.
    destruct ry as [| | | |l|]; try discriminate Ev.
    + inversion Ev. auto.
    + cbn [read_result] in Ev.
      destruct (rmapM (fun c => do s <- py_cand_list c; candidate_set_new s None) l) as [cs|] eqn:Ec; [|discriminate]. inversion Ev; subst.
      exists l, cs. split; auto. split; auto. apply sets_none_iff in Ec; auto. apply plain_list. apply (get_plain _ _ _ P Ed).
  - injection H as <-. split; [auto|]. split; auto. split; auto. rewrite G by discriminate. rewrite Ed. auto.
Qed.
Lemma read_instance_accepts : forall p k y c, plain y -> file_instance p k y c -> exists c', read_compute_instance p k y = Ok c'.
Proof.
  intros p k y c P (d & -> & Hr & _ & _ & _ & H). cbn [read_compute_instance]. destruct (get "rule_id" d); [|congruence].
  destruct (get "result" d) as [ry|] eqn:Ed; [|eauto].
  destruct ry as [| | | |l|]; try (destruct H as (l' & cs & E & _); discriminate); [cbn; eauto|].
  destruct H as (l' & cs & E & _ & H). inversion E; subst l'. cbn [read_result].
  assert (rmapM (fun c => do s <- py_cand_list c; candidate_set_new s None) l = Ok cs) as ->; [|cbn; eauto].
  apply sets_none_iff; auto. apply plain_list. apply (get_plain _ _ _ P Ed).
Qed.

Lemma valid_keys_iff : forall data : list (string * yval),
  forallb (fun kx => existsb (String.eqb (fst kx)) ABC_YAML_VALID_KEYS) data = true <->
  forall key v, In (key, v) data -> In key ABC_YAML_VALID_KEYS.
Proof.
  intros data. rewrite forallb_forall. split.
  - intros H key v Hin. specialize (H _ Hin). apply existsb_exists in H as (x & Hx & Ex). apply String.eqb_eq in Ex. cbn in Ex. subst. auto.
  - intros H [key v] Hin. apply existsb_exists. exists key. split; [eapply H; eauto|apply String.eqb_refl].
Qed.

Theorem read_yaml_meaning : forall y p k insts, plain y -> read_abcvoting_yaml_data y = Ok (p, k, insts) ->
  exists data entries, y = YDict data /\ file_means data p k /\ file_entries data entries /\ Forall2 (file_instance p k) entries insts.
Proof.
  intros y p k insts P H. unfold read_abcvoting_yaml_data in H. destruct y as [| | | | |data]; try discriminate.
  destruct (yaml_profile data) as [p0|] eqn:E1; [|discriminate]. cbn [rbind] in H.
  match type of H with rbind ?X _ = _ => destruct X as [k0|] eqn:E2; [|discriminate] end. cbn [rbind] in H.
  match type of H with rbind ?X _ = _ => destruct X as [insts0|] eqn:E3; [|discriminate] end. cbn [rbind] in H.
  destruct (forallb _ data) eqn:E4; [|discriminate]. inversion H; subst. clear H.
  apply yaml_profile_iff in E1 as [W F]; auto. pose proof (proj1 (valid_keys_iff data) E4) as K4. exists data.
  assert (X : file_means data p k).
  { split; auto. split; auto. split; auto. destruct (get "committeesize" data) as [n|]; [|inversion E2; auto].
    destruct (py_int n) as [z|] eqn:Ez; [|discriminate]. inversion E2. exists z. split; auto. apply py_int_iff; auto. }
  unfold file_entries. destruct (get "compute" data) as [c|] eqn:Ec.
  - destruct c as [| | | |l|]; try discriminate. cbn [py_list rbind] in E3. exists l. split; auto. split; auto. split; auto.
    apply rmapM_Forall2 in E3. pose proof (get_plain _ _ _ P Ec) as Pl. apply plain_list in Pl.
    clear -E3 Pl. induction E3 as [|y c l insts E F IH]; constructor; inversion Pl; subst; auto. apply read_instance_meaning; auto.
  - inversion E3; subst. exists []. split; auto.
Qed.

Theorem read_yaml_accepts : forall data entries p k, plain (YDict data) -> file_means data p k -> file_entries data entries ->
  Forall (fun y => exists c, file_instance p k y c) entries ->
  exists insts, read_abcvoting_yaml_data (YDict data) = Ok (p, k, insts).
Proof.
  intros data entries p k P (W & F & K & S) He Hi. unfold read_abcvoting_yaml_data.
  assert (yaml_profile data = Ok p) as -> by (apply yaml_profile_iff; auto). cbn [rbind].
  assert (match get "committeesize" data with Some n => rmap Some (py_int n) | None => Ok None end = Ok k) as ->.
  { destruct (get "committeesize" data) as [n|]; [|subst; auto]. destruct S as (z & -> & Hz). apply py_int_iff in Hz. rewrite Hz. auto. }
  cbn [rbind].
  assert (exists insts, match get "compute" data with Some c => do l <- py_list c; rmapM (read_compute_instance p k) l | None => Ok [] end = Ok insts) as [insts ->].
  { unfold file_entries in He. destruct (get "compute" data) as [c|] eqn:Ec; [|eauto]. subst c. cbn [py_list rbind].
    pose proof (get_plain _ _ _ P Ec) as Pl. apply plain_list in Pl. clear -Pl Hi.
    induction Hi as [|y l [c Hc] Hi IH]; [cbn; eauto|]. inversion Pl; subst. cbn [rmapM].
    destruct (read_instance_accepts p k y c) as [c' ->]; auto. cbn [rbind]. destruct IH as [insts ->]; auto. cbn. eauto. }
  cbn [rbind]. rewrite (proj2 (valid_keys_iff data) K). eauto.
Qed.

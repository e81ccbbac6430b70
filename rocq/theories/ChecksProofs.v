(** * The checks of Checks.v decide the axioms of SpecAxioms.v *)
From Coq Require Import String.
From Coq Require Import List Arith Bool ZArith QArith Lia Lqa Qround Permutation Sorted.
From Verif Require Import Prelude Misc MiscProofs Preferences Spec ScoresProofs PrefProofs Checks SpecAxioms.
Import ListNotations.
Open Scope nat_scope.

(** ** sums over groups *)
Lemma group_weight_eq : forall p g, (group_weight p g == gweight p g)%Q.
Proof.
  intros p g. unfold group_weight.
  assert (E : forall g a, (fold_left (fun s i => s + weight (voter_at p i)) g a == a + gweight p g)%Q).
  { clear g. induction g as [|i g IH]; intro a; simpl.
    - unfold gweight; simpl. ring.
    - rewrite IH. unfold gweight; simpl. unfold voter_weight, voter_at. ring. }
  rewrite E. ring.
Qed.

Lemma Qsum_incl : forall (A:Type) (f : A -> Q) s g, NoDup s -> incl s g -> NoDup g -> (forall x, In x g -> 0 <= f x)%Q ->
  (Qsum (map f s) <= Qsum (map f g))%Q.
Proof.
  intros A f s. induction s as [|x s IH]; intros g Hs Hi Hg Hf.
  - simpl. apply Qsum_map_nonneg; auto.
  - inversion Hs; subst. assert (Hx : In x g) by (apply Hi; left; auto).
    apply in_split in Hx as (g1 & g2 & ->).
    assert (P : Permutation (g1 ++ x :: g2) (x :: g1 ++ g2)) by (apply Permutation_sym, Permutation_middle).
    rewrite (Qsum_perm _ _ (Permutation_map f P)). cbn [map]. unfold Qsum; cbn [fold_right]; fold (Qsum (map f s)); fold (Qsum (map f (g1 ++ g2))).
    assert (Hg' : NoDup (x :: g1 ++ g2)) by (eapply Permutation_NoDup; eauto). inversion Hg'; subst.
    specialize (IH (g1 ++ g2) H2). assert (Qsum (map f s) <= Qsum (map f (g1 ++ g2)))%Q; [|lra].
    apply IH; auto.
    + intros y Hy. assert (Hy' : In y (g1 ++ x :: g2)) by (apply Hi; right; auto).
      apply in_app_iff in Hy' as [|[<-|]]; [apply in_or_app; auto|contradiction|apply in_or_app; auto].
    + intros y Hy. apply Hf. apply in_app_iff in Hy as []; apply in_or_app; simpl; auto.
Qed.

Lemma voter_weight_pos : forall p i, wf p -> i < length (voters p) -> (0 < voter_weight p i)%Q.
Proof.
  intros p i [_ H] Hi. rewrite Forall_forall in H. unfold voter_weight. apply H. apply nth_In; auto.
Qed.

Lemma gweight_incl : forall p S G, wf p -> NoDup S -> incl S G -> NoDup G -> Forall (fun i => i < length (voters p)) G ->
  (gweight p S <= gweight p G)%Q.
Proof.
  intros p S G Hw Hs Hi Hg Hb. apply Qsum_incl; auto. intros x Hx. rewrite Forall_forall in Hb.
  apply Qlt_le_weak, voter_weight_pos; auto.
Qed.

Lemma map_nth_seq : forall (A:Type) (l : list A) d, map (fun i => nth i l d) (seq 0 (length l)) = l.
Proof.
  intros A l d. induction l as [|a l IH]; auto. simpl. rewrite <- seq_shift, map_map. simpl. f_equal. exact IH.
Qed.

Lemma gweight_all : forall p, gweight p (indices p) = wsum (voters p).
Proof.
  intro p. unfold gweight, wsum, indices, voter_weight. rewrite <- map_map with (g := weight).
  rewrite map_nth_seq. reflexivity.
Qed.

Lemma in_indices : forall p i, In i (indices p) <-> i < length (voters p).
Proof. intros. unfold indices. rewrite in_seq. lia. Qed.
Lemma indices_NoDup : forall p, NoDup (indices p).
Proof. intros. apply seq_NoDup. Qed.
Lemma filter_indices : forall p f, NoDup (filter f (indices p)) /\
  Forall (fun i => i < length (voters p)) (filter f (indices p)).
Proof.
  intros. split; [apply NoDup_filter, indices_NoDup|]. apply Forall_forall. intros i Hi.
  apply filter_In in Hi as [Hi _]. apply in_indices; auto.
Qed.

Lemma group_le_total : forall p S, wf p -> is_group p S -> (gweight p S <= wsum (voters p))%Q.
Proof.
  intros p S Hw (_ & Hn & Hb). rewrite <- gweight_all. apply gweight_incl; auto.
  - intros i Hi. rewrite Forall_forall in Hb. apply in_indices; auto.
  - apply indices_NoDup.
  - apply Forall_forall. intros. apply in_indices; auto.
Qed.

Lemma gweight_pos_ne : forall p S, (0 < gweight p S)%Q -> S <> [].
Proof. intros p S H ->. unfold gweight in H. simpl in H. lra. Qed.

(** a voter-filter is the largest group with that property *)
Lemma exists_group : forall p (f : nat -> bool) x, wf p -> (0 < x)%Q ->
  ((x <= gweight p (filter f (indices p)))%Q <->
   exists S, is_group p S /\ (x <= gweight p S)%Q /\ forall i, In i S -> f i = true).
Proof.
  intros p f x Hw Hx. destruct (filter_indices p f) as [Hn Hb]. split.
  - intro H. exists (filter f (indices p)). split; [|split; auto].
    + split; auto. apply (gweight_pos_ne p). lra.
    + intros i Hi. apply filter_In in Hi as [_ Hi]. auto.
  - intros (S & (Hne & Hs & Hbs) & H & Hf). eapply Qle_trans; [exact H|]. apply gweight_incl; auto.
    intros i Hi. apply filter_In. split; auto. apply in_indices. rewrite Forall_forall in Hbs. auto.
Qed.

(** ** quota and validation *)
Lemma quota_default : forall p W, W <> [] -> exists q, quota_of p W None = Ok q /\ (q == default_quota p (length W))%Q.
Proof.
  intros p W H. unfold quota_of. destruct (Nat.eqb_spec (length W) 0) as [E|E].
  - destruct W; [congruence|discriminate].
  - eexists. split; [reflexivity|]. unfold default_quota. rewrite total_weight_wsum. reflexivity.
Qed.

Lemma checked_ok : forall p W, cand_set p W -> checked_committee p W = Ok W.
Proof.
  intros p W [Hn Hb]. apply candidate_set_new_accepts; auto. intros m Hm. inversion Hm; subst.
  eapply Forall_impl; [|exact Hb]. simpl. intros. lia.
Qed.

Lemma checked_err : forall p W, ~ cand_set p W -> exists e, checked_committee p W = Err e.
Proof.
  intros p W H. destruct (checked_committee p W) as [s|e] eqn:E; eauto. exfalso. apply H.
  apply candidate_set_new_ok in E as (A & B & C).
  assert (W = s).
  { clear -B. revert s B. induction W as [|x W IH]; intros [|y s] B; simpl in B; try discriminate; auto.
    inversion B. apply Nat2Z.inj in H0. f_equal; auto. }
  subst s. split; auto. eapply Forall_impl; [|apply (C _ eq_refl)]. simpl. intros. lia.
Qed.

Lemma upper_bound_spec : forall p q, (0 < q)%Q -> (0 <= total_weight p)%Q ->
  exists ub, upper_bound p q = Ok ub /\ (0 <= ub)%Z /\
    forall l : nat, (Qnat l * q <= wsum (voters p))%Q <-> (Z.of_nat l <= ub)%Z.
Proof.
  intros p q Hq Ht. unfold upper_bound.
  destruct (Qeq_bool q 0) eqn:E; [apply Qeq_bool_iff in E; lra|].
  set (x := (total_weight p / q)%Q). eexists. split; [reflexivity|].
  assert (Hx : (0 <= x)%Q) by (unfold x; apply Qle_shift_div_l; lra).
  assert (Hn : (0 <= Qnum x)%Z) by (clearbody x; unfold Qle in Hx; simpl in Hx; lia).
  rewrite Z.quot_div_nonneg by lia. split; [apply Z.div_pos; lia|].
  intro l. fold (Qfloor x).
  assert (F : (Qnum x / QDen x)%Z = Qfloor x) by (destruct x; reflexivity). rewrite F.
  assert (G : (Qnat l * q <= wsum (voters p))%Q <-> (Qnat l <= x)%Q).
  { rewrite <- total_weight_wsum. unfold x. split; intro H.
    - apply Qle_shift_div_l; auto.
    - assert (Hm : (Qnat l * q <= total_weight p / q * q)%Q) by (apply Qmult_le_compat_r; lra).
      assert (Em : (total_weight p / q * q == total_weight p)%Q) by (field; lra). lra. }
  rewrite G. unfold Qnat. split; intro H.
  - rewrite <- (Qfloor_Z (Z.of_nat l)). apply Qfloor_resp_le. auto.
  - eapply Qle_trans; [|apply Qfloor_le]. rewrite <- Zle_Qle. auto.
Qed.

Lemma total_nonneg : forall p, wf p -> (0 <= wsum (voters p))%Q.
Proof.
  intros p [_ H]. unfold wsum. apply Qsum_map_nonneg. intros v Hv. rewrite Forall_forall in H.
  apply Qlt_le_weak. apply (H v Hv).
Qed.
Lemma total_pos : forall p, wf p -> voters p <> [] -> (0 < wsum (voters p))%Q.
Proof. intros p [_ H] Hne. eapply wsum_pos; eauto. Qed.

Lemma deserves_bound : forall p q S l ub, wf p -> is_group p S -> deserves p q S l ->
  (forall l : nat, (Qnat l * q <= wsum (voters p))%Q <-> (Z.of_nat l <= ub)%Z) -> l <= Z.to_nat ub.
Proof.
  intros p q S l ub Hw Hg Hd Hub. assert (Z.of_nat l <= ub)%Z; [|lia]. apply Hub.
  eapply Qle_trans; [exact Hd|]. apply group_le_total; auto.
Qed.

(** ** JR *)
Lemma approves_nil_iff : forall p i W, approves_in p i W = 0 <-> Nat.eqb (utility (voter_at p i) W) 0 = true.
Proof. intros. rewrite Nat.eqb_eq. reflexivity. Qed.

Lemma check_JR_core_exact : forall p W q, wf p -> (0 < q)%Q -> (check_JR_core p W q = true <-> JR p q W).
Proof.
  intros p W q Hw Hq. unfold check_JR_core. rewrite forallb_forall. unfold JR, JR_violation. split.
  - intros H S c (Hg & Hd & Hc & Ha & Hu). specialize (H c). rewrite negb_true_iff, Qle_bool_false in H.
    unfold candidates in H. rewrite in_seq in H. rewrite group_weight_eq in H.
    assert (q <= gweight p (filter (fun i => mem c (approved (voter_at p i)) &&
                                  Nat.eqb (utility (voter_at p i) W) 0) (indices p)))%Q; [|specialize (H ltac:(lia)); lra].
    apply exists_group; auto. exists S. split; auto. split.
    + unfold deserves in Hd. change (Qnat 1) with 1%Q in Hd. lra.
    + intros i Hi. apply andb_true_iff. split; [apply mem_In, (Ha i c Hi); left; auto|].
      apply approves_nil_iff; auto.
  - intros H c Hc. unfold candidates in Hc. apply in_seq in Hc. rewrite negb_true_iff, Qle_bool_false.
    rewrite group_weight_eq. apply Qnot_le_lt. intro Hle. apply exists_group in Hle as (S & Hg & Hd & Hf); auto.
    apply (H S c). split; auto. split; [unfold deserves; change (Qnat 1) with 1%Q; lra|]. split; [lia|].
    split.
    + intros i c' Hi [<-|[]]. specialize (Hf i Hi). apply andb_true_iff in Hf as [Hf _]. apply mem_In; auto.
    + intros i Hi. specialize (Hf i Hi). apply andb_true_iff in Hf as [_ Hf]. apply approves_nil_iff; auto.
Qed.

(** JR with equal quotas *)
Lemma JR_quota : forall p q q' W, (q == q')%Q -> JR p q W -> JR p q' W.
Proof.
  intros p q q' W E H S c (A & B & C). apply (H S c). split; auto. split; auto.
  unfold deserves in *. rewrite E. auto.
Qed.
Lemma deserves_quota : forall p q q' S l, (q == q')%Q -> deserves p q S l -> deserves p q' S l.
Proof. intros. unfold deserves in *. rewrite <- H. auto. Qed.
Lemma cohesive_quota : forall p q q' S l, (q == q')%Q -> cohesive p q S l -> cohesive p q' S l.
Proof. intros p q q' S l E (A & B & C & D). repeat split; try apply A; auto. eapply deserves_quota; eauto. Qed.
Lemma EJR_quota : forall p q q' W, (q == q')%Q -> EJR p q W -> EJR p q' W.
Proof. intros p q q' W E H S l Hc. apply H. eapply cohesive_quota; [symmetry|]; eauto. Qed.
Lemma PJR_quota : forall p q q' W, (q == q')%Q -> PJR p q W -> PJR p q' W.
Proof. intros p q q' W E H S l Hc. apply H. eapply cohesive_quota; [symmetry|]; eauto. Qed.
Lemma EJR_plus_quota : forall p q q' W, (q == q')%Q -> EJR_plus p q W -> EJR_plus p q' W.
Proof. intros p q q' W E H S l c A B C. apply (H S l c); auto. eapply deserves_quota; [symmetry|]; eauto. Qed.
Lemma FJR_quota : forall p q q' W, (q == q')%Q -> FJR p q W -> FJR p q' W.
Proof. intros p q q' W E H S T b A B C D F. apply (H S T b); auto. eapply deserves_quota; [symmetry|]; eauto. Qed.
Lemma core_quota : forall p q q' W, (q == q')%Q -> in_core p q W -> in_core p q' W.
Proof. intros p q q' W E H S T A B C. apply (H S T); auto. eapply deserves_quota; [symmetry|]; eauto. Qed.

(** ** Pareto *)
Lemma no_dominating_exact : forall p W others, NoDup W -> Forall (@NoDup nat) others ->
  exists b, no_dominating p W others = Ok b /\
   (b = true <-> forall W', In W' others -> ~ ((forall v, In v (voters p) -> util v W <= util v W') /\
       exists v, In v (voters p) /\ util v W < util v W')).
Proof.
  intros p W others Hn. induction others as [|o r IH]; intros Ho; simpl.
  - exists true. split; auto. split; [intros _ W' []|auto].
  - inversion Ho; subst. destruct (dominate_spec p o W H1 Hn) as (d & -> & Hd). simpl. destruct d.
    + exists false. split; auto. split; [discriminate|]. intro H. exfalso. apply (H o); [left; auto|]. apply Hd; auto.
    + destruct (IH H2) as (b & -> & Hb). exists b. split; auto. rewrite Hb. split.
      * intros H W' [<-|Hin]; [|auto]. intro K. apply Hd in K. discriminate.
      * intros H W' Hin. apply H. right; auto.
Qed.

Lemma check_pareto_exact : forall p W, NoDup W ->
  exists b, check_pareto_core p W = Ok b /\ (b = true <-> pareto_optimal p W).
Proof.
  intros p W Hn. unfold check_pareto_core.
  destruct (no_dominating_exact p W (combinations (candidates p) (length W)) Hn) as (b & E & H).
  { apply Forall_forall. intros c Hc. eapply combinations_NoDup_elem; [|exact Hc]. apply seq_NoDup. }
  exists b. split; auto. rewrite H. unfold pareto_optimal. unfold candidates.
  split; intros G W' HW'; apply G.
  - apply combinations_seq. exact HW'.
  - apply combinations_seq in HW'. exact HW'.
Qed.

(** ** EJR and PJR *)
Lemma joint_In : forall p g c, g <> [] -> (In c (joint_approvals p g) <-> forall i, In i g -> In c (ballot p i)).
Proof.
  intros p [|i g] c H; [congruence|]. simpl.
  assert (E : forall g s, In c (fold_left (fun s j => inter s (approved (voter_at p j))) g s) <->
            In c s /\ forall j, In j g -> In c (ballot p j)).
  { clear. induction g as [|j g IH]; intro s; simpl; [firstorder|]. rewrite IH, inter_In. unfold ballot at 1, voter_at.
    split.
    - intros [[A B] C]. split; [exact A|]. intros x [<-|Hx]; [exact B|]. apply C; exact Hx.
    - intros [A B]. split; [split; auto; apply (B j); left; auto|]. intros; apply B; auto. }
  rewrite E. split.
  - intros [A B] x [<-|Hx]; [exact A|auto].
  - intro A. split; [apply (A i); left; auto|]. intros. apply A. right; auto.
Qed.

Lemma joint_NoDup : forall p g, wf p -> Forall (fun i => i < length (voters p)) g -> NoDup (joint_approvals p g).
Proof.
  intros p [|i g] Hw Hb; simpl; [constructor|].
  assert (E : forall g s, NoDup s -> NoDup (fold_left (fun s j => inter s (approved (voter_at p j))) g s)).
  { clear. induction g as [|j g IH]; intros s Hs; simpl; auto. apply IH, NoDup_inter; auto. }
  apply E. inversion Hb; subst. destruct Hw as [_ Hw]. rewrite Forall_forall in Hw. apply Hw. apply nth_In; auto.
Qed.

Lemma ballot_wf : forall p i, wf p -> i < length (voters p) -> cand_set p (ballot p i).
Proof.
  intros p i [_ Hw] Hi. rewrite Forall_forall in Hw. destruct (Hw (nth i (voters p) (mkVoter [] 1 true)) (nth_In _ _ Hi)) as (A & B & _).
  split; auto.
Qed.

Lemma unit_gweight : forall p S, unit_weights p -> Forall (fun i => i < length (voters p)) S ->
  (gweight p S == Qnat (length S))%Q.
Proof.
  intros p S Hu Hb. unfold gweight. rewrite (Qsum_map_ext _ _ (fun _ => 1%Q)).
  - rewrite Qsum_map_const. ring.
  - intros i Hi. rewrite Forall_forall in Hb. unfold unit_weights in Hu. rewrite Forall_forall in Hu.
    apply Hu. apply nth_In. auto.
Qed.

Lemma ceil_le : forall x n, (x <= Qnat n)%Q <-> (Qceiling x <= Z.of_nat n)%Z.
Proof.
  intros. unfold Qnat. split; intro H.
  - rewrite <- (Qceiling_Z (Z.of_nat n)). apply Qceiling_resp_le; auto.
  - eapply Qle_trans; [apply Qle_ceiling|]. rewrite <- Zle_Qle. auto.
Qed.
Lemma ceil_pos : forall x, (0 < x)%Q -> (1 <= Qceiling x)%Z.
Proof.
  intros x H. destruct (Z.leb_spec 1 (Qceiling x)); auto. exfalso.
  pose proof (Qle_ceiling x). assert (inject_Z (Qceiling x) <= 0)%Q by (change 0%Q with (inject_Z 0); rewrite <- Zle_Qle; lia). lra.
Qed.

(** enumerating the subsets of exactly the minimum size is enough *)
Lemma combos_exact : forall p (f : nat -> bool) (bad : list nat -> Prop) n, 1 <= n ->
  (forall g g', incl g' g -> bad g -> g' <> [] -> bad g') ->
  (forall g g', (forall i, In i g <-> In i g') -> bad g -> bad g') ->
  (exists g, In g (combinations (filter f (indices p)) n) /\ bad g) <->
  (exists S, is_group p S /\ n <= length S /\ (forall i, In i S -> f i = true) /\ bad S).
Proof.
  intros p f bad n Hn Hmono Hext. destruct (filter_indices p f) as [HN HB]. split.
  - intros (g & Hg & Hbad). pose proof (combinations_length _ _ _ _ Hg) as Hl.
    apply combinations_sublist in Hg as [Hs _]. exists g.
    assert (Hi : incl g (filter f (indices p))) by (apply sublist_incl; auto).
    split; [|split; [lia|split; auto]].
    + split; [destruct g; simpl in Hl; [lia|discriminate]|]. split; [eapply sublist_NoDup; eauto|].
      apply Forall_forall. intros i Hin. rewrite Forall_forall in HB. auto.
    + intros i Hin. apply Hi in Hin. apply filter_In in Hin as [_ Hin]; auto.
  - intros (S & (Hne & HNS & HBS) & Hlen & Hf & Hbad).
    set (S' := filter (fun i => mem i S) (filter f (indices p))).
    assert (HS' : forall i, In i S' <-> In i S).
    { intro i. unfold S'. rewrite filter_In, mem_In, filter_In, in_indices. split; [tauto|]. intro Hi.
      rewrite Forall_forall in HBS. auto. }
    assert (Hl' : length S' = length S).
    { apply NoDup_same_length; auto. unfold S'. apply NoDup_filter; auto. }
    exists (firstn n S'). split.
    + apply combinations_sublist. split; [|rewrite firstn_length; lia].
      assert (T : forall (A:Type) k (a l : list A), sublist a l -> sublist (firstn k a) l).
      { clear. intros A k a l H. revert k. induction H; intros k.
        - destruct k; constructor.
        - destruct k; simpl; constructor; auto.
        - constructor. auto. }
      apply T. unfold S'. apply filter_sublist.
    + apply (Hmono S'); auto.
      * intros i Hi. rewrite <- (firstn_skipn n S'). apply in_or_app. auto.
      * apply (Hext S); auto. intro i. symmetry. auto.
      * intro E. apply (f_equal (@length nat)) in E. rewrite firstn_length in E. simpl in E. lia.
Qed.

Lemma cohesive_set : forall p S l, wf p -> is_group p S ->
  ((exists T, cand_set p T /\ length T = l /\ all_approve p S T) <-> l <= length (joint_approvals p S)).
Proof.
  intros p S l Hw (Hne & Hn & Hb). pose proof (joint_NoDup p S Hw Hb) as HJ. split.
  - intros (T & [HT _] & <- & Ha). apply NoDup_incl_length; auto. intros c Hc. apply joint_In; auto.
  - intro H. exists (firstn l (joint_approvals p S)).
    assert (Hi : forall c, In c (firstn l (joint_approvals p S)) -> In c (joint_approvals p S)).
    { intros c Hc. rewrite <- (firstn_skipn l). apply in_or_app; auto. }
    split; [split|split].
    + apply NoDup_firstn; auto.
    + apply Forall_forall. intros c Hc. apply Hi in Hc. rewrite joint_In in Hc by auto.
      destruct S as [|i S]; [congruence|]. specialize (Hc i (or_introl eq_refl)). inversion Hb; subst.
      destruct (ballot_wf p i Hw H2) as [_ F]. rewrite Forall_forall in F. auto.
    + rewrite firstn_length. lia.
    + intros i c Hi' Hc. apply Hi in Hc. rewrite joint_In in Hc by auto. auto.
Qed.

Lemma early_exit : forall p (f : nat -> bool) x n (P : Prop), unit_weights p -> (0 < x)%Q -> n = Z.to_nat (Qceiling x) ->
  Qltb (group_weight p (filter f (indices p))) (inject_Z (Qceiling x)) = true ->
  combinations (filter f (indices p)) n = [].
Proof.
  intros p f x n P Hu Hx -> H. apply Qltb_lt in H. destruct (filter_indices p f) as [_ HB].
  rewrite group_weight_eq, unit_gweight in H by auto. unfold Qnat in H. rewrite <- Zlt_Qlt in H.
  destruct (combinations _ _) as [|g r] eqn:E; auto. exfalso.
  assert (Hg : In g (combinations (filter f (indices p)) (Z.to_nat (Qceiling x)))) by (rewrite E; left; auto).
  apply combinations_sublist in Hg as [Hs Hl]. apply sublist_length in Hs. lia.
Qed.

Lemma joint_mono : forall p g g', wf p -> g' <> [] -> incl g' g -> Forall (fun i => i < length (voters p)) g ->
  length (joint_approvals p g) <= length (joint_approvals p g').
Proof.
  intros p g g' Hw Hne Hi Hb. assert (Hg : g <> []) by (intros ->; destruct g'; [congruence|]; apply (Hi n); left; auto).
  apply NoDup_incl_length; [apply joint_NoDup; auto|]. intros c Hc. rewrite joint_In in Hc by auto.
  apply joint_In; auto.
Qed.

Definition jointly (p : profile) (ell : nat) (g : list nat) : Prop :=
  g <> [] /\ Forall (fun i => i < length (voters p)) g /\ ell <= length (joint_approvals p g).

Lemma jointly_mono : forall p ell g g', wf p -> incl g' g -> g' <> [] -> jointly p ell g -> jointly p ell g'.
Proof.
  intros p ell g g' Hw Hi Hne (A & B & C). split; auto.
  split; [apply Forall_forall; intros i H; rewrite Forall_forall in B; auto|].
  eapply Nat.le_trans; [exact C|]. apply joint_mono; auto.
Qed.

Lemma unit_deserves : forall p q S l, unit_weights p -> is_group p S ->
  (deserves p q S l <-> Z.to_nat (Qceiling (Qnat l * q)) <= length S).
Proof.
  intros p q S l Hu (_ & _ & Hb). unfold deserves. rewrite unit_gweight by auto. rewrite ceil_le. lia.
Qed.

(** the general shape: some minimum-size group of short voters is bad iff some deserving group is *)
Lemma ell_exact : forall p W q ell (bad : list nat -> Prop), wf p -> unit_weights p -> (0 < q)%Q -> 1 <= ell ->
  (forall g g', incl g' g -> bad g -> g' <> [] -> bad g') ->
  (exists g, In g (combinations (short_of p W ell) (Z.to_nat (Qceiling (Qnat ell * q)))) /\
             jointly p ell g /\ bad g) <->
  exists S, cohesive p q S ell /\ (forall i, In i S -> approves_in p i W < ell) /\ bad S.
Proof.
  intros p W q ell bad Hw Hu Hq Hell Hmono.
  set (x := (Qnat ell * q)%Q).
  assert (Hx : (0 < x)%Q) by (unfold x; apply Qmult_lt_0_compat; auto; apply Qnat_pos; lia).
  pose proof (ceil_pos x Hx) as Hc.
  unfold short_of. rewrite (combos_exact p _ (fun g => jointly p ell g /\ bad g) (Z.to_nat (Qceiling x))).
  - split; intros (S & A & B & C).
    + destruct C as [C [D E]]. exists S. split; [|split].
      * split; auto. split; auto. split; [apply unit_deserves; auto|]. apply cohesive_set; auto. apply D.
      * intros i Hi. apply Nat.ltb_lt. apply (C i Hi).
      * auto.
    + destruct A as (A1 & A2 & A3 & A4). exists S. split; auto. split; [apply unit_deserves in A3; auto|]. split.
      * intros i Hi. apply Nat.ltb_lt. apply (B i Hi).
      * split; auto. destruct A1 as (N1 & N2 & N3). split; auto. split; auto. apply cohesive_set; auto. split; auto.
  - lia.
  - intros g g' Hi [Hj Hb] Hne. split; [eapply jointly_mono; eauto|eapply Hmono; eauto].
  - intros g g' Hi [Hj Hb]. assert (Hne : g' <> []).
    { destruct Hj as (Hne & _). intros ->. destruct g; [congruence|]. apply (Hi n). left; auto. }
    assert (incl g' g) by (intros i H; apply Hi; auto).
    split; [eapply jointly_mono; eauto|eapply Hmono; eauto].
Qed.

Lemma combos_jointly : forall p W ell n g, 1 <= n -> In g (combinations (short_of p W ell) n) ->
  g <> [] /\ Forall (fun i => i < length (voters p)) g.
Proof.
  intros p W ell n g Hn Hg. pose proof (combinations_length _ _ _ _ Hg) as Hl.
  apply combinations_sublist in Hg as [Hs _]. split; [destruct g; simpl in Hl; [lia|discriminate]|].
  apply Forall_forall. intros i Hi. eapply sublist_incl in Hi; eauto. unfold short_of in Hi.
  apply filter_In in Hi as [Hi _]. apply in_indices; auto.
Qed.

Lemma EJR_ell_exact : forall p W q ell, wf p -> unit_weights p -> (0 < q)%Q -> 1 <= ell ->
  (EJR_ell p W q ell = false <->
   exists S, cohesive p q S ell /\ forall i, In i S -> approves_in p i W < ell).
Proof.
  intros p W q ell Hw Hu Hq Hell. unfold EJR_ell.
  set (x := (Qnat ell * q)%Q).
  assert (Hx : (0 < x)%Q) by (unfold x; apply Qmult_lt_0_compat; auto; apply Qnat_pos; lia).
  pose proof (ceil_pos x Hx) as Hc.
  assert (K := ell_exact p W q ell (fun _ => True) Hw Hu Hq Hell (fun _ _ _ _ _ => I)). fold x in K.
  transitivity (exists S, cohesive p q S ell /\ (forall i, In i S -> approves_in p i W < ell) /\ True);
    [|split; intros (S & A & B); exists S; tauto].
  rewrite <- K.
  destruct (Qltb _ _) eqn:E.
  - unfold short_of in *. rewrite (early_exit p _ x _ True Hu Hx eq_refl E). split; [discriminate|]. intros (g & [] & _).
  - rewrite <- not_true_iff_false, forallb_forall. split.
    + intro H. apply not_true_iff_false in E.
      destruct (existsb (fun g => ell <=? length (joint_approvals p g)) (combinations (short_of p W ell) (Z.to_nat (Qceiling x)))) eqn:F.
      * apply existsb_exists in F as (g & Hg & Hl). exists g. split; auto. apply Nat.leb_le in Hl.
        destruct (combos_jointly p W ell (Z.to_nat (Qceiling x)) g ltac:(lia) Hg). split; auto. split; auto.
      * exfalso. apply H. intros g Hg. apply Nat.ltb_lt. destruct (Nat.lt_ge_cases (length (joint_approvals p g)) ell); auto.
        rewrite <- not_true_iff_false in F. exfalso. apply F. apply existsb_exists. exists g. split; auto. apply Nat.leb_le; auto.
    + intros (g & Hg & (_ & _ & Hl) & _) H. specialize (H g Hg). apply Nat.ltb_lt in H. lia.
Qed.

Lemma covered_union : forall p g W, NoDup W ->
  length (inter (union_approvals p g) W) = length (covered p g W).
Proof.
  intros p g W HW. apply NoDup_same_length.
  - apply NoDup_inter. unfold union_approvals. apply dedup_NoDup.
  - apply NoDup_filter; auto.
  - intro c. rewrite inter_In. unfold union_approvals, covered. rewrite dedup_In, in_flat_map, filter_In, existsb_exists.
    split.
    + intros ((i & Hi & Hc) & HcW). split; auto. exists i. split; auto. apply mem_In; auto.
    + intros (HcW & i & Hi & Hc). split; auto. exists i. split; auto. apply mem_In in Hc; auto.
Qed.

Lemma covered_mono : forall p g g' W, NoDup W -> incl g' g -> length (covered p g' W) <= length (covered p g W).
Proof.
  intros p g g' W HW Hi. apply NoDup_incl_length; [apply NoDup_filter; auto|]. intros c Hc.
  unfold covered in *. apply filter_In in Hc as [A B]. apply filter_In. split; auto.
  apply existsb_exists in B as (i & B & C). apply existsb_exists. exists i; auto.
Qed.

(** a voter of the group approves at most what the group covers *)
Lemma approves_covered : forall p S W i, wf p -> NoDup W -> i < length (voters p) -> In i S -> approves_in p i W <= length (covered p S W).
Proof.
  intros p S W i Hw HW Hb Hi. unfold approves_in. apply NoDup_incl_length.
  - apply NoDup_inter. apply ballot_wf; auto.
  - intros c Hc. apply inter_In in Hc as [A B]. apply filter_In. split; auto. apply existsb_exists. exists i. split; auto.
    apply mem_In; auto.
Qed.

Lemma PJR_ell_exact : forall p W q ell, wf p -> NoDup W -> unit_weights p -> (0 < q)%Q -> 1 <= ell ->
  (PJR_ell p W q ell = false <->
   exists S, cohesive p q S ell /\ length (covered p S W) < ell).
Proof.
  intros p W q ell Hw HW Hu Hq Hell. unfold PJR_ell.
  set (x := (Qnat ell * q)%Q).
  assert (Hx : (0 < x)%Q) by (unfold x; apply Qmult_lt_0_compat; auto; apply Qnat_pos; lia).
  pose proof (ceil_pos x Hx) as Hc.
  assert (K := ell_exact p W q ell (fun g => length (covered p g W) < ell) Hw Hu Hq Hell).
  fold x in K.
  transitivity (exists S, cohesive p q S ell /\ (forall i, In i S -> approves_in p i W < ell) /\ length (covered p S W) < ell).
  2:{ split; intros (S & A & B); exists S; [tauto|]. split; auto. split; auto. intros i Hi.
      destruct A as ((_ & _ & Hb) & _). rewrite Forall_forall in Hb.
      eapply Nat.le_lt_trans; [|exact B]. apply approves_covered; auto. }
  rewrite <- K by (intros g g' Hi Hg _; pose proof (covered_mono p g g' W HW Hi); lia).
  destruct (Qltb _ _) eqn:E.
  - unfold short_of in *. rewrite (early_exit p _ x _ True Hu Hx eq_refl E). split; [discriminate|]. intros (g & [] & _).
  - rewrite <- not_true_iff_false, forallb_forall. split.
    + intro H. apply not_true_iff_false in E.
      destruct (existsb (fun g => (ell <=? length (joint_approvals p g)) && (length (covered p g W) <? ell)) (combinations (short_of p W ell) (Z.to_nat (Qceiling x)))) eqn:F.
      * apply existsb_exists in F as (g & Hg & Hl). exists g. split; auto. apply andb_true_iff in Hl as [Hl Hl'].
        apply Nat.leb_le in Hl. apply Nat.ltb_lt in Hl'.
        destruct (combos_jointly p W ell (Z.to_nat (Qceiling x)) g ltac:(lia) Hg). split; auto. split; auto.
      * exfalso. apply H. intros g Hg. apply orb_true_iff. rewrite negb_true_iff, covered_union by auto.
        destruct (length (joint_approvals p g) <? ell) eqn:A; auto. right.
        destruct (length (covered p g W) <? ell) eqn:B; auto. exfalso.
        rewrite <- not_true_iff_false in F. apply F. apply existsb_exists. exists g. split; auto.
        rewrite B. apply Nat.ltb_ge in A. apply Nat.leb_le in A. rewrite A. auto.
    + intros (g & Hg & (_ & _ & Hl) & Hcov) H. specialize (H g Hg). rewrite covered_union in H by auto.
      apply orb_true_iff in H as [H|H]; [apply Nat.ltb_lt in H; lia|].
      apply negb_true_iff, Nat.ltb_ge in H. lia.
Qed.

Lemma forallb_false_iff : forall (A:Type) (f : A -> bool) l, forallb f l = false <-> exists x, In x l /\ f x = false.
Proof.
  intros A f l. induction l as [|a l IH]; simpl.
  - split; [discriminate|]. intros (x & [] & _).
  - rewrite andb_false_iff, IH. split.
    + intros [H|(x & H & H')]; eauto.
    + intros (x & [<-|H] & H'); eauto.
Qed.

Lemma check_EJR_core_exact : forall p W q, wf p -> unit_weights p -> (0 < q)%Q ->
  exists b, check_EJR_core p W q = Ok b /\ (b = true <-> EJR p q W).
Proof.
  intros p W q Hw Hu Hq. unfold check_EJR_core.
  destruct (upper_bound_spec p q Hq) as (ub & -> & Hub & Hb); [rewrite total_weight_wsum; apply total_nonneg; auto|].
  simpl. eexists. split; [reflexivity|].
  split.
  - intros H S l Hco. rewrite forallb_forall in H.
    assert (Hl : l <= Z.to_nat ub) by (destruct Hco as (A & _ & B & _); eapply deserves_bound; eauto).
    assert (H1 : 1 <= l) by (apply Hco). specialize (H l). rewrite in_seq in H. specialize (H ltac:(lia)).
    destruct (existsb (fun i => l <=? approves_in p i W) S) eqn:E.
    + apply existsb_exists in E as (i & Hi & He). exists i. split; auto. apply Nat.leb_le; auto.
    + exfalso. apply not_false_iff_true in H. apply H. apply EJR_ell_exact; auto. exists S. split; auto.
      intros i Hi. destruct (Nat.lt_ge_cases (approves_in p i W) l) as [|Hge]; auto. apply not_true_iff_false in E.
      exfalso. apply E. apply existsb_exists. exists i. split; auto. apply Nat.leb_le; auto.
  - intros H. apply not_false_iff_true. intro F. apply forallb_false_iff in F as (l & Hl & F). apply in_seq in Hl.
    apply EJR_ell_exact in F as (S & Hc & Hf); auto; [|lia]. destruct (H S l Hc) as (i & Hi & He). specialize (Hf i Hi). lia.
Qed.

Lemma check_PJR_core_exact : forall p W q, wf p -> NoDup W -> unit_weights p -> (0 < q)%Q ->
  exists b, check_PJR_core p W q = Ok b /\ (b = true <-> PJR p q W).
Proof.
  intros p W q Hw HW Hu Hq. unfold check_PJR_core.
  destruct (upper_bound_spec p q Hq) as (ub & -> & Hub & Hb); [rewrite total_weight_wsum; apply total_nonneg; auto|].
  simpl. eexists. split; [reflexivity|].
  split.
  - intros H S l Hco. rewrite forallb_forall in H.
    assert (Hl : l <= Z.to_nat ub) by (destruct Hco as (A & _ & B & _); eapply deserves_bound; eauto).
    assert (H1 : 1 <= l) by (apply Hco). specialize (H l). rewrite in_seq in H. specialize (H ltac:(lia)).
    destruct (Nat.lt_ge_cases (length (covered p S W)) l) as [Hlt|]; auto.
    exfalso. apply not_false_iff_true in H. apply H. apply PJR_ell_exact; auto. exists S. split; auto.
  - intros H. apply not_false_iff_true. intro F. apply forallb_false_iff in F as (l & Hl & F). apply in_seq in Hl.
    apply PJR_ell_exact in F as (S & Hc & Hf); auto; [|lia]. specialize (H S l Hc). lia.
Qed.

(** ** EJR+ *)
Lemma filter_filter : forall (A:Type) (f g : A -> bool) l, filter g (filter f l) = filter (fun i => f i && g i) l.
Proof.
  intros. induction l as [|a l IH]; auto. simpl. destruct (f a) eqn:E; simpl; auto. destruct (g a); rewrite IH; auto.
Qed.

Lemma utility_le : forall p i W, wf p -> i < length (voters p) -> NoDup W -> approves_in p i W <= length W.
Proof.
  intros p i W Hw Hi HW. unfold approves_in. apply NoDup_incl_length; [apply NoDup_inter, ballot_wf; auto|].
  intros c Hc. apply inter_In in Hc. tauto.
Qed.

Definition EJR_plus_fail (p : profile) (q : Q) (W : list nat) (c : nat) : Prop :=
  ~ In c W /\ exists S l, is_group p S /\ 1 <= l /\ deserves p q S l /\ all_approve p S [c] /\
    forall i, In i S -> approves_in p i W < l.

Lemma EJR_plus_loop_exact : forall p W q ub cands, wf p -> (0 < q)%Q -> (0 <= ub)%Z ->
  (forall l : nat, (Qnat l * q <= wsum (voters p))%Q <-> (Z.of_nat l <= ub)%Z) ->
  (forall i, i < length (voters p) -> approves_in p i W <= Z.to_nat ub) ->
  exists b, EJR_plus_loop p W q ub cands = Ok b /\
    (b = false <-> exists c, In c cands /\ EJR_plus_fail p q W c).
Proof.
  intros p W q ub cands Hw Hq Hub Hb Hu. induction cands as [|c r IH].
  - exists true. split; auto. split; [discriminate|]. intros (c & [] & _).
  - destruct IH as (b & IH & Hbool). simpl. destruct (mem c W) eqn:Em.
    + exists b. split; auto. rewrite Hbool. apply mem_In in Em. split.
      * intros (d & Hd & F). exists d; auto.
      * intros (d & [<-|Hd] & F); [destruct F; contradiction|]. exists d; auto.
    + apply not_true_iff_false in Em. rewrite mem_In in Em.
      match goal with |- context [if existsb ?f ?l then Err _ else _] => destruct (existsb f l) eqn:E1 end.
      { exfalso. apply existsb_exists in E1 as (i & Hi & H1). apply filter_In in Hi as [Hi _]. apply in_indices in Hi.
        specialize (Hu i Hi). apply Z.ltb_lt in H1. unfold approves_in, ballot in Hu. unfold utility, voter_at in H1. lia. }
      match goal with |- context [if existsb ?f ?l then Ok false else _] => destruct (existsb f l) eqn:E2 end.
      * exists false. split; auto. split; auto. intros _. exists c. split; [left; auto|]. split; auto.
        apply existsb_exists in E2 as (e & He & H2). apply Qle_bool_iff in H2. rewrite group_weight_eq in H2.
        rewrite filter_filter in H2. apply exists_group in H2 as (S & A & B & C); auto.
        2:{ apply Qmult_lt_0_compat; auto. apply Qnat_pos. lia. }
        exists S, (Datatypes.S e). split; auto. split; [lia|]. split; auto. split.
        -- intros i d Hi [<-|[]]. specialize (C i Hi). apply andb_true_iff in C as [C _]. apply mem_In. auto.
        -- intros i Hi. specialize (C i Hi). apply andb_true_iff in C as [_ C]. apply Nat.leb_le in C.
           unfold approves_in, ballot. unfold utility, voter_at in C. lia.
      * exists b. split; auto. rewrite Hbool. split.
        -- intros (d & Hd & F). exists d; auto.
        -- intros (d & [<-|Hd] & F); [|exists d; auto]. exfalso. destruct F as (_ & S & l & A & B & C & D & F).
           apply not_true_iff_false in E2. apply E2. apply existsb_exists. exists (l - 1).
           assert (Hl : l <= Z.to_nat ub) by (eapply deserves_bound; eauto).
           split; [apply in_seq; lia|]. apply Qle_bool_iff. rewrite group_weight_eq, filter_filter.
           replace (Datatypes.S (l - 1)) with l by lia. apply exists_group; auto.
           { apply Qmult_lt_0_compat; auto. apply Qnat_pos. lia. }
           exists S. split; auto. split; auto. intros i Hi. apply andb_true_iff. split.
           ++ apply mem_In. apply (D i c Hi). left; auto.
           ++ apply Nat.leb_le. specialize (F i Hi). unfold approves_in, ballot in F. unfold utility, voter_at. lia.
Qed.

Lemma check_EJR_plus_core_exact : forall p W q, wf p -> (0 < q)%Q ->
  (forall i, i < length (voters p) -> (Qnat (approves_in p i W) * q <= wsum (voters p))%Q) ->
  exists b, check_EJR_plus_core p W q = Ok b /\ (b = true <-> EJR_plus p q W).
Proof.
  intros p W q Hw Hq Hbig. unfold check_EJR_plus_core.
  destruct (upper_bound_spec p q Hq) as (ub & -> & Hub & Hb); [rewrite total_weight_wsum; apply total_nonneg; auto|].
  simpl. destruct (EJR_plus_loop_exact p W q ub (candidates p) Hw Hq Hub Hb) as (b & -> & H).
  { intros i Hi. specialize (Hbig i Hi). apply Hb in Hbig. lia. }
  exists b. split; auto. destruct b.
  - split; auto. intros _ S l c A B C D E F.
    destruct (existsb (fun i => l <=? approves_in p i W) S) eqn:G.
    + apply existsb_exists in G as (i & Hi & G). exists i. split; auto. apply Nat.leb_le; auto.
    + exfalso. assert (true = false); [|discriminate]. apply H. exists c.
      split; [apply in_seq; lia|]. split; auto. exists S, l. repeat (split; auto).
      intros i Hi. destruct (Nat.lt_ge_cases (approves_in p i W) l) as [|Hge]; auto. apply not_true_iff_false in G.
      exfalso. apply G. apply existsb_exists. exists i. split; auto. apply Nat.leb_le; auto.
  - split; [discriminate|]. intro K. exfalso. destruct H as [H _]. destruct (H eq_refl) as (c & Hc & Hn & S & l & A & B & C & D & E).
    apply in_seq in Hc. destruct (K S l c A B C ltac:(lia) Hn D) as (i & Hi & He). specialize (E i Hi). lia.
Qed.

(** ** FJR and core *)
Lemma subsets_In : forall (cands : list nat) ub (T : list nat),
  (In T (flat_map (combinations cands) (seq 0 (Z.to_nat (ub + 1)))) <->
   sublist T cands /\ length T < Z.to_nat (ub + 1)).
Proof.
  intros cands ub T. rewrite in_flat_map. split.
  - intros (n & Hs & Hin). apply in_seq in Hs. apply combinations_sublist in Hin as [A B]. split; auto. lia.
  - intros [A B]. exists (length T). split; [apply in_seq; lia|]. apply combinations_sublist. auto.
Qed.

Lemma approved_In : forall p c, In c (approved_candidates p) <-> exists i, i < length (voters p) /\ In c (ballot p i).
Proof.
  intros p c. unfold approved_candidates. rewrite dedup_In, in_flat_map. split.
  - intros (v & Hv & Hc). apply In_nth with (d := mkVoter [] 1 true) in Hv as (i & Hi & E). exists i. split; auto.
    unfold ballot. rewrite E. auto.
  - intros (i & Hi & Hc). eexists. split; [apply nth_In; exact Hi|]. exact Hc.
Qed.

Lemma approved_cand_set : forall p, wf p -> cand_set p (approved_candidates p).
Proof.
  intros p Hw. split; [apply dedup_NoDup|]. apply Forall_forall. intros c Hc. apply approved_In in Hc as (i & Hi & Hc).
  destruct (ballot_wf p i Hw Hi) as [_ F]. rewrite Forall_forall in F. auto.
Qed.

(** only approved candidates matter in an alternative set *)
Definition trim (p : profile) (T : list nat) : list nat := filter (fun c => mem c T) (approved_candidates p).
Lemma trim_sub : forall p T, sublist (trim p T) (approved_candidates p).
Proof. intros. apply filter_sublist. Qed.
Lemma trim_len : forall p T, length (trim p T) <= length T.
Proof.
  intros p T. apply NoDup_incl_length; [apply NoDup_filter, dedup_NoDup|]. intros c Hc. apply filter_In in Hc as [_ Hc].
  apply mem_In; auto.
Qed.
Lemma trim_util : forall p T i, wf p -> i < length (voters p) -> approves_in p i (trim p T) = approves_in p i T.
Proof.
  intros p T i Hw Hi. unfold approves_in. apply NoDup_same_length.
  - apply NoDup_inter, ballot_wf; auto.
  - apply NoDup_inter, ballot_wf; auto.
  - intro c. rewrite !inter_In. unfold trim. rewrite filter_In, mem_In, approved_In. split; [tauto|].
    intros [A B]. split; auto. split; auto. exists i; auto.
Qed.
Lemma sub_cand_set : forall p T, wf p -> sublist T (approved_candidates p) -> cand_set p T.
Proof.
  intros p T Hw Hs. destruct (approved_cand_set p Hw) as [A B]. split; [eapply sublist_NoDup; eauto|].
  apply Forall_forall. intros c Hc. rewrite Forall_forall in B. apply B. eapply sublist_incl; eauto.
Qed.
Lemma deserves_less : forall p q S l m, (0 < q)%Q -> m <= l -> deserves p q S l -> deserves p q S m.
Proof.
  intros p q S l m Hq Hm H. unfold deserves in *. eapply Qle_trans; [|exact H]. apply Qmult_le_compat_r; [|lra].
  unfold Qnat. rewrite <- Zle_Qle. lia.
Qed.

Lemma check_FJR_core_exact : forall p W q, wf p -> (0 < q)%Q ->
  exists b, check_FJR_core p W q = Ok b /\ (b = true <-> FJR p q W).
Proof.
  intros p W q Hw Hq. unfold check_FJR_core.
  destruct (upper_bound_spec p q Hq) as (ub & -> & Hub & Hb); [rewrite total_weight_wsum; apply total_nonneg; auto|].
  simpl. eexists. split; [reflexivity|]. rewrite forallb_forall. split.
  - intros H S T beta Hg Hc Hb1 Hd Ha.
    destruct (existsb (fun i => beta <=? approves_in p i W) S) eqn:E.
    { apply existsb_exists in E as (i & Hi & E). exists i. split; auto. apply Nat.leb_le; auto. }
    exfalso. assert (Hsm : forall i, In i S -> approves_in p i W < beta).
    { intros i Hi. destruct (Nat.lt_ge_cases (approves_in p i W) beta); auto. exfalso. apply not_true_iff_false in E.
      apply E. apply existsb_exists. exists i. split; auto. apply Nat.leb_le; auto. }
    assert (Hd' : deserves p q S (length (trim p T))) by (apply (deserves_less p q S (length T)); [exact Hq|apply trim_len|exact Hd]).
    pose proof Hg as (Hne & HN & HB). rewrite Forall_forall in HB.
    assert (Ha' : forall i, In i S -> beta <= approves_in p i (trim p T)) by (intros i Hi; rewrite trim_util; auto).
    specialize (H (trim p T)). rewrite subsets_In in H. assert (Htl : length (trim p T) < Z.to_nat (ub + 1)) by (pose proof (deserves_bound p q S _ ub Hw Hg Hd' Hb); lia).
    specialize (H (conj (trim_sub p T) Htl)).
    rewrite forallb_forall in H.
    assert (Hbl : beta <= length (trim p T)).
    { destruct S as [|i S]; [congruence|]. specialize (Ha' i (or_introl eq_refl)).
      eapply Nat.le_trans; [exact Ha'|]. apply utility_le; auto; [apply HB; left; auto|]. apply NoDup_filter, dedup_NoDup. }
    specialize (H beta). rewrite in_seq in H. specialize (H ltac:(lia)). rewrite negb_true_iff, Qle_bool_false in H.
    rewrite group_weight_eq in H. apply (Qlt_not_le _ _ H). apply exists_group; auto.
    + apply Qmult_lt_0_compat; auto. apply Qnat_pos. lia.
    + exists S. split; auto. split; auto. intros i Hi. apply andb_true_iff. split; apply Nat.leb_le.
      * apply (Ha' i Hi).
      * specialize (Hsm i Hi). unfold approves_in, ballot in Hsm. unfold utility, voter_at. lia.
  - intros H T HT. apply subsets_In in HT as [HT Hl]. apply forallb_forall. intros beta Hbeta. apply in_seq in Hbeta.
    rewrite negb_true_iff, Qle_bool_false, group_weight_eq. apply Qnot_le_lt. intro Hle.
    apply exists_group in Hle as (S & A & B & C); auto.
    2:{ apply Qmult_lt_0_compat; auto. apply Qnat_pos. lia. }
    destruct (H S T beta A) as (i & Hi & Hge); auto; [apply sub_cand_set; auto|lia| |].
    + intros i Hi. specialize (C i Hi). apply andb_true_iff in C as [C _]. apply Nat.leb_le in C. exact C.
    + specialize (C i Hi). apply andb_true_iff in C as [_ C]. apply Nat.leb_le in C.
      unfold approves_in, ballot in Hge. unfold utility, voter_at in C. lia.
Qed.

Lemma check_core_core_exact : forall p W q, wf p -> (0 < q)%Q ->
  exists b, check_core_core p W q = Ok b /\ (b = true <-> in_core p q W).
Proof.
  intros p W q Hw Hq. unfold check_core_core.
  destruct (upper_bound_spec p q Hq) as (ub & -> & Hub & Hb); [rewrite total_weight_wsum; apply total_nonneg; auto|].
  simpl. eexists. split; [reflexivity|]. rewrite forallb_forall. split.
  - intros H S T Hg Hc Hd.
    destruct (existsb (fun i => approves_in p i T <=? approves_in p i W) S) eqn:E.
    { apply existsb_exists in E as (i & Hi & E). exists i. split; auto. apply Nat.leb_le; auto. }
    exfalso. assert (Hsm : forall i, In i S -> approves_in p i W < approves_in p i T).
    { intros i Hi. destruct (Nat.lt_ge_cases (approves_in p i W) (approves_in p i T)); auto. exfalso. apply not_true_iff_false in E.
      apply E. apply existsb_exists. exists i. split; auto. apply Nat.leb_le; auto. }
    assert (Hd' : deserves p q S (length (trim p T))) by (apply (deserves_less p q S (length T)); [exact Hq|apply trim_len|exact Hd]).
    pose proof Hg as (Hne & HN & HB). rewrite Forall_forall in HB.
    specialize (H (trim p T)). rewrite subsets_In in H. assert (Htl : length (trim p T) < Z.to_nat (ub + 1)) by (pose proof (deserves_bound p q S _ ub Hw Hg Hd' Hb); lia).
    specialize (H (conj (trim_sub p T) Htl)).
    assert (Hf : forall i, In i S -> (utility (voter_at p i) W <? utility (voter_at p i) (trim p T)) = true).
    { intros i Hi. apply Nat.ltb_lt. specialize (Hsm i Hi). rewrite <- (trim_util p T i) in Hsm by auto. exact Hsm. }
    apply orb_true_iff in H as [H|H].
    + apply Nat.eqb_eq in H. apply length_zero_iff_nil in H. destruct S as [|i S]; [congruence|].
      assert (In i []); [|auto]. rewrite <- H. apply filter_In. split; [apply in_indices, HB; left; auto|].
      apply Hf. left; auto.
    + rewrite negb_true_iff, Qle_bool_false in H. rewrite group_weight_eq in H. apply (Qlt_not_le _ _ H).
      eapply Qle_trans; [exact Hd'|]. destruct (filter_indices p (fun i => utility (voter_at p i) W <? utility (voter_at p i) (trim p T))) as [F1 F2].
      apply gweight_incl; auto. intros i Hi. apply filter_In. split; [apply in_indices; auto|]. auto.
  - intros H T HT. apply subsets_In in HT as [HT Hl].
    set (G := filter _ _). destruct (Nat.eqb_spec (length G) 0) as [E|E]; auto. simpl.
    rewrite negb_true_iff, Qle_bool_false, group_weight_eq. apply Qnot_le_lt. intro Hle.
    destruct (filter_indices p (fun i => utility (voter_at p i) W <? utility (voter_at p i) T)) as [F1 F2].
    destruct (H G T) as (i & Hi & Hge); auto; [split; [|split]; auto; intros EE; rewrite EE in E; auto|apply sub_cand_set; auto|].
    apply filter_In in Hi as [_ Hi]. apply Nat.ltb_lt in Hi. unfold approves_in, ballot in Hge. unfold utility, voter_at in Hi. lia.
Qed.

(** ** the public functions *)
Lemma default_pos : forall p (W : list nat), wf p -> voters p <> [] -> W <> [] -> (0 < default_quota p (length W))%Q.
Proof.
  intros p W Hw Hv HW. unfold default_quota. apply Qlt_shift_div_l; [apply Qnat_pos; destruct W; [congruence|simpl; lia]|].
  rewrite Qmult_0_l. apply total_pos; auto.
Qed.

(** the quota a call uses *)
Definition the_quota (p : profile) (W : list nat) (quota : option Q) : Q :=
  match quota with Some q => q | None => default_quota p (length W) end.

Lemma quota_of_ok : forall p W quota, (quota = None -> W <> []) ->
  exists q, quota_of p W quota = Ok q /\ (q == the_quota p W quota)%Q.
Proof.
  intros p W [q|] H; simpl; [exists q; split; auto; reflexivity|]. apply quota_default. auto.
Qed.

Lemma check_with_quota_exact : forall brute gurobi (axiom : profile -> Q -> list nat -> Prop) p W quota,
  (forall q, (0 < q)%Q -> exists b, brute p W q = Ok b /\ (b = true <-> axiom p q W)) ->
  (forall q q', (q == q')%Q -> axiom p q W -> axiom p q' W) ->
  cand_set p W -> (quota = None -> W <> []) -> (0 < the_quota p W quota)%Q ->
  exists b, check_with_quota brute gurobi p W quota "brute-force" = Ok b /\
            (b = true <-> axiom p (the_quota p W quota) W).
Proof.
  intros brute gurobi axiom p W quota Hb Hq Hc Hn Hp. unfold check_with_quota.
  destruct (quota_of_ok p W quota Hn) as (q & -> & E). simpl. rewrite checked_ok by auto. simpl.
  destruct (Hb q) as (b & -> & H); [rewrite E; auto|]. exists b. split; auto. rewrite H.
  split; apply Hq; auto. symmetry; auto.
Qed.

Lemma check_JR_exact : forall p W quota, wf p -> cand_set p W -> (quota = None -> W <> []) -> (0 < the_quota p W quota)%Q ->
  exists b, check_JR p W quota = Ok b /\ (b = true <-> JR p (the_quota p W quota) W).
Proof.
  intros p W quota Hw Hc Hn Hp. unfold check_JR. destruct (quota_of_ok p W quota Hn) as (q & -> & E). simpl.
  rewrite checked_ok by auto. simpl. eexists. split; [reflexivity|]. rewrite check_JR_core_exact; [|auto|rewrite E; auto].
  split; apply JR_quota; auto. symmetry; auto.
Qed.

Lemma check_EJR_plus_exact : forall p W quota, wf p -> cand_set p W -> (quota = None -> W <> []) -> (0 < the_quota p W quota)%Q ->
  (forall i, i < length (voters p) -> (Qnat (approves_in p i W) * the_quota p W quota <= wsum (voters p))%Q) ->
  exists b, check_EJR_plus p W quota = Ok b /\ (b = true <-> EJR_plus p (the_quota p W quota) W).
Proof.
  intros p W quota Hw Hc Hn Hp Hbig. unfold check_EJR_plus. destruct (quota_of_ok p W quota Hn) as (q & -> & E). simpl.
  rewrite checked_ok by auto. simpl. destruct (check_EJR_plus_core_exact p W q Hw) as (b & -> & H).
  - rewrite E; auto.
  - intros i Hi. rewrite E. auto.
  - exists b. split; auto. rewrite H. split; apply EJR_plus_quota; auto. symmetry; auto.
Qed.

Lemma check_EJR_plus_default : forall p W, wf p -> cand_set p W -> W <> [] -> voters p <> [] ->
  exists b, check_EJR_plus p W None = Ok b /\ (b = true <-> EJR_plus p (default_quota p (length W)) W).
Proof.
  intros p W Hw Hc HW Hv. apply (check_EJR_plus_exact p W None); auto; [apply default_pos; auto|].
  intros i Hi. simpl. assert (Hk : (0 < Qnat (length W))%Q) by (apply Qnat_pos; destruct W; [congruence|simpl; lia]).
  assert (E : (Qnat (length W) * default_quota p (length W) == wsum (voters p))%Q) by (unfold default_quota; field; lra).
  rewrite <- E. apply Qmult_le_compat_r; [|apply Qlt_le_weak, default_pos; auto].
  unfold Qnat. rewrite <- Zle_Qle. pose proof (utility_le p i W Hw Hi (proj1 Hc)). lia.
Qed.

(** ** implications between the axioms *)
Lemma EJR_plus_EJR : forall p q W, wf p -> NoDup W -> EJR_plus p q W -> EJR p q W.
Proof.
  intros p q W Hw HW H S l (Hg & Hl & Hd & T & [HT HTb] & HTl & Ha).
  pose proof Hg as (Hne & HN & HB). rewrite Forall_forall in HB.
  (* either T is inside W or some member of T is outside *)
  destruct (forallb (fun c => mem c W) T) eqn:E.
  - destruct S as [|i S]; [congruence|]. exists i. split; [left; auto|]. rewrite <- HTl. unfold approves_in.
    apply NoDup_incl_length; auto. intros c Hc. rewrite forallb_forall in E. apply inter_In. split.
    + apply Ha; auto. left; auto.
    + apply mem_In, E; auto.
  - apply forallb_false_iff in E as (c & Hc & E). apply not_true_iff_false in E. rewrite mem_In in E.
    apply (H S l c); auto.
    + rewrite Forall_forall in HTb. auto.
    + intros i d Hi [<-|[]]. apply Ha; auto.
Qed.

Lemma EJR_PJR : forall p q W, wf p -> NoDup W -> EJR p q W -> PJR p q W.
Proof.
  intros p q W Hw HW H S l Hc. destruct (H S l Hc) as (i & Hi & Hl). eapply Nat.le_trans; [exact Hl|].
  destruct Hc as ((_ & _ & HB) & _). rewrite Forall_forall in HB. apply approves_covered; auto.
Qed.

Lemma PJR_JR : forall p q W, wf p -> PJR p q W -> JR p q W.
Proof.
  intros p q W Hw H S c (Hg & Hd & Hc & Ha & Hu).
  assert (K : 1 <= length (covered p S W)).
  { apply H. split; auto. split; auto. split; auto. exists [c]. split; [split; [repeat constructor; auto|constructor; auto]|].
    split; auto. }
  destruct (covered p S W) as [|d r] eqn:E; [simpl in K; lia|].
  assert (Hd' : In d (covered p S W)) by (rewrite E; left; auto). apply filter_In in Hd' as [Hd1 Hd2].
  apply existsb_exists in Hd2 as (i & Hi & Hm). apply mem_In in Hm. specialize (Hu i Hi). unfold approves_in in Hu.
  apply length_zero_iff_nil in Hu. assert (In d (inter (ballot p i) W)) by (apply inter_In; auto). rewrite Hu in H0. auto.
Qed.

Lemma core_FJR : forall p q W, wf p -> (0 < q)%Q -> in_core p q W -> FJR p q W.
Proof.
  intros p q W Hw Hq H S T beta Hg Hc Hb Hd Ha. destruct (H S T Hg Hc Hd) as (i & Hi & Hle). exists i. split; auto.
  specialize (Ha i Hi). lia.
Qed.

Lemma FJR_EJR : forall p q W, wf p -> FJR p q W -> EJR p q W.
Proof.
  intros p q W Hw H S l (Hg & Hl & Hd & T & HT & HTl & Ha).
  apply (H S T l); auto; [rewrite HTl; auto|]. intros i Hi. rewrite <- HTl. unfold approves_in.
  apply NoDup_incl_length; [apply HT|]. intros c Hc. apply inter_In. split; auto.
Qed.

(** ** forms used by the claims *)
Lemma pareto_check_exact : forall gurobi p W, cand_set p W ->
  exists b, check_pareto_optimality gurobi p W "brute-force" = Ok b /\ (b = true <-> pareto_optimal p W).
Proof.
  intros g p W Hc. destruct (check_pareto_exact p W (proj1 Hc)) as (b & E & H). exists b. split; auto.
  unfold check_pareto_optimality. rewrite checked_ok by auto. simpl. rewrite E. reflexivity.
Qed.

Lemma invalid_committee : forall p W quota alg g g' , ~ cand_set p W ->
  exists err, check_JR p W quota = Err err /\ check_EJR_plus p W quota = Err err /\
    check_EJR g p W quota alg = Err err /\ check_PJR g p W quota alg = Err err /\
    check_FJR g p W quota alg = Err err /\ check_core g p W quota alg = Err err /\
    exists err', check_pareto_optimality g' p W alg = Err err'.
Proof.
  intros p W quota alg g g' H. destruct (checked_err p W H) as (e & He).
  assert (Hne : W <> []) by (intros ->; apply H; split; constructor).
  destruct (quota_of_ok p W quota (fun _ => Hne)) as (q & Hq & _). exists e.
  unfold check_JR, check_EJR_plus, check_EJR, check_PJR, check_FJR, check_core, check_with_quota, check_pareto_optimality.
  rewrite Hq, He. simpl. repeat split. eauto.
Qed.

Lemma default_quota_facts : forall p W, wf p -> voters p <> [] -> W <> [] ->
  (0 < the_quota p W None)%Q /\ (the_quota p W None * Qnat (length W) == Qsum (map weight (voters p)))%Q.
Proof.
  intros p W Hw Hv HW. split; [apply default_pos; auto|]. simpl. unfold default_quota.
  assert (0 < Qnat (length W))%Q by (apply Qnat_pos; destruct W; [congruence|simpl; lia]).
  unfold wsum. field. lra.
Qed.

Lemma EJR_check_exact : forall gurobi p W quota, wf p -> unit_weights p -> cand_set p W ->
  (quota = None -> W <> []) -> (0 < the_quota p W quota)%Q ->
  exists b, check_EJR gurobi p W quota "brute-force" = Ok b /\ (b = true <-> EJR p (the_quota p W quota) W).
Proof.
  intros. apply (check_with_quota_exact check_EJR_core gurobi EJR); auto.
  - intros. apply check_EJR_core_exact; auto.
  - intros. eapply EJR_quota; eauto.
Qed.
Lemma PJR_check_exact : forall gurobi p W quota, wf p -> unit_weights p -> cand_set p W ->
  (quota = None -> W <> []) -> (0 < the_quota p W quota)%Q ->
  exists b, check_PJR gurobi p W quota "brute-force" = Ok b /\ (b = true <-> PJR p (the_quota p W quota) W).
Proof.
  intros. apply (check_with_quota_exact check_PJR_core gurobi PJR); auto.
  - intros. apply check_PJR_core_exact; auto. apply H1.
  - intros. eapply PJR_quota; eauto.
Qed.
Lemma FJR_check_exact : forall gurobi p W quota, wf p -> cand_set p W ->
  (quota = None -> W <> []) -> (0 < the_quota p W quota)%Q ->
  exists b, check_FJR gurobi p W quota "brute-force" = Ok b /\ (b = true <-> FJR p (the_quota p W quota) W).
Proof.
  intros. apply (check_with_quota_exact check_FJR_core gurobi FJR); auto.
  - intros. apply check_FJR_core_exact; auto.
  - intros. eapply FJR_quota; eauto.
Qed.
Lemma core_check_exact : forall gurobi p W quota, wf p -> cand_set p W ->
  (quota = None -> W <> []) -> (0 < the_quota p W quota)%Q ->
  exists b, check_core gurobi p W quota "brute-force" = Ok b /\ (b = true <-> in_core p (the_quota p W quota) W).
Proof.
  intros. apply (check_with_quota_exact check_core_core gurobi in_core); auto.
  - intros. apply check_core_core_exact; auto.
  - intros. eapply core_quota; eauto.
Qed.

Lemma axiom_implications : forall p q W, wf p -> NoDup W -> (0 < q)%Q ->
  (in_core p q W -> FJR p q W) /\ (FJR p q W -> EJR p q W) /\ (EJR_plus p q W -> EJR p q W) /\
  (EJR p q W -> PJR p q W) /\ (PJR p q W -> JR p q W).
Proof.
  intros. split; [apply core_FJR; auto|]. split; [apply FJR_EJR; auto|]. split; [apply EJR_plus_EJR; auto|].
  split; [apply EJR_PJR; auto|apply PJR_JR; auto].
Qed.

Lemma reflect_ok : forall (r : result bool) (P : Prop) b, r = Ok b /\ (b = true <-> P) -> (r = Ok true <-> P).
Proof. intros r P b [-> H]. rewrite <- H. split; [congruence|intros ->; auto]. Qed.

Lemma check_implications : forall g p W, wf p -> voters p <> [] -> cand_set p W -> W <> [] ->
  (check_core g p W None "brute-force" = Ok true -> check_FJR g p W None "brute-force" = Ok true) /\
  (unit_weights p -> check_FJR g p W None "brute-force" = Ok true -> check_EJR g p W None "brute-force" = Ok true) /\
  (unit_weights p -> check_EJR_plus p W None = Ok true -> check_EJR g p W None "brute-force" = Ok true) /\
  (unit_weights p -> check_EJR g p W None "brute-force" = Ok true -> check_PJR g p W None "brute-force" = Ok true) /\
  (unit_weights p -> check_PJR g p W None "brute-force" = Ok true -> check_JR p W None = Ok true).
Proof.
  intros g p W Hw Hv Hc Hne. pose proof (default_pos p W Hw Hv Hne) as Hq.
  destruct (axiom_implications p (default_quota p (length W)) W Hw (proj1 Hc) Hq) as (A & B & C & D & E).
  destruct (core_check_exact g p W None Hw Hc (fun _ => Hne) Hq) as (b1 & H1).
  destruct (FJR_check_exact g p W None Hw Hc (fun _ => Hne) Hq) as (b2 & H2).
  destruct (check_EJR_plus_default p W Hw Hc Hne Hv) as (b3 & H3).
  destruct (check_JR_exact p W None Hw Hc (fun _ => Hne) Hq) as (b4 & H4).
  apply reflect_ok in H1, H2, H3, H4. simpl in *.
  split; [rewrite H1, H2; auto|].
  split; [|split; [|split]]; intro Hu;
    destruct (EJR_check_exact g p W None Hw Hu Hc (fun _ => Hne) Hq) as (b5 & H5);
    destruct (PJR_check_exact g p W None Hw Hu Hc (fun _ => Hne) Hq) as (b6 & H6);
    apply reflect_ok in H5, H6; simpl in *; rewrite ?H2, ?H3, ?H4, ?H5, ?H6; auto.
Qed.

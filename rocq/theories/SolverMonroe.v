(** * The Monroe programs of gurobi, Python-MIP and OR-Tools encode Monroe's rule *)
From Coq Require Import String.
From Coq Require Import List Arith Bool ZArith QArith Lia Lqa Permutation.
From Verif Require Import Prelude Misc MiscProofs Preferences Scores Spec SpecRules Common ScoresProofs ThieleProofs OptProofs
  Milp MilpProofs RulesMonroe SpecMonroe MonroeRule RulesSolver SolverProofs.
Import ListNotations.
Open Scope nat_scope.

Definition one_if (b : bool) : Q := if b then 1%Q else 0%Q.

(** nonnegative integers that add up to 1 *)
Lemma one_of : forall (y : nat -> Q) l, NoDup l -> (forall c, In c l -> exists z, (0 <= z)%Z /\ (y c == inject_Z z)%Q) ->
  (Qsum (map y l) == 1)%Q -> exists c, In c l /\ (y c == 1)%Q /\ forall d, In d l -> d <> c -> (y d == 0)%Q.
Proof.
  intros y l. induction l as [|c l IH]; intros Hn Hy Hs; [cbn in Hs; lra|]. inversion Hn; subst.
  unfold Qsum in Hs; cbn [map fold_right] in Hs. fold (Qsum (map y l)) in Hs.
  assert (Hy' : forall d, In d l -> exists z, (0 <= z)%Z /\ (y d == inject_Z z)%Q) by (intros; apply Hy; right; auto).
  assert (Hint : forall l', (forall d, In d l' -> exists z, (0 <= z)%Z /\ (y d == inject_Z z)%Q) -> exists z, (0 <= z)%Z /\ (Qsum (map y l') == inject_Z z)%Q).
  { induction l' as [|d l' IH']; intros H; [exists 0%Z; split; [lia|reflexivity]|].
    destruct (H d (or_introl eq_refl)) as (z & Hz & E). destruct IH' as (z' & Hz' & E'); [intros; apply H; right; auto|].
    exists (z + z')%Z. split; [lia|]. unfold Qsum; cbn [map fold_right]. fold (Qsum (map y l')). rewrite inject_Z_plus, <- E, <- E'. apply Qeq_refl. }
  destruct (Hy c (or_introl eq_refl)) as (z & Hz & E). destruct (Hint l Hy') as (z' & Hz' & E').
  assert (Hzz : (z + z' = 1)%Z). { rewrite E, E', <- inject_Z_plus in Hs. apply inject_Z_injective. exact Hs. }
  assert (Hc : z = 1%Z /\ z' = 0%Z \/ z = 0%Z /\ z' = 1%Z) by lia. destruct Hc as [[-> ->]|[-> ->]].
  - exists c. split; [left; auto|]. split; [rewrite E; reflexivity|]. intros d [->|Hd] Hne; [congruence|].
    assert (G : forall l', (forall d, In d l' -> exists z, (0 <= z)%Z /\ (y d == inject_Z z)%Q) -> (Qsum (map y l') == 0)%Q -> forall d, In d l' -> (y d == 0)%Q).
    { clear. induction l' as [|e l' IH']; intros H Hs d Hd; [destruct Hd|]. unfold Qsum in Hs; cbn [map fold_right] in Hs. fold (Qsum (map y l')) in Hs.
      assert (0 <= Qsum (map y l'))%Q.
      { apply Qsum_map_nonneg. intros a Ha. destruct (H a (or_intror Ha)) as (z & Hz & E). rewrite E. change 0%Q with (inject_Z 0). rewrite <- Zle_Qle. auto. }
      assert (0 <= y e)%Q.
      { destruct (H e (or_introl eq_refl)) as (z & Hz & E). rewrite E. change 0%Q with (inject_Z 0). rewrite <- Zle_Qle. auto. }
      destruct Hd as [->|Hd]; [lra|]. apply IH'; auto. { intros; apply H; right; auto. } lra. }
    apply (G l); auto.
  - destruct (IH H2 Hy') as (d & Hd & Ed & Hz1); [rewrite E'; reflexivity|]. exists d. split; [right; auto|]. split; auto.
    intros e [->|He] Hne; [rewrite E; reflexivity|auto].
Qed.

Lemma sum_indicator : forall (a : Q) (g : nat -> Q) l c, NoDup l -> In c l -> (Qsum (map (fun d => g d * one_if (c =? d)%nat) l) == g c)%Q.
Proof.
  intros a g l c. induction l as [|d l IH]; intros Hn Hin; [destruct Hin|]. inversion Hn; subst.
  unfold Qsum; cbn [map fold_right]. fold (Qsum (map (fun d => g d * one_if (c =? d)%nat) l)%Q). destruct Hin as [->|Hin].
  - rewrite Nat.eqb_refl. cbn [one_if]. rewrite (Qsum_map_zero _ (fun d => g d * one_if (c =? d)%nat)%Q l); [lra|].
    intros d Hd. destruct (Nat.eqb_spec c d) as [->|]; [contradiction|]. cbn. lra.
  - destruct (Nat.eqb_spec c d) as [->|]; [contradiction|]. rewrite IH by auto. cbn. lra.
Qed.

Lemma count_as_sum : forall (phi : list nat) c, (Qsum (map (fun j => one_if (nth j phi 0 =? c)%nat) (seq 0%nat (length phi))) == Qnat (count_occ Nat.eq_dec phi c))%Q.
Proof.
  intros phi c. induction phi as [|d phi IH]; [reflexivity|]. cbn [length seq map]. unfold Qsum; cbn [fold_right].
  rewrite <- seq_shift, map_map. cbn [nth]. fold (Qsum (map (fun j => one_if (nth j phi 0 =? c)%nat) (seq 0 (length phi)))). rewrite IH. cbn [count_occ].
  destruct (Nat.eq_dec d c) as [->|Hne]; [rewrite Nat.eqb_refl, Qnat_S'; cbn; lra|].
  destruct (Nat.eqb_spec d c) as [|_]; [contradiction|]. cbn. lra.
Qed.
Lemma represented_as_sum : forall p phi, length phi = length (voters p) ->
  (Qsum (map (fun j => one_if (voter_approves p j (nth j phi 0%nat))) (seq 0%nat (length phi))) == Qnat (represented p phi))%Q.
Proof.
  intros p phi. unfold represented, voter_approves. generalize (voters p). induction phi as [|d phi IH]; intros l Hl; destruct l as [|v l]; try discriminate; [reflexivity|].
  cbn [length seq map combine filter]. unfold Qsum; cbn [fold_right]. rewrite <- seq_shift, map_map. cbn [nth nth_error fst snd].
  fold (Qsum (map (fun j => one_if (match nth_error l j with Some v => mem (nth j phi 0%nat) (approved v) | None => false end)) (seq 0 (length phi)))).
  rewrite IH by (cbn in Hl; lia). unfold approves at 2. destruct (mem d (approved v)); cbn [one_if length]; [rewrite Qnat_S'|]; lra.
Qed.

Lemma ceil_form : forall n k, 1 <= k -> (n + (k - 1)) / k = n / k + (if n mod k =? 0 then 0 else 1).
Proof.
  intros n k Hk. pose proof (Nat.div_mod n k ltac:(lia)) as E. pose proof (Nat.mod_upper_bound n k ltac:(lia)) as Hb.
  destruct (Nat.eqb_spec (n mod k) 0) as [Ez|Ez].
  - symmetry. apply Nat.div_unique with (k - 1); lia.
  - symmetry. apply Nat.div_unique with (n mod k - 1); [lia|]. nia.
Qed.

(** the representative of voter [j] in a solution, and the solution of an assignment *)
Definition assignment_of (p : profile) (x : assignment) : list nat :=
  map (fun j => hd 0 (filter (fun c => Qeq_bool (x (Partition c j)) 1) (candidates p))) (voter_numbers p).
Definition solution_of (p : profile) (W phi : list nat) : Milp.assignment := fun x =>
  match x with
  | InCommittee c => of_committee W c
  | Satisfaction => Qnat (represented p phi)
  | Partition c j => one_if (nth j phi 0 =? c)%nat
  | _ => 0%Q
  end.

(** what the district constraints say *)
Definition districts_ok (p : profile) (k : nat) (x : Milp.assignment) (c : nat) : Prop :=
  let n := length (voters p) in
  ((x (InCommittee c) == 1)%Q -> (Qnat (n / k) <= ev x (district p c) /\ ev x (district p c) <= Qnat ((n + (k - 1)) / k))%Q) /\
  ((x (InCommittee c) == 0)%Q -> forall j, j < n -> (x (Partition c j) == 0)%Q).

Section Monroe.
  Variables (nx : networkx) (s : solver) (th : Q) (p : profile) (k : nat) (resolute : bool) (maxn : option nat).
  Variables (parts : list decl) (districts : nat -> list con).
  Hypothesis Hnx : networkx_correct nx.
  Hypothesis Hth : (0 < th)%Q /\ (th <= 1)%Q.
  Hypothesis Hk : 1 <= k <= num_cand p.
  Hypothesis Hmax : valid_max maxn.
  Let m := monroe_program parts districts p k.
  Hypothesis Hs : solves s p k m.
  Let n := length (voters p).
  Hypothesis Hparts : forall x, Forall (in_domain x) parts -> forall c j, c < num_cand p -> j < n -> exists z, (0 <= z)%Z /\ (x (Partition c j) == inject_Z z)%Q.
  Hypothesis Hparts' : forall x, (forall c j, c < num_cand p -> j < n -> (x (Partition c j) == 0)%Q \/ (x (Partition c j) == 1)%Q) -> Forall (in_domain x) parts.
  Hypothesis Hdist : forall x c, (x (InCommittee c) == 0)%Q \/ (x (InCommittee c) == 1)%Q ->
    (forall j, j < n -> (x (Partition c j) == 0)%Q \/ (x (Partition c j) == 1)%Q) -> (Forall (holds x) (districts c) <-> districts_ok p k x c).

  Lemma part_is : forall x, feasible m x -> forall j, j < n ->
    exists c, c < num_cand p /\ nth j (assignment_of p x) 0 = c /\ forall d, d < num_cand p -> (x (Partition d j) == one_if (c =? d)%nat)%Q.
  Proof using Hparts Hk.
    intros x [Fd Fc] j Hj. cbn [decls cons m monroe_program] in Fd, Fc. apply Forall_app in Fd as [_ Fd]. inversion Fd as [|a b _ Fd' Ea]; subst.
    inversion Fc as [|a b _ Fc' Ea]; subst. apply Forall_app in Fc' as [Fp _]. rewrite Forall_forall in Fp.
    assert (Hin : In j (voter_numbers p)) by (apply in_seq; unfold n in Hj; lia).
    specialize (Fp _ (in_map _ _ _ Hin)). cbn [holds] in Fp. rewrite ev_const, ev_vsum, map_map in Fp.
    destruct (one_of (fun c => x (Partition c j)) (candidates p)) as (c & Hc & E1 & E0); auto.
    { apply seq_NoDup. } { intros c Hc. apply Hparts; auto. apply in_seq in Hc. lia. }
    exists c. apply in_seq in Hc as Hc'. split; [lia|].
    assert (Hx : forall d, d < num_cand p -> (x (Partition d j) == one_if (c =? d)%nat)%Q).
    { intros d Hd. destruct (Nat.eqb_spec c d) as [<-|Hne]; [rewrite E1; reflexivity|]. rewrite E0; [reflexivity| |auto]. apply in_seq. lia. }
    split; [|exact Hx]. unfold assignment_of.
    rewrite nth_indep with (d' := (fun j => hd 0 (filter (fun c => Qeq_bool (x (Partition c j)) 1) (candidates p))) 0) by (rewrite map_length; unfold voter_numbers; rewrite seq_length; auto).
    rewrite (map_nth (fun j => hd 0 (filter (fun c => Qeq_bool (x (Partition c j)) 1) (candidates p)))). unfold voter_numbers. rewrite seq_nth by auto. cbn [Nat.add].
    assert (G : forall l, In c l -> (forall d, In d l -> d < num_cand p) -> hd 0 (filter (fun c0 => Qeq_bool (x (Partition c0 j)) 1) l) = c).
    { induction l as [|d l IH]; intros Hi Hl; [destruct Hi|]. cbn [filter]. destruct (Qeq_bool (x (Partition d j)) 1) eqn:Eb.
      - cbn. apply Qeq_bool_iff in Eb. rewrite Hx in Eb by (apply Hl; left; auto). destruct (Nat.eqb_spec c d); auto. cbn in Eb. lra.
      - apply IH; [|intros; apply Hl; right; auto]. destruct Hi as [->|]; auto. exfalso. assert (Qeq_bool (x (Partition c j)) 1 = true) by (apply Qeq_bool_iff; auto). congruence. }
    apply G; auto. intros d Hd. apply in_seq in Hd. lia.
  Qed.
  Lemma assignment_length : forall x, length (assignment_of p x) = n.
  Proof. intros. unfold assignment_of, voter_numbers. rewrite map_length, seq_length. reflexivity. Qed.
  Lemma district_count : forall x, feasible m x -> forall c, c < num_cand p -> (ev x (district p c) == Qnat (count_occ Nat.eq_dec (assignment_of p x) c))%Q.
  Proof using Hparts Hk.
    intros x Hx c Hc. unfold district. rewrite ev_vsum, map_map, <- count_as_sum, assignment_length. apply Qsum_map_ext. intros j Hj. apply in_seq in Hj.
    destruct (part_is x Hx j ltac:(lia)) as (d & _ & -> & E). apply E. auto.
  Qed.
  Lemma represented_count : forall x, feasible m x -> (ev x (represented_lin p) == Qnat (represented p (assignment_of p x)))%Q.
  Proof using Hparts Hk.
    intros x Hx. unfold represented_lin. rewrite ev_sum, flat_map_map, Qsum_flat, <- (represented_as_sum p (assignment_of p x) (assignment_length x)), assignment_length.
    apply Qsum_map_ext. intros j Hj. apply in_seq in Hj. destruct (part_is x Hx j ltac:(lia)) as (c & Hc & -> & E). rewrite map_map.
    rewrite <- (sum_indicator 0 (fun d => one_if (voter_approves p j d)) (candidates p) c); [|apply seq_NoDup|apply in_seq; lia].
    apply Qsum_map_ext. intros d Hd. apply in_seq in Hd. rewrite ev_scale, ev_var, E by lia. unfold one_if. reflexivity.
  Qed.
  Lemma monroe_binary : forall x, feasible m x -> binary_committee p x.
  Proof. intros x Hx. eapply binary_of_decls; [|exact Hx]. intros d Hd. apply in_or_app. auto. Qed.

  Lemma feasible_assignment : forall x, feasible m x -> monroe_assignment p (members p x) (assignment_of p x).
  Proof using Hparts Hdist Hk.
    intros x Hx. pose proof (monroe_binary x Hx) as Hb.
    assert (HW : is_committee p k (members p x)) by (apply size_of_con; auto; destruct Hx as [_ Hc]; rewrite Forall_forall in Hc; apply Hc; left; auto).
    assert (Hd : forall c, c < num_cand p -> districts_ok p k x c).
    { intros c Hc. apply Hdist; [auto| |].
      - intros j Hj. destruct (part_is x Hx j Hj) as (d & _ & _ & E). rewrite (E c Hc). destruct (d =? c); [right|left]; reflexivity.
      - destruct Hx as [_ Hx]. cbn [cons m monroe_program] in Hx. inversion Hx as [|a b _ Fc' Ea]; subst. apply Forall_app in Fc' as [_ Fp].
        apply Forall_app in Fp as [Fp _]. rewrite Forall_forall in *. intros z Hz. apply Fp. apply in_flat_map. exists c. split; auto. apply in_seq. lia. }
    split; [apply assignment_length|]. pose proof HW as (_ & Hl & _). rewrite Hl. split.
    - apply Forall_forall. intros c Hc. apply In_nth with (d := 0) in Hc as (j & Hj & Ej). rewrite assignment_length in Hj.
      destruct (part_is x Hx j Hj) as (d & Hd1 & Hd2 & E). rewrite Ej in Hd2. subst d. apply (members_In p x c Hb). split; auto.
      destruct (Hb c Hd1) as [E0|E1]; auto. exfalso. destruct (Hd c Hd1) as [_ Hz]. specialize (Hz E0 j Hj). rewrite (E c Hd1), Nat.eqb_refl in Hz. cbn in Hz. lra.
    - intros c Hc. apply (members_In p x c Hb) in Hc as [Hc1 Hc2]. destruct (Hd c Hc1) as [Hz _]. specialize (Hz Hc2). rewrite (district_count x Hx c Hc1) in Hz.
      destruct Hz as [A B]. apply Qnat_le' in A. apply Qnat_le' in B. auto.
  Qed.

  Definition mscore (W : list nat) : nat := Z.to_nat (score_value nx p W).
  Lemma mscore_ok : forall W, is_committee p k W -> is_monroe_score p W (mscore W) /\ monroescore nx p W = Ok (Z.of_nat (mscore W)).
  Proof using Hnx Hk.
    intros W (H1 & H2 & _). destruct (monroescore_correct nx p W Hnx) as (z & E & Hz); [apply ascending_NoDup; auto|intros ->; simpl in H2; lia|].
    unfold mscore, score_value. rewrite E, Nat2Z.id. auto.
  Qed.

  Lemma solution_feasible : forall W phi, is_committee p k W -> monroe_assignment p W phi -> feasible m (solution_of p W phi).
  Proof using Hparts' Hdist Hk.
    intros W phi HW (P1 & P2 & P3). pose proof HW as (_ & Hl & HR). rewrite Forall_forall in P2, HR.
    assert (Hb : binary_committee p (solution_of p W phi)) by (eapply of_committee_binary; intros; reflexivity).
    assert (Em : members p (solution_of p W phi) = W) by (eapply of_committee_members; eauto).
    assert (H01 : forall c j, (solution_of p W phi (Partition c j) == 0)%Q \/ (solution_of p W phi (Partition c j) == 1)%Q).
    { intros c j. cbn. destruct (_ =? c); [right|left]; reflexivity. }
    assert (Hphi : forall j, j < n -> In (nth j phi 0) W) by (intros j Hj; apply P2, nth_In; rewrite P1; auto).
    assert (Hdc : forall c, (ev (solution_of p W phi) (district p c) == Qnat (count_occ Nat.eq_dec phi c))%Q).
    { intros c. unfold district. rewrite ev_vsum, map_map, <- count_as_sum, P1. reflexivity. }
    split; cbn [decls cons m monroe_program].
    - apply Forall_app. split; [|constructor].
      + apply Forall_forall. intros d Hd. unfold in_committee_vars in Hd. apply in_map_iff in Hd as (c & <- & _). split; [|split; exact I]. cbn.
        unfold of_committee. destruct (mem c W); [right|left]; reflexivity.
      + split; [exists (Z.of_nat (represented p phi)); reflexivity|]. cbn [dlow dhigh dvar solution_of]. split; [apply Qnat_le' with (a := 0); lia|].
        apply Qnat_le'. unfold represented. eapply Nat.le_trans; [apply filter_length_le|]. rewrite combine_length. lia.
      + apply Hparts'. intros; apply H01.
    - constructor; [apply size_con_of; auto; rewrite Em; auto|]. apply Forall_app. split; [|apply Forall_app; split; [|constructor; [|constructor]]].
      + apply Forall_forall. intros c Hc. apply in_map_iff in Hc as (j & <- & Hj). cbn [holds]. rewrite ev_const, ev_vsum, map_map. cbn [solution_of].
        apply in_seq in Hj. specialize (Hphi j ltac:(unfold n; lia)).
        rewrite <- (sum_indicator 0 (fun _ => 1%Q) (candidates p) (nth j phi 0)); [|apply seq_NoDup|apply in_seq; specialize (HR _ Hphi); lia].
        apply Qsum_map_ext. intros; lra.
      + apply Forall_forall. intros cn Hcn. apply in_flat_map in Hcn as (c & Hc & Hcn). apply in_seq in Hc. revert cn Hcn. apply Forall_forall.
        apply Hdist; [apply Hb; lia|intros; apply H01|]. split.
        * intros E. rewrite Hdc. assert (Hc' : In c W). { cbn in E. unfold of_committee in E. destruct (mem c W) eqn:M; [apply mem_In; auto|lra]. }
          specialize (P3 c Hc'). rewrite Hl in P3. split; apply Qnat_le'; apply P3.
        * intros E j Hj. cbn in E |- *. destruct (Nat.eqb_spec (nth j phi 0) c) as [<-|]; [|reflexivity].
          exfalso. unfold of_committee in E. specialize (Hphi j Hj). apply mem_In in Hphi. rewrite Hphi in E. lra.
      + cbn [holds]. rewrite ev_var. cbn [solution_of]. unfold represented_lin. rewrite ev_sum, flat_map_map, Qsum_flat, <- (represented_as_sum p phi P1), P1.
        apply Qle_lteq. right. symmetry. apply Qsum_map_ext. intros j Hj. apply in_seq in Hj. specialize (Hphi j ltac:(unfold n; lia)). rewrite map_map.
        rewrite <- (sum_indicator 0 (fun d => one_if (voter_approves p j d)) (candidates p) (nth j phi 0)); [|apply seq_NoDup|apply in_seq; specialize (HR _ Hphi); lia].
        apply Qsum_map_ext. intros d Hd. rewrite ev_scale, ev_var. cbn [solution_of]. unfold one_if. reflexivity.
  Qed.

  Theorem monroe_encodes : encodes p k m (fun W => Qnat (mscore W)).
  Proof using Hnx Hk Hparts Hparts' Hdist.
    apply encodes_intro.
      - intros d Hd. apply in_or_app. auto.
      - left. auto.
      - intros x Hx _. cbn [objective m monroe_program]. rewrite ev_var.
        assert (HW : is_committee p k (members p x)) by (apply size_of_con; [apply monroe_binary; auto|]; destruct Hx as [_ Hc]; rewrite Forall_forall in Hc; apply Hc; left; auto).
        assert (Hsat : (x Satisfaction <= ev x (represented_lin p))%Q).
        { pose proof Hx as [_ Hc]. rewrite Forall_forall in Hc. specialize (Hc (CGe (represented_lin p) (lvar Satisfaction))). cbn [holds] in Hc. rewrite ev_var in Hc. apply Hc.
          cbn [cons m monroe_program]. right. apply in_or_app. right. apply in_or_app. right. left. auto. }
        rewrite (represented_count x Hx) in Hsat. eapply Qle_trans; [exact Hsat|]. apply Qnat_le'.
        destruct (mscore_ok _ HW) as [(_ & C) _]. apply C. apply feasible_assignment. auto.
      - intros W HW. destruct (mscore_ok W HW) as [((phi & A & B) & C) _]. exists (solution_of p W phi). split; [apply solution_feasible; auto|].
        split; [eapply of_committee_members; eauto|]. cbn [objective m monroe_program]. rewrite ev_var. cbn [solution_of]. rewrite B. reflexivity.
  Qed.

  Theorem solver_monroe_correct : answers (monroe_winner p k) resolute maxn (solver_monroe nx s th m p k resolute maxn).
  Proof using All.
    eapply answers_ext with (P := maximises (fun W => Qnat (mscore W)) p k).
    - intros W. split.
      + intros (HW & Hb). split; auto. destruct (mscore_ok W HW) as [((phi & A & B) & C) _]. exists phi. split; auto. intros W' phi' HW' Hphi'.
        specialize (Hb W' HW'). apply Qnat_le' in Hb. destruct (mscore_ok W' HW') as [(_ & C') _]. specialize (C' phi' Hphi'). lia.
      + intros (HW & phi & A & B). split; auto. intros W' HW'. apply Qnat_le'. destruct (mscore_ok W HW) as [(_ & C) _].
        destruct (mscore_ok W' HW') as [((phi' & A' & B') & _) _]. specialize (C phi A). specialize (B W' phi' HW' A'). lia.
    - unfold solver_monroe. apply encoding_correct; auto.
      + intros d Hd. apply in_or_app. auto.
      + left. auto.
      + intros x Hx. apply monroe_encodes. auto.
      + apply monroe_encodes.
      + lia.
      + intros W HW. destruct (mscore_ok W HW) as [_ E]. unfold monroe_score_fct. rewrite E. cbn [rbind]. eexists. split; reflexivity.
  Qed.
End Monroe.

Lemma district_cons_ok : forall p k x c, 1 <= k -> (x (InCommittee c) == 0)%Q \/ (x (InCommittee c) == 1)%Q ->
  (forall j, j < length (voters p) -> (x (Partition c j) == 0)%Q \/ (x (Partition c j) == 1)%Q) ->
  (Forall (holds x) (district_cons p k c) <-> districts_ok p k x c).
Proof.
  intros p k x c Hk H01 Hp. set (n := length (voters p)) in *.
  assert (Hnn : (0 <= ev x (district p c) /\ ev x (district p c) <= Qnat n)%Q /\
    ((ev x (district p c) <= 0)%Q -> forall j, j < n -> (x (Partition c j) == 0)%Q)).
  { unfold district. rewrite ev_vsum, map_map. assert (Hpp : forall j, In j (voter_numbers p) -> (x (Partition c j) == 0)%Q \/ (x (Partition c j) == 1)%Q).
    { intros j Hj. apply in_seq in Hj. apply Hp. unfold n. lia. }
    split; [split|].
    - apply Qsum_map_nonneg. intros j Hj. destruct (Hpp j Hj) as [-> | ->]; lra.
    - eapply Qle_trans; [apply Qsum_map_le with (g := fun _ => 1%Q)|].
      + intros j Hj. destruct (Hpp j Hj) as [-> | ->]; lra.
      + unfold n, voter_numbers. rewrite Qsum_map_const, seq_length. lra.
    - intros Hz j Hj. assert (Hin : In j (voter_numbers p)) by (apply in_seq; unfold n in Hj; lia). revert Hz Hpp Hin. generalize (voter_numbers p).
      clear. intros l. induction l as [|i l IH]; intros Hz Hpp Hin; [destruct Hin|]. unfold Qsum in Hz; cbn [map fold_right] in Hz.
      fold (Qsum (map (fun j => x (Partition c j)) l)) in Hz.
      assert (0 <= Qsum (map (fun j => x (Partition c j)) l))%Q.
      { apply Qsum_map_nonneg. intros a Ha. destruct (Hpp a (or_intror Ha)) as [-> | ->]; lra. }
      assert (0 <= x (Partition c i))%Q by (destruct (Hpp i (or_introl eq_refl)) as [-> | ->]; lra).
      destruct Hin as [->|Hin]; [lra|]. apply IH; auto; [lra|]. intros; apply Hpp; right; auto. }
  destruct Hnn as ((N1 & N2) & N3). unfold district_cons, districts_ok. fold n. rewrite (ceil_form n k Hk).
  assert (Hle : (Qnat (n / k) <= Qnat n)%Q) by (apply Qnat_le'; apply Nat.div_le_upper_bound; nia).
  assert (Hge0 : forall a, (0 <= Qnat a)%Q) by (intros a; apply Qnat_le' with (a := 0); lia).
  pose proof (Hge0 (n / k + (if n mod k =? 0 then 0 else 1))) as G1. set (D := ev x (district p c)) in *.
  rewrite Forall_forall. split.
  - intros H. pose proof (H _ (or_introl eq_refl)) as A. pose proof (H _ (or_intror (or_introl eq_refl))) as B.
    pose proof (H _ (or_intror (or_intror (or_introl eq_refl)))) as C. cbn [holds] in A, B, C.
    rewrite ev_sub, ev_const, ev_scale, ev_absent in A. rewrite ev_add, ev_const, ev_scale, ev_absent in B. rewrite ev_scale, ev_var in C. fold D in A, B, C.
    split.
    + intros E. rewrite E in A, B. split; lra.
    + intros E. rewrite E in C. apply N3. lra.
  - intros [A B] y Hy. destruct Hy as [<-|[<-|[<-|[]]]]; cbn [holds].
    + rewrite ev_sub, ev_const, ev_scale, ev_absent. fold D. destruct H01 as [E|E]; rewrite E; [lra|]. specialize (A E). lra.
    + rewrite ev_add, ev_const, ev_scale, ev_absent. fold D. destruct H01 as [E|E]; rewrite E; [lra|]. specialize (A E). lra.
    + rewrite ev_scale, ev_var. fold D. destruct H01 as [E|E]; rewrite E; [|lra].
      assert (D == 0)%Q; [|lra]. unfold D, district. rewrite ev_vsum, map_map. apply Qsum_map_zero. intros j Hj. apply in_seq in Hj. apply B; auto. unfold n. lia.
Qed.
Lemma district_cons_cp_ok : forall p k x c, 1 <= k -> (x (InCommittee c) == 0)%Q \/ (x (InCommittee c) == 1)%Q ->
  (forall j, j < length (voters p) -> (x (Partition c j) == 0)%Q \/ (x (Partition c j) == 1)%Q) ->
  (Forall (holds x) (district_cons_cp p k c) <-> districts_ok p k x c).
Proof.
  intros p k x c Hk H01 Hp. unfold district_cons_cp, districts_ok. rewrite (ceil_form _ k Hk). split.
  - intros H. inversion H as [|? ? A H']; subst. inversion H' as [|? ? B H'']; subst. cbn [holds] in A, B. rewrite ev_const in A, B. split; [auto|].
    intros E j Hj. rewrite Forall_forall in H''. specialize (H'' (CLe (lvar (Partition c j)) (lvar (InCommittee c)))). cbn [holds] in H''. rewrite !ev_var in H''.
    assert (x (Partition c j) <= x (InCommittee c))%Q. { apply H''. apply in_map_iff. exists j. split; auto. apply in_seq. lia. }
    destruct (Hp j Hj) as [->|E1]; [reflexivity|]. lra.
  - intros [A B]. constructor; [|constructor].
    + cbn [holds]. rewrite ev_const. intros E. apply A; auto.
    + cbn [holds]. rewrite ev_const. intros E. apply A; auto.
    + apply Forall_forall. intros y Hy. apply in_map_iff in Hy as (j & <- & Hj). apply in_seq in Hj. cbn [holds]. rewrite !ev_var.
      destruct H01 as [E|E]; [rewrite (B E j) by lia; lra|]. destruct (Hp j ltac:(lia)) as [-> | ->]; lra.
Qed.

Lemma partition_decls_nat : forall p typ low x, typ = Integer /\ low = Some 0%Q \/ typ = Binary /\ low = None ->
  Forall (in_domain x) (partition_decls p typ low) -> forall c j, c < num_cand p -> j < length (voters p) ->
  exists z, (0 <= z)%Z /\ (x (Partition c j) == inject_Z z)%Q.
Proof.
  intros p typ low x Ht Hf c j Hc Hj. rewrite Forall_forall in Hf. specialize (Hf (mkDecl (Partition c j) typ low None)).
  assert (Hin : In (mkDecl (Partition c j) typ low None) (partition_decls p typ low)).
  { apply in_flat_map. exists c. split; [apply in_seq; lia|]. apply in_map_iff. exists j. split; auto. apply in_seq. lia. }
  specialize (Hf Hin). destruct Ht as [[-> ->]|[-> ->]]; destruct Hf as (A & B & _); cbn in A, B.
  - destruct A as [z Hz]. exists z. split; auto. rewrite Hz in B. change 0%Q with (inject_Z 0) in B. rewrite <- Zle_Qle in B. auto.
  - destruct A as [A|A]; [exists 0%Z|exists 1%Z]; (split; [lia|rewrite A; reflexivity]).
Qed.
Lemma partition_decls_of : forall p typ low x, typ = Integer /\ low = Some 0%Q \/ typ = Binary /\ low = None ->
  (forall c j, c < num_cand p -> j < length (voters p) -> (x (Partition c j) == 0)%Q \/ (x (Partition c j) == 1)%Q) ->
  Forall (in_domain x) (partition_decls p typ low).
Proof.
  intros p typ low x Ht H. apply Forall_forall. intros d Hd. apply in_flat_map in Hd as (c & Hc & Hd). apply in_map_iff in Hd as (j & <- & Hj).
  apply in_seq in Hc, Hj. specialize (H c j ltac:(lia) ltac:(lia)). destruct Ht as [[-> ->]|[-> ->]]; (split; [|split; [|exact I]]); cbn; auto.
  - destruct H as [H|H]; [exists 0%Z|exists 1%Z]; rewrite H; reflexivity.
  - destruct H as [-> | ->]; lra.
Qed.

Theorem monroe_programs_encode : forall nx p k, networkx_correct nx -> 1 <= k <= num_cand p ->
  exists S, (forall W, is_committee p k W -> is_monroe_score p W (S W)) /\
    encodes p k (monroe_gurobi p k) (fun W => Qnat (S W)) /\ encodes p k (monroe_mip p k) (fun W => Qnat (S W)) /\
    encodes p k (monroe_ortools p k) (fun W => Qnat (S W)).
Proof.
  intros nx p k Hnx Hk. exists (mscore nx p). split; [intros W HW; eapply mscore_ok; eauto|]. split; [|split]; apply (monroe_encodes nx p k); auto.
  all: try (intros; eapply (partition_decls_nat p); [|eassumption|auto|auto]; auto; fail).
  all: try (intros; apply partition_decls_of; auto; fail).
  all: try (intros; apply district_cons_ok; auto; lia).
  intros; apply district_cons_cp_ok; auto; lia.
Qed.

Section Backends.
  Variables (nx : networkx) (s : solver) (p : profile) (k : nat) (resolute : bool) (maxn : option nat).
  Hypothesis Hnx : networkx_correct nx.
  Hypothesis Hk : 1 <= k <= num_cand p.
  Hypothesis Hmax : valid_max maxn.

  Theorem monroe_gurobi_correct : solves s p k (monroe_gurobi p k) ->
    answers (monroe_winner p k) resolute maxn (solver_monroe nx s MIP_THRESHOLD (monroe_gurobi p k) p k resolute maxn).
  Proof using Hnx Hk Hmax.
    intros Hs. apply solver_monroe_correct; auto; try (unfold MIP_THRESHOLD; lra).
    - intros. eapply (partition_decls_nat p); [|eassumption|auto|auto]; auto.
    - intros. apply partition_decls_of; auto.
    - intros. apply district_cons_ok; auto; lia.
  Qed.
  Theorem monroe_mip_correct : solves s p k (monroe_mip p k) ->
    answers (monroe_winner p k) resolute maxn (solver_monroe nx s MIP_THRESHOLD (monroe_mip p k) p k resolute maxn).
  Proof using Hnx Hk Hmax.
    intros Hs. apply solver_monroe_correct; auto; try (unfold MIP_THRESHOLD; lra).
    - intros. eapply (partition_decls_nat p); [|eassumption|auto|auto]; auto.
    - intros. apply partition_decls_of; auto.
    - intros. apply district_cons_ok; auto; lia.
  Qed.
  Theorem monroe_ortools_correct : solves s p k (monroe_ortools p k) ->
    answers (monroe_winner p k) resolute maxn (solver_monroe nx s CP_THRESHOLD (monroe_ortools p k) p k resolute maxn).
  Proof using Hnx Hk Hmax.
    intros Hs. apply solver_monroe_correct; auto; try (unfold CP_THRESHOLD; lra).
    - intros. eapply (partition_decls_nat p); [|eassumption|auto|auto]; auto.
    - intros. apply partition_decls_of; auto.
    - intros. apply district_cons_cp_ok; auto; lia.
  Qed.
End Backends.

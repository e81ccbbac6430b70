(** * The programs for minimax Phragmén and leximax Phragmén *)
From Coq Require Import String.
From Coq Require Import List Arith Bool ZArith QArith Lia Lqa Permutation.
From Verif Require Import Prelude Misc MiscProofs Preferences Scores Spec SpecRules Common ScoresProofs ThieleProofs OptProofs
  Milp MilpProofs SpecLoads RulesSolver SolverProofs.
Import ListNotations.
Open Scope nat_scope.

Lemma with_positions_eq : forall p, with_positions p = numbered p.
Proof. reflexivity. Qed.

(** every voter counts at least as much as one person *)
Definition weights_at_least_one (p : profile) : Prop := Forall (fun v => (1 <= weight v)%Q) (voters p).

Lemma Qsum_ge_member : forall (A : Type) (f : A -> Q) l a, (forall b, In b l -> (0 <= f b)%Q) -> In a l -> (f a <= Qsum (map f l))%Q.
Proof.
  intros A f l a. induction l as [|b l IH]; intros Hn Hin; [destruct Hin|]. unfold Qsum; cbn [map fold_right]. fold (Qsum (map f l)).
  assert (0 <= Qsum (map f l))%Q by (apply Qsum_map_nonneg; intros; apply Hn; right; auto).
  destruct Hin as [->|Hin]; [lra|]. assert (f a <= Qsum (map f l))%Q by (apply IH; auto; intros; apply Hn; right; auto).
  specialize (Hn b (or_introl eq_refl)). lra.
Qed.
Lemma Qsum_map_filter_le : forall (A : Type) (f : A -> Q) (b : A -> bool) l, (forall a, In a l -> (0 <= f a)%Q) -> (Qsum (map f (filter b l)) <= Qsum (map f l))%Q.
Proof.
  intros A f b l. induction l as [|a l IH]; intros H; [cbn; lra|]. cbn [filter map].
  assert (Hl : (Qsum (map f (filter b l)) <= Qsum (map f l))%Q) by (apply IH; intros; apply H; right; auto).
  assert (0 <= f a)%Q by (apply H; left; auto).
  destruct (b a); cbn [map]; unfold Qsum; cbn [fold_right]; fold (Qsum (map f l)); fold (Qsum (map f (filter b l))); lra.
Qed.

Section Loads.
  Variables (p : profile) (k : nat).
  Hypothesis Hw : wf p.
  Hypothesis Hone : weights_at_least_one p.

  (** the loads of a solution, only for the committee and scaled to 1 *)
  Definition paid_for (x : assignment) (c : nat) : Q :=
    Qsum (map (fun iv => weight (snd iv) * x (Load (fst iv) c)) (filter (fun iv => approves (snd iv) c) (numbered p)))%Q.
  Definition loads_of (x : assignment) (i c : nat) : Q := if (i <? length (voters p)) && (c <? num_cand p) then (x (Load i c) / paid_for x c)%Q else 0%Q.
  Definition loads_ok (x : assignment) : Prop :=
    (forall i c, i < length (voters p) -> c < num_cand p -> (0 <= x (Load i c))%Q) /\
    (forall c, c < num_cand p -> (x (InCommittee c) <= paid_for x c)%Q).

  Lemma load_con_paid : forall x c, (ev x (lsum (map (fun iv => lscale (weight (snd iv)) (load_lin (fst iv) (snd iv) c)) (numbered p))) == paid_for x c)%Q.
  Proof.
    intros x c. rewrite ev_sum, map_map. unfold paid_for. rewrite Qsum_filter. apply Qsum_map_ext. intros (i, v) _. cbn [fst snd].
    rewrite ev_scale. unfold load_lin, approves. destruct (mem c (approved v)); [rewrite ev_var|rewrite ev_const]; lra.
  Qed.
  Lemma loads_ok_of : forall m x, incl (load_decls p) (decls m) -> incl (load_cons p) (cons m) -> feasible m x -> loads_ok x.
  Proof.
    intros m x Hd Hc [Fd Fc]. rewrite Forall_forall in Fd, Fc. split.
    - intros i c Hi Hcc. destruct (nth_error (voters p) i) as [v|] eqn:E; [|apply nth_error_None in E; lia].
      destruct (Fd (mkDecl (Load i c) Continuous (Some 0%Q) (Some 1%Q))) as (_ & H & _); auto.
      apply Hd. apply in_flat_map. exists c. split; [apply in_seq; lia|]. apply in_map_iff. exists (i, v). split; auto. apply numbered_In. auto.
    - intros c Hcc. specialize (Fc (CGe (lsum (map (fun iv => lscale (weight (snd iv)) (load_lin (fst iv) (snd iv) c)) (numbered p))) (lvar (InCommittee c)))).
      cbn [holds] in Fc. rewrite load_con_paid, ev_var in Fc. apply Fc. apply Hc. apply in_map_iff. exists c. split; auto. apply in_seq. lia.
  Qed.

  Lemma loads_of_distribution : forall x, binary_committee p x -> loads_ok x -> load_distribution p (members p x) (loads_of x).
  Proof using Hw.
    intros x Hb [H0 H1].
    assert (Hp0 : forall c, c < num_cand p -> (0 <= paid_for x c)%Q).
    { intros c Hc. apply Qsum_map_nonneg. intros (i, v) Hiv. apply filter_In in Hiv as [Hiv _]. cbn [fst snd].
      pose proof (numbered_voter _ _ _ Hiv) as Hv. apply numbered_In in Hiv. assert (i < length (voters p)) by (apply nth_error_Some; congruence).
      destruct (wf_approved p v Hw Hv) as (_ & _ & Hpos). specialize (H0 i c H Hc). nra. }
    split.
    - intros i c. unfold loads_of. destruct (Nat.ltb_spec i (length (voters p))); [|cbn; lra]. destruct (Nat.ltb_spec c (num_cand p)); [|cbn; lra]. cbn [andb].
      specialize (Hp0 c ltac:(auto)). specialize (H0 i c ltac:(auto) ltac:(auto)). unfold Qdiv.
      assert (0 <= / paid_for x c)%Q by (apply Qinv_le_0_compat; auto). nra.
    - intros c Hc. apply (members_In p x c Hb) in Hc as [Hc E]. specialize (H1 c Hc). rewrite E in H1.
      rewrite with_positions_eq. transitivity (Qsum (map (fun iv => / paid_for x c * (weight (snd iv) * x (Load (fst iv) c))) (filter (fun iv => approves (snd iv) c) (numbered p))))%Q.
      + apply Qsum_map_ext. intros (i, v) Hiv. apply filter_In in Hiv as [Hiv _]. apply numbered_In in Hiv. assert (Hi : i < length (voters p)) by (apply nth_error_Some; congruence).
        cbn [fst snd]. unfold loads_of. apply Nat.ltb_lt in Hi. apply Nat.ltb_lt in Hc. rewrite Hi, Hc. cbn [andb]. unfold Qdiv. lra.
      + rewrite Qsum_map_scal. fold (paid_for x c). rewrite Qmult_comm. apply Qmult_inv_r. lra.
  Qed.
  Lemma loads_of_le : forall x i v, binary_committee p x -> loads_ok x -> In (i, v) (numbered p) ->
    (voter_load (members p x) (loads_of x) i v <= ev x (load_of (i, v)))%Q.
  Proof using Hw.
    intros x i v Hb Hok Hiv. pose proof Hok as [H0 H1]. unfold voter_load, load_of. rewrite ev_vsum, map_map. cbn [fst snd].
    pose proof (numbered_voter _ _ _ Hiv) as Hv. destruct (wf_approved p v Hw Hv) as (_ & Hr & _). rewrite Forall_forall in Hr.
    apply numbered_In in Hiv. assert (Hi : i < length (voters p)) by (apply nth_error_Some; congruence).
    eapply Qle_trans; [|apply Qsum_map_filter_le with (b := fun c => mem c (members p x)); intros c Hc; apply H0; auto].
    unfold inter. apply Qsum_map_le. intros c Hc. apply filter_In in Hc as [Hc Hm]. apply mem_In in Hm. apply (members_In p x c Hb) in Hm as [Hcc E].
    unfold loads_of. apply Nat.ltb_lt in Hi as Hi'. apply Nat.ltb_lt in Hcc as Hcc'. rewrite Hi', Hcc'. cbn [andb].
    specialize (H1 c Hcc). rewrite E in H1. specialize (H0 i c Hi Hcc). apply Qle_shift_div_r; [lra|]. nra.
  Qed.

  (** the variables of a distribution *)
  Definition load_value (W : list nat) (l : nat -> nat -> Q) (i c : nat) : Q :=
    match nth_error (voters p) i with Some v => if approves v c && mem c W then l i c else 0%Q | None => 0%Q end.
  Lemma load_value_range : forall W l i c, load_distribution p W l -> (0 <= load_value W l i c <= 1)%Q.
  Proof using Hw Hone.
    intros W l i c [L0 L1]. unfold load_value. destruct (nth_error (voters p) i) as [v|] eqn:E; [|lra]. destruct (approves v c && mem c W) eqn:B; [|lra].
    apply andb_true_iff in B as [Ba Bm]. apply mem_In in Bm. specialize (L1 c Bm). rewrite with_positions_eq in L1. split; auto.
    assert (Hiv : In (i, v) (numbered p)) by (apply numbered_In; auto).
    assert (H : (weight v * l i c <= 1)%Q).
    { rewrite <- L1. apply (Qsum_ge_member _ (fun iv => weight (snd iv) * l (fst iv) c)%Q _ (i, v)); [|apply filter_In; auto].
      intros (j, u) Hju. apply filter_In in Hju as [Hju _]. cbn [fst snd]. destruct (wf_approved p u Hw (numbered_voter _ _ _ Hju)) as (_ & _ & Hp). specialize (L0 j c). nra. }
    unfold weights_at_least_one in Hone. rewrite Forall_forall in Hone. specialize (Hone v (numbered_voter _ _ _ Hiv)). specialize (L0 i c). nra.
  Qed.
  Lemma load_value_decls : forall W l x, load_distribution p W l -> (forall i c, x (Load i c) = load_value W l i c) -> Forall (in_domain x) (load_decls p).
  Proof using Hw Hone.
    intros W l x HL Hx. apply Forall_forall. intros d Hd. apply in_flat_map in Hd as (c & _ & Hd). apply in_map_iff in Hd as ((i, v) & <- & _).
    split; [exact I|]. cbn. rewrite Hx. apply load_value_range; auto.
  Qed.
  Lemma load_value_cons : forall W l x, load_distribution p W l -> (forall i c, x (Load i c) = load_value W l i c) ->
    (forall c, x (InCommittee c) = of_committee W c) -> Forall (holds x) (load_cons p).
  Proof using Hw Hone.
    intros W l x HL Hx Hc. apply Forall_forall. intros y Hy. apply in_map_iff in Hy as (c & <- & _). cbn [holds]. rewrite load_con_paid, ev_var, Hc.
    unfold of_committee. destruct (mem c W) eqn:M.
    - apply mem_In in M as HM. destruct HL as [_ HL]. specialize (HL c HM). rewrite <- HL. apply Qle_lteq. right. rewrite with_positions_eq. unfold paid_for.
      apply Qsum_map_ext. intros (i, v) Hiv. apply filter_In in Hiv as [Hiv Ha]. apply numbered_In in Hiv. cbn [fst snd] in *. rewrite Hx. unfold load_value. rewrite Hiv, Ha, M. reflexivity.
    - unfold paid_for. apply Qsum_map_nonneg. intros (i, v) Hiv. apply filter_In in Hiv as [Hiv _]. cbn [fst snd]. rewrite Hx.
      destruct (wf_approved p v Hw (numbered_voter _ _ _ Hiv)) as (_ & _ & Hp). pose proof (load_value_range W l i c HL). nra.
  Qed.
  Lemma load_value_sum : forall W l x i v, (forall i c, x (Load i c) = load_value W l i c) -> In (i, v) (numbered p) ->
    (ev x (load_of (i, v)) == voter_load W l i v)%Q.
  Proof.
    intros W l x i v Hx Hiv. unfold load_of, voter_load, inter. rewrite ev_vsum, map_map. cbn [fst snd]. rewrite Qsum_filter. apply Qsum_map_ext.
    intros c Hc. rewrite Hx. unfold load_value. apply numbered_In in Hiv. rewrite Hiv. unfold approves. apply mem_In in Hc. rewrite Hc. cbn [andb]. reflexivity.
  Qed.
  Lemma voter_load_le : forall W l i v, is_committee p k W -> load_distribution p W l -> In (i, v) (numbered p) -> (0 <= voter_load W l i v <= Qnat k)%Q.
  Proof using Hw Hone.
    intros W l i v (HA & Hl & _) HL Hiv. unfold voter_load. split; [apply Qsum_map_nonneg; intros; apply HL|].
    eapply Qle_trans; [apply Qsum_map_le with (g := fun _ => 1%Q)|].
    - intros c Hc. unfold inter in Hc. apply filter_In in Hc as [Hc Hm]. pose proof (load_value_range W l i c HL) as H. unfold load_value in H.
      apply numbered_In in Hiv. rewrite Hiv in H. unfold approves in H. apply mem_In in Hc. rewrite Hc, Hm in H. cbn [andb] in H. lra.
    - rewrite Qsum_map_const. assert (length (inter (approved v) W) <= k).
      { rewrite <- Hl. apply NoDup_incl_length.
        - apply NoDup_filter. apply (wf_approved p v Hw). eapply numbered_voter; eauto.
        - intros c Hc. apply filter_In in Hc as [_ Hc]. apply mem_In. auto. }
      apply Qnat_le' in H. lra.
  Qed.

  (** exactly the committees of approved candidates have a distribution *)
  Lemma distribution_exists : forall W, (forall c, In c W -> exists v, In v (voters p) /\ approves v c = true) -> exists l, load_distribution p W l.
  Proof using Hw.
    intros W HW.
    set (fans := fun c => filter (fun iv => approves (snd iv) c) (numbered p)).
    exists (fun i c => match fans c with (j, u) :: _ => if i =? j then (/ weight u)%Q else 0%Q | [] => 0%Q end). split.
    - intros i c. destruct (fans c) as [|(j, u) r] eqn:E; [lra|]. destruct (i =? j); [|lra].
      assert (Hin : In (j, u) (fans c)) by (rewrite E; left; auto). apply filter_In in Hin as [Hin _].
      destruct (wf_approved p u Hw (numbered_voter _ _ _ Hin)) as (_ & _ & Hp). apply Qinv_le_0_compat. lra.
    - intros c Hc. rewrite with_positions_eq. fold (fans c). destruct (fans c) as [|(j, u) r] eqn:E.
      + exfalso. destruct (HW c Hc) as (v & Hv & Ha). rewrite <- (numbered_snd p) in Hv. apply in_map_iff in Hv as ((i, v') & <- & Hiv).
        assert (Hin : In (i, v') (fans c)) by (apply filter_In; auto). rewrite E in Hin. destruct Hin.
      + assert (Hnd : NoDup (map fst (fans c))).
        { unfold fans. assert (G : forall l : list (nat * voter), NoDup (map fst l) -> NoDup (map fst (filter (fun iv => approves (snd iv) c) l))).
          { induction l as [|a l IH]; intros Hn; [constructor|]. inversion Hn; subst. cbn [filter]. destruct (approves (snd a) c); auto. cbn [map]. constructor; auto.
            intros Hin. apply H1. apply in_map_iff in Hin as (b & <- & Hb). apply filter_In in Hb as [Hb _]. apply in_map. auto. }
          apply G. rewrite numbered_fst. apply seq_NoDup. }
        rewrite E in Hnd. cbn [map fst] in Hnd. inversion Hnd as [|? ? Hnot Hn]; subst. unfold Qsum; cbn [map fold_right fst snd]. rewrite Nat.eqb_refl.
        fold (Qsum (map (fun iv => weight (snd iv) * (if fst iv =? j then / weight u else 0)) r)%Q).
        rewrite (Qsum_map_zero _ (fun iv => weight (snd iv) * (if (fst iv =? j)%nat then / weight u else 0))%Q r).
        * assert (Hin : In (j, u) (fans c)) by (rewrite E; left; auto). apply filter_In in Hin as [Hin _].
          destruct (wf_approved p u Hw (numbered_voter _ _ _ Hin)) as (_ & _ & Hp). rewrite Qmult_inv_r by lra. lra.
        * intros (i, v) Hiv. cbn [fst snd]. destruct (Nat.eqb_spec i j) as [->|]; [|lra]. exfalso. apply Hnot. apply in_map_iff. exists (j, v). auto.
  Qed.
  Lemma distribution_approved : forall W l, load_distribution p W l -> forall c, In c W -> exists v, In v (voters p) /\ approves v c = true.
  Proof.
    intros W l [_ H] c Hc. specialize (H c Hc). destruct (filter (fun iv => approves (snd iv) c) (with_positions p)) as [|(i, v) r] eqn:E; [cbn in H; lra|].
    assert (Hin : In (i, v) (filter (fun iv => approves (snd iv) c) (with_positions p))) by (rewrite E; left; auto).
    apply filter_In in Hin as [Hin Ha]. exists v. split; auto. eapply numbered_voter; eauto.
  Qed.
End Loads.

(** enough approved candidates: some committee consists of approved candidates *)
Lemma approved_committee : forall p k, wf p -> k <= length (approved_candidates p) ->
  exists W, is_committee p k W /\ forall c, In c W -> exists v, In v (voters p) /\ approves v c = true.
Proof.
  intros p k Hw Hk. set (A := filter (fun c => existsb (fun v => approves v c) (voters p)) (candidates p)).
  assert (HA : forall c, In c A <-> c < num_cand p /\ exists v, In v (voters p) /\ approves v c = true).
  { intros c. unfold A, candidates. rewrite filter_In, existsb_exists, in_seq. intuition lia. }
  assert (Hl : k <= length A).
  { eapply Nat.le_trans; [exact Hk|]. apply NoDup_incl_length; [apply dedup_NoDup|]. intros c Hc. unfold approved_candidates in Hc.
    rewrite dedup_In, in_flat_map in Hc. destruct Hc as (v & Hv & Hc). apply HA. destruct (wf_approved p v Hw Hv) as (_ & Hr & _). rewrite Forall_forall in Hr.
    split; [auto|]. exists v. split; auto. apply mem_In. auto. }
  assert (Hin : forall c, In c (firstn k A) -> In c A) by (intros c Hc; rewrite <- (firstn_skipn k A); apply in_or_app; auto).
  exists (firstn k A). split; [|intros c Hc; apply HA; auto]. split; [|split].
  - assert (Hasc : ascending A) by (apply ascending_filter, ascending_seq). revert Hasc. generalize A. clear. intros l. revert k.
    induction l as [|a l IH]; intros k H; [rewrite firstn_nil; auto|]. destruct k as [|k]; [constructor|]. cbn [firstn]. inversion H; subst. constructor; [apply IH; auto|].
    rewrite Forall_forall in *. intros c Hc. apply H3. rewrite <- (firstn_skipn k l). apply in_or_app. auto.
  - apply firstn_length_le. auto.
  - apply Forall_forall. intros c Hc. apply HA. auto.
Qed.

Section Minimax.
  Variables (s : solver) (p : profile) (k : nat) (resolute : bool) (maxn : option nat).
  Hypothesis Hw : wf p.
  Hypothesis Hone : weights_at_least_one p.
  Hypothesis Hne : voters p <> [].
  Hypothesis Henough : k <= length (approved_candidates p).
  Hypothesis Hmax : valid_max maxn.
  Let m := minimaxphragmen_program p k.
  Hypothesis Hs : solves s p k m.

  Lemma mmp_binary : forall x, feasible m x -> binary_committee p x.
  Proof. intros x Hx. eapply binary_of_decls; [|exact Hx]. intros d Hd. apply in_or_app. auto. Qed.
  Lemma mmp_size : forall x, feasible m x -> is_committee p k (members p x).
  Proof. intros x Hx. apply size_of_con; [apply mmp_binary; auto|]. destruct Hx as [_ Hc]. rewrite Forall_forall in Hc. apply Hc. left. auto. Qed.
  Lemma mmp_loads : forall x, feasible m x -> loads_ok p x.
  Proof.
    intros x Hx. eapply loads_ok_of; [| |exact Hx].
    - intros d Hd. apply in_or_app. right. apply in_or_app. auto.
    - intros c Hc. right. apply in_or_app. auto.
  Qed.
  Lemma mmp_max_load : forall W q, achieves p m W q -> max_load p W (- q).
  Proof using Hw.
    intros W q (x & Hx & <- & Eq). pose proof (mmp_binary x Hx) as Hb. pose proof (mmp_loads x Hx) as Hok. exists (loads_of p x).
    split; [apply loads_of_distribution; auto|]. intros i v Hiv. eapply Qle_trans; [apply loads_of_le; auto|].
    pose proof Hx as [_ Fc]. rewrite Forall_forall in Fc. specialize (Fc (CLe (load_of (i, v)) (lvar LoadBound))). cbn [holds] in Fc. rewrite ev_var in Fc.
    cbn [m objective minimaxphragmen_program] in Eq. rewrite ev_scale, ev_var in Eq.
    assert (ev x (load_of (i, v)) <= x LoadBound)%Q; [|lra]. apply Fc. right. apply in_or_app. right. apply in_map_iff. exists (i, v). auto.
  Qed.
  Lemma mmp_achieves : forall W b, is_committee p k W -> max_load p W b -> exists b', (b' <= b)%Q /\ achieves p m W (- b').
  Proof using Hw Hone Hne Henough.
    intros W b HW (l & HL & Hb).
    assert (Hb0 : (0 <= b)%Q).
    { destruct (voters p) as [|v0 vs] eqn:Ev; [congruence|]. assert (Hiv : In (0, v0) (numbered p)) by (apply numbered_In; rewrite Ev; auto).
      specialize (Hb 0 v0 Hiv). pose proof (voter_load_le p k Hw Hone W l 0 v0 HW HL Hiv). lra. }
    set (b' := if Qlt_le_dec b (Qnat k) then b else Qnat k).
    assert (Hk0 : (0 <= Qnat k)%Q) by (apply Qnat_le' with (a := 0); lia).
    assert (Hb' : (0 <= b' /\ b' <= b /\ b' <= Qnat k)%Q) by (unfold b'; destruct (Qlt_le_dec b (Qnat k)); repeat split; lra).
    assert (Hle : forall i v, In (i, v) (numbered p) -> (voter_load W l i v <= b')%Q).
    { intros i v Hiv. specialize (Hb i v Hiv). pose proof (voter_load_le p k Hw Hone W l i v HW HL Hiv). unfold b'. destruct (Qlt_le_dec b (Qnat k)); lra. }
    exists b'. split; [lra|].
    set (x := fun y => match y with InCommittee c => of_committee W c | Load i c => load_value p W l i c | LoadBound => b' | _ => 0%Q end).
    assert (Hbin : binary_committee p x) by (eapply of_committee_binary; intros; reflexivity).
    assert (Em : members p x = W) by (eapply of_committee_members; eauto).
    exists x. split; [split|split]; auto.
    - cbn [m decls minimaxphragmen_program]. apply Forall_app. split; [|apply Forall_app; split; [|constructor; [|constructor]]].
      + apply Forall_forall. intros d Hd. unfold in_committee_vars in Hd. apply in_map_iff in Hd as (c & <- & _). split; [|split; exact I]. cbn.
        unfold of_committee. destruct (mem c W); [right|left]; reflexivity.
      + eapply load_value_decls; eauto.
      + split; [exact I|]. cbn. lra.
    - cbn [m cons minimaxphragmen_program]. constructor; [apply size_con_of; auto; rewrite Em; auto|]. apply Forall_app. split.
      + eapply load_value_cons; eauto.
      + apply Forall_forall. intros c Hc. apply in_map_iff in Hc as ((i, v) & <- & Hiv). cbn [holds]. rewrite ev_var, (load_value_sum p W l x i v); auto.
    - cbn [m objective minimaxphragmen_program]. rewrite ev_scale, ev_var. cbn [x]. lra.
  Qed.

  Lemma mmp_good : forall W, good p None m W <-> minimaxphragmen_winner CMP_ACCURACY p k W.
  Proof using Hw Hone Hne Henough.
    intros W. unfold good, minimaxphragmen_winner, slack. split.
    - intros (q & Ha & Hb). pose proof Ha as (x & Hx & Em & _). split; [rewrite <- Em; apply mmp_size; auto|]. exists (- q)%Q. split; [apply mmp_max_load; auto|].
      intros W' b' HW' Hm'. destruct (mmp_achieves W' b' HW' Hm') as (b2 & Hle & Ha2). specialize (Hb _ _ Ha2). lra.
    - intros (HW & b & Hm & Hb). destruct (mmp_achieves W b HW Hm) as (b2 & Hle & Ha). exists (- b2)%Q. split; auto.
      intros W' q' Ha'. pose proof Ha' as (x & Hx & Em & _). assert (HW' : is_committee p k W') by (rewrite <- Em; apply mmp_size; auto).
      specialize (Hb W' (- q')%Q HW' (mmp_max_load _ _ Ha')). lra.
  Qed.

  Theorem ilp_minimaxphragmen_correct : answers (minimaxphragmen_winner CMP_ACCURACY p k) resolute maxn (ilp_minimaxphragmen s p k resolute maxn).
  Proof using Hw Hone Hne Henough Hmax Hs.
    unfold ilp_minimaxphragmen. replace (length (approved_candidates p) <? k) with false by (symmetry; apply Nat.ltb_ge; auto).
    destruct (optimize_rule_spec s MIP_THRESHOLD p k None resolute maxn m) as (cs & q & E & HA & _); auto.
    - unfold MIP_THRESHOLD. lra.
    - apply mmp_binary.
    - apply mmp_size.
    - destruct (approved_committee p k Hw Henough) as (W & HW & Hap). destruct (distribution_exists p Hw W Hap) as (l & HL).
      destruct (mmp_achieves W (Qnat k) HW) as (b & _ & Ha); [|eauto]. exists l. split; auto. intros i v Hiv. apply (voter_load_le p k Hw Hone W l i v HW HL Hiv).
    - exists 0%Q. intros W q (x & Hx & _ & Eq). cbn [m objective minimaxphragmen_program] in Eq. rewrite ev_scale, ev_var in Eq.
      destruct Hx as [Fd _]. rewrite Forall_forall in Fd. destruct (Fd (mkDecl LoadBound Continuous (Some 0%Q) (Some (Qnat k)))) as (_ & H & _).
      { apply in_or_app. right. apply in_or_app. right. left. auto. } cbn in H. lra.
    - unfold solve_and_sort. fold m. rewrite E. cbn [rbind fst]. eapply answers_ext; [|exact HA]. apply mmp_good.
  Qed.
End Minimax.

(** * More approvals (C66): rules of Phragmén type *)
From Coq Require Import String.
From Coq Require Import List Arith Bool ZArith QArith Lia Lqa Permutation Sorted.
From Verif Require Import Milp RulesSolver SpecLoads SolverMaximin SolverCompute SolverLex IsoSeq.
From Verif Require Import Prelude Misc Common MiscProofs Preferences Scores ScoresProofs Spec SpecRules Compute SpecCompute SpecSeq SpecAxioms
  SpecMonroe PhragmenProofs EnestroemProofs MesProofs AvPhase MesFinal ComputeProofs Guarantees Proportional EnestroemPJR MaximinPJR
  ComputeAll SpecAll AllProofs Mono TieBreak SpecVary Vary.
Import ListNotations.
Local Open Scope string_scope.
Open Scope nat_scope.
Local Open Scope list_scope.

Lemma phragmen_progress : forall p W x, length W < num_cand p -> exists c, phragmen_choice p W x c.
Proof.
  intros p W x Hl. pose proof (others_exist p W Hl) as Ho.
  destruct (filter (fun c => 0 <? length (fans p c)) (others p W)) as [|a l] eqn:Ef.
  - destruct (others p W) as [|c l] eqn:Eo; [congruence|].
    assert (Hall : forall d, fresh p W d -> fans p d = []).
    { intros d Hd. apply others_fresh in Hd. destruct (fans p d) eqn:E; auto. exfalso.
      assert (Hin : In d (filter (fun c => 0 <? length (fans p c)) (others p W))) by (apply filter_In; split; [auto|rewrite E; reflexivity]).
      rewrite Eo in Hin. rewrite Ef in Hin. destruct Hin. }
    assert (Hc : fresh p W c) by (apply others_fresh; rewrite Eo; left; auto).
    exists c. split; auto. rewrite (Hall c Hc). cbn. auto.
  - destruct (argmin_exists (new_load p x) (a :: l)) as (c & Hc & Hmin); [discriminate|]. rewrite <- Ef in Hc, Hmin. apply filter_In in Hc as [Hc Hn].
    apply others_fresh in Hc. exists c. split; auto. rewrite Hn. intros d Hd Hf. apply Hmin. apply filter_In. split; [apply others_fresh; auto|].
    destruct (fans p d); [congruence|reflexivity].
Qed.

Section Extend.
  Variable p : profile.
  Variable choice : list nat -> (nat -> Q) -> nat -> Prop.
  Variable update : list nat -> (nat -> Q) -> nat -> (nat -> Q) -> Prop.
  Hypothesis choice_fresh : forall W x c, choice W x c -> fresh p W c.
  Hypothesis progress : forall W x, NoDup W -> Forall (fun c => c < num_cand p) W -> length W < num_cand p -> exists c, choice W x c.
  Hypothesis update_some : forall W x c, exists x', update W x c x'.
  Lemma run_extend_to : forall x0 L x k, runs_from p choice update [] x0 L x -> length L <= k -> k <= num_cand p ->
    exists M y, runs_from p choice update [] x0 (M ++ L) y /\ length (M ++ L) = k.
  Proof using choice_fresh progress update_some.
    intros x0 L x k Hr Hl Hk. induction k as [|k IH].
    - exists [], x. split; auto. cbn. lia.
    - destruct (Nat.eq_dec (length L) (S k)) as [E|Hn]; [exists [], x; auto|]. destruct IH as (M & y & HM & EM); [lia|lia|].
      destruct (runs_ok p choice update choice_fresh _ _ _ HM) as [N R].
      destruct (progress (M ++ L) y N R ltac:(lia)) as (d & Hd). destruct (update_some (M ++ L) y d) as (y' & Hu).
      exists (d :: M), y'. split; [|cbn; lia]. cbn. eapply run_step; eauto.
  Qed.
End Extend.

Section RunGains.
  Variables (p q : profile) (c : nat).
  Hypothesis Hm : num_cand q = num_cand p.
  Hypothesis Hn : length (voters q) = length (voters p).
  Variables choice_p choice_q : list nat -> (nat -> Q) -> nat -> Prop.
  Variables update_p update_q : list nat -> (nat -> Q) -> nat -> (nat -> Q) -> Prop.
  Variables xp xq : nat -> Q.
  Hypothesis Hx : forall i, xp i = xq i.
  Hypothesis fresh_q : forall W x c, choice_q W x c -> fresh q W c.
  Hypothesis progress : forall W x, NoDup W -> Forall (fun c => c < num_cand q) W -> length W < num_cand q -> exists c, choice_q W x c.
  Hypothesis update_some : forall W x c, exists x', update_q W x c x'.
  Hypothesis other : forall W x d, runs_from p choice_p update_p [] xp W x -> ~ In c W -> choice_p W x d -> d <> c -> choice_q W x d \/ choice_q W x c.
  Hypothesis same : forall W x, runs_from p choice_p update_p [] xp W x -> ~ In c W -> choice_p W x c -> choice_q W x c.
  Hypothesis update_same : forall W x d x', d <> c -> update_p W x d x' -> update_q W x d x'.
  Lemma runs_gain : forall L x, runs_from p choice_p update_p [] xp L x ->
    (exists L' x', runs_from q choice_q update_q [] xq L' x' /\ In c L' /\ length L' <= length L) \/
    (runs_from q choice_q update_q [] xq L x /\ ~ In c L).
  Proof using Hm Hn Hx update_some other same update_same.
    intros L x Hr. induction Hr as [x Hax|W x d x' Hr IH Hd Hu].
    - right. split; [|intros []]. apply run_start. intros i Hi. rewrite <- Hx. apply Hax. rewrite <- Hn. auto.
    - destruct IH as [(L' & y & H1 & H2 & H3)|[H1 H2]]; [left; exists L', y; split; auto; split; auto; cbn; lia|].
      assert (HC : choice_q W x c -> exists L' y, runs_from q choice_q update_q [] xq L' y /\ In c L' /\ length L' <= length (d :: W)).
      { intros Hc. destruct (update_some W x c) as (y & Hy). exists (c :: W), y. split; [eapply run_step; eauto|]. split; [left; auto|auto]. }
      destruct (Nat.eq_dec d c) as [->|Hdc]; [left; apply HC; auto|].
      destruct (other W x d Hr H2 Hd Hdc) as [Ho|Ho]; [|left; apply HC; auto].
      right. split; [eapply run_step; eauto|]. intros [E|E]; auto.
  Qed.
  Lemma run_winner_gains : forall k W, k <= num_cand p -> run_winner p choice_p update_p [] xp k W -> In c W ->
    exists V, run_winner q choice_q update_q [] xq k V /\ In c V.
  Proof using Hm Hn Hx fresh_q progress update_some other same update_same.
    intros k W Hk (L & x & Hr & Hl & ->) Hc. rewrite isort_In in Hc.
    destruct (runs_gain L x Hr) as [(L' & x' & H1 & H2 & H3)|[_ H]]; [|tauto].
    destruct (run_extend_to q choice_q update_q fresh_q progress update_some xq L' x' k H1) as (M & y & HM & EM); [lia|lia|].
    exists (isort (M ++ L')). split; [exists (M ++ L'), y; auto|]. rewrite isort_In. apply in_or_app. auto.
  Qed.
End RunGains.

Section Gains.
  Variables (p q : profile) (c : nat).
  Hypothesis Hwp : wf p.
  Hypothesis Hwq : wf q.
  Hypothesis Hg : gains c p q.
  Let Hm : num_cand q = num_cand p := gains_num p q c Hg.
  Let Hn : length (voters q) = length (voters p) := gains_len p q c Hg.

  Lemma voter_gain : forall i, voter_gains c (the_voter p i) (the_voter q i).
  Proof using Hg.
    pose proof Hg as [_ HF]. clear Hm Hn. unfold the_voter. induction HF as [|v u l l' Hvu HF IH]; intros [|i]; cbn; auto.
    all: split; [|split; [|split]]; cbn; auto; intros; tauto.
  Qed.
  Lemma w_gain : forall i, w q i = w p i.
  Proof using Hg. intros i. unfold w. apply (voter_gain i). Qed.
  Lemma ids_gain : voter_ids q = voter_ids p.
  Proof using Hn. unfold voter_ids. rewrite Hn. auto. Qed.
  Lemma likes_other : forall i d, d <> c -> likes q i d = likes p i d.
  Proof using Hg.
    intros i d Hd. unfold likes, approves. destruct (voter_gain i) as (_ & _ & H & _). apply eq_true_iff_eq. rewrite !mem_In. auto.
  Qed.
  Lemma likes_gain : forall i d, likes p i d = true -> likes q i d = true.
  Proof using Hg.
    intros i d. unfold likes, approves. rewrite !mem_In. destruct (voter_gain i) as (_ & _ & H & H'). destruct (Nat.eq_dec d c) as [->|Hd]; auto. apply H. auto.
  Qed.
  Lemma fans_other : forall d, d <> c -> fans q d = fans p d.
  Proof using Hg Hn. intros d Hd. unfold fans. rewrite ids_gain. apply filter_ext. intros i. apply likes_other. auto. Qed.
  Lemma fans_gain : incl (fans p c) (fans q c).
  Proof using Hg Hn. intros i Hi. apply in_fans in Hi as [Hi Hl]. apply in_fans. rewrite Hn. split; auto. apply likes_gain. auto. Qed.
  Lemma sum_fans_gain : forall f : nat -> Q, (forall i, i < length (voters p) -> (0 <= f i)%Q) -> (sum (fans p c) f <= sum (fans q c) f)%Q.
  Proof using Hg Hn.
    intros f Hf. apply sum_incl_le; [apply fans_NoDup|apply fans_NoDup|apply fans_gain|]. intros i Hi. apply in_fans in Hi as [Hi _]. apply Hf. rewrite <- Hn. auto.
  Qed.
  Lemma fresh_gain : forall W d, fresh q W d <-> fresh p W d.
  Proof using Hm. intros. unfold fresh. rewrite Hm. tauto. Qed.
  Lemma agree_gain : forall x y, agree p x y -> agree q x y.
  Proof using Hn. intros x y H i Hi. apply H. rewrite <- Hn. auto. Qed.

  (** *** sequential Phragmén *)
  Lemma new_load_other : forall x d, d <> c -> new_load q x d = new_load p x d.
  Proof using Hg Hn.
    intros x d Hd. unfold new_load. rewrite fans_other by auto. f_equal; [f_equal|]; unfold sum; f_equal; apply map_ext; intros i; rewrite w_gain; reflexivity.
  Qed.
  Lemma fans_gain_nonempty : fans p c <> [] -> fans q c <> [].
  Proof using Hg Hn. intros H E. pose proof fans_gain as Hi. destruct (fans p c) as [|i l]; [congruence|]. specialize (Hi i (or_introl eq_refl)). rewrite E in Hi. destruct Hi. Qed.
  Lemma new_load_gain : forall x M, fans p c <> [] -> (forall i, i < length (voters p) -> (x i <= M)%Q) -> (M <= new_load p x c)%Q ->
    (new_load q x c <= new_load p x c)%Q.
  Proof using Hwp Hwq Hg Hn.
    intros x M Hne HxM HM. pose proof (fans_gain_nonempty Hne) as Hne'. pose proof (new_load_eq p Hwp x c Hne) as E. pose proof (new_load_eq q Hwq x c Hne') as E'.
    pose proof (fans_weight_pos p c Hwp Hne) as P1. pose proof (fans_weight_pos q c Hwq Hne') as P2.
    set (a := new_load p x c) in *. set (b := new_load q x c) in *.
    (* every additional supporter has a load of at most a *)
    assert (HS : (sum (fans p c) (fun i => w p i * (a - x i)) <= sum (fans q c) (fun i => w p i * (a - x i)))%Q).
    { apply sum_fans_gain. intros i Hi. specialize (HxM i Hi). pose proof (w_pos p i Hwp Hi). apply Qmult_le_0_compat; lra. }
    assert (Esum : forall l, (sum l (fun i => w p i * (a - x i)) == a * sum l (w p) - sum l (fun i => w p i * x i))%Q).
    { intros l. rewrite <- sum_scal, <- sum_minus. apply sum_ext. intros; ring. }
    rewrite !Esum in HS.
    assert (Ew : forall l, (sum l (w q) == sum l (w p))%Q) by (intros l; apply sum_ext; intros i _; rewrite w_gain; reflexivity).
    assert (Ewx : forall l, (sum l (fun i => w q i * x i) == sum l (fun i => w p i * x i))%Q) by (intros l; apply sum_ext; intros i _; rewrite w_gain; reflexivity).
    rewrite Ew, Ewx in E'. rewrite Ew in P2.
    assert (H : (b * sum (fans q c) (w p) <= a * sum (fans q c) (w p))%Q) by lra.
    apply Qmult_le_r in H; auto.
  Qed.
  Lemma phragmen_other : forall V x d, ~ In c V -> phragmen_choice p V x d -> d <> c -> phragmen_choice q V x d \/ phragmen_choice q V x c.
  Proof using Hwp Hwq Hg Hm Hn.
    intros V x d HcV [Hf Hd] Hdc. pose proof (fans_other d Hdc) as Ed. pose proof (new_load_other x d Hdc) as El.
      destruct (le_lt_dec (num_cand p) c) as [Hcm|Hcm].
      { left. split; [apply fresh_gain; auto|]. rewrite Ed, El. destruct (0 <? length (fans p d)); intros a Ha; apply fresh_gain in Ha.
        - intros Hne. assert (Hac : a <> c) by (intros ->; destruct Ha; lia). rewrite new_load_other by auto. rewrite fans_other in Hne by auto. apply Hd; auto.
        - assert (Hac : a <> c) by (intros ->; destruct Ha; lia). rewrite fans_other by auto. apply Hd. auto. }
      assert (Hcf : fresh q V c) by (apply fresh_gain; split; auto).
      destruct (fans q c) as [|i0 F0] eqn:Ec.
      { (* still unsupported *)
        left. split; [apply fresh_gain; auto|]. rewrite Ed, El. destruct (0 <? length (fans p d)); intros a Ha.
        - intros Hne. assert (Hac : a <> c) by (intros ->; congruence). apply fresh_gain in Ha. rewrite new_load_other by auto. rewrite fans_other in Hne by auto. apply Hd; auto.
        - destruct (Nat.eq_dec a c) as [->|Hac]; auto. apply fresh_gain in Ha. rewrite fans_other by auto. apply Hd. auto. }
      assert (Hcne : fans q c <> []) by (rewrite Ec; discriminate).
      assert (Hcl : (0 <? length (fans q c)) = true) by (rewrite Ec; reflexivity).
      destruct (fans p d) as [|i1 F1] eqn:Edp; cbn [length Nat.ltb Nat.leb] in Hd.
      { (* nobody else is supported *)
        right. split; auto. rewrite Hcl. intros a Ha Hne. destruct (Nat.eq_dec a c) as [->|Hac]; [apply Qle_refl|].
        exfalso. apply Hne. rewrite fans_other by auto. apply Hd. apply fresh_gain. auto. }
      destruct (Qlt_le_dec (new_load q x c) (new_load q x d)) as [Hlt|Hle].
      + right. split; auto. rewrite Hcl. intros a Ha Hne. destruct (Nat.eq_dec a c) as [->|Hac]; [apply Qle_refl|].
        rewrite (new_load_other x a) by auto. rewrite fans_other in Hne by auto. apply fresh_gain in Ha. specialize (Hd a Ha Hne). rewrite El in Hlt. lra.
      + left. split; [apply fresh_gain; auto|]. rewrite Ed. cbn [length Nat.ltb Nat.leb]. intros a Ha Hne.
        destruct (Nat.eq_dec a c) as [->|Hac]; auto. rewrite El, (new_load_other x a) by auto. rewrite fans_other in Hne by auto. apply fresh_gain in Ha. auto.
  Qed.
  Lemma phragmen_same : forall V x M, ~ In c V -> (forall i, i < length (voters p) -> (x i <= M)%Q) ->
    (forall d, fresh p V d -> fans p d <> [] -> (M <= new_load p x d)%Q) -> phragmen_choice p V x c -> phragmen_choice q V x c.
  Proof using Hwp Hwq Hg Hm Hn.
    intros V x M HcV HM1 HM2 [Hf Hd]. assert (Hcf : fresh q V c) by (apply fresh_gain; auto). split; auto.
      destruct (fans p c) as [|i1 F1] eqn:Ecp; cbn [length Nat.ltb Nat.leb] in Hd.
      + assert (Ho : forall a, fresh q V a -> a <> c -> fans q a = []) by (intros a Ha Hac; rewrite fans_other by auto; apply Hd; apply fresh_gain; auto).
        destruct (fans q c) as [|i0 F0] eqn:Ec; cbn [length Nat.ltb Nat.leb].
        * intros a Ha. destruct (Nat.eq_dec a c) as [->|Hac]; auto.
        * intros a Ha Hne. destruct (Nat.eq_dec a c) as [->|Hac]; [apply Qle_refl|]. exfalso. auto.
      + assert (Hne : fans p c <> []) by (rewrite Ecp; discriminate). pose proof (fans_gain_nonempty Hne) as Hne'.
        pose proof (new_load_gain x M Hne HM1 (HM2 c Hf Hne)) as Hle.
        destruct (fans q c) as [|i0 F0] eqn:Ec; [congruence|]. cbn [length Nat.ltb Nat.leb]. intros a Ha Hnea.
        destruct (Nat.eq_dec a c) as [->|Hac]; [apply Qle_refl|]. rewrite (new_load_other x a) by auto. rewrite fans_other in Hnea by auto. apply fresh_gain in Ha. specialize (Hd a Ha Hnea). lra.
  Qed.
  Lemma phragmen_update_other : forall V x d x', d <> c -> phragmen_update p V x d x' -> phragmen_update q V x d x'.
  Proof using Hg Hn.
    intros V x d x' Hdc Hu i Hi. rewrite (agree_gain _ _ Hu i Hi). cbv beta. rewrite (likes_other i d Hdc), (new_load_other x d Hdc). reflexivity.
  Qed.

  Lemma phragmen_gains : forall k W, k <= num_cand p -> phragmen_winner p k W -> In c W -> exists V, phragmen_winner q k V /\ In c V.
  Proof using Hwp Hwq Hg Hm Hn.
    intros k W Hk. apply (run_winner_gains p q c Hm Hn); auto.
    - intros V x d [H _]. auto.
    - intros V x HN HR Hl. destruct (phragmen_progress q V x Hl) as (d & Hd). exists d. exact Hd.
    - intros V x d. eexists. intros i Hi. reflexivity.
    - intros V x d Hr HcV Hd Hdc. apply phragmen_other; auto.
    - intros V x Hr HcV Hch. pose proof Hch as [Hf Hd]. destruct (fans p c) as [|i1 F1] eqn:Ecp.
      + (* nobody is supported, or only c has become so *)
        assert (Ho : forall a, fresh q V a -> a <> c -> fans q a = []) by (intros a Ha Hac; rewrite fans_other by auto; apply Hd; apply fresh_gain; auto).
        split; [apply fresh_gain; auto|]. destruct (fans q c) as [|i0 F0] eqn:Ec; cbn [length Nat.ltb Nat.leb].
        * intros a Ha. destruct (Nat.eq_dec a c) as [->|Hac]; auto.
        * intros a Ha Hne. destruct (Nat.eq_dec a c) as [->|Hac]; [apply Qle_refl|]. exfalso. apply Hne. apply Ho; auto.
      + assert (Hne : fans p c <> []) by (rewrite Ecp; discriminate).
        destruct (phragmen_invariant p Hwp c (proj1 Hf) Hne V x Hr HcV) as ((M & HM1 & HM2) & _). apply (phragmen_same V x M); auto.
    - intros V x d x' Hdc Hu. apply phragmen_update_other; auto.
  Qed.

  (** *** Eneström *)
  Lemma purse_other : forall x d, d <> c -> purse q x d = purse p x d.
  Proof using Hg Hn. intros x d Hd. unfold purse. rewrite fans_other by auto. auto. Qed.
  Lemma enestroem_nonneg : forall k L x, 1 <= k -> voters p <> [] -> runs_from p (richest_choice p) (enestroem_update p k) [] (w p) L x ->
    forall i, i < length (voters p) -> (0 <= x i)%Q.
  Proof using Hwp.
    intros k L x Hk Hv Hr. induction Hr as [x Hx|W x d x' Hr IH Hd Hu]; intros i Hi.
    - rewrite (Hx i Hi). apply Qlt_le_weak, w_pos; auto.
    - destruct (Qlt_le_dec (purse p x d) (wsum (voters p) / Qnat k)%Q) as [Hlt|Hle].
      + destruct Hu as [_ Hu]. rewrite (Hu ltac:(lra) i Hi). cbv beta. specialize (IH i Hi). destruct (likes p i d); lra.
      + destruct (enestroem_payment p k Hwp Hv Hk W x d x' IH Hle Hu) as (P & _). auto.
  Qed.
  Lemma richest_progress : forall o W x, length W < num_cand o -> exists d, richest_choice o W x d.
  Proof using.
    intros o W x Hl. destruct (argmax_exists (purse o x) (others o W) (others_exist o W Hl)) as (d & Hd & Hmax).
    exists d. apply others_fresh in Hd. split; auto. intros a Ha. apply Hmax, others_fresh. auto.
  Qed.
  Lemma enestroem_some : forall o k W x d, exists x', enestroem_update o k W x d x'.
  Proof using.
    intros o k W x d. destruct (Qlt_le_dec (wsum (voters o) / Qnat k)%Q (purse o x d)) as [Hlt|Hle].
    - eexists. split; [intros _ i Hi; reflexivity|]. intros H. lra.
    - eexists. split; [intros H; lra|]. intros _ i Hi. reflexivity.
  Qed.
  Lemma enestroem_gains : forall k W, 1 <= k -> voters p <> [] -> k <= num_cand p -> enestroem_winner p k W -> In c W -> exists V, enestroem_winner q k V /\ In c V.
  Proof using Hwp Hwq Hg Hm Hn.
    intros k W Hk1 Hv Hk. apply (run_winner_gains p q c Hm Hn); auto.
    - intros i. rewrite w_gain. auto.
    - intros V x d [H _]. auto.
    - intros V x _ _ Hl. apply richest_progress. auto.
    - intros V x d. apply enestroem_some.
    - intros V x d Hr HcV [Hf Hd] Hdc. destruct (Qlt_le_dec (purse q x d) (purse q x c)) as [Hlt|Hle].
      + destruct (le_lt_dec (num_cand p) c) as [Hcm|Hcm].
        { exfalso. assert (E : fans q c = []).
          { destruct (fans q c) as [|i F] eqn:E; auto. exfalso. assert (Hi : In i (fans q c)) by (rewrite E; left; auto).
            apply in_fans in Hi as [Hi Hl]. unfold likes, approves in Hl. apply mem_In in Hl. destruct Hwq as [_ HF]. rewrite Forall_forall in HF.
            destruct (HF (the_voter q i) (the_voter_In q i Hi)) as (_ & HF' & _). rewrite Forall_forall in HF'. specialize (HF' c Hl). lia. }
          assert (0 <= purse q x d)%Q.
          { rewrite purse_other by auto. apply sum_nonneg. intros i Hi. apply in_fans in Hi as [Hi _]. eapply enestroem_nonneg; eauto. }
          unfold purse at 2 in Hlt. rewrite E in Hlt. unfold sum in Hlt at 1. cbn in Hlt. lra. }
        right. split; [apply fresh_gain; split; auto|]. intros a Ha. destruct (Nat.eq_dec a c) as [->|Hac]; [apply Qle_refl|].
        rewrite (purse_other x a) by auto. rewrite (purse_other x d) in Hlt by auto. apply fresh_gain in Ha. specialize (Hd a Ha). lra.
      + left. split; [apply fresh_gain; auto|]. intros a Ha. destruct (Nat.eq_dec a c) as [->|Hac]; auto.
        rewrite !purse_other by auto. apply fresh_gain in Ha. auto.
    - intros V x Hr HcV [Hf Hd]. split; [apply fresh_gain; auto|]. intros a Ha. destruct (Nat.eq_dec a c) as [->|Hac]; [apply Qle_refl|].
      rewrite (purse_other x a) by auto. apply fresh_gain in Ha. specialize (Hd a Ha).
      assert (purse p x c <= purse q x c)%Q; [|lra]. apply sum_fans_gain. intros i Hi. eapply enestroem_nonneg; eauto.
    - intros V x d x' Hdc [U1 U2]. pose proof (gains_wsum p q c Hg) as Ew. split; rewrite Ew, purse_other by auto; intros H.
      + intros i Hi. rewrite (agree_gain _ _ (U1 H) i Hi). cbv beta. rewrite (likes_other i d Hdc). reflexivity.
      + intros i Hi. rewrite (agree_gain _ _ (U2 H) i Hi). cbv beta. rewrite (likes_other i d Hdc). reflexivity.
  Qed.

  (** *** consensus rule *)
  Lemma earned_gain : forall x i, earned q x i = earned p x i.
  Proof using Hg. intros. unfold earned. rewrite w_gain. auto. Qed.
  Lemma backers_other : forall x d, d <> c -> backers q x d = backers p x d.
  Proof using Hg Hn. intros x d Hd. unfold backers. rewrite fans_other by auto. apply filter_ext. intros i. rewrite earned_gain. auto. Qed.
  Lemma backing_other : forall x d, d <> c -> (sum (backers q x d) (earned q x) == sum (backers p x d) (earned p x))%Q.
  Proof using Hg Hn. intros x d Hd. rewrite backers_other by auto. apply sum_ext. intros i _. rewrite earned_gain. reflexivity. Qed.
  Lemma backing_gain : forall x, (sum (backers p x c) (earned p x) <= sum (backers q x c) (earned q x))%Q.
  Proof using Hg Hn.
    intros x. rewrite (sum_ext (backers q x c) (earned q x) (earned p x)) by (intros i _; rewrite earned_gain; reflexivity). apply sum_incl_le.
    - apply NoDup_filter, fans_NoDup.
    - apply NoDup_filter, fans_NoDup.
    - intros i Hi. apply filter_In in Hi as [Hi Hp]. apply filter_In. split; [apply fans_gain; auto|]. rewrite earned_gain. auto.
    - intros i Hi. apply filter_In in Hi as [_ Hp]. rewrite earned_gain in Hp. qbool. lra.
  Qed.
  Lemma backing_nonneg : forall o x d, (0 <= sum (backers o x d) (earned o x))%Q.
  Proof using. intros o x d. apply sum_nonneg. intros i Hi. apply filter_In in Hi as [_ Hp]. qbool. lra. Qed.
  Lemma consensus_gains : forall k W, k <= num_cand p -> consensus_winner p k W -> In c W -> exists V, consensus_winner q k V /\ In c V.
  Proof using Hwp Hwq Hg Hm Hn.
    intros k W Hk. apply (run_winner_gains p q c Hm Hn); auto.
    - intros V x d [H _]. auto.
    - intros V x _ _ Hl. destruct (argmax_exists (fun d => sum (backers q x d) (earned q x)) (others q V) (others_exist q V Hl)) as (d & Hd & Hmax).
      exists d. apply others_fresh in Hd. split; auto. intros a Ha. apply Hmax, others_fresh. auto.
    - intros V x d. eexists. intros i Hi. reflexivity.
    - intros V x d Hr HcV [Hf Hd] Hdc. destruct (Qlt_le_dec (sum (backers q x d) (earned q x)) (sum (backers q x c) (earned q x))) as [Hlt|Hle].
      + destruct (le_lt_dec (num_cand p) c) as [Hcm|Hcm].
        { exfalso. assert (E : backers q x c = []).
          { destruct (backers q x c) as [|i F] eqn:E; auto. exfalso. assert (Hi : In i (backers q x c)) by (rewrite E; left; auto).
            apply filter_In in Hi as [Hi _]. apply in_fans in Hi as [Hi Hl]. unfold likes, approves in Hl. apply mem_In in Hl. destruct Hwq as [_ HF]. rewrite Forall_forall in HF.
            destruct (HF (the_voter q i) (the_voter_In q i Hi)) as (_ & HF' & _). rewrite Forall_forall in HF'. specialize (HF' c Hl). lia. }
          rewrite E in Hlt. pose proof (backing_nonneg q x d). unfold sum in Hlt at 2. cbn in Hlt. lra. }
        right. split; [apply fresh_gain; split; auto|]. intros a Ha. destruct (Nat.eq_dec a c) as [->|Hac]; [apply Qle_refl|].
        rewrite (backing_other x a) by auto. rewrite (backing_other x d) in Hlt by auto. apply fresh_gain in Ha. specialize (Hd a Ha). lra.
      + left. split; [apply fresh_gain; auto|]. intros a Ha. destruct (Nat.eq_dec a c) as [->|Hac]; auto.
        rewrite !backing_other by auto. apply fresh_gain in Ha. auto.
    - intros V x Hr HcV [Hf Hd]. split; [apply fresh_gain; auto|]. intros a Ha. destruct (Nat.eq_dec a c) as [->|Hac]; [apply Qle_refl|].
      rewrite (backing_other x a) by auto. apply fresh_gain in Ha. specialize (Hd a Ha). pose proof (backing_gain x). lra.
    - intros V x d x' Hdc Hu i Hi. rewrite (agree_gain _ _ Hu i Hi). cbv beta. rewrite (backers_other x d Hdc), (gains_wsum p q c Hg), earned_gain, w_gain.
      assert (E : sum (backers p x d) (w q) = sum (backers p x d) (w p)) by (unfold sum; f_equal; apply map_ext; intros; apply w_gain).
      rewrite E. reflexivity.
  Qed.

  (** *** maximin support *)
  Lemma partial_gain : forall A f, partial p A f -> exists g, partial q A g /\ forall d, (recv p f d <= recv q g d)%Q.
  Proof using Hg Hn.
    intros A f [F0 F1]. exists (fun i d => if likes p i d then f i d else 0%Q). split; [split|].
    - intros i d. destruct (likes p i d); [apply F0|lra].
    - intros i Hi. rewrite w_gain. eapply Qle_trans; [|apply (F1 i)]; [|rewrite <- Hn; auto]. unfold spent.
      clear F1. induction A as [|a A IH]; [apply Qle_refl|]. cbn [filter].
      destruct (likes p i a) eqn:Ea.
      + rewrite (likes_gain i a Ea). unfold sum in *. cbn [map]. rewrite Ea.
        change (f i a + sum (filter (fun d => likes q i d) A) (fun d => if likes p i d then f i d else 0) <= f i a + sum (filter (fun d => likes p i d) A) (f i))%Q.
        unfold sum. lra.
      + destruct (likes q i a).
        * change ((if likes p i a then f i a else 0) + sum (filter (fun d => likes q i d) A) (fun d => if likes p i d then f i d else 0) <= sum (filter (fun d => likes p i d) A) (f i))%Q.
          rewrite Ea. lra.
        * exact IH.
    - intros d. unfold recv. eapply Qle_trans; [|apply (sum_incl_le (fans p d))].
      + apply Qle_lteq. right. apply sum_ext. intros i Hi. apply in_fans in Hi as [_ Hl]. rewrite Hl. reflexivity.
      + apply fans_NoDup.
      + apply fans_NoDup.
      + intros i Hi. apply in_fans in Hi as [Hi Hl]. apply in_fans. rewrite Hn. split; auto. apply likes_gain. auto.
      + intros i _. destruct (likes p i d); [apply F0|lra].
  Qed.
  (** nobody else's support changes *)
  Lemma partial_back : forall A f, ~ In c A -> partial q A f -> partial p A f.
  Proof using Hg Hn.
    intros A f Hc [F0 F1]. split; auto. intros i Hi. rewrite <- w_gain. eapply Qle_trans; [|apply (F1 i)]; [|rewrite Hn; auto]. unfold spent.
    apply Qle_lteq. right. unfold sum. erewrite filter_ext_in; [reflexivity|]. intros d Hd. symmetry. apply likes_other. intros ->. auto.
  Qed.
  Lemma maximin_le : forall A s s', NoDup A -> maximin_support p A s -> maximin_support q A s' -> (s <= s')%Q.
  Proof using Hwp Hwq Hg Hn.
    intros A s s' HA [(f & Hf & Hfs) _] [_ Hmax]. destruct (partial_gain A f (distribution_partial p Hwp A f HA Hf)) as (g & Hgp & Hgr).
    destruct (partial_distribution q Hwq A g HA Hgp) as (h & Hh & Hhr). apply (Hmax h s Hh). intros d Hd. rewrite received_recv.
    specialize (Hfs d Hd). rewrite received_recv in Hfs. specialize (Hgr d). specialize (Hhr d). lra.
  Qed.
  Lemma maximin_ge : forall A s s', NoDup A -> ~ In c A -> maximin_support p A s -> maximin_support q A s' -> (s' <= s)%Q.
  Proof using Hwp Hwq Hg Hn.
    intros A s s' HA Hc [_ Hmax] [(f & Hf & Hfs) _].
    destruct (partial_distribution p Hwp A f HA (partial_back A f Hc (distribution_partial q Hwq A f HA Hf))) as (h & Hh & Hhr). apply (Hmax h s' Hh). intros d Hd.
    rewrite received_recv. specialize (Hfs d Hd). rewrite received_recv in Hfs. specialize (Hhr d).
    assert (E : recv q f d = recv p f d) by (unfold recv; rewrite fans_other; auto; intros ->; auto). rewrite E in Hfs. lra.
  Qed.
  Lemma maximin_gains : forall eps k W, (0 <= eps)%Q -> c < num_cand p -> k <= num_cand p -> maximin_winner eps p k W -> In c W -> exists V, maximin_winner eps q k V /\ In c V.
  Proof using Hwp Hwq Hg Hm Hn.
    intros eps k W He Hcm Hk. apply (run_winner_gains p q c Hm Hn); auto.
    - intros V x d [H _]. auto.
    - intros V x N R Hl. destruct (argmax_rel (fun d => maximin_support q (d :: V)) (others q V)) as (d & b & Hd & Hb & Hmax).
      + apply others_exist. auto.
      + intros d Hd. apply others_fresh in Hd. destruct Hd. apply maximin_support_exists; [auto|constructor; auto|constructor; auto|discriminate].
      + intros d b b'. apply maximin_support_unique.
      + apply others_fresh in Hd. exists d. split; auto. exists b. split; auto. intros a b' Ha Hb'. apply others_fresh in Ha. specialize (Hmax a b' Ha Hb'). lra.
    - intros V x d. exists x. intros i Hi. reflexivity.
    - intros V x d Hr HcV (Hf & s & Hs & Hd) Hdc. destruct (maximin_run_NoDup p eps V x Hr) as [NV RV].
      assert (EX : forall a, fresh p V a -> exists b, maximin_support q (a :: V) b).
      { intros a [Ha1 Ha2]. apply maximin_support_exists; [exact Hwq|constructor; auto|rewrite Hm; constructor; auto|discriminate]. }
      assert (EXp : forall a, fresh p V a -> exists b, maximin_support p (a :: V) b).
      { intros a [Ha1 Ha2]. apply maximin_support_exists; [exact Hwp|constructor; auto|constructor; auto|discriminate]. }
      assert (Hcf : fresh p V c) by (split; auto).
      destruct (EX c Hcf) as (sc & Hsc). destruct (EX d Hf) as (sd & Hsd).
      assert (Esd : (sd == s)%Q).
      { apply Qle_antisym; [eapply (maximin_ge (d :: V)); eauto|eapply (maximin_le (d :: V)); eauto]; try (constructor; auto; apply Hf). intros [E|E]; auto. }
      assert (Hoth : forall a b, fresh p V a -> a <> c -> maximin_support q (a :: V) b -> (b <= s + eps)%Q).
      { intros a b Ha Hac Hb. destruct (EXp a Ha) as (b' & Hb'). specialize (Hd a b' Ha Hb').
        assert (b <= b')%Q; [|lra]. eapply (maximin_ge (a :: V)); eauto; [constructor; auto; apply Ha|]. intros [E|E]; auto. }
      destruct (Qlt_le_dec (s + eps) sc) as [Hlt|Hle].
      + right. split; [apply fresh_gain; auto|]. exists sc. split; auto. intros a b Ha Hb. apply fresh_gain in Ha. destruct (Nat.eq_dec a c) as [->|Hac].
        * rewrite (maximin_support_unique _ _ _ _ Hb Hsc). lra.
        * specialize (Hoth a b Ha Hac Hb). lra.
      + left. split; [apply fresh_gain; auto|]. exists sd. split; auto. intros a b Ha Hb. apply fresh_gain in Ha. destruct (Nat.eq_dec a c) as [->|Hac].
        * rewrite (maximin_support_unique _ _ _ _ Hb Hsc). lra.
        * specialize (Hoth a b Ha Hac Hb). lra.
    - intros V x Hr HcV (Hf & s & Hs & Hd). destruct (maximin_run_NoDup p eps V x Hr) as [NV RV].
      assert (EXp : forall a, fresh p V a -> exists b, maximin_support p (a :: V) b).
      { intros a [Ha1 Ha2]. apply maximin_support_exists; [exact Hwp|constructor; auto|constructor; auto|discriminate]. }
      assert (EX : exists b, maximin_support q (c :: V) b).
      { apply maximin_support_exists; [exact Hwq|constructor; auto|rewrite Hm; constructor; auto|discriminate]. }
      destruct EX as (sc & Hsc).
      assert (Hle : (s <= sc)%Q) by (eapply (maximin_le (c :: V)); eauto; constructor; auto).
      split; [apply fresh_gain; auto|]. exists sc. split; auto. intros a b Ha Hb. apply fresh_gain in Ha. destruct (Nat.eq_dec a c) as [->|Hac].
      + rewrite (maximin_support_unique _ _ _ _ Hb Hsc). lra.
      + destruct (EXp a Ha) as (b' & Hb'). specialize (Hd a b' Ha Hb').
        assert (b <= b')%Q; [|lra]. eapply (maximin_ge (a :: V)); eauto; [constructor; auto; apply Ha|]. intros [E|E]; auto.
    - intros V x d x' _ Hu. exact (agree_gain _ _ Hu).
  Qed.
End Gains.

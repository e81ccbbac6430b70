(** * The consensus rule does not satisfy PJR *)
From Coq Require Import String.
From Coq Require Import List Arith Bool ZArith QArith Lia Lqa Permutation Sorted.
From Verif Require Import Prelude Misc Preferences Scores Search Rule RulesThiele Spec SpecRules Compute SpecCompute
  SpecSeq RulesSeq PhragmenProofs RulesMes MesFinal ComputeSeq ComputeSeqProofs Checks SpecAxioms Proportional ExampleData.
Import ListNotations.
Local Open Scope string_scope.
Open Scope nat_scope.
Local Open Scope list_scope.

(** one step with reduced fractions; [None] if [c] is not a permissible choice *)
Definition check_step (p : profile) (W : list nat) (b : list Q) (c : nat) : option (list Q) :=
  let x := nthQ b in
  let sup := fun d => Qred (sum (backers p x d) (earned p x)) in
  if (c <? num_cand p) && negb (mem c W) &&
     forallb (fun d => mem d W || Qle_bool (sup d) (sup c)) (candidates p)
  then let pay := Qred (wsum (voters p) / sum (backers p x c) (w p)) in
       Some (map (fun i => Qred (if mem i (backers p x c) then earned p x i - w p i * pay else earned p x i)) (voter_ids p))
  else None.
Fixpoint check_run (p : profile) (W : list nat) (b : list Q) (cs : list nat) : option (list nat) :=
  match cs with
  | [] => Some W
  | c :: cs' => match check_step p W b c with Some b' => check_run p (c :: W) b' cs' | None => None end
  end.

Lemma check_step_sound : forall p W b c b', check_step p W b c = Some b' ->
  consensus_choice p W (nthQ b) c /\ consensus_update p W (nthQ b) c (nthQ b').
Proof.
  intros p W b c b' H. unfold check_step in H.
  destruct ((c <? num_cand p) && negb (mem c W) && _) eqn:E; [|discriminate]. injection H as <-.
  apply andb_prop in E as [E E3]. apply andb_prop in E as [E1 E2]. apply Nat.ltb_lt in E1. apply negb_true_iff, mem_false in E2. split.
  - split; [split; auto|]. intros d [Hd1 Hd2]. rewrite forallb_forall in E3. specialize (E3 d ltac:(unfold candidates; apply in_seq; lia)).
    apply orb_prop in E3 as [E3|E3]; [apply mem_In in E3; tauto|]. apply Qle_bool_iff in E3. rewrite !Qred_correct in E3. exact E3.
  - intros i Hi. unfold nthQ at 1. unfold voter_ids.
    rewrite nth_indep with (d' := Qred (if mem 0 (backers p (nthQ b) c) then earned p (nthQ b) 0 - w p 0 * Qred (wsum (voters p) / sum (backers p (nthQ b) c) (w p)) else earned p (nthQ b) 0))
      by (rewrite map_length, seq_length; auto).
    rewrite (map_nth (fun i => Qred (if mem i (backers p (nthQ b) c) then earned p (nthQ b) i - w p i * Qred (wsum (voters p) / sum (backers p (nthQ b) c) (w p)) else earned p (nthQ b) i))).
    rewrite seq_nth by auto. cbn [Nat.add]. rewrite Qred_correct. destruct (mem i (backers p (nthQ b) c)); [|reflexivity]. rewrite Qred_correct. reflexivity.
Qed.
Lemma check_run_sound : forall p cs W0 x0 W b L, runs_from p (consensus_choice p) (consensus_update p) W0 x0 W (nthQ b) ->
  check_run p W b cs = Some L -> exists x, runs_from p (consensus_choice p) (consensus_update p) W0 x0 L x.
Proof.
  intros p cs. induction cs as [|c cs IH]; intros W0 x0 W b L Hr E; cbn in E.
  - injection E as <-. eauto.
  - destruct (check_step p W b c) as [b'|] eqn:Es; [|discriminate]. apply check_step_sound in Es as [Hc Hu].
    eapply IH; [|exact E]. eapply run_step; eauto.
Qed.
Lemma check_winner : forall p k cs L, check_run p [] (map (fun _ => 0%Q) (voters p)) cs = Some L -> length L = k ->
  consensus_winner p k (isort L).
Proof.
  intros p k cs L E Hl. destruct (check_run_sound p cs [] (fun _ => 0%Q) [] (map (fun _ => 0%Q) (voters p)) L) as (x & Hx); auto.
  - apply run_start. intros i Hi. unfold nthQ. revert i Hi. generalize (voters p). induction l as [|v l IH]; intros [|i] Hi; cbn in *; try lia; try reflexivity. apply IH. lia.
  - exists L, x. auto.
Qed.

(** four parties with 4, 1, 30 and 30 voters, 26 seats: the last party deserves 30*26/65 = 12 seats and gets 11 *)
Definition four_parties : profile :=
  mkp 29 (repeat (mkv [0;1;2] 1) 4 ++ repeat (mkv [3;4] 1) 1 ++ repeat (mkv (seq 5 12) 1) 30 ++ repeat (mkv (seq 17 12) 1) 30).
Definition four_parties_order : list nat :=
  [5; 17; 6; 18; 0; 7; 19; 8; 20; 9; 21; 10; 22; 11; 23; 12; 24; 13; 25; 3; 14; 26; 15; 27; 1; 16].

Lemma four_parties_wf : wf four_parties.
Proof.
  unfold wf, four_parties, mkp. cbn [num_cand voters cand_names]. split; [lia|]. rewrite Forall_forall. intros v Hv.
  rewrite !in_app_iff in Hv. destruct Hv as [H|[H|[H|H]]]; apply repeat_spec in H; subst v; (split; [|split]); cbn [mkv approved weight].
  all: try (cbn; lra).
  all: try apply seq_NoDup.
  all: try (apply Forall_forall; intros x Hx; apply in_seq in Hx; lia).
  all: repeat constructor; cbn; intuition lia.
Qed.
Lemma four_parties_unit : unit_weights four_parties.
Proof.
  unfold unit_weights, four_parties, mkp. cbn [voters]. apply Forall_forall. intros v Hv.
  rewrite !in_app_iff in Hv. destruct Hv as [H|[H|[H|H]]]; apply repeat_spec in H; subst v; reflexivity.
Qed.
Lemma four_parties_winner : consensus_winner four_parties 26 (isort four_parties_order).
Proof.
  assert (E : isort four_parties_order = isort (rev four_parties_order)) by (vm_compute; reflexivity). rewrite E.
  apply (check_winner _ _ four_parties_order); [vm_compute; reflexivity|reflexivity].
Qed.
Lemma four_parties_not_PJR : ~ PJR four_parties (default_quota four_parties 26) (isort four_parties_order).
Proof.
  intros H. specialize (H (seq 35 30) 12).
  assert (E : length (covered four_parties (seq 35 30) (isort four_parties_order)) = 11) by (vm_compute; reflexivity).
  rewrite E in H. assert (12 <= 11); [|lia]. apply H. split; [|split; [lia|split]].
  - split; [discriminate|]. split; [apply seq_NoDup|]. apply Forall_forall. intros i Hi. apply in_seq in Hi.
    change (length (voters four_parties)) with 65. lia.
  - unfold deserves. apply Qle_bool_iff. vm_compute. reflexivity.
  - exists (seq 17 12). split; [split; [apply seq_NoDup|]|split; [reflexivity|]].
    + apply Forall_forall. intros c Hc. apply in_seq in Hc. change (num_cand four_parties) with 29. lia.
    + intros i c Hi Hc.
      assert (A : forallb (fun i => forallb (fun c => mem c (ballot four_parties i)) (seq 17 12)) (seq 35 30) = true) by (vm_compute; reflexivity).
      rewrite forallb_forall in A. specialize (A i Hi). rewrite forallb_forall in A. apply mem_In. apply A. auto.
Qed.

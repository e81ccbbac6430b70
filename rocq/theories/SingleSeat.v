(** * One seat (C70) *)
From Coq Require Import String.
From Coq Require Import List Arith Bool ZArith QArith Lia Lqa Permutation Sorted.
From Verif Require Import Milp RulesSolver SpecLoads SolverCompute SolverLex RulesMonroe RulesMore SolverMore.
From Verif Require Import Prelude Misc Common MiscProofs Preferences Scores ScoresProofs Rule Spec SpecRules Compute SpecCompute SpecSeq SpecAxioms
  SpecMonroe PhragmenProofs EnestroemProofs MesProofs MesFinal ComputeProofs Guarantees Proportional ComputeAll SpecAll AllProofs Mono TieBreak SpecVary Vary VaryRuns VaryMes VaryAll Join Pareto.
Import ListNotations.
Local Open Scope string_scope.
Open Scope nat_scope.
Local Open Scope list_scope.

Lemma filter_id : forall (A : Type) (f : A -> bool) l, (forall a, In a l -> f a = true) -> filter f l = l.
Proof.
  induction l as [|a l IH]; intros H; [reflexivity|]. cbn. rewrite (H a (or_introl eq_refl)), IH; auto. intros b Hb. apply H. right. auto.
Qed.

Section Single.
  Variable p : profile.
  Hypothesis Hw : wf p.
  Hypothesis Hv : voters p <> [].

  Definition most_approved (W : list nat) : Prop := exists c, W = [c] /\ c < num_cand p /\ forall d, d < num_cand p -> (support p d <= support p c)%Q.

  Lemma committee_one : forall W, is_committee p 1 W <-> exists c, W = [c] /\ c < num_cand p.
  Proof using.
    intros W. split.
    - intros (A & L & R). destruct W as [|c [|d l]]; try discriminate. exists c. split; auto. inversion R; auto.
    - intros (c & -> & Hc). split; [repeat constructor|]. split; [reflexivity|]. constructor; auto.
  Qed.
  Lemma maximises_one : forall s : list nat -> Q, (forall c d, c < num_cand p -> d < num_cand p -> (s [c] <= s [d])%Q <-> (support p c <= support p d)%Q) ->
    forall W, maximises s p 1 W <-> most_approved W.
  Proof using.
    intros s H W. unfold maximises. rewrite committee_one. split.
    - intros [(c & -> & Hc) HB]. exists c. split; auto. split; auto. intros d Hd. apply H; auto. apply HB. apply committee_one. eauto.
    - intros (c & -> & Hc & HB). split; [eauto|]. intros V HV. apply committee_one in HV as (d & -> & Hd). apply H; auto.
  Qed.
  Lemma util_one : forall v c, In v (voters p) -> util v [c] = if approves v c then 1 else 0.
  Proof using Hw.
    intros v c Hin. destruct (wt p Hw v Hin) as [N _]. unfold util. rewrite inter_comm_length; [|auto|repeat constructor; auto].
    unfold approves, inter. cbn. destruct (mem c (approved v)); reflexivity.
  Qed.
  Lemma thiele_one : forall f c, (Thiele f p [c] == f 1%nat * support p c)%Q.
  Proof using Hw.
    intros f c. unfold Thiele, support, supporters. rewrite wsum_filter.
    assert (E : forall l, incl l (voters p) -> (Qsum (map (fun v => weight v * Qsum (map f (seq 1 (util v [c])))) l) == f 1%nat * Qsum (map (fun v => if approves v c then weight v else 0) l))%Q).
    { induction l as [|v l IH]; intros HI; [cbn; change (Qsum []) with 0%Q; ring|]. cbn [map]. change (Qsum (?a :: ?b)) with (a + Qsum b)%Q.
      rewrite IH by (intros a Ha; apply HI; right; auto). rewrite (util_one v c) by (apply HI; left; auto).
      destruct (approves v c); cbn [seq map]; [change (Qsum [f 1%nat]) with (f 1%nat + 0)%Q|change (Qsum []) with 0%Q]; ring. }
    apply E. apply incl_refl.
  Qed.
  Lemma av_one : forall W, maximises (fun W => Qsum (map (support p) W)) p 1 W <-> most_approved W.
  Proof using.
    apply maximises_one. intros c d _ _. cbn [map]. change (Qsum (?a :: ?b)) with (a + Qsum b)%Q. change (Qsum []) with 0%Q. split; lra.
  Qed.
  Lemma thiele_one_winner : forall f, (0 < f 1%nat)%Q -> forall W, maximises (Thiele f p) p 1 W <-> most_approved W.
  Proof using Hw. intros f Hf. apply maximises_one. intros c d _ _. rewrite !thiele_one. split; nra. Qed.
  Lemma at_least_one : forall c, (at_least_weight p [c] 1 == support p c)%Q.
  Proof using Hw. intros c. rewrite <- Thiele_cc_at_least by auto. rewrite thiele_one. unfold cc_w. cbn. ring. Qed.
  Lemma lexcc_one : forall W, lexcc_winner p 1 W <-> most_approved W.
  Proof using Hw.
    intros W. unfold lexcc_winner. rewrite committee_one. split.
    - intros [(c & -> & Hc) HB]. exists c. split; auto. split; auto. intros d Hd. rewrite <- !at_least_one.
      destruct (HB [d]) as [H|(i & Hi & Hl & _)]; [apply committee_one; eauto|rewrite (H 1) by lia; apply Qle_refl|]. replace i with 1 in Hl by lia. lra.
    - intros (c & -> & Hc & HB). split; [eauto|]. intros V HV. apply committee_one in HV as (d & -> & Hd). specialize (HB d Hd). rewrite <- !at_least_one in HB.
      destruct (Qlt_le_dec (at_least_weight p [d] 1) (at_least_weight p [c] 1)) as [Hlt|Hle].
      + right. exists 1. split; [lia|]. split; auto. intros; lia.
      + left. intros i Hi. replace i with 1 by lia. lra.
  Qed.
  Lemma seq_one : forall f, (0 < f 1%nat)%Q -> forall W, seq_thiele_winner f p 1 W <-> most_approved W.
  Proof using Hw.
    intros f Hf W. split.
    - intros (L & Hr & Hl & ->). destruct Hr as [|L c Hr (Hc & _ & HB)]; [discriminate|]. destruct L; [|discriminate]. exists c. split; [reflexivity|]. split; auto.
      intros d Hd. specialize (HB d Hd (fun x => x)). rewrite !thiele_one in HB. nra.
    - intros (c & -> & Hc & HB). exists [c]. split; [|split; reflexivity]. apply greedy_cons; [constructor|]. split; auto. split; [intros []|].
      intros d Hd _. rewrite !thiele_one. specialize (HB d Hd). nra.
  Qed.
  (** one step of a run *)
  Lemma run_one : forall (choice : list nat -> (nat -> Q) -> nat -> Prop) (update : list nat -> (nat -> Q) -> nat -> (nat -> Q) -> Prop) x0 W, (forall x c, agree p x x0 -> choice [] x c -> exists x', update [] x c x') ->
    (forall x c, agree p x x0 -> choice [] x c <-> (c < num_cand p /\ forall d, d < num_cand p -> (support p d <= support p c)%Q)) ->
    run_winner p choice update [] x0 1 W <-> most_approved W.
  Proof using.
    intros choice update x0 W Hu Hc. split.
    - intros (L & x & Hr & Hl & ->). destruct Hr as [|L x c x' Hr Hch _]; [discriminate|]. destruct L; [|discriminate].
      assert (Hax : agree p x x0) by (inversion Hr; auto). apply Hc in Hch; auto. exists c. split; auto.
    - intros (c & -> & H). assert (Ha : agree p x0 x0) by (intros i _; reflexivity). assert (Hch : choice [] x0 c) by (apply (Hc x0 c Ha); auto).
      destruct (Hu x0 c Ha Hch) as (x' & Hx'). exists [c], x'. split; [|split; reflexivity]. eapply run_step; [apply run_start; exact Ha|exact Hch|exact Hx'].
  Qed.
  Lemma fresh_nil : forall c, fresh p [] c <-> c < num_cand p.
  Proof using. intros c. unfold fresh. cbn. tauto. Qed.
  Lemma purse_one : forall b c, agree p b (w p) -> (purse p b c == support p c)%Q.
  Proof using. intros b c Hb. rewrite support_fans. apply sum_ext. intros i Hi. apply in_fans in Hi as [Hi _]. apply Hb. auto. Qed.
  Lemma enestroem_one : forall W, enestroem_winner p 1 W <-> most_approved W.
  Proof using.
    intros W. apply run_one.
    - intros x c _ _. exact (enestroem_some p 1 [] x c).
    - intros x c Hx. unfold richest_choice. rewrite fresh_nil. split; intros [A B]; split; auto; intros d Hd.
      + rewrite <- !(purse_one x) by auto. apply B. apply (proj2 (fresh_nil d)). exact Hd.
      + rewrite !(purse_one x) by auto. apply B. apply (proj1 (fresh_nil d)). exact Hd.
  Qed.
  Lemma backing_one : forall x c, agree p x (fun _ => 0%Q) -> (sum (backers p x c) (earned p x) == support p c)%Q.
  Proof using Hw.
    intros x c Hx. rewrite support_fans. unfold backers. rewrite (filter_id _ _ (fans p c)).
    - apply sum_ext. intros i Hi. apply in_fans in Hi as [Hi _]. unfold earned. rewrite (Hx i Hi). ring.
    - intros i Hi. apply in_fans in Hi as [Hi _]. apply Qltb_lt. unfold earned. rewrite (Hx i Hi). pose proof (w_pos p i Hw Hi). lra.
  Qed.
  Lemma consensus_one : forall W, consensus_winner p 1 W <-> most_approved W.
  Proof using Hw.
    intros W. apply run_one.
    - intros x c _ _. eexists. intros i Hi. reflexivity.
    - intros x c Hx. unfold consensus_choice. rewrite fresh_nil. split; intros [A B]; split; auto; intros d Hd.
      + rewrite <- !(backing_one x) by auto. apply B. apply (proj2 (fresh_nil d)). exact Hd.
      + rewrite !(backing_one x) by auto. apply B. apply (proj1 (fresh_nil d)). exact Hd.
  Qed.
  (** Phragmén with the same load [y] per weight for everybody *)
  Lemma support_pos : forall c, (0 < support p c)%Q <-> fans p c <> [].
  Proof using Hw.
    intros c. rewrite support_fans. split.
    - intros H E. rewrite E in H. unfold sum in H. cbn in H. lra.
    - intros H. apply fans_weight_pos; auto.
  Qed.
  Lemma new_load_const : forall x y c, agree p x (fun _ => y) -> fans p c <> [] -> (new_load p x c == / support p c + y)%Q.
  Proof using Hw.
    intros x y c Hx Hf. pose proof (proj2 (support_pos c) Hf) as Hp. unfold new_load. rewrite <- support_fans.
    assert (E : (sum (fans p c) (fun i => w p i * x i) == y * support p c)%Q).
    { rewrite support_fans, <- sum_scal. apply sum_ext. intros i Hi. apply in_fans in Hi as [Hi _]. rewrite (Hx i Hi). ring. }
    rewrite E. field. lra.
  Qed.
  Lemma phragmen_choice_one : forall x y c, agree p x (fun _ => y) ->
    phragmen_choice p [] x c <-> (c < num_cand p /\ forall d, d < num_cand p -> (support p d <= support p c)%Q).
  Proof using Hw.
    intros x y c Hx. unfold phragmen_choice. rewrite fresh_nil.
    assert (S0 : forall d, fans p d = [] -> (support p d == 0)%Q) by (intros d E; rewrite support_fans, E; reflexivity).
    assert (SI : forall a b, (0 < a)%Q -> (0 < b)%Q -> (/ b <= / a)%Q <-> (a <= b)%Q).
    { intros a b Ha Hb. split; intros H.
      - apply Qmult_le_l with (z := (/ a * / b)%Q); [apply Qmult_lt_0_compat; apply Qinv_lt_0_compat; auto|].
        setoid_replace (/ a * / b * a)%Q with (/ b)%Q by (field; split; lra). setoid_replace (/ a * / b * b)%Q with (/ a)%Q by (field; split; lra). auto.
      - apply Qmult_le_l with (z := (a * b)%Q); [apply Qmult_lt_0_compat; auto|].
        setoid_replace (a * b * / b)%Q with a by (field; lra). setoid_replace (a * b * / a)%Q with b by (field; lra). auto. }
    destruct (fans p c) as [|i F] eqn:E; cbn [length Nat.ltb Nat.leb]; split; intros [A B]; split; auto; intros d Hd.
    - rewrite (S0 d), (S0 c); auto; [apply Qle_refl|]. apply B, fresh_nil. auto.
    - apply fresh_nil in Hd. specialize (B d Hd). rewrite (S0 c E) in B. destruct (fans p d) eqn:Ed; auto. exfalso.
      assert (0 < support p d)%Q by (apply support_pos; rewrite Ed; discriminate). lra.
    - assert (Hc : (0 < support p c)%Q) by (apply support_pos; rewrite E; discriminate). destruct (fans p d) eqn:Ed; [rewrite (S0 d Ed); lra|].
      assert (Hdn : fans p d <> []) by (rewrite Ed; discriminate). assert (Hdp : (0 < support p d)%Q) by (apply support_pos; auto).
      specialize (B d (proj2 (fresh_nil d) Hd) Hdn). rewrite !(new_load_const x y) in B; auto; [|rewrite E; discriminate]. apply SI; auto. lra.
    - intros Hf. apply fresh_nil in Hd. assert (Hc : (0 < support p c)%Q) by (apply support_pos; rewrite E; discriminate). assert (Hdp : (0 < support p d)%Q) by (apply support_pos; auto).
      rewrite !(new_load_const x y); auto; [|rewrite E; discriminate]. specialize (B d Hd). apply SI in B; auto. lra.
  Qed.
  Lemma phragmen_one : forall y W, run_winner p (phragmen_choice p) (phragmen_update p) [] (fun _ => y) 1 W <-> most_approved W.
  Proof using Hw.
    intros y W. apply run_one.
    - intros x c _ _. eexists. intros i Hi. reflexivity.
    - intros x c Hx. apply (phragmen_choice_one x y). auto.
  Qed.
  (** equal shares *)
  Lemma total_pos : (0 < wsum (voters p))%Q.
  Proof using Hw Hv. apply wsum_pos; auto. Qed.
  Lemma support_total : forall c, (support p c <= wsum (voters p))%Q.
  Proof using Hw.
    intros c. rewrite support_fans, wsum_voter_ids. apply sum_incl_le; [apply fans_NoDup|apply seq_NoDup| |].
    - intros i Hi. apply in_fans in Hi as [Hi _]. apply in_voter_ids. auto.
    - intros i Hi. apply in_voter_ids in Hi. apply Qlt_le_weak, w_pos; auto.
  Qed.
  Lemma share_one : forall i, (equal_share p 1 i == w p i / wsum (voters p))%Q.
  Proof using. intros i. unfold equal_share. change (Qnat 1) with 1%Q. unfold Qdiv. ring. Qed.
  Lemma mes_purse_one : forall b c, agree p b (equal_share p 1) -> (purse p b c == support p c / wsum (voters p))%Q.
  Proof using.
    intros b c Hb. unfold purse, Qdiv. rewrite (sum_ext _ _ (fun i => / wsum (voters p) * w p i)%Q).
    - rewrite sum_scal, support_fans. ring.
    - intros i Hi. apply in_fans in Hi as [Hi _]. rewrite (Hb i Hi), share_one. unfold Qdiv. ring.
  Qed.
  Lemma afford_one : forall b c, agree p b (equal_share p 1) -> (1 <= purse p b c)%Q <-> (support p c == wsum (voters p))%Q.
  Proof using Hw Hv.
    intros b c Hb. rewrite (mes_purse_one b c Hb). pose proof total_pos as HT. pose proof (support_total c) as HS. split; intros H.
    - apply Qmult_le_r with (z := wsum (voters p)) in H; auto. setoid_replace (support p c / wsum (voters p) * wsum (voters p))%Q with (support p c) in H by (field; lra). lra.
    - rewrite H. setoid_replace (wsum (voters p) / wsum (voters p))%Q with 1%Q by (field; lra). lra.
  Qed.
  Lemma price_one : forall b c rho, agree p b (equal_share p 1) -> price_of p b c rho -> (rho == / wsum (voters p))%Q.
  Proof using Hw Hv.
    intros b c rho Hb Hr. pose proof total_pos as HT. pose proof (price_purse _ _ _ _ Hr) as Hp. pose proof Hp as Hp'. apply (afford_one b c Hb) in Hp'.
    pose proof (mes_purse_one b c Hb) as EP. rewrite Hp' in EP. setoid_replace (wsum (voters p) / wsum (voters p))%Q with 1%Q in EP by (field; lra).
    apply (price_unique p b c rho (/ wsum (voters p))%Q Hr).
    assert (EM : forall r, (r <= / wsum (voters p))%Q -> (collected p b c r == r * support p c)%Q).
    { intros r Hle. unfold collected. rewrite support_fans, <- sum_scal. apply sum_ext. intros i Hi. apply in_fans in Hi as [Hi _]. apply Qmin_r.
      rewrite (Hb i Hi), share_one. unfold Qdiv. pose proof (w_pos p i Hw Hi). nra. }
    split.
    - rewrite EM by apply Qle_refl. rewrite Hp'. field. lra.
    - intros r Hlt. rewrite EM by lra. rewrite Hp'. setoid_replace 1%Q with (/ wsum (voters p) * wsum (voters p))%Q by (field; lra). apply Qmult_lt_r; auto.
  Qed.
  Lemma mes_one : forall fill : completion, (forall b W, agree p b (equal_share p 1) -> fill [] b W <-> most_approved W) ->
    forall W, mes_winner p 1 (equal_share p 1) fill W <-> most_approved W.
  Proof using Hw Hv.
    intros fill Hfill W. pose proof total_pos as HT.
    assert (HU : forall b c, agree p b (equal_share p 1) -> mes_choice p [] b c -> c < num_cand p /\ (support p c == wsum (voters p))%Q).
    { intros b c Hb (Hf & rho & Hr & _). split; [exact (proj1 (fresh_nil c) Hf)|]. apply (proj1 (afford_one b c Hb)). apply (price_purse _ _ _ _ Hr). }
    split.
    - intros (L & b & [Hr Hend] & H1 & H2). destruct Hr as [b Hb|L b c b' Hr Hc Hu].
      + apply (Hfill b W Hb). apply H2. cbn. lia.
      + destruct L; [|cbn in Hend; lia]. assert (Hb : agree p b (equal_share p 1)) by (inversion Hr; auto). rewrite H1 by reflexivity.
        destruct (HU b c Hb Hc) as [Hcm Es]. exists c. split; auto. split; auto. intros d _. rewrite Es. apply support_total.
    - intros (c & -> & Hc & HB). assert (Ha : agree p (equal_share p 1) (equal_share p 1)) by (intros i _; reflexivity).
      destruct (Qlt_le_dec (purse p (equal_share p 1) c) 1) as [Hlt|Hle].
      + exists [], (equal_share p 1). split; [split; [apply run_start; auto|]|split; [discriminate|]].
        * right. split; [cbn; lia|]. intros d Hd. apply fresh_nil in Hd. specialize (HB d Hd).
          destruct (Qlt_le_dec (purse p (equal_share p 1) d) 1) as [|Hle]; auto. apply (afford_one _ d Ha) in Hle. exfalso. rewrite Hle in HB.
          pose proof (support_total c). assert (E : (support p c == wsum (voters p))%Q) by lra. apply (afford_one _ c Ha) in E. lra.
        * intros _. apply (Hfill _ _ Ha). exists c. auto.
      + destruct (purse_price p (equal_share p 1) c Hw Hle) as (rho & Hr).
        assert (Hch : mes_choice p [] (equal_share p 1) c).
        { split; [apply fresh_nil; auto|]. exists rho. split; auto. intros d r _ Hd. rewrite (price_one _ _ _ Ha Hr), (price_one _ _ _ Ha Hd). apply Qle_refl. }
        destruct (mes_update_exists p [] _ c Hch) as (b' & Hu). exists [c], b'. split; [split; [eapply run_step; [apply run_start; exact Ha|exact Hch|exact Hu]|left; reflexivity]|].
        split; [reflexivity|cbn; lia].
  Qed.
  Lemma mes_phragmen_one : forall b W, agree p b (equal_share p 1) -> phragmen_completion p 1 [] b W <-> most_approved W.
  Proof using Hw Hv.
    intros b W Hb. rewrite <- (phragmen_one (- / wsum (voters p))%Q W). unfold phragmen_completion.
    assert (E : agree p (fun i => - b i / w p i)%Q (fun _ => - / wsum (voters p))%Q).
    { intros i Hi. pose proof total_pos. pose proof (w_pos p i Hw Hi). rewrite (Hb i Hi), share_one. field. split; lra. }
    split; intros (L & x & Hr & H); exists L, x; (split; [|auto]); clear - Hr E; induction Hr as [x Hx|V x d x' H IH Hd Hu].
    - apply run_start. intros i Hi. rewrite (Hx i Hi). apply E. auto.
    - eapply run_step; eauto.
    - apply run_start. intros i Hi. rewrite (Hx i Hi). symmetry. apply E. auto.
    - eapply run_step; eauto.
  Qed.
  Lemma mes_av_one : forall b W, av_completion p 1 [] b W <-> most_approved W.
  Proof using.
    intros b W. unfold av_completion. rewrite committee_one. split.
    - intros ((c & -> & Hc) & _ & HB). exists c. split; auto. split; auto. intros d Hd. destruct (Nat.eq_dec d c) as [->|Hne]; [apply Qle_refl|].
      apply HB; auto; [left; auto|]. intros [E|[]]. auto.
    - intros (c & -> & Hc & HB). split; [eauto|]. split; [intros a []|]. intros a d [<-|[]] _ Hd _. auto.
  Qed.
  (** Monroe *)
  Lemma monroe_phi : forall c phi, monroe_assignment p [c] phi -> phi = repeat c (length (voters p)).
  Proof using.
    intros c phi (HL & HF & _). rewrite <- HL. clear HL. induction phi as [|a l IH]; [reflexivity|]. inversion HF as [|? ? [<-|[]] HF']; subst. cbn. f_equal. auto.
  Qed.
  Lemma monroe_phi_ok : forall c, monroe_assignment p [c] (repeat c (length (voters p))).
  Proof using.
    intros c. split; [apply repeat_length|]. split; [apply Forall_forall; intros a Ha; apply repeat_spec in Ha; subst; left; auto|].
    intros d [<-|[]]. rewrite count_occ_repeat_eq by auto. cbn [length]. rewrite Nat.sub_diag, Nat.add_0_r, Nat.div_1_r. lia.
  Qed.
  Lemma represented_one : forall c, unit_weights p -> (Qnat (represented p (repeat c (length (voters p)))) == support p c)%Q.
  Proof using.
    intros c Hu. clear Hv Hw. unfold represented, support, supporters, unit_weights in *. induction (voters p) as [|v l IH]; [reflexivity|]. inversion Hu as [|? ? E Hu']; subst.
    cbn [length repeat combine filter fst snd]. destruct (approves v c); cbn [length].
    - rewrite Qnat_S, (IH Hu'). unfold wsum. cbn [map]. change (Qsum (?a :: ?b)) with (a + Qsum b)%Q. rewrite E. ring.
    - exact (IH Hu').
  Qed.
  Lemma monroe_one : unit_weights p -> forall W, monroe_winner p 1 W <-> most_approved W.
  Proof using.
    intros Hu W. unfold monroe_winner. rewrite committee_one. split.
    - intros ((c & -> & Hc) & phi & Hphi & HB). exists c. split; auto. split; auto. intros d Hd. apply monroe_phi in Hphi. subst phi.
      rewrite <- !represented_one by auto. apply Qnat_le. apply (HB [d]); [apply committee_one; eauto|apply monroe_phi_ok].
    - intros (c & -> & Hc & HB). split; [eauto|]. exists (repeat c (length (voters p))). split; [apply monroe_phi_ok|]. intros V phi HV Hphi.
      apply committee_one in HV as (d & -> & Hd). apply monroe_phi in Hphi. subst phi. specialize (HB d Hd). rewrite <- !represented_one in HB by auto.
      destruct (le_lt_dec (represented p (repeat d (length (voters p)))) (represented p (repeat c (length (voters p))))) as [|Hlt]; auto.
      apply Qnat_lt in Hlt. lra.
  Qed.
End Single.

Section SingleAll.
  Variable rnd : random.
  Variable nx : networkx.
  Variable sv : solvers.
  Variable e : env.
  Let e' := with_solvers nx sv e.
  Lemma denotes_one : forall id f, denotes e id f -> (0 < f 1%nat)%Q.
  Proof using.
    intros id f Hd. destruct (string_dec id "cc") as [->|Hne]; [|apply (denotes_pos e id f Hd Hne 1); lia]. inversion Hd; subst; try discriminate. reflexivity.
  Qed.
  Lemma single_listed : forall p id alg, single_seat_av e p id alg -> wf p -> voters p <> [] ->
    exists P, listed_by e p 1 id alg P /\ forall W, P W <-> most_approved p W.
  Proof using.
    intros p id alg Ha Hw Hv. destruct Ha.
    - exists (maximises (Thiele f p) p 1). split; [eapply b_thiele; eauto|]. apply thiele_one_winner; auto. eapply denotes_one; eauto.
    - exists (maximises (Thiele f p) p 1). split; [eapply b_thiele_bb; eauto|]. apply thiele_one_winner; auto. eapply denotes_one; eauto.
    - exists (maximises (Thiele f p) p 1). split; [eapply b_thiele_mip; eauto|]. apply thiele_one_winner; auto. eapply denotes_one; eauto.
    - exists (maximises (Thiele cc_w p) p 1). split; [apply b_cc_cp; auto|]. apply thiele_one_winner; auto. reflexivity.
    - exists (lexcc_winner p 1). split; [apply b_lexcc|]. apply lexcc_one; auto.
    - exists (lexcc_winner p 1). split; [apply b_lexcc_gurobi; auto|]. apply lexcc_one; auto.
    - exists (seq_thiele_winner f p 1). split; [eapply b_seq; eauto|]. apply seq_one; auto. eapply denotes_one; eauto.
    - exists (phragmen_winner p 1). split; [apply b_seqphragmen; auto|]. apply phragmen_one; auto.
    - exists (monroe_winner p 1). split; [apply b_monroe; auto|]. apply monroe_one; auto.
    - exists (mes_winner p 1 (equal_share p 1) (phragmen_completion p 1)). split; [apply b_mes_phragmen; auto|]. apply mes_one; auto. intros b W. apply mes_phragmen_one; auto.
    - exists (mes_winner p 1 (equal_share p 1) (av_completion p 1)). split; [apply b_mes_av; auto|]. apply mes_one; auto. intros b W _. apply mes_av_one; auto.
    - exists (enestroem_winner p 1). split; [apply b_enestroem; auto|]. apply enestroem_one; auto.
    - exists (consensus_winner p 1). split; [apply b_consensus; auto|]. apply consensus_one; auto.
  Qed.
  (** two lists without repetitions, in printed order, with the same members *)
  Lemma printed_eq : forall l l', NoDup l -> NoDup l' -> in_printed_order l -> in_printed_order l' -> Forall ascending l -> (forall W, In W l <-> In W l') -> l = l'.
  Proof using.
    intros l l' N N' H H' HA HI. rewrite <- (sort_sorted_id l), <- (sort_sorted_id l') by auto.
    apply sort_committees_perm; [exact HA|apply NoDup_Permutation; auto].
  Qed.
  Theorem single_seat_ok : forall p id alg, single_seat_av e p id alg -> libraries_ok p rnd nx sv e -> valid_call p 1 false None ->
    compute rnd nx e' id p 1 None (args alg false None) = compute rnd nx e' "av" p 1 None (args "standard" false None).
  Proof using.
    intros p id alg Ha HL Hc. pose proof Hc as (Hw & Hv & Hk & _). destruct (single_listed p id alg Ha Hw Hv) as (P & HP & H).
    destruct (listed_by_determined rnd nx sv e p 1 id alg P HL HP Hw Hv Hk false None Hc) as (l & El & N & O & A & B).
    destruct (listed_by_determined rnd nx sv e p 1 _ _ _ HL (b_av e p 1) Hw Hv Hk false None Hc) as (l' & El' & N' & O' & A' & B').
    change (Z.of_nat 1) with 1%Z in *. transitivity (Ok l); [exact El|]. transitivity (Ok l'); [|symmetry; exact El']. f_equal. apply printed_eq; auto.
    - apply Forall_forall. intros W HW. apply A in HW. apply H in HW. destruct HW as (c & -> & _). repeat constructor.
    - intros W. split; intros HW.
      + apply B'. apply av_one. apply H. auto.
      + apply B. apply H. apply (av_one p). apply A'. auto.
  Qed.
End SingleAll.

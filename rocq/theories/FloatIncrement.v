(** * "float-fractions": the method of equal shares with increment completion terminates with a committee *)
From Coq Require Import String.
From Coq Require Import List Arith Bool ZArith QArith Qabs Qround Lia Lqa Permutation Sorted.
From Verif Require Import Prelude Misc MiscProofs Preferences Scores Spec ScoresProofs Search RulesThiele SpecRules SpecSeq SpecAll
  RulesSeq RulesMes PhragmenProofs EnestroemProofs MesFinal ProfileFacts Floats RulesFloat FloatSearch FloatStruct SpecFloat FloatBounds FloatPhragmen FloatMes FloatMesRun ThieleProofs OptProofs.
Import ListNotations.
Open Scope Q_scope.

Section Increment.
  Variable A : arith.
  Variables (p : profile) (k : nat).
  Hypothesis Hw : wf p.
  Hypothesis Hk : (1 <= k <= num_cand p)%nat.

  (** ** Any arithmetic: a committee, or RuntimeError *)
  Lemma f_increment_loop_any : forall r n,
    (exists W, f_increment_loop A p k r n = Ok [W] /\ is_committee p k W) \/ f_increment_loop A p k r n = Err RuntimeError.
  Proof using Hk.
    induction r as [|r IH]; intros n; [right; reflexivity|]. cbn [f_increment_loop].
    destruct (f_mes_none_any A p k Hk (f_mes_start_increment A p n)) as (P & HP & HA').
    destruct (HA' true None I) as (l & E & _ & _ & Hin & Hl). rewrite E. cbn [rbind].
    destruct l as [|W [|]]; try discriminate. cbn [filter].
    destruct (Nat.eqb_spec (length W) k) as [Hlen|_]; [|apply IH].
    left. exists W. split; auto. destruct (HP W (Hin W (or_introl eq_refl))) as (H1 & H2 & H3). split; auto.
  Qed.
  Lemma f_increment_few : (length (approved_candidates p) < k)%nat ->
    exists W, f_equal_shares_increment A p k = Ok [W] /\ is_committee p k W.
  Proof using Hw Hk.
    intros H. unfold f_equal_shares_increment. destruct (Nat.ltb_spec (length (approved_candidates p)) k); [|lia].
    destruct (separable_rule_correct SepAV p k true None Hw Hk I) as (l & E & _ & _ & HP & Hl).
    destruct l as [|W [|]]; try discriminate. exists W. split; auto. apply (HP W). left. auto.
  Qed.
  Theorem f_increment_any :
    (exists W, f_equal_shares_increment A p k = Ok [W] /\ is_committee p k W) \/ f_equal_shares_increment A p k = Err RuntimeError.
  Proof using Hw Hk.
    destruct (Nat.le_gt_cases k (length (approved_candidates p))) as [Hm|Hm]; [|left; apply f_increment_few; auto].
    unfold f_equal_shares_increment. destruct (Nat.ltb_spec (length (approved_candidates p)) k); [lia|]. apply f_increment_loop_any.
  Qed.

  (** ** Floats, weights of at least 1 and at most 50 seats: the last budget suffices *)
  Hypothesis HA : float_ok A.
  Hypothesis Hone : forall v, In v (voters p) -> 1 <= weight v.
  Hypothesis Hseats : (Z.of_nat k <= 50)%Z.

  Definition loss : Q := 16 # 1000000000000000.
  Definition lower (j : nat) : Q := Qnat k - Qnat j - Qnat j * loss.
  Definition rich_budgets (C : list nat) (b : list num) : Prop := forall i, (i < length (voters p))%nat ->
    wfn A (nth_num b i) /\ lower (length C) <= val (nth_num b i).

  Lemma k50 : Qnat k <= 50.
  Proof using Hk Hseats. unfold Qnat. change 50 with (inject_Z 50). rewrite <- Zle_Qle. auto. Qed.
  Lemma lower_range : forall j, (j < k)%nat -> 1 - (8 # 10000000000000) <= lower j /\ lower j <= 50.
  Proof using Hk Hseats.
    intros j Hj. unfold lower, loss. pose proof k50. pose proof (Qnat_nonneg j). assert (Qnat (S j) <= Qnat k) by (apply Qnat_le; lia).
    pose proof (Qnat_S j). lra.
  Qed.
  Lemma lower_S : forall j, lower (S j) == lower j - 1 - loss.
  Proof using. intros j. unfold lower. rewrite Qnat_S. ring. Qed.

  Definition q_of (c : nat) : num :=
    ndiv A (nsub A (num_of_nat 1) (nsum A [])) (nsum A (map (fun iv => weight_num (snd iv)) (filter (fun iv => mem c (approved (snd iv))) (enum_voters p)))).
  (** everybody pays hardly more than 1 *)
  Lemma due_le : forall c iv, In iv (filter (fun iv => mem c (approved (snd iv))) (enum_voters p)) ->
    0 <= val (nmul A (q_of c) (weight_num (snd iv))) /\ val (nmul A (q_of c) (weight_num (snd iv))) <= 1 + (4 # 1000000000000000).
  Proof using HA Hone.
    intros c iv Hiv. set (rich := filter _ _) in *.
    assert (Hpos : forall jv, In jv rich -> 1 <= weight (snd jv)).
    { intros jv Hj. apply filter_In in Hj as [Hj _]. apply in_enum in Hj as [H1 H2]. rewrite H2. apply Hone, the_voter_In. auto. }
    assert (HW : weight (snd iv) <= Qsum (map (fun iv => weight (snd iv)) rich)).
    { clear - Hiv Hpos. induction rich as [|x l IH]; [destruct Hiv|].
      assert (H0 : 0 <= Qsum (map (fun iv => weight (snd iv)) l)).
      { clear - Hpos. induction l as [|y l IH]; [discriminate|]. simpl. pose proof (Hpos y (or_intror (or_introl eq_refl))).
        assert (0 <= Qsum (map (fun iv => weight (snd iv)) l)) by (apply IH; intros z [Hz|Hz]; apply Hpos; [left|right; right]; auto). unfold Qsum in *. simpl. lra. }
      pose proof (Hpos x (or_introl eq_refl)) as Hx.
      destruct Hiv as [<-|Hiv]; unfold Qsum in *; simpl; [lra|]. pose proof (IH Hiv (fun z Hz => Hpos z (or_intror Hz))). lra. }
    assert (HS : val (nsum A (map (fun iv => weight_num (snd iv)) rich)) == Qsum (map (fun iv => weight (snd iv)) rich)).
    { rewrite (sum_exact A HA); [rewrite map_map; reflexivity|]. apply Forall_forall. intros x Hx. apply in_map_iff in Hx as (v & <- & _). apply weight_num_kind. }
    pose proof (Hpos iv Hiv) as H1. set (S := Qsum (map (fun iv => weight (snd iv)) rich)) in *. set (wi := weight (snd iv)) in *.
    assert (Hx : Qabs (val (nsub A (num_of_nat 1) (nsum A [])) - 1) <= eps).
    { pose proof (sub_err A HA (num_of_nat 1) (nsum A [])) as He.
      assert (E0 : val (nsum A []) == 0) by (rewrite (sum_exact A HA); [reflexivity|constructor]).
      rewrite E0 in He. change (val (num_of_nat 1)) with 1 in He. change (Qabs 1) with 1 in He. change (Qabs 0) with 0 in He.
      setoid_replace (val (nsub A (num_of_nat 1) (nsum A [])) - 1) with (val (nsub A (num_of_nat 1) (nsum A [])) - (1 - 0)) by ring. lra. }
    apply Qabs_Qle_condition in Hx as [X1 X2].
    set (x := nsub A (num_of_nat 1) (nsum A [])) in *.
    assert (HSp : 0 < val (nsum A (map (fun iv => weight_num (snd iv)) rich))) by (rewrite HS; lra).
    pose proof (div_rel A HA x _ HSp) as Hd. change (ndiv A x (nsum A (map (fun iv => weight_num (snd iv)) rich))) with (q_of c) in Hd.
    assert (Hd' : rel eps (val (q_of c)) (val x / S)) by (destruct Hd as (t & Ht & E); exists t; split; [auto|rewrite E, HS; reflexivity]).
    clear Hd. rename Hd' into Hd.
    assert (He1 : eps < 1) by reflexivity.
    assert (Hx0 : 0 <= val x) by (unfold eps in *; lra).
    assert (Hd0 : 0 <= val x / S) by (apply Qle_shift_div_l; lra).
    pose proof (rel_lower eps _ _ He1 Hd Hd0) as Hq0. apply rel_upper in Hd; auto.
    pose proof (mul_rel A HA (q_of c) (weight_num (snd iv))) as Hm. rewrite weight_num_val in Hm. fold wi in Hm.
    assert (Hm0 : 0 <= val (q_of c) * wi) by (apply Qmult_le_0_compat; lra).
    split; [apply (rel_lower eps _ _ He1 Hm Hm0)|]. apply rel_upper in Hm; auto.
    assert (Hq1 : val (q_of c) * wi <= val x / S * (1 + eps) * wi) by (apply Qmult_le_compat_r; lra).
    assert (Hq2 : val x / S * wi <= val x).
    { setoid_replace (val x / S * wi) with (val x * (wi / S)) by (field; lra).
      rewrite <- (Qmult_1_r (val x)) at 2. rewrite !(Qmult_comm (val x)). apply Qmult_le_compat_r; auto. apply Qle_shift_div_r; lra. }
    assert (Hq3 : val x / S * wi * (1 + eps) <= (1 + eps) * (1 + eps)) by (apply Qmult_le_compat_r; [unfold eps in *; lra|discriminate]).
    assert (Hq4 : val (q_of c) * wi <= (1 + eps) * (1 + eps)) by lra.
    assert (Hq5 : val (q_of c) * wi * (1 + eps) <= (1 + eps) * (1 + eps) * (1 + eps)) by (apply Qmult_le_compat_r; [auto|discriminate]).
    assert (Hq6 : (1 + eps) * (1 + eps) * (1 + eps) <= 1 + (4 # 1000000000000000)) by (apply Qle_bool_iff; vm_compute; reflexivity).
    lra.
  Qed.
  Lemma grow_lower : forall n, 1 + Qnat n * u <= grow n.
  Proof using.
    induction n as [|n IH]; [discriminate|]. rewrite grow_S, Qnat_S. pose proof G_ge as Z1. pose proof (grow_pos n) as Z2. pose proof u_pos as Z3. pose proof (Qnat_nonneg n) as Z4.
    assert (H1 : grow n * (1 + u) <= grow n * G) by (rewrite !(Qmult_comm (grow n)); apply Qmult_le_compat_r; lra).
    assert (H2 : (1 + Qnat n * u) * (1 + u) <= grow n * (1 + u)) by (apply Qmult_le_compat_r; lra).
    assert (H3 : 0 <= Qnat n * u * u) by (apply Qmult_le_0_compat; [apply Qmult_le_0_compat|]; lra).
    lra.
  Qed.
  Lemma filter_nil : forall (X : Type) (f : X -> bool) l, (forall x, In x l -> f x = false) -> filter f l = [].
  Proof using. intros X f l H. induction l as [|x l IH]; auto. simpl. rewrite (H x (or_introl eq_refl)). apply IH. intros y Hy. apply H. right. auto. Qed.
  (** so that nobody is too poor *)
  Lemma rich_min_q : forall C b c, rich_budgets C b -> (length C < k)%nat ->
    f_min_q A p b c = Ok (match filter (fun iv => mem c (approved (snd iv))) (enum_voters p) with [] => None | _ => Some (q_of c) end).
  Proof using Hk HA Hone Hseats.
    intros C b c Hb Hl. unfold f_min_q. pose proof (due_le c) as HD. unfold q_of in *. set (rich := filter _ _) in *.
    assert (Hin : forall iv, In iv rich -> In iv (enum_voters p)) by (intros iv Hiv; apply filter_In in Hiv; tauto). clearbody rich.
    set (q := ndiv A _ _) in *.
    assert (HP : filter (f_is_poor A b q) rich = []).
    { apply filter_nil. intros iv Hiv. unfold f_is_poor. destruct (HD iv Hiv) as [D1 D2].
      pose proof (in_enum p iv (Hin iv Hiv)) as [Hi _]. destruct (Hb (fst iv) Hi) as [_ B]. destruct (lower_range _ Hl) as [R _].
      set (due := nmul A q (weight_num (snd iv))) in *. pose proof (nlt_spec (nth_num b (fst iv)) due) as Hs.
      destruct (nlt (nth_num b (fst iv)) due); auto. simpl. apply negb_false_iff.
      apply (close_intro A HA (Z.to_nat 8800)); [reflexivity|]. unfold within.
      assert (HG : 1 + (9 # 10000000000000) <= grow (Z.to_nat 8800)).
      { eapply Qle_trans; [|apply grow_lower]. unfold Qnat. rewrite Z2Nat.id by lia. apply Qle_bool_iff. vm_compute. reflexivity. }
      set (g := grow (Z.to_nat 8800)) in *. set (bi := val (nth_num b (fst iv))) in *. set (d := val due) in *. clearbody g bi d.
      assert (H1 : bi * (1 + (9 # 10000000000000)) <= bi * g) by (rewrite !(Qmult_comm bi); apply Qmult_le_compat_r; lra).
      assert (H2 : d * 1 <= d * g) by (rewrite !(Qmult_comm d); apply Qmult_le_compat_r; lra).
      split; [lra|]. split; lra. }
    destruct rich as [|iv rich]; [reflexivity|]. cbn [length f_min_q_loop map]. change (ndiv A _ _) with q.
    rewrite HP. reflexivity.
  Qed.
  Lemma rich_next : forall C b c sel, rich_budgets C b -> NoDup C -> Forall (fun c => (c < num_cand p)%nat) C -> (length C < k)%nat ->
    f_mes_select A p C b = Ok sel -> In c sel -> rich_budgets (C ++ [c]) (f_mes_next A p C b c).
  Proof using Hk HA Hone Hseats.
    intros C b c sel Hb _ _ Hl _ _ i Hi. rewrite app_length, Nat.add_1_r.
    destruct (Hb i Hi) as [B1 B2]. destruct (lower_range _ Hl) as [R1 R2]. pose proof (lower_S (length C)) as HS.
    assert (Hkeep : wfn A (nth_num b i) /\ lower (S (length C)) <= val (nth_num b i)) by (split; auto; unfold loss in *; lra).
    unfold f_mes_next. rewrite (rich_min_q C b c Hb Hl). pose proof (due_le c) as HD. set (rich := filter _ _) in *.
    destruct rich as [|r0 rr] eqn:Er; [exact Hkeep|]. rewrite <- Er in HD. rewrite nth_num_enum by auto. cbn [fst snd].
    destruct (mem c (approved (the_voter p i))) eqn:Em; [|exact Hkeep].
    assert (Hin : In (i, the_voter p i) rich).
    { apply filter_In. split; auto. rewrite enum_voters_eq. apply in_map_iff. exists i. split; auto. apply in_seq. lia. }
    destruct (HD _ Hin) as [D1 D2]. cbn [snd] in D1, D2. set (due := nmul A (q_of c) (weight_num (the_voter p i))) in *. set (bi := nth_num b i) in *.
    assert (Hmin : wfn A (nmin2 bi due) /\ 0 <= val (nmin2 bi due) /\ val (nmin2 bi due) <= 1 + (4 # 1000000000000000)).
    { unfold nmin2. pose proof (nlt_spec due bi) as Hs. destruct (nlt due bi).
      - split; [apply arith_op_wfn; auto|]. lra.
      - split; auto. split; [lra|lra]. }
    destruct Hmin as (M1 & M0 & M2). set (m := nmin2 bi due) in *.
    split; [apply arith_op_wfn; auto|]. rewrite HS. set (L := lower (length C)) in *. clearbody L.
    assert (Hfb : L * (1 - u) <= to_float A bi).
    { pose proof (to_float_mono A HA (mkNum KFrac L) bi) as HM. unfold to_float at 1 in HM. cbn [kind_of val] in HM.
      pose proof (rnd_bounds A HA L) as HR. assert (0 <= L) by lra. destruct (HR H) as [HR1 _]. eapply Qle_trans; [exact HR1|]. apply HM; auto.
      unfold wfn. discriminate. }
    set (M := 1 + (4 # 1000000000000000)) in *.
    assert (Hfm : to_float A m <= M * (1 + u)).
    { pose proof (to_float_mono A HA m (mkNum KFrac M)) as HM. unfold to_float at 2 in HM. cbn [kind_of val] in HM.
      pose proof (rnd_bounds A HA M) as HR. assert (0 <= M) by discriminate. destruct (HR H) as [_ HR2]. eapply Qle_trans; [|exact HR2]. apply HM; auto.
      unfold wfn. discriminate. }
    unfold nsub, arith_op. assert (Hex : L - 1 - loss <= val bi - val m) by (unfold loss, M in *; lra).
    destruct (join_kind (kind_of bi) (kind_of m)); cbn [val]; auto.
    set (x := L * (1 - u) - M * (1 + u)).
    assert (Hx : rnd A x <= rnd A (to_float A bi - to_float A m)) by (apply (rounding_monotone A HA); unfold x; lra).
    eapply Qle_trans; [|exact Hx]. pose proof (rounding_error A HA x) as He. apply Qabs_Qle_condition in He as [He _].
    assert (Habs : Qabs x <= 51) by (apply Qabs_Qle_condition; unfold x, M, unit_roundoff; lra).
    assert (Hux : unit_roundoff * Qabs x <= unit_roundoff * 51) by (apply Qmult_le_l; [reflexivity|auto]).
    assert (Hxl : L - 1 - loss + unit_roundoff * 51 <= x) by (unfold x, M, loss, unit_roundoff; lra).
    clearbody x. lra.
  Qed.
  Hypothesis Hmany : (k <= length (approved_candidates p))%nat.
  Lemma dict_In : forall b cands c q d, f_min_q_dict A p b cands = Ok d -> In c cands -> f_min_q A p b c = Ok (Some q) -> d <> [].
  Proof using.
    intros b cands. induction cands as [|c0 cands IH]; intros c q d E Hin Hq; [destruct Hin|]. simpl in E.
    destruct (f_min_q_ok A p b c0) as (q0 & E0). destruct (f_min_q_dict_ok A p b cands) as (d0 & Ed & _).
    rewrite E0 in E. cbn [rbind] in E. rewrite Ed in E. cbn [rbind] in E. inversion E; subst d. destruct Hin as [->|Hin].
    - rewrite Hq in E0. inversion E0. discriminate.
    - specialize (IH c q d0 Ed Hin Hq). destruct q0; [discriminate|auto].
  Qed.
  Lemma rich_select : forall C b, rich_budgets C b -> NoDup C -> Forall (fun c => (c < num_cand p)%nat) C -> (length C < k)%nat ->
    f_mes_select A p C b <> Ok [].
  Proof using Hk HA Hw Hone Hseats Hmany.
    intros C b Hb HN HF Hl Hsel.
    assert (Hex : exists c, In c (supported p) /\ ~ In c C).
    { rewrite (Permutation_length (approved_supported p Hw)) in Hmany.
      destruct (existsb (fun c => negb (mem c C)) (supported p)) eqn:Ex.
      - apply existsb_exists in Ex as (c & Hc & Hm). exists c. split; auto. intros Hin. apply mem_In in Hin. rewrite Hin in Hm. discriminate.
      - exfalso. assert (Hi : incl (supported p) C).
        { intros c Hc. apply mem_In. destruct (mem c C) eqn:E; auto. assert (existsb (fun c => negb (mem c C)) (supported p) = true) by (apply existsb_exists; exists c; rewrite E; auto). congruence. }
        apply NoDup_incl_length in Hi; [lia|]. unfold supported. apply NoDup_filter, seq_NoDup. }
    destruct Hex as (c & Hc & Hn). apply supported_In in Hc as [Hc Hfans].
    assert (Hq : f_min_q A p b c = Ok (Some (q_of c))).
    { rewrite (rich_min_q C b c Hb Hl). destruct (filter _ _) eqn:E; auto. exfalso. apply Hfans.
      destruct (fans p c) as [|i l] eqn:Ef; auto. assert (Hi : In i (fans p c)) by (rewrite Ef; left; auto). apply in_fans in Hi as [Hi Hlk].
      assert (Hin : In (i, the_voter p i) []) by (rewrite <- E; apply filter_In; split; [rewrite enum_voters_eq; apply in_map_iff; exists i; split; auto; apply in_seq; lia|exact Hlk]).
      destruct Hin. }
    unfold f_mes_select in Hsel. destruct (f_min_q_dict_ok A p b (available p C)) as (d & Ed & _). rewrite Ed in Hsel. cbn [rbind] in Hsel.
    pose proof (dict_In b _ c _ d Ed (proj2 (available_In p C c) (conj Hc Hn)) Hq) as Hd.
    destruct d as [|x d]; [congruence|].
    destruct (nmin_ok (map snd (x :: d))) as (mn & Em & Hmi & _); [discriminate|]. rewrite Em in Hsel. cbn [rbind] in Hsel.
    apply in_map_iff in Hmi as (cq & Ecq & Hcq). inversion Hsel as [Hs].
    assert (Hin : In (fst cq) (isort (map fst (filter (fun cq => isclose A (snd cq) mn) (x :: d))))).
    { apply (Permutation_in _ (isort_perm _)). apply in_map_iff. exists cq. split; auto. apply filter_In. split; auto. rewrite <- Ecq. apply isclose_refl. }
    change (filter (fun cq => isclose A (snd cq) mn) (x :: d)) with (if isclose A (snd x) mn then x :: filter (fun cq => isclose A (snd cq) mn) d else filter (fun cq => isclose A (snd cq) mn) d) in Hin.
    rewrite Hs in Hin. destruct Hin.
  Qed.
  Lemma total_exact : val (total_num A p) == total_weight p.
  Proof using HA.
    unfold total_num. rewrite (sum_exact A HA); [rewrite map_map, total_weight_eq; reflexivity|].
    apply Forall_forall. intros x Hx. apply in_map_iff in Hx as (v & <- & _). apply weight_num_kind.
  Qed.
  Hypothesis Hv : voters p <> [].
  Lemma rich_start : forall N, Qnat k * wsum (voters p) <= Qnat N -> rich_budgets [] (f_mes_start_increment A p N).
  Proof using HA Hw Hone Hv.
    intros N HN i Hi. unfold f_mes_start_increment. rewrite nth_num_voters by auto.
    pose proof total_exact as HT. rewrite total_weight_eq in HT. pose proof (wsum_pos p Hw Hv) as HW.
    unfold nmul, arith_op. assert (Hkd : join_kind (kind_of (weight_num (the_voter p i))) (kind_of (mkNum KFrac (Qnat N / val (total_num A p)))) = KFrac).
    { unfold weight_num. destruct (weight_is_int _); reflexivity. }
    rewrite Hkd. split; [unfold wfn; discriminate|]. cbn [val]. rewrite weight_num_val, HT.
    assert (H1 : 1 <= weight (the_voter p i)) by (apply Hone, the_voter_In; auto).
    assert (H2 : Qnat k <= Qnat N / wsum (voters p)) by (apply Qle_shift_div_l; auto).
    pose proof (Qnat_nonneg k). unfold lower. cbn [length]. change (Qnat 0) with 0.
    assert (1 * (Qnat N / wsum (voters p)) <= weight (the_voter p i) * (Qnat N / wsum (voters p))) by (apply Qmult_le_compat_r; lra). lra.
  Qed.
  Lemma rich_run : forall N, Qnat k * wsum (voters p) <= Qnat N ->
    exists W, f_equal_shares A p k true None f_fill_none (f_mes_start_increment A p N) = Ok [W] /\ length W = k.
  Proof using Hk HA Hw Hone Hv Hseats Hmany.
    intros N HN.
    destruct (fmes_determined A p k Hk rich_budgets (fun _ => f_fill_none) (is_committee p k)) with (a0 := f_mes_start_increment A p N) as (P & HP & HA').
    - auto.
    - intros W (Ha & _). auto.
    - exact rich_next.
    - intros C a HG HN' HF Hl Hsel. exfalso. exact (rich_select C a HG HN' HF Hl Hsel).
    - apply rich_start. auto.
    - destruct (HA' true None I) as (l & E & _ & _ & Hin & Hl). destruct l as [|W [|]]; try discriminate. exists W. split; auto.
      destruct (HP W (Hin W (or_introl eq_refl))) as (_ & H & _). auto.
  Qed.
  Lemma f_increment_loop_ok : forall N r n, (n <= N < n + r)%nat -> Qnat k * wsum (voters p) <= Qnat N ->
    exists W, f_increment_loop A p k r n = Ok [W] /\ is_committee p k W.
  Proof using Hk HA Hw Hone Hv Hseats Hmany.
    intros N r. induction r as [|r IH]; intros n Hn HN; [lia|]. cbn [f_increment_loop].
    destruct (f_mes_none_any A p k Hk (f_mes_start_increment A p n)) as (P & HP & HA').
    destruct (HA' true None I) as (l & E & _ & _ & Hin & Hl). destruct l as [|W [|]]; try discriminate.
    rewrite E. cbn [rbind filter].
    destruct (Nat.eqb_spec (length W) k) as [Hlen|Hne].
    - exists W. split; auto. destruct (HP W (Hin W (or_introl eq_refl))) as (H1 & H2 & H3). split; auto.
    - apply IH; auto. assert (n <> N); [|lia]. intros ->. destruct (rich_run N HN) as (W' & E' & HW'). congruence.
  Qed.
  Lemma f_increment_many : exists W, f_equal_shares_increment A p k = Ok [W] /\ is_committee p k W.
  Proof using Hk HA Hw Hone Hv Hseats Hmany.
    unfold f_equal_shares_increment. destruct (Nat.ltb_spec (length (approved_candidates p)) k); [lia|].
    pose proof total_exact as HT. rewrite total_weight_eq in HT.
    pose proof (wsum_pos p Hw Hv) as HW. pose proof (Qnat_nonneg k) as Hk0.
    set (T := wsum (voters p)) in *. set (N := Z.to_nat (Qceiling (Qnat k * T))).
    assert (HkT : 0 <= Qnat k * T) by (apply Qmult_le_0_compat; lra).
    assert (H0 : (0 <= Qceiling (Qnat k * T))%Z) by (rewrite <- (Qceiling_Z 0); apply Qceiling_resp_le; exact HkT).
    assert (HN : Qnat k * T <= Qnat N).
    { eapply Qle_trans; [apply Qle_ceiling|]. unfold N, Qnat. rewrite <- Zle_Qle. lia. }
    assert (HT1 : 1 <= T).
    { destruct (voters p) as [|v vs] eqn:Ev; [congruence|]. unfold T, wsum, Qsum. simpl. rewrite <- Ev in Hone.
      assert (1 <= weight v) by (apply Hone; rewrite Ev; left; auto).
      assert (0 <= fold_right Qplus 0 (map weight vs)); [|lra].
      assert (Hvs : forall x, In x vs -> 1 <= weight x) by (intros x Hx; apply Hone; rewrite Ev; right; auto). clear - Hvs.
      induction vs as [|x vs IH]; [discriminate|]. simpl. pose proof (Hvs x (or_introl eq_refl)).
      assert (0 <= fold_right Qplus 0 (map weight vs)) by (apply IH; intros y Hy; apply Hvs; right; auto). lra. }
    assert (HkN : (k <= N)%nat).
    { apply Nat2Z.inj_le. rewrite Zle_Qle. fold (Qnat k) (Qnat N). eapply Qle_trans; [|exact HN]. rewrite <- (Qmult_1_r (Qnat k)) at 1. rewrite !(Qmult_comm (Qnat k)). apply Qmult_le_compat_r; auto. }
    apply (f_increment_loop_ok N); auto.
    assert (HC : (Qceiling (Qnat k * T) + 1 <= Qceiling (Qnat k * val (total_num A p) + 1))%Z).
    { assert (E : Qceiling (Qnat k * val (total_num A p) + 1) = Qceiling (Qnat k * T + 1)) by (apply Qceiling_comp; rewrite HT; reflexivity).
      rewrite E. assert (Hle : (Qceiling (Qnat k * T) <= Qceiling (Qnat k * T + 1) - 1)%Z); [|lia].
      rewrite <- (Qceiling_Z (Qceiling (Qnat k * T + 1) - 1)). apply Qceiling_resp_le. unfold Z.sub. rewrite inject_Z_plus.
      pose proof (Qle_ceiling (Qnat k * T + 1)). change (inject_Z (- (1))) with (- (1)). lra. }
    assert (HZ : (S N <= Z.to_nat (Qceiling (Qnat k * val (total_num A p) + 1)))%nat) by (unfold N; lia). lia.
  Qed.
End Increment.

Theorem f_increment_ok : forall A p k, float_ok A -> wf p -> voters p <> [] -> (1 <= k <= num_cand p)%nat ->
  (forall v, In v (voters p) -> 1 <= weight v) -> (Z.of_nat k <= 50)%Z ->
  exists W, f_equal_shares_increment A p k = Ok [W] /\ is_committee p k W.
Proof.
  intros A p k HA Hw Hv Hk Hone Hs.
  destruct (Nat.le_gt_cases k (length (approved_candidates p))) as [Hm|Hm]; [apply f_increment_many; auto|apply f_increment_few; auto].
Qed.

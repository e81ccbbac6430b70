(** * The solver loop enumerates the optimal committees *)
From Coq Require Import String.
From Coq Require Import List Arith Bool ZArith QArith Lia Lqa Permutation.
From Verif Require Import Prelude Misc MiscProofs Preferences Spec Common Milp.
Import ListNotations.
Open Scope nat_scope.

(** ** Evaluation *)
Lemma Qsum_flat : forall (A : Type) (f : A -> list Q) l, (Qsum (flat_map f l) == Qsum (map (fun a => Qsum (f a)) l))%Q.
Proof. intros A f l. induction l as [|a l IH]; cbn [flat_map map]; [reflexivity|]. rewrite Qsum_app. unfold Qsum at 3. cbn. fold (Qsum (map (fun a => Qsum (f a)) l)). rewrite IH. lra. Qed.
Lemma flat_map_map : forall (A B C : Type) (g : B -> C) (f : A -> list B) l, map g (flat_map f l) = flat_map (fun a => map g (f a)) l.
Proof. intros. induction l; simpl; auto. rewrite map_app, IHl. auto. Qed.

Lemma ev_const : forall x q, (ev x (lconst q) == q)%Q.
Proof. intros. unfold ev, lconst. cbn. lra. Qed.
Lemma ev_var : forall x v, (ev x (lvar v) == x v)%Q.
Proof. intros. unfold ev, lvar. cbn. lra. Qed.
Lemma ev_add : forall x a b, (ev x (ladd a b) == ev x a + ev x b)%Q.
Proof. intros. unfold ev, ladd. cbn [fst snd]. rewrite map_app, Qsum_app. lra. Qed.
Lemma ev_scale : forall x q e, (ev x (lscale q e) == q * ev x e)%Q.
Proof.
  intros. unfold ev, lscale. cbn [fst snd]. rewrite map_map. cbn [fst snd].
  rewrite (Qsum_map_ext _ _ (fun t => q * (fst t * x (snd t)))%Q) by (intros; lra). rewrite Qsum_map_scal. lra.
Qed.
Lemma ev_sub : forall x a b, (ev x (lsub a b) == ev x a - ev x b)%Q.
Proof. intros. unfold lsub. rewrite ev_add, ev_scale. lra. Qed.
Lemma ev_sum : forall x l, (ev x (lsum l) == Qsum (map (ev x) l))%Q.
Proof.
  intros x l. unfold ev, lsum. cbn [fst snd]. rewrite flat_map_map, Qsum_flat.
  rewrite <- Qsum_map_plus. apply Qsum_map_ext. intros. lra.
Qed.
Lemma ev_vsum : forall x l, (ev x (vsum l) == Qsum (map x l))%Q.
Proof. intros. unfold vsum. rewrite ev_sum, map_map. apply Qsum_map_ext. intros. apply ev_var. Qed.

Lemma ev_ext : forall x y e, (forall v, (x v == y v)%Q) -> (ev x e == ev y e)%Q.
Proof.
  intros x y e H. unfold ev. rewrite (Qsum_map_ext _ (fun t => fst t * x (snd t)) (fun t => fst t * y (snd t)))%Q; [lra|].
  intros t _. rewrite H. lra.
Qed.

(** ** Committees *)
Definition binary_committee (p : profile) (x : assignment) : Prop :=
  forall c, c < num_cand p -> (x (InCommittee c) == 0)%Q \/ (x (InCommittee c) == 1)%Q.
Definition members (p : profile) (x : assignment) : list nat :=
  filter (fun c => Qle_bool 1 (x (InCommittee c))) (candidates p).

Lemma Qnat_S' : forall n, (Qnat (S n) == Qnat n + 1)%Q.
Proof. intros. unfold Qnat. rewrite Nat2Z.inj_succ. unfold Z.succ. rewrite inject_Z_plus. reflexivity. Qed.

Lemma members_In : forall p x c, binary_committee p x -> (In c (members p x) <-> c < num_cand p /\ (x (InCommittee c) == 1)%Q).
Proof.
  intros p x c Hb. unfold members, candidates. rewrite filter_In, in_seq, Qle_bool_iff. split.
  - intros [[_ Hc] H]. split; [lia|]. destruct (Hb c); [lia|lra|auto].
  - intros [Hc H]. split; [lia|]. lra.
Qed.
Lemma not_members : forall p x c, binary_committee p x -> c < num_cand p -> ~ In c (members p x) -> (x (InCommittee c) == 0)%Q.
Proof. intros p x c Hb Hc H. destruct (Hb c Hc); auto. exfalso. apply H, members_In; auto. Qed.

Lemma read_members : forall th p x, (0 < th)%Q -> (th <= 1)%Q -> binary_committee p x -> read_committee th p x = members p x.
Proof.
  intros th p x H0 H1 Hb. unfold read_committee, members. apply filter_ext_in. intros c Hc. apply in_seq in Hc.
  destruct (Hb c) as [E|E]; [lia| |]; destruct (Qle_bool th _) eqn:A, (Qle_bool 1 _) eqn:B; auto; exfalso.
  - apply Qle_bool_iff in A. lra.
  - apply Qle_bool_iff in B. lra.
  - assert (~ (1 <= x (InCommittee c))%Q); [|lra]. intros H. apply Qle_bool_iff in H. congruence.
  - assert (~ (th <= x (InCommittee c))%Q); [|lra]. intros H. apply Qle_bool_iff in H. congruence.
Qed.

(** the number of members of [l] *)
Lemma sum_in_committee : forall p x l, binary_committee p x -> Forall (fun c => c < num_cand p) l ->
  (Qsum (map x (map InCommittee l)) == Qnat (length (filter (fun c => mem c (members p x)) l)))%Q.
Proof.
  intros p x l Hb H. induction H as [|c l Hc H IH]; cbn [map filter]; [reflexivity|].
  unfold Qsum at 1. cbn [fold_right]. fold (Qsum (map x (map InCommittee l))). rewrite IH.
  destruct (mem c (members p x)) eqn:E.
  - apply mem_In, members_In in E as [_ E]; auto. cbn [length]. rewrite Qnat_S'. lra.
  - apply mem_false in E. rewrite (not_members p x c) by auto. lra.
Qed.

Lemma members_ascending : forall p x, ascending (members p x).
Proof. intros. apply ascending_filter, ascending_seq. Qed.
Lemma members_range : forall p x, Forall (fun c => c < num_cand p) (members p x).
Proof. intros. apply Forall_forall. intros c Hc. apply filter_In in Hc as [Hc _]. apply in_seq in Hc. lia. Qed.

Lemma Qnat_inj' : forall a b, (Qnat a == Qnat b)%Q -> a = b.
Proof. intros a b H. unfold Qnat in H. apply (proj1 (inject_Z_injective _ _)) in H. lia. Qed.
Lemma Qnat_le' : forall a b, (Qnat a <= Qnat b)%Q <-> a <= b.
Proof. intros. unfold Qnat. rewrite <- Zle_Qle. lia. Qed.

Lemma sum_candidates : forall p x, binary_committee p x ->
  (Qsum (map x (map InCommittee (candidates p))) == Qnat (length (members p x)))%Q.
Proof.
  intros p x Hb.
  assert (HF : Forall (fun c => c < num_cand p) (candidates p)).
  { apply Forall_forall. intros c Hc. apply in_seq in Hc. lia. }
  rewrite (sum_in_committee p x (candidates p) Hb HF).
  replace (filter (fun c => mem c (members p x)) (candidates p)) with (members p x); [reflexivity|].
  apply ascending_ext; [apply members_ascending|apply ascending_filter, ascending_seq|]. intros c. rewrite filter_In, mem_In. split; [|tauto].
  intros H. split; auto. apply filter_In in H. tauto.
Qed.

Lemma exclusion_holds : forall p k x W, binary_committee p x -> is_committee p k (members p x) -> is_committee p k W ->
  (holds x (exclusion k W) <-> members p x <> W).
Proof.
  intros p k x W Hb (A1 & A2 & A3) (B1 & B2 & B3). cbn [holds exclusion]. rewrite ev_const, ev_vsum.
  rewrite (sum_in_committee p x W Hb B3). split.
  - intros H E. rewrite E in H.
    replace (filter (fun c => mem c W) W) with W in H.
    2:{ symmetry. clear. assert (G : forall V, incl V W -> filter (fun c => mem c W) V = V).
        { induction V as [|c V IH]; intros Hi; auto. cbn [filter]. replace (mem c W) with true by (symmetry; apply mem_In, Hi; left; auto).
          f_equal. apply IH. intros y Hy. apply Hi. right. auto. } apply G. intros y Hy; auto. }
    rewrite B2 in H. lra.
  - intros Hne.
    assert (length (filter (fun c => mem c (members p x)) W) < k).
    { set (Z := filter (fun c => mem c (members p x)) W).
      assert (sublist Z W) by apply filter_sublist. pose proof (sublist_length _ _ _ H). destruct (Nat.eq_dec (length Z) k); [|lia].
      exfalso. apply Hne. assert (HZ : Z = W).
      { clear - B2 e H. assert (length Z = length W) by lia. clear B2 e. induction H; auto.
        - destruct l; [auto|discriminate].
        - f_equal. auto.
        - pose proof (sublist_length _ _ _ H). simpl in H0. lia. }
      assert (Hi : incl W (members p x)).
      { intros c Hc. rewrite <- HZ in Hc. apply filter_In in Hc as [_ Hc]. apply mem_In. auto. }
      apply ascending_ext; auto. intros c. split; [|apply Hi]. intros Hc.
      destruct (in_dec Nat.eq_dec c W); auto. exfalso.
      assert (length (c :: W) <= length (members p x)); [|simpl in *; lia].
      apply NoDup_incl_length; [constructor; auto; apply ascending_NoDup; auto|]. intros y [<-|Hy]; auto. }
    assert (Qnat (length (filter (fun c => mem c (members p x)) W)) + 1 <= Qnat k)%Q; [|lra].
    rewrite <- Qnat_S'. apply Qnat_le'. lia.
Qed.

(** ** The loop *)
Section LoopSpec.
  Variables (s : solver) (th : Q) (p : profile) (k : nat) (score : option (list nat -> result Q))
            (resolute : bool) (maxn : option nat) (m0 : milp).
  Hypothesis Hth : (0 < th)%Q /\ (th <= 1)%Q.
  Hypothesis Hbin : forall x, feasible m0 x -> binary_committee p x.
  Hypothesis Hsize : forall x, feasible m0 x -> is_committee p k (members p x).

  Definition excluding (committees : list (list nat)) : milp :=
    fold_left (fun m W => add_con m (exclusion k W)) committees m0.
  Hypothesis Hs : forall committees, Forall (is_committee p k) committees -> correct_on s (excluding committees).

  (** some solution of the program selects [W] and has objective value [q] *)
  Definition achieves (W : list nat) (q : Q) : Prop :=
    exists x, feasible m0 x /\ members p x = W /\ (ev x (objective m0) == q)%Q.
  Hypothesis Hsome : exists W q, achieves W q.
  Hypothesis Hbounded : exists B, forall W q, achieves W q -> (q <= B)%Q.
  (** the score function computes the best objective value *)
  Hypothesis Hscore : match score with
    | None => True
    | Some f => forall x, feasible m0 x -> exists q, f (members p x) = Ok q /\ achieves (members p x) q /\
                                                    (ev x (objective m0) <= q)%Q
    end.
  Hypothesis Hmax : valid_max maxn.

  (** at most [slack] below the optimum *)
  Definition good (W : list nat) : Prop :=
    exists q, achieves W q /\ forall W' q', achieves W' q' -> (q' <= q + slack score)%Q.
  Definition best (W : list nat) : Prop :=
    exists q, achieves W q /\ forall W' q', achieves W' q' -> (q' <= q)%Q.

  Lemma excluding_objective : forall cs, objective (excluding cs) = objective m0.
  Proof. intros cs. unfold excluding. generalize m0. induction cs as [|W cs IH]; intros m; auto. cbn [fold_left]. rewrite IH. auto. Qed.

  Lemma excluding_snoc : forall cs W, excluding (cs ++ [W]) = add_con (excluding cs) (exclusion k W).
  Proof. intros. unfold excluding. rewrite fold_left_app. auto. Qed.

  Lemma excluding_feasible : forall cs x, Forall (is_committee p k) cs ->
    (feasible (excluding cs) x <-> feasible m0 x /\ ~ In (members p x) cs).
  Proof using Hbin Hsize Hth.
    intros cs x. induction cs as [|W cs IH] using rev_ind; intros HF.
    - unfold excluding. cbn. tauto.
    - apply Forall_app in HF as [HF1 HF2]. inversion HF2; subst. rewrite excluding_snoc.
      specialize (IH HF1). unfold feasible at 1. cbn [decls cons add_con].
      rewrite Forall_app, in_app_iff. split.
      + intros (A & B & C). assert (Hf : feasible (excluding cs) x) by (split; auto). apply IH in Hf as [Hf Hn]. split; auto.
        inversion C; subst. apply exclusion_holds with (p := p) in H3; auto. intros [H5|[H5|[]]]; auto.
      + intros [Hf Hn]. assert (Hx : feasible (excluding cs) x) by (apply IH; split; auto). destruct Hx as [A B]. split; auto. split; auto.
        constructor; auto. apply exclusion_holds with (p := p); auto. intros E. apply Hn. right. left. auto.
  Qed.

  (** the state of the loop after some rounds *)
  Definition inv (cs : list (list nat)) (ms : option Q) : Prop :=
    NoDup cs /\ Forall (is_committee p k) cs /\
    match ms with
    | None => cs = []
    | Some q => cs <> [] /\ (exists W, achieves W q) /\ (forall W' q', achieves W' q' -> (q' <= q)%Q) /\
                (forall W, In W cs -> exists q', achieves W q' /\ (q <= q' + slack score)%Q) /\
                (exists W r, cs = W :: r /\ achieves W q)
    end.

  Definition complete (cs : list (list nat)) : Prop := forall W, good W -> In W cs.

  Lemma slack_nonneg : (0 <= slack score)%Q.
  Proof. unfold slack, CMP_ACCURACY. destruct score; lra. Qed.

  Lemma achieves_committee : forall W q, achieves W q -> is_committee p k W.
  Proof using Hsize. intros W q (x & Hx & <- & _). apply Hsize. auto. Qed.

  Lemma opt_loop_spec : forall fuel cs ms, length (combinations (candidates p) k) < fuel + length cs -> inv cs ms ->
    (ms = None \/ (resolute = false /\ match maxn with Some n => length cs < n | None => True end)) ->
    exists cs' q, opt_loop s th p k score resolute maxn fuel (excluding cs) cs ms = Ok (cs', Some q) /\ inv cs' (Some q) /\
      (if resolute then length cs' = 1
       else match maxn with None => complete cs' | Some n => length cs' <= n /\ (length cs' < n -> complete cs') end).
  Proof using Hth Hbin Hsize Hs Hsome Hbounded Hscore Hmax.
    pose proof slack_nonneg as Hsl.
    induction fuel as [|fuel IH]; intros cs ms Hfuel Hinv Hstate.
    { exfalso. destruct Hinv as (Hn & Hc & _).
      assert (length cs <= length (combinations (candidates p) k)); [|simpl in Hfuel; lia].
      apply NoDup_incl_length; auto. intros W HW. apply combos_committee. rewrite Forall_forall in Hc. auto. }
    cbn [opt_loop]. pose proof Hinv as Hinv0. destruct Hinv as (Hn & Hc & Hms). pose proof (Hs cs Hc) as Hsolve.
    unfold correct_on in Hsolve. destruct (s (excluding cs)) as [x| |].
    - destruct Hsolve as [Hfe Hopt]. apply excluding_feasible in Hfe as [Hf Hnew]; auto.
      rewrite excluding_objective in *. rewrite read_members; try tauto; auto.
      pose proof (Hsize x Hf) as HW. set (W := members p x) in *.
      replace (length W =? k) with true by (symmetry; apply Nat.eqb_eq; apply HW). cbn [negb].
      assert (Hopt' : forall V q, achieves V q -> ~ In V cs -> (q <= ev x (objective m0))%Q).
      { intros V q (y & Hy & Hm & Eq) HV. rewrite <- Eq. apply Hopt. apply excluding_feasible; auto. split; auto. rewrite Hm. auto. }
      assert (Hobj : exists ov, match score with None => Ok (ev x (objective m0)) | Some f => f W end = Ok ov /\ (ov == ev x (objective m0))%Q).
      { destruct score as [f|]; [|eexists; split; [reflexivity|reflexivity]]. destruct (Hscore x Hf) as (q & E & Ha & Hle). exists q. split; auto.
        apply Qle_antisym; [|auto]. apply (Hopt' W); auto. }
      destruct Hobj as (ov & -> & Eov). cbn [rbind].
      assert (Hach : achieves W ov) by (exists x; split; auto; split; auto; lra).
      assert (Hcont : forall q, inv (cs ++ [W]) (Some q) -> exists cs' q',
        (if resolute then Ok (cs ++ [W], Some q)
         else if enough maxn (cs ++ [W]) then Ok (cs ++ [W], Some q)
         else opt_loop s th p k score resolute maxn fuel (add_con (excluding cs) (exclusion k W)) (cs ++ [W]) (Some q)) = Ok (cs', Some q') /\
        inv cs' (Some q') /\
        (if resolute then length cs' = 1
         else match maxn with None => complete cs' | Some n => length cs' <= n /\ (length cs' < n -> complete cs') end)).
      { intros q Hi. destruct resolute eqn:Er.
        - exists (cs ++ [W]), q. split; auto. split; auto. destruct Hstate as [->|[Hr _]]; [|discriminate]. rewrite Hms. reflexivity.
        - destruct (enough maxn (cs ++ [W])) eqn:Een.
          + exists (cs ++ [W]), q. split; auto. split; auto. unfold enough in Een. destruct maxn as [n|]; [|discriminate].
            apply Nat.leb_le in Een. rewrite app_length in *. simpl in *. destruct Hstate as [->|[_ Hl]]; [|lia].
            rewrite Hms in *. simpl in *. lia.
          + rewrite <- excluding_snoc. apply IH; auto.
            * rewrite app_length. simpl. lia.
            * right. split; auto. unfold enough in Een. destruct maxn as [n|]; auto. apply Nat.leb_gt in Een. auto. }
      destruct ms as [q|].
      + destruct Hms as (Hne & Hq1 & Hq2 & Hq3 & (V & r & EV & HV)).
        assert (ov <= q)%Q by (apply (Hq2 W); auto).
        destruct (Qltb (q + slack score) ov) eqn:E1; [apply Qltb_lt in E1; lra|].
        destruct (Qltb ov (q - slack score)) eqn:E2.
        * apply Qltb_lt in E2. exists cs, q. split; auto. split; auto.
          assert (Hcomp : complete cs).
          { intros U (u & Hu1 & Hu2). destruct (in_dec (list_eq_dec Nat.eq_dec) U cs); auto. exfalso.
            specialize (Hopt' U u Hu1 n). destruct Hq1 as (X & HX). specialize (Hu2 X q HX). lra. }
          destruct Hstate as [|[-> Hl]]; [discriminate|]. destruct maxn; auto. split; auto. lia.
        * assert (~ (ov < q - slack score)%Q) by (intros HH; apply Qltb_lt in HH; congruence).
          apply Hcont. split; [|split; [|split; [|split; [|split; [|split]]]]]; auto.
          -- apply NoDup_app_intro; auto; [repeat constructor; intros []|]. intros U HU [<-|[]]. auto.
          -- apply Forall_app. split; auto.
          -- destruct cs; discriminate.
          -- intros U HU. apply in_app_iff in HU as [HU|[<-|[]]]; auto. exists ov. split; auto. lra.
          -- exists V, (r ++ [W]). rewrite EV. auto.
      + rewrite Hms in *. apply Hcont. cbn [app]. split; [|split; [|split; [|split; [|split; [|split]]]]]; auto.
        * repeat constructor. intros [].
        * discriminate.
        * eauto.
        * intros V q HV. rewrite Eov. apply (Hopt' V); auto.
        * intros U [<-|[]]. exists ov. split; auto. lra.
        * exists W, []. auto.
    - assert (Hall : forall V q, achieves V q -> In V cs).
      { intros V q (y & Hy & Hm & Eq). destruct (in_dec (list_eq_dec Nat.eq_dec) V cs); auto. exfalso.
        apply (Hsolve y). apply excluding_feasible; auto. split; auto. rewrite Hm. auto. }
      destruct Hsome as (V0 & q0 & H0). pose proof (Hall _ _ H0) as Hin. destruct cs as [|W0 r]; [destruct Hin|].
      destruct ms as [q|]; [|discriminate]. exists (W0 :: r), q. split; auto. split; auto.
      assert (complete (W0 :: r)) by (intros U (u & Hu & _); eauto).
      destruct Hstate as [|[-> Hl]]; [discriminate|]. destruct maxn; auto. split; auto. lia.
    - exfalso. destruct Hbounded as (B & HB). destruct (Hsolve B) as (x & Hx & Hlt). apply excluding_feasible in Hx as [Hx _]; auto.
      rewrite excluding_objective in Hlt. assert (ev x (objective m0) <= B)%Q; [|lra]. apply (HB (members p x)). exists x. split; auto. split; auto. lra.
  Qed.

  Theorem optimize_rule_spec : exists cs q, optimize_rule s th p k score resolute maxn m0 = Ok (cs, Some q) /\
    answers good resolute maxn (sorted_committees cs) /\
    (exists W r, cs = W :: r /\ achieves W q) /\ (forall W' q', achieves W' q' -> (q' <= q)%Q) /\
    (forall W, In W cs -> good W).
  Proof using Hth Hbin Hsize Hs Hsome Hbounded Hscore Hmax.
    unfold optimize_rule. destruct (opt_loop_spec (S (length (combinations (candidates p) k))) [] None) as (cs & q & E & Hi & Hr).
    - simpl. lia.
    - split; [constructor|]. split; [constructor|auto].
    - auto.
    - exists cs, q. split; auto. destruct Hi as (Hn & Hc & Hne & H1 & H2 & H3 & H4).
      assert (Hgood : forall W, In W cs -> good W).
      { intros W HW. destruct (H3 W HW) as (q' & Ha & Hle). exists q'. split; auto. intros W' q'' Hq. specialize (H2 _ _ Hq). lra. }
      split; [|split; [|split]]; auto.
      assert (Hasc : Forall ascending cs) by (eapply Forall_impl; [|exact Hc]; intros W HW; apply HW).
      destruct resolute.
      + destruct H4 as (W & r & -> & _). destruct r as [|]; [|discriminate]. rewrite sorted_committees_asc by auto. cbn.
        apply answers_resolute_one. apply Hgood. left. auto.
      + apply answers_dfs; auto.
        * destruct maxn; simpl; auto. apply Hr.
        * intros [Hm|(n & Hm & Hl)].
          -- rewrite Hm in Hr. exact Hr.
          -- rewrite Hm in Hr. apply Hr. auto.
  Qed.
End LoopSpec.

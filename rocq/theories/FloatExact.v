(** * "float-fractions" without near ties: sequential Phragmén returns what exact arithmetic returns *)
From Coq Require Import String.
From Coq Require Import List Arith Bool ZArith QArith Qabs Lia Lqa Permutation Sorted.
From Verif Require Import Prelude Misc MiscProofs Preferences Scores Spec ScoresProofs Search RulesThiele
  Common ThieleProofs SpecRules SpecSeq RulesSeq SeqProofs PhragmenProofs Compute ComputeProofs SpecCompute ComputeSeqProofs EnestroemProofs MesProofs MesFinal Floats RulesFloat FloatSearch FloatStruct SpecFloat FloatBounds FloatPhragmen.
Import ListNotations.
Open Scope nat_scope.

(** ** Two searches that see the same candidates *)
Section Sim.
  Context {S T : Type} (R : S -> T -> Prop).
  Inductive same_child : child S -> child T -> Prop :=
  | same_leaf : forall w, same_child (Leaf w) (Leaf w)
  | same_partial : forall s t, R s t -> same_child (Partial s) (Partial t).
  Lemma process_sim : forall maxn cs ds win, Forall2 same_child cs ds ->
    exists ps qs win' stop, process maxn cs win = (ps, win', stop) /\ process maxn ds win = (qs, win', stop) /\ Forall2 R ps qs.
  Proof using.
    intros maxn cs ds win H. revert win. induction H as [|c d cs ds Hcd H IH]; intros win.
    - exists [], [], win, false. repeat split; constructor.
    - destruct Hcd as [w|s t Hst]; cbn [process].
      + destruct (reached maxn (set_add w win)); [exists [], [], (set_add w win), true; repeat split; constructor|apply IH].
      + destruct (IH win) as (ps & qs & win' & stop & E1 & E2 & HR). rewrite E1, E2. exists (s :: ps), (t :: qs), win', stop. repeat split. constructor; auto.
  Qed.
  Variables (e1 : S -> result (list (child S))) (e2 : T -> result (list (child T))).
  Hypothesis step : forall s t, R s t -> exists cs ds, e1 s = Ok cs /\ e2 t = Ok ds /\ Forall2 same_child cs ds.
  Lemma dfs_sim : forall maxn fuel st1 st2 win, Forall2 R st1 st2 -> dfs e1 maxn fuel st1 win = dfs e2 maxn fuel st2 win.
  Proof using step.
    intros maxn. induction fuel as [|fuel IH]; intros st1 st2 win H.
    - destruct H; reflexivity.
    - destruct H as [|s t st1 st2 Hst H]; [reflexivity|]. cbn [dfs].
      destruct (step s t Hst) as (cs & ds & -> & -> & Hcd). cbn [rbind].
      destruct (process_sim maxn cs ds win Hcd) as (ps & qs & win' & stop & -> & -> & HR).
      destruct stop; auto. apply IH. apply Forall2_app; auto.
  Qed.
End Sim.

Section FloatExact.
  Variable A : arith.
  Hypothesis HA : float_ok A.
  Variables (p : profile) (k : nat).
  Hypothesis Hw : wf p.
  Hypothesis Hk : 1 <= k <= num_cand p.
  Hypothesis Hone : forall v, In v (voters p) -> (1 <= weight v)%Q.
  Hypothesis Hsize : (Z.of_nat (k * (length (voters p) + 9)) <= 4400)%Z.
  Hypothesis Hclear : no_near_ties p k.
  Let Hs : enough_support p k := proj1 (heavy_enough p k Hw (proj1 Hk) Hone).

  Definition follows (C : list nat) (a : list Q) (f : list num) : Prop :=
    PGood p k C a /\ tracks p C f (nthQ a) /\
    exists L x, runs_from p (phragmen_choice p) (phragmen_update p) [] (fun _ => 0%Q) L x /\ Permutation L C /\ agree p x (nthQ a).
  Lemma follows_perm : forall C C' a f, Permutation C C' -> follows C a f -> follows C' a f.
  Proof using.
    intros C C' a f HP (H1 & H2 & L & x & H3 & H4 & H5). split; [eapply PGood_perm; eauto|]. split.
    - intros i Hi. rewrite <- (Permutation_length HP). apply H2. auto.
    - exists L, x. split; auto. split; auto. eapply Permutation_trans; eauto.
  Qed.
  Lemma follows_step : forall C a f, follows C a f -> length C < k ->
    exists sel, phragmen_select p k C a = Ok sel /\ f_phragmen_select A p k C f = Ok sel /\ sel <> [] /\
      forall c, In c sel -> exists f', f_phragmen_next A p k C f c = Ok f' /\ follows (C ++ [c]) (phragmen_next p k C a c) f'.
  Proof using HA Hw Hk Hone Hsize Hclear Hs.
    intros C a f (H1 & H2 & L & x & H3 & H4 & H5) Hl.
    destruct (phragmen_sel_ok p k Hw (proj2 Hk) Hs C a H1 Hl) as (sel & E & Hasc & Hin).
    destruct H1 as (HN & HF & HL).
    destruct (f_select_spec A HA p k Hw Hk Hone Hsize C f (nthQ a) H2 HN HF Hl) as (fsel & Ef & Hne & Hfasc & Hclose & Hexact).
    assert (Hset : set_same C L) by (intro z; split; apply Permutation_in; [apply Permutation_sym|]; auto).
    assert (Hset' : set_same L C) by (intro z; symmetry; apply Hset).
    assert (Hag : agree p (nthQ a) x) by (intros i Hi; symmetry; apply H5; auto).
    assert (Esel : fsel = sel).
    { apply ascending_ext; auto. intros c. rewrite Hin. split; [|apply Hexact]. intros Hc.
      apply (phragmen_choice_ext p L C x (nthQ a)); auto. apply (Hclear L x c H3); [rewrite (Permutation_length H4); auto|].
      apply (close_choice_ext p _ C L (nthQ a) x); auto. }
    subst fsel. exists sel. split; auto. split; auto. split; auto. intros c Hc. apply Hin in Hc.
    destruct (phragmen_next_ok p k Hw (proj2 Hk) Hs C a c (conj HN (conj HF HL)) Hl Hc) as [Hu HG].
    destruct (f_next_tracks A HA p k Hw Hk Hone Hsize C f (nthQ a) c _ H2 Hl (proj1 Hc) Hu) as (f' & Ef' & HT).
    exists f'. split; auto. split; auto. split; auto. exists (c :: L), (nthQ (phragmen_next p k C a c)).
    split; [|split; [|apply agree_refl]].
    - eapply run_step; [exact H3|apply (phragmen_choice_ext p C L (nthQ a) x); auto|].
      intros i Hi. rewrite (Hu i Hi). destruct (likes p i c); [apply new_load_ext; auto|apply Hag; auto].
    - eapply Permutation_trans; [apply perm_skip; exact H4|]. apply Permutation_cons_append.
  Qed.
  Lemma follows_start : follows [] (zero_load p) (f_zero_load p).
  Proof using.
    split; [apply zero_PGood|]. split.
    - intros i Hi. destruct (zero_tracks p i Hi) as [H1 H2]. rewrite zero_load_nth. split; auto.
    - exists [], (fun _ => 0%Q). split; [constructor; apply agree_refl|]. split; auto. intros i Hi. rewrite zero_load_nth. reflexivity.
  Qed.
  Let Rel (s : list nat * list Q) (t : list nat * list num) := fst s = fst t /\ length (fst s) < k /\ follows (fst s) (snd s) (snd t).
  Lemma expand_sim : forall s t, Rel s t -> exists cs ds, seq_expand k (phragmen_select p k) (phragmen_next p k) s = Ok cs /\
    float_expand k (f_phragmen_select A p k) (f_phragmen_next A p k) t = Ok ds /\ Forall2 (same_child Rel) cs ds.
  Proof using HA Hw Hk Hone Hsize Hclear Hs.
    intros [C a] [C' f] (E & Hl & HF). simpl in E, Hl, HF. subst C'.
    destruct (follows_step C a f HF Hl) as (sel & E1 & E2 & _ & Hnext). unfold seq_expand, float_expand. rewrite E1, E2. cbn [rbind].
    eexists. assert (HX : exists ds, rmapM (fun c => let nc := C ++ [c] in if length nc =? k then Ok (Leaf (isort nc))
                  else do a' <- f_phragmen_next A p k C f c; Ok (Partial (nc, a'))) sel = Ok ds /\
        Forall2 (same_child Rel) (map (fun c => let nc := C ++ [c] in if length nc =? k then Leaf (isort nc) else Partial (nc, phragmen_next p k C a c)) sel) ds).
    { clear E1 E2. induction sel as [|c sel IH]; [exists []; split; [reflexivity|constructor]|].
      destruct IH as (ds & Ed & HD); [intros d Hd; apply Hnext; right; auto|]. cbn [rmapM map]. cbv zeta in *.
      destruct (Hnext c (or_introl eq_refl)) as (f' & Ef & HF').
      destruct (Nat.eqb_spec (length (C ++ [c])) k) as [Hlen|Hlen].
      - cbn [rbind]. rewrite Ed. cbn [rbind]. eexists. split; [reflexivity|]. constructor; auto. constructor.
      - rewrite Ef. cbn [rbind]. rewrite Ed. cbn [rbind]. eexists. split; [reflexivity|]. constructor; auto. constructor.
        split; auto. split; auto. simpl. rewrite app_length in *. simpl in *. lia. }
    destruct HX as (ds & Ed & HD). exists ds. split; [reflexivity|]. split; [exact Ed|exact HD].
  Qed.
  Lemma loop_sim : forall r C a f, follows C a f -> length C + r <= k ->
    float_loop (f_phragmen_select A p k) (f_phragmen_next A p k) r C f = seq_loop (phragmen_select p k) (phragmen_next p k) r C a.
  Proof using HA Hw Hk Hone Hsize Hclear Hs.
    induction r as [|r IH]; intros C a f HF Hl; [reflexivity|]. cbn [float_loop seq_loop].
    destruct (follows_step C a f HF ltac:(lia)) as (sel & -> & -> & Hne & Hnext). cbn [rbind].
    destruct sel as [|c sel]; [congruence|]. destruct (Hnext c (or_introl eq_refl)) as (f' & -> & HF'). cbn [rbind].
    apply IH; [|rewrite isort_length, app_length; simpl; lia]. eapply follows_perm; [|exact HF']. apply isort_perm.
  Qed.
  Theorem f_seqphragmen_exact : forall resolute maxn, f_seqphragmen A p k resolute maxn = seqphragmen p k resolute maxn.
  Proof using HA Hw Hk Hone Hsize Hclear Hs.
    intros resolute maxn. unfold f_seqphragmen, seqphragmen. destruct resolute.
    - unfold f_seqphragmen_resolute, seqphragmen_resolute. rewrite (loop_sim _ [] (zero_load p) (f_zero_load p)); [reflexivity|apply follows_start|simpl; lia].
    - unfold f_seqphragmen_irresolute, seqphragmen_irresolute.
      rewrite (dfs_sim Rel _ _ expand_sim maxn _ [([], zero_load p)] [([], f_zero_load p)]); [reflexivity|].
      constructor; [|constructor]. split; [reflexivity|]. split; [simpl; lia|]. apply follows_start.
  Qed.
End FloatExact.

(** ** Integer weights: two different loads differ by a multiple of a known fraction *)
Lemma integer_load_gap : forall a b (D E F : Z), (0 < D)%Z -> (0 < E)%Z -> (0 < F)%Z ->
  (exists m, a * inject_Z (D * E) == inject_Z m)%Q -> (exists m, b * inject_Z (D * F) == inject_Z m)%Q -> (b < a)%Q ->
  (1 <= (a - b) * inject_Z (D * E * F))%Q.
Proof.
  intros a b D E F HD HE HF (m & Hm) (n & Hn) Hlt.
  assert (Heq : ((a - b) * inject_Z (D * E * F) == inject_Z (m * F - n * E))%Q).
  { unfold Z.sub. rewrite inject_Z_plus, inject_Z_opp, !inject_Z_mult. rewrite <- Hm, <- Hn. rewrite !inject_Z_mult. ring. }
  rewrite Heq. assert (Hpos : (0 < inject_Z (m * F - n * E))%Q).
  { rewrite <- Heq. rewrite <- (Qmult_0_l (inject_Z (D * E * F))). apply Qmult_lt_compat_r; [|lra].
    change 0%Q with (inject_Z 0). rewrite <- Zlt_Qlt. apply Z.mul_pos_pos; [apply Z.mul_pos_pos|]; auto. }
  change 0%Q with (inject_Z 0) in Hpos. rewrite <- Zlt_Qlt in Hpos. change 1%Q with (inject_Z 1). rewrite <- Zle_Qle. lia.
Qed.
Definition is_int (x : Q) : Prop := exists m, (x == inject_Z m)%Q.
Lemma is_int_plus : forall x y, is_int x -> is_int y -> is_int (x + y)%Q.
Proof. intros x y (m & Hm) (n & Hn). exists (m + n)%Z. rewrite inject_Z_plus, Hm, Hn. reflexivity. Qed.
Lemma is_int_mult : forall x y, is_int x -> is_int y -> is_int (x * y)%Q.
Proof. intros x y (m & Hm) (n & Hn). exists (m * n)%Z. rewrite inject_Z_mult, Hm, Hn. reflexivity. Qed.
Lemma is_int_ext : forall x y, (x == y)%Q -> is_int x -> is_int y.
Proof. intros x y H (m & Hm). exists m. rewrite <- H. auto. Qed.
Lemma is_int_sum : forall l (f : nat -> Q), (forall i, In i l -> is_int (f i)) -> is_int (sum l f).
Proof.
  induction l as [|i l IH]; intros f H; [exists 0%Z; reflexivity|]. unfold sum. simpl. apply is_int_plus; [apply H; left; auto|].
  apply IH. intros j Hj. apply H. right. auto.
Qed.

Section Integer.
  Variables (p : profile) (N : nat).
  Hypothesis Hw : wf p.
  Hypothesis Hint : integer_weights p.
  Hypothesis HN : (wsum (voters p) <= Qnat N)%Q.

  Hypothesis Hv : voters p <> [].

  Lemma N_pos : (1 <= Z.of_nat N)%Z.
  Proof using Hw HN Hv.
    pose proof (wsum_pos p Hw Hv) as HW. assert (H : (0 < Qnat N)%Q) by lra. unfold Qnat in H. change 0%Q with (inject_Z 0) in H. rewrite <- Zlt_Qlt in H. lia.
  Qed.
  Lemma w_int : forall i, i < length (voters p) -> is_int (w p i) /\ (1 <= w p i)%Q.
  Proof using Hint.
    intros i Hi. destruct (Hint (the_voter p i) (the_voter_In p i Hi)) as (n & Hn & E). split; [exists (Z.of_nat n); exact E|].
    unfold w. rewrite E. change 1%Q with (Qnat 1). apply Qnat_le. auto.
  Qed.
  Lemma support_int : forall c, fans p c <> [] -> exists b : Z, (sum (fans p c) (w p) == inject_Z b)%Q /\ (1 <= b <= Z.of_nat N)%Z.
  Proof using Hw Hint HN.
    intros c Hc.
    assert (Hi : is_int (sum (fans p c) (w p))) by (apply is_int_sum; intros i Hi; apply w_int; apply in_fans in Hi; tauto).
    destruct Hi as (b & Hb). exists b. split; auto.
    assert (Hle : (sum (fans p c) (w p) <= Qnat N)%Q).
    { eapply Qle_trans; [|exact HN]. rewrite wsum_voter_ids. rewrite (sum_split (fun i => likes p i c) (voter_ids p)).
      assert (0 <= sum (filter (fun i => negb (likes p i c)) (voter_ids p)) (w p))%Q.
      { apply sum_nonneg. intros i Hi. apply filter_In in Hi as [Hi _]. apply in_voter_ids in Hi. pose proof (w_pos p i Hw Hi). lra. }
      unfold fans. lra. }
    pose proof (fans_weight_pos p c Hw Hc) as Hp. rewrite Hb in Hle, Hp. unfold Qnat in Hle. rewrite <- Zle_Qle in Hle.
    change 0%Q with (inject_Z 0) in Hp. rewrite <- Zlt_Qlt in Hp. lia.
  Qed.
  (** the loads have a common denominator of at most [N ^ rounds], and are at most the number of rounds *)
  Definition loads_over (j : nat) (x : nat -> Q) (D : Z) : Prop :=
    (1 <= D <= Z.of_nat N ^ Z.of_nat j)%Z /\ forall i, i < length (voters p) -> is_int (x i * inject_Z D)%Q /\ (0 <= x i <= Qnat j)%Q.
  Lemma new_load_int : forall j x D c, loads_over j x D -> fans p c <> [] -> forall b, (sum (fans p c) (w p) == inject_Z b)%Q -> (1 <= b)%Z ->
    is_int (new_load p x c * inject_Z (D * b))%Q /\ (0 <= new_load p x c <= Qnat (S j))%Q.
  Proof using Hint.
    intros j x D c (HD & Hx) Hc b Hb Hb1.
    assert (Hbp : (1 <= inject_Z b)%Q) by (change 1%Q with (inject_Z 1); rewrite <- Zle_Qle; auto).
    set (s := sum (fans p c) (fun i => w p i * x i)%Q).
    assert (Hs : (0 <= s /\ s <= inject_Z b * Qnat j)%Q).
    { unfold s. split.
      - apply sum_nonneg. intros i Hi. apply in_fans in Hi as [Hi _]. apply Qmult_le_0_compat; [destruct (w_int i Hi); lra|apply Hx; auto].
      - rewrite <- Hb, Qmult_comm. rewrite <- sum_scal. apply sum_le. intros i Hi. apply in_fans in Hi as [Hi _].
        rewrite (Qmult_comm (Qnat j)), !(Qmult_comm (w p i)). apply Qmult_le_compat_r; [apply Hx; auto|destruct (w_int i Hi); lra]. }
    split; [|split].
    - apply (is_int_ext ((1 + s) * inject_Z D)%Q).
      + unfold new_load. fold s. rewrite Hb, inject_Z_mult. field. lra.
      + apply (is_int_ext (inject_Z D + sum (fans p c) (fun i => w p i * (x i * inject_Z D)))%Q).
        * unfold s. transitivity (inject_Z D + inject_Z D * sum (fans p c) (fun i => w p i * x i))%Q; [|ring].
          rewrite <- sum_scal. apply Qplus_comp; [reflexivity|]. apply sum_ext. intros i _. ring.
        * apply is_int_plus; [exists D; reflexivity|]. apply is_int_sum. intros i Hi. apply in_fans in Hi as [Hi _].
          apply is_int_mult; [apply w_int; auto|apply Hx; auto].
    - unfold new_load. fold s. rewrite Hb. apply Qle_shift_div_l; [lra|]. lra.
    - unfold new_load. fold s. rewrite Hb. apply Qle_shift_div_r; [lra|]. rewrite Qnat_S. pose proof (Qnat_nonneg j). lra.
  Qed.
  Lemma runs_loads : forall L x, runs_from p (phragmen_choice p) (phragmen_update p) [] (fun _ => 0%Q) L x -> exists D, loads_over (length L) x D.
  Proof using Hw Hint HN Hv.
    intros L x H. induction H as [x Hx|L x c x' H IH Hc Hu].
    - exists 1%Z. split; [simpl; lia|]. intros i Hi. pose proof (Hx i Hi) as E. simpl in E. split; [exists 0%Z; rewrite E; reflexivity|]. rewrite E. split; discriminate.
    - destruct IH as (D & HD & Hx). cbn [length].
      destruct (fans p c) as [|i0 l0] eqn:Ef.
      + exists D. split.
        * split; [lia|]. rewrite Nat2Z.inj_succ, Z.pow_succ_r by lia.
          pose proof N_pos. nia.
        * intros i Hi. pose proof (Hu i Hi) as E. simpl in E.
          assert (Hl : likes p i c = false).
          { destruct (likes p i c) eqn:El; auto. assert (In i (fans p c)) by (apply in_fans; auto). rewrite Ef in H0. destruct H0. }
          rewrite Hl in E. destruct (Hx i Hi) as [H1 [H2 H3]]. split; [eapply is_int_ext; [|exact H1]; rewrite E; reflexivity|].
          rewrite E. split; auto. eapply Qle_trans; [exact H3|]. apply Qnat_le. lia.
      + assert (Hne : fans p c <> []) by (rewrite Ef; discriminate). destruct (support_int c Hne) as (b & Hb & Hb1 & HbN).
        destruct (new_load_int (length L) x D c (conj HD Hx) Hne b Hb Hb1) as [HI [HI1 HI2]].
        exists (D * b)%Z. split.
        * rewrite Nat2Z.inj_succ, Z.pow_succ_r by lia. split; nia.
        * intros i Hi. pose proof (Hu i Hi) as E. simpl in E. destruct (Hx i Hi) as [H1 [H2 H3]]. destruct (likes p i c).
          -- split; [eapply is_int_ext; [|exact HI]; rewrite E; reflexivity|]. rewrite E. split; auto.
          -- split; [|rewrite E; split; auto; eapply Qle_trans; [exact H3|]; apply Qnat_le; lia].
             apply (is_int_ext (x i * inject_Z D * inject_Z b)%Q); [rewrite E, inject_Z_mult; ring|]. apply is_int_mult; auto. exists b. reflexivity.
  Qed.
  Theorem integer_no_near_ties : forall k, (Z.of_nat N ^ (Z.of_nat k + 1) * (Z.of_nat k + 1) < 500000000000)%Z -> no_near_ties p k.
  Proof using Hw Hint HN Hv.
    intros k Hbound L x c Hrun Hl (Hf & Hcl). split; auto.
    destruct (0 <? length (fans p c)) eqn:Ef; [|exact Hcl].
    intros d Hd Hdn. specialize (Hcl d Hd Hdn). apply Nat.ltb_lt in Ef.
    assert (Hcn : fans p c <> []) by (destruct (fans p c); [simpl in Ef; lia|discriminate]).
    destruct (runs_loads L x Hrun) as (D & HD).
    destruct (support_int c Hcn) as (b & Hb & Hb1 & HbN). destruct (support_int d Hdn) as (b' & Hb' & Hb1' & HbN').
    destruct (new_load_int _ x D c HD Hcn b Hb Hb1) as [Ic _]. destruct (new_load_int _ x D d HD Hdn b' Hb' Hb1') as [Id [Id0 Id1]].
    destruct HD as [[HD1 HD2] _].
    destruct (Qlt_le_dec (new_load p x d) (new_load p x c)) as [Hlt|Hge]; [exfalso|exact Hge].
    pose proof (integer_load_gap (new_load p x c) (new_load p x d) D b b' ltac:(lia) ltac:(lia) ltac:(lia) Ic Id Hlt) as Hgap.
    set (M := (D * b * b')%Z) in *.
    assert (HM : (M <= Z.of_nat N ^ (Z.of_nat k + 1))%Z).
    { unfold M. transitivity (Z.of_nat N ^ Z.of_nat (length L) * Z.of_nat N * Z.of_nat N)%Z.
      - apply Z.mul_le_mono_nonneg; try lia; try nia.
      - pose proof N_pos. transitivity (Z.of_nat N ^ (Z.of_nat (length L) + 2))%Z.
        + replace (Z.of_nat (length L) + 2)%Z with (Z.succ (Z.succ (Z.of_nat (length L)))) by lia. rewrite !Z.pow_succ_r by lia. lia.
        + apply Z.pow_le_mono_r; lia. }
    assert (HMp : (0 < M)%Z) by (unfold M; nia).
    assert (HjS : (Qnat (S (length L)) <= Qnat k)%Q) by (apply Qnat_le; lia).
    assert (Hdiff : (new_load p x c - new_load p x d <= phragmen_margin * (Qnat k + 1))%Q).
    { assert (Hm : (phragmen_margin * new_load p x d <= phragmen_margin * Qnat k)%Q) by (apply Qmult_le_l; [reflexivity|lra]). lra. }
    assert (HMQ : (0 < inject_Z M)%Q) by (change 0%Q with (inject_Z 0); rewrite <- Zlt_Qlt; auto).
    assert (H1 : (1 <= phragmen_margin * (Qnat k + 1) * inject_Z M)%Q).
    { eapply Qle_trans; [exact Hgap|]. apply Qmult_le_compat_r; lra. }
    assert (H2 : (M * (Z.of_nat k + 1) < 500000000000)%Z) by nia.
    assert (H3 : (inject_Z (M * (Z.of_nat k + 1)) < inject_Z 500000000000)%Q) by (rewrite <- Zlt_Qlt; auto).
    rewrite inject_Z_mult, inject_Z_plus in H3. fold (Qnat k) in H3. change (inject_Z 1) with 1%Q in H3. change (inject_Z 500000000000) with (500000000000 # 1)%Q in H3.
    unfold phragmen_margin in H1.
    assert (H4 : ((2 # 1000000000000) * (inject_Z M * (Qnat k + 1)) < (2 # 1000000000000) * (500000000000 # 1))%Q) by (apply Qmult_lt_l; [reflexivity|auto]).
    assert (H5 : ((2 # 1000000000000) * (500000000000 # 1) == 1)%Q) by reflexivity. lra.
  Qed.
End Integer.

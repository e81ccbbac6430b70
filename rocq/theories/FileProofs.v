(** * Proofs about fileio.py *)
From Coq Require Import String Ascii.
From Coq Require Import List Arith Bool ZArith QArith Lia Lqa Permutation.
From Verif Require Import Prelude Misc MiscProofs Preferences Spec PrefProofs FileIO SpecFile.
Import ListNotations.
Local Open Scope string_scope.
Open Scope nat_scope.
Local Open Scope list_scope.

(** ** Numbering of the alternatives *)

Lemma normalize_ok : forall alts a i, normalize alts a = Ok i -> nth_error (map fst alts) i = Some a.
Proof.
  induction alts as [|[b s] r IH]; simpl; intros a i H; [discriminate|].
  destruct (Nat.eqb_spec b a) as [->|E]; [inversion H; auto|].
  destruct (normalize r a) as [j|] eqn:Ej; [|discriminate]. inversion H; subst. simpl. auto.
Qed.
Lemma normalize_in : forall alts a, In a (map fst alts) -> exists i, normalize alts a = Ok i.
Proof.
  induction alts as [|[b s] r IH]; simpl; intros a H; [contradiction|].
  destruct (Nat.eqb_spec b a) as [->|E]; [eauto|].
  destruct H as [->|H]; [congruence|]. destruct (IH _ H) as [i ->]. simpl. eauto.
Qed.

Lemma rmapM_app : forall (A B : Type) (f : A -> result B) l1 l2,
  rmapM f (l1 ++ l2) = (do a <- rmapM f l1; do b <- rmapM f l2; Ok (a ++ b)).
Proof.
  induction l1 as [|x l1 IH]; intros l2; simpl.
  - destruct (rmapM f l2); auto.
  - destruct (f x); simpl; auto. rewrite IH. destruct (rmapM f l1); simpl; auto. destruct (rmapM f l2); auto.
Qed.
Lemma rmapM_concat : forall (A B : Type) (f : A -> result B) ll,
  rmap (@concat B) (rmapM (rmapM f) ll) = rmapM f (concat ll).
Proof.
  induction ll as [|l ll IH]; simpl; auto. rewrite rmapM_app, <- IH.
  destruct (rmapM f l); simpl; auto. destruct (rmapM (rmapM f) ll); auto.
Qed.
Lemma rmapM_Forall2 : forall (A B : Type) (f : A -> result B) l l',
  rmapM f l = Ok l' <-> Forall2 (fun x y => f x = Ok y) l l'.
Proof.
  induction l as [|x l IH]; intros l'; simpl.
  - split; intros H; [inversion H; constructor|inversion H; auto].
  - split; intros H.
    + destruct (f x) as [y|] eqn:E; [|discriminate]. simpl in H.
      destruct (rmapM f l) as [ys|] eqn:E'; [|discriminate]. inversion H; subst. constructor; auto. apply IH; auto.
    + inversion H; subst. rewrite H2. simpl. apply IH in H4. rewrite H4. auto.
Qed.
Lemma rmapM_total : forall (A B : Type) (f : A -> result B) l,
  Forall (fun x => exists y, f x = Ok y) l -> exists l', rmapM f l = Ok l'.
Proof.
  induction 1 as [|x l [y E] _ [l' IH]]; simpl; [eauto|]. rewrite E, IH. simpl. eauto.
Qed.
Lemma Forall2_In_r : forall (A B : Type) (P : A -> B -> Prop) l l' y, Forall2 P l l' -> In y l' ->
  exists x, In x l /\ P x y.
Proof. induction 1; intros []; subst; [eexists; split; [left; auto|auto]|]. destruct IHForall2 as (z & ? & ?); auto. exists z; split; auto; right; auto. Qed.
Lemma Forall2_In_l : forall (A B : Type) (P : A -> B -> Prop) l l' x, Forall2 P l l' -> In x l ->
  exists y, In y l' /\ P x y.
Proof. induction 1; intros []; subst; [eexists; split; [left; auto|auto]|]. destruct IHForall2 as (z & ? & ?); auto. exists z; split; auto; right; auto. Qed.

Lemma Forall2_len : forall (A B : Type) (P : A -> B -> Prop) l l', Forall2 P l l' -> length l = length l'.
Proof. induction 1; simpl; auto. Qed.

Lemma norm_list : forall alts l, NoDup (map fst alts) -> NoDup l -> incl l (map fst alts) ->
  exists A, rmapM (normalize alts) l = Ok A /\ numbered alts l A /\ length A = length l.
Proof.
  intros alts l Ha Hl Hi.
  destruct (rmapM_total _ _ (normalize alts) l) as [A E].
  { apply Forall_forall. intros a Hin. apply normalize_in. auto. }
  exists A. apply rmapM_Forall2 in E as F. split; auto. split; [split|].
  - clear E. induction F as [|a i l A E F IH]; constructor.
    + intros Hin. inversion Hl; subst. apply (Forall2_In_r _ _ _ _ _ _ F) in Hin as (b & Hb & Eb).
      apply normalize_ok in E, Eb. assert (a = b) by congruence. subst. auto.
    + inversion Hl; subst. apply IH; auto. intros b Hb. apply Hi. right; auto.
  - intros i. split.
    + intros Hin. apply (Forall2_In_r _ _ _ _ _ _ F) in Hin as (b & Hb & Eb). exists b. split; auto.
      apply normalize_ok; auto.
    + intros (a & Hn & Hin). apply (Forall2_In_l _ _ _ _ _ _ F) in Hin as (j & Hj & Ej).
      apply normalize_ok in Ej. rewrite NoDup_nth_error in Ha.
      assert (i = j); [|subst; auto]. apply Ha; [|congruence]. apply nth_error_Some. congruence.
  - symmetry. eapply Forall2_len; eauto.
Qed.

Lemma numbered_range : forall alts S A, numbered alts S A -> Forall (fun c => c < length alts) A.
Proof.
  intros alts S A [_ H]. apply Forall_forall. intros i Hi. apply H in Hi as (a & E & _).
  rewrite <- (map_length fst alts). apply nth_error_Some. congruence.
Qed.
Lemma numbered_perm : forall alts S A B, numbered alts S A -> numbered alts S B -> Permutation A B.
Proof.
  intros alts S A B [N1 H1] [N2 H2]. apply NoDup_Permutation; auto. intros i. rewrite H1, H2. reflexivity.
Qed.

Lemma top_split : forall t (b : pballot), concat b = top t b ++ concat (skipn t b).
Proof. intros t b. unfold top. rewrite <- concat_app, firstn_skipn. auto. Qed.
Lemma NoDup_app_l : forall (A : Type) (l1 l2 : list A), NoDup (l1 ++ l2) -> NoDup l1.
Proof.
  induction l1; intros l2 H; constructor; simpl in H; inversion H; subst.
  - intros Hin. apply H2. apply in_or_app. auto.
  - eauto.
Qed.
Lemma top_ok : forall (b : pballot) t l, NoDup (concat b) -> incl (concat b) l -> NoDup (top t b) /\ incl (top t b) l.
Proof.
  intros b t l H1 H2. rewrite (top_split t b) in H1, H2. split; [eapply NoDup_app_l; eauto|].
  intros x Hx. apply H2. apply in_or_app. auto.
Qed.

Lemma take_categories_ok : forall alts n b acc, NoDup (map fst alts) -> NoDup (concat b) ->
  incl (concat b) (map fst alts) ->
  exists t A, rmapM (normalize alts) (top t b) = Ok A /\
    take_categories alts n acc b = Ok (acc ++ A) /\
    ((n <= Z.of_nat (length acc + length (top t b)))%Z \/ top t b = concat b) /\
    forall t', t' < t -> (Z.of_nat (length acc + length (top t' b)) < n)%Z.
Proof.
  intros alts n. induction b as [|c b IH]; intros acc Ha Hn Hi.
  - exists 0, []. simpl. rewrite app_nil_r. repeat split; auto. intros; lia.
  - simpl in Hn, Hi. cbn [take_categories]. destruct (Z.ltb_spec (Z.of_nat (length acc)) n).
    + assert (Nc : NoDup c) by (eapply NoDup_app_l; eauto).
      assert (Ic : incl c (map fst alts)) by (intros x Hx; apply Hi; apply in_or_app; auto).
      destruct (norm_list alts c Ha Nc Ic) as (Ac & Ec & _ & Lc). rewrite Ec. simpl.
      destruct (IH (acc ++ Ac)) as (t & A & E1 & E2 & E3 & E4); auto.
      { clear -Hn. induction c; simpl in Hn; auto. inversion Hn; auto. }
      { intros x Hx; apply Hi; apply in_or_app; auto. }
      exists (S t), (Ac ++ A). unfold top in *. cbn [firstn concat]. rewrite rmapM_app, Ec, E1. simpl.
      rewrite E2, app_assoc. repeat split; auto.
      * destruct E3 as [E3|E3]; [left|right; congruence]. rewrite app_length in E3. rewrite app_length. lia.
      * intros [|t'] Ht; [simpl; lia|]. specialize (E4 t' ltac:(lia)). cbn [firstn concat].
        rewrite app_length in *. lia.
    + exists 0, []. rewrite app_nil_r. unfold top. simpl. repeat split; auto; [left; lia|intros; lia].
Qed.

(** the meaning of a ballot under the two parameters *)
Lemma approval_top : forall alts t b, (0 < t)%Z -> NoDup (map fst alts) -> NoDup (concat b) ->
  incl (concat b) (map fst alts) ->
  exists A, approval_set alts (Some t) None b = Ok A /\ numbered alts (top (Z.to_nat t) b) A.
Proof.
  intros alts t b Ht Ha Hn Hi. unfold approval_set. simpl. destruct (Z.eqb_spec t 0); [lia|]. simpl.
  rewrite rmapM_concat. destruct (top_ok b (Z.to_nat t) _ Hn Hi) as [N1 N2].
  destruct (norm_list alts _ Ha N1 N2) as (A & E & N & _). exists A. auto.
Qed.

Lemma approval_size : forall alts n b, (0 < n)%Z -> NoDup (map fst alts) -> NoDup (concat b) ->
  incl (concat b) (map fst alts) ->
  exists A S, approval_set alts None (Some n) b = Ok A /\ size_selected alts (Z.to_nat n) b S /\ numbered alts S A.
Proof.
  intros alts n b Ht Ha Hn Hi. unfold approval_set. simpl. destruct (Z.eqb_spec n 0); [lia|]. simpl.
  destruct (take_categories_ok alts n b [] Ha Hn Hi) as (t & A & E1 & E2 & E3 & E4).
  rewrite E2. simpl. simpl in E3, E4.
  destruct (top_ok b t _ Hn Hi) as [N1 N2]. destruct (norm_list alts _ Ha N1 N2) as (A' & E' & N & L).
  rewrite E1 in E'. inversion E'; subst A'. clear E'.
  destruct ((0 <? length A) && (Z.of_nat (length A) <? n)%Z) eqn:Ec.
  - apply andb_true_iff in Ec as [C1 C2]. apply Nat.ltb_lt in C1. apply Z.ltb_lt in C2.
    exists (seq 0 (length alts)), (map fst alts). split; auto. destruct E3 as [E3|E3]; [lia|]. split.
    + apply sel_all; rewrite <- E3; [intros E0; rewrite E0 in L; simpl in L; lia|lia].
    + split; [apply seq_NoDup|]. intros i. rewrite in_seq. split.
      * intros Hlt. destruct (nth_error (map fst alts) i) as [a|] eqn:Ei.
        -- exists a. split; auto. eapply nth_error_In; eauto.
        -- apply nth_error_None in Ei. rewrite map_length in Ei. lia.
      * intros (a & Ei & _). split; [lia|]. rewrite <- (map_length fst alts). apply nth_error_Some. congruence.
  - exists A, (top t b). split; auto. split; auto.
    destruct (Z.leb_spec n (Z.of_nat (length A))) as [Hge|Hlt].
    + apply sel_top; [lia|]. intros t' Ht'. specialize (E4 t' Ht'). lia.
    + assert (length A = 0) as H0.
      { destruct (Nat.ltb_spec 0 (length A)); [|lia]. apply Z.ltb_lt in Hlt. rewrite Hlt in Ec. discriminate. }
      destruct E3 as [E3|E3]; [lia|]. rewrite L in H0. apply length_zero_iff_nil in H0. rewrite H0.
      apply sel_empty. congruence.
Qed.

(** ** Adding the voters *)
Lemma add_voters_sets : forall sets p, wf p ->
  Forall (fun A => NoDup A /\ Forall (fun c => c < num_cand p) A) sets ->
  add_voters p (map (fun A => ArgSet (py_cands A)) sets) =
    (Ok tt, with_voters p (voters p ++ map (fun A => mkVoter A 1 true) sets)).
Proof.
  induction sets as [|A sets IH]; intros p Hw Hs.
  - simpl. rewrite app_nil_r. destruct p; auto.
  - inversion Hs as [|? ? [Hn Hr] Hs']; subst. cbn [map add_voters]. unfold add_voter, unique_voter.
    assert (Hv : wf_voter (num_cand p) (mkVoter A 1 true)) by (repeat split; simpl; auto; lra).
    pose proof (voter_new_accepts _ _ Hv) as E. simpl in E. unfold py_cands. rewrite E.
    rewrite IH; auto.
    + unfold with_voters. simpl. rewrite <- app_assoc. auto.
    + destruct Hw. split; auto. simpl. apply Forall_app. auto.
Qed.

Lemma map_rep : forall (A B : Type) (f : A -> B) x n, map f (repeat x n) = repeat (f x) n.
Proof. induction n; simpl; congruence. Qed.

Lemma read_ballots_ok : forall (sel : pballot -> list nat -> Prop) alts top_ranks setsize uw bs p,
  wf p -> Forall (fun b => (0 < snd b)%Z /\ exists A, approval_set alts top_ranks setsize (fst b) = Ok A /\
     sel (fst b) A /\ NoDup A /\ Forall (fun c => c < num_cand p) A) bs ->
  exists vs, read_ballots alts top_ranks setsize uw p bs = Ok (with_voters p (voters p ++ vs)) /\
    ballots_to_voters sel uw bs vs.
Proof.
  induction bs as [|[b c] bs IH]; intros p Hw Hb.
  - exists []. simpl. rewrite app_nil_r. split; [destruct p; auto|]. exists []. split; auto.
  - inversion Hb as [|? ? [Hc (A & E & Hs & Hn & Hr)] Hb']; subst. simpl in Hc, E, Hs. cbn [read_ballots]. rewrite E.
    cbn [rbind].
    set (g := if uw then [mkVoter A (inject_Z c) true] else repeat (mkVoter A 1 true) (Z.to_nat c)).
    assert (Hg : Forall (wf_voter (num_cand p)) g).
    { unfold g. destruct uw.
      - constructor; auto. repeat split; simpl; auto. unfold Qlt. simpl. lia.
      - apply Forall_forall. intros v Hv. apply repeat_spec in Hv. subst v. repeat split; simpl; auto; lra. }
    assert (Ho : (if uw then match voter_new (py_cands A) (inject_Z c) true None with
                             | Ok v => add_voter p (ArgVoter v) | Err e => (Err e, p) end
                  else add_voters p (repeat (ArgSet (py_cands A)) (Z.to_nat c)))
                 = (Ok tt, with_voters p (voters p ++ g))).
    { unfold g. destruct uw.
      - unfold voter_new, py_cands. rewrite candidate_set_new_accepts by (auto; discriminate). simpl.
        assert (Qle_bool (inject_Z c) 0 = false) as ->.
        { apply Qle_bool_false. unfold Qlt. simpl. lia. }
        unfold add_voter, unique_voter. simpl approved. simpl weight. simpl weight_is_int.
        pose proof (voter_new_accepts (num_cand p) (mkVoter A (inject_Z c) true)) as V. simpl in V.
        rewrite V; auto. inversion Hg; auto.
      - pose proof (add_voters_sets (repeat A (Z.to_nat c)) p Hw) as V.
        rewrite !map_rep in V. apply V. apply Forall_forall. intros x Hx. apply repeat_spec in Hx. subst; auto. }
    rewrite Ho.
    destruct (IH (with_voters p (voters p ++ g))) as (vs & E1 & groups & -> & F).
    { destruct Hw. split; auto. simpl. apply Forall_app. auto. }
    { exact Hb'. }
    exists (g ++ concat groups). rewrite E1. split.
    + unfold with_voters. simpl. rewrite <- app_assoc. auto.
    + exists (g :: groups). split; auto. constructor; auto. exists A. split; auto.
Qed.

(** ** Reading *)
Lemma read_preflib_ok : forall from_ordinal i top_ranks setsize uw sel,
  wf_instance i ->
  (top_ranks = None -> setsize = None -> forall b A, sel b A <-> numbered (alternatives_name i) (top 1 b) A) ->
  (forall t, top_ranks = Some t -> setsize = None /\ (0 < t)%Z /\
     forall b A, sel b A <-> numbered (alternatives_name i) (top (Z.to_nat t) b) A) ->
  (forall n, setsize = Some n -> top_ranks = None /\ (0 < n)%Z /\
     forall b A, sel b A <-> exists S, size_selected (alternatives_name i) (Z.to_nat n) b S /\
                                       numbered (alternatives_name i) S A) ->
  exists q, read_preflib_file from_ordinal (Ok (Categorical i)) top_ranks setsize uw = Ok q /\
    num_cand q = num_alternatives i /\ cand_names q = map snd (alternatives_name i) /\
    ballots_to_voters sel uw (multiplicity i) (voters q).
Proof.
  intros fo i tr ss uw sel (Hm & Hl & Hn & Hb) H0 Ht Hs.
  assert (Hp : profile_new (Z.of_nat (num_alternatives i)) (Some (map snd (alternatives_name i))) =
               Ok (mkProfile (num_alternatives i) (map snd (alternatives_name i)) [])).
  { unfold profile_new. destruct (Z.leb_spec (Z.of_nat (num_alternatives i)) 0); [lia|].
    rewrite Nat2Z.id. destruct (alternatives_name i) as [|x r] eqn:E; [simpl in Hl; lia|].
    rewrite <- E in *. destruct (map snd (alternatives_name i)) as [|y t] eqn:E'.
    { rewrite E in E'. discriminate. }
    rewrite <- E'. rewrite map_length, <- Hl. destruct (Nat.ltb_spec (num_alternatives i) (num_alternatives i)); [lia|].
    f_equal. f_equal. apply firstn_all2. rewrite map_length. lia. }
  set (p := mkProfile (num_alternatives i) (map snd (alternatives_name i)) []) in *.
  assert (Hw : wf p) by (split; simpl; auto).
  set (tr' := match tr, ss with None, None => Some 1%Z | _, _ => tr end).
  assert (Hr : exists vs, read_ballots (alternatives_name i) tr' ss uw p (multiplicity i) =
                          Ok (with_voters p (voters p ++ vs)) /\ ballots_to_voters sel uw (multiplicity i) vs).
  { apply read_ballots_ok; auto. eapply Forall_impl; [|exact Hb]. intros [b c] (N & I & C). simpl in *.
    split; auto. destruct ss as [n|].
    - destruct (Hs n eq_refl) as (-> & Hn0 & Hsel). unfold tr'.
      destruct (approval_size _ n b Hn0 Hn N I) as (A & S & E & Hz & Hnum).
      exists A. split; auto. split; [apply Hsel; eauto|]. split; [apply Hnum|].
      rewrite Hl. eapply numbered_range; eauto.
    - assert (exists t, tr' = Some t /\ (0 < t)%Z /\
        forall A, sel b A <-> numbered (alternatives_name i) (top (Z.to_nat t) b) A) as (t & -> & Ht0 & Hsel).
      { destruct tr as [t|]; [destruct (Ht t eq_refl) as (_ & A & B); exists t; auto|].
        exists 1%Z. split; auto. split; [lia|]. intros; apply H0; auto. }
      destruct (approval_top _ t b Ht0 Hn N I) as (A & E & Hnum).
      exists A. split; auto. split; [apply Hsel; auto|]. split; [apply Hnum|].
      rewrite Hl. eapply numbered_range; eauto. }
  destruct Hr as (vs & Er & Hv).
  exists (with_voters p (voters p ++ vs)). split; [|auto].
  unfold read_preflib_file. fold tr'.
  assert (truthy tr' && truthy ss = false) as ->.
  { destruct ss as [n|]; [destruct (Hs n eq_refl) as (-> & _)|]; auto using andb_false_r. }
  assert (truthy tr' && match tr' with Some z => Z.leb z 0 | None => false end = false) as ->.
  { destruct tr as [t|].
    - destruct (Ht t eq_refl) as (-> & H & _). unfold tr'. destruct (Z.leb_spec t 0); [lia|]. apply andb_false_r.
    - destruct ss; auto. }
  assert (truthy ss && match ss with Some z => Z.leb z 0 | None => false end = false) as ->.
  { destruct ss as [n|]; auto. destruct (Hs n eq_refl) as (_ & H & _). destruct (Z.leb_spec n 0); [lia|].
    apply andb_false_r. }
  cbn [rbind]. rewrite Hp. cbn [rbind]. auto.
Qed.

(** ** Writing *)
Definition mlin (h : pballot -> Q) (l : list (pballot * (Q * bool))) : Q :=
  Qsum (map (fun b => fst (snd b) * h (fst b))%Q l).

Lemma add_multiplicity_lin : forall h b m l, (mlin h (add_multiplicity b m l) == mlin h l + fst m * h b)%Q.
Proof.
  intros h b m. unfold mlin. induction l as [|[b' m'] l IH]; simpl.
  - ring.
  - destruct (pballot_eq_dec b b') as [<-|E]; simpl; [ring|]. rewrite IH. ring.
Qed.
Lemma add_multiplicity_keys : forall b m l, map fst (add_multiplicity b m l) =
  if in_dec pballot_eq_dec b (map fst l) then map fst l else map fst l ++ [b].
Proof.
  intros b m. induction l as [|[b' m'] l IH]; cbn [add_multiplicity map fst]; [reflexivity|].
  destruct (pballot_eq_dec b b') as [->|E].
  - cbn [map fst]. destruct (in_dec pballot_eq_dec b' (b' :: map fst l)) as [|N]; auto. exfalso. apply N. left; auto.
  - cbn [map fst]. rewrite IH. destruct (in_dec pballot_eq_dec b (map fst l)) as [I|I];
      destruct (in_dec pballot_eq_dec b (b' :: map fst l)) as [J|J]; auto; exfalso.
    + apply J. right; auto.
    + destruct J as [J|J]; auto.
Qed.
Definition counted (m : Q * bool) : Prop := snd m = true /\ exists z, (0 < z)%Z /\ (fst m == inject_Z z)%Q.
Lemma add_multiplicity_counted : forall b m l, counted m -> Forall (fun x => counted (snd x)) l ->
  Forall (fun x => counted (snd x)) (add_multiplicity b m l).
Proof.
  intros b m. induction l as [|[b' m'] l IH]; simpl; intros Hm H; [auto|]. inversion H; subst.
  destruct (pballot_eq_dec b b'); constructor; auto. simpl in *.
  destruct Hm as (A & z & Z1 & Z2), H2 as (B & z' & Z1' & Z2'). split; simpl; [rewrite A, B; auto|].
  exists (z' + z)%Z. split; [lia|]. rewrite Z2, Z2', inject_Z_plus. reflexivity.
Qed.

Lemma voter_multiplicity_int : forall v z, (weight v == inject_Z z)%Q ->
  voter_multiplicity v = (weight v, weight_is_int v).
Proof.
  intros v z H. unfold voter_multiplicity.
  assert (Qeq_bool (inject_Z (Qnum (weight v) / Z.pos (Qden (weight v)))) (weight v) = true) as ->; auto.
  apply Qeq_bool_iff. destruct (weight v) as [n d]. unfold Qeq in *. simpl in *.
  rewrite Z.mul_1_r in H. subst n. rewrite Z.div_mul by discriminate. lia.
Qed.

Definition written (p : profile) (vs : list voter) (acc : list (pballot * (Q * bool))) : list (pballot * (Q * bool)) :=
  fold_left (fun acc v => add_multiplicity (voter_ballot p v) (voter_multiplicity v) acc) vs acc.

Lemma written_ok : forall p vs acc, Forall (wf_voter (num_cand p)) vs ->
  Forall (fun v => weight_is_int v = true /\ exists z, (weight v == inject_Z z)%Q) vs ->
  NoDup (map fst acc) -> Forall (fun x => counted (snd x)) acc ->
  Forall (fun x => exists v, In v (voters p) /\ fst x = voter_ballot p v) acc -> incl vs (voters p) ->
  let l := written p vs acc in
  NoDup (map fst l) /\ Forall (fun x => counted (snd x)) l /\
  Forall (fun x => exists v, In v (voters p) /\ fst x = voter_ballot p v) l /\
  forall h, (mlin h l == mlin h acc + Qsum (map (fun v => weight v * h (voter_ballot p v)) vs))%Q.
Proof.
  induction vs as [|v vs IH]; intros acc Hw Hi Hn Hc Hf Hin; simpl.
  - repeat split; auto. intros. ring.
  - inversion Hw as [|? ? Hwv Hw']; inversion Hi as [|? ? [Hfl [z Hz]] Hi']; subst.
    rewrite (voter_multiplicity_int v z Hz).
    set (acc' := add_multiplicity (voter_ballot p v) (weight v, weight_is_int v) acc).
    assert (K : map fst acc' = if in_dec pballot_eq_dec (voter_ballot p v) (map fst acc) then map fst acc
                               else map fst acc ++ [voter_ballot p v]) by apply add_multiplicity_keys.
    destruct (IH acc') as (A & B & C & D); auto.
    + rewrite K. destruct (in_dec pballot_eq_dec (voter_ballot p v) (map fst acc)) as [I|I]; auto.
      eapply Permutation_NoDup; [apply Permutation_cons_append|]. constructor; auto.
    + apply add_multiplicity_counted; auto. split; auto. exists z. split; auto. simpl.
      destruct Hwv as (_ & _ & Hp). rewrite Hz in Hp. unfold Qlt in Hp. simpl in Hp. lia.
    + apply Forall_forall. intros x Hx.
      assert (Hk : In (fst x) (map fst acc')) by (apply in_map; auto). rewrite K in Hk.
      assert (In (fst x) (map fst acc) \/ fst x = voter_ballot p v) as [Hk'|Hk'].
      { destruct (in_dec pballot_eq_dec (voter_ballot p v) (map fst acc)); auto.
        apply in_app_iff in Hk as [?|[?|[]]]; auto. }
      * apply in_map_iff in Hk' as (y & Ey & Hy). rewrite Forall_forall in Hf.
        destruct (Hf y Hy) as (u & Hu & Eu). exists u. split; auto. congruence.
      * exists v. split; auto. apply Hin. left; auto.
    + intros u Hu. apply Hin. right; auto.
    + repeat split; auto. intros h. rewrite D. unfold acc'. rewrite add_multiplicity_lin. simpl. ring.
Qed.

Lemma write_names : forall p, length (cand_names p) = num_cand p ->
  exists names, rmapM (fun c => match nth_error (cand_names p) c with
                              | Some s => Ok (S c, s) | None => Err IndexError end) (candidates p) = Ok names /\
    map fst names = map S (candidates p) /\ map snd names = cand_names p.
Proof.
  intros p Hl. unfold candidates. rewrite <- Hl. generalize (cand_names p). clear.
  assert (G : forall (l pre : list string), exists names : list (nat * string),
    rmapM (fun c => match nth_error (pre ++ l) c with
                    | Some s => Ok (S c, s) | None => Err IndexError end) (seq (length pre) (length l)) = Ok names /\
    map fst names = map S (seq (length pre) (length l)) /\ map snd names = l).
  { induction l as [|s l IH]; intros pre; simpl; [eauto|].
    rewrite nth_error_app2, Nat.sub_diag by lia. simpl.
    destruct (IH (pre ++ [s])) as (names & E1 & E2 & E3). rewrite app_length in E1, E2. simpl in E1, E2.
    rewrite Nat.add_1_r in E1, E2. rewrite <- app_assoc in E1. simpl in E1. rewrite E1. simpl.
    exists ((S (length pre), s) :: names). simpl. rewrite E2, E3. auto. }
  intros l. exact (G l []).
Qed.

Lemma voter_ballot_all : forall p v, wf_voter (num_cand p) v ->
  Permutation (concat (voter_ballot p v)) (map S (candidates p)).
Proof.
  intros p v (Hn & Hr & _). unfold voter_ballot. simpl. rewrite app_nil_r, <- map_app. apply Permutation_map.
  rewrite Forall_forall in Hr. apply NoDup_Permutation.
  - apply NoDup_app_intro; auto; [apply NoDup_filter, seq_NoDup|].
    intros c H1 H2. apply filter_In in H2 as [_ H2]. apply negb_true_iff, mem_false in H2. auto.
  - apply seq_NoDup.
  - intros c. rewrite in_app_iff, filter_In, negb_true_iff. unfold candidates. rewrite in_seq.
    split; [intros [H|[H _]]; [split; [lia|apply Hr; auto]|lia]|]. intros Hc.
    destruct (mem c (approved v)) eqn:E; [left; apply mem_In; auto|right; auto].
Qed.

Lemma groups_lin : forall sel uw bs groups g (h : pballot -> Q),
  Forall2 (fun b vs => exists A, sel (fst b) A /\
      vs = if uw : bool then [mkVoter A (inject_Z (snd b)) true]
          else repeat (mkVoter A 1 true) (Z.to_nat (snd b))) bs groups ->
  Forall (fun b => (0 < snd b)%Z /\ forall A, sel (fst b) A -> (g A == h (fst b))%Q) bs ->
  (lin g (concat groups) == Qsum (map (fun b : pballot * Z => inject_Z (snd b) * h (fst b)) bs))%Q.
Proof.
  intros sel uw bs groups g h F. induction F as [|[b c] vs bs groups (A & Hs & ->) F IH]; intros Hb; simpl.
  - reflexivity.
  - inversion Hb as [|? ? [Hc Hg] Hb']; subst. simpl in *. rewrite lin_app, IH by auto.
    apply Qplus_comp; [|reflexivity]. rewrite <- (Hg A Hs). destruct uw.
    + unfold lin. simpl. ring.
    + rewrite lin_repeat. unfold Qnat. rewrite Z2Nat.id by lia. reflexivity.
Qed.

Lemma counted_sum : forall (h : pballot -> Q) cs ms,
  Forall2 (fun (a : pballot * Z) b => fst a = fst b /\ (inject_Z (snd a) == fst (snd b))%Q) cs ms ->
  (Qsum (map (fun b => inject_Z (snd b) * h (fst b)) cs) == mlin h ms)%Q.
Proof.
  intros h cs ms F. unfold mlin. induction F as [|[b c] [b' m] cs ms [E1 E2] F IH]; simpl in *; [reflexivity|].
  subst b'. rewrite IH, E2. reflexivity.
Qed.

Lemma weight_of_same : forall p q A, same_election p q -> (weight_of q A == weight_of p A)%Q.
Proof.
  intros p q A [_ H]. set (g := fun B => if set_eqb B A then 1%Q else 0%Q).
  assert (L : forall vs, (wsum (filter (fun v => set_eqb (approved v) A) vs) == lin g vs)%Q).
  { unfold wsum, lin, g. induction vs as [|v vs IH]; simpl; [reflexivity|].
    destruct (set_eqb (approved v) A); simpl; rewrite IH; ring. }
  unfold weight_of. rewrite !L. symmetry. apply H. intros a b Hab. unfold g.
  replace (set_eqb b A) with (set_eqb a A); [reflexivity|].
  apply eq_true_iff_eq. rewrite !set_eqb_iff. split; intros E x; rewrite <- E; split; intros Hx;
    solve [eapply Permutation_in; [|exact Hx]; auto using Permutation_sym].
Qed.

Lemma nth_error_cands : forall p i a, nth_error (map S (candidates p)) i = Some a <-> a = S i /\ i < num_cand p.
Proof.
  intros p i a. unfold candidates. rewrite nth_error_map. destruct (Nat.ltb_spec i (num_cand p)) as [H|H].
  - rewrite (nth_error_nth' _ 0) by (rewrite seq_length; auto). rewrite seq_nth by auto. simpl.
    split; [intros E; inversion E; auto|intros [-> _]; auto].
  - assert (nth_error (seq 0 (num_cand p)) i = None) as -> by (apply nth_error_None; rewrite seq_length; auto).
    simpl. split; [discriminate|lia].
Qed.

Lemma voter_numbered : forall p v names, wf_voter (num_cand p) v -> map fst names = map S (candidates p) ->
  numbered names (top 1 (voter_ballot p v)) (approved v).
Proof.
  intros p v names (Hn & Hr & _) E. split; auto. intros i. rewrite E. unfold top. simpl. rewrite app_nil_r.
  rewrite Forall_forall in Hr. split.
  - intros Hi. exists (S i). split; [apply nth_error_cands; auto|]. apply in_map; auto.
  - intros (a & Ha & Hin). apply nth_error_cands in Ha as [-> _]. apply in_map_iff in Hin as (c & Ec & Hc).
    inversion Ec; subst; auto.
Qed.

Lemma preflib_roundtrip : forall (T : Type) (write : instance (Q * bool) -> T) parse from_ordinal p,
  preflib_contract write parse -> wf p ->
  length (cand_names p) = num_cand p -> Forall plain_name (cand_names p) ->
  Forall (fun v => weight_is_int v = true /\ exists z, (weight v == inject_Z z)%Q) (voters p) ->
  exists i, write_profile_to_preflib_cat_file p = Ok i /\
  forall use_weights, exists q,
    read_preflib_file from_ordinal (parse (write i)) None None use_weights = Ok q /\
    wf q /\ cand_names q = cand_names p /\ same_election p q /\
    Forall (fun v => weight_is_int v = true) (voters q) /\
    (use_weights = false -> Forall (fun v => weight v = 1%Q) (voters q)).
Proof.
  intros T write parse fo p Hc [Hm Hw] Hl Hpn Hint.
  destruct (write_names p Hl) as (names & En & Ef & Es).
  unfold write_profile_to_preflib_cat_file. rewrite En. simpl. eexists. split; [reflexivity|].
  fold (written p (voters p) []). set (ms := written p (voters p) []).
  destruct (written_ok p (voters p) []) as (W1 & W2 & W3 & W4); auto using incl_refl; [constructor|].
  fold ms in W1, W2, W3, W4.
  set (i := mkInst names (num_cand p) ms).
  assert (Hnames : length names = num_cand p).
  { rewrite <- (map_length fst), Ef, map_length. apply seq_length. }
  destruct (Hc i) as (j & Ej & Ea & Enum & cs & Pcs & Fcs); simpl; auto.
  { rewrite Ef. apply FinFun.Injective_map_NoDup; [intros ? ? E; inversion E; auto|apply seq_NoDup]. }
  { rewrite Es. auto. }
  { eapply Forall_impl; [|exact W3]. intros [x y] (v & Hv & Ex). simpl in *. rewrite Ef, Ex. apply voter_ballot_all.
    rewrite Forall_forall in Hw. auto. }
  simpl in Ea, Enum, Fcs.
  assert (Hcs : Forall (fun b => (0 < snd b)%Z /\ exists v, In v (voters p) /\ fst b = voter_ballot p v) cs).
  { clear Pcs. clearbody ms. clear W4 W1 i Ej. induction Fcs as [|a b cs ms [E1 E2] F IH]; constructor.
    - inversion W2 as [|? ? (_ & z & Z1 & Z2)]; inversion W3; subst. split; [|rewrite E1; auto].
      rewrite Z2 in E2. apply (proj1 (inject_Z_injective _ _)) in E2. lia.
    - inversion W2; inversion W3; subst; auto. }
  assert (Hj : Forall (fun b => (0 < snd b)%Z /\ exists v, In v (voters p) /\ fst b = voter_ballot p v) (multiplicity j))
    by (eapply Permutation_Forall; [apply Permutation_sym; exact Pcs|auto]).
  rewrite Forall_forall in Hw.
  intros uw. destruct (read_preflib_ok fo j None None uw (fun b A => numbered names (top 1 b) A))
    as (q & Er & Q1 & Q2 & groups & Q3 & Q4).
  { split; [lia|]. rewrite Ea. split; [lia|]. split.
    { rewrite Ef. apply FinFun.Injective_map_NoDup; [intros ? ? E; inversion E; auto|apply seq_NoDup]. }
    eapply Forall_impl; [|exact Hj]. intros [b c] (Hpos & v & Hv & Eb). simpl in *. subst b.
    pose proof (voter_ballot_all p v (Hw v Hv)) as P. rewrite <- Ef in P. split.
    - eapply Permutation_NoDup; [apply Permutation_sym; exact P|]. rewrite Ef.
      apply FinFun.Injective_map_NoDup; [intros ? ? E; inversion E; auto|apply seq_NoDup].
    - split; auto. intros x Hx. eapply Permutation_in; eauto. }
  { intros _ _ b A. rewrite Ea. reflexivity. }
  { discriminate. } { discriminate. }
  exists q. rewrite Ej. split; [exact Er|].
  assert (Hgr : Forall (fun v => NoDup (approved v) /\ Forall (fun c => c < num_cand p) (approved v) /\
     (0 < weight v)%Q /\ weight_is_int v = true /\ (uw = false -> weight v = 1%Q)) (voters q)).
  { rewrite Q3. clear Q3 Er Pcs. clear -Q4 Hj Hnames. induction Q4 as [|[b c] g bs groups (A & Hs & Eg) F IH]; simpl; [constructor|].
    inversion Hj as [|? ? [Hpos _] Hj']; subst. apply Forall_app. split; [|apply IH; auto].
    simpl in *. pose proof (numbered_range _ _ _ Hs) as R. rewrite Hnames in R. destruct Hs as [Hn _].
    destruct uw.
    - constructor; auto. simpl. repeat split; auto; [unfold Qlt; simpl; lia|discriminate].
    - apply Forall_forall. intros v Hv. apply repeat_spec in Hv. subst v. simpl. repeat split; auto; lra. }
  split; [|split; [|split; [|split]]].
  - split; [lia|]. eapply Forall_impl; [|exact Hgr]. intros v (A & B & C & _). repeat split; auto.
    rewrite Q1, Enum. auto.
  - rewrite Q2, Ea. auto.
  - split; [rewrite Q1, Enum; auto|]. intros g Hg.
    set (h := fun b : pballot => g (map pred (hd [] b))).
    rewrite Q3, (groups_lin (fun b A => numbered names (top 1 b) A) uw _ _ g h Q4).
    + rewrite (Qsum_perm _ _ (Permutation_map _ Pcs)), (counted_sum h _ _ Fcs), W4. unfold mlin, lin. simpl.
      rewrite Qplus_0_l. assert (map (fun v => (weight v * h (voter_ballot p v))%Q) (voters p) =
        map (fun v => (weight v * g (approved v))%Q) (voters p)) as ->; [|reflexivity].
      apply map_ext. intros v. unfold h, voter_ballot. simpl. rewrite map_map. simpl. rewrite map_id. auto.
    + eapply Forall_impl; [|exact Hj]. intros [b c] (Hpos & v & Hv & Eb). simpl in *. split; auto.
      intros A HA. unfold h. subst b. unfold voter_ballot at 1. simpl. rewrite map_map. simpl. rewrite map_id.
      apply Hg. eapply numbered_perm; [exact HA|]. apply voter_numbered; auto.
  - eapply Forall_impl; [|exact Hgr]. intros v (_ & _ & _ & A & _). auto.
  - intros ->. eapply Forall_impl; [|exact Hgr]. intros v (_ & _ & _ & _ & A). auto.
Qed.

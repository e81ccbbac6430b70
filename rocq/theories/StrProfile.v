(** * The text of a profile determines the profile *)
From Coq Require Import String Ascii.
From Coq Require Import List Arith Bool ZArith QArith Lia Permutation Sorted.
From Verif Require Import Prelude Misc MiscProofs Preferences Spec PrefProofs FileIO SpecFile YamlProofs SpecText.
Import ListNotations.
Local Open Scope string_scope.
Open Scope nat_scope.
Local Open Scope list_scope.

Lemma without_cons : forall a b s, without a (String b s) <-> a <> b /\ without a s.
Proof. intros. unfold without. cbn [list_ascii_of_string In]. split; [intros H; split; [intros ->; tauto|tauto]|intros [H1 H2] [H|H]; congruence]. Qed.
Lemma without_nil : forall a, without a "".
Proof. intros a H. destruct H. Qed.
Lemma without_app : forall a s t, without a s -> without a t -> without a (s ++ t)%string.
Proof. induction s as [|b s IH]; intros t H1 H2; auto. cbn [append]. apply without_cons in H1 as [H1 H1']. apply without_cons. split; [exact H1|apply IH; auto]. Qed.

(** text up to the first occurrence of a character *)
Definition starts (a : ascii) (s : string) : Prop := s = "" \/ exists r, s = String a r.
Lemma split_at : forall a x y s t, without a x -> without a y -> starts a s -> starts a t ->
  (x ++ s)%string = (y ++ t)%string -> x = y /\ s = t.
Proof.
  induction x as [|b x IH]; intros y s t Hx Hy Hs Ht E.
  - destruct y as [|c y]; cbn [append] in E; auto. exfalso. apply without_cons in Hy as [Hy _].
    destruct Hs as [->|[r ->]]; [discriminate|]. inversion E. congruence.
  - destruct y as [|c y]; cbn [append] in E.
    + exfalso. apply without_cons in Hx as [Hx _]. destruct Ht as [->|[r ->]]; [discriminate|]. inversion E. congruence.
    + inversion E; subst. apply without_cons in Hx as [_ Hx]. apply without_cons in Hy as [_ Hy].
      destruct (IH y s t Hx Hy Hs Ht) as [-> ->]; auto.
Qed.

Lemma append_cancel_l : forall x s t, (x ++ s)%string = (x ++ t)%string -> s = t.
Proof. induction x as [|a x IH]; cbn; intros s t E; auto. inversion E. auto. Qed.
Lemma append_length : forall x y, String.length (x ++ y) = String.length x + String.length y.
Proof. induction x as [|a x IH]; intros y; cbn; auto. Qed.
Lemma append_nil_r : forall x, (x ++ "")%string = x.
Proof. induction x as [|a x IH]; cbn; auto. rewrite IH. auto. Qed.
Lemma append_cancel_r : forall x y s, (x ++ s)%string = (y ++ s)%string -> x = y.
Proof.
  induction x as [|a x IH]; intros [|b y] s E; auto.
  - exfalso. apply (f_equal String.length) in E. cbn in E. rewrite append_length in E. lia.
  - exfalso. apply (f_equal String.length) in E. cbn in E. rewrite append_length in E. lia.
  - cbn in E. inversion E; subst. f_equal. eapply IH; eauto.
Qed.
Lemma prefix_append : forall x y, substring 0 (String.length x) (x ++ y) = x.
Proof. induction x as [|a x IH]; intros y; [destruct y; auto|]. cbn. rewrite IH. auto. Qed.
Lemma cut_two : forall x y, String.length y = 2 -> substring 0 (String.length (x ++ y) - 2) (x ++ y) = x.
Proof. intros x y H. rewrite append_length, H. replace (String.length x + 2 - 2) with (String.length x) by lia. apply prefix_append. Qed.

Lemma digits_without : forall a s, is_digit a = false -> all_digits s = true -> without a s.
Proof.
  induction s as [|b s IH]; intros Ha H; [apply without_nil|]. cbn in H. apply andb_true_iff in H as [H1 H2].
  apply without_cons. split; auto. intros ->. congruence.
Qed.
Lemma str_nat_without : forall a n, is_digit a = false -> without a (str_nat n).
Proof. intros a n H. apply digits_without; auto. apply str_nat_digits. Qed.

(** joining with ", " *)
Lemma join_names : forall l l',
  Forall (fun s => s <> "" /\ without ","%char s) l -> Forall (fun s => s <> "" /\ without ","%char s) l' ->
  String.concat ", " l = String.concat ", " l' -> l = l'.
Proof.
  assert (C : forall x l, Forall (fun s => s <> "" /\ without ","%char s) l -> starts ","%char (match l with [] => "" | _ => ", " ++ String.concat ", " l end)
     /\ String.concat ", " (x :: l) = (x ++ (match l with [] => "" | _ => ", " ++ String.concat ", " l end))%string).
  { intros x [|y l] H; split; [left; auto|cbn; rewrite append_nil_r; auto|right; eexists; reflexivity|reflexivity]. }
  induction l as [|x l IH]; intros [|y l'] H H' E; auto.
  - exfalso. inversion H' as [|? ? [Hy _] H2]; subst. destruct (C y l' H2) as [_ E2]. rewrite E2 in E. destruct y; [congruence|discriminate].
  - exfalso. inversion H as [|? ? [Hy _] H2]; subst. destruct (C x l H2) as [_ E2]. rewrite E2 in E. destruct x; [congruence|discriminate].
  - inversion H as [|? ? [Hx Hx'] H2]; subst. inversion H' as [|? ? [Hy Hy'] H2']; subst.
    destruct (C x l H2) as [S1 E1], (C y l' H2') as [S2 E2]. rewrite E1, E2 in E.
    destruct (split_at _ _ _ _ _ Hx' Hy' S1 S2 E) as [-> E3]. f_equal. apply IH; auto.
    destruct l as [|x2 l], l' as [|y2 l']; try discriminate; auto. inversion E3. auto.
Qed.

(** joining lines *)
Lemma join_lines : forall l l', length l = length l' ->
  Forall (without "010"%char) l -> Forall (without "010"%char) l' ->
  String.concat ("," ++ nl) l = String.concat ("," ++ nl) l' -> l = l'.
Proof.
  induction l as [|x l IH]; intros [|y l'] L H H' E; auto; try discriminate.
  inversion H as [|? ? Hx H2]; subst. inversion H' as [|? ? Hy H2']; subst. cbn [length] in L.
  destruct l as [|x2 l], l' as [|y2 l']; try discriminate L.
  - cbn in E. subst. auto.
  - change (String.concat ("," ++ nl) (x :: x2 :: l)) with (x ++ ("," ++ nl) ++ String.concat ("," ++ nl) (x2 :: l))%string in E.
    change (String.concat ("," ++ nl) (y :: y2 :: l')) with (y ++ ("," ++ nl) ++ String.concat ("," ++ nl) (y2 :: l'))%string in E.
    assert (A : forall u r, (u ++ ("," ++ nl) ++ r)%string = ((u ++ ",") ++ String "010"%char r)%string).
    { intros u r. rewrite !string_app_assoc. reflexivity. }
    rewrite !A in E. assert (N : without "010"%char ","). { apply without_cons. split; [discriminate|apply without_nil]. }
    apply split_at with (a := "010"%char) in E; try (apply without_app; auto); try (right; eexists; reflexivity).
    destruct E as [E1 E2]. apply append_cancel_r in E1. subst. inversion E2 as [E3]. f_equal. apply IH; auto.
Qed.
Lemma concat_lines : forall l, l <> [] ->
  String.concat "" (map (fun s => (s ++ "," ++ nl)%string) l) = (String.concat ("," ++ nl) l ++ "," ++ nl)%string.
Proof.
  induction l as [|x l IH]; intros H; [congruence|]. destruct l as [|y l]; [reflexivity|].
  cbn [map]. change (String.concat "" ((x ++ "," ++ nl)%string :: (y ++ "," ++ nl)%string :: map (fun s => (s ++ "," ++ nl)%string) l))
    with ((x ++ "," ++ nl) ++ "" ++ String.concat "" (map (fun s => (s ++ "," ++ nl)%string) (y :: l)))%string.
  rewrite IH by discriminate.
  change (String.concat ("," ++ nl) (x :: y :: l)) with (x ++ ("," ++ nl) ++ String.concat ("," ++ nl) (y :: l))%string.
  rewrite !string_app_assoc. reflexivity.
Qed.

(** ** Sets with names *)
Lemma named_ok : forall (names : list string) A named,
  rmapM (fun c => match nth_error names c with Some s => Ok s | None => Err IndexError end) A = Ok named ->
  Forall2 (fun c s => nth_error names c = Some s) A named.
Proof.
  intros names. induction A as [|c A IH]; intros named H; cbn in H; [inversion H; constructor|].
  destruct (nth_error names c) eqn:E; [|discriminate]. cbn [rbind] in H.
  match type of H with rbind ?X _ = _ => destruct X as [r|] eqn:E2; [|discriminate] end. cbn in H. inversion H; subst. constructor; auto.
Qed.
Lemma named_map : forall names A named, Forall2 (fun c s => nth_error names c = Some s) A named -> named = map (fun c => nth c names "") A.
Proof. induction 1 as [|c s A l H F IH]; auto. cbn. rewrite IH. f_equal. symmetry. apply nth_error_nth; auto. Qed.

Lemma str_set_text : forall names A s, str_set_with_names A names = Ok s -> set_text names A s.
Proof.
  intros names A s H. unfold str_set_with_names in H.
  match type of H with rbind ?X _ = _ => destruct X as [r|] eqn:E; [|discriminate] end. cbn [rbind] in H. inversion H; subst.
  apply named_ok, named_map in E. subst r. eexists. split; [|split; [|reflexivity]].
  - apply Permutation_sym, sort_by_perm.
  - apply (sort_by_sorted str_leb str_leb_total str_leb_trans).
Qed.

Lemma str_set_names_inj : forall names A B s, separable_names names ->
  str_set_with_names A names = Ok s -> str_set_with_names B names = Ok s -> set_same A B.
Proof.
  intros names A B s [Hn Hs] HA HB. unfold str_set_with_names in HA, HB.
  match type of HA with rbind ?X _ = _ => destruct X as [l|] eqn:EA; [|discriminate] end. cbn [rbind] in HA.
  match type of HB with rbind ?X _ = _ => destruct X as [l'|] eqn:EB; [|discriminate] end. cbn [rbind] in HB.
  apply named_ok in EA, EB.
  assert (G : forall A l, Forall2 (fun c s => nth_error names c = Some s) A l -> Forall (fun s => s <> "" /\ without ","%char s) (sort_str l)).
  { intros A0 l0 F. apply Forall_forall. intros x Hx. unfold sort_str in Hx. rewrite sort_by_In in Hx.
    rewrite Forall_forall in Hs. destruct (Hs x) as (H1 & H2 & _); auto.
    clear -F Hx. induction F as [|c y A l H F IH]; [destruct Hx|]; destruct Hx as [->|Hx]; [eapply nth_error_In; eauto|auto]. }
  assert (E : String.concat ", " (sort_str l) = String.concat ", " (sort_str l')).
  { inversion HA as [E1]. inversion HB as [E2]. rewrite <- E2 in E1. cbn [append] in E1. inversion E1 as [E3].
    apply append_cancel_r in E3. exact E3. }
  apply join_names in E; eauto.
  assert (P : Permutation l l').
  { eapply perm_trans; [apply (sort_by_perm _ str_leb)|]. unfold sort_str in E. rewrite E. apply Permutation_sym, sort_by_perm. }
  assert (K : forall A B l l', Forall2 (fun c s => nth_error names c = Some s) A l -> Forall2 (fun c s => nth_error names c = Some s) B l' ->
    Permutation l l' -> forall c, In c A -> In c B).
  { clear -Hn. intros A B l l' F F' P c Hc.
    assert (exists s, nth_error names c = Some s /\ In s l) as (s & E & Hs).
    { clear -F Hc. induction F as [|x y A l H F IH]; [destruct Hc|]; destruct Hc as [->|Hc]; [eexists; split; [eauto|left; auto]|].
      destruct (IH Hc) as (s & E & Hs). exists s. split; auto. right; auto. }
    assert (Hs' : In s l') by (eapply Permutation_in; eauto).
    clear -Hn F' E Hs'. induction F' as [|x y B l' H F' IH]; [destruct Hs'|]; destruct Hs' as [->|Hs'].
    - left. eapply NoDup_nth_error; eauto; [|congruence]. apply nth_error_Some. congruence.
    - right; auto. }
  intros c. split; eauto. apply Permutation_sym in P. eauto.
Qed.
Lemma str_set_no_nl : forall names A s, separable_names names -> str_set_with_names A names = Ok s -> without "010"%char s.
Proof.
  intros names A s [_ Hs] H. unfold str_set_with_names in H.
  match type of H with rbind ?X _ = _ => destruct X as [l|] eqn:EA; [|discriminate] end. cbn [rbind] in H. inversion H; subst.
  apply named_ok in EA. assert (F : Forall (without "010"%char) (sort_str l)).
  { apply Forall_forall. intros x Hx. unfold sort_str in Hx. rewrite sort_by_In in Hx. rewrite Forall_forall in Hs. apply Hs.
    clear -EA Hx. induction EA as [|c y A1 l1 H F IH]; [destruct Hx|]; destruct Hx as [->|Hx]; [eapply nth_error_In; eauto|auto]. }
  cbn [append]. apply without_cons. split; [discriminate|]. apply without_app.
  - clear -F. revert F. generalize (sort_str l). clear l. intros l F.
    induction F as [|x l H F IH]; [apply without_nil|]. destruct l as [|y l]; [exact H|].
    change (String.concat ", " (x :: y :: l)) with (x ++ ", " ++ String.concat ", " (y :: l))%string.
    apply without_app; auto. apply without_app; auto. repeat (apply without_cons; split; [discriminate|]). apply without_nil.
  - repeat (apply without_cons; split; [discriminate|]). apply without_nil.
Qed.

(** ** The text of a profile *)
Section P.
Variable str_weight : Q -> bool -> string.

Definition voter_line (p : profile) (i : nat) (v : voter) (s : string) : string :=
  (" voter " ++ pad4 (str_nat i ++ ":") ++ " " ++
   (if has_unit_weights p then "" else str_weight (weight v) (weight_is_int v) ++ " * ") ++ s)%string.
Definition header (p : profile) : string :=
  ((if has_unit_weights p then "" else "weighted ") ++ "profile with " ++ str_nat (length (voters p)) ++
   " voters and " ++ str_nat (num_cand p) ++ " candidates")%string.

Lemma str_profile_text : forall p s, str_profile str_weight p = Ok s ->
  exists sets, Forall2 (fun v t => str_set_with_names (approved v) (cand_names p) = Ok t) (voters p) sets /\
    s = (header p ++ match voters p with [] => "" | _ => ":" ++ nl ++ String.concat ("," ++ nl)
           (map (fun ivt => voter_line p (fst ivt) (fst (snd ivt)) (snd (snd ivt))) (combine (seq 0 (length (voters p))) (combine (voters p) sets))) end)%string.
Proof using.
  intros p s H. unfold str_profile in H.
  match type of H with rbind ?X _ = _ => destruct X as [lines|] eqn:E; [|discriminate] end. cbn [rbind] in H.
  assert (L : exists sets, Forall2 (fun v t => str_set_with_names (approved v) (cand_names p) = Ok t) (voters p) sets /\
    lines = map (fun x => (x ++ "," ++ nl)%string)
      (map (fun ivt => voter_line p (fst ivt) (fst (snd ivt)) (snd (snd ivt))) (combine (seq 0 (length (voters p))) (combine (voters p) sets)))).
  { clear H s. revert E. unfold voter_line. generalize (has_unit_weights p). intros u. generalize 0. revert lines.
    induction (voters p) as [|v vs IH]; intros lines i E; cbn [length seq combine rmapM] in E.
    - inversion E. exists []. split; constructor.
    - cbn [fst snd] in E.
      destruct (str_set_with_names (approved v) (cand_names p)) as [t|] eqn:Et; [|discriminate]. cbn [rbind] in E.
      match type of E with rbind ?X _ = _ => destruct X as [ls|] eqn:E2; [|discriminate] end. cbn [rbind] in E. inversion E; subst.
      destruct (IH ls (S i) E2) as (sets & F & El). exists (t :: sets). split; [constructor; auto|].
      cbn [length seq combine map fst snd]. f_equal; [|exact El]. rewrite !string_app_assoc. reflexivity. }
  destruct L as (sets & F & El). exists sets. split; auto. inversion H as [H1]. clear H H1 E.
  set (ls := map (fun ivt => voter_line p (fst ivt) (fst (snd ivt)) (snd (snd ivt))) (combine (seq 0 (length (voters p))) (combine (voters p) sets))) in *.
  match goal with |- substring 0 _ ?out = _ => assert (exists b c, out = (b ++ c)%string /\ String.length c = 2 /\
     b = (header p ++ match voters p with [] => "" | _ => ":" ++ nl ++ String.concat ("," ++ nl) ls end)%string) as (b & c & Eb & Hc & E2) end.
  - unfold header. destruct (voters p) as [|v vs] eqn:Ev.
    + exists (header p), (":" ++ nl)%string. subst lines. cbn in ls. subst ls. cbn [map String.concat].
      unfold header. rewrite Ev. split; [|split; [reflexivity|rewrite append_nil_r; reflexivity]].
      rewrite !string_app_assoc. cbn [append]. reflexivity.
    + eexists _, ("," ++ nl)%string. split; [|split; [reflexivity|reflexivity]]. subst lines. rewrite concat_lines.
      * rewrite !string_app_assoc. reflexivity.
      * subst ls. inversion F; subst. cbn [length seq combine map]. discriminate.
  - rewrite Eb. rewrite cut_two by auto. exact E2.
Qed.

Lemma header_inj : forall p q s t, starts ":"%char s -> starts ":"%char t -> (header p ++ s)%string = (header q ++ t)%string ->
  has_unit_weights p = has_unit_weights q /\ length (voters p) = length (voters q) /\ num_cand p = num_cand q /\ s = t.
Proof using.
  intros p q s t Hs Ht E. unfold header in E. rewrite !string_app_assoc in E.
  assert (Eu : has_unit_weights p = has_unit_weights q).
  { destruct (has_unit_weights p), (has_unit_weights q); auto; discriminate E. }
  split; auto. rewrite Eu in E. apply append_cancel_l in E. apply append_cancel_l in E.
  apply split_at with (a := " "%char) in E; try (apply str_nat_without; reflexivity); try (right; eexists; reflexivity).
  destruct E as [E1 E]. apply str_nat_inj in E1. split; auto. apply append_cancel_l in E.
  apply split_at with (a := " "%char) in E; try (apply str_nat_without; reflexivity); try (right; eexists; reflexivity).
  destruct E as [E2 E]. apply str_nat_inj in E2. split; auto. apply append_cancel_l in E. exact E.
Qed.

Theorem str_profile_identifies : forall p q s, faithful_numbers str_weight -> separable_names (cand_names p) ->
  cand_names p = cand_names q -> str_profile str_weight p = Ok s -> str_profile str_weight q = Ok s ->
  num_cand p = num_cand q /\ same_ballots p q.
Proof using.
  intros p q s [Hw1 Hw2] Hn En Hp Hq.
  destruct (str_profile_text p s Hp) as (sp & Fp & Ep). destruct (str_profile_text q s Hq) as (sq & Fq & Eq).
  rewrite Ep in Eq. clear Hp Hq Ep s.
  apply header_inj in Eq; [|destruct (voters p); [left; auto|right; eexists; reflexivity]|destruct (voters q); [left; auto|right; eexists; reflexivity]].
  destruct Eq as (Eu & El & Em & E). split; auto. unfold same_ballots.
  assert (E' : map (fun ivt => voter_line p (fst ivt) (fst (snd ivt)) (snd (snd ivt))) (combine (seq 0 (length (voters p))) (combine (voters p) sp)) =
               map (fun ivt => voter_line q (fst ivt) (fst (snd ivt)) (snd (snd ivt))) (combine (seq 0 (length (voters q))) (combine (voters q) sq))).
  { destruct (voters p) as [|v vs] eqn:Ev.
    - destruct (voters q); [reflexivity|discriminate].
    - destruct (voters q) as [|v' vs'] eqn:Ev'; [discriminate|]. rewrite <- Ev, <- Ev' in *.
      apply append_cancel_l in E. apply append_cancel_l in E.
      assert (LP : forall pp sp, Forall2 (fun v t => str_set_with_names (approved v) (cand_names pp) = Ok t) (voters pp) sp -> length sp = length (voters pp)).
      { intros pp sp0 F. clear -F. induction F; cbn; auto. }
      assert (W : forall pp ss, cand_names pp = cand_names p -> Forall2 (fun v t => str_set_with_names (approved v) (cand_names pp) = Ok t) (voters pp) ss ->
        Forall (without "010"%char) (map (fun ivt => voter_line pp (fst ivt) (fst (snd ivt)) (snd (snd ivt))) (combine (seq 0 (length (voters pp))) (combine (voters pp) ss)))).
      { intros pp ss En' F. apply Forall_forall. intros x Hx. apply in_map_iff in Hx as ([i [u t]] & <- & Hi). cbn [fst snd].
        apply in_combine_r in Hi. assert (Ht : str_set_with_names (approved u) (cand_names pp) = Ok t).
        { clear -F Hi. induction F as [|v y vs ss H F IH]; [destruct Hi|]; destruct Hi as [Hi|Hi]; [inversion Hi; subst; auto|auto]. }
        unfold voter_line. rewrite En' in Ht.
        assert (D : without "010"%char " voter ") by (repeat (apply without_cons; split; [discriminate|]); apply without_nil).
        apply without_app; [exact D|]. apply without_app; [|apply without_app; [|apply without_app]].
        - unfold pad4. apply without_app.
          + apply without_app; [apply str_nat_without; reflexivity|]. apply without_cons. split; [discriminate|apply without_nil].
          + generalize (4 - String.length (str_nat i ++ ":")). intros m. induction m as [|m IHm]; [apply without_nil|].
            destruct m as [|m]; [cbn; apply without_cons; split; [discriminate|apply without_nil]|].
            change (String.concat "" (repeat " " (S (S m)))) with (" " ++ "" ++ String.concat "" (repeat " " (S m)))%string.
            cbn [append]. apply without_cons. split; [discriminate|exact IHm].
        - apply without_cons. split; [discriminate|apply without_nil].
        - destruct (has_unit_weights pp); [apply without_nil|]. apply without_app; [apply Hw1|].
          repeat (apply without_cons; split; [discriminate|]); apply without_nil.
        - eapply str_set_no_nl; eauto. }
      apply join_lines in E; auto.
      rewrite !map_length, !combine_length, !seq_length, (LP p sp Fp), (LP q sq Fq), El. reflexivity. }
  clear E. rewrite <- El in E'. revert E' Fp Fq El. unfold voter_line. rewrite <- Eu, <- En.
  assert (U1 : has_unit_weights p = true -> Forall (fun v => weight v == 1)%Q (voters p)).
  { unfold has_unit_weights. intros H. apply Forall_forall. intros v Hv. rewrite forallb_forall in H. apply Qeq_bool_iff. auto. }
  assert (U2 : has_unit_weights p = true -> Forall (fun v => weight v == 1)%Q (voters q)).
  { rewrite Eu. unfold has_unit_weights. intros H. apply Forall_forall. intros v Hv. rewrite forallb_forall in H. apply Qeq_bool_iff. auto. }
  revert U1 U2. generalize (has_unit_weights p). intros u U1 U2.
  generalize 0. revert U1 U2. revert sp sq. generalize (voters q). induction (voters p) as [|v vs IH]; intros [|v' vs'] sp sq U1 U2 i E Fp Fq El; try discriminate; [constructor|].
  inversion Fp as [|? t ? sp' Ft Fp']; subst. inversion Fq as [|? t' ? sq' Ft' Fq']; subst. cbn [length seq combine map fst snd] in E.
  cbn [length] in El. injection E as E1 E2. injection El as El.
  constructor.
  - clear E2. apply append_cancel_l in E1. rewrite En in *. 
    assert (E3 : ((if u then "" else str_weight (weight v) (weight_is_int v) ++ " * ") ++ t)%string = ((if u then "" else str_weight (weight v') (weight_is_int v') ++ " * ") ++ t')%string).
    { injection E1 as E3. exact E3. }
    destruct u.
    + cbn [append] in E3. subst t'. split; [eapply str_set_names_inj; eauto|].
      specialize (U1 eq_refl). specialize (U2 eq_refl). inversion U1; inversion U2; subst. rewrite H1, H5. reflexivity.
    + rewrite !string_app_assoc in E3. apply split_at with (a := " "%char) in E3; try apply Hw1; try (right; eexists; reflexivity).
      destruct E3 as [E3 E4]. apply append_cancel_l in E4. subst t'. split; [eapply str_set_names_inj; eauto|]. eapply Hw2; eauto.
  - eapply (IH vs' sp' sq'); eauto.
    + intros Hu. specialize (U1 Hu). inversion U1; auto.
    + intros Hu. specialize (U2 Hu). inversion U2; auto.
Qed.
End P.

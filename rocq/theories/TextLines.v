(** * Lines of a text, and numbers in names of point distributions *)
From Coq Require Import String.
From Coq Require Import List Arith Bool ZArith Ascii Lia DecimalString DecimalNat Permutation.
From Verif Require Import Prelude Misc MiscProofs Generate Output.
Import ListNotations.
Local Open Scope string_scope.
Open Scope nat_scope.
Local Open Scope list_scope.

(** a text without line breaks *)
Definition one_line (s : string) : Prop := ~ In (ascii_of_nat 10) (list_ascii_of_string s).
(** the text with the given lines *)
Definition unlines (lines : list string) : string := String.concat nl lines.

Lemma one_line_app : forall a b, one_line a -> one_line b -> one_line (a ++ b)%string.
Proof.
  unfold one_line. induction a as [|x a IH]; cbn; intros b Ha Hb; auto. intros [H|H]; [apply Ha; auto|]. revert H. apply IH; auto.
Qed.
Lemma split_nl_line : forall s, one_line s -> split_nl s = [s].
Proof.
  unfold one_line. induction s as [|a s IH]; intros H; auto. cbn [split_nl]. cbn [list_ascii_of_string In] in H.
  destruct (Ascii.eqb_spec a (ascii_of_nat 10)) as [->|Hne]; [exfalso; apply H; auto|]. rewrite IH; [reflexivity|intros Hi; apply H; auto].
Qed.
Lemma split_nl_app : forall s t, one_line s -> split_nl (s ++ nl ++ t)%string = s :: split_nl t.
Proof.
  unfold one_line. induction s as [|a s IH]; intros t H; [reflexivity|].
  change (split_nl (String a (s ++ nl ++ t)%string) = String a s :: split_nl t). cbn [split_nl].
  cbn [list_ascii_of_string In] in H. destruct (Ascii.eqb_spec a (ascii_of_nat 10)) as [->|Hne]; [exfalso; apply H; auto|]. rewrite IH; [reflexivity|intros Hi; apply H; auto].
Qed.
Lemma split_unlines : forall lines, lines <> [] -> Forall one_line lines -> split_nl (unlines lines) = lines.
Proof.
  unfold unlines. induction lines as [|x l IH]; intros Hne H; [congruence|]. inversion H; subst.
  destruct l as [|y l]; [apply split_nl_line; auto|].
  change (String.concat nl (x :: y :: l)) with (x ++ nl ++ String.concat nl (y :: l))%string.
  rewrite split_nl_app by auto. rewrite IH by (discriminate || auto). reflexivity.
Qed.
Lemma lines_exist : forall s, exists lines, lines <> [] /\ Forall one_line lines /\ s = unlines lines.
Proof.
  induction s as [|a s (l & Hne & Hf & ->)].
  - exists [""]. split; [discriminate|]. split; [constructor; auto|reflexivity]. intros [].
  - destruct (Ascii.eqb_spec a (ascii_of_nat 10)) as [->|Ha].
    + exists ("" :: l). split; [discriminate|]. split; [constructor; auto; intros []|]. destruct l; [congruence|reflexivity].
    + destruct l as [|x l]; [congruence|]. exists (String a x :: l). split; [discriminate|]. inversion Hf; subst. split.
      * constructor; auto. intros [H|H]; auto.
      * destruct l; reflexivity.
Qed.

Lemma digits_one_line : forall s, all_digits s = true -> one_line s.
Proof.
  unfold one_line. induction s as [|a s IH]; cbn; intros H; auto. apply andb_true_iff in H as [Ha Hs].
  intros [->|Hi]; [discriminate Ha|]. apply (IH Hs Hi).
Qed.
Lemma concat_one_line : forall sep l, one_line sep -> Forall one_line l -> one_line (String.concat sep l).
Proof.
  induction l as [|x l IH]; intros Hs Hf; [intros []|]. inversion Hf; subst. destruct l as [|y l]; [assumption|].
  change (one_line (x ++ sep ++ String.concat sep (y :: l))%string). apply one_line_app; auto. apply one_line_app; auto.
Qed.
Lemma str_set_one_line : forall W, one_line (str_set_of_candidates W).
Proof.
  intros W. unfold str_set_of_candidates. apply (one_line_app "{"); [intros [H|[]]; discriminate|].
  apply one_line_app; [|intros [H|[]]; discriminate]. apply concat_one_line; [intros [H|[H|[]]]; discriminate|].
  apply Forall_forall. intros x Hx. unfold sort_str in Hx. rewrite sort_by_In in Hx. apply in_map_iff in Hx as (n & <- & _).
  apply digits_one_line, str_nat_digits.
Qed.

(** the lines of [str_committees_with_header] *)
Definition committee_list_lines (committees : list (list nat)) (winning : bool) : list string :=
  let word := if winning then "winning committee" else "committee" in
  match List.length committees with
  | 0 => [("No " ++ word ++ "s")%string]
  | n => (str_nat n ++ " " ++ word ++ (if Nat.eqb n 1 then "" else "s") ++ ":")%string ::
         map (fun W => (" " ++ str_set_of_candidates W)%string) committees ++ [""]
  end.
Lemma concat_indent : forall (l : list string) x, (String.concat (nl ++ " ") (x :: l) ++ nl)%string = (x ++ nl ++ unlines (map (fun s => " " ++ s)%string l ++ [""]))%string.
Proof.
  induction l as [|y l IH]; intros x.
  - unfold unlines. cbn [String.concat map app]. reflexivity.
  - change (String.concat (nl ++ " ") (x :: y :: l)) with (x ++ (nl ++ " ") ++ String.concat (nl ++ " ") (y :: l))%string.
    rewrite !string_app_assoc, IH. unfold unlines. cbn [map app].
    destruct (map (fun s => (" " ++ s)%string) l ++ [""]) eqn:E; [destruct l; discriminate E|].
    cbn [String.concat]. rewrite ?string_app_assoc. reflexivity.
Qed.
Lemma sets_lines : forall committees, committees <> [] ->
  str_sets_of_candidates committees = unlines (map (fun W => " " ++ str_set_of_candidates W)%string committees ++ [""]).
Proof.
  intros [|W cs] H; [congruence|]. unfold str_sets_of_candidates. cbn [map]. rewrite concat_indent. rewrite map_map. unfold unlines.
  cbn [app]. destruct (map (fun W => (" " ++ str_set_of_candidates W)%string) cs ++ [""]) eqn:E; [destruct cs; discriminate E|].
  cbn [String.concat]. rewrite ?string_app_assoc. reflexivity.
Qed.
Lemma unlines_cons : forall x l, l <> [] -> unlines (x :: l) = (x ++ nl ++ unlines l)%string.
Proof. intros x [|y l] H; [congruence|reflexivity]. Qed.
Lemma committee_list_text : forall committees winning, str_committees_with_header committees winning = unlines (committee_list_lines committees winning).
Proof.
  intros committees winning. unfold str_committees_with_header, committee_list_lines. cbv zeta.
  destruct committees as [|W [|W' cs]]; [destruct winning; reflexivity| |]; set (l := W :: _) in *; cbn [List.length];
    rewrite sets_lines by (subst l; discriminate); (destruct (List.length l) as [|n] eqn:El; [subst l; discriminate|]);
    rewrite unlines_cons by (destruct l; discriminate); rewrite !string_app_assoc.
  - subst l. cbn in El. injection El as <-. destruct winning; reflexivity.
  - subst l. cbn in El. injection El as <-. destruct winning; reflexivity.
Qed.
Lemma committee_list_one_line : forall committees winning, Forall one_line (committee_list_lines committees winning).
Proof.
  intros committees winning. unfold committee_list_lines. cbv zeta.
  assert (Hw : forall s, In s ["winning committee"; "committee"; "s"; ""; ":"; " "; "No "] -> one_line s).
  { intros s Hs H. cbn in Hs. repeat (destruct Hs as [<-|Hs]; [cbn in H; repeat (destruct H as [H|H]; [discriminate H|]); contradiction|]). contradiction. }
  destruct (List.length committees) as [|n] eqn:E.
  - constructor; auto. apply one_line_app; [apply Hw; cbn; tauto|]. apply one_line_app; apply Hw; destruct winning; cbn; tauto.
  - constructor.
    + apply one_line_app; [apply digits_one_line, str_nat_digits|]. apply one_line_app; [apply Hw; cbn; tauto|].
      apply one_line_app; [apply Hw; destruct winning; cbn; tauto|]. apply one_line_app; apply Hw; [destruct (S n =? 1)|]; cbn; tauto.
    + apply Forall_app. split; [|constructor; auto; apply Hw; cbn; tauto]. apply Forall_forall. intros x Hx.
      apply in_map_iff in Hx as (W & <- & _). apply one_line_app; [apply Hw; cbn; tauto|apply str_set_one_line].
Qed.
Lemma committee_list_inj : forall a b winning, Forall (@NoDup nat) a -> Forall (@NoDup nat) b ->
  str_committees_with_header a winning = str_committees_with_header b winning -> Forall2 (fun V W => forall x, In x V <-> In x W) a b.
Proof.
  intros a b winning Ha Hb H. rewrite !committee_list_text in H. apply (f_equal split_nl) in H.
  assert (Hne : forall l w, committee_list_lines l w <> []) by (intros l w; unfold committee_list_lines; destruct (List.length l); discriminate).
  rewrite !split_unlines in H by (auto using committee_list_one_line).
  assert (Hm : map (fun W => (" " ++ str_set_of_candidates W)%string) a = map (fun W => (" " ++ str_set_of_candidates W)%string) b).
  { destruct a as [|x a]; destruct b as [|y b]; auto.
    - unfold committee_list_lines in H. cbn [List.length] in H. injection H as H1 H2. destruct b; discriminate H2.
    - unfold committee_list_lines in H. cbn [List.length] in H. injection H as H1 H2. destruct a; discriminate H2.
    - unfold committee_list_lines in H. cbn [List.length] in H. apply (f_equal (@tl string)) in H. cbn [tl] in H.
      apply app_inj_tail in H as [H _]. exact H. }
  clear H. revert b Hb Hm. induction a as [|x a IH]; intros [|y b] Hb Hm; try discriminate; constructor.
  - inversion Ha; inversion Hb; subst. cbn [map] in Hm. assert (Hh := f_equal (hd EmptyString) Hm). cbn [hd] in Hh. apply str_set_inj; auto. unfold str_set_of_candidates in *. injection Hh as ->. reflexivity.
  - inversion Ha; inversion Hb; subst. apply IH; auto. exact (f_equal (@tl string) Hm).
Qed.

(** ** the dimension in the name of a point distribution *)
Lemma tail_ten : forall n, Nat.tail_mul 10 n = 10 * n. Proof. intros. apply Nat.tail_mul_spec. Qed.
Lemma digits_step : forall a d r acc, digit a = Some d -> digits acc (String a r) = digits (10 * acc + d) r.
Proof. intros a d r acc H. cbn [digits]. rewrite H. reflexivity. Qed.
Lemma digits_uint : forall u acc, digits acc (NilEmpty.string_of_uint u) = Some (Nat.of_uint_acc u acc).
Proof.
  induction u; intros acc; [reflexivity|..]; cbn [NilEmpty.string_of_uint]; (erewrite digits_step by reflexivity); rewrite IHu;
    cbn [Nat.of_uint_acc]; rewrite tail_ten; apply f_equal, f_equal;
    (match goal with |- (_ + ?d = _)%nat => let v := eval vm_compute in d in change d with v end); lia.
Qed.
Lemma int_of_str_nat : forall n, int_of_string (str_nat n) = Some n.
Proof.
  intros n. assert (H := digits_uint (Nat.to_uint n) 0). unfold str_nat, int_of_string.
  destruct (NilEmpty.string_of_uint (Nat.to_uint n)) eqn:E; [exfalso; apply (str_nat_nonempty n); exact E|].
  rewrite H. f_equal. exact (DecimalNat.Unsigned.of_to n).
Qed.
Lemma before_d_digits : forall s t, all_digits s = true -> before_d (s ++ "d_" ++ t)%string = s.
Proof.
  induction s as [|a s IH]; intros t H; [reflexivity|]. cbn in H. apply andb_true_iff in H as [Ha Hs].
  change (before_d (String a (s ++ "d_" ++ t)) = String a s). 
  assert (N : a <> "d"%char) by (intros ->; discriminate Ha). rewrite <- (IH t Hs) at 2.
  destruct a as [[] [] [] [] [] [] [] []]; try reflexivity; congruence.
Qed.
Lemma dist_new_dimension : forall (F : Type) n t c (sg w : F) x, dist_new (str_nat n ++ "d_" ++ t)%string c sg w = Ok x -> dimension x = n /\ List.length (center x) = n.
Proof.
  intros F n t c sg w x H. unfold dist_new in H. rewrite before_d_digits, int_of_str_nat in H by apply str_nat_digits.
  destruct c as [y|l]; [injection H as <-; cbn; rewrite repeat_length; auto|].
  destruct (List.length l =? n) eqn:E; [injection H as <-; apply Nat.eqb_eq in E; auto|discriminate].
Qed.

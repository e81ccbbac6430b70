(** * Claim C84: reading all Preflib files of a directory *)
From Coq Require Import String Ascii.
From Coq Require Import List Arith Bool ZArith QArith Lia Permutation Sorted.
From Verif Require Import Prelude Misc MiscProofs Preferences FileIO Directory DirectoryProofs.
Import ListNotations.
Local Open Scope string_scope.
Open Scope nat_scope.
Local Open Scope list_scope.

(** ** Specification *)
(** [f] has one of the wanted extensions; no extensions given: every file is wanted *)
Definition wanted (extensions : option (list string)) (f : string) : Prop :=
  match extensions with
  | None | Some [] => True
  | Some l => exists x stem, In x l /\ f = (stem ++ x)%string
  end.
(** the files with an extension of Preflib *)
Definition preflib_name (f : string) : Prop := exists stem, In f (map (append stem) [".soi"; ".toi"; ".soc"; ".toc"; ".cat"]).
(** the order of Python's [sorted] for strings, as in SpecText.v *)
Definition in_order (l : list string) : Prop := StronglySorted (fun a b => str_leb a b = true) l.

Lemma names_spec : forall names exts, names <> [] ->
  exists l, get_file_names (Some names) exts = Returns l /\ in_order l /\ (forall f, In f l <-> In f names /\ wanted exts f) /\ (NoDup names -> NoDup l).
Proof.
  intros names exts Hne. unfold get_file_names. destruct (Nat.eqb_spec (List.length names) 0) as [E|_]; [destruct names; [congruence|discriminate]|].
  set (fs := match exts with None | Some [] => names | Some l => _ end). exists (sort_str fs). destruct (sort_str_spec fs) as [HP HS]. split; [reflexivity|]. split; [exact HS|].
  assert (HF : (forall f, In f fs <-> In f names /\ wanted exts f) /\ (NoDup names -> NoDup fs)).
  { unfold fs. destruct exts as [[|x l]|]; cbn [wanted]; [split; [tauto|auto]| |split; [tauto|auto]].
    split; [|apply NoDup_filter]. intros f. rewrite filter_In, existsb_exists. split.
    - intros [H (y & Hy & E)]. apply endswith_iff in E as (a & E). split; auto. exists y, a. auto.
    - intros [H (y & a & Hy & E)]. split; auto. exists y. split; auto. apply endswith_iff. eauto. }
  destruct HF as [H1 H2]. split.
  - intros f. rewrite <- H1. split; apply Permutation_in; [apply Permutation_sym|]; exact HP.
  - intros Hn. eapply Permutation_NoDup; [exact HP|auto].
Qed.

(** ** [get_file_names] *)
Theorem C84_file_names : forall names extensions, names <> [] ->
  exists l, get_file_names (Some names) extensions = Returns l /\ in_order l /\ (forall f, In f l <-> In f names /\ wanted extensions f) /\ (NoDup names -> NoDup l).
Proof. exact names_spec. Qed.
Print Assumptions C84_file_names.
Theorem C84_no_files : forall walk extensions, get_file_names walk extensions = FileNotFoundError <-> walk = None \/ walk = Some [].
Proof.
  intros walk exts. split.
  - intros H. destruct walk as [names|]; [|auto]. destruct names as [|f names]; [auto|]. discriminate.
  - intros [-> | ->]; reflexivity.
Qed.
Print Assumptions C84_no_files.
(** the order in which the operating system lists the files does not matter *)
Theorem C84_listing_order : forall names names' extensions, Permutation names names' -> get_file_names (Some names) extensions = get_file_names (Some names') extensions.
Proof.
  intros names names' exts HP. unfold get_file_names. rewrite <- (Permutation_length HP). destruct (List.length names =? 0); [reflexivity|]. f_equal.
  apply byte_sorted_unique; try apply sort_str_spec.
  set (g := fun l => match exts with None | Some [] => l | Some xs => filter (fun f => existsb (endswith f) xs) l end).
  assert (HG : Permutation (g names) (g names')).
  { unfold g. destruct exts as [[|x xs]|]; auto. clear -HP. set (h := fun f => existsb (endswith f) (x :: xs)). induction HP; cbn [filter].
    - constructor.
    - destruct (h x0); auto.
    - repeat match goal with |- context [if ?b then _ else _] => destruct b end; auto. apply perm_swap.
    - eapply Permutation_trans; eauto. }
  eapply Permutation_trans; [apply Permutation_sym, (proj1 (sort_str_spec (g names)))|]. eapply Permutation_trans; [exact HG|]. apply (proj1 (sort_str_spec (g names'))).
Qed.
Print Assumptions C84_listing_order.

Lemma preflib_wanted : forall f, wanted (Some PREFLIB_EXTENSIONS) f <-> preflib_name f.
Proof.
  intros f. unfold preflib_name, wanted. cbn [PREFLIB_EXTENSIONS]. split.
  - intros (x & stem & Hx & ->). exists stem. apply in_map. exact Hx.
  - intros (stem & H). apply in_map_iff in H as (x & <- & Hx). exists x, stem. auto.
Qed.

(** ** [read_preflib_files_from_dir]: a dictionary with exactly the Preflib files of the directory, each with the profile that
    [read_preflib_file] returns for it *)
Theorem C84_read_directory : forall from_ordinal names contents top_ranks setsize, names <> [] -> NoDup names ->
  (forall f, In f names -> preflib_name f -> exists p, read_preflib_file from_ordinal (contents f) top_ranks setsize false = Ok p) ->
  exists d, read_preflib_files_from_dir from_ordinal (Some names) contents top_ranks setsize = Returns d /\
    in_order (map fst d) /\ NoDup (map fst d) /\ (forall f, In f (map fst d) <-> In f names /\ preflib_name f) /\
    forall f p, In (f, p) d -> read_preflib_file from_ordinal (contents f) top_ranks setsize false = Ok p.
Proof.
  intros fo names contents top setsize Hne Hn Hr. unfold read_preflib_files_from_dir.
  destruct (names_spec names (Some PREFLIB_EXTENSIONS) Hne) as (l & -> & HS & HI & HD). specialize (HD Hn).
  destruct (read_files_ok fo contents top setsize l []) as (d & Ed & Em & Hd).
  - exact HD.
  - intros f Hf. apply HI in Hf as [H1 H2]. apply Hr; auto. apply preflib_wanted. exact H2.
  - exists d. rewrite Ed. cbn [app]. rewrite Em. split; [reflexivity|]. split; [exact HS|]. split; [exact HD|]. split; [|exact Hd].
    intros f. rewrite HI, preflib_wanted. reflexivity.
Qed.
Print Assumptions C84_read_directory.
(** one unreadable file makes the call fail, with the exception of the first such file *)
Theorem C84_unreadable_file : forall from_ordinal names contents top_ranks setsize f e, In f names -> preflib_name f ->
  let read g := read_preflib_file from_ordinal (contents g) top_ranks setsize false in
  read f = Err e -> (forall g, In g names -> preflib_name g -> str_leb g f = true -> g <> f -> exists p, read g = Ok p) ->
  read_preflib_files_from_dir from_ordinal (Some names) contents top_ranks setsize = Raises e.
Proof.
  intros fo names contents top setsize f e Hf Hp read He Hb. unfold read_preflib_files_from_dir.
  assert (Hne : names <> []) by (intros ->; destruct Hf).
  destruct (names_spec names (Some PREFLIB_EXTENSIONS) Hne) as (l & -> & HS & HI & _).
  assert (Hin : In f l) by (apply HI; split; auto; apply preflib_wanted; auto).
  (* split at the first occurrence *)
  assert (Hsp : exists a b, l = a ++ f :: b /\ ~ In f a).
  { clear -Hin. induction l as [|g l IH]; [destruct Hin|]. destruct (string_dec g f) as [->|Hg]; [exists [], l; auto|].
    destruct Hin as [E|Hin]; [congruence|]. destruct (IH Hin) as (a & b & -> & Ha). exists (g :: a), b. split; auto. intros [E|H]; auto. }
  destruct Hsp as (a & b & -> & Ha). apply read_files_err; [|exact He].
  intros g Hg. assert (Hg2 : In g (a ++ f :: b)) by (apply in_or_app; auto). apply HI in Hg2 as [H1 H2]. apply Hb; auto; [apply preflib_wanted; auto| |intros ->; auto].
  clear - HS Hg. induction a as [|h a IH]; [destruct Hg|]. inversion HS as [|? ? HS2 HF]; subst. destruct Hg as [->|Hg]; [|apply IH; auto].
  rewrite Forall_forall in HF. apply HF. apply in_or_app. right. left. reflexivity.
Qed.
Print Assumptions C84_unreadable_file.

(** a directory with two Preflib files and another one: the other one is skipped, the two are read in order *)
Definition ex_contents (f : string) : result parsed :=
  if String.eqb f "a.soc" then Ok (Categorical (mkInst [(1, "x"); (2, "y")] 2 [([[1]; [2]], 2%Z)]))
  else if String.eqb f "b.cat" then Ok (Categorical (mkInst [(1, "z")] 1 [([[1]], 1%Z)]))
  else Err RuntimeError.
Example C84_example : let names := ["b.cat"; "notes.txt"; "a.soc"] in
  names <> [] /\ NoDup names /\
  (forall f, In f names -> preflib_name f -> exists p, read_preflib_file (fun i _ => i) (ex_contents f) None None false = Ok p) /\
  match read_preflib_files_from_dir (fun i _ => i) (Some names) ex_contents None None with Returns d => map fst d = ["a.soc"; "b.cat"] | _ => False end /\
  get_file_names (Some names) (Some [".txt"]) = Returns ["notes.txt"] /\
  (* an unreadable file *)
  In "b.cat" names /\ preflib_name "b.cat" /\ read_preflib_files_from_dir (fun i _ => i) (Some names) (fun f => if String.eqb f "b.cat" then Err RuntimeError else ex_contents f) None None = Raises MalformattedFile.
Proof.
  cbv zeta. split; [discriminate|]. split; [repeat constructor; cbn; intuition discriminate|]. split.
  - intros f [<-|[<-|[<-|[]]]] Hp; [eexists; vm_compute; reflexivity| |eexists; vm_compute; reflexivity].
    exfalso. destruct Hp as (s & H). apply in_map_iff in H as (x & E & Hx).
    assert (Hl : endswith "notes.txt" x = true) by (apply endswith_iff; exists s; auto).
    cbn in Hx. repeat (destruct Hx as [<-|Hx]; [vm_compute in Hl; discriminate|]). destruct Hx.
  - split; [vm_compute; reflexivity|]. split; [vm_compute; reflexivity|]. split; [left; reflexivity|]. split; [exists "b"; cbn; tauto|]. vm_compute. reflexivity.
Qed.

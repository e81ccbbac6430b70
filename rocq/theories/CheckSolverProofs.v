(** * The Gurobi checks of properties.py decide the axioms *)
From Coq Require Import String.
From Coq Require Import List Arith Bool ZArith QArith Lia Lqa Permutation.
From Verif Require Import Prelude Misc MiscProofs Preferences Spec Common PrefProofs Checks SpecAxioms ChecksProofs Milp MilpProofs SolverProofs
  SolverMonroe RulesSolver CheckSolver.
Import ListNotations.
Local Open Scope string_scope.
Open Scope nat_scope.
Local Open Scope list_scope.

Lemma verdict_ok : forall s m, correct_on s m -> (exists B, forall x, feasible m x -> (ev x (objective m) <= B)%Q) ->
  exists b, holds_if_infeasible s m = Ok b /\ (b = true <-> forall x, ~ feasible m x).
Proof.
  intros s m Hc (B & HB). unfold correct_on, holds_if_infeasible in *. destruct (s m) as [x| |].
  - exists false. split; auto. split; [discriminate|]. intros H. exfalso. apply (H x). apply Hc.
  - exists true. split; auto. tauto.
  - destruct (Hc B) as (x & Hx & Hlt). specialize (HB x Hx). lra.
Qed.

Definition bit (x : assignment) (v : var) : Prop := (x v == 0)%Q \/ (x v == 1)%Q.
Lemma bit_decl : forall x v, in_domain x (binary v) <-> bit x v.
Proof. intros. unfold in_domain, binary, bit. cbn. tauto. Qed.
Lemma bits_decl : forall (A : Type) (f : A -> var) l x, Forall (in_domain x) (map (fun a => binary (f a)) l) <-> forall a, In a l -> bit x (f a).
Proof.
  intros. rewrite Forall_map, Forall_forall. split; intros H a Ha; specialize (H a Ha); [apply (proj1 (bit_decl _ _))|apply (proj2 (bit_decl _ _))]; auto.
Qed.

Lemma bounded_intro : forall B m, 1 <= B -> (forall x d, feasible m x -> In d (decls m) -> dtype d = Integer -> (- inject_Z (Z.of_nat B) <= x (dvar d) <= inject_Z (Z.of_nat B))%Q) ->
  bounded_integers B m.
Proof.
  intros B m HB H x v Hx Hv. unfold int_vars in Hv. apply in_map_iff in Hv as (d & <- & Hd). apply filter_In in Hd as [Hd Hi].
  destruct (dtype d) eqn:E; [|apply H; auto|unfold is_int in Hi; rewrite E in Hi; discriminate].
  destruct Hx as [Hx _]. rewrite Forall_forall in Hx. destruct (Hx d Hd) as (Hb & _). rewrite E in Hb.
  assert (1 <= inject_Z (Z.of_nat B))%Q by (change 1%Q with (inject_Z 1); rewrite <- Zle_Qle; lia). destruct Hb as [-> | ->]; split; lra.
Qed.
Lemma size_pos : forall p, 1 <= election_size p.
Proof. intros. unfold election_size. lia. Qed.

(** the sets that a solution describes *)
Definition group_of (p : profile) (x : assignment) : list nat := filter (fun i => Qle_bool 1 (x (InGroup i))) (indices p).
Definition cut_of (p : profile) (x : assignment) : list nat := filter (fun c => Qle_bool 1 (x (InCut c))) (candidates p).
Definition group_bits (p : profile) (x : assignment) : Prop := forall i, In i (indices p) -> bit x (InGroup i).
Definition cut_bits (p : profile) (x : assignment) : Prop := forall c, In c (candidates p) -> bit x (InCut c).

Lemma ev_chosen_weight : forall p x, group_bits p x -> (ev x (chosen_weight p) == gweight p (group_of p x))%Q.
Proof.
  intros p x H. unfold chosen_weight. rewrite ev_sum, map_map. rewrite (Qsum_map_ext _ _ (fun i => voter_weight p i * x (InGroup i))%Q).
  - rewrite (binary_filter (voter_weight p) (fun i => x (InGroup i))) by exact H. reflexivity.
  - intros i _. rewrite ev_scale, ev_var. reflexivity.
Qed.
Lemma ev_chosen_count : forall p x, cut_bits p x -> (ev x (chosen_count p) == Qnat (length (cut_of p x)))%Q.
Proof. intros p x H. unfold chosen_count. rewrite ev_vsum, map_map. apply (binary_count (fun c => x (InCut c))). exact H. Qed.
Lemma cut_set : forall p x, cand_set p (cut_of p x).
Proof. intros. split; [apply NoDup_filter, seq_NoDup|]. apply Forall_forall. intros c Hc. apply filter_In in Hc as [Hc _]. apply in_seq in Hc. lia. Qed.
Lemma ev_approved_chosen : forall p x i, wf p -> i < length (voters p) -> cut_bits p x -> (ev x (approved_chosen p i) == Qnat (approves_in p i (cut_of p x)))%Q.
Proof.
  intros p x i Hw Hi H. unfold approved_chosen. rewrite ev_sum, map_map.
  rewrite (Qsum_map_ext _ _ (fun c => (if mem c (ballot p i) then 1 else 0) * x (InCut c))%Q) by (intros; rewrite ev_scale, ev_var; reflexivity).
  rewrite (binary_filter (fun c => if mem c (ballot p i) then 1 else 0)%Q (fun c => x (InCut c))) by exact H. fold (cut_of p x).
  rewrite <- (Qsum_filter _ (fun _ => 1%Q) (fun c => mem c (ballot p i))), Qsum_map_const. fold (inter (cut_of p x) (ballot p i)).
  rewrite inter_comm_length; [unfold approves_in; lra|apply cut_set|apply ballot_wf; auto].
Qed.
Lemma group_of_In : forall p x i, group_bits p x -> (In i (group_of p x) <-> i < length (voters p) /\ (x (InGroup i) == 1)%Q).
Proof.
  intros p x i Hb. unfold group_of. rewrite filter_In, in_indices, Qle_bool_iff. split; intros [A B]; split; auto; [|lra].
  destruct (Hb i) as [E|E]; [apply in_indices; auto|lra|auto].
Qed.
Lemma group_of_group : forall p x, group_of p x <> [] -> is_group p (group_of p x).
Proof. intros p x H. split; auto. apply filter_indices. Qed.
Lemma cut_of_In : forall p x c, cut_bits p x -> (In c (cut_of p x) <-> c < num_cand p /\ (x (InCut c) == 1)%Q).
Proof.
  intros p x c Hb. unfold cut_of. rewrite filter_In, Qle_bool_iff. unfold candidates. rewrite in_seq. split; intros [A B]; split; try lia; [|lra].
  destruct (Hb c) as [E|E]; [apply in_seq; lia|lra|auto].
Qed.
Lemma sum_group : forall p x, group_bits p x -> (ev x (vsum (map InGroup (indices p))) == Qnat (length (group_of p x)))%Q.
Proof. intros p x H. rewrite ev_vsum, map_map. apply (binary_count (fun c => x (InGroup c))). exact H. Qed.

(** the solution that describes given sets *)
Definition solution (S T U : list nat) (l : nat) : assignment := fun v =>
  match v with
  | InGroup i => one_if (mem i S)
  | InCut c => one_if (mem c T)
  | Ell => Qnat l
  | Other 1 c 0 => one_if (mem c U)
  | _ => 0%Q
  end.
Lemma one_if_bit : forall b, (one_if b == 0)%Q \/ (one_if b == 1)%Q.
Proof. destruct b; [right|left]; reflexivity. Qed.
Lemma one_if_le : forall b, Qle_bool 1 (one_if b) = b.
Proof. destruct b; reflexivity. Qed.
Lemma solution_group : forall p S T U l, is_group p S -> Permutation (group_of p (solution S T U l)) S.
Proof.
  intros p S T U l (_ & Hn & Hb). apply NoDup_Permutation; auto; [apply NoDup_filter, seq_NoDup|]. intros i. unfold group_of. rewrite filter_In. cbn [solution].
  rewrite one_if_le, mem_In, in_indices. rewrite Forall_forall in Hb. split; [tauto|]. auto.
Qed.
Lemma solution_cut : forall p S T U l, cand_set p T -> Permutation (cut_of p (solution S T U l)) T.
Proof.
  intros p S T U l (Hn & Hb). apply NoDup_Permutation; auto; [apply NoDup_filter, seq_NoDup|]. intros i. unfold cut_of, candidates. rewrite filter_In. cbn [solution].
  rewrite one_if_le, mem_In, in_seq. rewrite Forall_forall in Hb. split; [tauto|]. intros H. split; auto. specialize (Hb i H). lia.
Qed.
Lemma gweight_perm : forall p S S', Permutation S S' -> (gweight p S == gweight p S')%Q.
Proof. intros. unfold gweight. apply Qsum_perm, Permutation_map. auto. Qed.
Lemma approves_perm : forall p i T T', Permutation T T' -> approves_in p i T = approves_in p i T'.
Proof. intros p i T T' H. apply inter_length_ext. intros c _. split; intros K; [apply (Permutation_in c H K)|apply (Permutation_in c (Permutation_sym H) K)]. Qed.
Lemma solution_bits : forall p S T U l, group_bits p (solution S T U l) /\ cut_bits p (solution S T U l).
Proof. intros. split; intros i _; apply one_if_bit. Qed.

Lemma quota_pos_group : forall p q x l, (0 < q)%Q -> 1 <= l -> (Qnat l * q <= gweight p (group_of p x))%Q -> is_group p (group_of p x).
Proof.
  intros p q x l Hq Hl H. apply group_of_group. intros E. rewrite E in H. unfold gweight in H. cbn in H.
  assert (1 <= Qnat l)%Q by (change 1%Q with (Qnat 1); apply Qnat_le'; auto).
  assert (0 < Qnat l * q)%Q by (apply Qmult_lt_0_compat; lra). lra.
Qed.

(** ** EJR and PJR *)
Lemma ell_nat : forall x, in_domain x (mkDecl Ell Integer (Some 0%Q) None) -> (1 <= x Ell)%Q -> exists l, 1 <= l /\ (x Ell == Qnat l)%Q.
Proof.
  intros x ((z & E) & _) H. cbn in E. rewrite E in H. change 1%Q with (inject_Z 1) in H. rewrite <- Zle_Qle in H. exists (Z.to_nat z). split; [lia|].
  rewrite E. unfold Qnat. rewrite Z2Nat.id by lia. reflexivity.
Qed.

Definition ell_facts (p : profile) (q : Q) (x : assignment) (l : nat) : Prop :=
  group_bits p x /\ cut_bits p x /\ 1 <= l /\ (x Ell == Qnat l)%Q /\ cohesive p q (group_of p x) l.

Lemma ell_sound : forall p q ub x, wf p -> (0 < q)%Q ->
  Forall (in_domain x) (ell_decls p) -> Forall (holds x) (ell_cons p q ub) -> exists l, ell_facts p q x l /\ l <= num_cand p.
Proof.
  intros p q ub x Hw Hq HD HC. unfold ell_decls in HD. inversion HD as [|d ds HE HD' Ed]; subst. apply Forall_app in HD' as [HG HT].
  rewrite bits_decl in HG, HT. unfold ell_cons in HC. apply Forall_app in HC as [HC HX].
  inversion HC as [|c1 cs H1 HC1 Ec]; subst. inversion HC1 as [|c2 cs H2 HC2 Ec]; subst. inversion HC2 as [|c3 cs H3 HC3 Ec]; subst. inversion HC3 as [|c4 cs H4 _ Ec]; subst.
  cbn [holds] in H1, H2, H3, H4. rewrite ev_var, ev_const in H1. rewrite ev_chosen_weight, ev_scale, ev_var in H3 by exact HG. rewrite ev_chosen_count, ev_var in H4 by exact HT.
  destruct (ell_nat x HE H1) as (l & Hl & El). exists l. rewrite El in H3, H4. apply Qnat_le' in H4.
  assert (Hlen : length (cut_of p x) <= num_cand p). { unfold cut_of. eapply Nat.le_trans; [apply filter_length_le|]. unfold candidates. rewrite seq_length. lia. }
  split; [|lia]. split; [exact HG|]. split; [exact HT|]. split; [auto|]. split; [auto|]. split; [eapply quota_pos_group; eauto; lra|]. split; [auto|]. split; [unfold deserves; lra|].
  exists (firstn l (cut_of p x)). assert (Hi : forall c, In c (firstn l (cut_of p x)) -> In c (cut_of p x)).
  { intros c Hc. rewrite <- (firstn_skipn l). apply in_or_app; auto. }
  destruct (cut_set p x) as [Hn Hr]. split; [split; [apply NoDup_firstn; auto|]|split].
  - apply Forall_forall. intros c Hc. rewrite Forall_forall in Hr. auto.
  - rewrite firstn_length. lia.
  - intros i c Hi' Hc. apply Hi in Hc. apply (group_of_In p x i HG) in Hi' as [Hi1 Hi2]. apply (cut_of_In p x c HT) in Hc as [Hc1 Hc2].
    destruct (mem c (ballot p i)) eqn:M; [apply mem_In; auto|]. exfalso. rewrite Forall_forall in HX.
    specialize (HX (CLe (lvar (InCut c)) (lsub (lconst 1) (lvar (InGroup i))))). cbn [holds] in HX. rewrite ev_var, ev_sub, ev_const, ev_var in HX.
    assert (x (InCut c) <= 1 - x (InGroup i))%Q; [|lra]. apply HX. apply in_flat_map. exists i. split; [apply in_indices; auto|]. apply in_flat_map. exists c. split; [apply in_seq; lia|].
    unfold ballot in M. unfold voter_at. rewrite M. left; auto.
Qed.

Lemma ell_complete : forall p q ub S T U l, wf p -> (0 < q)%Q -> (forall l : nat, (Qnat l * q <= wsum (voters p))%Q <-> (Z.of_nat l <= ub)%Z) ->
  is_group p S -> 1 <= l -> deserves p q S l -> cand_set p T -> length T = l -> all_approve p S T ->
  Forall (in_domain (solution S T U l)) (ell_decls p) /\ Forall (holds (solution S T U l)) (ell_cons p q ub).
Proof.
  intros p q ub S T U l Hw Hq Hub HS Hl Hd HT Hlen Ha. set (x := solution S T U l). destruct (solution_bits p S T U l) as [HG HC]. fold x in HG, HC. split.
  - unfold ell_decls. constructor.
    + split; [exists (Z.of_nat l); reflexivity|]. split; [|exact I]. cbn. apply Qnat_le' with (a := 0). lia.
    + apply Forall_app. split; apply bits_decl; auto.
  - unfold ell_cons. apply Forall_app. split.
    + repeat constructor; cbn [holds].
      * rewrite ev_var, ev_const. change 1%Q with (Qnat 1). cbn. apply Qnat_le'. auto.
      * rewrite ev_var, ev_const. cbn. unfold Qnat. rewrite <- Zle_Qle. apply Hub. eapply Qle_trans; [exact Hd|]. apply group_le_total; auto.
      * rewrite ev_chosen_weight, ev_scale, ev_var by exact HG. unfold x. rewrite (gweight_perm p _ _ (solution_group p S T U l HS)). cbn [solution]. unfold deserves in Hd. lra.
      * rewrite ev_chosen_count, ev_var by exact HC. unfold x. rewrite (Permutation_length (solution_cut p S T U l HT)). cbn [solution]. apply Qnat_le'. lia.
    + apply Forall_forall. intros c Hc. apply in_flat_map in Hc as (i & Hi & Hc). apply in_flat_map in Hc as (d & Hd' & Hc).
      destruct (mem d (approved (voter_at p i))) eqn:M; [destruct Hc|]. destruct Hc as [<-|[]]. cbn [holds]. rewrite ev_var, ev_sub, ev_const, ev_var. unfold x. cbn [solution].
      destruct (mem i S) eqn:E1, (mem d T) eqn:E2; cbn [one_if]; try lra. exfalso. apply mem_In in E1. apply mem_In in E2.
      specialize (Ha i d E1 E2). apply mem_In in Ha. unfold ballot in Ha. unfold voter_at in M. congruence.
Qed.

Lemma ell_bounded : forall p q ub ds cs W', wf p -> (0 < q)%Q -> (forall d, In d ds -> dtype d = Binary) ->
  bounded_integers (election_size p) (mkMilp (ell_decls p ++ ds) (ell_cons p q ub ++ cs) W').
Proof.
  intros p q ub ds cs o Hw Hq Hds. apply bounded_intro; [apply size_pos|]. intros x d [HD HC] Hd Et. cbn [decls cons] in *.
  apply Forall_app in HD as [HD _]. apply Forall_app in HC as [HC _]. destruct (ell_sound p q ub x Hw Hq HD HC) as (l & (_ & _ & _ & El & _) & Hl).
  assert (Ed : dvar d = Ell).
  { apply in_app_or in Hd as [Hd|Hd]; [|rewrite Hds in Et by auto; discriminate]. unfold ell_decls in Hd. destruct Hd as [<-|Hd]; auto.
    apply in_app_or in Hd as [Hd|Hd]; apply in_map_iff in Hd as (i & <- & _); discriminate. }
  rewrite Ed, El. unfold Qnat, election_size. rewrite <- inject_Z_opp, <- !Zle_Qle. lia.
Qed.

Lemma EJR_feasible : forall p W q ub, wf p -> (0 < q)%Q -> (forall l : nat, (Qnat l * q <= wsum (voters p))%Q <-> (Z.of_nat l <= ub)%Z) ->
  ((forall x, ~ feasible (EJR_program p W q ub) x) <-> EJR p q W).
Proof.
  intros p W q ub Hw Hq Hub. split.
  - intros H S l (HS & Hl & Hd & T & HT & HlT & Ha).
    destruct (existsb (fun i => l <=? approves_in p i W) S) eqn:E.
    { apply existsb_exists in E as (i & Hi & E). exists i. split; auto. apply Nat.leb_le. auto. }
    exfalso. apply (H (solution S T [] l)). destruct (ell_complete p q ub S T [] l Hw Hq Hub HS Hl Hd HT HlT Ha) as [A B]. split; cbn [decls cons EJR_program]; [auto|].
    apply Forall_app. split; auto. apply Forall_map, Forall_forall. intros i Hi. cbn [holds]. rewrite ev_const, ev_var. cbn [solution]. intros E1. apply Qnat_le'.
    destruct (mem i S) eqn:M; [|cbn in E1; lra]. apply mem_In in M. assert (E' : (l <=? approves_in p i W) = false).
    { destruct (l <=? approves_in p i W) eqn:F; auto. assert (existsb (fun i => l <=? approves_in p i W) S = true) by (apply existsb_exists; eauto). congruence. }
    apply Nat.leb_gt in E'. unfold approves_in, ballot in E'. unfold utility, voter_at. lia.
  - intros H x [HD HC]. cbn [decls cons EJR_program] in HD, HC. apply Forall_app in HC as [HC HI]. destruct (ell_sound p q ub x Hw Hq HD HC) as (l & (HG & HT & Hl & El & Hcoh) & _).
    destruct (H _ _ Hcoh) as (i & Hi & Hle). apply (group_of_In p x i HG) in Hi as [Hi1 Hi2]. rewrite Forall_map, Forall_forall in HI.
    specialize (HI i (proj2 (in_indices p i) Hi1) Hi2). cbn [holds] in HI. rewrite ev_const, ev_var, El in HI. apply Qnat_le' in HI.
    unfold approves_in, ballot in Hle. unfold utility, voter_at in HI. lia.
Qed.
Lemma guard_map : forall (A : Type) (f : A -> con) l c v, (forall a, In a l -> guards (f a) = []) -> In c (map f l) -> In v (guards c) -> False.
Proof. intros A f l c v H Hc Hv. apply in_map_iff in Hc as (a & <- & Ha). rewrite (H a Ha) in Hv. destruct Hv. Qed.
Lemma ell_cons_guards : forall p q ub c, In c (ell_cons p q ub) -> guards c = [].
Proof.
  intros p q ub c Hc. apply in_app_or in Hc as [Hc|Hc].
  - repeat (destruct Hc as [<-|Hc]; [reflexivity|]). destruct Hc.
  - apply in_flat_map in Hc as (i & _ & Hc). apply in_flat_map in Hc as (d & _ & Hc). destruct (mem _ _); [destruct Hc|]. destruct Hc as [<-|[]]. reflexivity.
Qed.
Lemma int_var_in : forall m d, In d (decls m) -> is_int d = true -> In (dvar d) (int_vars m).
Proof. intros m d H E. apply in_map, filter_In. auto. Qed.

Lemma EJR_correct : forall s p W q ub, wf p -> (0 < q)%Q -> exact_solver p s -> correct_on s (EJR_program p W q ub).
Proof.
  intros s p W q ub Hw Hq Hs. apply Hs.
  - intros c v Hc Hv. cbn [cons EJR_program] in Hc. apply in_app_or in Hc as [Hc|Hc]; [rewrite (ell_cons_guards _ _ _ _ Hc) in Hv; destruct Hv|].
      apply in_map_iff in Hc as (i & <- & Hi). cbn in Hv. destruct Hv as [<-|[]]. apply (int_var_in (EJR_program p W q ub) (binary (InGroup i))); auto.
      right. apply in_or_app. left. apply in_map_iff. eauto.
  - assert (E : EJR_program p W q ub = mkMilp (ell_decls p ++ []) (ell_cons p q ub ++ map (fun i => COnlyIf (InGroup i) (CLe (lconst (Qnat (utility (voter_at p i) W + 1))) (lvar Ell))) (indices p)) (lconst 0)).
      { unfold EJR_program. rewrite app_nil_r. reflexivity. } rewrite E. apply ell_bounded; auto. intros d [].
Qed.
Theorem EJR_gurobi_exact : forall s p W q, wf p -> (0 < q)%Q -> exact_solver p s ->
  exists b, EJR_gurobi s p W q = Ok b /\ (b = true <-> EJR p q W).
Proof.
  intros s p W q Hw Hq Hs. unfold EJR_gurobi. destruct (upper_bound_spec p q Hq) as (ub & -> & _ & Hub).
  { rewrite total_weight_wsum. apply total_nonneg; auto. }
  change (exists b, holds_if_infeasible s (EJR_program p W q ub) = Ok b /\ (b = true <-> EJR p q W)). destruct (verdict_ok s (EJR_program p W q ub)) as (b & -> & Hb).
  - apply EJR_correct; auto.
  - exists 0%Q. intros x _. cbn [objective EJR_program]. rewrite ev_const. lra.
  - exists b. split; auto. rewrite Hb. apply EJR_feasible; auto.
Qed.

Lemma covered_count : forall p S W, length (covered p S W) = length (filter (fun c => mem c (flat_map (ballot p) S)) W).
Proof.
  intros. unfold covered. f_equal. apply filter_ext. intros c. apply eq_true_iff_eq. rewrite existsb_exists, mem_In, in_flat_map. split; intros (i & Hi & H); exists i; split; auto; apply mem_In; auto.
Qed.
Lemma PJR_feasible : forall p W q ub, wf p -> cand_set p W -> (0 < q)%Q -> (forall l : nat, (Qnat l * q <= wsum (voters p))%Q <-> (Z.of_nat l <= ub)%Z) ->
  ((forall x, ~ feasible (PJR_program p W q ub) x) <-> PJR p q W).
Proof.
  intros p W q ub Hw [HWn HWr] Hq Hub. rewrite Forall_forall in HWr. split.
  - intros H S l (HS & Hl & Hd & T & HT & HlT & Ha).
    destruct (Nat.le_gt_cases l (length (covered p S W))) as [|Hlt]; auto. exfalso. set (U := flat_map (ballot p) S).
    apply (H (solution S T U l)). destruct (ell_complete p q ub S T U l Hw Hq Hub HS Hl Hd HT HlT Ha) as [A B]. split; cbn [decls cons PJR_program].
    + apply Forall_app. split; auto. apply bits_decl. intros c _. apply one_if_bit.
    + apply Forall_app. split; auto. apply Forall_app. split; [|constructor; [|constructor]].
      * apply Forall_forall. intros c Hc. apply in_flat_map in Hc as (i & Hi & Hc). apply in_map_iff in Hc as (d & <- & Hd'). cbn [holds]. rewrite !ev_var. unfold in_union. cbn [solution].
        destruct (mem i S) eqn:M; [|destruct (mem d U); cbn; lra]. replace (mem d U) with true; [cbn; lra|]. symmetry. apply mem_In. unfold U. apply in_flat_map. exists i. apply mem_In in M. auto.
      * cbn [holds]. rewrite ev_add, ev_const, ev_vsum, ev_var, map_map. cbn [solution in_union]. rewrite (binary_count (fun c => one_if (mem c U))) by (intros; apply one_if_bit).
        rewrite (filter_ext _ (fun c => mem c U)) by (intros; apply one_if_le). rewrite covered_count in Hlt. fold U in Hlt. rewrite <- Qnat_S'. apply Qnat_le'. lia.
  - intros H x [HD HC]. cbn [decls cons PJR_program] in HD, HC. apply Forall_app in HD as [HD HU]. apply Forall_app in HC as [HC HI]. apply Forall_app in HI as [HI HJ].
    destruct (ell_sound p q ub x Hw Hq HD HC) as (l & (HG & HT & Hl & El & Hcoh) & _). specialize (H _ _ Hcoh). rewrite bits_decl in HU.
    inversion HJ as [|c cs HJ' _ E]; subst. cbn [holds] in HJ'. rewrite ev_add, ev_const, ev_vsum, ev_var, map_map, El in HJ'.
    rewrite (binary_count (fun c => x (in_union c))) in HJ' by (intros c Hc; apply HU; apply in_seq; specialize (HWr c Hc); lia). rewrite <- Qnat_S' in HJ'. apply Qnat_le' in HJ'.
    assert (length (covered p (group_of p x) W) <= length (filter (fun y => Qle_bool 1 (x (in_union y))) W)); [|lia].
    apply NoDup_incl_length; [apply NoDup_filter; auto|]. intros c Hc. apply filter_In in Hc as [Hc Hc']. apply filter_In. split; auto. apply existsb_exists in Hc' as (i & Hi & M).
    apply (group_of_In p x i HG) in Hi as [Hi1 Hi2]. apply mem_In in M. rewrite Forall_forall in HI. specialize (HI (CGe (lvar (in_union c)) (lvar (InGroup i)))). cbn [holds] in HI. rewrite !ev_var in HI.
    apply Qle_bool_iff. rewrite <- Hi2. apply HI. apply in_flat_map. exists i. split; [apply in_indices; auto|]. apply in_map_iff. exists c. auto.
Qed.
Lemma PJR_correct : forall s p W q ub, wf p -> (0 < q)%Q -> exact_solver p s -> correct_on s (PJR_program p W q ub).
Proof.
  intros s p W q ub Hw Hq Hs. apply Hs.
  - intros c v Hc Hv. cbn [cons PJR_program] in Hc. apply in_app_or in Hc as [Hc|Hc]; [rewrite (ell_cons_guards _ _ _ _ Hc) in Hv; destruct Hv|].
      apply in_app_or in Hc as [Hc|[<-|[]]]; [|destruct Hv]. apply in_flat_map in Hc as (i & _ & Hc). apply in_map_iff in Hc as (d & <- & _). destruct Hv.
  - apply ell_bounded; auto. intros d Hd. apply in_map_iff in Hd as (c & <- & _). reflexivity.
Qed.
Theorem PJR_gurobi_exact : forall s p W q, wf p -> cand_set p W -> (0 < q)%Q -> exact_solver p s ->
  exists b, PJR_gurobi s p W q = Ok b /\ (b = true <-> PJR p q W).
Proof.
  intros s p W q Hw HW Hq Hs. unfold PJR_gurobi. destruct (upper_bound_spec p q Hq) as (ub & -> & _ & Hub).
  { rewrite total_weight_wsum. apply total_nonneg; auto. }
  change (exists b, holds_if_infeasible s (PJR_program p W q ub) = Ok b /\ (b = true <-> PJR p q W)). destruct (verdict_ok s (PJR_program p W q ub)) as (b & -> & Hb).
  - apply PJR_correct; auto.
  - exists 0%Q. intros x _. cbn [objective PJR_program]. rewrite ev_const. lra.
  - exists b. split; auto. rewrite Hb. apply PJR_feasible; auto.
Qed.

(** ** FJR *)
Lemma FJR_facts : forall p W q ub x, wf p -> (0 < q)%Q -> feasible (FJR_program p W q ub) x ->
  exists beta, group_bits p x /\ cut_bits p x /\ 1 <= beta /\ (x Ell == Qnat beta)%Q /\ beta <= length (cut_of p x) /\
    is_group p (group_of p x) /\ deserves p q (group_of p x) (length (cut_of p x)) /\
    (forall i, In i (group_of p x) -> approves_in p i W < beta <= approves_in p i (cut_of p x)).
Proof.
  intros p W q ub x Hw Hq [HD HC]. cbn [decls cons FJR_program] in HD, HC. apply Forall_app in HD as [HG HD]. apply Forall_app in HD as [HT HE].
  rewrite bits_decl in HG, HT. inversion HE as [|d ds HE' _ Ed]; subst. destruct HE' as ((z & Ez) & Hlo & Hhi). cbn in Ez, Hlo, Hhi.
  apply Forall_app in HC as [HC HX]. inversion HC as [|c1 cs H1 HC1 Ec]; subst. inversion HC1 as [|c2 cs H2 HC2 Ec]; subst. inversion HC2 as [|c3 cs H3 _ Ec]; subst. cbn [holds] in H1, H2, H3.
  rewrite ev_chosen_count, ev_var in H1 by exact HT. rewrite ev_scale, ev_chosen_count, ev_chosen_weight in H2 by first [exact HT|exact HG]. rewrite sum_group, ev_const in H3 by exact HG.
  assert (Hz : (1 <= z)%Z) by (rewrite Ez in Hlo; change 1%Q with (inject_Z 1) in Hlo; rewrite <- Zle_Qle in Hlo; auto).
  set (beta := Z.to_nat z). assert (Eb : (x Ell == Qnat beta)%Q) by (rewrite Ez; unfold Qnat, beta; rewrite Z2Nat.id by lia; reflexivity).
  exists beta. rewrite Eb in H1. apply Qnat_le' in H1. split; [exact HG|]. split; [exact HT|]. split; [unfold beta; lia|]. split; [auto|]. split; [auto|].
  split; [apply group_of_group; intros E; rewrite E in H3; apply (Qnat_le' 1 0) in H3; lia|]. split; [unfold deserves; lra|].
  intros i Hi. apply (group_of_In p x i HG) in Hi as [Hi1 Hi2]. rewrite Forall_forall in HX.
  assert (A := HX (CLe (lscale (Qnat (utility (voter_at p i) W)) (lvar (InGroup i))) (lsub (lvar Ell) (lconst 1)))).
  assert (B := HX (CGe (approved_chosen p i) (lsub (lvar Ell) (lscale (inject_Z ub) (lsub (lconst 1) (lvar (InGroup i))))))). cbn [holds] in A, B.
  rewrite ev_scale, ev_sub, ev_const, !ev_var, Hi2, Eb in A. rewrite ev_sub, ev_scale, ev_sub, ev_const, !ev_var, ev_approved_chosen, Hi2, Eb in B by first [exact HT|auto].
  assert (A' : (Qnat (approves_in p i W) * 1 <= Qnat beta - 1)%Q).
  { apply A. apply in_flat_map. exists i. split; [apply in_indices; auto|left; auto]. }
  assert (B' : (Qnat beta - inject_Z ub * (1 - 1) <= Qnat (approves_in p i (cut_of p x)))%Q).
  { apply B. apply in_flat_map. exists i. split; [apply in_indices; auto|right; left; auto]. }
  split.
  - apply Qnat_le'. rewrite Qnat_S'. lra.
  - apply Qnat_le'. setoid_replace (Qnat beta - inject_Z ub * (1 - 1))%Q with (Qnat beta) in B' by ring. auto.
Qed.
Lemma FJR_feasible : forall p W q ub, wf p -> (0 < q)%Q -> (0 <= ub)%Z -> (forall l : nat, (Qnat l * q <= wsum (voters p))%Q <-> (Z.of_nat l <= ub)%Z) ->
  ((forall x, ~ feasible (FJR_program p W q ub) x) <-> FJR p q W).
Proof.
  intros p W q ub Hw Hq Hu Hub. split.
  - intros H S T beta HS HT Hbeta Hd HuT.
    destruct (existsb (fun i => beta <=? approves_in p i W) S) eqn:E.
    { apply existsb_exists in E as (i & Hi & E). exists i. split; auto. apply Nat.leb_le. auto. }
    exfalso. apply (H (solution S T [] beta)). set (x := solution S T [] beta). destruct (solution_bits p S T [] beta) as [HG HC]. fold x in HG, HC.
    assert (Hlt : forall i, In i S -> approves_in p i W < beta).
    { intros i Hi. destruct (Nat.lt_ge_cases (approves_in p i W) beta) as [|F]; auto. apply Nat.leb_le in F. assert (existsb (fun i => beta <=? approves_in p i W) S = true) by (apply existsb_exists; eauto). congruence. }
    assert (Hbu : (Z.of_nat (length T) <= ub)%Z). { apply Hub. eapply Qle_trans; [exact Hd|]. apply group_le_total; auto. }
    assert (HbT : beta <= length T).
    { destruct HS as (Hne & _ & HSr). destruct S as [|i S]; [congruence|]. eapply Nat.le_trans; [apply (HuT i); left; auto|].
      apply utility_le; [auto| |apply HT]. inversion HSr; auto. }
    assert (Hgw := gweight_perm p _ _ (solution_group p S T [] beta HS)). assert (Hcl := Permutation_length (solution_cut p S T [] beta HT)). fold x in Hgw, Hcl.
    split; cbn [decls cons FJR_program].
    + apply Forall_app. split; [apply bits_decl; auto|]. apply Forall_app. split; [apply bits_decl; auto|]. constructor; [|constructor]. split; [exists (Z.of_nat beta); reflexivity|].
      cbn. split; [change 1%Q with (Qnat 1); apply Qnat_le'; auto|]. unfold Qnat. rewrite <- Zle_Qle. lia.
    + apply Forall_app. split.
      * repeat constructor; cbn [holds].
        -- rewrite ev_var, ev_chosen_count, Hcl by exact HC. apply Qnat_le'. auto.
        -- rewrite ev_scale, ev_chosen_count, ev_chosen_weight, Hcl, Hgw by first [exact HC|exact HG]. unfold deserves in Hd. lra.
        -- rewrite sum_group, ev_const by exact HG. unfold x. rewrite (Permutation_length (solution_group p S T [] beta HS)). destruct HS as (Hne & _). destruct S; [congruence|]. change 1%Q with (Qnat 1). apply Qnat_le'. cbn. lia.
      * apply Forall_forall. intros c Hc. apply in_flat_map in Hc as (i & Hi & Hc). apply in_indices in Hi. destruct Hc as [<-|[<-|[]]]; cbn [holds].
        -- rewrite ev_scale, ev_sub, ev_const, !ev_var. unfold x. cbn [solution]. destruct (mem i S) eqn:M; cbn [one_if].
           ++ apply mem_In in M. specialize (Hlt i M). apply Qnat_le' in Hlt. rewrite Qnat_S' in Hlt. unfold approves_in, ballot in Hlt. unfold utility, voter_at. lra.
           ++ apply Qnat_le' in Hbeta. change (Qnat 1) with 1%Q in Hbeta. lra.
        -- rewrite ev_sub, ev_scale, ev_sub, ev_const, !ev_var, ev_approved_chosen by first [exact HC|auto]. rewrite (approves_perm p i _ _ (solution_cut p S T [] beta HT) : approves_in p i (cut_of p x) = _). unfold x. cbn [solution].
           destruct (mem i S) eqn:M; cbn [one_if].
           ++ apply mem_In in M. specialize (HuT i M). apply Qnat_le' in HuT. setoid_replace (Qnat beta - inject_Z ub * (1 - 1))%Q with (Qnat beta) by ring. auto.
           ++ assert (Qnat beta <= inject_Z ub)%Q by (unfold Qnat; rewrite <- Zle_Qle; lia). assert (0 <= Qnat (approves_in p i T))%Q by (apply Qnat_le' with (a := 0); lia). lra.
  - intros H x Hx. destruct (FJR_facts p W q ub x Hw Hq Hx) as (beta & HG & HT & Hb & _ & _ & Hgr & Hd & Hi).
    destruct (H (group_of p x) (cut_of p x) beta) as (i & Hin & Hle); auto; [apply cut_set|intros i Hin; apply Hi; auto|]. specialize (Hi i Hin). lia.
Qed.
Lemma FJR_correct : forall s p W q ub, wf p -> (0 < q)%Q -> exact_solver p s -> correct_on s (FJR_program p W q ub).
Proof.
  intros s p W q ub Hw Hq Hs. apply Hs.
  - intros c v Hc Hv. cbn [cons FJR_program] in Hc. apply in_app_or in Hc as [Hc|Hc].
    + repeat (destruct Hc as [<-|Hc]; [destruct Hv|]). destruct Hc.
    + apply in_flat_map in Hc as (i & _ & Hc). destruct Hc as [<-|[<-|[]]]; destruct Hv.
  - apply bounded_intro; [apply size_pos|]. intros x d Hx Hd Et. destruct (FJR_facts p W q ub x Hw Hq Hx) as (beta & _ & _ & _ & Eb & Hl & _).
      assert (Ed : dvar d = Ell).
      { cbn [decls FJR_program] in Hd. apply in_app_or in Hd as [Hd|Hd]; [apply in_map_iff in Hd as (i & <- & _); discriminate|]. apply in_app_or in Hd as [Hd|Hd]; [apply in_map_iff in Hd as (i & <- & _); discriminate|].
        destruct Hd as [<-|[]]. reflexivity. }
      assert (Hlen : length (cut_of p x) <= num_cand p). { unfold cut_of. eapply Nat.le_trans; [apply filter_length_le|]. unfold candidates. rewrite seq_length. lia. }
      rewrite Ed, Eb. unfold Qnat, election_size. rewrite <- inject_Z_opp, <- !Zle_Qle. lia.
Qed.
Theorem FJR_gurobi_exact : forall s p W q, wf p -> (0 < q)%Q -> exact_solver p s ->
  exists b, FJR_gurobi s p W q = Ok b /\ (b = true <-> FJR p q W).
Proof.
  intros s p W q Hw Hq Hs. unfold FJR_gurobi. destruct (upper_bound_spec p q Hq) as (ub & -> & Hu & Hub).
  { rewrite total_weight_wsum. apply total_nonneg; auto. }
  change (exists b, holds_if_infeasible s (FJR_program p W q ub) = Ok b /\ (b = true <-> FJR p q W)). destruct (verdict_ok s (FJR_program p W q ub)) as (b & -> & Hb).
  - apply FJR_correct; auto.
  - exists 0%Q. intros x _. cbn [objective FJR_program]. rewrite ev_const. lra.
  - exists b. split; auto. rewrite Hb. apply FJR_feasible; auto.
Qed.

(** ** Core *)
Lemma core_feasible : forall p W q, wf p -> (0 < q)%Q -> ((forall x, ~ feasible (core_program p W q) x) <-> in_core p q W).
Proof.
  intros p W q Hw Hq. split.
  - intros H S T HS HT Hd.
    destruct (existsb (fun i => approves_in p i T <=? approves_in p i W) S) eqn:E.
    { apply existsb_exists in E as (i & Hi & E). exists i. split; auto. apply Nat.leb_le. auto. }
    exfalso. apply (H (solution S T [] 0)). set (x := solution S T [] 0). destruct (solution_bits p S T [] 0) as [HG HC]. fold x in HG, HC.
    assert (Hlt : forall i, In i S -> approves_in p i W < approves_in p i T).
    { intros i Hi. destruct (Nat.lt_ge_cases (approves_in p i W) (approves_in p i T)) as [|F]; auto. apply Nat.leb_le in F. assert (existsb (fun i => approves_in p i T <=? approves_in p i W) S = true) by (apply existsb_exists; eauto). congruence. }
    assert (Hgw := gweight_perm p _ _ (solution_group p S T [] 0 HS)). assert (Hcl := Permutation_length (solution_cut p S T [] 0 HT)). fold x in Hgw, Hcl.
    split; cbn [decls cons core_program].
    + apply Forall_app. split; apply bits_decl; auto.
    + apply Forall_app. split.
      * repeat constructor; cbn [holds].
        -- rewrite ev_scale, ev_chosen_count, ev_chosen_weight, Hcl, Hgw by first [exact HC|exact HG]. unfold deserves in Hd. lra.
        -- rewrite sum_group, ev_const by exact HG. unfold x. rewrite (Permutation_length (solution_group p S T [] 0 HS)). destruct HS as (Hne & _). destruct S; [congruence|]. change 1%Q with (Qnat 1). apply Qnat_le'. cbn. lia.
      * apply Forall_map, Forall_forall. intros i Hi. apply in_indices in Hi. cbn [holds]. rewrite ev_const, ev_approved_chosen by first [exact HC|auto]. unfold x at 1. cbn [solution]. intros E1.
        destruct (mem i S) eqn:M; [|cbn in E1; lra]. apply mem_In in M. specialize (Hlt i M). unfold x. rewrite (approves_perm p i _ _ (solution_cut p S T [] 0 HT)). apply Qnat_le'.
        change (utility (voter_at p i) W) with (approves_in p i W). lia.
  - intros H x [HD HC]. cbn [decls cons core_program] in HD, HC. apply Forall_app in HD as [HG HT]. rewrite bits_decl in HG, HT. apply Forall_app in HC as [HC HX].
    inversion HC as [|c2 cs H2 HC2 Ec]; subst. inversion HC2 as [|c3 cs H3 _ Ec]; subst. cbn [holds] in H2, H3.
    rewrite ev_scale, ev_chosen_count, ev_chosen_weight in H2 by first [exact HT|exact HG]. rewrite sum_group, ev_const in H3 by exact HG.
    destruct (H (group_of p x) (cut_of p x)) as (i & Hi & Hle); [apply group_of_group; intros E; rewrite E in H3; apply (Qnat_le' 1 0) in H3; lia|apply cut_set|unfold deserves; lra|].
    apply (group_of_In p x i HG) in Hi as [Hi1 Hi2]. rewrite Forall_map, Forall_forall in HX. specialize (HX i (proj2 (in_indices p i) Hi1) Hi2). cbn [holds] in HX.
    rewrite ev_const, ev_approved_chosen in HX by first [exact HT|auto]. apply Qnat_le' in HX. change (utility (voter_at p i) W) with (approves_in p i W) in HX. lia.
Qed.
Lemma core_correct : forall s p W q, exact_solver p s -> correct_on s (core_program p W q).
Proof.
  intros s p W q Hs. apply Hs.
  - intros c v Hc Hv. cbn [cons core_program] in Hc. apply in_app_or in Hc as [Hc|Hc].
    + repeat (destruct Hc as [<-|Hc]; [destruct Hv|]). destruct Hc.
    + apply in_map_iff in Hc as (i & <- & Hi). cbn in Hv. destruct Hv as [<-|[]]. apply (int_var_in (core_program p W q) (binary (InGroup i))); auto.
        apply in_or_app. left. apply in_map_iff. eauto.
  - apply bounded_intro; [apply size_pos|]. intros x d Hx Hd Et. cbn [decls core_program] in Hd. apply in_app_or in Hd as [Hd|Hd]; apply in_map_iff in Hd as (i & <- & _); discriminate.
Qed.
Theorem core_gurobi_exact : forall s p W q, wf p -> (0 < q)%Q -> exact_solver p s ->
  exists b, core_gurobi s p W q = Ok b /\ (b = true <-> in_core p q W).
Proof.
  intros s p W q Hw Hq Hs. unfold core_gurobi. destruct (verdict_ok s (core_program p W q)) as (b & -> & Hb).
  - apply core_correct; auto.
  - exists 0%Q. intros x _. cbn [objective core_program]. rewrite ev_const. lra.
  - exists b. split; auto. rewrite Hb. apply core_feasible; auto.
Qed.

(** ** Pareto optimality *)
Definition dominating_solution (p : profile) (W W' : list nat) : assignment := fun v =>
  match v with
  | InCommittee c => of_committee W' c
  | Utility i x => one_if (x <=? approves_in p i W')
  | Other 0 i 0 => one_if (approves_in p i W <? approves_in p i W')
  | _ => 0%Q
  end.
Lemma Qsum_le_length : forall l, (forall q, In q l -> (q <= 1)%Q) -> (Qsum l <= Qnat (length l))%Q.
Proof.
  induction l as [|q l IH]; intros H; [apply Qle_refl|]. cbn [length]. rewrite Qnat_S'. unfold Qsum; cbn [fold_right]. fold (Qsum l).
  specialize (H q (or_introl eq_refl)) as H1. assert (Qsum l <= Qnat (length l))%Q by (apply IH; intros; apply H; right; auto). lra.
Qed.
Lemma pareto_decls : forall p W x, Forall (in_domain x) (decls (pareto_program p W)) <->
  (forall i y, In i (indices p) -> In y (seq 1 (length W)) -> bit x (Utility i y)) /\ (forall c, In c (candidates p) -> bit x (InCommittee c)) /\
  (forall i, In i (indices p) -> bit x (Other 0 i 0)).
Proof.
  intros p W x. cbn [decls pareto_program]. rewrite !Forall_app, !bits_decl, Forall_flat_map, Forall_forall. split.
  - intros (A & B & C). repeat split; auto. intros i y Hi. specialize (A i Hi). rewrite (bits_decl nat (Utility i)) in A. auto.
  - intros (A & B & C). repeat split; auto. intros i Hi. rewrite (bits_decl nat (Utility i)). auto.
Qed.
Lemma index_voter : forall p v, In v (voters p) <-> exists i, In i (indices p) /\ voter_at p i = v.
Proof.
  intros p v. split.
  - intros H. apply In_nth with (d := mkVoter [] 1 true) in H as (i & Hi & E). exists i. split; auto. apply in_indices. auto.
  - intros (i & Hi & <-). apply nth_In. apply in_indices. auto.
Qed.
Lemma pareto_facts : forall p W x, wf p -> feasible (pareto_program p W) x ->
  is_committee p (length W) (members p x) /\
  (forall i, In i (indices p) -> approves_in p i W <= approves_in p i (members p x)) /\
  (exists i, In i (indices p) /\ approves_in p i W < approves_in p i (members p x)).
Proof.
  intros p W x Hw [HD HC]. apply pareto_decls in HD as (HU & HB & HM). cbn [cons pareto_program] in HC.
  apply Forall_app in HC as [H1 HC]. apply Forall_app in HC as [H2 HC]. apply Forall_app in HC as [H3 H4].
  assert (Hb : binary_committee p x) by (intros c Hc; apply HB, in_seq; lia).
  assert (HW : is_committee p (length W) (members p x)) by (apply size_of_con; auto; inversion H4; auto).
  split; auto. rewrite Forall_map, Forall_forall in H1, H3.
  assert (Hle : forall i, In i (indices p) -> (Qnat (approves_in p i W) + x (Other 0 i 0) <= Qnat (approves_in p i (members p x)))%Q).
  { intros i Hi. specialize (H1 i Hi). specialize (H3 i Hi). cbn [holds] in H1, H3. rewrite H1, ev_add, ev_const, ev_var in H3.
    rewrite (sum_approved p x (voter_at p i) Hw Hb) in H3 by (apply index_voter; eauto). exact H3. }
  split.
  - intros i Hi. specialize (Hle i Hi). apply Qnat_le'. destruct (HM i Hi) as [E|E]; rewrite E in Hle; lra.
  - inversion H2 as [|c cs H2' _ E]; subst. cbn [holds] in H2'. rewrite ev_const, ev_vsum, map_map, (binary_count (fun i => x (Other 0 i 0))) in H2' by exact HM.
    apply (Qnat_le' 1) in H2'. destruct (filter (fun y => Qle_bool 1 (x (Other 0 y 0))) (indices p)) as [|i r] eqn:E; [cbn in H2'; lia|].
    assert (Hi : In i (filter (fun y => Qle_bool 1 (x (Other 0 y 0))) (indices p))) by (rewrite E; left; auto). apply filter_In in Hi as [Hi Hx]. apply Qle_bool_iff in Hx.
    exists i. split; auto. specialize (Hle i Hi). apply Qnat_le'. rewrite Qnat_S'. lra.
Qed.
Lemma pareto_feasible : forall p W, wf p -> NoDup W -> ((forall x, ~ feasible (pareto_program p W) x) <-> pareto_optimal p W).
Proof.
  intros p W Hw HWn. split.
  - intros H W' HW' [Hall (v & Hv & Hlt)]. set (x := dominating_solution p W W'). apply (H x).
    assert (Em : members p x = W') by (eapply of_committee_members; eauto).
    assert (Hb : binary_committee p x) by (eapply of_committee_binary; intros; reflexivity).
    assert (Hsum : forall i, In i (indices p) -> (ev x (vsum (map (Utility i) (seq 1 (length W)))) == Qnat (approves_in p i W'))%Q).
    { intros i Hi. rewrite ev_vsum, map_map, (binary_count (fun y => x (Utility i y))) by (intros; apply one_if_bit).
      rewrite (filter_ext _ (fun y => y <? 1 + approves_in p i W')) by (intros y; unfold x; cbn [dominating_solution]; rewrite one_if_le; reflexivity).
      rewrite filter_le_seq, seq_length; [reflexivity|]. destruct HW' as (HA & HL & _). rewrite <- HL. apply utility_le; [auto|apply in_indices; auto|apply ascending_NoDup; auto]. }
    split.
    + apply pareto_decls. split; [intros; apply one_if_bit|]. split; [intros c Hc; apply Hb; apply in_seq in Hc; lia|]. intros; apply one_if_bit.
    + cbn [cons pareto_program]. apply Forall_app. split; [|apply Forall_app; split; [|apply Forall_app; split]].
      * apply Forall_map, Forall_forall. intros i Hi. cbn [holds]. rewrite (Hsum i Hi), (sum_approved p x (voter_at p i) Hw Hb), Em by (apply index_voter; eauto). reflexivity.
      * constructor; [|constructor]. cbn [holds]. rewrite ev_const, ev_vsum, map_map, (binary_count (fun i => x (Other 0 i 0))) by (intros; apply one_if_bit).
        apply (Qnat_le' 1). apply index_voter in Hv as (i & Hi & <-). assert (Hin : In i (filter (fun y => Qle_bool 1 (x (Other 0 y 0))) (indices p))).
        { apply filter_In. split; auto. unfold x. cbn [dominating_solution]. rewrite one_if_le. apply Nat.ltb_lt. exact Hlt. }
        destruct (filter (fun y => Qle_bool 1 (x (Other 0 y 0))) (indices p)); [destruct Hin|cbn; lia].
      * apply Forall_map, Forall_forall. intros i Hi. cbn [holds]. rewrite (Hsum i Hi), ev_add, ev_const, ev_var. unfold x. cbn [dominating_solution].
        change (utility (voter_at p i) W) with (approves_in p i W). assert (approves_in p i W <= approves_in p i W') by (apply (Hall (voter_at p i)); apply index_voter; eauto).
        destruct (Nat.ltb_spec (approves_in p i W) (approves_in p i W')) as [L|L]; cbn [one_if].
        -- rewrite <- Qnat_S'. apply Qnat_le'. auto.
        -- rewrite Qplus_0_r. apply Qnat_le'. auto.
      * constructor; [|constructor]. apply (size_con_of p (length W) x Hb). rewrite Em. auto.
  - intros H x Hx. destruct (pareto_facts p W x Hw Hx) as (HW' & Hall & i & Hi & Hlt). apply (H _ HW'). split.
    + intros v Hv. apply index_voter in Hv as (j & Hj & <-). apply Hall. auto.
    + exists (voter_at p i). split; [apply index_voter; eauto|]. exact Hlt.
Qed.
Lemma pareto_correct : forall s p W, exact_solver p s -> correct_on s (pareto_program p W).
Proof.
  intros s p W Hs. apply Hs.
  - intros c v Hc Hv. cbn [cons pareto_program] in Hc. apply in_app_or in Hc as [Hc|Hc]; [apply in_map_iff in Hc as (i & <- & _); destruct Hv|].
      apply in_app_or in Hc as [[<-|[]]|Hc]; [destruct Hv|]. apply in_app_or in Hc as [Hc|[<-|[]]]; [apply in_map_iff in Hc as (i & <- & _); destruct Hv|destruct Hv].
  - apply bounded_intro; [apply size_pos|]. intros x d Hx Hd Et. cbn [decls pareto_program] in Hd. apply in_app_or in Hd as [Hd|Hd].
      { apply in_flat_map in Hd as (i & _ & Hd). apply in_map_iff in Hd as (y & <- & _). discriminate. }
      apply in_app_or in Hd as [Hd|Hd]; apply in_map_iff in Hd as (i & <- & _); discriminate.
Qed.
Theorem pareto_gurobi_exact : forall s p W, wf p -> NoDup W -> exact_solver p s ->
  exists b, pareto_gurobi s p W = Ok b /\ (b = true <-> pareto_optimal p W).
Proof.
  intros s p W Hw HW Hs. unfold pareto_gurobi. destruct (verdict_ok s (pareto_program p W)) as (b & -> & Hb).
  - apply pareto_correct; auto.
  - eexists. intros x [HD _]. apply pareto_decls in HD as (HU & _). cbn [objective pareto_program]. rewrite ev_sum.
    eapply Qle_trans; [apply Qsum_le_length|rewrite map_length; apply Qle_refl]. intros q Hq. apply in_map_iff in Hq as (l & <- & Hl). apply in_flat_map in Hl as (i & Hi & Hl).
    apply in_map_iff in Hl as (y & <- & Hy). rewrite ev_var. destruct (HU i y Hi Hy) as [-> | ->]; lra.
  - exists b. split; auto. rewrite Hb. apply pareto_feasible; auto.
Qed.

(** ** The public functions *)
Definition uses_gurobi (algorithm : string) : Prop := algorithm = "gurobi" \/ algorithm = "fastest".
Lemma dispatch_gurobi : forall alg brute g, uses_gurobi alg -> dispatch alg brute g = g.
Proof. intros alg brute g [-> | ->]; reflexivity. Qed.
Lemma check_pareto_gurobi : forall s p W alg, wf p -> cand_set p W -> exact_solver p s -> uses_gurobi alg ->
  exists b, check_pareto_optimality (pareto_gurobi s) p W alg = Ok b /\ (b = true <-> pareto_optimal p W).
Proof.
  intros s p W alg Hw HW Hs Ha. unfold check_pareto_optimality. rewrite checked_ok by auto. cbn [rbind]. rewrite dispatch_gurobi by auto. apply pareto_gurobi_exact; auto. apply HW.
Qed.
Lemma check_quota_gurobi : forall brute g (axiom : profile -> Q -> list nat -> Prop) p W quota alg,
  (forall q, (0 < q)%Q -> exists b, g p W q = Ok b /\ (b = true <-> axiom p q W)) ->
  (forall q q', (q == q')%Q -> axiom p q W -> axiom p q' W) ->
  cand_set p W -> (quota = None -> W <> []) -> (0 < the_quota p W quota)%Q -> uses_gurobi alg ->
  exists b, check_with_quota brute g p W quota alg = Ok b /\ (b = true <-> axiom p (the_quota p W quota) W).
Proof.
  intros brute g axiom p W quota alg Hb Hq Hc Hn Hp Ha. unfold check_with_quota.
  destruct (quota_of_ok p W quota Hn) as (q & -> & E). cbn [rbind]. rewrite checked_ok by auto. cbn [rbind]. rewrite dispatch_gurobi by auto.
  destruct (Hb q) as (b & -> & H); [rewrite E; auto|]. exists b. split; auto. rewrite H.
  split; apply Hq; auto. symmetry; auto.
Qed.
Theorem check_gurobi_exact : forall s p W quota alg, wf p -> cand_set p W -> (quota = None -> W <> []) -> (0 < the_quota p W quota)%Q -> exact_solver p s -> uses_gurobi alg ->
  (exists b, check_EJR (EJR_gurobi s) p W quota alg = Ok b /\ (b = true <-> EJR p (the_quota p W quota) W)) /\
  (exists b, check_PJR (PJR_gurobi s) p W quota alg = Ok b /\ (b = true <-> PJR p (the_quota p W quota) W)) /\
  (exists b, check_FJR (FJR_gurobi s) p W quota alg = Ok b /\ (b = true <-> FJR p (the_quota p W quota) W)) /\
  (exists b, check_core (core_gurobi s) p W quota alg = Ok b /\ (b = true <-> in_core p (the_quota p W quota) W)).
Proof.
  intros s p W quota alg Hw HW Hn Hq Hs Ha. repeat split.
  - apply check_quota_gurobi; auto; [intros; apply EJR_gurobi_exact; auto|intros; eapply EJR_quota; eauto].
  - apply check_quota_gurobi; auto; [intros; apply PJR_gurobi_exact; auto|intros; eapply PJR_quota; eauto].
  - apply check_quota_gurobi; auto; [intros; apply FJR_gurobi_exact; auto|intros; eapply FJR_quota; eauto].
  - apply check_quota_gurobi; auto; [intros; apply core_gurobi_exact; auto|intros; eapply core_quota; eauto].
Qed.

Lemma same_answer : forall (r r' : result bool) (P : Prop), (exists b, r = Ok b /\ (b = true <-> P)) -> (exists b, r' = Ok b /\ (b = true <-> P)) -> r = r'.
Proof.
  intros r r' P (b & -> & H) (b' & -> & H'). f_equal. apply eq_true_iff_eq. rewrite H, H'. tauto.
Qed.
Theorem algorithms_agree : forall s p W quota alg, wf p -> cand_set p W -> (quota = None -> W <> []) -> (0 < the_quota p W quota)%Q -> exact_solver p s -> uses_gurobi alg ->
  check_pareto_optimality (pareto_gurobi s) p W alg = check_pareto_optimality (pareto_gurobi s) p W "brute-force" /\
  check_FJR (FJR_gurobi s) p W quota alg = check_FJR (FJR_gurobi s) p W quota "brute-force" /\
  check_core (core_gurobi s) p W quota alg = check_core (core_gurobi s) p W quota "brute-force" /\
  (unit_weights p -> check_EJR (EJR_gurobi s) p W quota alg = check_EJR (EJR_gurobi s) p W quota "brute-force" /\
                     check_PJR (PJR_gurobi s) p W quota alg = check_PJR (PJR_gurobi s) p W quota "brute-force").
Proof.
  intros s p W quota alg Hw HW Hn Hq Hs Ha. destruct (check_gurobi_exact s p W quota alg Hw HW Hn Hq Hs Ha) as (A & B & C & D). repeat split.
  - eapply same_answer; [apply check_pareto_gurobi; auto|apply pareto_check_exact; auto].
  - eapply same_answer; [exact C|apply FJR_check_exact; auto].
  - eapply same_answer; [exact D|apply core_check_exact; auto].
  - eapply same_answer; [exact A|apply EJR_check_exact; auto].
  - eapply same_answer; [exact B|apply PJR_check_exact; auto].
Qed.

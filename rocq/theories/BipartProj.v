(** BipartProj.v -- the projection of a bipartite network (C51). *)
From Coq Require Import List Arith Lia Bool Permutation QArith.
From Verif Require Import Base Num ListLib NatSum IoModel IoSpec IoProof GraphModel GraphSpec GraphProof BipartModel BipartSpec BipartRen BipartMem.
Import ListNotations.
Local Open Scope nat_scope.

Section Proj.
Context {A : Type} {ops : NumOps A}.
Implicit Types (g m : net A) (b : binet A).

Lemma skipn_cons {X} (l : list X) x t : forall k, skipn k l = x :: t -> nth_error l k = Some x /\ skipn (k + 1) l = t.
Proof.
  induction l as [|y l IH]; intros [|k] E; simpl in *; try discriminate.
  - injection E as -> ->. auto.
  - apply IH in E as [E1 E2]. auto.
Qed.

(** ** Common neighbours *)
Lemma existsb_mem x l : existsb (Nat.eqb x) l = mem x l.
Proof. reflexivity. Qed.
Lemma refs_targets m i n l : refs_ok m -> nth_error m i = Some n -> In l (gadj n) -> exists j, lref l = Some j.
Proof. intros R E Hl. destruct (R i n l E Hl) as (j & _ & H & _). eauto. Qed.
Lemma count_row x (ls : list (link A)) c : (forall l, In l ls -> exists j, lref l = Some j) -> NoDup (targets ls) ->
  fold_left (fun c l2 => if eq_refs (Some x) (lref l2) then c + 1 else c) ls c = c + (if mem x (targets ls) then 1 else 0).
Proof.
  revert c. induction ls as [|l ls IH]; intros c H ND; simpl; [lia|]. destruct (H l (or_introl eq_refl)) as [j E]. rewrite E.
  simpl in ND. rewrite E in ND. simpl in ND. inversion ND as [|? ? N1 N2]; subst. rewrite IH; auto; [|intros; apply H; simpl; auto].
  simpl. destruct (Nat.eqb_spec x j) as [->|]; simpl; auto. replace (mem j (targets ls)) with false; [lia|].
  symmetry. apply not_true_is_false. now rewrite mem_In.
Qed.
Lemma NCommon_spec m i j : simple m -> i < length m -> j < length m -> NCommonLinksBipart m i j = Ok (common m i j).
Proof.
  intros Sm Li Lj. destruct (nth_ex m i Li) as [n En]. destruct (nth_ex m j Lj) as [k Ek]. unfold NCommonLinksBipart.
  rewrite (get_ok _ _ _ En), (get_ok _ _ _ Ek). cbn [bind]. f_equal. unfold common. rewrite (nbrs_eq _ _ _ En), (nbrs_eq _ _ _ Ek).
  assert (ND : NoDup (targets (gadj k))) by (rewrite <- (nbrs_eq _ _ _ Ek); apply (si_once m Sm)).
  assert (H : forall (ls : list (link A)) c, (forall l, In l ls -> exists x, lref l = Some x) ->
    fold_left (fun c l1 => fold_left (fun c l2 => if eq_refs (lref l1) (lref l2) then c + 1 else c) (gadj k) c) ls c =
    c + length (filter (fun x => existsb (Nat.eqb x) (targets (gadj k))) (targets ls))).
  { induction ls as [|l ls IH]; intros c Hl; simpl; auto. destruct (Hl l (or_introl eq_refl)) as [x Ex]. rewrite Ex. rewrite count_row; auto.
    - rewrite IH by (intros; apply Hl; simpl; auto). simpl. rewrite existsb_mem. destruct (mem x _); simpl; lia.
    - intros l' Hl'. exact (refs_targets m j k l' (si_refs m Sm) Ek Hl'). }
  rewrite H; auto. intros l Hl. exact (refs_targets m i n l (si_refs m Sm) En Hl).
Qed.
Lemma common_sym m i j : simple m -> common m i j = common m j i.
Proof.
  intros Sm. unfold common. apply Permutation_length. apply NoDup_Permutation; try (apply NoDup_filter; apply (si_once m Sm)).
  intros x. rewrite !filter_In, !existsb_mem, !mem_In. tauto.
Qed.

(** ** The nodes of the projection *)
Definition bare_list (labs : list label) : net A := map (fun '(k, lab) => bare lab k) (combine (seq 0 (length labs)) labs).
Lemma bare_list_snoc labs lab : bare_list (labs ++ [lab]) = bare_list labs ++ [bare lab (length labs)].
Proof.
  unfold bare_list. rewrite app_length. simpl. rewrite Nat.add_1_r, seq_S. rewrite combine_snoc by (now rewrite seq_length). rewrite map_app. reflexivity.
Qed.
Lemma bare_list_length labs : length (bare_list labs) = length labs.
Proof. unfold bare_list. rewrite map_length, combine_length, seq_length. lia. Qed.
Lemma CreateNode_bare labs lab : length lab < 100 -> CreateNodeGraph (bare_list labs) lab = Ok (length labs, bare_list (labs ++ [lab])).
Proof.
  intros H. unfold CreateNodeGraph, store_label, max_label. rewrite (proj2 (Nat.ltb_lt _ _) H). cbn [check bind].
  rewrite bare_list_snoc, bare_list_length. unfold bare. repeat f_equal.
  destruct labs as [|x labs] using rev_ind; auto. rewrite bare_list_snoc, rev_app_distr, app_length. simpl. lia.
Qed.
Lemma bare_list_nth labs k : nth_error (bare_list labs) k = option_map (fun lab => bare lab k) (nth_error labs k).
Proof.
  destruct (nth_error labs k) as [lab|] eqn:E.
  - unfold bare_list. rewrite nth_error_map.
    assert (H : nth_error (combine (seq 0 (length labs)) labs) k = Some (k, lab)).
    { assert (Hg : forall (l : list label) s k, nth_error l k = Some lab -> nth_error (combine (seq s (length l)) l) k = Some (s + k, lab)).
      { induction l as [|x l IH]; intros s [|k'] Hk; simpl in *; try discriminate. { rewrite Nat.add_0_r. congruence. } rewrite (IH (S s) k' Hk). now rewrite Nat.add_succ_r. }
      now rewrite (Hg labs 0 k E). }
    now rewrite H.
  - apply nth_error_None. rewrite bare_list_length. now apply nth_error_None.
Qed.
Lemma bare_list_simple labs : undirected (bare_list labs).
Proof.
  assert (N : forall i, nbrs (bare_list labs) i = []). { intros i. unfold nbrs. rewrite bare_list_nth. destruct (nth_error labs i); reflexivity. }
  split; [split| |].
  - intros i n. rewrite bare_list_nth. destruct (nth_error labs i); intros [= <-]. reflexivity.
  - intros i n l. rewrite bare_list_nth. destruct (nth_error labs i); intros [= <-]. intros [].
  - intros i. rewrite N. constructor.
  - intros i n. rewrite bare_list_nth. destruct (nth_error labs i); intros [= <-]. auto.
  - intros i. rewrite N. auto.
  - intros i j. unfold weight. rewrite !bare_list_nth. destruct (nth_error labs i), (nth_error labs j); reflexivity.
Qed.
Lemma bare_list_weight labs i j : weight (bare_list labs) i j = None.
Proof. unfold weight. rewrite bare_list_nth. destruct (nth_error labs i); reflexivity. Qed.

Definition tree_for (labs : list label) : dict := rev (combine labs (seq 0 (length labs))).
Lemma tree_for_snoc labs lab : tree_for (labs ++ [lab]) = (lab, length labs) :: tree_for labs.
Proof. unfold tree_for. rewrite app_length. simpl. rewrite Nat.add_1_r, seq_S, combine_snoc by (now rewrite seq_length). now rewrite rev_app_distr. Qed.
Lemma combine_nth_In (labs : list label) : forall s k lab, nth_error labs k = Some lab -> In (lab, s + k) (combine labs (seq s (length labs))).
Proof.
  induction labs as [|x labs IH]; intros s [|k] lab E; simpl in *; try discriminate.
  - injection E as ->. rewrite Nat.add_0_r. auto.
  - right. rewrite Nat.add_succ_r. apply (IH (S s) k lab E).
Qed.
Lemma map_fst_combine {X Y} (l : list X) (l' : list Y) : length l = length l' -> map fst (combine l l') = l.
Proof. revert l'. induction l as [|x l IH]; intros [|y l'] H; simpl in *; try discriminate; auto. f_equal. apply IH. lia. Qed.
Lemma tree_for_find labs k lab : NoDup labs -> nth_error labs k = Some lab -> dict_find (tree_for labs) lab = Some k.
Proof.
  intros ND E. apply dict_find_In.
  - unfold tree_for. rewrite map_rev, map_fst_combine by (now rewrite seq_length). now apply NoDup_rev.
  - unfold tree_for. rewrite <- in_rev. apply (combine_nth_In labs 0 k lab E).
Qed.

Lemma label_nth m i n : nth_error m i = Some n -> label_of m i = glabel n.
Proof. unfold label_of. now intros ->. Qed.

Lemma copy_nodes_spec m l : labels_fit m -> (forall i, In i l -> i < length m) ->
  foldM (fun st i => do n <- get m i; copy_node st (glabel n)) ([], []) l = Ok (bare_list (map (label_of m) l), tree_for (map (label_of m) l)).
Proof.
  intros Ft. 
  assert (H : forall l done, (forall i, In i l -> i < length m) ->
    foldM (fun st i => do n <- get m i; copy_node st (glabel n)) (bare_list done, tree_for done) l = Ok (bare_list (done ++ map (label_of m) l), tree_for (done ++ map (label_of m) l))).
  { clear l. induction l as [|i l IH]; intros done Hl. { simpl. now rewrite app_nil_r. }
    cbn [foldM]. destruct (nth_ex m i) as [n En]; [apply Hl; simpl; auto|]. rewrite (get_ok _ _ _ En). cbn [bind]. unfold copy_node.
    rewrite CreateNode_bare by (apply Ft; eapply nth_error_In; eauto). cbn [bind]. rewrite <- tree_for_snoc.
    rewrite IH by (intros; apply Hl; simpl; auto). cbn [map]. rewrite (label_nth m i n En), <- app_assoc. reflexivity. }
  intros Hl. apply (H l []); auto.
Qed.

(** ** The links of the projection *)
Section Links.
Variables (b : binet A) (cw : nat -> nat -> res nat) (val : nat -> nat -> nat).
Hypothesis B : bipartite b.
Hypothesis labs : NoDup (map (label_of (bmem b)) (bset1 b)).
Hypothesis Hcw : forall i j, In i (bset1 b) -> In j (bset1 b) -> cw i j = Ok (val i j).
Let F := bare_list (map (label_of (bmem b)) (bset1 b)).
Let D := tree_for (map (label_of (bmem b)) (bset1 b)).
Definition link_weight (c : nat) : option A := if c =? 0 then None else Some (nofnat c).

(** The pairs before (p, k) are done. *)
Record done_to (p k : nat) g : Prop := {
  dt_un : undirected g;
  dt_nodes : same_nodes F g;
  dt_w : forall x y i j, x < y -> nth_error (bset1 b) x = Some i -> nth_error (bset1 b) y = Some j ->
    weight g x y = if (x <? p) || ((x =? p) && (y <? k)) then link_weight (val i j) else None }.

Lemma done_length p k g : done_to p k g -> length g = length (bset1 b).
Proof. intros [_ S _]. apply same_nodes_length in S. unfold F in S. rewrite bare_list_length, map_length in S. auto. Qed.
Lemma set1_lt i : In i (bset1 b) -> i < length (bmem b).
Proof. intros H. apply (bi_lt b i B). apply in_app_iff; auto. Qed.
Lemma find_pos x i : nth_error (bset1 b) x = Some i -> GetNodeDict (label_of (bmem b) i) D = Some x.
Proof. intros E. apply tree_for_find; auto. now rewrite nth_error_map, E. Qed.

Lemma project_link_spec p k i j g : p < k -> nth_error (bset1 b) p = Some i -> nth_error (bset1 b) k = Some j -> done_to p k g ->
  exists g', project_link b D cw i g j = Ok g' /\ done_to p (k + 1) g'.
Proof.
  intros Hpk Ei Ej Hd. pose proof Hd as [U S W]. unfold project_link. rewrite Hcw by (eapply nth_error_In; eauto). cbn [bind].
  destruct (nth_ex (bmem b) i) as [n En]; [apply set1_lt; eapply nth_error_In; eauto|].
  destruct (nth_ex (bmem b) j) as [m Em]; [apply set1_lt; eapply nth_error_In; eauto|].
  destruct (Nat.ltb_spec 0 (val i j)) as [Hv|Hv].
  - rewrite (get_ok _ _ _ En), (get_ok _ _ _ Em). cbn [bind]. rewrite <- (label_nth _ _ _ En), <- (label_nth _ _ _ Em).
    rewrite (find_pos p i Ei), (find_pos k j Ej). cbn [deref bind].
    pose proof (done_length p k g Hd) as L. pose proof (nth_lt _ _ _ Ei). pose proof (nth_lt _ _ _ Ej).
    destruct (add_both g p k false (nofnat (val i j)) 0 0 U) as (r1 & r2 & g1 & g2 & -> & E2 & U2 & S2 & W2 & _); try lia.
    cbn [bind]. rewrite E2. cbn [bind]. exists g2. split; auto. split; auto. { eapply same_nodes_trans; eauto. }
    intros x y i' j' Hxy Ex Ey. rewrite W2. specialize (W x y i' j' Hxy Ex Ey). pose proof (dt_w _ _ _ Hd p k i j Hpk Ei Ej) as W0.
    rewrite Nat.ltb_irrefl, Nat.eqb_refl, Nat.ltb_irrefl in W0. simpl in W0. rewrite W0.
    destruct (Nat.eqb_spec x p) as [->|Hx]; simpl.
    + rewrite Nat.ltb_irrefl in *. simpl in *. destruct (Nat.eqb_spec y k) as [->|Hy]; simpl.
      * rewrite (proj2 (Nat.ltb_lt k (k + 1))) by lia. rewrite Ei in Ex. rewrite Ej in Ey. injection Ex as <-. injection Ey as <-.
        unfold link_weight. destruct (Nat.eqb_spec (val i j) 0); auto; lia.
      * rewrite (proj2 (Nat.eqb_neq p k)) by lia. simpl. rewrite W. destruct (Nat.ltb_spec y k), (Nat.ltb_spec y (k + 1)); auto; lia.
    + destruct (Nat.eqb_spec x k) as [->|]; simpl.
      * rewrite (proj2 (Nat.eqb_neq y p)) by lia. rewrite W. destruct (k <? p); reflexivity.
      * rewrite W. destruct (x <? p); reflexivity.
  - exists g. split; auto. split; auto. intros x y i' j' Hxy Ex Ey. rewrite (W x y i' j' Hxy Ex Ey).
    destruct (Nat.eqb_spec x p) as [->|Hx]; simpl; auto. rewrite Nat.ltb_irrefl. simpl.
    destruct (Nat.ltb_spec y k), (Nat.ltb_spec y (k + 1)); auto; try lia. assert (y = k) by lia. subst y.
    rewrite Ei in Ex. rewrite Ej in Ey. injection Ex as <-. injection Ey as <-. unfold link_weight. rewrite (proj2 (Nat.eqb_eq _ _)) by lia. reflexivity.
Qed.

Lemma project_row p i : nth_error (bset1 b) p = Some i -> forall l k g, p < k -> skipn k (bset1 b) = l -> done_to p k g ->
  exists g', foldM (project_link b D cw i) g l = Ok g' /\ done_to p (k + length l) g'.
Proof.
  intros Ei. induction l as [|j l IH]; intros k g Hpk El Hd.
  - exists g. simpl. rewrite Nat.add_0_r. auto.
  - cbn [foldM]. destruct (skipn_cons _ _ _ _ El) as [Ej El'].
    destruct (project_link_spec p k i j g Hpk Ei Ej Hd) as (g' & -> & Hd'). cbn [bind].
    destruct (IH (k + 1) g') as (g2 & E2 & H2); auto; try lia. exists g2. split; auto. replace (k + length (j :: l)) with (k + 1 + length l) by (simpl; lia). auto.
Qed.

Lemma project_rows l : forall p g, skipn p (bset1 b) = l -> done_to p (p + 1) g -> exists g', project_links b D cw g l = Ok g' /\ done_to (p + length l) (p + length l + 1) g'.
Proof.
  induction l as [|i l IH]; intros p g El Hd.
  - exists g. simpl. rewrite Nat.add_0_r. auto.
  - cbn [project_links]. destruct (skipn_cons _ _ _ _ El) as [Ei El'].
    destruct (project_row p i Ei l (p + 1) g) as (g' & -> & Hd'); auto; try lia. cbn [bind].
    destruct (IH (p + 1) g') as (g2 & E2 & H2); auto.
    + destruct Hd' as [U S W]. split; auto. intros x y i' j' Hxy Ex Ey. rewrite (W x y i' j' Hxy Ex Ey).
      assert (y < p + 1 + length l). { rewrite <- El', skipn_length. apply nth_lt in Ey. apply nth_lt in Ei. lia. }
      rewrite (proj2 (Nat.ltb_lt y (p + 1 + length l))) by auto.
      destruct (Nat.ltb_spec x p), (Nat.eqb_spec x p), (Nat.ltb_spec x (p + 1)), (Nat.eqb_spec x (p + 1)), (Nat.ltb_spec y (p + 1 + 1)); simpl; auto; lia.
    + exists g2. split; auto. replace (p + length (i :: l)) with (p + 1 + length l) by (simpl; lia). auto.
Qed.

Lemma project_spec : labels_fit (bmem b) -> exists g, project b cw = Ok g /\ undirected g /\ map glabel g = map (label_of (bmem b)) (bset1 b) /\
  (forall x y i j, x < y -> nth_error (bset1 b) x = Some i -> nth_error (bset1 b) y = Some j -> weight g x y = link_weight (val i j)).
Proof.
  intros Ft. unfold project. rewrite copy_nodes_spec; auto; [|apply set1_lt]. cbn [bind]. fold F D.
  destruct (project_rows (bset1 b) 0 F) as (g & -> & [U S W]); auto.
  - split; [apply bare_list_simple|apply same_nodes_refl|]. intros x y i j Hxy Ex Ey. unfold F. rewrite bare_list_weight.
    destruct (Nat.eqb_spec x 0), (Nat.ltb_spec y (0 + 1)); simpl; auto; lia.
  - exists g. splits; auto.
    + transitivity (map glabel F). { symmetry. clear -S. induction S as [|n m l l' (H & _) _ IH]; simpl; auto. now rewrite H, IH. }
      unfold F. clear. generalize (map (label_of (bmem b)) (bset1 b)). intros ll. unfold bare_list. rewrite map_map.
      rewrite (map_ext _ snd) by (now intros [k x]). generalize 0. induction ll as [|x ll IH]; intros s; simpl; auto. now rewrite IH.
    + intros x y i j Hxy Ex Ey. rewrite (W x y i j Hxy Ex Ey). apply nth_lt in Ex. rewrite (proj2 (Nat.ltb_lt x (0 + length (bset1 b)))) by lia. reflexivity.
Qed.
End Links.

(** C51: the projection links two nodes of net1 exactly if they share a neighbour, with the number of shared neighbours as weight. *)
Theorem ProjectBipart_spec b : bipartite b -> labels_fit (bmem b) -> NoDup (map (label_of (bmem b)) (bset1 b)) ->
  exists g, ProjectBipart b = Ok g /\ undirected g /\ map glabel g = map (label_of (bmem b)) (bset1 b) /\
    forall x y i j, nth_error (bset1 b) x = Some i -> nth_error (bset1 b) y = Some j -> x <> y ->
      weight g x y = if common (bmem b) i j =? 0 then None else Some (nofnat (common (bmem b) i j)).
Proof.
  intros B Ft ND. pose proof (bi_simple b B) as Sm.
  assert (Hcw : forall i j, In i (bset1 b) -> In j (bset1 b) -> NCommonLinksBipart (bmem b) i j = Ok (common (bmem b) i j)).
  { intros i j Hi Hj. apply NCommon_spec; auto; apply (set1_lt b B); auto. }
  destruct (project_spec b _ _ B ND Hcw Ft) as (g & E & U & L & W). exists g. splits; auto.
  intros x y i j Ex Ey Hxy. destruct (Nat.lt_total x y) as [H|[H|H]]; [|contradiction|].
  - apply (W x y i j); auto.
  - rewrite (un_sym g U), (common_sym _ i j Sm). apply (W y x j i); auto.
Qed.
End Proj.

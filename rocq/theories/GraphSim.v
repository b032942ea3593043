(** GraphSim.v -- common neighbours, the Jaccard index and the topological overlap (C38). *)
From Coq Require Import List Arith Lia Bool Permutation QArith Qcanon.
From Verif Require Import Base Num ListLib NatSum QcSum IoModel GraphModel GraphSpec GraphProof GraphRand RolesBounds.
Import ListNotations.
Local Open Scope nat_scope.

Section Count.
Context {A : Type} {ops : NumOps A}.
Implicit Types g : net A.

(** Specification: the number of nodes linked to both. *)
Definition common g (i j : nat) : nat := count (fun k => mem k (nbrs g i) && mem k (nbrs g j)) (seq 0 (length g)).
Definition linked01 g (i j : nat) : nat := if mem j (nbrs g i) then 1 else 0.

Lemma common_sym g i j : common g i j = common g j i.
Proof. unfold common. apply count_ext. intros. apply andb_comm. Qed.
Lemma common_members g i j : wf_net g -> common g i j = count (fun k => mem k (nbrs g j)) (nbrs g i).
Proof.
  intros W. unfold common. rewrite !count_lsum. symmetry. rewrite (lsum_members _ _ (length g)).
  - apply lsum_ext. intros x _. destruct (mem x (nbrs g i)); auto.
  - apply (wf_nodup g W).
  - intros x Hx. now destruct (nbrs_lt g i x W Hx).
Qed.
Lemma common_le g i j : undirected g -> common g i j + linked01 g i j <= degree g i.
Proof.
  intros U. pose proof U as [W Lp Sy]. rewrite common_members by auto. unfold linked01, degree.
  assert (Hj : ~ In j (nbrs g j)) by auto. assert (ND : NoDup (nbrs g i)) by (apply (wf_nodup g W)).
  revert ND. induction (nbrs g i) as [|k l IH]; simpl; auto. intros ND. inversion ND as [|? ? Hk ND']; subst. specialize (IH ND'). rewrite count_cons.
  destruct (Nat.eqb_spec j k) as [->|Hjk]; simpl.
  - destruct (mem_spec k (nbrs g k)); [contradiction|]. destruct (mem_spec k l); [contradiction|]. simpl in *. lia.
  - fold (mem j l). destruct (mem k (nbrs g j)); lia.
Qed.
Lemma linked01_sym g i j : undirected g -> linked01 g i j = linked01 g j i.
Proof. intros U. unfold linked01. now rewrite (mem_nbrs_sym g j i U). Qed.

Lemma in_dec_mem (j : nat) l : (if in_dec Nat.eq_dec j l then true else false) = mem j l.
Proof. destruct (in_dec Nat.eq_dec j l) as [H|H]; destruct (mem_spec j l); auto; contradiction. Qed.

(** The fold over the links of [i] is a fold over its neighbours. *)
Lemma fold_links {S} g i n (f : S -> link A -> res S) (h : S -> nat -> res S) : wf_net g -> nth_error g i = Some n ->
  (forall s l j, In l (gadj n) -> lref l = Some j -> lnode l = j -> j < length g -> f s l = h s j) ->
  forall s, foldM f s (gadj n) = foldM h s (nbrs g i).
Proof.
  intros W E H s. rewrite (nbrs_eq g i n E).
  assert (G : forall ls s, (forall l, In l ls -> In l (gadj n)) -> foldM f s ls = foldM h s (targets ls)).
  { induction ls as [|l ls IH]; intros s0 Hl; simpl; auto.
    destruct (wf_link g W i n l E (Hl l (or_introl eq_refl))) as (j & m & E1 & E2 & E3 & E4).
    rewrite (H s0 l j); auto; [|apply Hl; simpl; auto|eapply nth_lt; eauto]. rewrite E1. simpl. destruct (h s0 j); simpl; auto. apply IH. intros; apply Hl; simpl; auto. }
  apply G; auto.
Qed.
Lemma foldM_ext {S X} (f h : S -> X -> res S) l : (forall s x, In x l -> f s x = h s x) -> forall s, foldM f s l = foldM h s l.
Proof. induction l as [|x l IH]; simpl; intros H s; auto. rewrite H by auto. destruct (h s x); simpl; auto. Qed.

Theorem CommonNeighbors_spec g i j : undirected g -> i < length g -> CommonNeighbors g i j = Ok (common g i j).
Proof.
  intros U Li. pose proof U as [W Lp Sy]. unfold CommonNeighbors. destruct (nth_ex g i Li) as [n E]. rewrite (get_ok _ _ _ E). cbn [bind].
  rewrite (fold_links g i n _ (fun c k => Ok (if mem k (nbrs g j) then c + 1 else c)) W E).
  - rewrite common_members by auto. generalize (nbrs g i).
    assert (H : forall l c, foldM (fun c k => Ok (if mem k (nbrs g j) then c + 1 else c)) c l = Ok (c + count (fun k => mem k (nbrs g j)) l)).
    { induction l as [|k l IH]; intros c; simpl; [f_equal; cbn; lia|]. rewrite IH, count_cons. f_equal. destruct (mem k (nbrs g j)); lia. }
    intros l. rewrite H. reflexivity.
  - intros s l k _ E1 _ Lk. rewrite E1. cbn [deref bind]. rewrite (IsThereLink_spec g k j Lk). cbn [bind]. rewrite in_dec_mem, (mem_nbrs_sym g j k U). reflexivity.
Qed.

Theorem JaccardIndex_count g i j : undirected g -> i < length g -> j < length g ->
  exists g', same_links g g' /\ JaccardIndex g i j = Ok (if common g i j =? 0 then n0 else
    ndiv (nofnat (common g i j)) (nofnat ((degree g i - linked01 g i j) + (degree g j - linked01 g i j) - common g i j)), g').
Proof.
  intros U Li Lj. pose proof U as [W Lp Sy]. unfold JaccardIndex.
  destruct (NodeDegree_spec g i W Li) as (g1 & -> & Hs1). cbn [bind]. change (same_links g g1) in Hs1.
  pose proof Hs1 as (W1 & S1 & N1 & _). pose proof (same_nodes_length _ _ S1) as L1.
  destruct (NodeDegree_spec g1 j W1) as (g2 & -> & Hs2); [lia|]. cbn [bind]. change (same_links g1 g2) in Hs2. rewrite (same_links_degree g g1 j Hs1).
  assert (Hs : same_links g g2) by (eapply same_links_trans; eauto). pose proof Hs as (W2 & S2 & N2 & _). pose proof (same_nodes_length _ _ S2) as L2.
  pose proof (same_links_undirected g g2 U Hs) as U2.
  destruct (nth_ex g2 i) as [n E]; [lia|]. rewrite (get_ok _ _ _ E). cbn [bind].
  rewrite (fold_links g2 i n _ (fun '(c, k1, k2) k => if k =? j then do k1 <- dec k1; do k2 <- dec k2; Ok (c, k1, k2)
     else Ok (if mem k (nbrs g j) then c + 1 else c, k1, k2)) W2 E).
  - rewrite N2.
    assert (H : forall l c k1 k2, NoDup l -> (In j l -> 0 < k1 /\ 0 < k2) -> foldM (fun '(c, k1, k2) k => if k =? j then do k1 <- dec k1; do k2 <- dec k2; Ok (c, k1, k2)
       else Ok (if mem k (nbrs g j) then c + 1 else c, k1, k2)) (c, k1, k2) l =
       Ok (c + count (fun k => mem k (nbrs g j)) l, k1 - (if mem j l then 1 else 0), k2 - (if mem j l then 1 else 0))).
    { induction l as [|k l IH]; intros c k1 k2 ND HI; cbn [foldM].
      - simpl. do 3 f_equal; cbn; lia.
      - inversion ND as [|? ? Hk ND']; subst. rewrite count_cons. cbn [mem existsb]. fold (mem j l). rewrite (Nat.eqb_sym j k). destruct (Nat.eqb_spec k j) as [->|Hkj].
        + destruct HI as [H1 H2]; [simpl; auto|]. destruct k1 as [|k1]; [lia|]. destruct k2 as [|k2]; [lia|]. simpl dec. cbn [bind].
          rewrite IH by (auto; contradiction). destruct (mem_spec j l); [contradiction|]. destruct (mem_spec j (nbrs g j)) as [Hl|]; [destruct (Lp _ Hl)|]. simpl orb. cbv iota.
          do 3 f_equal; lia.
        + cbn [bind]. rewrite IH; auto; [|simpl in HI; tauto]. simpl orb. do 3 f_equal. destruct (mem k (nbrs g j)); lia. }
    rewrite H.
    + cbn [bind]. rewrite Nat.add_0_l, <- common_members by auto. fold (linked01 g i j). exists g2. split; auto. now destruct (common g i j =? 0).
    + apply (wf_nodup g W).
    + intros Hj. split; unfold degree.
      * destruct (nbrs g i); simpl in *; [tauto|lia].
      * apply undirected_sym in Hj; auto. destruct (nbrs g j); simpl in *; [tauto|lia].
  - intros [[c k1] k2] l k _ E1 _ Lk. rewrite E1. cbn [deref bind]. destruct (k =? j); auto. rewrite (IsThereLink_spec g2 k j Lk). cbn [bind].
    rewrite in_dec_mem, N2, (mem_nbrs_sym g j k U). reflexivity.
Qed.

Theorem TopologicalOverlap_count g i j : undirected g -> i < length g -> j < length g ->
  exists g', same_links g g' /\
  TopologicalOverlap g i j = Ok (ndiv (nofnat (common g i j + linked01 g i j)) (nofnat (min (degree g i) (degree g j))), g').
Proof.
  intros U Li Lj. pose proof U as [W Lp Sy]. unfold TopologicalOverlap.
  destruct (NodeDegree_spec g i W Li) as (g1 & -> & Hs1). cbn [bind]. change (same_links g g1) in Hs1.
  pose proof Hs1 as (W1 & S1 & N1 & _). pose proof (same_nodes_length _ _ S1) as L1.
  destruct (NodeDegree_spec g1 j W1) as (g2 & -> & Hs2); [lia|]. cbn [bind]. change (same_links g1 g2) in Hs2. rewrite (same_links_degree g g1 j Hs1).
  assert (Hs : same_links g g2) by (eapply same_links_trans; eauto). pose proof Hs as (W2 & S2 & N2 & _). pose proof (same_nodes_length _ _ S2) as L2.
  assert (G : forall p node, p < length g -> node < length g -> exists n, get g2 p = Ok n /\
    foldM (fun c l => do k <- deref (lref l); if k =? node then Ok (c + 1)
      else do b <- IsThereLinkSoft g2 node (lnode l); Ok (if b then c + 1 else c)) 0 (gadj n) = Ok (common g p node + linked01 g p node)).
  { intros p node Lp' Ln. destruct (nth_ex g2 p) as [n E]; [lia|]. exists n. rewrite (get_ok _ _ _ E). split; auto.
    rewrite (fold_links g2 p n _ (fun c k => Ok (if k =? node then c + 1 else if mem k (nbrs g node) then c + 1 else c)) W2 E).
    - rewrite N2, common_members by auto. unfold linked01. pose proof (wf_nodup g W p) as ND. revert ND. generalize (nbrs g p).
      assert (H : forall l c, NoDup l -> foldM (fun c k => Ok (if k =? node then c + 1 else if mem k (nbrs g node) then c + 1 else c)) c l =
        Ok (c + (count (fun k => mem k (nbrs g node)) l + (if mem node l then 1 else 0)))).
      { induction l as [|k l IH]; intros c ND; cbn [foldM]; [f_equal; cbn; lia|]. inversion ND as [|? ? Hk ND']; subst. cbn [bind]. rewrite IH by auto. f_equal. rewrite count_cons.
        cbn [mem existsb]. fold (mem node l). rewrite (Nat.eqb_sym node k). destruct (Nat.eqb_spec k node) as [->|].
        - destruct (mem_spec node l); [contradiction|]. destruct (mem_spec node (nbrs g node)) as [Hl|]; [destruct (Lp _ Hl)|]. simpl. lia.
        - simpl orb. destruct (mem k (nbrs g node)); lia. }
      intros l ND. rewrite H by auto. reflexivity.
    - intros s l k _ E1 E2 Lk. rewrite E1, E2. cbn [deref bind]. destruct (k =? node); auto. rewrite (IsThereLinkSoft_spec g2 node k W2) by lia. cbn [bind].
      rewrite in_dec_mem, N2. reflexivity. }
  exists g2. split; auto. destruct (Nat.ltb_spec (degree g i) (degree g j)) as [H|H].
  - destruct (G i j Li Lj) as (n & -> & E). cbn [bind]. rewrite E. cbn [bind]. rewrite Nat.min_l by lia. reflexivity.
  - destruct (G j i Lj Li) as (n & -> & E). cbn [bind]. rewrite E. cbn [bind]. rewrite Nat.min_r by lia.
    now rewrite common_sym, (linked01_sym g j i U).
Qed.
(** The values do not depend on the order of the nodes, in any arithmetic. *)
Theorem similarity_symmetric g i j : undirected g -> i < length g -> j < length g ->
  (exists x g1 g2, JaccardIndex g i j = Ok (x, g1) /\ JaccardIndex g j i = Ok (x, g2) /\ same_links g g1 /\ same_links g g2) /\
  (exists x g1 g2, TopologicalOverlap g i j = Ok (x, g1) /\ TopologicalOverlap g j i = Ok (x, g2) /\ same_links g g1 /\ same_links g g2) /\
  (exists c, CommonNeighbors g i j = Ok c /\ CommonNeighbors g j i = Ok c).
Proof.
  intros U Li Lj. splits.
  - destruct (JaccardIndex_count g i j U Li Lj) as (g1 & H1 & ->). destruct (JaccardIndex_count g j i U Lj Li) as (g2 & H2 & ->).
    rewrite (common_sym g j i), (linked01_sym g j i U), (Nat.add_comm (degree g j - _)). eauto 10.
  - destruct (TopologicalOverlap_count g i j U Li Lj) as (g1 & H1 & ->). destruct (TopologicalOverlap_count g j i U Lj Li) as (g2 & H2 & ->).
    rewrite (common_sym g j i), (linked01_sym g j i U), (Nat.min_comm (degree g j)). eauto 10.
  - rewrite !CommonNeighbors_spec by auto. rewrite (common_sym g j i). eauto.
Qed.
End Count.

(** ** C38 in exact arithmetic *)
Section Exact.
Variables ex sq : Qc -> Qc.
#[local] Instance opsX : NumOps Qc := Qc_ops ex sq.
Implicit Types g : net Qc.

Lemma Qc_ratio a b : a <= b -> 0 < b -> (0 <= Qc_of_nat a / Qc_of_nat b)%Qc /\ (Qc_of_nat a / Qc_of_nat b <= 1)%Qc.
Proof.
  intros H Hb. apply Qc_of_nat_pos in Hb as Hb'. pose proof (Qc_of_nat_nonneg a) as Ha. apply Qc_of_nat_le in H. split.
  - apply Qcnot_lt_le. intros Hn. apply (Qcmult_lt_compat_r _ _ _ Hb') in Hn. rewrite Qcmult_0_l, (Qcmult_comm _ (Qc_of_nat b)), Qcmult_div_r in Hn by (now apply Qc_neq_pos).
    exact (Qclt_not_le _ _ Hn Ha).
  - now apply Qc_div_le_1.
Qed.

Theorem JaccardIndex_bounds g i j x g' : undirected g -> i < length g -> j < length g -> JaccardIndex g i j = Ok (x, g') ->
  (0 <= x)%Qc /\ (x <= 1)%Qc.
Proof.
  intros U Li Lj E. destruct (JaccardIndex_count g i j U Li Lj) as (g1 & _ & E1). rewrite E1 in E. injection E as <- _.
  destruct (Nat.eqb_spec (common g i j) 0) as [H0|H0]; [split; discriminate|].
  pose proof (common_le g i j U) as H1. pose proof (common_le g j i U) as H2. rewrite (common_sym g j i), (linked01_sym g j i U) in H2.
  apply Qc_ratio; lia.
Qed.
Theorem TopologicalOverlap_bounds g i j x g' : undirected g -> i < length g -> j < length g -> 0 < degree g i -> 0 < degree g j ->
  TopologicalOverlap g i j = Ok (x, g') -> (0 <= x)%Qc /\ (x <= 1)%Qc.
Proof.
  intros U Li Lj Di Dj E. destruct (TopologicalOverlap_count g i j U Li Lj) as (g1 & _ & E1). rewrite E1 in E. injection E as <- _.
  pose proof (common_le g i j U) as H1. pose proof (common_le g j i U) as H2. rewrite (common_sym g j i), (linked01_sym g j i U) in H2.
  apply Qc_ratio; lia.
Qed.
End Exact.

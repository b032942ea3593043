(** ModulesClusters.v -- the partition into connected components (C40). *)
From Coq Require Import List Arith ZArith Bool Lia.
From Verif Require Import Base ListLib NatSum GraphModel GraphSpec GraphProof BfsModel BfsProof GroupModel GroupSpec GroupProof GroupExact ModulesModel ModulesSpec ModulesMap ModulesCopy ModulesEqui.
Import ListNotations.
Local Open Scope nat_scope.

Section Any.
Context {A : Type} {ops : NumOps A}.
Implicit Types (g : net A) (P : gpart A) (G : grp A).

(** ** What stays *)
Lemma sn_refl g : same_net g g.
Proof. unfold same_net. induction g; constructor; auto 10. Qed.
Lemma sn_trans g1 g2 g3 : same_net g1 g2 -> same_net g2 g3 -> same_net g1 g3.
Proof. apply F2_trans. intuition congruence. Qed.
Lemma sbg_sn g g' : same_but_group g g' -> same_net g g'.
Proof. unfold same_but_group, same_net. induction 1; constructor; auto. tauto. Qed.
Lemma sbs_sn g g' : same_but_state g g' -> same_net g g'.
Proof.
  unfold same_but_state, same_net, ResetNodesState. revert g'. induction g as [|n g IH]; intros [|m g'] H; try discriminate; constructor; cbn [map] in H; injection H; auto.
Qed.
Lemma sn_length g g' : same_net g g' -> length g' = length g.
Proof. intros H. symmetry. exact (F2_len _ _ _ H). Qed.
Lemma sn_adj g g' i : same_net g g' -> option_map (@gadj A) (nth_error g' i) = option_map (@gadj A) (nth_error g i).
Proof.
  intros H. destruct (nth_error g i) as [n|] eqn:E.
  - destruct (F2_nth _ _ _ _ _ H E) as (m & -> & R). simpl. f_equal. symmetry. apply R.
  - apply nth_error_None in E. pose proof (sn_length _ _ H). rewrite (proj2 (nth_error_None g' i)); auto. lia.
Qed.
Lemma sn_nbrs g g' i : same_net g g' -> nbrs g' i = nbrs g i.
Proof. intros H. pose proof (sn_adj g g' i H) as E. unfold nbrs. destruct (nth_error g' i), (nth_error g i); simpl in E; congruence. Qed.
Lemma sn_weight g g' i j : same_net g g' -> weight g' i j = weight g i j.
Proof. intros H. pose proof (sn_adj g g' i H) as E. unfold weight. destruct (nth_error g' i), (nth_error g i); simpl in E; congruence. Qed.
Lemma sn_path g g' : same_net g g' -> forall d s v, path g d s v -> path g' d s v.
Proof.
  intros H. induction 1 as [i Hi|d i j k Hp IH Hk]; [constructor; now rewrite (sn_length g g' H)|]. econstructor; eauto. now rewrite (sn_nbrs g g' _ H).
Qed.
Lemma sn_sym g g' : same_net g g' -> same_net g' g.
Proof. unfold same_net. induction 1; constructor; auto. intuition congruence. Qed.
Lemma sn_reach g g' s v : same_net g g' -> (reachable g s v <-> reachable g' s v).
Proof. intros H. split; intros [d Hd]; exists d; [eapply sn_path; eauto|eapply sn_path; [apply sn_sym; eauto|auto]]. Qed.
Lemma sbs_undirected g g' : same_but_state g g' -> undirected g -> undirected g'.
Proof.
  intros H [W L S]. split; [exact (sbs_wf g g' H W)| |].
  - intros i. rewrite (sbs_nbrs g g' i H). apply L.
  - intros i j. rewrite !(sn_weight g g' _ _ (sbs_sn g g' H)). apply S.
Qed.
Lemma sn_counts g g' G : same_net g g' -> counts_right g G -> counts_right g' G.
Proof.
  intros H (H1 & H2 & H3 & H4). assert (E : forall i j, linked g' i j = linked g i j) by (intros; unfold linked; now rewrite (sn_weight g g' _ _ H)).
  unfold counts_right. unfold links_in, links_tot, links_out in *. rewrite (sn_length g g' H). rewrite H1, H2, H3, H4.
  splits; auto; f_equal; unfold pair_count; apply lsum_ext; intros i _; apply count_ext; intros j _; now rewrite E.
Qed.
Lemma sbs_mapped g g' P : same_but_state g g' -> mapped g P -> mapped g' P.
Proof.
  intros H M. split; try apply M.
  - intros G l HG Hl. destruct (mp_cells _ _ M G l HG Hl) as (j & n & E1 & E2 & E3 & E4). destruct (F2_nth _ _ _ _ _ (sbs_sn g g' H) E2) as (m & Em & R). exists j, m. splits; auto. rewrite E4. apply R.
  - intros i n E. destruct (sbs_nth g g' i n H E) as (m & Em & R). rewrite <- (mp_group _ _ M i m Em). unfold set_gstate in R. congruence.
  - intros G HG. eapply sn_counts; [apply sbs_sn; exact H|]. apply (mp_counts _ _ M); auto.
Qed.

(** ** Reachability *)
Lemma path_head g : forall d i j k, In j (nbrs g i) -> i < length g -> path g d j k -> path g (S d) i k.
Proof.
  intros d i j k Hj Hi H. induction H as [j Hl|d j m k Hp IH Hk]; [econstructor; [constructor; auto|auto]|]. econstructor; eauto.
Qed.
Lemma nbrs_lt g i j : wf_net g -> In j (nbrs g i) -> i < length g /\ j < length g.
Proof.
  intros W H. unfold nbrs in H. destruct (nth_error g i) as [n|] eqn:E; [|destruct H]. split; [eapply nth_lt; eauto|].
  apply targets_In in H as (l & Hl & El). destruct (wf_link g W i n l E Hl) as (j' & m & E1 & E2 & _). rewrite El in E1. injection E1 as <-. eapply nth_lt; eauto.
Qed.
Lemma nbrs_sym g i j : undirected g -> In j (nbrs g i) -> In i (nbrs g j).
Proof. intros U H. pose proof (linked_nbrs g i j) as E1. pose proof (linked_nbrs g j i) as E2. rewrite (linked_sym g i j U), E2 in E1. apply mem_In. rewrite E1. apply mem_In. exact H. Qed.
Lemma path_rev g : undirected g -> forall d i j, path g d i j -> path g d j i.
Proof.
  intros U. induction 1 as [i Hi|d i j k Hp IH Hk]; [constructor; auto|]. destruct (nbrs_lt g j k (un_wf g U) Hk) as [Lj Lk].
  apply (path_head g d k j i); auto. now apply nbrs_sym.
Qed.
Lemma path_trans g : forall e j k, path g e j k -> forall d i, path g d i j -> path g (d + e) i k.
Proof.
  induction 1 as [j Hj|e j m k Hp IH Hk]; intros d i Hd; [now rewrite Nat.add_0_r|]. rewrite Nat.add_succ_r. econstructor; [apply IH; eauto|auto].
Qed.
Lemma reach_sym g i j : undirected g -> reachable g i j -> reachable g j i.
Proof. intros U [d H]. exists d. now apply path_rev. Qed.
Lemma reach_trans g i j k : reachable g i j -> reachable g j k -> reachable g i k.
Proof. intros [d H] [e H']. exists (d + e). eapply path_trans; eauto. Qed.
Lemma path_lt g d i j : wf_net g -> path g d i j -> i < length g /\ j < length g.
Proof. intros W. induction 1 as [|d i j k Hp IH Hk]; auto. destruct (nbrs_lt g j k W Hk). tauto. Qed.

(** ** Filling the last group *)
Lemma add_all lab : forall new g P M cur, undirected g -> mapped g P -> abs P = M ++ [(lab, cur)] -> NoDup (refs new) ->
  (forall e, In e new -> bref e < length g) -> (forall a l i, In (a, l) (abs P) -> In i l -> ~ In i (refs new)) ->
  exists g' P', foldM (fun st e => AddNodeToGroup st (length M) (bref e)) (g, P) new = Ok (g', P') /\ undirected g' /\ mapped g' P' /\ same_but_group g g' /\ abs P' = M ++ [(lab, cur ++ refs new)].
Proof.
  induction new as [|e new IH]; intros g P M cur U HM EA ND HL HD.
  - exists g, P. cbn [foldM refs map]. rewrite app_nil_r. splits; auto. apply sbg_refl.
  - cbn [foldM]. unfold refs in ND. cbn [map] in ND. inversion ND as [|? ? Hn ND']; subst.
    assert (EN : nth_error (abs P) (length M) = Some (lab, cur)) by (rewrite EA, nth_error_app2, Nat.sub_diag by lia; reflexivity).
    destruct (groups_run g P [GAdd (length M) (bref e)] U HM) as (g1 & P1 & E1 & U1 & M1 & S1 & A1).
    { cbn [grops_ok grop_ok]. splits; auto; [rewrite EA, app_length; simpl; lia|apply HL; simpl; auto|].
      intros m Hm. unfold nth_members in Hm. destruct (nth_error (abs P) m) as [[a l]|] eqn:E; [|destruct Hm]. eapply (HD a l (bref e)); [eapply nth_error_In; eauto|auto|left; auto]. }
    cbn [foldM run_grop] in E1. cbn [fold_left grop_do] in A1. rewrite (nth_members_eq _ _ _ _ EN), (set_members_eq _ _ _ _ _ EN), EA, upd_last in A1.
    assert (EQ : AddNodeToGroup (g, P) (length M) (bref e) = Ok (g1, P1)) by (destruct (AddNodeToGroup (g, P) (length M) (bref e)) as [x|]; cbn [bind] in E1; congruence).
    rewrite EQ. cbn [bind]. pose proof (sbg_length _ _ S1) as L1.
    destruct (IH g1 P1 M (cur ++ [bref e]) U1 M1 A1 ND') as (g2 & P2 & E2 & U2 & M2 & S2 & A2).
    + intros x Hx. rewrite L1. apply HL. simpl; auto.
    + intros a l i Hal Hi Hr. rewrite A1 in Hal. apply in_app_iff in Hal. destruct Hal as [Hal|[[= <- <-]|[]]].
      * apply (HD a l i); auto; [rewrite EA; apply in_app_iff; auto|right; auto].
      * apply in_app_iff in Hi. destruct Hi as [Hi|[<-|[]]]; [|contradiction]. apply (HD lab cur i); auto; [rewrite EA; apply in_app_iff; simpl; auto|right; auto].
    + exists g2, P2. splits; auto; [eapply sbg_trans; eauto|]. rewrite A2, <- app_assoc. reflexivity.
Qed.

(** ** One component *)
Lemma OI_rebase g s d k g' g'' q : OI g s d k g' q -> same_but_group g' g'' -> OI g'' s d k g'' q.
Proof.
  intros O H. assert (SN : same_net g g'') by (eapply sn_trans; [apply sbs_sn, (oi_sbs _ _ _ _ _ _ O)|apply sbg_sn; exact H]). destruct O as [O1 O2 O3 O4 O5 O6 O7 O8 O9 O10 O11 O12 O13].
  split; auto.
  - reflexivity.
  - intros v n E. destruct (nth_error g' v) as [m|] eqn:Em.
    + destruct (F2_nth _ _ _ _ _ H Em) as (m' & Em' & R). rewrite E in Em'. injection Em' as <-. rewrite <- (O4 v m Em). symmetry. apply R.
    + apply nth_error_None in Em. apply nth_lt in E. pose proof (sbg_length _ _ H). lia.
  - intros e He. rewrite (sn_length g g'' SN). auto.
  - intros e He. eapply sn_path; [exact SN|]. auto.
  - intros p e w Hp Hk Hw. rewrite (sn_nbrs g g'' _ SN) in Hw. eauto.
  - intros e He. rewrite (O13 e He). unfold preds_of. destruct (bd e); auto. f_equal. apply filter_ext. intros p. destruct (nth_error (bq q) p) as [e'|]; auto. now rewrite (sn_nbrs g g'' _ SN).
Qed.
Lemma layers_fill lab s M : forall fuel g P q d k anod, undirected g -> mapped g P -> OI g s d k g q -> abs P = M ++ [(lab, refs (bq q))] ->
  (forall a l v, In (a, l) M -> In v l -> ~ reachable g s v) -> length g - length (bq q) < fuel ->
  exists g' P' q', cluster_layers fuel (length M) (g, P) q k d anod = Ok ((g', P'), q', anod + (length (bq q') - length (bq q))) /\ undirected g' /\ mapped g' P' /\ same_net g g' /\
    abs P' = M ++ [(lab, refs (bq q'))] /\ bsize q' = length (bq q') /\ length (bq q) <= length (bq q') /\ NoDup (refs (bq q')) /\ (forall v, In v (refs (bq q')) <-> reachable g s v).
Proof.
  induction fuel as [|fuel IH]; intros g P q d k anod U HM O EA HD Hf; [lia|]. cbn [cluster_layers fst snd].
  assert (LQ : forall g1 q1 d1 k1 g2, OI g1 s d1 k1 g2 q1 -> length (bq q1) <= length g1).
  { intros g1 q1 d1 k1 g2 O1. replace (length (bq q1)) with (length (refs (bq q1))) by apply map_length. rewrite <- (seq_length (length g1) 0). apply NoDup_incl_length; [apply O1|].
    intros v Hv. unfold refs in Hv. apply in_map_iff in Hv as (e & <- & He). apply in_seq. pose proof (oi_lt _ _ _ _ _ _ O1 e He). lia. }
  destruct (round g (un_wf g U) s d k g q (length g + 1) O) as (g1 & q1 & new & E & Eq & O1 & Hnew). { pose proof (LQ _ _ _ _ _ O). lia. }
  rewrite E. cbn [bind]. rewrite Eq, skipn_app, skipn_all, Nat.sub_diag. cbn [skipn app].
  pose proof (sbs_undirected g g1 (oi_sbs _ _ _ _ _ _ O1) U) as U1. pose proof (sbs_mapped g g1 P (oi_sbs _ _ _ _ _ _ O1) HM) as M1. pose proof (sbs_length g g1 (oi_sbs _ _ _ _ _ _ O1)) as L1.
  pose proof (oi_nodup _ _ _ _ _ _ O1) as ND. rewrite Eq in ND. unfold refs in ND. rewrite map_app in ND. apply NoDup_app_iff in ND. destruct ND as (ND1 & ND2 & ND3).
  assert (HR : forall v, In v (refs (bq q1)) -> reachable g s v).
  { intros v Hv. unfold refs in Hv. apply in_map_iff in Hv as (e & <- & He). exists (bd e). exact (oi_path _ _ _ _ _ _ O1 e He). }
  destruct (add_all lab new g1 P M (refs (bq q)) U1 M1 EA ND2) as (g2 & P2 & E2 & U2 & M2 & S2 & A2).
  { intros e He. rewrite L1. apply (oi_lt _ _ _ _ _ _ O1). rewrite Eq. apply in_app_iff. auto. }
  { intros a l i Hal Hi Hr. rewrite EA in Hal. apply in_app_iff in Hal. destruct Hal as [Hal|[[= <- <-]|[]]]; [|eapply ND3; eauto].
    apply (HD a l i Hal Hi). apply HR. rewrite Eq. unfold refs. rewrite map_app. apply in_app_iff. auto. }
  rewrite E2. cbn [bind]. rewrite (oi_size _ _ _ _ _ _ O1), (oi_size _ _ _ _ _ _ O), Eq, app_length.
  assert (SN : same_net g g2) by (eapply sn_trans; [apply sbs_sn, (oi_sbs _ _ _ _ _ _ O1)|apply sbg_sn; exact S2]).
  assert (ER : refs (bq q) ++ refs new = refs (bq q1)) by (rewrite Eq; unfold refs; now rewrite map_app). rewrite ER in A2.
  destruct (Nat.eqb_spec (length (bq q) + length new) (length (bq q))) as [E0|E0].
  - assert (new = []) by (destruct new; [auto|simpl in E0; lia]). subst new. rewrite app_nil_r in Eq.
    assert (C : complete g s (bq q1)) by (apply (oi_complete g s (d + 1) (length (bq q)) g1 q1); [exact O1|now rewrite Eq]).
    exists g2, P2, q1. rewrite Eq, Nat.sub_diag. cbn [length]. splits; auto.
    + rewrite <- Eq. exact A2.
    + rewrite <- Eq. apply (oi_size _ _ _ _ _ _ O1).
    + rewrite <- Eq. exact (c_reach _ _ _ C).
  - pose proof (OI_rebase _ _ _ _ _ _ _ O1 S2) as O2.
    destruct (IH g2 P2 q1 (d + 1) (length (bq q)) (anod + length new) U2 M2 O2 A2) as (g3 & P3 & q3 & E3 & U3 & M3 & S3 & A3 & B3 & L3 & N3 & R3).
    + intros a l v Hal Hv Hr. apply (HD a l v Hal Hv). apply (sn_reach g g2 s v SN). exact Hr.
    + rewrite (sn_length g g2 SN), Eq, app_length. pose proof (LQ _ _ _ _ _ O1) as K. rewrite Eq, app_length in K. lia.
    + exists g3, P3, q3. rewrite Eq, app_length in L3. rewrite E3. splits; auto.
      * do 2 f_equal. rewrite Eq, app_length. lia.
      * eapply sn_trans; eauto.
      * lia.
      * intros v. rewrite R3. symmetry. apply sn_reach. exact SN.
Qed.

(** ** All components *)
Definition all_members (M : groups) : list nat := flat_map snd M.
Lemma all_nodup M : good M -> NoDup (all_members M).
Proof.
  induction M as [|[a l] M IH]; intros [G1 G2 G3]; cbn [all_members flat_map snd]; [constructor|]. apply NoDup_app_iff. splits.
  - apply (G2 a). simpl. auto.
  - apply IH. cbn [map fst] in G1. inversion G1; subst. split; auto; [intros lab x H; apply (G2 lab); simpl; auto|intros lab x lab' x' i H H'; apply G3; simpl; auto].
  - intros i Hi Hx. apply in_flat_map in Hx as ([b x] & Hb & Hx). cbn [snd] in Hx. assert (a = b) by (eapply G3; [left; reflexivity|right; exact Hb|exact Hi|exact Hx]). subst b.
    cbn [map fst] in G1. inversion G1 as [|? ? Hn _]; subst. apply Hn. change a with (fst (a, x)). now apply in_map.
Qed.
Lemma mapped_good g P : mapped g P -> good (abs P).
Proof. intros M. apply good_map. split; [|split]; apply M. Qed.
Lemma mapped_lt g P a l i : mapped g P -> In (a, l) (abs P) -> In i l -> i < length g.
Proof.
  intros M H Hi. apply in_abs in H as (G & HG & <- & <-). unfold members in Hi. apply targets_In in Hi as (c & Hc & Ec).
  destruct (mp_cells _ _ M G c HG Hc) as (j & n & E1 & E2 & _). rewrite Ec in E1. injection E1 as <-. eapply nth_lt; eauto.
Qed.
Lemma find_free_some : forall g pos p, find_free g pos = Some p -> pos <= p /\ (exists n, nth_error g (p - pos) = Some n /\ ggroup n = None) /\ forall i n, i < p - pos -> nth_error g i = Some n -> ggroup n <> None.
Proof.
  induction g as [|n g IH]; intros pos p H; [discriminate|]. cbn [find_free] in H. destruct (ggroup n) as [x|] eqn:E.
  - apply IH in H as (H1 & (m & H2 & H3) & H4). splits; [lia|exists m; split; auto; replace (p - pos) with (S (p - (pos + 1))) by lia; exact H2|].
    intros [|i] m' Hi Em; cbn in Em; [injection Em as <-; congruence|]. apply (H4 i); auto. lia.
  - injection H as <-. rewrite Nat.sub_diag. splits; auto; [exists n; auto|]. intros i m Hi. lia.
Qed.
Lemma find_free_none : forall g pos, find_free g pos = None -> forall i n, nth_error g i = Some n -> ggroup n <> None.
Proof.
  induction g as [|n g IH]; intros pos H [|i] m E; try discriminate; cbn [find_free] in H; destruct (ggroup n) as [x|] eqn:En; try discriminate; cbn in E.
  - injection E as <-. congruence.
  - eapply IH; eauto.
Qed.
(** The groups so far are components, and they hold all nodes before [from]. *)
Record CI g0 g P (from anod : nat) : Prop := {
  ci_und : undirected g;
  ci_map : mapped g P;
  ci_net : same_net g0 g;
  ci_lab : map fst (abs P) = seq 0 (length P);
  ci_comp : forall a l, In (a, l) (abs P) -> exists s, In s l /\ forall v, In v l <-> reachable g0 s v;
  ci_from : forall i n, i < from -> nth_error g i = Some n -> ggroup n <> None;
  ci_anod : anod = length (all_members (abs P)) }.
Lemma abs_app P Q : abs (P ++ Q) = abs P ++ abs Q.
Proof. unfold abs. apply map_app. Qed.
Lemma all_app M M' : all_members (M ++ M') = all_members M ++ all_members M'.
Proof. apply flat_map_app. Qed.
Lemma abs_length P : length (abs P) = length P.
Proof. apply map_length. Qed.
Lemma home_members g P i n : mapped g P -> nth_error g i = Some n -> (ggroup n <> None <-> In i (all_members (abs P))).
Proof.
  intros M E. rewrite (mp_group _ _ M i n E). pose proof (home_iff (abs P) i) as H. split.
  - destruct (home (abs P) i) as [lab|]; [|congruence]. intros _. destruct (proj1 (H lab (mapped_good g P M)) eq_refl) as (l & H1 & H2). apply in_flat_map. exists (lab, l). auto.
  - intros Hi. apply in_flat_map in Hi as ([lab l] & H1 & H2). rewrite (proj2 (H lab (mapped_good g P M))); [discriminate|]. eauto.
Qed.
Lemma clusters_spec g0 : undirected g0 -> forall fuel g P from anod, CI g0 g P from anod -> anod < length g0 -> length g0 - anod < fuel ->
  exists g' P', clusters fuel (g, P) CreateHeaderList from anod = Ok (g', P') /\ undirected g' /\ mapped g' P' /\ same_net g0 g' /\
    map fst (abs P') = seq 0 (length P') /\ (forall a l, In (a, l) (abs P') -> exists s, In s l /\ forall v, In v l <-> reachable g0 s v) /\ (forall i, i < length g0 -> In i (all_members (abs P'))).
Proof.
  intros U0. induction fuel as [|fuel IH]; intros g P from anod I Ha Hf; [lia|]. cbn [clusters]. destruct I as [U M SN EL HC HF EA]. pose proof (sn_length _ _ SN) as LG.
  destruct (find_free (skipn from g) from) as [p|] eqn:EF.
  2:{ exfalso. assert (incl (seq 0 (length g)) (all_members (abs P))).
      { intros i Hi. apply in_seq in Hi. destruct (nth_ex g i) as [n En]; [lia|]. apply (home_members g P i n M En). destruct (Nat.lt_ge_cases i from) as [L|L]; [eapply HF; eauto|].
        eapply (find_free_none (skipn from g) from EF (i - from)). rewrite nth_skipn. replace (from + (i - from)) with i by lia. exact En. }
      pose proof (NoDup_incl_length (seq_NoDup (length g) 0) H) as K. rewrite seq_length in K. lia. }
  apply find_free_some in EF as (Hp & (n & En & Eg) & HB). rewrite nth_skipn in En. replace (from + (p - from)) with p in En by lia. cbn [deref bind CreateGroup].
  assert (Lp : p < length g) by (eapply nth_lt; eauto).
  assert (FP : ~ In p (all_members (abs P))) by (intros K; apply (home_members g P p n M En) in K; congruence).
  destruct (groups_run g P [GNew (length P); GAdd (length P) p] U M) as (g1 & P1 & E1 & U1 & M1 & S1 & A1).
  { cbn [grops_ok grop_ok grop_do]. splits; auto.
    - rewrite EL. intros K. apply in_seq in K. lia.
    - rewrite app_length, abs_length. simpl. lia.
    - intros m Hm. unfold nth_members in Hm. destruct (nth_error (abs P ++ [(length P, [])]) m) as [[a l]|] eqn:E; [|destruct Hm]. apply nth_error_In in E. apply in_app_iff in E. destruct E as [E|[[= <- <-]|[]]]; [|destruct Hm].
      apply FP. apply in_flat_map. exists (a, l). auto. }
  cbn [foldM run_grop CreateGroup fst snd bind] in E1. cbn [fold_left grop_do] in A1.
  assert (EN : nth_error (abs P ++ [(length P, [])]) (length P) = Some (length P, [])) by (rewrite nth_error_app2, abs_length, Nat.sub_diag by (rewrite abs_length; lia); reflexivity).
  rewrite (nth_members_eq _ _ _ _ EN), (set_members_eq _ _ _ _ _ EN) in A1. rewrite <- (abs_length P) in A1 at 2. rewrite upd_last in A1. cbn [app] in A1.
  match type of E1 with bind ?m _ = _ => destruct m as [st1|] eqn:EQ; cbn [bind] in E1; [|discriminate] end. injection E1 as ->. cbn [fst snd].

  pose proof (sbg_length _ _ S1) as L1.
  destruct (start g1 p ltac:(lia) g1 eq_refl) as (g2 & q2 & E2 & O2). 
  cbn [bind fst snd]. rewrite E2. cbn [bind].
  pose proof (sbs_undirected g1 g2 (oi_sbs _ _ _ _ _ _ O2) U1) as U2. pose proof (sbs_mapped g1 g2 P1 (oi_sbs _ _ _ _ _ _ O2) M1) as M2. pose proof (OI_rebase _ _ _ _ _ _ _ O2 (sbg_refl g2)) as O2'.
  assert (SN2 : same_net g0 g2) by (eapply sn_trans; [exact SN|]; eapply sn_trans; [apply sbg_sn; exact S1|apply sbs_sn, (oi_sbs _ _ _ _ _ _ O2)]).
  assert (R2 : refs (bq q2) = [p]).
  { pose proof (oi_nodup _ _ _ _ _ _ O2) as ND. destruct (oi_first _ _ _ _ _ _ O2) as (e0 & F0 & F1 & _).
    assert (HA : forall v, In v (refs (bq q2)) -> v = p).
    { intros v Hv. unfold refs in Hv. apply in_map_iff in Hv as (e & <- & He). pose proof (oi_path _ _ _ _ _ _ O2 e He) as K. apply In_nth_error in He as [x Hx].
      rewrite (oi_todo _ _ _ _ _ _ O2 x e Hx) in K by lia. inversion K; auto. }
    destruct (bq q2) as [|e [|e' l]]; [discriminate| |]; cbn in F0; injection F0 as <-; cbn in *.
    - now rewrite F1.
    - exfalso. inversion ND as [|x xs Hn ND2]; subst. apply Hn. left. transitivity (bref e); [rewrite (HA (bref e')) by auto; symmetry|reflexivity]; apply HA; auto. }
  assert (LQ2 : length (bq q2) = 1) by (rewrite <- (map_length bref); fold (refs (bq q2)); now rewrite R2).
  assert (HDJ : forall a l v, In (a, l) (abs P) -> In v l -> ~ reachable g0 p v).
  { intros a l v Hal Hv Hr. destruct (HC a l Hal) as (t & _ & Ht). apply FP. apply in_flat_map. exists (a, l). split; auto. apply Ht. eapply reach_trans; [apply Ht; exact Hv|]. now apply reach_sym. }
  destruct (layers_fill (length P) p (abs P) (length g2 + 1) g2 P1 q2 0 0 (anod + 1) U2 M2 O2') as (g3 & P3 & q3 & E3 & U3 & M3 & S3 & A3 & B3 & L3 & N3 & R3).
  { rewrite R2. exact A1. }
  { intros a l v Hal Hv Hr. apply (HDJ a l v Hal Hv). apply (sn_reach g0 g2 p v SN2). exact Hr. }
  { lia. }
  rewrite abs_length in E3. rewrite E3. cbn [bind]. rewrite ClearList_ok by exact B3. cbn [bind]. unfold CountNodes. rewrite (sn_length _ _ SN2).
  replace (anod + 1 + (length (bq q3) - length (bq q2))) with (anod + length (bq q3)) by lia.
  assert (SN3 : same_net g0 g3) by (eapply sn_trans; eauto).
  assert (RR : forall v, In v (refs (bq q3)) <-> reachable g0 p v) by (intros v; rewrite R3; symmetry; apply sn_reach; exact SN2).
  assert (LP : length P3 = length P + 1) by (rewrite <- (abs_length P3), A3, app_length, abs_length; reflexivity).
  assert (PP : In p (refs (bq q3))) by (apply RR; exists 0; constructor; lia).
  assert (AM : all_members (abs P3) = all_members (abs P) ++ refs (bq q3)) by (rewrite A3, all_app; unfold all_members at 2; cbn [flat_map snd]; now rewrite app_nil_r).
  assert (LR : length (refs (bq q3)) = length (bq q3)) by apply map_length.
  assert (CI3 : CI g0 g3 P3 (p + 1) (anod + length (bq q3))).
  { split; auto.
    - rewrite A3, map_app, EL, LP, seq_app. reflexivity.
    - intros a l Hal. rewrite A3 in Hal. apply in_app_iff in Hal. destruct Hal as [Hal|[[= <- <-]|[]]]; [eauto|]. exists p. split; auto.
    - intros i m Hi Em. apply (home_members g3 P3 i m M3 Em). rewrite AM. apply in_app_iff. destruct (Nat.eq_dec i p) as [->|Hne]; [auto|]. left.
      destruct (nth_ex g i) as [m' Em']; [lia|]. apply (home_members g P i m' M Em'). destruct (Nat.lt_ge_cases i from) as [L|L]; [eapply HF; eauto|].
      apply (HB (i - from)); [lia|]. rewrite nth_skipn. replace (from + (i - from)) with i by lia. exact Em'.
    - rewrite AM, app_length, <- EA, LR. reflexivity. }
  destruct (Nat.ltb_spec (anod + length (bq q3)) (length g0)) as [L|L].
  - apply IH; auto. lia.
  - exists g3, P3. splits; auto; try apply CI3.
    intros i Hi. apply (NoDup_length_incl (all_nodup (abs P3) (mapped_good g3 P3 M3)) (l' := seq 0 (length g0))).
    + rewrite seq_length, <- (ci_anod _ _ _ _ _ CI3). exact L.
    + intros j Hj. apply in_flat_map in Hj as ([a l] & Hal & Hj). apply in_seq. pose proof (mapped_lt g3 P3 a l j M3 Hal Hj) as K. rewrite (sn_length _ _ SN3) in K. lia.
    + apply in_seq. lia.
Qed.
Theorem ClustersPartition_spec g : undirected g -> g <> [] ->
  exists g' P', ClustersPartition g = Ok (g', P') /\ undirected g' /\ same_net g g' /\ mapped g' P' /\ covering (length g) (abs P') /\ map plabel P' = seq 0 (length P') /\
    (forall G, In G P' -> members G <> []) /\ (forall i j, i < length g -> j < length g -> (same_home (abs P') i j = true <-> reachable g i j)).
Proof.
  intros U Hne. unfold ClustersPartition. set (g0 := ResetNetGroup g).
  assert (S0 : same_but_group g g0) by (unfold same_but_group, g0, ResetNetGroup; clear; induction g; constructor; auto 10).
  assert (U0 : undirected g0).
  { apply (sbg_undirected g g0 U S0). intros i n E. unfold g0, ResetNetGroup in E. rewrite nth_error_map in E. destruct (nth_error g i) as [m|] eqn:Em; [|discriminate]. injection E as <-. exact (wf_deg g (un_wf g U) i m Em). }
  assert (L0 : length g0 = length g) by (apply map_length). assert (0 < length g) by (destruct g; [congruence|simpl; lia]).
  destruct (clusters_spec g0 U0 (length g + 1) g0 [] 0 0) as (g' & P' & E & U' & M' & S' & EL & HC & HA); [|lia|lia|].
  - split; auto; [|apply sn_refl|intros a l []|intros; lia]. apply mapped_nil. intros i n E. unfold g0, ResetNetGroup in E. rewrite nth_error_map in E. destruct (nth_error g i); [|discriminate]. injection E as <-. reflexivity.
  - exists g', P'. assert (SG : same_net g g0) by (apply sbg_sn; exact S0). rewrite L0 in HA. pose proof (mapped_good g' P' M') as GD.
    assert (HH : forall i, i < length g -> exists a l s, home (abs P') i = Some a /\ In (a, l) (abs P') /\ In i l /\ forall v, In v l <-> reachable g s v).
    { intros i Hi. specialize (HA i Hi). apply in_flat_map in HA as ([a l] & Hal & Hi'). destruct (HC a l Hal) as (s & _ & Hs). exists a, l, s. splits; auto; [apply home_iff; eauto|]. intros v. rewrite Hs. symmetry. now apply sn_reach. }
    splits; auto.
    + eapply sn_trans; eauto.
    + intros i Hi. destruct (HH i Hi) as (a & l & s & -> & _). discriminate.
    + rewrite <- EL. unfold abs. rewrite map_map. reflexivity.
    + intros G HG En. destruct (HC (plabel G) (members G)) as (s & Hs & _); [apply in_abs; eauto|]. rewrite En in Hs. destruct Hs.
    + intros i j Hi Hj. destruct (HH i Hi) as (a & l & s & E1 & H1 & H2 & H3). destruct (HH j Hj) as (b & l' & s' & E2 & H1' & H2' & H3'). unfold same_home. rewrite E1, E2. rewrite Nat.eqb_eq. split.
      * intros <-. assert (l = l') by (eapply lab_unique; [apply GD|eauto|eauto]). subst l'. apply reach_trans with s; [apply reach_sym; auto|]; now apply H3.
      * intros Hr. apply (gd_disj _ GD a l b l' j); auto. apply H3. eapply reach_trans; [apply H3; exact H2|exact Hr].
Qed.
End Any.

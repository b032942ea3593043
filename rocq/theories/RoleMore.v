(** RoleMore.v -- mapping a partition to a network only, the removal of the links of groups, sizes of groups, a new partition of
    equal groups. *)
From Coq Require Import List Arith ZArith Bool QArith Qcanon Lia.
From Verif Require Import Base Num ListLib NatSum QcSum ToolsModel ToolsProof IoModel GraphModel GraphSpec GraphProof GroupModel GroupSpec GroupProof GroupExact ModulesModel ModulesSpec ModulesMod ModulesMap ModulesCopy RoleModel RoleProof RoleFast.
Import ListNotations.
Local Open Scope nat_scope.

Section Any.
Context {A : Type} {ops : NumOps A}.
Implicit Types (g : net A) (P : gpart A) (G : grp A).

(** * MapPartToNetSoft *)
Definition soft_cells (lab : nat) g (cells : list (link A)) : res (net A) :=
  foldM (fun g l => do i <- deref (ModulesModel.GetNodeDict (llabel l) g); upd_node g i (set_ggroup (Some lab))) g cells.
Definition emptied G : grp A := mkGroup (plabel G) (psize G) 0 0 0 n0 n0 n0 (pnodes G).
Lemma soft_cells_map lab cells : forall g acc, soft_cells lab g cells = do (g', _) <- foldM (map_cell lab) (g, acc) cells; Ok g'.
Proof.
  induction cells as [|l cells IH]; intros g acc; [reflexivity|]. unfold soft_cells in *. cbn [foldM]. change (map_cell lab (g, acc) l) with (do i <- deref (ModulesModel.GetNodeDict (llabel l) g); do n <- get g i; do g <- set g i (set_ggroup (Some lab) n); Ok (g, acc ++ [mkLink (gnum n) (llabel l) (lstatus l) (Some i) (lbtw l) (lweight l)])). destruct (ModulesModel.GetNodeDict (llabel l) g) as [i|]; [|reflexivity].
  cbn [deref bind]. unfold upd_node. destruct (get g i) as [n|]; [|reflexivity]. cbn [bind]. destruct (set g i (set_ggroup (Some lab) n)) as [g1|]; [|reflexivity]. cbn [bind]. apply IH.
Qed.
Lemma soft_is_fast g P : MapPartToNetSoft (g, P) = do (g', _) <- MapPartToNetFast (g, P); Ok (g', map emptied P).
Proof.
  unfold MapPartToNetSoft, MapPartToNetFast. 
  assert (H : forall P g Q Q', foldM (fun '(g, Q) G => do g <- soft_cells (plabel G) g (pnodes G); Ok (g, Q ++ [emptied G])) (g, Q) P =
    do (g', _) <- foldM (fun '(g, Q) G => do (g, G) <- map_group g G; Ok (g, Q ++ [G])) (g, Q') P; Ok (g', Q ++ map emptied P)).
  { clear. induction P as [|G P IH]; intros g Q Q'; [cbn; now rewrite app_nil_r|]. cbn [foldM]. unfold map_group. rewrite (soft_cells_map (plabel G) (pnodes G) g []).
    destruct (foldM (map_cell (plabel G)) (g, []) (pnodes G)) as [[g1 c]|]; [|reflexivity]. cbn [bind]. rewrite (IH g1 (Q ++ [emptied G]) (Q' ++ [mkGroup (plabel G) (psize G) 0 0 0 n0 n0 n0 c])).
    cbn [map]. rewrite <- app_assoc. reflexivity. }
  exact (H P (ResetNetGroup g) [] []).
Qed.
Lemma home_none (M : groups) i : home M i = None -> forall lab l, In (lab, l) M -> ~ In i l.
Proof.
  unfold home. destruct (find (fun x => mem i (snd x)) M) eqn:E; [discriminate|]. intros _ lab l H Hi. apply find_none with (x := (lab, l)) in E; auto. cbn [snd] in E. apply mem_In in Hi. congruence.
Qed.
(** Every node gets the label of the group that names it; the groups keep their cells. *)
Theorem MapSoft g P : undirected g -> nameable g P ->
  exists g', MapPartToNetSoft (g, P) = Ok (g', map emptied P) /\ undirected g' /\ same_but_group g g' /\
    forall i n, nth_error g' i = Some n -> forall lab, ggroup n = Some lab <-> exists G, In G P /\ plabel G = lab /\ In (glabel n) (map llabel (pnodes G)).
Proof.
  intros U HN. destruct (MapFast g P U HN) as (g' & P' & E & U' & B & EN & HC & HG & _). exists g'. splits; auto.
  - rewrite soft_is_fast, E. reflexivity.
  - pose proof (names_abs g' P' HC) as EA. rewrite EN in EA.
    assert (ND : NoDup (map glabel g')) by (rewrite (sbg_labels g g' B); apply HN).
    assert (GD : good (abs P')).
    { destruct (MapPartToNet_mapped g P U HN) as (g2 & P2 & E2 & U2 & B2 & M2 & N2). replace (abs P') with (abs P2); [exact (mapped_good g2 P2 M2)|].
      apply (names_members g2 P2 g' P'); auto; [rewrite (sbg_labels g g2 B2); apply HN| |exact (mp_cells _ _ M2)|congruence].
      unfold same_but_group. clear - B B2. revert g' B. induction B2 as [|n m g g2 H _ IH]; intros g' B; inversion B as [|? m' ? g'' H' B']; subst; constructor; auto.
      destruct H as (Q1 & Q2 & Q3 & Q4 & Q5), H' as (R1 & R2 & R3 & R4 & R5). splits; congruence. }
    intros i n En lab. rewrite (HG i n En), (home_iff _ _ _ GD). split.
    + intros (l & Hl & Hi). assert (K : In (lab, map (label_of g') l) (names P)) by (rewrite EA; apply in_map_iff; exists (lab, l); auto).
      unfold names in K. apply in_map_iff in K as (G & [= E1 E2] & KG). exists G. splits; auto. rewrite E2. apply in_map_iff. exists i. split; auto. unfold label_of. now rewrite En.
    + intros (G & KG & El & Hl). assert (K : In (plabel G, map llabel (pnodes G)) (names P)) by (unfold names; apply in_map_iff; eauto).
      rewrite EA in K. apply in_map_iff in K as ([lab' l] & [= E1 E2] & K). exists l. split; [congruence|]. rewrite <- E2 in Hl. apply in_map_iff in Hl as (j & Ej & Hj).
      replace i with j; auto. apply in_abs in K as (G' & KG' & _ & <-). apply (label_of_inj g'); auto.
      * eapply cells_lt; eauto.
      * eapply nth_lt; eauto.
      * rewrite Ej. unfold label_of. now rewrite En.
Qed.
Lemma last_label_found lab g : forall pos k, last_label lab pos g = Some k -> pos <= k < pos + length g.
Proof.
  induction g as [|n g IH]; intros pos k; cbn [last_label length]; [discriminate|]. destruct (last_label lab (pos + 1) g) eqn:E.
  - intros [= <-]. apply IH in E. lia.
  - destruct (label_eqb (glabel n) lab); [|discriminate]. intros [= <-]. lia.
Qed.
Lemma soft_cells_labels lab cells : forall g, soft_cells lab g cells = Err UB_null \/ exists g', soft_cells lab g cells = Ok g' /\ map glabel g' = map glabel g.
Proof.
  induction cells as [|l cells IH]; intros g; [right; exists g; auto|]. unfold soft_cells in *. cbn [foldM]. destruct (ModulesModel.GetNodeDict (llabel l) g) as [i|] eqn:E; [|left; reflexivity].
  apply last_label_found in E. destruct (nth_error g i) as [n|] eqn:En; [|apply nth_error_None in En; lia].
  cbn [deref bind]. unfold upd_node. rewrite (get_ok _ _ _ En). cbn [bind]. rewrite (set_ok g i (set_ggroup (Some lab) n)) by lia. cbn [bind].
  destruct (IH (upd g i (set_ggroup (Some lab) n))) as [F|(g' & F & L)]; [left; exact F|right]. exists g'. split; [exact F|]. rewrite L. apply nth_ext.
  intros k. rewrite !nth_error_map, nth_upd. destruct (Nat.eqb_spec k i) as [->|]; cbn [andb]; auto. destruct (i <? length g) eqn:Lt; [|apply Nat.ltb_ge in Lt; lia]. rewrite En. reflexivity.
Qed.
Lemma soft_cells_missing lab x cells : In x cells -> forall g, ~ In (llabel x) (map glabel g) -> soft_cells lab g cells = Err UB_null.
Proof.
  induction cells as [|l cells IH]; intros H g N; [destruct H|]. destruct (soft_cells_labels lab [l] g) as [F|(g' & F & L)].
  - unfold soft_cells in *. cbn [foldM] in F |- *. destruct (do i <- deref (ModulesModel.GetNodeDict (llabel l) g); upd_node g i (set_ggroup (Some lab))) as [g1|e]; cbn [bind] in F |- *; congruence.
  - destruct H as [->|H].
    + unfold soft_cells in *. cbn [foldM]. unfold ModulesModel.GetNodeDict. rewrite (last_label_none _ _ _ N). reflexivity.
    + unfold soft_cells in F. cbn [foldM] in F. apply bind_inv in F as (g1 & F & [= ->]). unfold soft_cells. cbn [foldM]. rewrite F. cbn [bind]. apply IH; auto. now rewrite L.
Qed.
Lemma ResetNetGroup_labels g : map glabel (ResetNetGroup g) = map glabel g.
Proof. unfold ResetNetGroup. rewrite map_map. apply map_ext. intros n. destruct n; reflexivity. Qed.
(** One name without a node is enough for a null pointer to be used, whatever the network. *)
Theorem MapSoft_missing g P G x : In G P -> In x (pnodes G) -> ~ In (llabel x) (map glabel g) -> MapPartToNetSoft (g, P) = Err UB_null.
Proof.
  intros HG HX N. unfold MapPartToNetSoft.
  assert (H : forall P, In G P -> forall Q g, ~ In (llabel x) (map glabel g) -> foldM (fun '(g, Q) G => do g <- soft_cells (plabel G) g (pnodes G); Ok (g, Q ++ [emptied G])) (g, Q) P = Err UB_null).
  { clear - HX. induction P as [|H P IH]; intros HG Q g N; [destruct HG|]. cbn [foldM]. destruct HG as [->|HG].
    - rewrite (soft_cells_missing _ x) by auto. reflexivity.
    - destruct (soft_cells_labels (plabel H) (pnodes H) g) as [F|(g' & F & L)]; rewrite F; [reflexivity|]. cbn [bind]. apply IH; auto. now rewrite L. }
  apply (H P HG [] (ResetNetGroup g)). now rewrite ResetNetGroup_labels.
Qed.

(** * The removal of links *)
Lemma opt_dec (a b : option nat) : {a = b} + {a <> b}.
Proof. decide equality. apply Nat.eq_dec. Qed.
Definition picked (drop : gnode A -> gnode A -> bool) g (i j : nat) : bool := match nth_error g i, nth_error g j with Some n, Some m => drop n m | _, _ => false end.
Lemma walk_links_spec drop sw g i : undirected g -> i < length g -> walk_links drop sw g i = if existsb (picked drop g i) (nbrs g i) then Err UB_free else Ok g.
Proof.
  intros U Li. destruct (nth_ex g i Li) as [n En]. unfold walk_links. rewrite (get_ok _ _ _ En). cbn [bind]. rewrite (nbrs_eq g i n En).
  assert (H : forall ls, (forall l, In l ls -> In l (gadj n)) -> foldM (fun g l => do j <- deref (lref l); do n <- get g i; do m <- get g j;
    if drop n m then do _ <- RemoveLink g i j sw; Err UB_free else Ok g) g ls = if existsb (picked drop g i) (targets ls) then Err UB_free else Ok g).
  { induction ls as [|l ls IH]; intros Hin; [reflexivity|]. destruct (wf_link g (un_wf g U) i n l En (Hin l (or_introl eq_refl))) as (j & m & Er & Em & _).
    cbn [foldM]. rewrite Er. cbn [deref bind]. rewrite (get_ok _ _ _ En), (get_ok _ _ _ Em). cbn [bind]. replace (targets (l :: ls)) with (j :: targets ls) by (unfold targets; cbn [flat_map]; now rewrite Er).
    cbn [existsb]. unfold picked at 1. rewrite En, Em. destruct (drop n m); cbn [orb].
    - assert (Hj : In j (nbrs g i)). { rewrite (nbrs_eq g i n En). apply targets_In. exists l. split; auto. apply Hin. simpl; auto. }
      destruct (RemoveLink_spec g i j sw (un_wf g U) Hj) as (g' & E & _); [intros _ _; now apply undirected_sym|]. rewrite E. reflexivity.
    - cbn [bind]. apply IH. intros; apply Hin; simpl; auto. }
  apply H; auto.
Qed.
Lemma walk_all (drop : gnode A -> gnode A -> bool) sw g l : undirected g -> (forall i, In i l -> i < length g) -> 
  foldM (walk_links drop sw) g l = if existsb (fun i => existsb (picked drop g i) (nbrs g i)) l then Err UB_free else Ok g.
Proof.
  intros U. induction l as [|i l IH]; intros H; [reflexivity|]. cbn [foldM existsb]. rewrite walk_links_spec by (auto; apply H; simpl; auto).
  destruct (existsb (picked drop g i) (nbrs g i)); [reflexivity|]. cbn [bind orb]. apply IH. intros; apply H; simpl; auto.
Qed.
Lemma walk_cells (drop : gnode A -> gnode A -> bool) sw g (cs : list (link A)) : undirected g -> (forall l, In l cs -> exists i, lref l = Some i /\ i < length g) -> 
  foldM (fun g l => do i <- deref (lref l); walk_links drop sw g i) g cs = foldM (walk_links drop sw) g (targets cs).
Proof.
  intros U. induction cs as [|l cs IH]; intros H; [reflexivity|]. cbn [foldM]. destruct (H l (or_introl eq_refl)) as (i & Er & Li).
  replace (targets (l :: cs)) with (i :: targets cs) by (unfold targets; cbn [flat_map]; now rewrite Er). rewrite Er. cbn [deref bind foldM]. rewrite walk_links_spec by auto.
  destruct (existsb (picked drop g i) (nbrs g i)); [reflexivity|]. cbn [bind]. apply IH. intros; apply H; simpl; auto.
Qed.
(** The links of a node of the group: none, or the memory of a released link is read. *)
Theorem RemoveWithin_spec g G sw : undirected g -> (forall l, In l (pnodes G) -> exists i, lref l = Some i /\ i < length g) ->
  (RemoveWithinGroupLinks g G sw = Ok g /\ forall i, In i (members G) -> nbrs g i = []) \/
  (RemoveWithinGroupLinks g G sw = Err UB_free /\ exists i j, In i (members G) /\ In j (nbrs g i)).
Proof.
  intros U H. unfold RemoveWithinGroupLinks. rewrite (walk_cells _ sw g (pnodes G) U H).
  assert (R : forall i, In i (targets (pnodes G)) -> i < length g). { intros i Hi. apply targets_In in Hi as (l & Hl & Er). destruct (H l Hl) as (k & Ek & Lk). congruence. }
  rewrite (walk_all _ sw g _ U R). destruct (existsb _ _) eqn:E; [right|left]; split; auto.
  - apply existsb_exists in E as (i & Hi & E). apply existsb_exists in E as (j & Hj & _). eauto.
  - intros i Hi. destruct (nbrs g i) as [|j r] eqn:EN; auto. exfalso. assert (K : existsb (fun i => existsb (picked (fun _ _ => true) g i) (nbrs g i)) (targets (pnodes G)) = true); [|congruence].
    apply existsb_exists. exists i. split; auto. apply existsb_exists. exists j. rewrite EN. split; [simpl; auto|]. unfold picked. destruct (nth_ex g i (R i Hi)) as [n ->].
    destruct (nth_ex g j) as [m ->]; auto. eapply nbrs_lt; [apply U|]. rewrite EN. simpl; auto.
Qed.
Lemma picked_other g i j : undirected g -> i < length g -> In j (nbrs g i) -> picked other_group g i j = true <-> group_of g i <> group_of g j.
Proof.
  intros U Li Hj. destruct (nth_ex g i Li) as [n En]. destruct (nth_ex g j) as [m Em]; [eapply nbrs_lt; eauto; apply U|]. unfold picked, group_of. rewrite En, Em. unfold other_group, same_group.
  destruct (ggroup n) as [a|], (ggroup m) as [b|]; simpl; try (split; congruence). destruct (Nat.eqb_spec a b); simpl; split; congruence.
Qed.
(** Two linked nodes of different groups: none, or the memory of a released link is read. *)
Theorem RemoveInter_spec g : undirected g ->
  (RemoveInterGroupLinks g = Ok g /\ forall i j, In j (nbrs g i) -> group_of g i = group_of g j) \/
  (RemoveInterGroupLinks g = Err UB_free /\ exists i j, In j (nbrs g i) /\ group_of g i <> group_of g j).
Proof.
  intros U. unfold RemoveInterGroupLinks. rewrite walk_all; auto; [|intros i Hi; apply in_seq in Hi; lia]. destruct (existsb _ _) eqn:E; [right|left]; split; auto.
  - apply existsb_exists in E as (i & Hi & E). apply in_seq in Hi. apply existsb_exists in E as (j & Hj & E). exists i, j. split; auto. apply (picked_other g i j U) in E; auto; lia.
  - intros i j Hj. destruct (nbrs_lt g i j (un_wf g U) Hj) as [Li Lj]. destruct (picked other_group g i j) eqn:K.
    + exfalso. assert (X : existsb (fun i => existsb (picked other_group g i) (nbrs g i)) (seq 0 (length g)) = true); [|congruence].
      apply existsb_exists. exists i. split; [apply in_seq; lia|]. apply existsb_exists. eauto.
    + destruct (opt_dec (group_of g i) (group_of g j)) as [D|D]; auto. apply (picked_other g i j U Li Hj) in D. congruence.
Qed.
Theorem RemoveBetween_spec g P sw : undirected g -> (forall G l, In G P -> In l (pnodes G) -> exists i, lref l = Some i /\ i < length g) ->
  (RemoveBetweenGroupLinks g P sw = Ok g /\ forall G i j, In G P -> In i (members G) -> In j (nbrs g i) -> group_of g i = group_of g j) \/
  (RemoveBetweenGroupLinks g P sw = Err UB_free /\ exists G i j, In G P /\ In i (members G) /\ In j (nbrs g i) /\ group_of g i <> group_of g j).
Proof.
  intros U H. unfold RemoveBetweenGroupLinks. 
  assert (R : forall G i, In G P -> In i (members G) -> i < length g). { intros G i HG Hi. apply targets_In in Hi as (l & Hl & Er). destruct (H G l HG Hl) as (k & Ek & Lk). congruence. }
  assert (E : foldM (fun g G => foldM (fun g l => do i <- deref (lref l); walk_links other_group sw g i) g (pnodes G)) g P = foldM (walk_links other_group sw) g (flat_map members P)).
  { clear - H U R. induction P as [|G P IH]; [reflexivity|]. cbn [foldM flat_map]. rewrite foldM_app. rewrite (walk_cells _ sw g (pnodes G) U (fun l => H G l (or_introl eq_refl))). fold (members G).
    rewrite walk_all by (auto; intros i Hi; apply (R G i); simpl; auto). destruct (existsb _ _); [reflexivity|]. cbn [bind]. apply IH; [intros; eapply H; simpl; eauto|intros; eapply R; simpl; eauto]. }
  rewrite E, walk_all; auto; [|intros i Hi; apply in_flat_map in Hi as (G & HG & Hi); eauto]. clear E. destruct (existsb _ _) eqn:E; [right|left]; split; auto.
  - apply existsb_exists in E as (i & Hi & E). apply in_flat_map in Hi as (G & HG & Hi). apply existsb_exists in E as (j & Hj & E). exists G, i, j. splits; auto. apply (picked_other g i j U) in E; eauto.
  - intros G i j HG Hi Hj. destruct (picked other_group g i j) eqn:K.
    + exfalso. assert (X : existsb (fun i => existsb (picked other_group g i) (nbrs g i)) (flat_map members P) = true); [|congruence].
      apply existsb_exists. exists i. split; [apply in_flat_map; eauto|]. apply existsb_exists. eauto.
    + destruct (opt_dec (group_of g i) (group_of g j)) as [D|D]; auto. apply (picked_other g i j U (R G i HG Hi) Hj) in D. congruence.
Qed.

(** * A new partition of equal groups *)
Lemma upd_last {B} (P : list B) x y : upd (P ++ [x]) (length P) y = P ++ [y].
Proof. induction P as [|a P IH]; [reflexivity|]. simpl. f_equal. exact IH. Qed.
Lemma equi_nodes (show : nat -> label) (f : nat -> nat) P is : (forall k, length (show k) < max_label) -> forall G, exists G',
  foldM (fun Q j => AddNodeToGroupSoft Q (length P) (show (f j))) (P ++ [G]) is = Ok (P ++ [G']) /\
  plabel G' = plabel G /\ map llabel (pnodes G') = map llabel (pnodes G) ++ map (fun j => show (f j)) is /\ psize G' = (psize G + Z.of_nat (length is))%Z /\ counters G' = counters G.
Proof.
  intros HS. induction is as [|j is IH]; intros G; [exists G; cbn; rewrite app_nil_r; splits; auto; lia|]. cbn [foldM]. unfold AddNodeToGroupSoft at 1. unfold store_label at 1. rewrite (proj2 (Nat.ltb_lt _ _) (HS (f j))). cbn [check bind].
  assert (EG : nth_error (P ++ [G]) (length P) = Some G) by (rewrite nth_error_app2, Nat.sub_diag by lia; reflexivity). rewrite (get_ok _ _ _ EG). cbn [bind]. rewrite set_ok by (rewrite app_length; simpl; lia). cbn [bind].
  rewrite upd_last. set (G1 := mkGroup _ _ _ _ _ _ _ _ _). destruct (IH G1) as (G' & E & E1 & E2 & E3 & E4). exists G'. splits; auto.
  - rewrite E2. unfold G1. cbn [pnodes]. rewrite map_app, <- app_assoc. reflexivity.
  - rewrite E3. unfold G1. cbn [psize length]. lia.
Qed.
Theorem CreateEqui_spec (show : nat -> label) ngroups gsize : (forall k, length (show k) < max_label) -> exists P,
  CreateEquiNPartitionSoft show ngroups gsize = Ok P /\
  names P = map (fun i => (i, map (fun j => show (j + i * gsize + 1)) (seq 0 gsize))) (seq 0 ngroups) /\
  forall G, In G P -> psize G = Z.of_nat gsize /\ counters G = no_counts.
Proof.
  intros HS. unfold CreateEquiNPartitionSoft.
  destruct (foldM_seq (fun k P => names P = map (fun i => (i, map (fun j => show (j + i * gsize + 1)) (seq 0 gsize))) (seq 0 k) /\ forall G, In G P -> psize G = Z.of_nat gsize /\ counters G = no_counts)
    (fun P i => let '(k, P) := CreateGroup P i in foldM (fun P j => AddNodeToGroupSoft P k (show (j + i * gsize + 1))) P (seq 0 gsize)) ngroups []) as (P & E & H1 & H2).
  - split; [reflexivity|intros G []].
  - intros i P Li [H1 H2]. unfold CreateGroup. destruct (equi_nodes show (fun j => j + i * gsize + 1) P (seq 0 gsize) HS (mkGroup i 0 0 0 0 n0 n0 n0 [])) as (G' & E & E1 & E2 & E3 & E4).
    exists (P ++ [G']). splits.
    + exact E.
    + rewrite Nat.add_1_r, seq_S, map_app, <- H1. unfold names. rewrite map_app. cbn [map]. rewrite E1, E2. reflexivity.
    + intros G HG. apply in_app_or in HG as [HG|[<-|[]]]; auto. rewrite E3, E4, seq_length. split; [cbn; lia|reflexivity].
  - exists P. auto.
Qed.
End Any.

(** Properties6.v -- groups of nodes of a network: C29, C30. *)
From Coq Require Import List Arith ZArith Lia Bool QArith Qcanon.
From Coq Require Import Strings.Ascii.
From Verif Require Import Base Num ListLib NatSum QcSum PartModel FillModel PartSpec AdjSpec ModSpec EdgeListProof EdgeListExact IoModel GraphModel GraphSpec GraphProof
  GroupModel GroupSpec GroupProof GroupExact ModulesModel ModulesSpec ModulesMod ModulesNew Refute Properties4.
Import ListNotations.
Local Open Scope nat_scope.

Section Generic.
Context {A : Type} {ops : NumOps A}.
Implicit Types (g : net A) (P : gpart A).

(** C29: any sequence of operations on groups runs, moves the nodes as it should, touches nothing but groups and caches, and keeps the
    size and the link counts of every group equal to a recount. *)
Theorem C29_counters g P os : undirected g -> mapped g P -> grops_ok (length g) (abs P) os ->
  exists g' P', foldM run_grop (g, P) os = Ok (g', P') /\ undirected g' /\ mapped g' P' /\ same_but_group g g' /\ abs P' = fold_left grop_do os (abs P).
Proof. exact (groups_run g P os). Qed.

(** C29: a network without groups is a start. *)
Theorem C29_start g : (forall i n, nth_error g i = Some n -> ggroup n = None) -> mapped g [].
Proof. exact (mapped_nil g). Qed.

(** C29: one removal leaves right counters behind, for every group. *)
Theorem C29_remove g P k i : undirected g -> mapped g P -> k < length P -> In i (nth_members (abs P) k) ->
  exists g' P', RemoveNodeFromGroup (g, P) k i = Ok (true, (g', P')) /\ same_but_group g g' /\
    abs P' = set_members (abs P) k (remove1 i (nth_members (abs P) k)) /\ forall G, In G P' -> counts_right g' G.
Proof. exact (remove_counts g P k i). Qed.

(** C29: merging a group with itself never ends. *)
Theorem C29_self_merge_refuted g P k fuel : undirected g -> mapped g P -> k < length P -> nth_members (abs P) k <> [] -> merge_loop fuel (g, P) k k = Err Diverge.
Proof. exact (merge_self fuel g P k). Qed.
End Generic.

Section Exact.
Variables ex sq : Qc -> Qc.
#[local] Instance opsP : NumOps Qc := Qc_ops ex sq.
Implicit Types (g : net Qc) (P : gpart Qc) (es : list (nat * nat * Qc)).

(** C29: the weighted counters. *)
Theorem C29_weights g P os : undirected g -> strengths_cached g -> mapped g P -> (forall G, In G P -> weights_right g G) -> grops_ok (length g) (abs P) os ->
  exists g' P', foldM run_grop (g, P) os = Ok (g', P') /\ undirected g' /\ strengths_cached g' /\ mapped g' P' /\ (forall G, In G P' -> weights_right g' G) /\
    same_but_group g g' /\ abs P' = fold_left grop_do os (abs P).
Proof. exact (groups_run_weights ex sq g P os). Qed.

(** C29: the cached strengths of a network are right from the start and stay so while links come and go. *)
Theorem C29_strengths g o g' : strengths_cached g -> run_gop g o = Ok g' -> strengths_cached g'.
Proof. exact (gop_cached ex sq g o g'). Qed.

(** C30: the modularity of modules.c is the sum over pairs, for links and for weights. *)
Theorem C30_links g P : undirected g -> mapped g P -> covering (length g) (abs P) ->
  Modularity P = pair_modularity (length g) (unit_weight g) (same_home (abs P)).
Proof. exact (Modularity_pairs ex sq g P). Qed.
Theorem C30_weights g P : undirected g -> mapped g P -> (forall G, In G P -> weights_right g G) -> covering (length g) (abs P) ->
  ModularityWeight P = pair_modularity (length g) (wt g) (same_home (abs P)).
Proof. exact (ModularityWeight_pairs ex sq g P). Qed.

(** C30: the old and the new code agree on the same grouping of the same network. *)
Theorem C30_same_functional es M p0 adj p q g P : undirected g -> mapped g P -> (forall G, In G P -> weights_right g G) -> covering (length g) (abs P) ->
  no_loops es -> no_duplicates es -> in_range (length g) es -> total_weight es <> 0%Qc ->
  (forall i j, i < length g -> j < length g -> wt g i j = pair_weight es i j) ->
  CreatePartition (length g) M = Ok p0 -> EdgeListToAdjaArray es (CreateAdjaArray (length g) (length es)) p0 true = Ok (adj, p) ->
  valid q -> pN q = length g -> (forall i, strength q i = strength p i) ->
  (forall i j, i < length g -> j < length g -> together q i j = same_home (abs P) i j) ->
  PartitionModularity q adj true = Ok (ModularityWeight P).
Proof. exact (legacy_is_new ex sq es M p0 adj p q g P). Qed.
Theorem C30_same_functional_links es M p0 adj p q g P : undirected g -> mapped g P -> covering (length g) (abs P) ->
  no_loops es -> no_duplicates es -> in_range (length g) es -> total_weight es <> 0%Qc ->
  (forall i j, i < length g -> j < length g -> unit_weight g i j = pair_weight es i j) ->
  CreatePartition (length g) M = Ok p0 -> EdgeListToAdjaArray es (CreateAdjaArray (length g) (length es)) p0 true = Ok (adj, p) ->
  valid q -> pN q = length g -> (forall i, strength q i = strength p i) ->
  (forall i j, i < length g -> j < length g -> together q i j = same_home (abs P) i j) ->
  PartitionModularity q adj true = Ok (Modularity P).
Proof. exact (legacy_is_new_links ex sq es M p0 adj p q g P). Qed.
End Exact.

(** * The hypotheses are met: the network with a triangle of Properties4.v, with a double weight, and two groups of its nodes. *)
#[local] Instance opsE : NumOps Qc := Qc_ops ex0 sq0.
Definition kite_groups : list grop :=
  [GNew 7; GAdd 0 0; GAdd 0 1; GNew 3; GAdd 1 3; GMove 1 0 1; GAdd 1 2; GMove 1 1 0; GAdd 0 4; GNew 5; GMerge 1 2; GCompress].
Lemma kite_ggroup : forall i n, nth_error (kite (A := Qc)) i = Some n -> ggroup n = None.
Proof. intros i n. do 5 (destruct i as [|i]; [intros E; vm_compute in E; injection E as <-; reflexivity|]). vm_compute. destruct i; discriminate. Qed.
Lemma kite_strengths : strengths_cached kite.
Proof. intros i n. do 5 (destruct i as [|i]; [intros E; vm_compute in E; injection E as <-; left; reflexivity|]). vm_compute. destruct i; discriminate. Qed.
Lemma kite_groups_ok : grops_ok 5 [] kite_groups.
Proof.
  cbn. splits; try lia; auto; try (intros [|[|[|m]]]; cbn; try (destruct m; cbn); lia).
Qed.
Example kite_met : exists g P, foldM run_grop (kite, []) kite_groups = Ok (g, P) /\ undirected g /\ length g = 5 /\ mapped g P /\ (forall G, In G P -> weights_right g G) /\
  abs P = [(7, [0; 1; 4]); (5, [3; 2])] /\ covering 5 (abs P) /\ same_but_group kite g.
Proof.
  destruct kite_undirected as [U L].
  destruct (C29_weights ex0 sq0 kite [] kite_groups U kite_strengths (C29_start kite kite_ggroup)) as (g & P & E & U' & _ & M & W & S & EA).
  - intros G [].
  - rewrite L. exact kite_groups_ok.
  - exists g, P. assert (EA' : abs P = [(7, [0; 1; 4]); (5, [3; 2])]) by (rewrite EA; reflexivity). splits; auto.
    + now rewrite (sbg_length _ _ S).
    + rewrite EA'. intros i Li. do 5 (destruct i as [|i]; [discriminate|]). lia.
Qed.
Definition kite_edges : list (nat * nat * Qc) := [(0, 1, qq 1); (2, 1, qq 2); (0, 2, qq 1); (2, 3, qq 1)].
Lemma kite_edges_ok : no_loops kite_edges /\ in_range 5 kite_edges /\ total_weight kite_edges <> 0%Qc /\ no_duplicates kite_edges.
Proof.
  splits.
  - repeat constructor; discriminate.
  - repeat constructor; lia.
  - intros H. apply (f_equal this) in H. vm_compute in H. discriminate.
  - intros l1 a b w l2 a' b' w' E Hin.
    do 5 (destruct l1 as [|? l1]; [cbn in E; try discriminate; injection E; intros; subst; repeat (destruct Hin as [Hin|Hin]; [injection Hin as <- <- <-; lia|]); destruct Hin|cbn in E; try discriminate; injection E as _ E]).
    all: destruct l1; discriminate.
Qed.
Definition kite_q : partition Qc := Eval vm_compute in fst (setup 5 2 kite_edges [1; 1; 0; 0; 1]).
Definition kite_adj : adja Qc := Eval vm_compute in snd (setup 5 2 kite_edges [1; 1; 0; 0; 1]).
Example same_functional_met : exists g P, undirected g /\ mapped g P /\ (forall G, In G P -> weights_right g G) /\ covering (length g) (abs P) /\
  length g = 5 /\ (forall i j, i < 5 -> j < 5 -> wt g i j = pair_weight kite_edges i j) /\
  (exists p0 p, CreatePartition 5 2 = Ok p0 /\ EdgeListToAdjaArray kite_edges (CreateAdjaArray 5 4) p0 true = Ok (kite_adj, p) /\ (forall i, strength kite_q i = strength p i)) /\
  valid kite_q /\ pN kite_q = 5 /\ (forall i j, i < 5 -> j < 5 -> together kite_q i j = same_home (abs P) i j) /\
  PartitionModularity kite_q kite_adj true = Ok (ModularityWeight P) /\ this (ModularityWeight P) = (-1 # 10)%Q.
Proof.
  destruct kite_met as (g & P & E & U & L & M & W & EA & C & S). destruct kite_edges_ok as (K1 & K2 & K3 & K4).
  assert (Ew : forall i j, i < 5 -> j < 5 -> wt g i j = pair_weight kite_edges i j).
  { intros i j Li Lj. unfold wt. rewrite (sbg_weight _ _ i j S). do 5 (destruct i as [|i]; [do 5 (destruct j as [|j]; [apply Qc_is_canon; vm_compute; reflexivity|]); lia|]). lia. }
  destruct (setup_ok 5 2 kite_edges [1; 1; 0; 0; 1] kite_q kite_adj K1 K2 K3) as (V & St & A1 & A2 & A3 & A4 & Nq & Mq & _); try lia; [repeat constructor|simpl; lia|vm_compute; reflexivity|].
  assert (HG : forall i j, i < 5 -> j < 5 -> together kite_q i j = same_home (abs P) i j).
  { intros i j Li Lj. rewrite EA. do 5 (destruct i as [|i]; [do 5 (destruct j as [|j]; [reflexivity|]); lia|]). lia. }
  assert (HP : exists p0 p, CreatePartition 5 2 = Ok p0 /\ EdgeListToAdjaArray kite_edges (CreateAdjaArray 5 4) p0 true = Ok (kite_adj, p) /\ (forall i, strength kite_q i = strength p i)).
  { do 2 eexists. splits; [vm_compute; reflexivity|vm_compute; reflexivity|]. intros i. do 6 (destruct i as [|i]; [reflexivity|]). reflexivity. }
  exists g, P. rewrite <- L in C. splits; auto.
  - destruct HP as (p0 & p & H1 & H2 & H3).
    apply (C30_same_functional ex0 sq0 kite_edges 2 p0 kite_adj p kite_q g P); auto; rewrite L; auto.
  - pose proof E as E'. vm_compute in E'. injection E' as _ <-. vm_compute. reflexivity.
Qed.

(** C29: a node removed on its own keeps its old group number; the next addition to that group counts links to it. *)
Theorem C29_bare_removal_refuted : exists (g : net Qc) P g1 P1 g2 P2 k i j, undirected g /\ mapped g P /\ k < length P /\ In i (nth_members (abs P) k) /\
  RemoveNodeFromGroup (g, P) k i = Ok (true, (g1, P1)) /\ AddNodeToGroup (g1, P1) k j = Ok (g2, P2) /\ exists G, In G P2 /\ members G = [j] /\ pin G <> Z.of_nat (links_in g2 (members G)).
Proof.
  destruct kite_undirected as [U L].
  destruct (C29_counters kite [] [GNew 0; GAdd 0 0] U (C29_start kite kite_ggroup)) as (g & P & E & U' & M & S & EA).
  - rewrite L. cbn. splits; auto; try lia. intros [|m]; cbn; try (destruct m; cbn); lia.
  - pose proof E as E'. vm_compute in E'. injection E' as <- <-. do 6 eexists. exists 0, 0, 1. splits; [exact U'|exact M|simpl; lia|vm_compute; auto|vm_compute; reflexivity|vm_compute; reflexivity|].
    eexists. splits; [left; reflexivity|reflexivity|]. vm_compute. discriminate.
Qed.
(** A non-empty group to merge with itself. *)
Example self_merge_met : exists g P, undirected g /\ mapped (A := Qc) g P /\ 0 < length P /\ nth_members (abs P) 0 <> [].
Proof. destruct kite_met as (g & P & _ & U & _ & M & _ & EA & _). exists g, P. splits; auto; [|now rewrite EA]. apply (f_equal (@length _)) in EA. unfold abs in EA. rewrite map_length in EA. simpl in EA. lia. Qed.

Print Assumptions C29_counters.
Print Assumptions C29_start.
Print Assumptions C29_remove.
Print Assumptions C29_self_merge_refuted.
Print Assumptions C29_bare_removal_refuted.
Print Assumptions C29_weights.
Print Assumptions C29_strengths.
Print Assumptions C30_links.
Print Assumptions C30_weights.
Print Assumptions C30_same_functional.
Print Assumptions C30_same_functional_links.

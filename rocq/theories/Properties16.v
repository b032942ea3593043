(** Properties16.v -- statistics of networks: C79 to C84. *)
From Coq Require Import List Arith Lia ZArith Bool QArith Qcanon.
From Verif Require Import Base Num ListLib NatSum QcSum IoModel GraphModel GraphSpec GraphProof BfsModel BfsProof Refute UnitNet StatModel StatSpec StatProof StatAssort.
Import ListNotations.
Local Open Scope nat_scope.

Section Exact.
Context (ex sq : Qc -> Qc).
#[local] Instance ops16 : NumOps Qc := Qc_ops ex sq.

(** C79: clustering coefficients. *)
Theorem C79_mean g : undirected g -> branching g <> [] ->
  exists g', ClusteringCoefficient g = Ok (mean_clustering g, g') /\ same_but_state g g' /\ (0 <= mean_clustering g /\ mean_clustering g <= 1)%Qc.
Proof. exact (clustering_spec ex sq g). Qed.
Theorem C79_transitivity g : undirected g -> branching g <> [] ->
  exists g', ClusteringCoefficient2 g = Ok (transitivity g, g') /\ same_but_state g g' /\ (0 <= transitivity g /\ transitivity g <= 1)%Qc.
Proof. exact (transitivity_spec ex sq g). Qed.
Theorem C79_node g i : undirected g -> i < length g ->
  exists g', OneNodeClusteringCoefficient g i = Ok (if 2 <=? degree g i then local_clustering g i else (- (1))%Qc, g') /\ same_but_state g g'.
Proof. intros U. exact (node_clustering_spec ex sq g U i). Qed.

(** C80: square clustering, and when it exists. *)
Theorem C80_mean g : undirected g -> 2 <= length g ->
  match SquareClustering g with
  | Ok (x, g') => same_but_state g g' /\ (forall v, v < length g -> degree g v + 1 < length g -> second g v <> []) /\
      (square_nodes g <> [] -> x = mean_squares g /\ (0 <= x /\ x <= 1)%Qc)
  | Err e => e = UB_null /\ exists v, v < length g /\ degree g v + 1 < length g /\ second g v = []
  end.
Proof. exact (square_clustering_spec ex sq g). Qed.
Theorem C80_connected g : undirected g -> 2 <= length g -> (forall i j, i < length g -> j < length g -> reachable g i j) ->
  exists x g', SquareClustering g = Ok (x, g').
Proof. exact (square_clustering_connected ex sq g). Qed.
Theorem C80_node g i : undirected g -> i < length g ->
  exists x g', OneNodeSquareClustering g i = Ok (x, g') /\ length g' = length g /\ (forall a, nbrs g' a = nbrs g a) /\
    x = if degree g i =? 0 then (- (1))%Qc else if length (second g i) =? 0 then (- Qc_of_nat 3)%Qc else if degree g i =? 1 then (- Qc_of_nat 2)%Qc else squares_at g i.
Proof. exact (node_squares_spec ex sq g i). Qed.

(** C82: assortativity is the correlation of the degrees at the ends of the links. *)
Theorem C82_assortativity g : wf_net g -> (exists i, i < length g /\ 0 < degree g i) ->
  exists g', Assortativity g = Ok (correlation (end_degrees g), g') /\ same_links g g'.
Proof. exact (assort_spec ex sq g). Qed.
Theorem C82_bounds (g : net Qc) : (exists i, i < length g /\ 0 < degree g i) -> variance_fst (end_degrees g) <> 0%Qc ->
  (- (1) <= correlation (end_degrees g) /\ correlation (end_degrees g) <= 1)%Qc.
Proof. exact (assort_bounds g). Qed.
Theorem C82_variance (g : net Qc) : (exists i, i < length g /\ 0 < degree g i) ->
  (variance_fst (end_degrees g) = 0%Qc <->
   forall i j i' j', i < length g -> i' < length g -> In j (nbrs g i) -> In j' (nbrs g i') -> degree g i = degree g i' /\ degree g i = degree g j').
Proof. exact (variance_zero g). Qed.

(** C83: averages of degrees. *)
Theorem C83_average g sym : wf_net g -> (sym = true -> undirected g) ->
  exists g', AverageDegree g sym = Ok ((Qsum (fun i => Qc_of_nat (degree g i)) (seq 0 (length g)) / Qc_of_nat (length g))%Qc, g') /\ same_links g g'.
Proof. intros W. exact (average_degree_spec ex sq g W sym). Qed.
Theorem C83_neighbours g i : wf_net g -> i < length g -> 0 < degree g i ->
  exists g', CalculateKnn g i = Ok ((Qsum (fun j => Qc_of_nat (degree g j)) (nbrs g i) / Qc_of_nat (degree g i))%Qc, g') /\ same_links g g'.
Proof. intros W. exact (knn_spec ex sq g W i). Qed.
Theorem C83_squared g : wf_net g -> 0 < length g ->
  exists g', AverageSquaredDegree g = Ok (Qc_of_nat (Nat.div (lsum (fun i => degree g i * degree g i) (seq 0 (length g))) (length g)), g') /\ same_links g g'.
Proof. exact (squared_spec g). Qed.
End Exact.

(** * Concrete cases *)
#[local] Instance ops16e : NumOps Qc := Qc_ops ex0 sq0.
(** A triangle 0 1 2, a square 1 2 3 4 and a tail 5. *)
Definition rows16 : list (list nat) := [[1; 2]; [0; 2; 4]; [0; 1; 3]; [2; 4]; [1; 3; 5]; [4]].
Definition net16 : net Qc := unit_net rows16.
Example net16_ok : undirected net16 /\ branching net16 = [0; 1; 2; 3; 4] /\ 2 <= length net16 /\ square_nodes net16 = [0; 1; 2; 3; 4] /\ (exists i, i < length net16 /\ 0 < degree net16 i).
Proof. splits; [apply unit_undirected; reflexivity|reflexivity|vm_compute; lia|reflexivity|exists 0; vm_compute; lia]. Qed.
Example net16_connected : forall i j, i < length net16 -> j < length net16 -> reachable net16 i j.
Proof.
  assert (H : forall j, j < 6 -> reachable net16 0 j /\ reachable net16 j 0).
  { intros j Hj. assert (K : j = 0 \/ j = 1 \/ j = 2 \/ j = 3 \/ j = 4 \/ j = 5) by lia.
    assert (P0 : forall k, k < 6 -> path net16 0 k k) by (intros; constructor; exact H).
    assert (st : forall d i k l, path net16 d i k -> mem l (nbrs net16 k) = true -> path net16 (S d) i l) by (intros; econstructor; eauto; now apply mem_In).
    assert (R1 : path net16 1 0 1) by (eapply st; [apply P0; lia|reflexivity]). assert (R2 : path net16 1 0 2) by (eapply st; [apply P0; lia|reflexivity]).
    assert (R3 : path net16 2 0 3) by (eapply st; [exact R2|reflexivity]). assert (R4 : path net16 2 0 4) by (eapply st; [exact R1|reflexivity]). assert (R5 : path net16 3 0 5) by (eapply st; [exact R4|reflexivity]).
    assert (B1 : forall d i, path net16 d i 1 -> path net16 (S d) i 0) by (intros; eapply st; eauto; reflexivity). assert (B2 : forall d i, path net16 d i 2 -> path net16 (S d) i 0) by (intros; eapply st; eauto; reflexivity).
    assert (B3 : forall d i, path net16 d i 3 -> path net16 (S (S d)) i 0) by (intros; apply B2; eapply st; eauto; reflexivity). assert (B4 : forall d i, path net16 d i 4 -> path net16 (S (S d)) i 0) by (intros; apply B1; eapply st; eauto; reflexivity).
    assert (B5 : path net16 3 5 0) by (apply B4; eapply st; [apply P0; lia|reflexivity]).
    destruct K as [->|[->|[->|[->|[->| ->]]]]]; split; eexists; eauto using P0, Nat.lt_0_succ; try (apply P0; lia); first [apply B1|apply B2|apply B3|apply B4]; apply P0; lia. }
  intros i j Hi Hj. change (length net16) with 6 in *. destruct (H i Hi) as [_ [d1 P1]]. destruct (H j Hj) as [[d2 P2] _]. exists (d1 + d2). eapply BtwBrandes.path_cat; eauto.
Qed.
Example net16_values : this (mean_clustering net16) = (1 # 3)%Q /\ this (transitivity net16) = (3 # 11)%Q /\ this (correlation (end_degrees net16)) = (-9 # 19)%Q /\
  variance_fst (end_degrees net16) <> 0%Qc /\ map (fun v => this (squares_at net16 v)) [0; 1; 2; 3; 4] = [0 # 1; 1 # 6; 1 # 3; 1 # 3; 1 # 6]%Q.
Proof. vm_compute. splits; auto; discriminate. Qed.
Example net16_runs : match ClusteringCoefficient net16, SquareClustering net16, Assortativity net16, AverageDegree net16 true, CalculateKnn net16 4 with
  | Ok (x, _), Ok (y, _), Ok (z, _), Ok (a, _), Ok (k, _) => (this x, this y, this z, this a, this k) = (1 # 3, 1 # 5, -9 # 19, 7 # 3, 2 # 1)%Q | _, _, _, _, _ => False end.
Proof. vm_compute. reflexivity. Qed.

(** C81: two triangles; no node has a node two steps away, but no node is linked to all others. *)
Theorem C81_squares_refuted : exists g : net Qc, undirected g /\ length g = 6 /\ (forall i, i < 6 -> degree g i = 2) /\ SquareClustering (ops := Qc_ops ex0 sq0) g = Err UB_null.
Proof.
  exists (unit_net [[1; 2]; [0; 2]; [0; 1]; [4; 5]; [3; 5]; [3; 4]]). splits; [apply unit_undirected; reflexivity|reflexivity| |vm_compute; reflexivity].
  intros i Hi. do 6 (destruct i as [|i]; [reflexivity|]). lia.
Qed.

(** C84: a path of three nodes has degrees 1, 2, 1; the average of the squares is 2, which is returned; with a fourth node without links it is 3/2. *)
Theorem C84_squared_refuted : exists g : net Qc, undirected g /\ 0 < length g /\
  match AverageSquaredDegree (ops := Qc_ops ex0 sq0) g with
  | Ok (x, _) => x <> (Qsum (fun i => Qc_of_nat (degree g i * degree g i)) (seq 0 (length g)) / Qc_of_nat (length g))%Qc /\ x = 1%Qc
  | Err _ => False end.
Proof.
  exists (unit_net [[1]; [0; 2]; [1]; []]). splits; [apply unit_undirected; reflexivity|vm_compute; lia|].
  vm_compute. split; [|reflexivity]. discriminate.
Qed.

Print Assumptions C79_mean.
Print Assumptions C79_transitivity.
Print Assumptions C79_node.
Print Assumptions C80_mean.
Print Assumptions C80_connected.
Print Assumptions C80_node.
Print Assumptions C81_squares_refuted.
Print Assumptions C82_assortativity.
Print Assumptions C82_bounds.
Print Assumptions C82_variance.
Print Assumptions C83_average.
Print Assumptions C83_neighbours.
Print Assumptions C83_squared.
Print Assumptions C84_squared_refuted.

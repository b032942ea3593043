(** Properties15.v -- betweenness: C76 to C78. *)
From Coq Require Import List Arith Lia ZArith Bool QArith Qcanon.
From Verif Require Import Base Num ListLib QcSum IoModel GraphModel GraphSpec ToolsProof Refute UnitNet BtwModel BtwSpec BtwProof.
Import ListNotations.
Local Open Scope nat_scope.

Section Exact.
Context (ex sq : Qc -> Qc).
#[local] Instance ops15 : NumOps Qc := Qc_ops ex sq.

(** C76: the betweenness of every node, for directed and undirected networks.  The only way to fail is a pair of nodes with more
    shortest paths than an int can count. *)
Theorem C76_betweenness g : wf_net g ->
  match CalculateNodeBetweenness g with
  | Ok g' => (forall s t, s < length g -> t < length g -> (Z.of_nat (length (geodesics g s t)) <= INT_MAX)%Z) /\
      g' = map (fun n => set_gdvar (betweenness g (gnum n)) n) g
  | Err e => e = Wrap /\ exists s t, s < length g /\ t < length g /\ (INT_MAX < Z.of_nat (length (geodesics g s t)))%Z
  end.
Proof. exact (betweenness_spec ex sq g). Qed.

(** C77: mean, standard deviation, minimum and maximum of the betweenness. *)
Theorem C77_statistics g : wf_net g -> g <> [] -> let b := map (fun n => betweenness g (gnum n)) g in
  match NodeBetweennessStatistics g with
  | Ok (m, s, lo, hi, g') => m = (Qsum (fun x => x) b / Qc_of_nat (length g))%Qc /\ s = (if Qc_eq_dec (variance b) 0 then 0%Qc else sq (variance b)) /\
      In lo b /\ In hi b /\ (forall x, In x b -> (lo <= x /\ x <= hi)%Qc) /\ g' = map (fun n => set_gdvar (betweenness g (gnum n)) n) g
  | Err e => e = Wrap
  end.
Proof. exact (statistics_spec ex sq g). Qed.
End Exact.

(** * Concrete cases *)
#[local] Instance ops15e : NumOps Qc := Qc_ops ex0 sq0.
(** Two ways from 0 to 3 and a tail. *)
Definition rows15 : list (list nat) := [[1; 2]; [0; 3]; [0; 3]; [1; 2; 4]; [3]].
Example net15 : undirected (unit_net (A := Qc) rows15) /\ unit_net (A := Qc) rows15 <> [].
Proof. split; [apply unit_undirected; reflexivity|discriminate]. Qed.
Example net15_paths : geodesics (unit_net (A := Qc) rows15) 0 4 = [[0; 1; 3; 4]; [0; 2; 3; 4]] /\ geodesics (unit_net (A := Qc) rows15) 4 4 = [[4]].
Proof. vm_compute. auto. Qed.
Example net15_betweenness : map (fun v => this (betweenness (unit_net (A := Qc) rows15) v)) (seq 0 5) = [1 # 1; 2 # 1; 2 # 1; 7 # 1; 0 # 1]%Q.
Proof. vm_compute. reflexivity. Qed.
Example net15_runs : match CalculateNodeBetweenness (unit_net (A := Qc) rows15) with Ok g' => map (fun n => this (gdvar n)) g' = [1 # 1; 2 # 1; 2 # 1; 7 # 1; 0 # 1]%Q | Err _ => False end.
Proof. vm_compute. reflexivity. Qed.
(** A directed network, where a node is not reached from everywhere. *)
Example directed15 : wf_net (unit_net (A := Qc) [[1]; [2]; [0]; [0]]) /\
  map (fun v => this (betweenness (unit_net (A := Qc) [[1]; [2]; [0]; [0]]) v)) (seq 0 4) = [3 # 1; 2 # 1; 1 # 1; 0 # 1]%Q.
Proof. split; [apply unit_wf; reflexivity|vm_compute; reflexivity]. Qed.

(** C78: a chain of 31 squares, 94 nodes, has 2^31 shortest paths between its ends. *)
Definition squares (k : nat) : list (list nat) :=
  concat (map (fun i => [(if i =? 0 then [] else [3 * i - 2; 3 * i - 1]) ++ (if i =? k then [] else [3 * i + 1; 3 * i + 2])] ++ (if i =? k then [] else [[3 * i; 3 * i + 3]; [3 * i; 3 * i + 3]])) (seq 0 (k + 1))).
Theorem C78_overflow_refuted : exists g : net Qc, undirected g /\ length g = 94 /\ CalculateNodeBetweenness (ops := Qc_ops ex0 sq0) g = Err Wrap /\
  exists s t, s < length g /\ t < length g /\ (INT_MAX < Z.of_nat (length (geodesics g s t)))%Z.
Proof.
  assert (G : forall g : net Qc, undirected g -> length g = 94 -> CalculateNodeBetweenness (ops := Qc_ops ex0 sq0) g = Err Wrap -> exists g : net Qc, undirected g /\ length g = 94 /\
    CalculateNodeBetweenness (ops := Qc_ops ex0 sq0) g = Err Wrap /\ exists s t, s < length g /\ t < length g /\ (INT_MAX < Z.of_nat (length (geodesics g s t)))%Z).
  { intros g U L E. exists g. splits; auto. pose proof (betweenness_spec ex0 sq0 g (un_wf g U)) as B. unfold opsB in B. rewrite E in B. apply B. }
  apply (G (unit_net (squares 31))).
  - apply unit_undirected; vm_compute; reflexivity.
  - rewrite unit_length. vm_compute. reflexivity.
  - vm_compute. reflexivity.
Qed.

Print Assumptions C76_betweenness.
Print Assumptions C77_statistics.
Print Assumptions C78_overflow_refuted.

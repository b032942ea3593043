(** Properties4.v -- networks: C25, C26, C28, C37, C38, C44. *)
From Coq Require Import List Arith Ascii Lia Bool Permutation ZArith QArith Qcanon.
From Coq Require Import Floats.SpecFloat.
From Verif Require Import Base Num ListLib QcSum SAModel SAProof IoModel GraphModel GraphSpec GraphProof GraphRand GraphSim GraphSeq
  FillProof MatLib MatrixModel MatrixProof BfsModel BfsProof PathLen Refute.
Import ListNotations.
Local Open Scope nat_scope.

Section Generic.
Context {A : Type} {ops : NumOps A}.
Implicit Types g : net A.

(** C25: networks made from scratch are undirected and have the given labels. *)
Theorem C25_create_nodes (ls : list label) : Forall (fun l => length l < 100) ls ->
  exists g, foldM (fun g l => do (_, g) <- CreateNodeGraph g l; Ok g) [] ls = Ok g /\ undirected g /\ map glabel g = ls /\ (forall i, nbrs g i = []).
Proof. exact (create_nodes ls). Qed.

(** C25: any sequence of symmetric insertions, removals and degree queries. *)
Theorem C25_sequences os g : undirected g -> rel_ok (length g) (weight g) os ->
  exists g', foldM run_gop g os = Ok g' /\ undirected g' /\ same_nodes g g' /\ forall a b, weight g' a b = fold_left rel_op os (weight g) a b.
Proof. exact (gops_keep os g). Qed.

(** C25: the queries agree with the link relation; the degree is right whatever is cached. *)
Theorem C25_queries g i j : undirected g -> i < length g -> j < length g ->
  (exists b, IsThereLink g i j = Ok b /\ IsThereLinkSoft g i j = Ok b /\ (b = true <-> weight g i j <> None)) /\
  (forall w, weight g i j = Some w -> exists l, GetLink g i j = Ok l /\ lref l = Some j /\ lweight l = w) /\
  (exists g', NodeDegree g i = Ok (count (fun k => match weight g i k with Some _ => true | None => false end) (seq 0 (length g)), g') /\
     same_links g g').
Proof. exact (queries g i j). Qed.

(** C25: removing an absent link follows a null pointer. *)
Theorem C25_remove_absent_refuted g i j sym : wf_net g -> i < length g -> j < length g -> ~ In j (nbrs g i) ->
  RemoveLink g i j sym = Err UB_null.
Proof. exact (RemoveLink_missing g i j sym). Qed.

(** C26 *)
Theorem C26_randomize g times ds : undirected g -> Forall good_draw ds -> (exists i j, In j (nbrs g i)) ->
  safe (RandomizeSymmetricNetwork g times ds) (fun '(g', ds') => undirected g' /\ same_nodes g g' /\ forall i, degree g' i = degree g i).
Proof. exact (RandomizeSymmetricNetwork_spec g times ds). Qed.

(** C26: without links the first switch reads outside the (empty) list of links. *)
Theorem C26_edgeless_refuted g times u u1 ds : wf_net g -> (forall i, nbrs g i = []) -> 0 < nceil (nadd (nmul times (nofnat 0)) u) ->
  RandomizeSymmetricNetwork g times (u :: u1 :: ds) = Err UB_oob.
Proof.
  intros W N Hn. unfold RandomizeSymmetricNetwork. destruct (TotalNLinks_spec g true W) as (g1 & -> & Hs). cbn [bind].
  assert (E : sum_deg g = 0).
  { unfold sum_deg. assert (H : forall l, fold_left (fun s i => s + degree g i) l 0 = 0); [|apply H].
    induction l as [|i l IH]; simpl; auto. unfold degree at 2. rewrite N. exact IH. }
  rewrite E. change (Nat.div 0 2) with 0. cbn [draw bind].
  pose proof Hs as (W1 & _ & N1 & _).
  assert (El : edges g1 = []). { unfold edges. assert (H : forall l, flat_map (fun i => map (fun j => (i, j)) (filter (fun j => j <? i) (nbrs g1 i))) l = []).
    { induction l as [|i l IH]; simpl; auto. rewrite IH, N1, N. reflexivity. } apply H. }
  rewrite (link_list_spec g1 W1), El. cbn [bind]. change (length (@nil (nat * nat)) <=? 0) with true. cbn [check bind].
  destruct (nceil _) as [|k]; [lia|]. cbn [seq foldM switch_once length Nat.add pick_links draw bind].
  unfold get. now rewrite (proj2 (nth_error_None (@nil (nat * nat)) _)) by (simpl; lia).
Qed.

(** C28 *)
Theorem C28_connected g : wf_net g -> g <> [] ->
  exists b g', IsGraphConnected g = Ok (b, g') /\ same_but_state g g' /\ (b = true <-> forall v, v < length g -> reachable g 0 v).
Proof. exact (IsGraphConnected_spec g). Qed.
Theorem C28_empty_refuted : IsGraphConnected (@nil (gnode A)) = Err UB_null.
Proof. reflexivity. Qed.

(** C28: the queue grown layer by layer holds every reachable node once, with its distance, in order of distance; the action
    that follows each layer is called with the distance and the number of nodes at it. *)
Theorem C28_layers {T} (act : T -> nat -> nat -> res T) (x : T) g s : wf_net g -> s < length g ->
  exists D g' q, (do st <- Enqueue (ResetNodesState g, CreateHeaderList) s None 0; layers act (length g + 1) x st 0 0) =
      (do x <- foldM (fun x i => act x i (count (fun e => bd e =? i) (bq q))) x (seq 1 D); Ok (x, (g', q), bsize q)) /\
    same_but_state g g' /\ NoDup (map bref (bq q)) /\ (forall v, In v (map bref (bq q)) <-> reachable g s v) /\
    (forall e, In e (bq q) -> distance g s (bref e) (bd e) /\ bd e <= D) /\
    (forall p p' e e', nth_error (bq q) p = Some e -> nth_error (bq q) p' = Some e' -> p <= p' -> bd e <= bd e').
Proof.
  intros W Hs. destruct (start g s Hs g eq_refl) as (g1 & q1 & -> & O). cbn [bind].
  destruct (layers_spec g W s act (length g + 1) x 0 0 g1 q1 O) as (D & g2 & q2 & E & H1 & H2 & [C1 C2 C3 C4 C5] & _ & H5 & _); [lia|].
  exists D, g2, q2. splits; auto.
Qed.

(** C37 *)
Theorem C37_laplacian g : undirected g ->
  exists m g', LaplacianMat g = Ok (Some m, g') /\ same_links g g' /\ length m = length g /\
    (forall i, i < length g -> exists row, nth_error m i = Some row /\ length row = length g /\ fold_right Z.add 0%Z row = 0%Z) /\
    (forall i j, i < length g -> j < length g -> exists z, get2 m i j = Ok z /\ get2 m j i = Ok z /\
       z = if i =? j then Z.of_nat (degree g i) else if in_dec Nat.eq_dec j (nbrs g i) then (-1)%Z else 0%Z).
Proof.
  intros U. destruct (LaplacianMat_spec g U) as (m & g' & E & Hs & Hm). exists m, g'.
  assert (V : forall i j, i < length g -> j < length g -> exists z, get2 m i j = Ok z /\ get2 m j i = Ok z /\
       z = if i =? j then Z.of_nat (degree g i) else if in_dec Nat.eq_dec j (nbrs g i) then (-1)%Z else 0%Z).
  { intros i j Hi Hj. exists (laplacian g i j). splits.
    - exact (mat_get _ _ m _ i j Hm Hi Hj).
    - rewrite laplacian_sym by auto. exact (mat_get _ _ m _ j i Hm Hj Hi).
    - unfold laplacian, adjacent01. destruct (i =? j); auto. destruct (mem_spec j (nbrs g i)); destruct (in_dec _ _ _); tauto || auto. }
  splits; auto.
  - apply Hm.
  - intros i Hi. destruct (mat_row _ _ _ _ Hm i Hi) as (row & E1 & L & Er). exists row. splits; auto.
    assert (Eq : row = map (laplacian g i) (seq 0 (length g))).
    { apply nth_ext. intros j. destruct (Nat.lt_ge_cases j (length g)) as [Hj|Hj].
      - rewrite (Er j Hj), nth_map_seq. now rewrite (proj2 (Nat.ltb_lt _ _) Hj).
      - rewrite !(proj2 (nth_error_None _ _)); auto; rewrite ?map_length, ?seq_length; lia. }
    rewrite Eq. etransitivity; [|exact (laplacian_row g i U Hi)]. clear. induction (map _ _); simpl; congruence.
Qed.

(** C38: symmetric in every arithmetic. *)
Theorem C38_symmetric g i j : undirected g -> i < length g -> j < length g ->
  (exists x g1 g2, JaccardIndex g i j = Ok (x, g1) /\ JaccardIndex g j i = Ok (x, g2) /\ same_links g g1 /\ same_links g g2) /\
  (exists x g1 g2, TopologicalOverlap g i j = Ok (x, g1) /\ TopologicalOverlap g j i = Ok (x, g2) /\ same_links g g1 /\ same_links g g2) /\
  (exists c, CommonNeighbors g i j = Ok c /\ CommonNeighbors g j i = Ok c).
Proof. exact (similarity_symmetric g i j). Qed.

(** C38: what the indices are. *)
Theorem C38_jaccard_value g i j : undirected g -> i < length g -> j < length g ->
  exists g', same_links g g' /\ JaccardIndex g i j = Ok (if common g i j =? 0 then n0 else
    ndiv (nofnat (common g i j)) (nofnat ((degree g i - linked01 g i j) + (degree g j - linked01 g i j) - common g i j)), g').
Proof. exact (JaccardIndex_count g i j). Qed.
Theorem C38_overlap_value g i j : undirected g -> i < length g -> j < length g ->
  exists g', same_links g g' /\
  TopologicalOverlap g i j = Ok (ndiv (nofnat (common g i j + linked01 g i j)) (nofnat (min (degree g i) (degree g j))), g').
Proof. exact (TopologicalOverlap_count g i j). Qed.
End Generic.

(** C38: bounds in exact arithmetic. *)
Theorem C38_jaccard_bounds ex sq (g : net Qc) i j x g' : undirected g -> i < length g -> j < length g ->
  JaccardIndex (ops := Qc_ops ex sq) g i j = Ok (x, g') -> (0 <= x)%Qc /\ (x <= 1)%Qc.
Proof. exact (JaccardIndex_bounds ex sq g i j x g'). Qed.
Theorem C38_overlap_bounds ex sq (g : net Qc) i j x g' : undirected g -> i < length g -> j < length g -> 0 < degree g i -> 0 < degree g j ->
  TopologicalOverlap (ops := Qc_ops ex sq) g i j = Ok (x, g') -> (0 <= x)%Qc /\ (x <= 1)%Qc.
Proof. exact (TopologicalOverlap_bounds ex sq g i j x g'). Qed.

(** C38: the overlap with an isolated node is not a number (doubles). *)
Theorem C38_overlap_isolated_refuted ex (g : net spec_float) i j : undirected g -> i < length g -> j < length g -> nbrs g i = [] ->
  exists g', TopologicalOverlap (ops := SF_ops ex) g i j = Ok (S754_nan, g').
Proof.
  intros U Li Lj N. destruct (TopologicalOverlap_count (ops := SF_ops ex) g i j U Li Lj) as (g' & _ & E). exists g'. rewrite E.
  assert (Hd : degree g i = 0) by (unfold degree; now rewrite N).
  assert (common g i j = 0 /\ linked01 g i j = 0) as [-> ->].
  { unfold linked01. rewrite N. split; auto. rewrite (common_members g i j) by apply U. now rewrite N. }
  rewrite Hd. reflexivity.
Qed.

(** C44: average path length and average inverse distance. *)
Theorem C44_path_length ex sq (g : net Qc) dist : wf_net g -> (forall s v d, dist s v = Some d <-> distance g s v d) ->
  (forall s v d, distance g s v d -> d < HIST) -> 2 <= length g ->
  exists x g', AveragePathLength (ops := Qc_ops ex sq) g = Ok (x, g') /\ same_but_state g g' /\
    ((forall s v, s < length g -> v < length g -> reachable g s v) ->
       x = (Qsum (fun s => Qsum (fun v => match dist s v with Some d => Qc_of_nat d | None => 0%Qc end) (seq 0 (length g))) (seq 0 (length g))
            / (Qc_of_nat (length g) * Qc_of_nat (length g - 1)))%Qc) /\
    (~ (forall s v, s < length g -> v < length g -> reachable g s v) -> x = Q2Qc (-1 # 1)).
Proof. intros W Hd F. apply (AveragePathLength_spec ex sq g W dist Hd). intros s v d H. apply Hd in H. eauto. Qed.
Theorem C44_inverse_distance ex sq (g : net Qc) dist : wf_net g -> (forall s v d, dist s v = Some d <-> distance g s v d) ->
  (forall s v d, distance g s v d -> d < HIST) -> 2 <= length g ->
  exists x g', AverageInverseDistance (ops := Qc_ops ex sq) g = Ok (x, g') /\ same_but_state g g' /\
    x = (Qsum (fun s => Qsum (fun v => match dist s v with Some d => if (d =? 0)%nat then 0%Qc else 1 / Qc_of_nat d | None => 0%Qc end) (seq 0 (length g))) (seq 0 (length g))
            / (Qc_of_nat (length g) * Qc_of_nat (length g - 1)))%Qc.
Proof. intros W Hd F. apply (AverageInverseDistance_spec ex sq g W dist Hd). intros s v d H. apply Hd in H. eauto. Qed.
(** C44: distances always have such a function. *)
Theorem C44_distances {A} (g : net A) : wf_net g -> exists dist, forall s v d, dist s v = Some d <-> distance g s v d.
Proof. exact (distances g). Qed.
(** C44: a line of 10001 nodes makes both functions write outside the histogram. *)
Theorem C44_long_line_refuted ex sq : exists g : net Qc, undirected g /\ length g = HIST + 1 /\
  AveragePathLength (ops := Qc_ops ex sq) g = Err UB_oob /\ AverageInverseDistance (ops := Qc_ops ex sq) g = Err UB_oob.
Proof.
  destruct (line (ops := Qc_ops ex sq) HIST) as (g & U & L & H). exists g. split; [exact U|]. split; [exact L|].
  destruct (distances g (un_wf g U)) as [dist Hd].
  apply (AveragePathLength_oob ex sq g (un_wf g U) dist Hd HIST HIST).
  - apply Hd. specialize (H 0 HIST). rewrite Nat.max_0_l, Nat.min_0_l, Nat.sub_0_r in H. apply H; rewrite Nat.add_1_r; [apply Nat.lt_0_succ|apply Nat.lt_succ_diag_r].
  - apply le_n.
Qed.

(** * The hypotheses are met: a triangle with a pendant node and an isolated node, built with the library's own functions. *)
Definition names5 : list label := [["a"%char]; ["b"%char]; ["c"%char]; ["d"%char]; ["e"%char]].
Definition kite_ops {A} {ops : NumOps A} : list (gop (A := A)) :=
  [LinkOp 0 1 false n1 1; LinkOp 1 2 true n1 1; DegreeOp 1; LinkOp 0 2 false n1 1; LinkOp 2 3 false n1 1; LinkOp 3 4 false n1 1;
   LinkOp 1 2 true n1 1; LinkOp 3 3 false n1 1; UnlinkOp 3 4].
Definition kite {A} {ops : NumOps A} : net A :=
  match (do g <- foldM (fun g l => do (_, g) <- CreateNodeGraph g l; Ok g) [] names5; foldM run_gop g kite_ops) with Ok g => g | Err _ => [] end.
Lemma kite_undirected {A} {ops : NumOps A} : undirected kite /\ length kite = 5.
Proof.
  unfold kite. destruct (C25_create_nodes names5) as (g0 & -> & U0 & L0 & N0); [repeat constructor|]. cbn [bind].
  assert (Ln : length g0 = 5) by (rewrite <- (map_length glabel), L0; reflexivity).
  assert (W0 : forall a b, weight g0 a b = None).
  { intros a b. destruct (weight g0 a b) eqn:E; auto. exfalso. assert (Hi : In b (nbrs g0 a)) by (apply nbrs_weight; congruence). rewrite N0 in Hi. destruct Hi. }
  destruct (C25_sequences kite_ops g0 U0) as (g & -> & U & Sn & _).
  { rewrite Ln. unfold kite_ops. cbn -[lt]. splits; try lia; auto. rewrite ?W0. discriminate. }
  split; auto. now rewrite <- (same_nodes_length _ _ Sn).
Qed.
#[local] Instance opsE : NumOps Qc := Qc_ops ex0 sq0.
Example kite_links : map (nbrs (kite (A := Qc))) (seq 0 5) = [[1; 2]; [0; 2]; [1; 0; 3]; [2]; []] /\ weight (kite (A := Qc)) 1 2 = Some (Q2Qc 2).
Proof. vm_compute. auto. Qed.
(** A half and the like are good draws: a real randomization that makes a switch. *)
Definition two_ops : list (gop (A := Qc)) := [LinkOp 0 1 false 1%Qc 1; LinkOp 2 3 false 1%Qc 1].
Definition two : net Qc :=
  match (do g <- foldM (fun g l => do (_, g) <- CreateNodeGraph g l; Ok g) [] (firstn 4 names5); foldM run_gop g two_ops) with Ok g => g | Err _ => [] end.
Example two_undirected : undirected two.
Proof.
  unfold two. destruct (C25_create_nodes (A := Qc) (firstn 4 names5)) as (g0 & -> & U0 & L0 & N0); [repeat constructor|]. cbn [bind].
  assert (Ln : length g0 = 4) by (rewrite <- (map_length glabel), L0; reflexivity).
  destruct (C25_sequences two_ops g0 U0) as (g & -> & U & _); [rewrite Ln; unfold two_ops; cbn -[lt]; splits; auto; lia|]. exact U.
Qed.
Definition draws4 : list Qc := [Q2Qc (1 # 2); 0%Qc; Q2Qc (1 # 2); Q2Qc (3 # 4)].
Example two_switch : Forall good_draw draws4 /\ map (nbrs two) (seq 0 4) = [[1]; [0]; [3]; [2]] /\
  match RandomizeSymmetricNetwork two 0%Qc draws4 with Ok (g', _) => map (nbrs g') (seq 0 4) = [[3]; [2]; [1]; [0]] | Err _ => False end.
Proof.
  split; [|split; vm_compute; reflexivity].
  repeat constructor; apply (good_draw_Qc ex0 sq0); first [discriminate|reflexivity].
Qed.
(** The edgeless network of C26: with a first draw above zero there is an iteration. *)
Example edgeless_met : exists g : net Qc, wf_net g /\ (forall i, nbrs g i = []) /\ 0 < nceil (nadd (nmul 1%Qc (nofnat 0)) (Q2Qc (1 # 2))).
Proof. destruct (C25_create_nodes (A := Qc) names5) as (g & _ & U & _ & N); [repeat constructor|]. exists g. split; [apply U|]. split; auto. Qed.
(** The values of the indices, the connectivity and the path length on the network with a triangle. *)
Example kite_values : exists g1 g2 g3 g4 g5,
  JaccardIndex kite 0 1 = Ok (1%Qc, g1) /\ TopologicalOverlap kite 0 3 = Ok (1%Qc, g2) /\ JaccardIndex kite 0 2 = Ok (Q2Qc (1 # 2), g3) /\
  IsGraphConnected kite = Ok (false, g4) /\ IsGraphConnected (firstn 4 kite) = Ok (true, g5).
Proof. do 5 eexists. vm_compute. splits; reflexivity. Qed.
Example kite_laplacian : exists g', LaplacianMat (kite (A := Qc)) =
  Ok (Some [[2; -1; -1; 0; 0]; [-1; 2; -1; 0; 0]; [-1; -1; 3; -1; 0]; [0; 0; -1; 1; 0]; [0; 0; 0; 0; 0]]%Z, g').
Proof. eexists. vm_compute. reflexivity. Qed.
(** Networks of fewer than ten thousand nodes fit the histogram: the line of three nodes. *)
Example line_met : exists g : net Qc, wf_net g /\ (forall s v d, distance g s v d -> d < HIST) /\ 2 <= length g /\ reachable g 0 2.
Proof.
  destruct (line (A := Qc) 2) as (g & U & L & H). exists g. split; [apply U|]. split; [|split; [lia|exists 2; apply (H 0 2); lia]].
  intros s v d Hd. assert (Hs : s < 3 /\ v < 3).
  { destruct Hd as [P _]. split; [clear - P L; induction P; lia|]. destruct P as [i Hi|m i j w P Hw]; [lia|]. destruct (nbrs_lt g j w (un_wf g U) Hw); lia. }
  assert (d <= 2). { destruct Hd as [_ M]. destruct (H s v) as [P _]; try lia. specialize (M _ P). lia. }
  apply Nat.le_lt_trans with 2; auto. apply Nat.ltb_lt. vm_compute. reflexivity.
Qed.

Print Assumptions C25_create_nodes.
Print Assumptions C25_sequences.
Print Assumptions C25_queries.
Print Assumptions C25_remove_absent_refuted.
Print Assumptions C26_randomize.
Print Assumptions C26_edgeless_refuted.
Print Assumptions C28_connected.
Print Assumptions C28_empty_refuted.
Print Assumptions C28_layers.
Print Assumptions C37_laplacian.
Print Assumptions C38_symmetric.
Print Assumptions C38_jaccard_value.
Print Assumptions C38_overlap_value.
Print Assumptions C38_jaccard_bounds.
Print Assumptions C38_overlap_bounds.
Print Assumptions C38_overlap_isolated_refuted.
Print Assumptions C44_path_length.
Print Assumptions C44_inverse_distance.
Print Assumptions C44_distances.
Print Assumptions C44_long_line_refuted.

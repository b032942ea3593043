(** Properties30.v -- the printed histograms of distances (C165-C167). *)
From Coq Require Import List Arith ZArith Bool QArith Qcanon Lia.
From Verif Require Import Base Num ListLib NatSum QcSum IoModel GraphModel GraphSpec GraphProof GraphSim BfsModel BfsProof RolesBounds PathLen StatProof BtwCount HistModel HistProof GraphSeq Refute Properties4.
Import ListNotations.
Local Open Scope nat_scope.

Section Exact.
Variables ex sq : Qc -> Qc.
#[local] Instance ops30 : NumOps Qc := Qc_ops ex sq.
Section Net.
Variables (g : net Qc) (dist : nat -> nat -> option nat).
Notation N := (length g).
(** The number of ordered pairs of nodes at distance [d]. *)
Definition pairs_apart (d : nat) : nat :=
  length (filter (fun '(s, v) => match dist s v with Some k => k =? d | None => false end) (list_prod (seq 0 N) (seq 0 N))).
Notation all_pairs := (Qc_of_nat N * Qc_of_nat (N - 1))%Qc.
(** C165: a row for every distance that occurs, with the share of the pairs; the average, the normalisation and z. *)
Theorem C165_histogram : wf_net g -> (forall s v d, dist s v = Some d <-> distance g s v d) -> (forall s v d, distance g s v d -> d < HIST) -> 2 <= N ->
  exists rows av norm z g', FPrintDistanceHistogram g = Ok (rows, av, norm, z, g') /\ same_but_state g g' /\
    rows = map (fun d => (d, Qc_of_nat (pairs_apart d) / all_pairs)%Qc) (filter (fun d => 0 <? pairs_apart d) (seq 1 (N - 1))) /\
    (forall d, 0 < pairs_apart d -> d < N) /\
    av = (Qsum (fun s => Qsum (fun v => match dist s v with Some d => Qc_of_nat d | None => 0%Qc end) (seq 0 N)) (seq 0 N) / all_pairs)%Qc /\
    norm = (Qsum (fun s => Qsum (fun v => match dist s v with Some d => if d =? 0 then 0%Qc else 1%Qc | None => 0%Qc end) (seq 0 N)) (seq 0 N) / all_pairs)%Qc /\
    z = (Qc_of_nat (pairs_apart 1) / Qc_of_nat N)%Qc /\
    ((forall s v, s < N -> v < N -> reachable g s v) -> norm = 1%Qc).
Proof.
  intros W Hd F H2. destruct (Histogram_spec ex sq g W dist Hd) as (g' & S & E); auto. { intros s v d H. apply Hd in H. eauto. }
  do 5 eexists. split; [exact E|]. split; [exact S|]. split; [reflexivity|]. split; [exact (pairs_bound g W dist Hd)|]. split; [reflexivity|]. split; [reflexivity|]. split; [reflexivity|].
  intros HR. rewrite (joined_all g W dist Hd H2 HR). apply Qcmult_inv_r. apply Qc_neq_pos. replace 0%Qc with (0 * Qc_of_nat (N - 1))%Qc by ring. apply Qcmult_lt_compat_r; apply Qc_of_nat_pos; lia.
Qed.
(** C166: the average distance and the number of nodes next to one node; zeros for a number that no node has. *)
Theorem C166_from_node s : wf_net g -> (forall s v d, dist s v = Some d <-> distance g s v d) -> (forall s v d, distance g s v d -> d < HIST) -> 2 <= N ->
  exists av z g', FPrintDistanceHistogramFromNode g s = Ok (av, z, g') /\ same_but_state g g' /\
    (s < N -> av = (Qsum (fun v => match dist s v with Some d => Qc_of_nat d | None => 0%Qc end) (seq 0 N) / Qc_of_nat (N - 1))%Qc /\
              z = Qc_of_nat (length (filter (fun v => match dist s v with Some k => k =? 1 | None => false end) (seq 0 N)))) /\
    (N <= s -> av = 0%Qc /\ z = 0%Qc).
Proof.
  intros W Hd F H2. destruct (FromNode_spec ex sq g W dist Hd s) as (g' & S & E); auto. { intros u v d H. apply Hd in H. eauto. }
  do 3 eexists. split; [exact E|]. split; [exact S|]. destruct (Nat.ltb_spec s N) as [H|H]; (split; intros H'; [try lia|try lia]); split; auto.
Qed.
End Net.
(** C167: the histogram is not printed for every network: the line of 10001 nodes makes the function write outside its table. *)
Theorem C167_long_line_refuted : exists g : net Qc, undirected g /\ length g = HIST + 1 /\ FPrintDistanceHistogram g = Err UB_oob.
Proof.
  destruct (GraphSeq.line (ops := Qc_ops ex sq) HIST) as (g & U & L & H). exists g. split; [exact U|]. split; [exact L|].
  destruct (distances g (un_wf g U)) as [dist Hd].
  apply (Histogram_oob ex sq g (un_wf g U) dist Hd HIST HIST).
  - apply Hd. specialize (H 0 HIST). rewrite Nat.max_0_l, Nat.min_0_l, Nat.sub_0_r in H. apply H; rewrite Nat.add_1_r; [apply Nat.lt_0_succ|apply Nat.lt_succ_diag_r].
  - apply le_n.
Qed.
End Exact.

(** The hypotheses are met by the line of three nodes, whose distances are known. *)
Example line3_met : exists g : net Qc, exists dist, wf_net g /\ (forall s v d, dist s v = Some d <-> distance g s v d) /\ (forall s v d, distance g s v d -> d < HIST) /\
  2 <= length g /\ pairs_apart g dist 1 = 4 /\ pairs_apart g dist 2 = 2.
Proof.
  destruct (GraphSeq.line (A := Qc) (ops := Qc_ops ex0 sq0) 2) as (g & U & L & H). destruct (distances g (un_wf g U)) as [dist Hd]. exists g, dist. split; [apply U|]. split; [exact Hd|].
  assert (V : forall s v, s < 3 -> v < 3 -> dist s v = Some (Nat.max s v - Nat.min s v)) by (intros s v Hs Hv; apply Hd, H; lia).
  split; [|split; [lia|]].
  - intros s v d X. assert (Hs : s < 3 /\ v < 3).
    { destruct X as [P _]. split; [clear - P L; induction P; lia|]. destruct P as [i Hi|m i j w P Hw]; [lia|]. destruct (nbrs_lt g j w (un_wf g U) Hw); lia. }
    apply Hd in X. rewrite V in X by lia. injection X as <-. apply Nat.le_lt_trans with 2; [lia|]. apply Nat.ltb_lt. vm_compute. reflexivity.
  - unfold pairs_apart. rewrite L. cbn [Nat.add seq list_prod map app filter]. rewrite !V by lia. split; reflexivity.
Qed.

Print Assumptions C165_histogram.
Print Assumptions C166_from_node.
Print Assumptions C167_long_line_refuted.
Print Assumptions line3_met.

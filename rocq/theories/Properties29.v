(** Properties29.v -- removing a node of a two-sided network; statistics of the participation coefficients (C161-C164). *)
From Coq Require Import List Arith ZArith Bool QArith Qcanon Lia.
From Coq Require Import Strings.Ascii.
From Verif Require Import Base Num ListLib QcSum IoModel IoSpec GraphModel GraphSpec ToolsProof BipartModel BipartSpec RecAux NodeModel NodeSpec NodeProof NodeStat Refute Properties8.
Import ListNotations.
Local Open Scope nat_scope.

Section Any.
Context {A : Type} {ops : NumOps A}.
(** C161: the first node of the list with the label goes, with its links; nothing else changes but the numbers. *)
Theorem C161_removed (b : binet A) lab first b' : bipartite b -> RemoveNodeBipart b lab first = Ok b' ->
  (exists p, In p (side_of b first) /\ label_of (bmem b) p = lab /\ removed b p b') /\
  named b' first = without_first lab (named b first) /\ named b' (negb first) = named b (negb first).
Proof.
  intros B E. split; [|exact (RemoveNodeBipart_labels b lab first b' B E)]. pose proof (RemoveNodeBipart_spec b lab first B) as H. rewrite E in H. destruct H as (k & p & Ek & El & _ & R). exists p. splits; auto. eapply nth_error_In; eauto.
Qed.
(** C162: it works exactly for the labels of the list; for any other it follows the null pointer at the end. *)
Theorem C162_exactly (b : binet A) lab first : bipartite b ->
  (In lab (named b first) <-> exists b', RemoveNodeBipart b lab first = Ok b') /\ (~ In lab (named b first) <-> RemoveNodeBipart b lab first = Err UB_null).
Proof.
  intros B. pose proof (RemoveNodeBipart_spec b lab first B) as H. unfold named. destruct (RemoveNodeBipart b lab first) as [b'|e].
  - destruct H as (k & p & Ek & El & _ & _). assert (X : In lab (map (label_of (bmem b)) (side_of b first))) by (apply in_map_iff; exists p; split; auto; eapply nth_error_In; eauto). split; [split; eauto|split; [contradiction|discriminate]].
  - destruct H as [-> H]. assert (X : ~ In lab (map (label_of (bmem b)) (side_of b first))) by (rewrite in_map_iff; intros (q & Eq & Hq); exact (H q Hq Eq)). split; [split; [contradiction|intros (b' & [=])]|split; auto].
Qed.
End Any.

Section Exact.
Variables ex sq : Qc -> Qc.
#[local] Instance ops29 : NumOps Qc := Qc_ops ex sq.
Notation statistics b := (StatisticsParticipationCoefficientBipart (bmem b) (bset1 b)).
(** C163: mean, deviation, least and greatest of the participation coefficients of the first list. *)
Theorem C163_statistics (b : binet Qc) : bipartite b -> bset1 b <> [] -> let N := length (bset1 b) in
  (forall i, In i (bset1 b) -> peers (bmem b) i <> [] /\ grouped (bmem b) N i) -> let ps := map (participation (bmem b) N) (bset1 b) in
  exists lo hi, statistics b = Ok ((Qsum (fun x => x) ps / Qc_of_nat N)%Qc, if Qc_eq_dec (variance ps) 0 then 0%Qc else sq (variance ps), lo, hi) /\
    In lo ps /\ In hi ps /\ (forall x, In x ps -> (lo <= x)%Qc /\ (x <= hi)%Qc) /\ (0 <= lo)%Qc /\ (hi <= 1 - / Qc_of_nat N)%Qc.
Proof.
  intros B Hne N H ps. pose proof (Statistics_spec ex sq b B) as S. cbv zeta in S. destruct (statistics b) as [[[[m s] lo] hi]|e].
  - destruct S as (_ & _ & S). destruct (S ltac:(intros; now apply H)) as (-> & -> & S'). exists lo, hi. split; auto.
  - destruct S as (_ & [S|(i & Hi & S)]); [contradiction|]. exfalso. apply S. now apply H.
Qed.
(** C164: it stays within its tables exactly if there is a node and every node that shares a team with another has a group below the number of nodes. *)
Theorem C164_exactly (b : binet Qc) : bipartite b ->
  ((bset1 b <> [] /\ forall i, In i (bset1 b) -> grouped (bmem b) (length (bset1 b)) i) <-> exists r, statistics b = Ok r) /\
  (~ (bset1 b <> [] /\ forall i, In i (bset1 b) -> grouped (bmem b) (length (bset1 b)) i) <-> statistics b = Err UB_oob).
Proof.
  intros B. pose proof (Statistics_spec ex sq b B) as S. cbv zeta in S. destruct (statistics b) as [[[[m s] lo] hi]|e].
  - destruct S as (S1 & S2 & _). split; [split; eauto|split; [intros X; exfalso; apply X; auto|discriminate]].
  - destruct S as (-> & S). assert (X : ~ (bset1 b <> [] /\ forall i, In i (bset1 b) -> grouped (bmem b) (length (bset1 b)) i)) by (intros [H1 H2]; destruct S as [S|(i & Hi & S)]; auto). split; [split; [contradiction|intros (r & [=])]|split; auto].
Qed.
End Exact.

(** * Examples: the crew of Properties8: a, b, c in the teams t (all) and u (a and b). *)
#[local] Instance opsE29 : NumOps Qc := Qc_ops ex0 sq0.
Definition seen29 (r : res (binet Qc)) : option (list nat * list nat * list (label * nat * list (nat * label * option nat * Q))) + err :=
  match r with
  | Ok b => inl (Some (bset1 b, bset2 b, map (fun n => (glabel n, gnum n, map (fun l => (lnode l, llabel l, lref l, this (lweight l))) (gadj n))) (bmem b)))
  | Err e => inr e
  end.
(** Without a: b and c are renumbered, also in the links of the teams. *)
Example without_a : seen29 (RemoveNodeBipart crew ["a"%char] true) =
  inl (Some ([0; 1], [2; 3], [(["b"%char], 0, [(0, ["t"%char], Some 2, 1%Q); (1, ["u"%char], Some 3, 1%Q)]); (["c"%char], 1, [(0, ["t"%char], Some 2, 1%Q)]);
    (["t"%char], 0, [(0, ["b"%char], Some 0, 1%Q); (1, ["c"%char], Some 1, 1%Q)]); (["u"%char], 1, [(0, ["b"%char], Some 0, 1%Q)])])).
Proof. vm_compute. reflexivity. Qed.
Example without_t : seen29 (RemoveNodeBipart crew ["t"%char] false) =
  inl (Some ([0; 1; 2], [3], [(["a"%char], 0, [(0, ["u"%char], Some 3, 1%Q)]); (["b"%char], 1, [(0, ["u"%char], Some 3, 1%Q)]); (["c"%char], 2, []); (["u"%char], 0, [(0, ["a"%char], Some 0, 1%Q); (1, ["b"%char], Some 1, 1%Q)])])).
Proof. vm_compute. reflexivity. Qed.
Example crew29 : bipartite crew /\ named crew true = [["a"%char]; ["b"%char]; ["c"%char]] /\ named crew false = [["t"%char]; ["u"%char]] /\ seen29 (RemoveNodeBipart crew ["t"%char] true) = inr UB_null.
Proof. splits; [exact crew_met|reflexivity|reflexivity|vm_compute; reflexivity]. Qed.
Lemma crew_grouped i : In i (bset1 crew) -> peers (bmem crew) i <> [] /\ grouped (bmem crew) 3 i.
Proof.
  intros Hi. cbn in Hi. destruct Hi as [<-|[<-|[<-|[]]]]; (split; [discriminate|]); intros j Hj; cbn in Hj; repeat (destruct Hj as [<-|Hj]; [do 2 eexists; splits; try reflexivity; lia|]); destruct Hj.
Qed.
Example crew_statistics : bset1 crew <> [] /\ (forall i, In i (bset1 crew) -> peers (bmem crew) i <> [] /\ grouped (bmem crew) (length (bset1 crew)) i) /\
  match StatisticsParticipationCoefficientBipart (bmem crew) (bset1 crew) with Ok (m, _, lo, hi) => Some (this m, this lo, this hi) | Err _ => None end = Some (17 # 54, 0%Q, 1 # 2)%Q.
Proof. splits; [discriminate|exact crew_grouped|vm_compute; reflexivity]. Qed.
(** Without groups, or without nodes, it reads outside its tables. *)
Definition nobody : binet Qc := mkBi [] [] [].
Example nobody_statistics : bipartite nobody /\ StatisticsParticipationCoefficientBipart (bmem nobody) (bset1 nobody) = Err UB_oob.
Proof. split; [|reflexivity]. split; cbn; auto; try (intros; destruct k; discriminate); try (intros; destruct i; discriminate); try (intros [|i]; cbn; intros; try contradiction; constructor); intros [|i]; intros; try contradiction; try constructor; destruct j; reflexivity. Qed.
Example teams_statistics : bipartite (mkBi (bmem crew) (bset2 crew) (bset1 crew)) /\ StatisticsParticipationCoefficientBipart (bmem crew) (bset2 crew) = Err UB_oob.
Proof. split; [exact (RecAux.bi_swap crew crew_met)|vm_compute; reflexivity]. Qed.

Print Assumptions C161_removed.
Print Assumptions C162_exactly.
Print Assumptions C163_statistics.
Print Assumptions C164_exactly.

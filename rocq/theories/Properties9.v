(** Properties9.v -- files and copies of networks with two kinds of nodes: C55, C56, C57. *)
From Coq Require Import List Arith ZArith Lia Bool Permutation QArith Qcanon.
From Coq Require Import Strings.Ascii.
From Verif Require Import Base Num ListLib IoModel IoSpec IoProof GraphModel GraphSpec GraphProof BipartModel BipartSpec BipartRen BipartMem BipartProj BipartFile BipartCopy Refute Properties8.
Import ListNotations.
Local Open Scope nat_scope.
Local Open Scope list_scope.

Section Generic.
Context {A : Type} {ops : NumOps A}.
Implicit Types b : binet A.

(** C55: the network built from a file is that of its rows. *)
Theorem C55_reads scan_lf weighted add file lines es : lines_of file lines -> Forall2 (line_holds scan_lf weighted) lines es ->
  (forall a c w, In (a, c, w) es -> length a < 100 /\ length c < 100) ->
  exists b, FBuildNetworkBipart scan_lf file weighted add = Ok (Some b) /\ network_of add es b.
Proof. exact (FBuildNetworkBipart_reads scan_lf weighted add file lines es). Qed.
(** C55: a line without its fields makes the function return no network. *)
Theorem C55_refuses scan_lf weighted add file lines l : lines_of file lines -> In l lines -> (forall e, ~ line_holds scan_lf weighted l e) ->
  (forall s w t, file = s ++ w ++ t -> word w -> length w < 100) -> FBuildNetworkBipart scan_lf file weighted add = Ok None.
Proof. exact (FBuildNetworkBipart_refuses scan_lf weighted add file lines l). Qed.

(** C56: a network is written as its rows, one per line, ... *)
Theorem C56_text show b weighted : bipartite b -> FPrintBipart show b weighted = Ok (concat (map (row_line show weighted) (rows_of b))).
Proof. exact (FPrintBipart_text show b weighted). Qed.
(** ... and reading them gives back all nodes with links, and all links. *)
Theorem C56_roundtrip show scan b weighted add : bipartite b -> NoDup (map (label_of (bmem b)) (bset1 b)) -> NoDup (map (label_of (bmem b)) (bset2 b)) ->
  Forall (row_fits show scan weighted) (rows_of b) ->
  exists text b', FPrintBipart show b weighted = Ok text /\ FBuildNetworkBipart scan text weighted add = Ok (Some b') /\ bipartite b' /\
    map (label_of (bmem b')) (bset1 b') = map (label_of (bmem b)) (filter (fun i => 0 <? degree (bmem b) i) (bset1 b)) /\
    (forall lab, In lab (map (label_of (bmem b')) (bset2 b')) <-> exists j, In j (bset2 b) /\ 0 < degree (bmem b) j /\ label_of (bmem b) j = lab) /\
    (forall i j i' j', In i (bset1 b) -> In j (bset2 b) -> In i' (bset1 b') -> In j' (bset2 b') ->
       label_of (bmem b') i' = label_of (bmem b) i -> label_of (bmem b') j' = label_of (bmem b) j ->
       weight (bmem b') i' j' = option_map (fun w => if weighted then w else n1) (weight (bmem b) i j)).
Proof. exact (Bipart_roundtrip show scan b weighted add). Qed.

(** C57: a copy has the same nodes and the same links. *)
Theorem C57_copy b : bipartite b -> NoDup (map (label_of (bmem b)) (bset1 b)) -> NoDup (map (label_of (bmem b)) (bset2 b)) -> labels_fit (bmem b) ->
  exists b', CopyBipart b = Ok b' /\ copy_of b b'.
Proof. exact (CopyBipart_spec b). Qed.
End Generic.

(** * The hypotheses are met. *)
#[local] Instance opsE9 : NumOps Qc := Qc_ops ex0 sq0.
Definition nlc : list ascii := ["010"%char].
Definition show9 (w : Qc) : list ascii := if Qc_eq_dec w (qq 2) then ["2"%char] else ["1"%char].
Definition scan9 (s : list ascii) : option Qc :=
  match s with (" " :: "2" :: _)%char => Some (qq 2) | (" " :: "1" :: _)%char => Some (qq 1) | _ => None end.
Definition rows9 : list (label * label * Qc) := [(["a"], ["t"], qq 2); (["b"], ["t"], qq 1); (["a"], ["t"], qq 1)]%char.
Example rows9_fit : Forall (row_fits show9 scan9 true) rows9.
Proof.
  repeat constructor; cbn; try discriminate; try (intros c [<-|[]]; unfold blank; cbn; intuition discriminate); intuition discriminate.
Qed.
Example read9 : lines_of (concat (map (row_line show9 true) rows9)) (map (row_line show9 true) rows9) /\
  Forall2 (line_holds scan9 true) (map (row_line show9 true) rows9) rows9 /\ (forall a c w, In (a, c, w) rows9 -> length a < 100 /\ length c < 100).
Proof.
  splits.
  - exact (rows_lines show9 scan9 true rows9 rows9_fit).
  - exact (rows_hold show9 scan9 true rows9 rows9_fit).
  - intros a c w H. repeat (destruct H as [H|H]; [injection H as <- <- _; cbn; lia|]). destruct H.
Qed.
Definition read_weight (add : bool) (i j : nat) : option Q :=
  match FBuildNetworkBipart scan9 (concat (map (row_line show9 true) rows9)) true add with
  | Ok (Some b) => option_map this (weight (bmem b) i j)
  | _ => None
  end.
Example read9_weights : (read_weight false 0 1, read_weight true 0 1, read_weight true 2 1) = (Some (2 # 1), Some (3 # 1), Some (1 # 1))%Q.
Proof. vm_compute. reflexivity. Qed.
Example refused9 : lines_of (["a"%char] ++ nlc) [["a"%char] ++ nlc] /\ (forall e, ~ line_holds scan9 true (["a"%char] ++ nlc) e) /\
  (forall s w t, ["a"%char] ++ nlc = s ++ w ++ t -> word w -> length w < 100).
Proof.
  splits.
  - exists [["a"%char] ++ nlc], []. splits; auto. intros l [<-|[]]. exists ["a"%char]. split; auto. cbn. intuition discriminate.
  - intros [[a c] w] (s1 & s2 & rest & E & _ & [Wa _] & Ws & _ & [Wc _] & _). apply (f_equal (@length ascii)) in E. rewrite !app_length in E. cbn in E.
    destruct a, s2, c; cbn in E; congruence || lia.
  - intros s w t E _. apply (f_equal (@length ascii)) in E. rewrite !app_length in E. cbn in E. lia.
Qed.
Example crew_rows : Forall (row_fits show9 scan9 true) (rows_of crew) /\ NoDup (map (label_of (bmem crew)) (bset1 crew)) /\ NoDup (map (label_of (bmem crew)) (bset2 crew)) /\ labels_fit (bmem crew).
Proof.
  splits.
  - repeat constructor; cbn; try discriminate; try (intros c [<-|[]]; unfold blank; cbn; intuition discriminate); intuition discriminate.
  - cbn. repeat constructor; cbn; intuition discriminate.
  - cbn. repeat constructor; cbn; intuition discriminate.
  - intros n Hn. cbn in Hn. repeat (destruct Hn as [<-|Hn]; [cbn; lia|]). destruct Hn.
Qed.
Example crew_copied : exists b', CopyBipart crew = Ok b' /\ weight (bmem b') 0 3 = Some (qq 2) /\ weight (bmem b') 2 4 = None.
Proof. eexists. splits; vm_compute; reflexivity. Qed.

Print Assumptions C55_reads.
Print Assumptions C55_refuses.
Print Assumptions C56_text.
Print Assumptions C56_roundtrip.
Print Assumptions C57_copy.

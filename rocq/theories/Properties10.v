(** Properties10.v -- files, copies, unions and parts of networks: C58 to C65. *)
From Coq Require Import List Arith ZArith Lia Bool Permutation QArith Qcanon.
From Coq Require Import Strings.Ascii.
From Verif Require Import Base Num ListLib IoModel IoSpec IoProof GraphModel GraphSpec GraphProof BipartModel BipartSpec BipartRen BipartFile BipartCopy NetModel NetSpec NetBuild NetPrint NetCopy NetJoin NetNeig Refute Properties4 Properties7 Properties9.
Import ListNotations.
Local Open Scope nat_scope.
Local Open Scope list_scope.

Section Generic.
Context {A : Type} {ops : NumOps A}.
Implicit Types (g ga gb : net A).

(** C58: the network built from a file is that of its rows. *)
Theorem C58_reads scan_lf weighted auto_link add symmetric file lines es : lines_of file lines -> Forall2 (line_holds scan_lf weighted) lines es ->
  (forall a c w, In (a, c, w) es -> length a < 100 /\ length c < 100) ->
  exists g, FBuildNetwork scan_lf file weighted auto_link add symmetric = Ok (Some g) /\ net_of auto_link symmetric add es g.
Proof. exact (FBuildNetwork_reads scan_lf weighted auto_link add symmetric file lines es). Qed.
Theorem C58_refuses scan_lf weighted auto_link add symmetric file lines l : lines_of file lines -> In l lines -> (forall e, ~ line_holds scan_lf weighted l e) ->
  (forall s w t, file = s ++ w ++ t -> word w -> length w < 100) -> FBuildNetwork scan_lf file weighted auto_link add symmetric = Ok None.
Proof. exact (FBuildNetwork_refuses scan_lf weighted auto_link add symmetric file lines l). Qed.
(** C58: read as symmetric and without loops it is a simple undirected network. *)
Theorem C58_undirected add es g : net_of false true add es g -> undirected g.
Proof. exact (net_of_undirected add es g). Qed.

(** C59: a network is written as its rows; as symmetric only those whose first label does not come after the second. *)
Theorem C59_text show g weighted symmetric f : wf_net g -> (forall a c, f a c = true <-> lex a c) ->
  FPrintNetAdjacencyList show g weighted symmetric =
  Ok (concat (map (row_line show weighted) (filter (fun r => negb symmetric || f (fst (fst r)) (snd (fst r))) (all_rows g)))).
Proof. exact (FPrintNetAdjacencyList_text show g weighted symmetric f). Qed.
Theorem C59_roundtrip show scan g weighted add symmetric auto : wf_net g -> NoDup (map glabel g) -> Forall (row_fits show scan weighted) (all_rows g) ->
  (symmetric = true -> forall i j, weight g i j = weight g j i) -> (auto = false -> forall i, ~ In i (nbrs g i)) ->
  exists text g', FPrintNetAdjacencyList show g weighted symmetric = Ok text /\ FBuildNetwork scan text weighted auto add symmetric = Ok (Some g') /\ wf_net g' /\
    NoDup (map glabel g') /\
    (forall lab, In lab (map glabel g') <-> exists i n, nth_error g i = Some n /\ glabel n = lab /\ (nbrs g i <> [] \/ exists j, In i (nbrs g j))) /\
    (forall i j i' j', i < length g -> j < length g -> i' < length g' -> j' < length g' -> label_of g' i' = label_of g i -> label_of g' j' = label_of g j ->
       weight g' i' j' = option_map (fun w => if weighted then w else n1) (weight g i j)).
Proof. exact (Net_roundtrip show scan g weighted add symmetric auto). Qed.

(** C60: a copy is equal but for the caches. *)
Theorem C60_copy g : wf_net g -> NoDup (map glabel g) -> (forall n, In n g -> length (glabel n) < 100) -> CopyNetwork g = Ok (net_copy g).
Proof. exact (CopyNetwork_copy g). Qed.
Theorem C60_copy_links g : wf_net g -> wf_net (net_copy g) /\ map glabel (net_copy g) = map glabel g /\ (forall i, nbrs (net_copy g) i = nbrs g i) /\ (forall i j, weight (net_copy g) i j = weight g i j).
Proof. intros W. split; [exact (net_copy_wf g W)|]. split; [apply net_copy_labels|]. split; intros; [apply net_copy_nbrs|apply net_copy_weight]. Qed.

(** C61: the union of two networks. *)
Theorem C61_union ga gb : wf_net ga -> wf_net gb -> NoDup (map glabel ga) -> NoDup (map glabel gb) ->
  (forall n, In n ga \/ In n gb -> length (glabel n) < 100) ->
  exists s, AddTwoNetworks ga gb = Ok s /\ wf_net s /\ map glabel s = map glabel ga ++ fresh_labels ga (map glabel gb) /\
    (forall i j, i < length s -> j < length s -> weight s i j = rows_weight false (all_rows ga ++ unit_rows gb) (label_of s i) (label_of s j)).
Proof. exact (AddTwoNetworks_union ga gb). Qed.

(** C62: what is left without isolated nodes is the part on the nodes with neighbours ... *)
Theorem C62_removes g : wf_net g -> (forall i j, In j (nbrs g i) -> nbrs g j <> []) ->
  exists g', RemoveIsolatedNodes g = Ok (length g - length (busy g), g') /\ induced g (busy g) g'.
Proof. exact (RemoveIsolatedNodes_removes g). Qed.
(** ... but a node that has no links of its own and is pointed to is released while in use. *)
Theorem C62_sink_freed g i j : wf_net g -> In j (nbrs g i) -> nbrs g j = [] -> RemoveIsolatedNodes g = Err UB_free.
Proof. exact (RemoveIsolatedNodes_frees g i j). Qed.

(** C63: the counts of the comparison of two networks. *)
Theorem C63_counts ga gb : wf_net ga -> wf_net gb -> NoDup (map glabel ga) -> NoDup (map glabel gb) -> exists r, CompareTwoNetworks ga gb = Ok r /\
  nA_nod r = length ga /\ nB_nod r = length gb /\ ncom_nod r = length (filter (known ga) (map glabel gb)) /\
  nA_lin r = Nat.div (length (rows_where ga (fun a c => known gb a && known gb c))) 2 /\
  nB_lin r = Nat.div (length (rows_where gb (fun a c => known ga a && known ga c))) 2 /\
  ncom_lin r = Nat.div (length (rows_where ga (has_row gb))) 2 /\
  p_nAB r = ndiv (nofnat (ncom_nod r)) (nofnat (nB_nod r)) /\ p_nBA r = ndiv (nofnat (ncom_nod r)) (nofnat (nA_nod r)) /\
  p_lAB r = ndiv (nofnat (ncom_lin r)) (nofnat (nB_lin r)) /\ p_lBA r = ndiv (nofnat (ncom_lin r)) (nofnat (nA_lin r)).
Proof. exact (CompareTwoNetworks_counts ga gb). Qed.
(** C63: the counts of common nodes and links do not depend on the order of the two networks. *)
Theorem C63_symmetric ga gb : wf_net ga -> wf_net gb -> NoDup (map glabel ga) -> NoDup (map glabel gb) ->
  length (filter (known ga) (map glabel gb)) = length (filter (known gb) (map glabel ga)) /\
  length (rows_where ga (has_row gb)) = length (rows_where gb (has_row ga)).
Proof. exact (common_symmetric ga gb). Qed.
(** C63: in undirected networks rows come in pairs, so that halving loses nothing. *)
Theorem C63_pairs g P : undirected g -> NoDup (map glabel g) -> (forall a c, P a c = P c a) -> 2 * Nat.div (length (rows_where g P)) 2 = length (rows_where g P).
Proof. exact (pairs_of_rows g P). Qed.

(** C64: the network of a group is the part on its nodes. *)
Theorem C64_group g cells is : wf_net g -> NoDup (map glabel g) -> (forall n, In n g -> length (glabel n) < 100) ->
  Forall2 (cell_at g) cells is -> NoDup is -> exists c, BuildNetFromGroup g cells = Ok c /\ induced g is c /\ (forall n, In n c -> ggroup n = None).
Proof. exact (BuildNetFromGroup_induced g cells is). Qed.

(** C65: in the network of a group and its neighbours every link leads to the first node. *)
Theorem C65_neighbours_refuted g cells is : wf_net g -> NoDup (map glabel g) -> (forall n, In n g -> length (glabel n) < 100) -> Forall2 (cell_at g) cells is ->
  exists c, BuildNetFromGroupNeig g cells = Ok c /\ (cells <> [] -> c <> []) /\ (forall x y, In y (nbrs c x) -> y = 0).
Proof. exact (BuildNetFromGroupNeig_star g cells is). Qed.
End Generic.

(** * The hypotheses are met. *)
Lemma labels_below (g : net Qc) : forallb (fun n => length (glabel n) <? 100) g = true -> forall n, In n g -> length (glabel n) < 100.
Proof. intros H n Hn. rewrite forallb_forall in H. now apply Nat.ltb_lt, H. Qed.
#[local] Instance opsE10 : NumOps Qc := Qc_ops ex0 sq0.
Notation kiteQ := (kite (A := Qc)).
Example kite_fits : wf_net kiteQ /\ NoDup (map glabel kiteQ) /\ (forall n, In n kiteQ -> length (glabel n) < 100) /\
  (forall i j, weight kiteQ i j = weight kiteQ j i) /\ (forall i, ~ In i (nbrs kiteQ i)) /\ (forall i j, In j (nbrs kiteQ i) -> nbrs kiteQ j <> []).
Proof.
  destruct (kite_undirected (A := Qc)) as [U _]. splits.
  - apply U.
  - exact kite_labels.
  - apply labels_below. vm_compute. reflexivity.
  - apply U.
  - apply U.
  - intros i j H. apply (undirected_sym _ _ _ U) in H. intros E. rewrite E in H. destruct H.
Qed.
Lemma letter_row x y w : existsb (Ascii.eqb x) [" "; "009"; "010"; "011"; "012"; "013"]%char = false -> existsb (Ascii.eqb y) [" "; "009"; "010"; "011"; "012"; "013"]%char = false ->
  w = qq 1 \/ w = qq 2 -> row_fits show9 scan9 true ([x], [y], w).
Proof.
  intros Hx Hy Hw. assert (Wd : forall z, existsb (Ascii.eqb z) [" "; "009"; "010"; "011"; "012"; "013"]%char = false -> word [z]).
  { intros z Hz. split; [discriminate|]. intros c [<-|[]] Hb. unfold blank in Hb. rewrite <- not_true_iff_false in Hz. apply Hz. apply existsb_exists. exists z. split; auto. apply Ascii.eqb_refl. }
  unfold row_fits. splits; auto; try (cbn; lia). intros _. destruct Hw as [-> | ->]; split; try reflexivity; cbn; intros [H|[]]; discriminate.
Qed.
Example kite_rows : Forall (row_fits show9 scan9 true) (all_rows kiteQ).
Proof.
  assert (E : all_rows kiteQ = [(["a"], ["b"], qq 1); (["a"], ["c"], qq 1); (["b"], ["a"], qq 1); (["b"], ["c"], qq 2); (["c"], ["b"], qq 2); (["c"], ["a"], qq 1); (["c"], ["d"], qq 1); (["d"], ["c"], qq 1)]%char) by (vm_compute; reflexivity).
  rewrite E. repeat (apply Forall_cons; [apply letter_row; auto|]). apply Forall_nil.
Qed.
(** The kite as text: every link once. *)
Example kite_text : FPrintNetAdjacencyList show9 kiteQ true true =
  Ok (concat (map (row_line show9 true) [(["a"], ["b"], qq 1); (["a"], ["c"], qq 1); (["b"], ["c"], qq 2); (["c"], ["d"], qq 1)]%char)).
Proof. vm_compute. reflexivity. Qed.
(** Reading rows with a loop, a repeated row and its reverse. *)
Definition rows10 : list (label * label * Qc) := [(["a"], ["t"], qq 2); (["t"], ["t"], qq 1); (["t"], ["a"], qq 1)]%char.
Example rows10_fit : Forall (row_fits show9 scan9 true) rows10.
Proof.
  repeat (apply Forall_cons; [apply letter_row; auto|]). apply Forall_nil.
Qed.
Example read10 : lines_of (concat (map (row_line show9 true) rows10)) (map (row_line show9 true) rows10) /\
  Forall2 (line_holds scan9 true) (map (row_line show9 true) rows10) rows10 /\ (forall a c w, In (a, c, w) rows10 -> length a < 100 /\ length c < 100).
Proof.
  splits.
  - exact (rows_lines show9 scan9 true rows10 rows10_fit).
  - exact (rows_hold show9 scan9 true rows10 rows10_fit).
  - intros a c w H. repeat (destruct H as [H|H]; [injection H as <- <- _; cbn; lia|]). destruct H.
Qed.
Definition read_net (auto_link add symmetric : bool) : list (option Q) :=
  match FBuildNetwork scan9 (concat (map (row_line show9 true) rows10)) true auto_link add symmetric with
  | Ok (Some g) => map (fun p => option_map this (weight g (fst p) (snd p))) [(0, 1); (1, 0); (1, 1)]
  | _ => []
  end.
Example read10_weights : (read_net true true true, read_net false false true, read_net true true false) =
  ([Some (3 # 1); Some (3 # 1); Some (1 # 1)], [Some (2 # 1); Some (2 # 1); None], [Some (2 # 1); Some (1 # 1); Some (1 # 1)])%Q.
Proof. vm_compute. reflexivity. Qed.
(** With two nodes of one label the copy has other links than the network. *)
Definition twins : net Qc :=
  [mkNode ["x"%char] 0 0 [mkLink 2 ["y"%char] 0 (Some 2) 0%Qc 1%Qc] None 0%Qc 0 0%Qc; mkNode ["x"%char] 1 0 [] None 0%Qc 0 0%Qc;
   mkNode ["y"%char] 2 0 [mkLink 0 ["x"%char] 0 (Some 0) 0%Qc 1%Qc] None 0%Qc 0 0%Qc].
Theorem C60_same_label_refuted : exists g : net Qc, wf_net g /\ (forall n, In n g -> length (glabel n) < 100) /\ nbrs g 2 = [0] /\ exists c, CopyNetwork g = Ok c /\ nbrs c 2 = [1].
Proof.
  exists twins. splits; [| |reflexivity|eexists; split; vm_compute; reflexivity].
  - split.
    + intros [|[|[|i]]] n E; try (injection E as <-; reflexivity). destruct i; discriminate.
    + intros [|[|[|i]]] n l E Hl; try (injection E as <-; cbn in Hl; try destruct Hl as [<-|[]]; try destruct Hl; do 2 eexists; splits; reflexivity). destruct i; discriminate.
    + intros [|[|[|i]]]; cbn; repeat constructor; cbn; auto. unfold nbrs. cbn. destruct i; constructor.
    + intros [|[|[|i]]] n E; try (injection E as <-; auto). destruct i; discriminate.
  - intros n Hn. cbn in Hn. repeat (destruct Hn as [<-|Hn]; [cbn; lia|]). destruct Hn.
Qed.
(** The union of the kite and the pair of links: b's links are lost as weights, a's are kept. *)
Example two_fits : wf_net two /\ NoDup (map glabel two) /\ (forall n, In n two -> length (glabel n) < 100).
Proof.
  splits.
  - apply two_undirected.
  - vm_compute. repeat constructor; cbn; intuition discriminate.
  - apply labels_below. vm_compute. reflexivity.
Qed.
Example kite_two : match AddTwoNetworks two kiteQ with Ok s => (length s, map (nbrs s) (seq 0 5), option_map this (weight s 1 2)) | Err _ => (0, [], None) end = (5, [[1; 2]; [0; 2]; [3; 1; 0]; [2]; []], Some (1 # 1)%Q).
Proof. vm_compute. reflexivity. Qed.
Example kite_isolated : match RemoveIsolatedNodes kiteQ with Ok (k, g) => (k, length g, map (nbrs g) (seq 0 4)) | Err _ => (0, 0, []) end = (1, 4, [[1; 2]; [0; 2]; [1; 0; 3]; [2]]).
Proof. vm_compute. reflexivity. Qed.
Example sink_met : exists g : net Qc, wf_net g /\ In 1 (nbrs g 0) /\ nbrs g 1 = [].
Proof.
  exists [mkNode ["x"%char] 0 0 [mkLink 1 ["y"%char] 0 (Some 1) 0%Qc 1%Qc] None 0%Qc 0 0%Qc; mkNode ["y"%char] 1 0 [] None 0%Qc 0 0%Qc]. splits; [|cbn; auto|reflexivity]. split.
  - intros [|[|i]] n E; try (injection E as <-; reflexivity). destruct i; discriminate.
  - intros [|[|i]] n l E Hl; try (injection E as <-; cbn in Hl; try destruct Hl as [<-|[]]; try destruct Hl; do 2 eexists; splits; reflexivity). destruct i; discriminate.
  - intros [|[|i]]; cbn; repeat constructor; cbn; auto. unfold nbrs. cbn. destruct i; constructor.
  - intros [|[|i]] n E; try (injection E as <-; auto). destruct i; discriminate.
Qed.
Example kite_compared : match CompareTwoNetworks two kiteQ with Ok r => (ncom_nod r, nA_lin r, nB_lin r, ncom_lin r, this (p_lAB r)) | Err _ => (0, 0, 0, 0, 0%Q) end = (4, 2, 4, 2, (1 # 2)%Q).
Proof. vm_compute. reflexivity. Qed.
Definition cells10 : list (link Qc) := [mkLink 3 ["d"%char] 0 (Some 3) 0%Qc 0%Qc; mkLink 2 ["c"%char] 0 (Some 2) 0%Qc 0%Qc; mkLink 1 ["b"%char] 0 (Some 1) 0%Qc 0%Qc].
Example cells10_met : Forall2 (cell_at kiteQ) cells10 [3; 2; 1] /\ NoDup [3; 2; 1].
Proof. split; [repeat (apply Forall2_cons; [split; [reflexivity|split; [vm_compute; lia|vm_compute; reflexivity]]|]); apply Forall2_nil|repeat constructor; cbn; intuition discriminate]. Qed.
Example kite_group : match BuildNetFromGroup kiteQ cells10 with Ok c => (map (nbrs c) (seq 0 3), option_map this (weight c 1 2)) | Err _ => ([], None) end = ([[1]; [2; 0]; [1]], Some (2 # 1)%Q).
Proof. vm_compute. reflexivity. Qed.
Example kite_neighbours : match BuildNetFromGroupNeig kiteQ cells10 with Ok c => map (nbrs c) (seq 0 3) | Err _ => [] end = [[0]; [0; 0]; [0]].
Proof. vm_compute. reflexivity. Qed.

Print Assumptions C58_reads.
Print Assumptions C58_refuses.
Print Assumptions C58_undirected.
Print Assumptions C59_text.
Print Assumptions C59_roundtrip.
Print Assumptions C60_copy.
Print Assumptions C60_copy_links.
Print Assumptions C60_same_label_refuted.
Print Assumptions C61_union.
Print Assumptions C62_removes.
Print Assumptions C62_sink_freed.
Print Assumptions C63_counts.
Print Assumptions C63_symmetric.
Print Assumptions C63_pairs.
Print Assumptions C64_group.
Print Assumptions C65_neighbours_refuted.

(** Properties35.v -- networks in Pajek format (C180 to C182). *)
From Coq Require Import List Arith Bool Ascii QArith Qcanon Lia.
From Verif Require Import Base Num ListLib IoModel GraphModel GraphSpec GraphProof PajModel PajProof Refute Properties21 Properties31.
Import ListNotations.
Local Open Scope nat_scope.

Section Generic.
Context {A : Type} {ops : NumOps A}.
(** C180: the vertices are numbered from 1 with their labels; a row is there exactly if the link is, from the lower number if links are printed once; no row is there twice. *)
Theorem C180_pajek (g : net A) weighted symmetric : wf_net g ->
  exists f, FPrintPajekFile g weighted symmetric = Ok f /\ pj_count f = length g /\ pj_arcs f = negb symmetric /\
    length (pj_nodes f) = length g /\ (forall i n, nth_error g i = Some n -> nth_error (pj_nodes f) i = Some (i + 1, glabel n)) /\
    NoDup (map fst (pj_links f)) /\
    forall a b w, In (a, b, w) (pj_links f) <-> exists i j x, a = i + 1 /\ b = j + 1 /\ weight g i j = Some x /\ w = (if weighted then Some x else None) /\ (symmetric = true -> i <= j).
Proof.
  intros W. eexists. split; [exact (Pajek_ok g weighted symmetric W)|]. cbn [pj_count pj_nodes pj_arcs pj_links]. splits; auto.
  - rewrite combine_length, seq_length, map_length. lia.
  - intros i n E. assert (Hi : i < length g) by (apply nth_error_Some; congruence). clear W.
    assert (X : forall (g : net A) k i n, nth_error g i = Some n -> nth_error (combine (seq k (length g)) (map glabel g)) i = Some (k + i, glabel n)).
    { clear. induction g as [|m g IH]; intros k [|i] n E; try discriminate; cbn in *; [injection E as ->; now rewrite Nat.add_0_r|]. rewrite (IH (S k) i n E). do 2 f_equal. lia. }
    rewrite (X g 1 i n E). do 2 f_equal. lia.
  - apply rows_once; auto.
  - intros a b w. rewrite (rows_In g weighted symmetric a b w W). split; intros (i & j & x & H1 & H2 & H); exists i, j, x; (split; [lia|]); (split; [lia|]); exact H.
Qed.
(** C181: the file determines the network: with weights, undirected networks of the same file have the same labels and the same links with the same weights, also if each link is printed once. *)
Theorem C181_recovered (g g' : net A) symmetric f : undirected g -> undirected g' -> FPrintPajekFile g true symmetric = Ok f -> FPrintPajekFile g' true symmetric = Ok f ->
  map glabel g = map glabel g' /\ forall i j, weight g i j = weight g' i j.
Proof.
  intros U U' E E'. pose proof (un_wf g U) as W. pose proof (un_wf g' U') as W'. rewrite (Pajek_ok g true symmetric W) in E. rewrite (Pajek_ok g' true symmetric W') in E'.
  set (R := flat_map (rows_at g true symmetric) (seq 0 (length g))) in *. set (R' := flat_map (rows_at g' true symmetric) (seq 0 (length g'))) in *.
  assert (EQ : mkPaj (length g) (combine (seq 1 (length g)) (map glabel g)) (negb symmetric) R = mkPaj (length g') (combine (seq 1 (length g')) (map glabel g')) (negb symmetric) R') by congruence.
  pose proof (f_equal pj_nodes EQ) as EN. pose proof (f_equal pj_links EQ) as ER. cbn [pj_nodes pj_links] in EN, ER. split.
  - assert (X : forall (g : net A) k, map snd (combine (seq k (length g)) (map glabel g)) = map glabel g) by (clear; induction g as [|n g IH]; intros k; cbn; [auto|now rewrite IH]). rewrite <- (X g 1), <- (X g' 1). now rewrite EN.
  - assert (X : forall i j x, i <= j -> weight g i j = Some x <-> weight g' i j = Some x).
    { intros i j x Hij. assert (Y : forall (h : net A), wf_net h -> weight h i j = Some x <-> In (S i, S j, Some x) (flat_map (rows_at h true symmetric) (seq 0 (length h)))).
      { intros k Wk. rewrite (rows_In k true symmetric _ _ _ Wk). split; [intros H; exists i, j, x; splits; auto|]. intros (i' & j' & x' & H1 & H2 & H3 & H4 & _). assert (i' = i) by lia. assert (j' = j) by lia. subst. assert (x' = x) by congruence. now subst. }
      rewrite (Y g W), (Y g' W'). fold R R'. now rewrite ER. }
    assert (Z : forall i j, i <= j -> weight g i j = weight g' i j). { intros i j Hij. destruct (weight g i j) as [x|] eqn:E1; [symmetry; now apply X|]. destruct (weight g' i j) as [y|] eqn:E2; auto. apply X in E2; auto. congruence. }
    intros i j. destruct (Nat.le_ge_cases i j) as [L|L]; [now apply Z|]. rewrite (un_sym g U), (un_sym g' U'). now apply Z.
Qed.
(** C182: the list of degrees has, for each node in order, its label and its number of neighbours; printing it changes nothing but what is remembered of degrees. *)
Theorem C182_degrees (g : net A) : wf_net g -> exists out g', FPrintDegrees g = Ok (out, g') /\ length out = length g /\
  (forall i n, nth_error g i = Some n -> nth_error out i = Some (glabel n, length (nbrs g i))) /\
  wf_net g' /\ same_nodes g g' /\ (forall i, nbrs g' i = nbrs g i) /\ forall i j, weight g' i j = weight g i j.
Proof.
  intros W. destruct (Degrees_ok g W) as (g' & E & W' & S' & N' & Wt). eexists _, g'. split; [exact E|]. split; [now rewrite map_length, seq_length|]. split; [|splits; auto].
  intros i n En. assert (Hi : i < length g) by (apply nth_error_Some; congruence). rewrite nth_error_map. assert (Es : nth_error (seq 0 (length g)) i = Some i). { rewrite (nth_error_nth' _ 0) by (rewrite seq_length; auto). now rewrite seq_nth. } rewrite Es. cbn [option_map]. rewrite En. reflexivity.
Qed.
End Generic.

(** The hypotheses are met by the network of 7 nodes: each of its 8 links is in one row. *)
#[local] Instance opsE35 : NumOps Qc := Qc_ops ex0 sq0.
Example net7_pajek : undirected net7 /\ match FPrintPajekFile net7 false true with Ok f => (pj_count f, map fst (pj_links f)) | Err _ => (0, []) end =
  (7, [(1, 2); (1, 3); (1, 4); (2, 5); (3, 6); (4, 6); (5, 7); (6, 7)]).
Proof. split; [apply net7_met|vm_compute; reflexivity]. Qed.
Example net7_degrees : match FPrintDegrees net7 with Ok (out, _) => map snd out | Err _ => [] end = [3; 2; 2; 2; 2; 3; 2].
Proof. vm_compute. reflexivity. Qed.

Print Assumptions C180_pajek.
Print Assumptions C181_recovered.
Print Assumptions C182_degrees.
Print Assumptions net7_pajek.
Print Assumptions net7_degrees.

(** GraphSeq.v -- networks made from scratch: creation of nodes, sequences of link operations, and the line networks used as
    witnesses. *)
From Coq Require Import List Arith Ascii Lia Bool Permutation QArith.
From Verif Require Import Base ListLib PartInv IoModel GraphModel GraphSpec GraphProof BfsModel BfsProof.
Import ListNotations.
Local Open Scope nat_scope.

Section Seq.
Context {A : Type} {ops : NumOps A}.
Implicit Types g : net A.

(** The link relation that a sequence of operations should produce: a partial symmetric function on pairs. *)
Definition rel_op (r : nat -> nat -> option A) (o : gop (A := A)) (a b : nat) : option A :=
  match o with
  | LinkOp i j aw w _ =>
      if negb (i =? j) && (((a =? i) && (b =? j)) || ((a =? j) && (b =? i)))
      then match r i j with Some w0 => Some (if aw then nadd w0 w else w0) | None => Some w end
      else r a b
  | UnlinkOp i j => if ((a =? i) && (b =? j)) || ((a =? j) && (b =? i)) then None else r a b
  | DegreeOp _ => r a b
  end.
(** Links are put between existing nodes and only present links are removed. *)
Fixpoint rel_ok (N : nat) (r : nat -> nat -> option A) (os : list (gop (A := A))) : Prop :=
  match os with
  | [] => True
  | o :: os =>
      match o with
      | LinkOp i j _ _ _ => i < N /\ j < N
      | UnlinkOp i j => r i j <> None
      | DegreeOp i => i < N
      end /\ rel_ok N (rel_op r o) os
  end.

Lemma rel_op_ext r r' o : (forall a b, r a b = r' a b) -> forall a b, rel_op r o a b = rel_op r' o a b.
Proof. intros H a b. destruct o; simpl; rewrite ?H; auto. Qed.
Lemma rel_ok_ext N os : forall r r', (forall a b, r a b = r' a b) -> rel_ok N r os -> rel_ok N r' os.
Proof.
  induction os as [|o os IH]; intros r r' H; simpl; auto. intros [H1 H2]. split.
  - destruct o; auto. now rewrite <- H.
  - eapply IH; [|exact H2]. now apply rel_op_ext.
Qed.
Lemma rel_run_ext os : forall r r', (forall a b, r a b = r' a b) -> forall a b, fold_left rel_op os r a b = fold_left rel_op os r' a b.
Proof. induction os as [|o os IH]; intros r r' H a b; simpl; auto. apply IH. now apply rel_op_ext. Qed.

Theorem gops_keep os : forall g, undirected g -> rel_ok (length g) (weight g) os ->
  exists g', foldM run_gop g os = Ok g' /\ undirected g' /\ same_nodes g g' /\ forall a b, weight g' a b = fold_left rel_op os (weight g) a b.
Proof.
  induction os as [|o os IH]; intros g U; cbn [rel_ok foldM fold_left].
  - intros _. exists g. splits; auto using same_nodes_refl.
  - intros [H1 H2]. destruct (gop_keeps g o U) as (g1 & -> & U1 & S1 & W1).
    { destruct o; simpl in *; auto. now apply nbrs_weight. }
    cbn [bind].
    assert (Hw : forall a b, weight g1 a b = rel_op (weight g) o a b) by (intros a b; rewrite W1; destruct o; auto).
    destruct (IH g1 U1) as (g' & -> & U' & S' & W').
    { rewrite <- (same_nodes_length _ _ S1). eapply rel_ok_ext; [|exact H2]. intros; symmetry; auto. }
    exists g'. splits; auto.
    + eapply same_nodes_trans; eauto.
    + intros a b. rewrite W'. now apply rel_run_ext.
Qed.

(** The queries on the result. *)
Theorem queries g i j : undirected g -> i < length g -> j < length g ->
  (exists b, IsThereLink g i j = Ok b /\ IsThereLinkSoft g i j = Ok b /\ (b = true <-> weight g i j <> None)) /\
  (forall w, weight g i j = Some w -> exists l, GetLink g i j = Ok l /\ lref l = Some j /\ lweight l = w) /\
  (exists g', NodeDegree g i = Ok (count (fun k => match weight g i k with Some _ => true | None => false end) (seq 0 (length g)), g') /\
     same_links g g').
Proof.
  intros [W Lp Sy] Li Lj. splits.
  - eexists. splits; [apply IsThereLink_spec|apply IsThereLinkSoft_spec|]; auto. rewrite <- nbrs_weight. destruct (in_dec _ _ _); split; auto; discriminate.
  - intros w E. destruct (GetLink_spec g i j W) as (l & E1 & E2 & E3 & E4); [apply nbrs_weight; congruence|]. exists l. splits; auto. congruence.
  - destruct (NodeDegree_spec g i W Li) as (g' & E & H). exists g'. split; auto. rewrite E. do 2 f_equal.
    unfold degree. rewrite (count_ext _ (fun k => mem k (nbrs g i))).
    + unfold count. apply Permutation_length, NoDup_Permutation.
      * apply (wf_nodup g W).
      * apply NoDup_filter, seq_NoDup.
      * intros k. rewrite filter_In, in_seq. destruct (mem_spec k (nbrs g i)) as [Hk|Hk]; intuition; try discriminate. all: now destruct (nbrs_lt g i k W Hk).
    + intros k _. destruct (mem_spec k (nbrs g i)) as [Hk|Hk]; rewrite nbrs_weight in Hk; destruct (weight g i k); auto; exfalso; apply Hk; congruence.
Qed.

(** Nodes created one after another on an empty network. *)
Theorem create_nodes (ls : list label) : Forall (fun l => length l < 100) ls ->
  exists g, foldM (fun g l => do (_, g) <- CreateNodeGraph g l; Ok g) [] ls = Ok g /\ undirected g /\ map glabel g = ls /\ (forall i, nbrs g i = []).
Proof.
  intros H.
  destruct (foldM_inv (fun done g => map glabel g = done /\ (forall i n, nth_error g i = Some n -> gnum n = i /\ gadj n = [] /\ gdeg n = 0))
    (fun g l => do (_, g) <- CreateNodeGraph g l; Ok g) ls []) as (g & E & E1 & E2).
  - split; auto. intros [|i] n E; discriminate.
  - intros done l rest g -> [E1 E2]. unfold CreateNodeGraph, store_label, max_label.
    rewrite (proj2 (Nat.ltb_lt _ _)). 2: { rewrite Forall_forall in H. apply H, in_or_app. simpl; auto. }
    cbn [check bind]. eexists. split; [reflexivity|]. split; [rewrite map_app, E1; reflexivity|].
    intros i n En. destruct (Nat.lt_ge_cases i (length g)) as [Hi|Hi].
    + rewrite nth_error_app1 in En by auto. auto.
    + rewrite nth_error_app2 in En by auto. destruct (i - length g) as [|k] eqn:Ek; [|destruct k; discriminate].
      injection En as <-. simpl. splits; auto. assert (i = length g) as -> by lia.
      destruct (rev g) as [|m r] eqn:Er.
      * apply (f_equal (@length _)) in Er. rewrite rev_length in Er. simpl in Er. lia.
      * assert (Eg : g = rev r ++ [m]) by (rewrite <- (rev_involutive g), Er; reflexivity).
        destruct (E2 (length r) m) as [-> _]; [|rewrite Eg, app_length, rev_length; reflexivity].
        rewrite Eg. rewrite nth_error_app2; rewrite rev_length; [|lia]. now rewrite Nat.sub_diag.
  - exists g. assert (Hn : forall i, nbrs g i = []).
    { intros i. unfold nbrs. destruct (nth_error g i) as [n|] eqn:En; auto. destruct (E2 i n En) as (_ & -> & _). auto. }
    splits; auto. split; [split| |].
    + intros i n En. now destruct (E2 i n En).
    + intros i n l En Hl. destruct (E2 i n En) as (_ & E3 & _). rewrite E3 in Hl. destruct Hl.
    + intros i. rewrite Hn. constructor.
    + intros i n En. destruct (E2 i n En) as (_ & _ & ->). auto.
    + intros i. rewrite Hn. auto.
    + intros i j. assert (F : forall a b, weight g a b = None).
      { intros a b. unfold weight. destruct (nth_error g a) as [n|] eqn:En; auto. destruct (E2 a n En) as (_ & -> & _). auto. }
      now rewrite !F.
Qed.

(** A network with given size and links exists. *)
Lemma built N (es : list (nat * nat)) : Forall (fun '(i, j) => i < N /\ j < N) es ->
  exists g, undirected g /\ length g = N /\ forall a b, In b (nbrs g a) <-> (a <> b /\ (In (a, b) es \/ In (b, a) es)).
Proof.
  intros H. destruct (create_nodes (repeat [] N)) as (g0 & _ & U0 & L0 & N0).
  { apply Forall_forall. intros l Hl. apply repeat_spec in Hl. subst. simpl. lia. }
  assert (Ln : length g0 = N) by (rewrite <- (map_length glabel), L0, repeat_length; auto).
  assert (W0 : forall a b, weight g0 a b = None).
  { intros a b. destruct (weight g0 a b) eqn:E; auto. exfalso. assert (Hi : In b (nbrs g0 a)) by (apply nbrs_weight; congruence). rewrite N0 in Hi. destruct Hi. }
  destruct (gops_keep (map (fun '(i, j) => LinkOp i j false n1 0) es) g0 U0) as (g & _ & U & Sn & Wt).
  { rewrite Ln. generalize (weight g0). clear - H. induction H as [|[i j] es Hij H IH]; intros r; simpl; auto. }
  exists g. splits; auto.
  - rewrite <- (same_nodes_length _ _ Sn). auto.
  - intros a b. rewrite nbrs_weight, Wt. clear - W0.
    assert (G : forall r, (fold_left rel_op (map (fun '(i, j) => LinkOp i j false n1 0) es) r a b <> None <-> r a b <> None \/ (a <> b /\ (In (a, b) es \/ In (b, a) es)))).
    { induction es as [|[i j] es IH]; intros r; simpl; [tauto|]. rewrite IH. clear IH. simpl.
      assert (E : ((a =? i) && (b =? j)) || ((a =? j) && (b =? i)) = true <-> ((i, j) = (a, b) \/ (i, j) = (b, a))).
      { rewrite orb_true_iff, !andb_true_iff, !Nat.eqb_eq. split; intros [K|K]; try (injection K as -> ->); try (destruct K); subst; auto. }
      destruct (((a =? i) && (b =? j)) || ((a =? j) && (b =? i))) eqn:Eb; rewrite ?andb_false_r, ?andb_true_r.
      - destruct (Nat.eqb_spec i j) as [->|Hij]; simpl.
        + assert (a = b) as -> by (destruct (proj1 E eq_refl) as [K|K]; injection K; congruence). intuition.
        + assert (a <> b) by (destruct (proj1 E eq_refl) as [K|K]; injection K; congruence).
          destruct (r i j); intuition; try congruence. all: left; congruence.
      - assert (K : ~ ((i, j) = (a, b) \/ (i, j) = (b, a))) by (rewrite <- E; discriminate). intuition. }
    rewrite G. rewrite W0. intuition congruence.
Qed.

(** Distances exist. *)
Lemma distances g : wf_net g -> exists dist, forall s v d, dist s v = Some d <-> distance g s v d.
Proof.
  intros W.
  exists (fun s v => match (do st <- Enqueue (ResetNodesState g, CreateHeaderList) s None 0; layers (fun (x : unit) _ _ => Ok x) (length g + 1) tt st 0 0) with
    | Ok (_, (_, q), _) => option_map bd (find (fun e => bref e =? v) (bq q)) | Err _ => None end).
  intros s v d.
  assert (Hs : forall d, distance g s v d -> s < length g).
  { intros d' [P _]. clear - P W. induction P; auto. }
  destruct (Nat.lt_ge_cases s (length g)) as [Ls|Ls].
  - destruct (start g s Ls g eq_refl) as (g1 & q1 & E & O). rewrite E. cbn [bind].
    destruct (layers_spec g W s (fun (x : unit) _ _ => Ok x) (length g + 1) tt 0 0 g1 q1 O) as (D & g2 & q2 & E2 & _ & _ & [C1 C2 C3 _ _] & _); [lia|].
    assert (Hf : forall l, foldM (fun (x : unit) (_ : nat) => Ok x) tt l = Ok tt) by (induction l; simpl; auto). rewrite E2, Hf. cbn [bind].
    destruct (find (fun e => bref e =? v) (bq q2)) as [e|] eqn:Ef; simpl.
    + apply find_some in Ef as [He Hv]. apply Nat.eqb_eq in Hv. subst v. specialize (C3 e He) as [P1 P2]. split.
      * intros K; injection K as <-. split; auto.
      * intros [Q1 Q2]. f_equal. apply Nat.le_antisymm; auto.
    + split; [discriminate|]. intros [P _]. exfalso. assert (K : In v (refs (bq q2))) by (apply C2; now exists d).
      apply in_map_iff in K as (e & <- & He). eapply find_none in Ef; eauto. simpl in Ef. rewrite Nat.eqb_refl in Ef. discriminate.
  - assert (E : Enqueue (ResetNodesState g, CreateHeaderList) s None 0 = Err UB_oob).
    { unfold Enqueue, get. rewrite (proj2 (nth_error_None _ _)); auto. unfold ResetNodesState. now rewrite map_length. }
    rewrite E. cbn [bind]. split; [discriminate|]. intros K. apply Hs in K. lia.
Qed.

(** The line of N + 1 nodes. *)
Lemma line N : exists g, undirected g /\ length g = N + 1 /\ forall i j, i < N + 1 -> j < N + 1 -> distance g i j (Nat.max i j - Nat.min i j).
Proof.
  destruct (built (N + 1) (map (fun i => (i, i + 1)) (seq 0 N))) as (g & U & L & H).
  { apply Forall_forall. intros [i j] Hi. apply in_map_iff in Hi as (k & E & Hk). injection E as <- <-. apply in_seq in Hk. lia. }
  assert (Hn : forall a b, In b (nbrs g a) <-> a < N + 1 /\ b < N + 1 /\ (b = a + 1 \/ a = b + 1)).
  { intros a b. rewrite H, !in_map_iff. split.
    - intros [_ [(k & E & Hk)|(k & E & Hk)]]; injection E as <- <-; apply in_seq in Hk; lia.
    - intros (Ha & Hb & [-> | ->]); (split; [lia|]); [left; exists a|right; exists b]; (split; auto; apply in_seq; lia). }
  exists g. splits; auto. intros i j Hi Hj.
  assert (Up : forall d i, i + d < N + 1 -> path g d i (i + d)).
  { induction d as [|d IH]; intros i' Hd; [rewrite Nat.add_0_r; constructor; lia|]. econstructor; [apply IH; lia|]. apply Hn. lia. }
  assert (Dn : forall d i, i < N + 1 -> d <= i -> path g d i (i - d)).
  { induction d as [|d IH]; intros i' Hi' Hd; [rewrite Nat.sub_0_r; constructor; lia|]. econstructor; [apply IH; lia|]. apply Hn. lia. }
  split.
  - destruct (Nat.le_ge_cases i j) as [K|K].
    + rewrite Nat.max_r, Nat.min_l by lia. replace j with (i + (j - i)) at 2 by lia. apply Up. lia.
    + rewrite Nat.max_l, Nat.min_r by lia. replace j with (i - (i - j)) at 2 by lia. apply Dn; lia.
  - intros d P. clear - P Hn. induction P as [k Hk|d a b c P IH Hc]; [lia|]. apply Hn in Hc. lia.
Qed.
End Seq.

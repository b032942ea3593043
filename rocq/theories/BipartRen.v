(** BipartRen.v -- the operations on links do not look at the numbers of nodes: renumbering commutes with them, so what holds
    of ordinary networks carries over to the memory of a bipartite network. *)
From Coq Require Import List Arith Lia Bool Permutation QArith.
From Verif Require Import Base Num ListLib NatSum IoModel GraphModel GraphSpec GraphProof BipartModel BipartSpec.
Import ListNotations.
Local Open Scope nat_scope.

Definition rmap {X Y} (f : X -> Y) (r : res X) : res Y := match r with Ok a => Ok (f a) | Err e => Err e end.

Section Ren.
Context {A : Type} {ops : NumOps A}.
Variable num : nat -> nat.
Implicit Types g : net A.

Definition ren_link (l : link A) : link A :=
  mkLink (match lref l with Some j => num j | None => lnode l end) (llabel l) (lstatus l) (lref l) (lbtw l) (lweight l).
Definition ren_node (i : nat) (n : gnode A) : gnode A :=
  mkNode (glabel n) (num i) (gstate n) (map ren_link (gadj n)) (ggroup n) (gdvar n) (gdeg n) (gstr n).
Fixpoint ren_from (k : nat) (g : list (gnode A)) : list (gnode A) :=
  match g with [] => [] | n :: g' => ren_node k n :: ren_from (S k) g' end.
Definition ren g : net A := ren_from 0 g.

Lemma nth_ren_from g k i : nth_error (ren_from k g) i = option_map (ren_node (k + i)) (nth_error g i).
Proof.
  revert k i. induction g as [|n g IH]; intros k [|i]; simpl; auto. { now rewrite Nat.add_0_r. }
  rewrite IH. now rewrite Nat.add_succ_r.
Qed.
Lemma nth_ren g i : nth_error (ren g) i = option_map (ren_node i) (nth_error g i).
Proof. unfold ren. now rewrite nth_ren_from. Qed.
Lemma upd_ren_from g k i n : ren_from k (upd g i n) = upd (ren_from k g) i (ren_node (k + i) n).
Proof.
  revert k i. induction g as [|m g IH]; intros k [|i]; simpl; auto. { now rewrite Nat.add_0_r. }
  rewrite IH. now rewrite Nat.add_succ_r.
Qed.
Lemma upd_ren g i n : ren (upd g i n) = upd (ren g) i (ren_node i n).
Proof. apply upd_ren_from. Qed.
Lemma length_ren g : length (ren g) = length g.
Proof. unfold ren. generalize 0. induction g; intros; simpl; auto. Qed.
Lemma get_ren g i : get (ren g) i = rmap (ren_node i) (get g i).
Proof. unfold get. rewrite nth_ren. now destruct (nth_error g i). Qed.
Lemma set_ren g i n : set (ren g) i (ren_node i n) = rmap ren (set g i n).
Proof. unfold set. rewrite length_ren. destruct (_ <? _); simpl; auto. now rewrite upd_ren. Qed.

Lemma targets_ren ls : targets (map ren_link ls) = targets ls.
Proof. induction ls as [|l ls IH]; simpl; auto. now rewrite IH. Qed.
Lemma nbrs_ren g i : nbrs (ren g) i = nbrs g i.
Proof. unfold nbrs. rewrite nth_ren. destruct (nth_error g i); simpl; auto. apply targets_ren. Qed.
Lemma weight_in_ren ls j : weight_in (map ren_link ls) j = weight_in ls j.
Proof. induction ls as [|l ls IH]; simpl; auto. rewrite !weight_in_cons, IH. reflexivity. Qed.
Lemma weight_ren g i j : weight (ren g) i j = weight g i j.
Proof. unfold weight. rewrite nth_ren. destruct (nth_error g i); simpl; auto. apply weight_in_ren. Qed.
Lemma degree_ren g i : degree (ren g) i = degree g i.
Proof. unfold degree. now rewrite nbrs_ren. Qed.
Lemma same_nodes_ren g g' : same_nodes g g' -> same_nodes (ren g) (ren g').
Proof.
  unfold same_nodes, ren. intros H. generalize 0. induction H as [|n m l l' H _ IH]; intros k; simpl; constructor; auto.
  destruct H as (? & ? & ? & ? & ?). simpl. auto 10.
Qed.

Lemma upd_node_ren g i f : (forall k n, ren_node k (f n) = f (ren_node k n)) -> upd_node (ren g) i f = rmap ren (upd_node g i f).
Proof.
  intros H. unfold upd_node. rewrite get_ren. destruct (get g i) as [n|e]; simpl; auto. now rewrite <- H, set_ren.
Qed.
Lemma add_link_ren aw w new j ls : add_link aw w (ren_link new) j (map ren_link ls) =
  let '(ls', r) := add_link aw w new j ls in (map ren_link ls', r).
Proof.
  induction ls as [|l ls IH]; auto. cbn [map add_link]. change (lref (ren_link l)) with (lref l). destruct (eq_ref (lref l) j).
  - destruct aw; reflexivity.
  - rewrite IH. destruct (add_link aw w new j ls). reflexivity.
Qed.
Lemma AddAdjacency_ren g i j al aw w st : AddAdjacency (ren g) i j al aw w st = rmap (fun '(r, g) => (r, ren g)) (AddAdjacency g i j al aw w st).
Proof.
  unfold AddAdjacency. destruct (_ && _); auto. rewrite upd_node_ren by reflexivity. destruct (upd_node g i reset_cache) as [g1|e]; simpl; auto.
  rewrite upd_node_ren by reflexivity. destruct (upd_node g1 j reset_cache) as [g2|e]; simpl; auto.
  rewrite !get_ren. destruct (get g2 i) as [n|e]; simpl; auto. destruct (get g2 j) as [m|e]; simpl; auto.
  change (mkLink (num j) (glabel m) st (Some j) n0 w) with (ren_link (mkLink (gnum m) (glabel m) st (Some j) n0 w)). rewrite add_link_ren.
  destruct (add_link aw w _ j (gadj n)) as [ls r]. change (set_gadj (map ren_link ls) (ren_node i n)) with (ren_node i (set_gadj ls n)).
  rewrite set_ren. destruct (set g2 i _); reflexivity.
Qed.
Lemma del_link_ren j ls : del_link j (map ren_link ls) = rmap (map ren_link) (del_link j ls).
Proof.
  induction ls as [|l ls IH]; auto. cbn [map del_link]. change (lref (ren_link l)) with (lref l). destruct (eq_ref (lref l) j); auto.
  rewrite IH. destruct (del_link j ls); reflexivity.
Qed.
Lemma RemoveLink_ren g i j sym : RemoveLink (ren g) i j sym = rmap ren (RemoveLink g i j sym).
Proof.
  unfold RemoveLink. rewrite upd_node_ren by reflexivity. destruct (upd_node g i reset_cache) as [g1|e]; simpl; auto.
  rewrite upd_node_ren by reflexivity. destruct (upd_node g1 j reset_cache) as [g2|e]; simpl; auto.
  rewrite !get_ren. destruct (get g2 i) as [n|e]; simpl; auto. rewrite del_link_ren. destruct (del_link j (gadj n)) as [ls|e]; simpl; auto.
  change (set_gadj (map ren_link ls) (ren_node i n)) with (ren_node i (set_gadj ls n)). rewrite set_ren.
  destruct (set g2 i _) as [g3|e]; simpl; auto. destruct (sym && _); auto.
  rewrite get_ren. destruct (get g3 j) as [m|e]; simpl; auto. rewrite del_link_ren. destruct (del_link i (gadj m)) as [ls'|e]; simpl; auto.
  change (set_gadj (map ren_link ls') (ren_node j m)) with (ren_node j (set_gadj ls' m)). now rewrite set_ren.
Qed.
Lemma IsThereLink_ren g i j : IsThereLink (ren g) i j = IsThereLink g i j.
Proof.
  unfold IsThereLink. rewrite get_ren. destruct (get g i) as [n|e]; simpl; auto. f_equal.
  induction (gadj n) as [|l ls IH]; auto. cbn [map existsb]. now rewrite IH.
Qed.
Lemma NodeDegree_ren g i : NodeDegree (ren g) i = rmap (fun '(k, g) => (k, ren g)) (NodeDegree g i).
Proof.
  unfold NodeDegree. rewrite get_ren. destruct (get g i) as [n|e]; simpl; auto. rewrite map_length. destruct (_ && _); auto.
  change (set_gdeg (gdeg n + length (gadj n)) (ren_node i n)) with (ren_node i (set_gdeg (gdeg n + length (gadj n)) n)).
  rewrite set_ren. destruct (set g i _); reflexivity.
Qed.
Lemma switch_ends_ren g n1 n2 n3 n4 w : switch_ends (ren g) n1 n2 n3 n4 w = rmap ren (switch_ends g n1 n2 n3 n4 w).
Proof.
  unfold switch_ends. rewrite RemoveLink_ren. destruct (RemoveLink g n1 n2 true) as [g1|e]; simpl; auto.
  rewrite RemoveLink_ren. destruct (RemoveLink g1 n3 n4 true) as [g2|e]; simpl; auto.
  rewrite AddAdjacency_ren. destruct (AddAdjacency g2 n1 n4 _ _ _ _) as [[r3 g3]|e]; simpl; auto.
  rewrite AddAdjacency_ren. destruct (AddAdjacency g3 n4 n1 _ _ _ _) as [[r4 g4]|e]; simpl; auto.
  rewrite AddAdjacency_ren. destruct (AddAdjacency g4 n3 n2 _ _ _ _) as [[r5 g5]|e]; simpl; auto.
  rewrite AddAdjacency_ren. destruct (AddAdjacency g5 n2 n3 _ _ _ _) as [[r6 g6]|e]; simpl; auto.
Qed.
End Ren.

Section Core.
Context {A : Type} {ops : NumOps A}.
Implicit Types (g : net A) (b : binet A).

(** The memory renumbered by position, and back. *)
Definition core g : net A := ren (fun i => i) g.
Definition num_of g (i : nat) : nat := match nth_error g i with Some n => gnum n | None => 0 end.

Definition refs_ok g : Prop := forall i n l, nth_error g i = Some n -> In l (gadj n) ->
  exists j m, lref l = Some j /\ nth_error g j = Some m /\ lnode l = gnum m /\ llabel l = glabel m.

Lemma nth_ext_eq {X} (l l' : list X) : (forall i, nth_error l i = nth_error l' i) -> l = l'.
Proof.
  revert l'. induction l as [|x l IH]; intros [|y l'] H; auto; try (specialize (H 0); discriminate).
  f_equal; [specialize (H 0); simpl in H; congruence|]. apply IH. intros i. exact (H (S i)).
Qed.
Lemma core_back g : refs_ok g -> ren (num_of g) (core g) = g.
Proof.
  intros R. apply nth_ext_eq. intros i. unfold core. rewrite !nth_ren. destruct (nth_error g i) as [n|] eqn:E; auto. simpl. f_equal.
  unfold ren_node. simpl. unfold num_of at 1. rewrite E. destruct n as [lb nu st ad gr dv dg sr]; simpl. f_equal.
  rewrite map_map. rewrite <- (map_id ad) at 2. apply map_ext_in. intros l Hl.
  destruct (R i _ l E Hl) as (j & m & E1 & E2 & E3 & _). unfold ren_link. simpl. rewrite E1. unfold num_of. rewrite E2, <- E3, <- E1. now destruct l.
Qed.

(** A simple undirected network under any numbering. *)
Lemma core_undirected g : refs_ok g -> (forall i, NoDup (nbrs g i)) -> (forall i, ~ In i (nbrs g i)) ->
  (forall i j, weight g i j = weight g j i) -> (forall i n, nth_error g i = Some n -> gdeg n = 0 \/ gdeg n = length (gadj n)) -> undirected (core g).
Proof.
  intros R ND Lp Sy Dg. unfold core. split; [split| |].
  - intros i n E. rewrite nth_ren in E. destruct (nth_error g i); inversion E; reflexivity.
  - intros i n l E Hl. rewrite nth_ren in E. destruct (nth_error g i) as [n'|] eqn:E'; [|discriminate]. injection E as <-. simpl in Hl.
    apply in_map_iff in Hl as (l' & <- & Hl'). destruct (R i n' l' E' Hl') as (j & m & E1 & E2 & E3 & E4). exists j, (ren_node (fun i => i) j m).
    rewrite nth_ren, E2. simpl. rewrite E1. auto.
  - intros i. rewrite nbrs_ren. auto.
  - intros i n E. rewrite nth_ren in E. destruct (nth_error g i) as [n'|] eqn:E'; [|discriminate]. injection E as <-. simpl. rewrite map_length. eauto.
  - intros i. rewrite nbrs_ren. auto.
  - intros i j. rewrite !weight_ren. auto.
Qed.
Lemma bi_disjoint b i : bipartite b -> In i (bset1 b) -> In i (bset2 b) -> False.
Proof.
  intros B H1 H2. assert (ND : NoDup (bset1 b ++ bset2 b)) by (eapply Permutation_NoDup; [symmetry; apply (bi_nodes b B)|apply seq_NoDup]).
  apply NoDup_app_iff in ND as (_ & _ & H). eapply H; eauto.
Qed.
Lemma bi_undirected b : bipartite b -> undirected (core (bmem b)).
Proof.
  intros B. apply core_undirected; try apply B.
  - intros i n l. apply (bi_link b B).
  - intros i Hi. destruct (bi_cross b B i i Hi) as [[H1 H2]|[H1 H2]]; eapply bi_disjoint; eauto.
Qed.
Lemma bi_lt b i : bipartite b -> In i (bset1 b ++ bset2 b) -> i < length (bmem b).
Proof. intros B H. apply (Permutation_in _ (bi_nodes b B)) in H. apply in_seq in H. lia. Qed.
Lemma bi_side b i : bipartite b -> i < length (bmem b) -> In i (bset1 b) \/ In i (bset2 b).
Proof. intros B H. apply in_app_iff. apply (Permutation_in _ (Permutation_sym (bi_nodes b B))). apply in_seq. lia. Qed.

(** Back from an undirected network with the same nodes and links between the sides only. *)
Lemma bi_back b g : bipartite b -> undirected g -> same_nodes (core (bmem b)) g ->
  (forall i j, In j (nbrs g i) -> In i (bset1 b) /\ In j (bset2 b) \/ In i (bset2 b) /\ In j (bset1 b)) ->
  bipartite (mkBi (ren (num_of (bmem b)) g) (bset1 b) (bset2 b)) /\ same_nodes (bmem b) (ren (num_of (bmem b)) g).
Proof.
  intros B U S C. pose proof U as [W Lp Sy]. set (num := num_of (bmem b)).
  assert (L : length g = length (bmem b)). { apply same_nodes_length in S. unfold core in S. rewrite length_ren in S. auto. }
  assert (SN : same_nodes (bmem b) (ren num g)).
  { rewrite <- (core_back (bmem b)) at 1 by (intros ? ? ?; apply (bi_link b B)). now apply same_nodes_ren. }
  assert (Nm : forall i n, nth_error (ren num g) i = Some n -> exists m, nth_error (bmem b) i = Some m /\ gnum n = gnum m /\ glabel n = glabel m).
  { intros i n E. destruct (nth_ex (bmem b) i) as [m Em]. { rewrite <- L, <- (length_ren num). eapply nth_lt; eauto. }
    destruct (same_nodes_nth _ _ i m SN Em) as (n' & E' & H1 & H2 & _). rewrite E in E'. injection E' as <-. eauto. }
  split; auto. split; cbn [bmem bset1 bset2].
  - rewrite length_ren, L. apply B.
  - intros k i n E En. destruct (Nm i n En) as (m & Em & -> & _). eapply (bi_num1 b B); eauto.
  - intros k i n E En. destruct (Nm i n En) as (m & Em & -> & _). eapply (bi_num2 b B); eauto.
  - intros i n l E Hl. rewrite nth_ren in E. destruct (nth_error g i) as [n'|] eqn:E'; [|discriminate]. injection E as <-. simpl in Hl.
    apply in_map_iff in Hl as (l' & <- & Hl'). destruct (wf_link g W i n' l' E' Hl') as (j & m & E1 & E2 & E3 & E4). exists j, (ren_node num j m).
    rewrite nth_ren, E2. simpl. rewrite E1. auto.
  - intros i j. rewrite nbrs_ren. auto.
  - intros i. rewrite nbrs_ren. apply (wf_nodup g W).
  - intros i j. rewrite !weight_ren. auto.
  - intros i n E. rewrite nth_ren in E. destruct (nth_error g i) as [n'|] eqn:E'; [|discriminate]. injection E as <-. simpl. rewrite map_length. apply (wf_deg g W i n' E').
Qed.
End Core.

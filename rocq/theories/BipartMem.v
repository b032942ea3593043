(** BipartMem.v -- a memory of nodes that is a simple undirected network but for the numbers of its nodes. *)
From Coq Require Import List Arith Lia Bool Permutation QArith.
From Verif Require Import Base Num ListLib NatSum IoModel IoSpec IoProof GraphModel GraphSpec GraphProof BipartModel BipartSpec BipartRen.
Import ListNotations.
Local Open Scope nat_scope.

Section Mem.
Context {A : Type} {ops : NumOps A}.
Implicit Types (g m : net A) (b : binet A).

Record simple m : Prop := {
  si_refs : refs_ok m;
  si_once : forall i, NoDup (nbrs m i);
  si_loop : forall i, ~ In i (nbrs m i);
  si_sym : forall i j, weight m i j = weight m j i;
  si_deg : forall i n, nth_error m i = Some n -> gdeg n = 0 \/ gdeg n = length (gadj n) }.

Lemma simple_core m : simple m -> undirected (core m).
Proof. intros [R N L S D]. now apply core_undirected. Qed.
Lemma simple_split m : simple m -> m = ren (num_of m) (core m).
Proof. intros [R N L S D]. symmetry. now apply core_back. Qed.
Lemma simple_ren num g : undirected g -> simple (ren num g).
Proof.
  intros [W Lp Sy]. split.
  - intros i n l E Hl. rewrite nth_ren in E. destruct (nth_error g i) as [n'|] eqn:E'; [|discriminate]. injection E as <-. simpl in Hl.
    apply in_map_iff in Hl as (l' & <- & Hl'). destruct (wf_link g W i n' l' E' Hl') as (j & m & E1 & E2 & E3 & E4). exists j, (ren_node num j m).
    rewrite nth_ren, E2. simpl. rewrite E1. auto.
  - intros i. rewrite nbrs_ren. apply (wf_nodup g W).
  - intros i. rewrite nbrs_ren. auto.
  - intros i j. rewrite !weight_ren. auto.
  - intros i n E. rewrite nth_ren in E. destruct (nth_error g i) as [n'|] eqn:E'; [|discriminate]. injection E as <-. simpl. rewrite map_length. apply (wf_deg g W i n' E').
Qed.
Lemma bi_simple b : bipartite b -> simple (bmem b).
Proof.
  intros B. split; try apply B.
  - intros i n l. apply (bi_link b B).
  - intros i Hi. destruct (bi_cross b B i i Hi) as [[H1 H2]|[H1 H2]]; eapply bi_disjoint; eauto.
Qed.
Lemma undirected_simple g : undirected g -> simple g.
Proof.
  intros [W Lp Sy]. split; try apply W; auto. intros i n l E Hl. destruct (wf_link g W i n l E Hl) as (j & m & E1 & E2 & E3 & E4).
  exists j, m. splits; auto. now rewrite (wf_num g W j m E2).
Qed.
Lemma simple_nbrs_lt m i j : simple m -> In j (nbrs m i) -> i < length m /\ j < length m.
Proof.
  intros S. pose proof (simple_core m S) as [W _ _]. intros H. rewrite <- (nbrs_ren (fun i => i)) in H. apply (nbrs_lt _ _ _ W) in H. unfold core in H. now rewrite length_ren in H.
Qed.

(** Adding both directions of a link. *)
Lemma add_both_mem m i j aw w st1 st2 : simple m -> i < length m -> j < length m -> i <> j ->
  exists r1 r2 m1 m2, AddAdjacency m i j false aw w st1 = Ok (r1, m1) /\ AddAdjacency m1 j i false aw w st2 = Ok (r2, m2) /\
    simple m2 /\ same_nodes m m2 /\
    (forall x y, weight m2 x y = if ((x =? i) && (y =? j)) || ((x =? j) && (y =? i))
        then match weight m i j with Some w0 => Some (if aw then nadd w0 w else w0) | None => Some w end else weight m x y).
Proof.
  intros S Li Lj Hij. pose proof (simple_core m S) as U.
  destruct (add_both (core m) i j aw w st1 st2 U) as (r1 & r2 & g1 & g2 & E1 & E2 & U2 & S2 & Wt & _); try (unfold core; rewrite length_ren); auto.
  exists r1, r2, (ren (num_of m) g1), (ren (num_of m) g2). splits.
  - rewrite (simple_split m S) at 1. now rewrite AddAdjacency_ren, E1.
  - now rewrite AddAdjacency_ren, E2.
  - now apply simple_ren.
  - rewrite (simple_split m S) at 1. now apply same_nodes_ren.
  - intros x y. rewrite weight_ren, Wt. unfold core. now rewrite !weight_ren.
Qed.

(** A new node without links. *)
Definition bare lab num : gnode A := mkNode lab num 0 [] None (nofQ (-1 # 1)) 0 n0.
Lemma nbrs_snoc m n i : gadj n = [] -> nbrs (m ++ [n]) i = nbrs m i.
Proof.
  intros E. unfold nbrs. destruct (Nat.lt_ge_cases i (length m)) as [H|H]. { now rewrite nth_error_app1. }
  rewrite nth_error_app2 by auto. rewrite (proj2 (nth_error_None m i)) by auto. destruct (i - length m) as [|[|k]]; simpl; auto. now rewrite E.
Qed.
Lemma weight_snoc m n i j : gadj n = [] -> weight (m ++ [n]) i j = weight m i j.
Proof.
  intros E. unfold weight. destruct (Nat.lt_ge_cases i (length m)) as [H|H]. { now rewrite nth_error_app1. }
  rewrite nth_error_app2 by auto. rewrite (proj2 (nth_error_None m i)) by auto. destruct (i - length m) as [|[|k]]; simpl; auto. now rewrite E.
Qed.
Lemma nth_snoc {X} (l : list X) x i y : nth_error (l ++ [x]) i = Some y -> nth_error l i = Some y \/ i = length l /\ y = x.
Proof.
  intros E. destruct (Nat.lt_ge_cases i (length l)) as [H|H]. { rewrite nth_error_app1 in E; auto. }
  rewrite nth_error_app2 in E by auto. destruct (i - length l) as [|[|k]] eqn:K; simpl in E; try discriminate. right. split; [lia|congruence].
Qed.
Lemma simple_snoc m n : simple m -> gadj n = [] -> gdeg n = 0 -> simple (m ++ [n]).
Proof.
  intros [R N L S D] E Ed. split.
  - intros i x l Ei Hl. apply nth_snoc in Ei as [Ei|[-> ->]]; [|rewrite E in Hl; destruct Hl].
    destruct (R i x l Ei Hl) as (j & k & E1 & E2 & E3 & E4). exists j, k. splits; auto. rewrite nth_error_app1; auto. eapply nth_lt; eauto.
  - intros i. rewrite nbrs_snoc; auto.
  - intros i. rewrite nbrs_snoc; auto.
  - intros i j. rewrite !weight_snoc; auto.
  - intros i x Ei. apply nth_snoc in Ei as [Ei|[-> ->]]; eauto.
Qed.
Lemma simple_nil : simple [].
Proof.
  split.
  - intros [|i] n l E; discriminate.
  - intros [|i]; constructor.
  - intros [|i] [].
  - intros [|i] [|j]; reflexivity.
  - intros [|i] n E; discriminate.
Qed.

(** What a new memory must satisfy to be a bipartite network. *)
Lemma simple_bi m s1 s2 : simple m -> Permutation (s1 ++ s2) (seq 0 (length m)) ->
  (forall k i n, nth_error s1 k = Some i -> nth_error m i = Some n -> gnum n = k) ->
  (forall k i n, nth_error s2 k = Some i -> nth_error m i = Some n -> gnum n = k) ->
  (forall i j, In j (nbrs m i) -> In i s1 /\ In j s2 \/ In i s2 /\ In j s1) -> bipartite (mkBi m s1 s2).
Proof. intros [R N L S D] P N1 N2 C. split; auto. Qed.
End Mem.

(** ** Dictionaries *)
Lemma dict_find_None (d : dict) l : dict_find d l = None <-> ~ In l (map fst d).
Proof.
  induction d as [|[k v] d IH]; simpl; [tauto|]. destruct (label_eqb k l) eqn:E.
  - apply label_eqb_eq in E. split; [discriminate|tauto].
  - rewrite IH. split; [|tauto]. intros H [->|H']; auto. rewrite (proj2 (label_eqb_eq l l) eq_refl) in E. discriminate.
Qed.
Lemma dict_find_In (d : dict) l v : NoDup (map fst d) -> (dict_find d l = Some v <-> In (l, v) d).
Proof.
  induction d as [|[k x] d IH]; simpl; intros ND; [split; [discriminate|tauto]|]. inversion ND as [|? ? H1 H2]; subst.
  destruct (label_eqb k l) eqn:E.
  - apply label_eqb_eq in E. subst. split.
    + intros [= <-]. auto.
    + intros [[= <-]|H]; auto. exfalso. apply H1. apply in_map_iff. exists (l, v). auto.
  - rewrite (IH H2). split; auto. intros [[= -> ->]|H]; auto. rewrite (proj2 (label_eqb_eq l l) eq_refl) in E. discriminate.
Qed.

(** Properties13.v -- the projection of a bipartite edge list, src/fillpartitions.c 112-258 (C69, C70, C71). *)
From Coq Require Import List Arith ZArith Bool QArith Qcanon Lia Sorting.Sorted Sorting.Permutation.
From Verif Require Import Base Num ListLib QcSum PartModel FillModel PartSpec AdjSpec ModSpec PartInv FillProof Refute
  ProjModel ProjSpec RunLib ProjProof ProjThms ProjExact.
Import ListNotations.
Local Open Scope nat_scope.

Section Generic.
Context {A : Type} {ops : NumOps A}.
Variable qsort : list (Edge A) -> list (Edge A).
Hypothesis qperm : forall l, Permutation l (qsort l).
(** C70: `strength` (157) is read before it is written whenever there is a row; the loops read one element past both arrays. *)
Theorem C70_uninit_refuted past1 past2 es : es <> [] -> ProjectBipartEdgeList qsort None past1 past2 es = Err UB_uninit.
Proof. exact (Project_uninit qsort qperm es past1 past2). Qed.
Theorem C70_past_refuted s past2 es : es <> [] -> ProjectBipartEdgeList qsort (Some s) None past2 es = Err UB_oob.
Proof. exact (Project_past qsort qperm es s past2). Qed.
End Generic.

Section Exact.
Variables ex sq : Qc -> Qc.
#[local] Instance ops13 : NumOps Qc := Qc_ops ex sq.
Variable qsort : list (Edge Qc) -> list (Edge Qc).
Hypothesis HQ : sorts qsort.
Implicit Types es : list (nat * nat * Qc).

(** C69: with `strength` zero at the start and memory after `projected` that is no pair of team mates, the arrays are the projected network. *)
Theorem C69_projection es z1 z2 : once es -> ~ shares es (enode1 z2) (enode2 z2) ->
  exists E p adj, ProjectBipartEdgeList qsort (Some 0%Qc) (Some z1) (Some z2) es = Ok (E, p, adj) /\
    (adj_ok adj (actors es) /\ aE adj = E /\ 2 * E = list_sum (map (fun i => length (row adj i)) (seq 0 (actors es)))) /\
    (fresh p /\ pN p = actors es /\ pM p = actors es) /\
    (sym_adj adj /\ sym_w adj /\ loop_free adj /\ simple_rows adj) /\
    (forall i j, adjacent adj i j <-> i <> j /\ shares es i j) /\
    (forall i j, i <> j -> aw adj i j = (co_weight es i j / norm1 es)%Qc) /\
    (forall i, i < actors es -> kk p i = (actor_weight es i / norm2 es)%Qc).
Proof. exact (Project_actors ex sq qsort HQ es z1 z2). Qed.

(** C71: the weights leaving the nodes add up to at most one, to one when all weights are one, and the strengths to one;
    the modularity of any partition of the actors is the bipartite modularity. *)
Theorem C71_total es z1 z2 E p adj : once es -> ~ shares es (enode1 z2) (enode2 z2) ->
  ProjectBipartEdgeList qsort (Some 0%Qc) (Some z1) (Some z2) es = Ok (E, p, adj) ->
  (0 < norm1 es -> Qsum (fun i => Qsum snd (row adj i)) (seq 0 (pN p)) <= 1)%Qc /\
  (norm1 es <> 0%Qc -> units es -> Qsum (fun i => Qsum snd (row adj i)) (seq 0 (pN p)) = 1%Qc) /\
  (norm2 es <> 0%Qc -> Qsum (kk p) (seq 0 (pN p)) = 1%Qc).
Proof. exact (Project_total ex sq qsort HQ es z1 z2 E p adj). Qed.
Theorem C71_norm es : es <> [] -> positive es -> (forall x, In x es -> 2 <= team_size es (snd (fst x))) -> (0 < norm1 es)%Qc.
Proof. exact (fun NE P T => positive_norm es P T NE). Qed.
Theorem C71_unit_norms es : units es ->
  norm1 es = Qsum (fun t => Qc_of_nat (team_size es t) * (Qc_of_nat (team_size es t) - 1))%Qc (team_list es) /\ norm2 es = Qc_of_nat (length es).
Proof. exact (units_norms es). Qed.
Theorem C71_modularity es z1 z2 E p adj q : once es -> ~ shares es (enode1 z2) (enode2 z2) ->
  ProjectBipartEdgeList qsort (Some 0%Qc) (Some z1) (Some z2) es = Ok (E, p, adj) ->
  valid q -> pN q = pN p -> (forall i, strength q i = strength p i) ->
  PartitionModularity q adj false = Ok (Qsum (fun i => Qsum (fun j =>
    if negb (i =? j) && together q i j then (co_weight es i j / norm1 es - (actor_weight es i / norm2 es) * (actor_weight es j / norm2 es))%Qc else 0%Qc)
    (seq 0 (pN p))) (seq 0 (pN p))).
Proof. exact (Project_modularity_of ex sq qsort HQ es z1 z2 E p adj q). Qed.
End Exact.

(** * The hypotheses are met. *)
Fixpoint insert_edge {A} (e : Edge A) (l : list (Edge A)) : list (Edge A) :=
  match l with [] => [e] | x :: r => if (EdgeCompare e x <=? 0)%Z then e :: l else x :: insert_edge e r end.
Definition isort {A} (l : list (Edge A)) : list (Edge A) := fold_right insert_edge [] l.
Example isort_sorts {A} : sorts (@isort A).
Proof.
  assert (P : forall (e : Edge A) l, Permutation (e :: l) (insert_edge e l)).
  { intros e l. induction l as [|x l IH]; auto. cbn [insert_edge]. destruct (EdgeCompare e x <=? 0)%Z; auto.
    eapply perm_trans; [apply perm_swap|]. apply perm_skip. exact IH. }
  assert (S : forall (e : Edge A) l, StronglySorted (fun a b => (EdgeCompare a b <= 0)%Z) l -> StronglySorted (fun a b => (EdgeCompare a b <= 0)%Z) (insert_edge e l)).
  { intros e l. induction l as [|x l IH]; intros H; [repeat constructor|]. apply StronglySorted_inv in H as [H1 H2]. cbn [insert_edge].
    destruct (Z.leb_spec (EdgeCompare e x) 0) as [L|L].
    - constructor; [now constructor|]. constructor; auto. eapply Forall_impl; [|exact H2]. intros y Hy. apply compare_le in L, Hy. apply compare_le.
      unfold lek in *. lia.
    - constructor; auto. eapply Permutation_Forall; [apply P|]. constructor; auto. apply compare_le.
      assert (N : ~ lek (pairk e) (pairk x)) by (intros X; apply compare_le in X; lia). unfold lek in *. lia. }
  intros l. induction l as [|e l [IH1 IH2]]; [split; constructor|]. cbn [isort fold_right]. split; [|apply S; exact IH2].
  eapply perm_trans; [apply perm_skip, IH1|]. apply P.
Qed.

#[local] Instance ops13' : NumOps Qc := Qc_ops ex0 sq0.
(** Actors 0, 1, 2 in team 5, actors 0 and 1 in team 7, actor 3 alone in team 6; given in no particular order. *)
Definition crew13 : list (nat * nat * Qc) := [(1, 7, qq 1); (2, 5, qq 1); (3, 6, qq 1); (0, 5, qq 1); (1, 5, qq 1); (0, 7, qq 1)].
Definition after13 : Edge Qc := mkEdge 3 0 (qq 0).
Example crew13_once : once crew13 /\ ~ shares crew13 (enode1 after13) (enode2 after13) /\ units crew13 /\ positive crew13 /\ norm1 crew13 <> 0%Qc /\ norm2 crew13 <> 0%Qc.
Proof.
  splits.
  - unfold once. repeat (constructor; [simpl; intuition congruence|]). constructor.
  - intros (t & v & w & H1 & H2). simpl in H1, H2. intuition congruence.
  - intros x H. simpl in H. intuition (subst; reflexivity).
  - intros x H. simpl in H. intuition (subst; reflexivity).
  - intros X. apply (f_equal this) in X. vm_compute in X. discriminate X.
  - intros X. apply (f_equal this) in X. vm_compute in X. discriminate X.
Qed.
Definition shown13 (r : res (nat * partition Qc * adja Qc)) :=
  match r with Ok (E, p, adj) => Some (E, aidx adj, anb adj, map this (astr adj), map (fun n => this (nstr n)) (pnodes p)) | Err _ => None end.
(** norm1 is 3 * 2 + 2 * 1 + 0 = 8, norm2 is 6. *)
Example crew13_projected : shown13 (ProjectBipartEdgeList isort (Some 0%Qc) (Some after13) (Some after13) crew13) =
  Some (3, [0; 2; 4; 6; 6], [1; 2; 0; 2; 0; 1; 0], [1 # 4; 1 # 8; 1 # 4; 1 # 8; 1 # 8; 1 # 8; 0]%Q, [1 # 3; 1 # 3; 1 # 6; 1 # 6]%Q).
Proof. vm_compute. reflexivity. Qed.
Example crew13_teams : forall x, In x (filter (fun x => negb (snd (fst x) =? 6)) crew13) -> 2 <= team_size (filter (fun x => negb (snd (fst x) =? 6)) crew13) (snd (fst x)).
Proof. intros x H. simpl in H. intuition (subst; vm_compute; lia). Qed.
(** Weights 3 and 1 in one team: the weights leaving the nodes add up to 3/4, not to one. *)
Example crew13_short : match ProjectBipartEdgeList isort (Some 0%Qc) (Some after13) (Some after13) [(0, 0, qq 3); (1, 0, qq 1)] with
  | Ok (_, p, adj) => this (Qsum (fun i => Qsum snd (row adj i)) (seq 0 (pN p))) | Err _ => 0%Q end = (3 # 4)%Q.
Proof. vm_compute. reflexivity. Qed.
(** Memory after the array that looks like the last pair: the neighbours of the last pair are not written (they stay 0). *)
Example crew13_lost : shown13 (ProjectBipartEdgeList isort (Some 0%Qc) (Some after13) (Some (mkEdge 2 1 (qq 9))) crew13) =
  Some (3, [0; 2; 4; 6; 6], [1; 2; 0; 0; 0; 0; 0], [1 # 4; 1 # 8; 1 # 4; 1 # 8; 1 # 8; 1 # 8; 0]%Q, [1 # 3; 1 # 3; 1 # 6; 1 # 6]%Q).
Proof. vm_compute. reflexivity. Qed.
(** A row given twice: node 2 is linked to itself, and to node 0 with weight zero. *)
Example crew13_twice : shown13 (ProjectBipartEdgeList isort (Some 0%Qc) (Some after13) (Some after13) [(1, 0, qq 1); (2, 0, qq 1); (2, 0, qq 1)]) =
  Some (2, [0; 0; 1; 4], [2; 1; 2; 0; 0], [1 # 3; 1 # 3; 1 # 3; 0; 0]%Q, [0; 1 # 3; 2 # 3]%Q).
Proof. vm_compute. reflexivity. Qed.
(** The partition that puts everybody in his own module. *)
Example crew13_valid : match ProjectBipartEdgeList isort (Some 0%Qc) (Some after13) (Some after13) crew13 with
  | Ok (_, p, adj) => match AssignNodesToModules p [] with Ok (q, _) => pN q = pN p /\ map (fun n => this (nstr n)) (pnodes q) = map (fun n => this (nstr n)) (pnodes p) | Err _ => False end
  | Err _ => False end.
Proof. vm_compute. split; reflexivity. Qed.

Print Assumptions C69_projection.
Print Assumptions C70_uninit_refuted.
Print Assumptions C70_past_refuted.
Print Assumptions C71_total.
Print Assumptions C71_norm.
Print Assumptions C71_unit_norms.
Print Assumptions C71_modularity.

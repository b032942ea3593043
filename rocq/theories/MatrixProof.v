(** MatrixProof.v -- the adjacency and Laplacian matrices (C37). *)
From Coq Require Import List Arith Lia Bool Permutation ZArith.
From Verif Require Import Base ListLib NatSum MatLib IoModel GraphModel GraphSpec GraphProof GraphRand GraphSim MatrixModel.
Import ListNotations.
Local Open Scope nat_scope.

Lemma foldM_seq_from {S} (I : nat -> S -> Prop) (f : S -> nat -> res S) n : forall a s, I a s ->
  (forall i s, a <= i < a + n -> I i s -> exists s', f s i = Ok s' /\ I (i + 1) s') ->
  exists s', foldM f s (seq a n) = Ok s' /\ I (a + n) s'.
Proof.
  induction n as [|n IH]; intros a s H0 Hs; simpl.
  - rewrite Nat.add_0_r. eauto.
  - destruct (Hs a s) as (s1 & E1 & I1); [lia|auto|]. rewrite E1. cbn [bind]. rewrite <- Nat.add_succ_comm.
    apply IH; [now rewrite <- Nat.add_1_r|]. intros i s' Hi. apply Hs. lia.
Qed.

Fixpoint Zsum (l : list Z) : Z := match l with [] => 0%Z | x :: l => (x + Zsum l)%Z end.

Section Matrix.
Context {A : Type} {ops : NumOps A}.
Implicit Types g : net A.

Definition adjacent01 g (i j : nat) : Z := if mem j (nbrs g i) then 1%Z else 0%Z.

Theorem AdjacencyMat_spec g : wf_net g -> exists m, AdjacencyMat g = Ok m /\ mat (length g) (length g) m (adjacent01 g).
Proof.
  intros W. unfold AdjacencyMat, CountNodes. set (N := length g).
  destruct (foldM_seq (fun i m => mat N N m (fun x y => if x <? i then adjacent01 g x y else 0%Z)) (fun m i =>
    do p <- get g i;
    foldM (fun m l => do k <- deref (lref l); do r <- get g k; set2 m (gnum p) (gnum r) 1%Z) m (gadj p)) N (repeat (repeat 0%Z N) N)) as (m & E & Hm).
  - exact (mat_repeat N N 0%Z).
  - intros i m Hi Hm. destruct (nth_ex g i Hi) as [n En]. rewrite (get_ok _ _ _ En). cbn [bind]. rewrite (wf_num g W i n En).
    rewrite (fold_links g i n _ (fun m j => set2 m i j 1%Z) W En).
    + destruct (foldM_inv (fun done m => mat N N m (fun x y => if x <? i then adjacent01 g x y else if (x =? i) && mem y done then 1%Z else 0%Z))
        (fun m j => set2 m i j 1%Z) (nbrs g i) m) as (m' & E & Hm').
      * eapply mat_ext; eauto. intros x y _ _. cbv beta. simpl. rewrite andb_false_r. auto.
      * intros dn j rest m1 El H1. assert (Hj : j < N). { apply (nbrs_lt g i j W). rewrite El. apply in_app_iff. simpl. auto. }
        destruct (mat_set N N m1 _ i j 1%Z H1 Hi Hj) as (m2 & E2 & H2). exists m2. split; auto. eapply mat_ext; eauto.
        intros x y _ _. unfold fupd2. rewrite mem_app. cbn [mem existsb]. rewrite orb_false_r.
        destruct (Nat.eqb_spec x i), (Nat.eqb_spec y j), (Nat.ltb_spec x i); simpl; subst; rewrite ?orb_true_r, ?orb_false_r; auto; try lia.
      * exists m'. split; auto. eapply mat_ext; eauto. intros x y _ _. cbv beta. unfold adjacent01.
        destruct (Nat.ltb_spec x i), (Nat.ltb_spec x (i + 1)), (Nat.eqb_spec x i); simpl; subst; auto; lia.
    + intros s l j _ E1 _ Lj. rewrite E1. cbn [deref bind]. destruct (nth_ex g j Lj) as [r Er]. rewrite (get_ok _ _ _ Er). cbn [bind]. now rewrite (wf_num g W j r Er).
  - exists m. split; auto. eapply mat_ext; eauto. intros x y Hx _. cbv beta. now rewrite (proj2 (Nat.ltb_lt x N)) by auto.
Qed.

(** Specification of the Laplacian. *)
Definition laplacian g (i j : nat) : Z := if i =? j then Z.of_nat (degree g i) else if mem j (nbrs g i) then (-1)%Z else 0%Z.

Theorem LaplacianMat_spec g : undirected g ->
  exists m g', LaplacianMat g = Ok (Some m, g') /\ same_links g g' /\ mat (length g) (length g) m (laplacian g).
Proof.
  intros U. pose proof U as [W Lp Sy]. unfold LaplacianMat, CountNodes. set (N := length g).
  destruct (AdjacencyMat_spec g W) as (m0 & -> & H0). cbn [bind].
  set (L := fun i x y => if x =? y then if x <? i then Z.of_nat (degree g x) else 0%Z else if (x <? i) || (y <? i) then (- adjacent01 g x y)%Z else adjacent01 g x y).
  match goal with |- context [foldM ?f (Some m0, g) _] => set (F := f) end.
  destruct (foldM_seq (fun i '(om, g1) => exists m, om = Some m /\ same_links g g1 /\ mat N N m (L i)) F N (Some m0, g)) as ([om g1] & E & m & -> & Hs & Hm).
  - exists m0. splits; auto using same_links_refl. eapply mat_ext; eauto. intros x y _ _. unfold L. simpl. unfold adjacent01.
    destruct (Nat.eqb_spec x y) as [->|]; auto. destruct (mem_spec y (nbrs g y)) as [Hy|]; auto. destruct (Lp y Hy).
  - intros i [om g1] Hi (m & -> & Hs & Hm). unfold F. rewrite (mat_get N N m (L i) i i Hm Hi Hi). cbn [bind].
    assert (Eii : L i i i = 0%Z) by (unfold L; now rewrite Nat.eqb_refl, Nat.ltb_irrefl). rewrite Eii. simpl (0 <? 0)%Z. cbv iota.
    pose proof Hs as (W1 & S1 & N1 & _). destruct (NodeDegree_spec g1 i W1) as (g2 & -> & Hs2). { rewrite <- (same_nodes_length _ _ S1). auto. }
    change (same_links g1 g2) in Hs2. cbn [bind]. rewrite (same_links_degree g g1 i Hs).
    destruct (mat_set N N m (L i) i i (Z.of_nat (degree g i)) Hm Hi Hi) as (m1 & -> & H1). cbn [bind].
    set (K := fun j x y => if (x =? i) && (y =? i) then Z.of_nat (degree g i) else
      if ((x =? i) && (i <? y) && (y <? j)) || ((y =? i) && (i <? x) && (x <? j)) then (- L i x y)%Z else L i x y).
    match goal with |- context [foldM ?f m1 _] => set (G := f) end.
    destruct (foldM_seq_from (fun j m => mat N N m (K j)) G (N - (i + 1)) (i + 1) m1) as (m2 & E2 & H2).
    + eapply mat_ext; eauto. intros x y _ _. unfold fupd2, K.
      destruct (Nat.eqb_spec x i), (Nat.eqb_spec y i), (Nat.ltb_spec i y), (Nat.ltb_spec y (i + 1)), (Nat.ltb_spec i x), (Nat.ltb_spec x (i + 1)); simpl; auto; lia.
    + intros j mj Hj Hmj. unfold G. assert (Lj : j < N) by lia. rewrite (mat_get N N mj _ i j Hmj Hi Lj). cbn [bind].
      destruct (mat_set N N mj _ i j (- K j i j)%Z Hmj Hi Lj) as (ma & -> & Ha). cbn [bind].
      rewrite (mat_get N N ma _ j i Ha Lj Hi). cbn [bind]. destruct (mat_set N N ma _ j i (- fupd2 (K j) i j (- K j i j) j i)%Z Ha Lj Hi) as (mb & -> & Hb).
      exists mb. split; auto. eapply mat_ext; eauto. intros x y _ _. unfold fupd2, K.
      destruct (Nat.eqb_spec x i), (Nat.eqb_spec y i), (Nat.eqb_spec x j), (Nat.eqb_spec y j), (Nat.ltb_spec i y), (Nat.ltb_spec y j), (Nat.ltb_spec i x), (Nat.ltb_spec x j),
        (Nat.ltb_spec x (j + 1)), (Nat.ltb_spec y (j + 1)); simpl; subst; rewrite ?Nat.eqb_refl, ?Nat.ltb_irrefl; try lia; auto.
      all: repeat match goal with |- context [?a =? ?b] => destruct (Nat.eqb_spec a b); try lia end; simpl; auto.
      all: repeat match goal with |- context [?a <? ?b] => destruct (Nat.ltb_spec a b); try lia end; simpl; auto.
    + replace (i + 1 + (N - (i + 1))) with N in H2 by lia. rewrite E2. cbn [bind]. eexists. split; [reflexivity|]. exists m2. splits; auto.
      * eapply same_links_trans; eauto.
      * eapply mat_ext; eauto. intros x y Hx Hy. unfold K, L. rewrite (proj2 (Nat.ltb_lt x N)), (proj2 (Nat.ltb_lt y N)) by auto. rewrite !andb_true_r.
        destruct (Nat.eqb_spec x i), (Nat.eqb_spec y i), (Nat.ltb_spec i x), (Nat.ltb_spec i y), (Nat.eqb_spec x y), (Nat.ltb_spec x i), (Nat.ltb_spec y i),
          (Nat.ltb_spec x (i + 1)), (Nat.ltb_spec y (i + 1)); simpl; subst; auto; lia.
  - fold N in E. exists m, g1. rewrite E. splits; auto. eapply mat_ext; eauto. intros x y Hx Hy. unfold L, laplacian, adjacent01.
    rewrite (proj2 (Nat.ltb_lt x N)), (proj2 (Nat.ltb_lt y N)) by auto. destruct (x =? y); auto. simpl. now destruct (mem y (nbrs g x)).
Qed.

(** C37: symmetry and row sums, from the specification. *)
Lemma laplacian_sym g i j : undirected g -> laplacian g i j = laplacian g j i.
Proof. intros U. unfold laplacian. rewrite (Nat.eqb_sym j i), (mem_nbrs_sym g i j U). destruct (Nat.eqb_spec i j) as [->|]; auto. Qed.
Lemma laplacian_row g i : undirected g -> i < length g -> Zsum (map (laplacian g i) (seq 0 (length g))) = 0%Z.
Proof.
  intros U Hi. pose proof U as [W Lp Sy].
  assert (H : forall l, NoDup l -> Zsum (map (laplacian g i) l) = ((if mem i l then Z.of_nat (degree g i) else 0) - Z.of_nat (count (fun j => mem j (nbrs g i)) l))%Z).
  { induction l as [|j l IH]; intros ND; [reflexivity|]. inversion ND as [|? ? Hj ND']; subst. cbn [map Zsum]. rewrite IH by auto. rewrite count_cons. cbn [mem existsb]. fold (mem i l).
    unfold laplacian. destruct (Nat.eqb_spec i j) as [->|]; simpl.
    - destruct (mem_spec j l); [contradiction|]. destruct (mem_spec j (nbrs g j)) as [Hl|]; [destruct (Lp _ Hl)|]. lia.
    - destruct (mem j (nbrs g i)); lia. }
  rewrite H by apply seq_NoDup. destruct (mem_spec i (seq 0 (length g))) as [_|Hn]; [|destruct Hn; apply in_seq; lia].
  rewrite count_lsum. unfold degree. rewrite length_lsum. rewrite <- (lsum_members (fun _ => 1)); [lia|apply (wf_nodup g W)|]. intros x Hx. now destruct (nbrs_lt g i x W Hx).
Qed.
End Matrix.

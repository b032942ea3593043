(** PajBiProof.v -- what the file in Pajek format says about a two-sided network. *)
From Coq Require Import List Arith Bool Ascii Permutation Lia.
From Verif Require Import Base ListLib IoModel GraphModel GraphSpec GraphProof GraphRand NetModel NetCopy RecAux BipartModel BipartSpec PajBiModel.
Import ListNotations.
Local Open Scope nat_scope.

Section PajBi.
Context {A : Type} {ops : NumOps A}.
Implicit Types b : binet A.

Definition num_of (g : net A) (i : nat) : nat := match nth_error g i with Some n => gnum n | None => 0 end.
Lemma in_mem b i : bipartite b -> In i (bset1 b) \/ In i (bset2 b) -> i < length (bmem b).
Proof. intros B H. assert (X : In i (seq 0 (length (bmem b)))) by (apply (Permutation_in i (bi_nodes b B)); apply in_app_iff; exact H). apply in_seq in X. lia. Qed.
Lemma sides_once b : bipartite b -> NoDup (bset1 b ++ bset2 b).
Proof. intros B. apply (Permutation_NoDup (Permutation_sym (bi_nodes b B))). apply seq_NoDup. Qed.
Lemma nodes_ok (g : net A) shift s : (forall i, In i s -> i < length g) -> pajek2_nodes g shift s = Ok (map (fun i => (num_of g i + shift + 1, label_of g i)) s).
Proof. intros H. unfold pajek2_nodes. apply mapM_ok. intros i Hi. destruct (nth_ex g i (H i Hi)) as [n E]. rewrite (get_ok _ _ _ E). cbn [bind]. unfold num_of, label_of. now rewrite E. Qed.
Definition rows2_at (g : net A) (S1 : nat) (weighted : bool) (i : nat) : list (nat * nat * option A) :=
  map (fun j => (num_of g i + 1, num_of g j + S1 + 1, if weighted then weight g i j else None)) (nbrs g i).
Lemma rows2_ok b S1 weighted i : bipartite b -> i < length (bmem b) -> pajek2_rows (bmem b) S1 weighted i = Ok (rows2_at (bmem b) S1 weighted i).
Proof.
  intros B Hi. destruct (nth_ex (bmem b) i Hi) as [n En]. unfold pajek2_rows. rewrite (get_ok _ _ _ En). cbn [bind].
  set (h := fun l : link A => match lref l with Some j => (num_of (bmem b) i + 1, num_of (bmem b) j + S1 + 1, if weighted then weight (bmem b) i j else None) | None => (0, 0, None) end).
  rewrite (mapM_ok _ h).
  - f_equal. unfold rows2_at, nbrs. rewrite En. assert (R : forall l, In l (gadj n) -> lref l <> None). { intros l Hl. destruct (bi_link b B i n l En Hl) as (j & m & E & _). congruence. }
    clear En. induction (gadj n) as [|l ls IH]; auto. cbn [map targets flat_map]. rewrite map_app. fold (targets ls). rewrite <- IH by (intros x Hx; apply R; now right). unfold h at 1. specialize (R l (or_introl eq_refl)). destruct (lref l) as [j|]; [reflexivity|congruence].
  - intros l Hl. destruct (bi_link b B i n l En Hl) as (j & m & E1 & E2 & _). unfold h. rewrite E1. cbn [deref bind]. rewrite (get_ok _ _ _ E2). cbn [bind].
    assert (Hw : weight (bmem b) i j = Some (lweight l)). { unfold weight. rewrite En. apply weight_in_at; auto. pose proof (bi_once b B i) as N. unfold nbrs in N. now rewrite En in N. }
    rewrite Hw. unfold num_of. rewrite En, E2. reflexivity.
Qed.
Theorem Pajek2_ok b weighted : bipartite b ->
  FPrintPajekFileBipart b weighted = Ok (mkPaj2 (length (bset1 b) + length (bset2 b)) (length (bset1 b))
    (map (fun i => (num_of (bmem b) i + 0 + 1, label_of (bmem b) i)) (bset1 b) ++ map (fun i => (num_of (bmem b) i + length (bset1 b) + 1, label_of (bmem b) i)) (bset2 b))
    (flat_map (rows2_at (bmem b) (length (bset1 b)) weighted) (bset1 b))).
Proof.
  intros B. unfold FPrintPajekFileBipart. rewrite nodes_ok by (intros i Hi; apply in_mem; auto). cbn [bind]. rewrite nodes_ok by (intros i Hi; apply in_mem; auto). cbn [bind].
  rewrite (mapM_ok _ (rows2_at (bmem b) (length (bset1 b)) weighted)); [cbn [bind]; now rewrite flat_map_concat_map|]. intros i Hi. apply rows2_ok; auto. apply in_mem; auto.
Qed.
Lemma num1 b k i : bipartite b -> nth_error (bset1 b) k = Some i -> num_of (bmem b) i = k.
Proof. intros B H. assert (Hi : i < length (bmem b)) by (apply in_mem; auto; left; eapply nth_error_In; eauto). destruct (nth_ex _ _ Hi) as [n E]. unfold num_of. rewrite E. eapply bi_num1; eauto. Qed.
Lemma num2 b k i : bipartite b -> nth_error (bset2 b) k = Some i -> num_of (bmem b) i = k.
Proof. intros B H. assert (Hi : i < length (bmem b)) by (apply in_mem; auto; right; eapply nth_error_In; eauto). destruct (nth_ex _ _ Hi) as [n E]. unfold num_of. rewrite E. eapply bi_num2; eauto. Qed.
Lemma other_side b i j : bipartite b -> In i (bset1 b) -> In j (nbrs (bmem b) i) -> In j (bset2 b).
Proof. intros B Hi Hj. destruct (bi_cross b B i j Hj) as [[_ H]|[H _]]; auto. exfalso. pose proof (sides_once b B) as N. apply NoDup_app_iff in N as (_ & _ & N). exact (N i Hi H). Qed.
Lemma rows2_In b weighted a c w : bipartite b -> In (a, c, w) (flat_map (rows2_at (bmem b) (length (bset1 b)) weighted) (bset1 b)) <->
  exists k1 k2 i j x, nth_error (bset1 b) k1 = Some i /\ nth_error (bset2 b) k2 = Some j /\ weight (bmem b) i j = Some x /\ a = k1 + 1 /\ c = k2 + length (bset1 b) + 1 /\ w = (if weighted then Some x else None).
Proof.
  intros B. rewrite in_flat_map. split.
  - intros (i & Hi & H). apply in_map_iff in H as (j & E & Hj). pose proof (other_side b i j B Hi Hj) as H2. apply nbrs_weight in Hj. destruct (weight (bmem b) i j) as [x|] eqn:Ew; [|congruence]. apply In_nth_error in Hi as [k1 K1]. apply In_nth_error in H2 as [k2 K2].
    rewrite (num1 b k1 i B K1), (num2 b k2 j B K2) in E. exists k1, k2, i, j, x. splits; auto; congruence.
  - intros (k1 & k2 & i & j & x & K1 & K2 & Ew & -> & -> & ->). exists i. split; [eapply nth_error_In; eauto|]. apply in_map_iff. exists j. rewrite (num1 b k1 i B K1), (num2 b k2 j B K2), Ew. split; auto. apply nbrs_weight. congruence.
Qed.
Lemma rows2_once b weighted : bipartite b -> NoDup (map fst (flat_map (rows2_at (bmem b) (length (bset1 b)) weighted) (bset1 b))).
Proof.
  intros B. pose proof (sides_once b B) as N. apply NoDup_app_iff in N as (N1 & N2 & _).
  assert (I1 : forall x y, In x (bset1 b) -> In y (bset1 b) -> num_of (bmem b) x = num_of (bmem b) y -> x = y). { intros x y Hx Hy E. apply In_nth_error in Hx as [k Kx]. apply In_nth_error in Hy as [k' Ky]. rewrite (num1 b k x B Kx), (num1 b k' y B Ky) in E. subst. congruence. }
  assert (I2 : forall x y, In x (bset2 b) -> In y (bset2 b) -> num_of (bmem b) x = num_of (bmem b) y -> x = y). { intros x y Hx Hy E. apply In_nth_error in Hx as [k Kx]. apply In_nth_error in Hy as [k' Ky]. rewrite (num2 b k x B Kx), (num2 b k' y B Ky) in E. subst. congruence. }
  replace (map fst (flat_map (rows2_at (bmem b) (length (bset1 b)) weighted) (bset1 b))) with (flat_map (fun i => map (fun j => (num_of (bmem b) i + 1, num_of (bmem b) j + length (bset1 b) + 1)) (nbrs (bmem b) i)) (bset1 b)).
  - apply NoDup_flat; auto.
    + intros i Hi. pose proof (bi_once b B i) as Nn. assert (O : forall j, In j (nbrs (bmem b) i) -> In j (bset2 b)) by (intros j Hj; eapply other_side; eauto). induction (nbrs (bmem b) i) as [|j l IH]; [constructor|]. inversion Nn; subst. cbn [map]. constructor.
      * intros H. apply in_map_iff in H as (j' & E & Hj'). assert (X : num_of (bmem b) j' = num_of (bmem b) j) by (apply (f_equal snd) in E; cbn in E; lia). apply I2 in X; [|apply O; now right|apply O; now left]. subst. contradiction.
      * apply IH; auto. intros x Hx. apply O. now right.
    + intros i i' y Hi Hi' H1 H2. apply in_map_iff in H1 as (j & E1 & _). apply in_map_iff in H2 as (j' & E2 & _). apply I1; auto. assert (X : num_of (bmem b) i + 1 = num_of (bmem b) i' + 1) by congruence. lia.
  - clear -b. induction (bset1 b) as [|i l IH] at 2 4; auto. cbn [flat_map]. rewrite map_app, <- IH. f_equal. unfold rows2_at. rewrite map_map. reflexivity.
Qed.
End PajBi.

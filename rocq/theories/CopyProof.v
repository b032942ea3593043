(** CopyProof.v -- CopyPartitionStruct and CompressPartition. *)
From Coq Require Import List Arith Lia Bool.
From Verif Require Import Base ListLib PartModel MoveModel PartSpec PartInv ChangeProof MergeProof FillProof.
Import ListNotations.
Local Open Scope nat_scope.

Section Proofs.
Context {A : Type} {ops : NumOps A}.
Implicit Types p : partition A.

(** ** CopyPartitionStruct *)
Lemma foldM_nodes (body : partition A -> nat -> res (partition A)) (F : nat -> node A -> node A) n p :
  n <= length (pnodes p) ->
  (forall i q nd, i < n -> nth_error (pnodes q) i = Some nd ->
     body q i = Ok (set_nodes (upd (pnodes q) i (F i nd)) q)) ->
  exists nodes', foldM body p (seq 0 n) = Ok (set_nodes nodes' p) /\ length nodes' = length (pnodes p) /\
    forall i, nth_error nodes' i = option_map (fun nd => if i <? n then F i nd else nd) (nth_error (pnodes p) i).
Proof.
  intros Hn Hb.
  destruct (foldM_seq (fun k q => exists nodes', q = set_nodes nodes' p /\ length nodes' = length (pnodes p) /\
     forall i, nth_error nodes' i = option_map (fun nd => if i <? k then F i nd else nd) (nth_error (pnodes p) i))
     body n p) as (q & E & nodes' & -> & H1 & H2).
  - exists (pnodes p). split; [destruct p; auto|]. split; auto. intros i. destruct (nth_error (pnodes p) i); auto.
  - intros i q Hi (nodes' & -> & H1 & H2).
    destruct (nth_ex (pnodes p) i) as [nd End]; [lia|].
    assert (E' : nth_error nodes' i = Some nd). { rewrite H2, End. simpl. now rewrite Nat.ltb_irrefl. }
    rewrite (Hb i _ nd) by auto. eexists. split; [reflexivity|].
    exists (upd nodes' i (F i nd)). split; auto. split; [now rewrite length_upd|].
    intros j. rewrite nth_upd, H1. assert (i <? length (pnodes p) = true) as -> by (apply Nat.ltb_lt; lia).
    rewrite andb_true_r. destruct (Nat.eqb_spec j i) as [->|].
    + rewrite End. cbn [option_map]. rewrite (proj2 (Nat.ltb_lt i (i + 1))) by lia. auto.
    + rewrite H2. destruct (nth_error (pnodes p) j); auto. cbn [option_map].
      destruct (Nat.ltb_spec j i), (Nat.ltb_spec j (i + 1)); auto; lia.
  - eauto.
Qed.

Lemma foldM_mods (body : partition A -> nat -> res (partition A)) (F : nat -> module A -> module A) n p :
  n <= length (pmods p) ->
  (forall i q nd, i < n -> nth_error (pmods q) i = Some nd ->
     body q i = Ok (set_mods (upd (pmods q) i (F i nd)) q)) ->
  exists mods', foldM body p (seq 0 n) = Ok (set_mods mods' p) /\ length mods' = length (pmods p) /\
    forall i, nth_error mods' i = option_map (fun nd => if i <? n then F i nd else nd) (nth_error (pmods p) i).
Proof.
  intros Hn Hb.
  destruct (foldM_seq (fun k q => exists mods', q = set_mods mods' p /\ length mods' = length (pmods p) /\
     forall i, nth_error mods' i = option_map (fun nd => if i <? k then F i nd else nd) (nth_error (pmods p) i))
     body n p) as (q & E & mods' & -> & H1 & H2).
  - exists (pmods p). split; [destruct p; auto|]. split; auto. intros i. destruct (nth_error (pmods p) i); auto.
  - intros i q Hi (mods' & -> & H1 & H2).
    destruct (nth_ex (pmods p) i) as [nd End]; [lia|].
    assert (E' : nth_error mods' i = Some nd). { rewrite H2, End. simpl. now rewrite Nat.ltb_irrefl. }
    rewrite (Hb i _ nd) by auto. eexists. split; [reflexivity|].
    exists (upd mods' i (F i nd)). split; auto. split; [now rewrite length_upd|].
    intros j. rewrite nth_upd, H1. assert (i <? length (pmods p) = true) as -> by (apply Nat.ltb_lt; lia).
    rewrite andb_true_r. destruct (Nat.eqb_spec j i) as [->|].
    + rewrite End. cbn [option_map]. rewrite (proj2 (Nat.ltb_lt i (i + 1))) by lia. auto.
    + rewrite H2. destruct (nth_error (pmods p) j); auto. cbn [option_map].
      destruct (Nat.ltb_spec j i), (Nat.ltb_spec j (i + 1)); auto; lia.
  - eauto.
Qed.

(** All links of a partition point to existing nodes. *)
Definition links_in p : Prop :=
  (forall i nd, nth_error (pnodes p) i = Some nd ->
     (forall j, nnext nd = Some j -> j < pN p) /\ (forall j, nprev nd = Some j -> j < pN p)) /\
  (forall m md, nth_error (pmods p) m = Some md ->
     (forall j, mfirst md = Some j -> j < pN p) /\ (forall j, mlast md = Some j -> j < pN p)).

Lemma hd_error_In {B} (l : list B) x : hd_error l = Some x -> In x l.
Proof. destruct l; simpl; [discriminate|]. intros [= ->]. auto. Qed.
Lemma last_error_In {B} (l : list B) x : last_error l = Some x -> In x l.
Proof. intros H. apply in_rev. apply hd_error_In. exact H. Qed.

Lemma WF_links_in p ls : WF p ls -> links_in p.
Proof.
  intros W. split.
  - intros i nd E. destruct (wf_node _ _ i W) as (nd' & E' & _ & Hm & Hi).
    { rewrite <- (wf_N _ _ W). eapply nth_lt; eauto. }
    rewrite E in E'. injection E' as <-.
    destruct (wf_module _ _ _ W Hm) as (md & _ & _ & _ & _ & _ & D).
    apply in_split in Hi as Hs. destruct Hs as (l1 & l2 & El). rewrite El in D.
    destruct (dll_node _ _ _ _ D) as (nd' & E' & Hp & Hn). rewrite E in E'. injection E' as <-.
    split; intros j Hj.
    + rewrite Hn in Hj. apply hd_error_In in Hj. eapply wf_in_lt; [exact W|]. rewrite El. apply in_app_iff. simpl. eauto.
    + rewrite Hp in Hj. apply last_error_In in Hj. eapply wf_in_lt; [exact W|]. rewrite El. apply in_app_iff. simpl. eauto.
  - intros m md E. destruct (wf_links _ _ W m md E) as (Hf & Hl & _). split; intros j Hj.
    + rewrite Hf in Hj. apply hd_error_In in Hj. eapply wf_in_lt; eauto.
    + rewrite Hl in Hj. apply last_error_In in Hj. eapply wf_in_lt; eauto.
Qed.

Lemma copy_link_ok p o :
  (forall i nd, nth_error (pnodes p) i = Some nd -> nid nd = i) -> length (pnodes p) = pN p ->
  (forall j, o = Some j -> j < pN p) -> copy_link p o = Ok o.
Proof.
  intros Hid HN Ho. destruct o as [j|]; simpl; auto. specialize (Ho j eq_refl).
  destruct (nth_ex (pnodes p) j) as [nd E]; [lia|]. rewrite (get_ok _ _ _ E). simpl.
  rewrite (Hid _ _ E). unfold check. rewrite (proj2 (Nat.ltb_lt _ _) Ho). auto.
Qed.

Lemma CopyPartition_links p :
  length (pnodes p) = pN p -> length (pmods p) = pM p -> pM p <= pN p ->
  (forall i nd, nth_error (pnodes p) i = Some nd -> nid nd = i) -> links_in p ->
  CopyPartitionStruct p = Ok p.
Proof.
  intros HN HM HMN Hid [HL1 HL2]. unfold CopyPartitionStruct.
  destruct (CreatePartition_fresh (pN p) (pM p) HMN) as (c & Ec & Fc & EN & EM & _). rewrite Ec. cbn [bind].
  set (c0 := set_nempty (pnempty p) c).
  assert (Hc1 : length (pnodes c0) = pN p) by (simpl; rewrite (fr_N _ Fc); auto).
  assert (Hc2 : length (pmods c0) = pM p) by (simpl; rewrite (fr_M _ Fc); auto).
  set (body1 := fun (c : partition A) i => do nd <- get (pnodes p) i; upd_node c i _).
  destruct (foldM_nodes body1
     (fun i x => match nth_error (pnodes p) i with Some nd => mkNode (nid nd) (nstr nd) (nmod nd) (nprev x) (nnext x) | None => x end)
     (pN p) c0) as (nodes1 & E1 & L1 & N1). { lia. }
  { intros i q x Hi Ex. unfold body1. destruct (nth_ex (pnodes p) i) as [nd E]; [lia|]. rewrite (get_ok _ _ _ E), E.
    simpl. erewrite upd_node_ok by eauto. auto. }
  rewrite E1. cbn [bind]. clear E1 body1.
  set (body2 := fun (c : partition A) i => do md <- get (pmods p) i; upd_mod c i _).
  destruct (foldM_mods body2
     (fun i x => match nth_error (pmods p) i with Some md => mkModule (mid md) (msize md) (mstr md) (mfirst x) (mlast x) | None => x end)
     (pM p) (set_nodes nodes1 c0)) as (mods2 & E2 & L2 & N2). { simpl in *. lia. }
  { intros i q x Hi Ex. unfold body2. destruct (nth_ex (pmods p) i) as [nd E]; [lia|]. rewrite (get_ok _ _ _ E), E.
    simpl. erewrite upd_mod_ok by eauto. auto. }
  rewrite E2. cbn [bind]. clear E2 body2.
  set (c2 := set_mods mods2 _).
  set (body3 := fun (c : partition A) i => do nd <- get (pnodes p) i; do nx <- _; _).
  destruct (foldM_nodes body3
     (fun i x => match nth_error (pnodes p) i with Some nd => set_nprev (nprev nd) (set_nnext (nnext nd) x) | None => x end)
     (pN p) c2) as (nodes3 & E3 & L3 & N3). { simpl in *. lia. }
  { intros i q x Hi Ex. unfold body3. destruct (nth_ex (pnodes p) i) as [nd E]; [lia|]. rewrite (get_ok _ _ _ E), E.
    cbn [bind]. destruct (HL1 i nd E) as [Ha Hb]. rewrite (copy_link_ok p (nnext nd)) by auto. cbn [bind].
    rewrite (copy_link_ok p (nprev nd)) by auto. cbn [bind].
    erewrite upd_node_ok by eauto. cbn [bind]. erewrite upd_node_ok by (cbn; apply nth_upd_eq; eapply nth_lt; eauto).
    unfold set_nodes. simpl. rewrite upd_upd. auto. }
  rewrite E3. cbn [bind]. clear E3 body3.
  set (body4 := fun (c : partition A) i => do nd <- get (pmods p) i; do fi <- _; _).
  destruct (foldM_mods body4
     (fun i x => match nth_error (pmods p) i with Some nd => set_mlast (mlast nd) (set_mfirst (mfirst nd) x) | None => x end)
     (pM p) (set_nodes nodes3 c2)) as (mods4 & E4 & L4 & N4). { simpl in *. lia. }
  { intros i q x Hi Ex. unfold body4. destruct (nth_ex (pmods p) i) as [nd E]; [lia|]. rewrite (get_ok _ _ _ E), E.
    cbn [bind]. destruct (HL2 i nd E) as [Ha Hb]. rewrite (copy_link_ok p (mfirst nd)) by auto. cbn [bind].
    rewrite (copy_link_ok p (mlast nd)) by auto. cbn [bind].
    erewrite upd_mod_ok by eauto. cbn [bind]. erewrite upd_mod_ok by (cbn; apply nth_upd_eq; eapply nth_lt; eauto).
    unfold set_mods. simpl. rewrite upd_upd. auto. }
  rewrite E4. f_equal. unfold c2, c0. unfold set_mods, set_nodes, set_nempty. simpl. rewrite EN, EM.
  assert (En : nodes3 = pnodes p).
  { apply nth_ext. intros i. rewrite N3. simpl. rewrite N1. destruct (Nat.lt_ge_cases i (pN p)) as [Hi|Hi].
    - destruct (nth_ex (pnodes p) i) as [nd E]; [lia|]. rewrite E.
      destruct (nth_ex (pnodes c0) i) as [x Ex]; [lia|]. rewrite Ex. cbn [option_map].
      rewrite (proj2 (Nat.ltb_lt _ _) Hi). destruct nd; auto.
    - rewrite !(proj2 (nth_error_None _ _)) by lia. auto. }
  assert (Em : mods4 = pmods p).
  { apply nth_ext. intros i. rewrite N4. simpl. rewrite N2. simpl. destruct (Nat.lt_ge_cases i (pM p)) as [Hi|Hi].
    - destruct (nth_ex (pmods p) i) as [nd E]; [lia|]. rewrite E.
      destruct (nth_ex (pmods c) i) as [x Ex]; [simpl in *; lia|]. rewrite Ex. cbn [option_map].
      rewrite (proj2 (Nat.ltb_lt _ _) Hi). destruct nd; auto.
    - rewrite !(proj2 (nth_error_None _ _)) by (simpl in *; lia). auto. }
  rewrite En, Em. destruct p; auto.
Qed.

Theorem CopyPartition_spec p ls : WF p ls -> pM p <= pN p -> CopyPartitionStruct p = Ok p.
Proof.
  intros W H. apply CopyPartition_links; auto; try apply W. eapply WF_links_in; eauto.
Qed.

End Proofs.

(** ExactProof.v -- exact arithmetic: module strengths, gains of moves and merges, PartitionModularity. *)
From Coq Require Import List Arith Lia Bool QArith Qcanon Permutation.
From Verif Require Import Base Num ListLib QcSum PartModel MoveModel PartSpec AdjSpec ModSpec PartInv ChangeProof
  MergeProof Steps EnergyForm.
Import ListNotations.
Local Open Scope nat_scope.
Local Open Scope Qc_scope.

Section Exact.
Variables ex sq : Qc -> Qc.
#[local] Instance opsQ : NumOps Qc := Qc_ops ex sq.
Implicit Types p : partition Qc.

Lemma group_gof p ls i : WF p ls -> (i < pN p)%nat -> group p i = Some (gof p i).
Proof.
  intros W Hi. destruct (wf_node _ _ _ W Hi) as (nd & E & _). unfold gof, group. rewrite E. reflexivity.
Qed.

Lemma strength_kk p ls i : WF p ls -> (i < pN p)%nat -> strength p i = Some (kk p i).
Proof.
  intros W Hi. destruct (wf_node _ _ _ W Hi) as (nd & E & _). unfold kk, strength. rewrite E. reflexivity.
Qed.

Lemma kk_node p n nd : nth_error (pnodes p) n = Some nd -> kk p n = nstr nd.
Proof. intros H. unfold kk, strength. now rewrite H. Qed.

Lemma strengths_gof p ls : WF p ls -> (strengths_ok p <->
  forall m md, nth_error (pmods p) m = Some md ->
    mstr md = Qsum (fun i => if Nat.eqb (gof p i) m then kk p i else 0) (seq 0 (pN p))).
Proof.
  intros W. unfold strengths_ok. split; intros H m md E; rewrite (H m md E); apply Qsum_ext; intros i Hi;
    apply in_seq in Hi; rewrite (group_gof p ls i W) by lia; reflexivity.
Qed.

Lemma mem_gof p ls i m : WF p ls -> (i < pN p)%nat -> mem i (ls m) = Nat.eqb (gof p i) m.
Proof.
  intros W Hi. pose proof (group_gof p ls i W Hi) as G.
  destruct (mem_spec i (ls m)) as [H|H]; rewrite (wf_mem _ _ W), G in H.
  - injection H as ->. now rewrite Nat.eqb_refl.
  - destruct (Nat.eqb_spec (gof p i) m); auto; congruence.
Qed.

Lemma Qsum_ls (f : nat -> Qc) p ls m : WF p ls ->
  Qsum f (ls m) = Qsum (fun i => if Nat.eqb (gof p i) m then f i else 0) (seq 0 (pN p)).
Proof.
  intros W. rewrite (Qsum_members f (ls m) (pN p)).
  - apply Qsum_ext. intros i Hi. apply in_seq in Hi. rewrite (mem_gof p ls) by (auto; lia). reflexivity.
  - apply (wf_nodup _ _ W).
  - intros x Hx. eapply wf_in_lt; eauto.
Qed.

Lemma strengths_ls p ls : WF p ls -> (strengths_ok p <->
  forall m md, nth_error (pmods p) m = Some md -> mstr md = Qsum (kk p) (ls m)).
Proof.
  intros W. rewrite (strengths_gof p ls W). split; intros H m md E; rewrite (H m md E);
    [symmetry|]; apply Qsum_ls; auto.
Qed.

(** Effect of a move and a merge on [gof]. *)
Lemma ChangeModule_gof p ls n new nd p' : WF p ls -> nth_error (pnodes p) n = Some nd -> (new < pM p)%nat ->
  ChangeModule n new p = Ok p' ->
  exists ls', WF p' ls' /\ pN p' = pN p /\ pM p' = pM p /\ (forall i, kk p' i = kk p i) /\
   (forall i, gof p' i = if Nat.eqb i n then new else gof p i) /\
   (forall m, option_map mstr (nth_error (pmods p') m) = moved_str p (nmod nd) new (nstr nd) m).
Proof.
  intros W En Hn E. destruct (ChangeModule_spec p ls n new nd W En Hn) as (q & Eq & W' & N' & M' & G' & S' & St').
  rewrite E in Eq. injection Eq as <-. eexists. splits; eauto.
  - intros i. unfold kk. now rewrite S'.
  - intros i. unfold gof. rewrite G'. destruct (Nat.eqb i n); auto.
Qed.

Lemma strengths_change p ls n new nd p' : WF p ls -> strengths_ok p ->
  nth_error (pnodes p) n = Some nd -> (new < pM p)%nat -> ChangeModule n new p = Ok p' -> strengths_ok p'.
Proof.
  intros W S En Hn E. destruct (ChangeModule_gof p ls n new nd p' W En Hn E) as (ls' & W' & N' & M' & K' & G' & St').
  apply (strengths_gof p' ls' W'). rewrite (strengths_gof p ls W) in S. intros m md' Em'.
  specialize (St' m). rewrite Em' in St'. unfold moved_str in St'.
  destruct (nth_error (pmods p) m) as [md|] eqn:Em; [|discriminate]. cbn [option_map] in St'. injection St' as ->.
  specialize (S m md Em). rewrite S. clear S. rewrite N'.
  assert (Hlt : (n < pN p)%nat). { rewrite <- (wf_N _ _ W). eapply nth_lt; eauto. }
  assert (Hg : gof p n = nmod nd) by (apply gof_node; auto).
  assert (Hk : nstr nd = kk p n) by (symmetry; apply kk_node; auto).
  (* sum after = sum before - [old] + [new] *)
  rewrite (Qsum_ext (fun i => if Nat.eqb (gof p' i) m then kk p' i else 0)
     (fun i => ((if Nat.eqb (gof p i) m then kk p i else 0) +
       (if Nat.eqb i n then ((if Nat.eqb new m then kk p i else 0) - (if Nat.eqb (nmod nd) m then kk p i else 0)) else 0)))).
  - rewrite Qsum_add. rewrite (Qsum_single (fun i => (if Nat.eqb new m then kk p i else 0) - (if Nat.eqb (nmod nd) m then kk p i else 0))).
    + rewrite Hk. rewrite (Nat.eqb_sym m (nmod nd)), (Nat.eqb_sym m new). cbn [nadd nsub opsQ Qc_ops].
      destruct (Nat.eqb (nmod nd) m); destruct (Nat.eqb new m); ring.
    + apply seq_NoDup.
    + apply in_seq. lia.
  - intros i Hi. rewrite G', K'. destruct (Nat.eqb_spec i n) as [->|]; [|ring].
    rewrite Hg. destruct (Nat.eqb new m); destruct (Nat.eqb (nmod nd) m); ring.
Qed.

Lemma merge_effect p ls a b p' : WF p ls -> a <> b -> (a < pM p)%nat -> (b < pM p)%nat -> MergeModules a b p = Ok p' ->
  (p' = p /\ (ls a = [] \/ ls b = [])) \/
  exists ls' small large ms ml,
    (small, large) = (if (length (ls b) <? length (ls a))%nat then (b, a) else (a, b)) /\
    small <> large /\
    nth_error (pmods p) small = Some ms /\ nth_error (pmods p) large = Some ml /\
    WF p' ls' /\ pN p' = pN p /\ pM p' = pM p /\ (forall i, kk p' i = kk p i) /\
    (forall i, (i < pN p)%nat -> gof p' i = if Nat.eqb (gof p i) small then large else gof p i) /\
    (forall m, option_map mstr (nth_error (pmods p') m) =
               if Nat.eqb m small then Some 0 else if Nat.eqb m large then Some (mstr ml + mstr ms)
               else option_map mstr (nth_error (pmods p) m)).
Proof.
  intros W Hne Ha Hb E.
  destruct (wf_module _ _ _ W Ha) as (m1 & E1 & _ & S1 & _).
  destruct (wf_module _ _ _ W Hb) as (m2 & E2 & _ & S2 & _).
  destruct (list_eq_dec Nat.eq_dec (ls a) []) as [Z|NZ].
  { left. split; auto. unfold MergeModules in E. rewrite (get_ok _ _ _ E1) in E. cbn [bind] in E.
    rewrite (get_ok _ _ _ E2) in E. cbn [bind] in E. rewrite S1, Z in E. cbn in E. congruence. }
  destruct (list_eq_dec Nat.eq_dec (ls b) []) as [Z2|NZ2].
  { left. split; auto. unfold MergeModules in E. rewrite (get_ok _ _ _ E1) in E. cbn [bind] in E.
    rewrite (get_ok _ _ _ E2) in E. cbn [bind] in E. rewrite S2, Z2 in E. cbn [length] in E. rewrite orb_true_r in E. congruence. }
  right. remember (if (length (ls b) <? length (ls a))%nat then (b, a) else (a, b)) as sl eqn:Esl. destruct sl as [small large].
  assert (exists ms ml, nth_error (pmods p) small = Some ms /\ nth_error (pmods p) large = Some ml) as (ms & ml & Q1 & Q2).
  { destruct (_ <? _)%nat; injection Esl as -> ->; eauto. }
  destruct (MergeModules_large p ls a b small large ms ml W Hne Ha Hb Esl Q1 Q2 NZ NZ2) as (q & Eq & W' & N' & M' & G' & S' & St').
  rewrite E in Eq. injection Eq as <-. exists (ls_merge ls small large), small, large, ms, ml. splits; auto.
  - destruct (_ <? _)%nat; injection Esl as -> ->; auto.
  - intros i. unfold kk. now rewrite S'.
  - intros i Hi. unfold gof at 1. rewrite G', (mem_gof p ls) by auto. destruct (Nat.eqb (gof p i) small); auto.
Qed.

Lemma strengths_merge p ls a b p' : WF p ls -> strengths_ok p -> a <> b -> (a < pM p)%nat -> (b < pM p)%nat ->
  MergeModules a b p = Ok p' -> strengths_ok p'.
Proof.
  intros W S Hne Ha Hb E.
  destruct (merge_effect p ls a b p' W Hne Ha Hb E) as [[-> _]|(ls' & small & large & ms & ml & _ & Hsl & Es & El & W' & N' & M' & K' & G' & St')]; auto.
  apply (strengths_gof p' ls' W'). rewrite (strengths_gof p ls W) in S. intros m md' Em'.
  specialize (St' m). rewrite Em' in St'. cbn [option_map] in St'. rewrite N'.
  destruct (Nat.eqb_spec m small) as [e|Hs].
  { injection St' as ->. symmetry. apply Qsum_0. intros i Hi. apply in_seq in Hi. rewrite G' by lia. subst m.
    destruct (Nat.eqb_spec (gof p i) small) as [e|n].
    - destruct (Nat.eqb_spec large small); auto. congruence.
    - destruct (Nat.eqb_spec (gof p i) small); auto. congruence. }
  destruct (Nat.eqb_spec m large) as [e|Hl].
  { injection St' as ->. rewrite (S _ _ Es), (S _ _ El), <- Qsum_add. apply Qsum_ext. intros i Hi. apply in_seq in Hi.
    rewrite G', K' by lia. subst m. destruct (Nat.eqb_spec (gof p i) small) as [e|n].
    - rewrite e, Nat.eqb_refl. destruct (Nat.eqb_spec small large); [congruence|]. ring.
    - ring. }
  destruct (nth_error (pmods p) m) as [md|] eqn:Em; [|discriminate]. cbn [option_map] in St'. injection St' as ->.
  rewrite (S _ _ Em). apply Qsum_ext. intros i Hi. apply in_seq in Hi. rewrite G', K' by lia.
  destruct (Nat.eqb_spec (gof p i) small) as [e|n]; auto.
  rewrite e. destruct (Nat.eqb_spec small m); [congruence|]. destruct (Nat.eqb_spec large m); congruence.
Qed.

Lemma strengths_steps p ls q : WF p ls -> strengths_ok p -> steps p q -> strengths_ok q.
Proof.
  intros W S H. induction H as [|q r n m H IH Hn Hm E|q r a b H IH Hne Ha Hb E]; auto;
    destruct (steps_WF _ _ _ W H) as (lq & Wq & _).
  - destruct (wf_node _ _ _ Wq Hn) as (nd & En & _). eapply strengths_change; eauto.
  - eapply strengths_merge with (a := a) (b := b); eauto.
Qed.

(** ** Rows as sums over all nodes *)
Lemma row_sum adj N i (phi : nat -> Qc) : adj_ok adj N ->
  Qsum (fun x => snd x * phi (fst x)) (row adj i) = Qsum (fun j => aw adj i j * phi j) (seq 0 N).
Proof.
  intros HA. unfold aw.
  rewrite (Qsum_ext (fun j => Qsum (fun x => if Nat.eqb (fst x) j then snd x else 0) (row adj i) * phi j)
     (fun j => Qsum (fun x => if Nat.eqb j (fst x) then snd x * phi j else 0) (row adj i))).
  - rewrite Qsum_swap. apply Qsum_ext. intros [j w] Hx. cbn [fst snd].
    rewrite (Qsum_single (fun y => w * phi y)); auto.
    + apply seq_NoDup.
    + apply in_seq. apply (row_lt adj N) in Hx; auto. lia.
  - intros j Hj. rewrite <- Qsum_scal_r. apply Qsum_ext. intros x _. rewrite Nat.eqb_sym.
    destruct (Nat.eqb j (fst x)); ring.
Qed.

Lemma aw_loop adj i : ~ adjacent adj i i -> aw adj i i = 0.
Proof.
  intros H. apply Qsum_0. intros [j w] Hx. cbn [fst snd]. destruct (Nat.eqb_spec j i); auto. subst.
  exfalso. apply H. apply in_map_iff. exists (i, w); auto.
Qed.

(** Modularity as a function of a numbering. *)
Definition QQ (N : nat) (B : nat -> nat -> Qc) (g : nat -> nat) : Qc :=
  Qsum (fun i => Qsum (fun j => if negb (Nat.eqb i j) && Nat.eqb (g i) (g j) then B i j else 0) (seq 0 N)) (seq 0 N).

Definition BB p adj (i j : nat) : Qc := aw adj i j - kk p i * kk p j.

Lemma modularity_QQ p ls adj : WF p ls -> modularity p adj = QQ (pN p) (BB p adj) (gof p).
Proof.
  intros W. unfold modularity, QQ. apply Qsum_ext. intros i Hi. apply Qsum_ext. intros j Hj.
  apply in_seq in Hi, Hj. unfold together. rewrite (group_gof p ls i W), (group_gof p ls j W) by lia. reflexivity.
Qed.

Lemma QQ_ext N B B' g g' : (forall i j, (i < N)%nat -> (j < N)%nat -> B i j = B' i j) ->
  (forall i j, (i < N)%nat -> (j < N)%nat -> Nat.eqb (g i) (g j) = Nat.eqb (g' i) (g' j)) -> QQ N B g = QQ N B' g'.
Proof.
  intros H1 H2. unfold QQ. apply Qsum_ext. intros i Hi. apply Qsum_ext. intros j Hj. apply in_seq in Hi, Hj.
  rewrite H1, H2 by lia. reflexivity.
Qed.

Lemma QQ_change N B g n m : (n < N)%nat -> (forall i j, B i j = B j i) -> m <> g n ->
  QQ N B (fun i => if Nat.eqb i n then m else g i) - QQ N B g =
  (1 + 1) * Qsum (fun j => if Nat.eqb j n then 0
                           else (if Nat.eqb (g j) m then B n j else 0) - (if Nat.eqb (g j) (g n) then B n j else 0)) (seq 0 N).
Proof.
  intros Hn HB Hm. unfold QQ. set (g' := fun i => if Nat.eqb i n then m else g i).
  set (D := fun i j => (if negb (Nat.eqb i j) && Nat.eqb (g' i) (g' j) then B i j else 0) -
                       (if negb (Nat.eqb i j) && Nat.eqb (g i) (g j) then B i j else 0)).
  rewrite <- Qsum_sub.
  rewrite (Qsum_ext _ (fun i => Qsum (fun j => D i j) (seq 0 N))).
  2: { intros i _. rewrite <- Qsum_sub. reflexivity. }
  rewrite (cross_sum D n).
  - f_equal. apply Qsum_ext. intros j _. unfold D, g'. rewrite Nat.eqb_refl, (Nat.eqb_sym n j).
    destruct (Nat.eqb_spec j n); cbn [negb andb]; [ring|]. rewrite (Nat.eqb_sym m), (Nat.eqb_sym (g n)). reflexivity.
  - apply seq_NoDup.
  - apply in_seq. lia.
  - intros i j _ _. unfold D. rewrite (Nat.eqb_sym i j), (Nat.eqb_sym (g' i)), (Nat.eqb_sym (g i)), (HB i j). reflexivity.
  - intros i j _ _ H1 H2. unfold D, g'. destruct (Nat.eqb_spec i n); [congruence|]. destruct (Nat.eqb_spec j n); [congruence|]. ring.
  - unfold D. rewrite Nat.eqb_refl. cbn. ring.
Qed.

Lemma QQ_merge N B g s l : (forall i j, B i j = B j i) -> s <> l ->
  QQ N B (fun i => if Nat.eqb (g i) s then l else g i) - QQ N B g =
  (1 + 1) * Qsum (fun i => if Nat.eqb (g i) s then Qsum (fun j => if Nat.eqb (g j) l then B i j else 0) (seq 0 N) else 0) (seq 0 N).
Proof.
  intros HB Hsl. unfold QQ.
  set (C := fun a b i j => if Nat.eqb (g i) a && Nat.eqb (g j) b then B i j else 0).
  rewrite <- Qsum_sub.
  rewrite (Qsum_ext _ (fun i => Qsum (C s l i) (seq 0 N) + Qsum (C l s i) (seq 0 N))).
  - rewrite Qsum_add.
    assert (E : Qsum (fun i => Qsum (C l s i) (seq 0 N)) (seq 0 N) = Qsum (fun i => Qsum (C s l i) (seq 0 N)) (seq 0 N)).
    { rewrite Qsum_swap. apply Qsum_ext. intros i _. apply Qsum_ext. intros j _. unfold C. rewrite (HB j i), andb_comm. reflexivity. }
    change (fun x => Qsum (C l s x) (seq 0 N)) with (fun i => Qsum (C l s i) (seq 0 N)). rewrite E.
    rewrite (Qsum_ext (fun i => Qsum (C s l i) (seq 0 N))
      (fun i => if Nat.eqb (g i) s then Qsum (fun j => if Nat.eqb (g j) l then B i j else 0) (seq 0 N) else 0)).
    + ring.
    + intros i _. unfold C. destruct (Nat.eqb (g i) s); cbn [andb]; auto. apply Qsum_0. auto.
  - intros i _. rewrite <- Qsum_sub, <- Qsum_add. apply Qsum_ext. intros j _. unfold C.
    destruct (Nat.eqb_spec i j) as [->|Hij]; cbn [negb andb].
    { destruct (Nat.eqb_spec (g j) s); destruct (Nat.eqb_spec (g j) l); cbn [andb]; try ring; congruence. }
    destruct (Nat.eqb_spec (g i) s) as [Ei|Ei]; destruct (Nat.eqb_spec (g j) s) as [Ej|Ej];
    destruct (Nat.eqb_spec (g i) l) as [Fi|Fi]; destruct (Nat.eqb_spec (g j) l) as [Fj|Fj]; cbn [andb];
    try congruence; repeat match goal with |- context [Nat.eqb ?a ?b] => destruct (Nat.eqb_spec a b); try congruence end; ring.
Qed.

(** ** The predicted gains *)
Lemma fold_links p old new l : forall a, old <> new ->
  fold_left (dE_links p old new) l a =
  a + Qsum (fun x => snd x * ((if Nat.eqb (gof p (fst x)) new then 1 else 0) - (if Nat.eqb (gof p (fst x)) old then 1 else 0))) l.
Proof.
  intros a Hne. revert a. induction l as [|[j w] l IH]; intros a; simpl; [ring|]. rewrite IH. unfold dE_links. cbn [fst snd nadd nsub opsQ Qc_ops].
  destruct (Nat.eqb_spec (gof p j) old); destruct (Nat.eqb_spec (gof p j) new); try congruence; ring.
Qed.

Theorem dEChangeModule_exact p ls adj n m nd p' d :
  WF p ls -> strengths_ok p -> adj_ok adj (pN p) -> sym_w adj -> ~ adjacent adj n n ->
  nth_error (pnodes p) n = Some nd -> (m < pM p)%nat -> m <> nmod nd ->
  dEChangeModule n m p adj = Ok d -> ChangeModule n m p = Ok p' ->
  d = modularity p' adj - modularity p adj.
Proof.
  intros W S HA HS Hloop En Hm Hne Ed Ep.
  destruct (dEChangeModule_form p ls adj n m nd W HA En Hm) as (mo & mn & Eo & Em & F). rewrite F in Ed. injection Ed as <-.
  destruct (ChangeModule_gof p ls n m nd p' W En Hm Ep) as (ls' & W' & N' & M' & K' & G' & _).
  assert (Hlt : (n < pN p)%nat). { rewrite <- (wf_N _ _ W). eapply nth_lt; eauto. }
  assert (Hg : gof p n = nmod nd) by (apply gof_node; auto).
  rewrite (modularity_QQ p ls adj W), (modularity_QQ p' ls' adj W').
  rewrite N'. rewrite (QQ_ext (pN p) (BB p' adj) (BB p adj) (gof p') (fun i => if Nat.eqb i n then m else gof p i)).
  2: { intros i j _ _. unfold BB. rewrite !K'. reflexivity. }
  2: { intros i j _ _. rewrite !G'. reflexivity. }
  rewrite QQ_change; auto.
  2: { intros i j. unfold BB. rewrite (HS i j). ring. }
  2: { congruence. }
  cbn [nmul nadd nsub nofnat n0 opsQ Qc_ops]. rewrite Qc_of_nat_2. f_equal.
  rewrite fold_links by auto.
  change (Qsum (fun x : nat * Qc => snd x * ((if Nat.eqb (gof p (fst x)) m then 1 else 0) - (if Nat.eqb (gof p (fst x)) (nmod nd) then 1 else 0))) (row adj n))
   with (Qsum (fun x : nat * Qc => snd x * ((fun j => (if Nat.eqb (gof p j) m then 1 else 0) - (if Nat.eqb (gof p j) (nmod nd) then 1 else 0)) (fst x))) (row adj n)).
  rewrite (row_sum adj (pN p) n) by auto. cbv beta.
  rewrite (strengths_gof p ls W) in S. rewrite (S _ _ Eo), (S _ _ Em).
  rewrite <- (kk_node p n nd En). rewrite <- Hg in Hne |- *.
  (* bring everything under one sum *)
  rewrite (Qsum_ext (fun j => if Nat.eqb j n then 0 else _) (fun j =>
     aw adj n j * ((if Nat.eqb (gof p j) m then 1 else 0) - (if Nat.eqb (gof p j) (gof p n) then 1 else 0))
     + (kk p n * (if Nat.eqb (gof p j) (gof p n) then kk p j else 0)
     - kk p n * (if Nat.eqb (gof p j) m then kk p j else 0)
     - (if Nat.eqb j n then kk p n * kk p j else 0)))).
  - rewrite Qsum_add, !Qsum_sub, !Qsum_scal. rewrite (Qsum_single (fun j => kk p n * kk p j)).
    + ring.
    + apply seq_NoDup.
    + apply in_seq. lia.
  - intros j _. unfold BB. destruct (Nat.eqb_spec j n) as [->|Hj].
    + rewrite (aw_loop adj n Hloop), Nat.eqb_refl. destruct (Nat.eqb_spec (gof p n) m); [congruence|]. ring.
    + destruct (Nat.eqb (gof p j) m); destruct (Nat.eqb (gof p j) (gof p n)); ring.
Qed.

Lemma fold_into p large l : forall a,
  fold_left (dE_into p large) l a = a + Qsum (fun x => snd x * (if Nat.eqb (gof p (fst x)) large then 1 else 0)) l.
Proof.
  induction l as [|[j w] l IH]; intros a; simpl; [ring|]. rewrite IH. unfold dE_into. cbn [fst snd nadd opsQ Qc_ops].
  destruct (Nat.eqb (gof p j) large); ring.
Qed.

Lemma fold_into2 p adj large L : forall a,
  fold_left (fun dE i => fold_left (dE_into p large) (row adj i) dE) L a =
  a + Qsum (fun i => Qsum (fun x => snd x * (if Nat.eqb (gof p (fst x)) large then 1 else 0)) (row adj i)) L.
Proof. induction L as [|i L IH]; intros a; simpl; [ring|]. rewrite IH, fold_into. ring. Qed.

Theorem dEMergeModules_exact p ls adj a b p' d :
  WF p ls -> strengths_ok p -> adj_ok adj (pN p) -> sym_w adj ->
  a <> b -> (a < pM p)%nat -> (b < pM p)%nat ->
  dEMergeModules a b p adj = Ok d -> MergeModules a b p = Ok p' ->
  d = modularity p' adj - modularity p adj.
Proof.
  intros W S HA HS Hne Ha Hb Ed Ep.
  destruct (dEMergeModules_form p ls adj a b W HA Ha Hb) as (ma & mb & Ea & Eb & F).
  remember (if (length (ls b) <? length (ls a))%nat then (b, a) else (a, b)) as sl eqn:Esl. destruct sl as [small large].
  rewrite F in Ed. injection Ed as <-. cbn [nmul nadd nsub nofnat n0 opsQ Qc_ops]. rewrite Qc_of_nat_2.
  rewrite fold_into2.
  assert (Hsl : (small = a /\ large = b) \/ (small = b /\ large = a)) by (destruct (_ <? _)%nat; injection Esl as -> ->; auto).
  assert (Sm : mstr ma * mstr mb = Qsum (kk p) (ls small) * Qsum (kk p) (ls large)).
  { rewrite (strengths_ls p ls W) in S. rewrite (S _ _ Ea), (S _ _ Eb). destruct Hsl as [[-> ->]|[-> ->]]; ring. }
  rewrite Sm. clear Sm F.
  assert (Hgain : (1 + 1) * (0 + Qsum (fun i => Qsum (fun x => snd x * (if Nat.eqb (gof p (fst x)) large then 1 else 0)) (row adj i)) (ls small)
             - Qsum (kk p) (ls small) * Qsum (kk p) (ls large)) =
     QQ (pN p) (BB p adj) (fun i => if Nat.eqb (gof p i) small then large else gof p i) - QQ (pN p) (BB p adj) (gof p)).
  { rewrite QQ_merge.
    2: { intros i j. unfold BB. rewrite (HS i j). ring. }
    2: { destruct Hsl as [[-> ->]|[-> ->]]; auto. }
    f_equal.
    rewrite (Qsum_ext (fun i => Qsum _ (row adj i)) (fun i => Qsum (fun j => aw adj i j * (if Nat.eqb (gof p j) large then 1 else 0)) (seq 0 (pN p)))).
    2: { intros i _. apply (row_sum adj (pN p) i (fun j => if Nat.eqb (gof p j) large then 1 else 0) HA). }
    rewrite (Qsum_ls (fun i => Qsum (fun j => aw adj i j * (if Nat.eqb (gof p j) large then 1 else 0)) (seq 0 (pN p))) p ls small W).
    rewrite (Qsum_ls (kk p) p ls small W). rewrite <- Qsum_scal_r.
    match goal with |- 0 + ?x - ?y = _ => replace (0 + x - y) with (x - y) by ring end.
    rewrite <- Qsum_sub. apply Qsum_ext. intros i _. destruct (Nat.eqb (gof p i) small); [|ring].
    rewrite (Qsum_ls (kk p) p ls large W), <- Qsum_scal, <- Qsum_sub. apply Qsum_ext. intros j _. unfold BB.
    destruct (Nat.eqb (gof p j) large); ring. }
  rewrite Hgain. clear Hgain. rewrite (modularity_QQ p ls adj W).
  destruct (merge_effect p ls a b p' W Hne Ha Hb Ep) as [[-> Hz]|(ls' & s' & l' & ms & ml & Esl' & _ & _ & _ & W' & N' & M' & K' & G' & _)].
  - rewrite (modularity_QQ p ls adj W). f_equal. apply QQ_ext; auto. intros i j Hi Hj.
    assert (Hzz : ls small = [] \/ ls large = []) by (destruct Hsl as [[-> ->]|[-> ->]]; tauto).
    assert (Q : forall m k, ls m = [] -> (k < pN p)%nat -> gof p k <> m).
    { intros m k Hm Hk E. pose proof (mem_gof p ls k m W Hk) as Q. rewrite Hm, E, Nat.eqb_refl in Q. discriminate. }
    destruct (Nat.eqb_spec (gof p i) small) as [Ei|Ei]; destruct (Nat.eqb_spec (gof p j) small) as [Ej|Ej].
    + rewrite Ei, Ej, !Nat.eqb_refl. reflexivity.
    + destruct Hzz as [Hz1|Hz1]; [exfalso; apply (Q small i); auto|]. pose proof (Q large j Hz1 Hj).
      destruct (Nat.eqb_spec large (gof p j)); [congruence|]. destruct (Nat.eqb_spec (gof p i) (gof p j)); congruence.
    + destruct Hzz as [Hz1|Hz1]; [exfalso; apply (Q small j); auto|]. pose proof (Q large i Hz1 Hi).
      destruct (Nat.eqb_spec (gof p i) large); [congruence|]. destruct (Nat.eqb_spec (gof p i) (gof p j)); congruence.
    + reflexivity.
  - rewrite <- Esl in Esl'. injection Esl' as -> ->. rewrite (modularity_QQ p' ls' adj W'), N'. f_equal. apply QQ_ext.
    + intros i j _ _. unfold BB. rewrite !K'. reflexivity.
    + intros i j Hi Hj. rewrite !G' by auto. reflexivity.
Qed.

(** dEMergeModules does not depend on the order of its arguments. *)
Theorem dEMergeModules_sym p ls adj a b d1 d2 :
  WF p ls -> adj_ok adj (pN p) -> sym_w adj -> (a < pM p)%nat -> (b < pM p)%nat ->
  dEMergeModules a b p adj = Ok d1 -> dEMergeModules b a p adj = Ok d2 -> d1 = d2.
Proof.
  intros W HA HS Ha Hb E1 E2.
  destruct (dEMergeModules_form p ls adj a b W HA Ha Hb) as (ma & mb & Ea & Eb & F1).
  destruct (dEMergeModules_form p ls adj b a W HA Hb Ha) as (mb' & ma' & Eb' & Ea' & F2).
  rewrite Ea in Ea'. injection Ea' as <-. rewrite Eb in Eb'. injection Eb' as <-.
  assert (Sw : forall s l,
    Qsum (fun i => Qsum (fun x => snd x * (if Nat.eqb (gof p (fst x)) l then 1 else 0)) (row adj i)) (ls s) =
    Qsum (fun i => Qsum (fun x => snd x * (if Nat.eqb (gof p (fst x)) s then 1 else 0)) (row adj i)) (ls l)).
  { assert (R : forall s l, Qsum (fun i => Qsum (fun x => snd x * (if Nat.eqb (gof p (fst x)) l then 1 else 0)) (row adj i)) (ls s) =
      Qsum (fun i => Qsum (fun j => if Nat.eqb (gof p i) s && Nat.eqb (gof p j) l then aw adj i j else 0) (seq 0 (pN p))) (seq 0 (pN p))).
    { intros s l. rewrite (Qsum_ls _ p ls s W). apply Qsum_ext. intros i _. destruct (Nat.eqb (gof p i) s); cbn [andb].
      - rewrite (row_sum adj (pN p) i (fun j => if Nat.eqb (gof p j) l then 1 else 0) HA). apply Qsum_ext. intros j _.
        destruct (Nat.eqb (gof p j) l); ring.
      - symmetry. apply Qsum_0. auto. }
    intros s l. rewrite !R, Qsum_swap. apply Qsum_ext. intros i _. apply Qsum_ext. intros j _. rewrite andb_comm, (HS j i). reflexivity. }
  destruct (if (length (ls b) <? length (ls a))%nat then (b, a) else (a, b)) as [s1 l1] eqn:Q1.
  destruct (if (length (ls a) <? length (ls b))%nat then (a, b) else (b, a)) as [s2 l2] eqn:Q2.
  rewrite F1 in E1. rewrite F2 in E2. injection E1 as <-. injection E2 as <-.
  cbn [nmul nadd nsub nofnat n0 opsQ Qc_ops]. rewrite !fold_into2. f_equal.
  assert (E : (s1 = s2 /\ l1 = l2) \/ (s1 = l2 /\ l1 = s2)).
  { destruct (_ <? _)%nat; destruct (_ <? _)%nat; injection Q1 as <- <-; injection Q2 as <- <-; auto. }
  destruct E as [[-> ->]|[-> ->]]; [ring|]. rewrite (Sw l2 s2). ring.
Qed.

End Exact.

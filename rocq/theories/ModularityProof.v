(** ModularityProof.v -- PartitionModularity computes the modularity of ModSpec.v; it depends on the grouping only. *)
From Coq Require Import List Arith Lia Bool QArith Qcanon Permutation.
From Verif Require Import Base Num ListLib QcSum PartModel MoveModel PartSpec AdjSpec ModSpec PartInv ChangeProof
  MergeProof Steps EnergyForm ExactProof.
Import ListNotations.
Local Open Scope nat_scope.

Section Edge.
Context {A : Type} {ops : NumOps A}.

(** Weight of the first entry of the row of [x] that names [y]. *)
Definition first_weight (adj : adja A) (x y : nat) : A :=
  match find (fun e => fst e =? y) (row adj x) with Some e => snd e | None => n0 end.

Lemma edge_value_first (adj : adja A) N x y : adj_ok adj N -> x < N -> edge_value adj x y = Ok (first_weight adj x y).
Proof.
  intros H Hx. destruct (idx_ex _ _ _ H Hx) as (a & b & Ea & Eb).
  unfold edge_value. rewrite (get_ok _ _ _ Ea). cbn [bind]. rewrite (get_ok _ _ _ Eb). cbn [bind].
  destruct (row_nth adj N x a b H Ea Eb) as [L G]. rewrite <- L. unfold first_weight.
  assert (G' : forall k j w, nth_error (row adj x) k = Some (j, w) ->
     nth_error (anb adj) (a + k) = Some j /\ nth_error (astr adj) (a + k) = Some w).
  { intros k j w E. apply nth_lt in E as Hk. rewrite L in Hk. destruct (G k Hk) as (j' & w' & E' & K1 & K2 & _).
    rewrite E in E'. injection E' as <- <-. auto. }
  revert a G' Ea L G. generalize (row adj x) as l. intros l a G' _ _ _. revert a G'.
  induction l as [|[j w] l IH]; intros a G'; cbn [length seq find_edge find]; auto.
  destruct (G' 0 j w eq_refl) as [K1 K2]. rewrite Nat.add_0_r in *. rewrite (get_ok _ _ _ K1). cbn [bind fst].
  destruct (j =? y).
  - rewrite (get_ok _ _ _ K2). reflexivity.
  - apply IH. intros k j' w' E. specialize (G' (S k) j' w' E). replace (S a + k) with (a + S k) by lia. auto.
Qed.
End Edge.

Local Open Scope Qc_scope.

Fixpoint pair_sum (B : nat -> nat -> Qc) (l : list nat) : Qc :=
  match l with [] => 0 | i :: r => Qsum (fun j => (1 + 1) * B i j) r + pair_sum B r end.

Lemma pair_sum_all B l : (forall i j, B i j = B j i) -> NoDup l ->
  pair_sum B l = Qsum (fun i => Qsum (fun j => if negb (Nat.eqb i j) then B i j else 0) l) l.
Proof.
  intros HB. induction l as [|i r IH]; intros ND; [reflexivity|]. inversion ND as [|? ? Hn ND']; subst.
  cbn [pair_sum]. rewrite IH by auto. cbn [Qsum]. rewrite Nat.eqb_refl. cbn [negb].
  rewrite (Qsum_ext (fun x => (if negb (Nat.eqb x i) then B x i else 0) + _)
     (fun x => B i x + Qsum (fun j => if negb (Nat.eqb x j) then B x j else 0) r)).
  - rewrite Qsum_add. rewrite (Qsum_ext (fun j => if negb (Nat.eqb i j) then B i j else 0) (fun j => B i j)).
    + rewrite Qsum_scal. change (Qsum (B i) r) with (Qsum (fun j => B i j) r). ring.
    + intros j Hj. destruct (Nat.eqb_spec i j); [congruence|reflexivity].
  - intros x Hx. destruct (Nat.eqb_spec x i); [congruence|]. cbn [negb]. rewrite (HB x i). reflexivity.
Qed.

Section Mod.
Variables ex sq : Qc -> Qc.
#[local] Instance opsM : NumOps Qc := Qc_ops ex sq.
Implicit Types p : partition Qc.

Lemma first_weight_aw adj x y : simple_rows adj -> first_weight adj x y = aw adj x y.
Proof.
  intros H. specialize (H x). unfold first_weight, aw. revert H. generalize (row adj x) as l.
  induction l as [|[j w] l IH]; intros ND; cbn [find Qsum fst snd]; [reflexivity|].
  cbn [map fst] in ND. inversion ND as [|? ? Hn ND']; subst. destruct (Nat.eqb_spec j y) as [->|].
  - rewrite Qsum_0; [cbn [snd]; ring|]. intros [k v] Hk. cbn [fst snd]. destruct (Nat.eqb_spec k y); auto. subst.
    exfalso. apply Hn. apply in_map_iff. exists (y, v); auto.
  - rewrite IH by auto. cbn [fst snd]. ring.
Qed.

(** What PartitionModularity adds up, for any rows. *)
Definition FB p adj (i j : nat) : Qc := first_weight adj i j - kk p i * kk p j.

Lemma suffix_walk {S} p ls m done i rest (body : S -> nat -> res S) (I : list nat -> S -> Prop) s :
  WF p ls -> (m < pM p)%nat -> ls m = done ++ i :: rest -> I [] s ->
  (forall dn j s nd, In j rest -> nth_error (pnodes p) j = Some nd -> I dn s -> exists s', body s j = Ok s' /\ I (dn ++ [j]) s') ->
  exists s', walkM (fun _ j => next_of p j) body (length (pnodes p)) (hd_error rest) s = Ok s' /\ I rest s'.
Proof.
  intros W Hm El I0 Hb. destruct (wf_module _ _ _ W Hm) as (md & _ & _ & _ & _ & _ & D). rewrite El in D.
  apply walkM_list; auto.
  - assert (length (ls m) <= length (pnodes p))%nat as L.
    { rewrite (wf_N _ _ W). apply NoDup_bound; [apply (wf_nodup _ _ W)|]. intros x Hx. eapply wf_in_lt; eauto. }
    rewrite El, app_length in L. cbn [length] in L. lia.
  - intros dn j rs s0 Er HI. rewrite Er in D.
    assert (Ej : done ++ i :: dn ++ j :: rs = (done ++ i :: dn) ++ j :: rs) by (rewrite <- app_assoc; reflexivity).
    rewrite Ej in D. destruct (dll_node _ _ _ _ D) as (nd & End & _ & Enx).
    destruct (Hb dn j s0 nd) as (s' & E' & I'); auto. { rewrite Er, in_app_iff; simpl; auto. }
    exists s'. splits; auto. unfold next_of. rewrite (get_ok _ _ _ End). cbn [bind]. now rewrite Enx.
Qed.

Lemma PartitionModularity_form p ls adj diag : WF p ls -> adj_ok adj (pN p) ->
  PartitionModularity p adj diag =
  Ok (Qsum (fun m => pair_sum (FB p adj) (ls m)) (seq 0 (pM p)) -
      (if diag then Qsum (fun i => kk p i * kk p i) (seq 0 (pN p)) else 0)).
Proof.
  intros W HA. unfold PartitionModularity.
  match goal with |- (do q <- foldM ?f ?s ?l; _) = _ =>
    destruct (foldM_seq (fun k q => q = Qsum (fun m => pair_sum (FB p adj) (ls m)) (seq 0 k)) f (pM p) s) as (q & Eq & HQ)
  end.
  - reflexivity.
  - intros m q Hm ->. destruct (wf_module _ _ _ W Hm) as (md & Em & _ & _ & Fi & _ & D).
    rewrite (get_ok _ _ _ Em). cbn [bind]. rewrite Fi.
    assert (L : (length (ls m) <= length (pnodes p))%nat).
    { rewrite (wf_N _ _ W). apply NoDup_bound; [apply (wf_nodup _ _ W)|]. intros x Hx. eapply wf_in_lt; eauto. }
    set (q0 := Qsum (fun m => pair_sum (FB p adj) (ls m)) (seq 0 m)).
    match goal with |- exists s', walkM ?nx ?bd ?fu ?st q0 = Ok s' /\ _ =>
      destruct (walkM_list nx bd (fun done q => q + pair_sum (FB p adj) (skipn (length done) (ls m)) = q0 + pair_sum (FB p adj) (ls m))
        (ls m) fu q0 L) as (q1 & E1 & H1)
    end.
    + reflexivity.
    + intros done i rest q El HI. rewrite El in D. destruct (dll_node _ _ _ _ D) as (nd & End & _ & Enx). rewrite <- El in D.
      rewrite (get_ok _ _ _ End). cbn [bind]. rewrite Enx.
      assert (Hi : (i < pN p)%nat). { rewrite <- (wf_N _ _ W). eapply nth_lt; eauto. }
      match goal with |- exists s', walkM ?nx ?bd ?fu ?st q = Ok s' /\ _ =>
        destruct (suffix_walk p ls m done i rest bd (fun dn q' => q' = q + Qsum (fun j => (1 + 1) * FB p adj i j) dn) q W Hm El) as (q2 & E2 & H2)
      end.
      * cbn. ring.
      * intros dn j s nd2 Hj En2 ->. rewrite (get_ok _ _ _ En2). cbn [bind].
        rewrite (wf_nid _ _ W _ _ End), (wf_nid _ _ W _ _ En2). rewrite (edge_value_first adj (pN p)) by auto. cbn [bind].
        eexists. split; [reflexivity|]. rewrite Qsum_app. cbn [Qsum]. unfold FB.
        rewrite (kk_node _ _ _ End), (kk_node _ _ _ En2). cbn [nadd nmul nsub nofnat opsM Qc_ops]. rewrite Qc_of_nat_2. ring.
      * exists q2. split; [exact E2|]. split.
        -- rewrite El in HI. rewrite skipn_app, skipn_all, Nat.sub_diag in HI. cbn [skipn app] in HI.
           rewrite app_length. cbn [length]. rewrite El at 1.
           replace (done ++ i :: rest) with ((done ++ [i]) ++ rest) by (rewrite <- app_assoc; reflexivity).
           replace (length done + 1)%nat with (length (done ++ [i])) by (rewrite app_length; reflexivity).
           rewrite skipn_app, skipn_all, Nat.sub_diag. cbn [skipn app]. rewrite H2.
           cbn [pair_sum] in HI. rewrite El. rewrite <- HI. ring.
        -- unfold next_of. rewrite (get_ok _ _ _ End). cbn [bind]. now rewrite Enx.
    + exists q1. split; [exact E1|]. rewrite skipn_all in H1. cbn [pair_sum] in H1.
      rewrite seq_app. cbn [seq]. rewrite Qsum_app. cbn [Qsum plus]. fold q0. rewrite <- (Qcplus_0_r q1). rewrite H1. ring.
  - rewrite Eq. cbn [bind]. rewrite HQ. destruct diag; [|f_equal; ring].
    match goal with |- foldM ?f ?s ?l = _ =>
      destruct (foldM_seq (fun k q' => q' = s - Qsum (fun i => kk p i * kk p i) (seq 0 k)) f (pN p) s) as (q' & Eq' & HQ')
    end.
    + cbn. ring.
    + intros i q' Hi ->. destruct (wf_node _ _ _ W Hi) as (nd & End & _). rewrite (get_ok _ _ _ End). cbn [bind].
      eexists. split; [reflexivity|]. rewrite seq_app, Qsum_app. cbn [seq Qsum plus]. rewrite (kk_node _ _ _ End).
      cbn [nsub nmul opsM Qc_ops]. ring.
    + rewrite Eq'. f_equal. exact HQ'.
Qed.

(** The sum over modules of the pairs inside each module is a sum over all pairs of the network. *)
Lemma pairs_by_module p ls (B : nat -> nat -> Qc) : WF p ls -> (forall i j, B i j = B j i) ->
  Qsum (fun m => pair_sum B (ls m)) (seq 0 (pM p)) = QQ (pN p) B (gof p).
Proof.
  intros W HB.
  rewrite (Qsum_ext (fun m => pair_sum B (ls m)) (fun m => Qsum (fun i => Qsum (fun j =>
     if Nat.eqb m (gof p i) then (if negb (Nat.eqb i j) && Nat.eqb (gof p i) (gof p j) then B i j else 0) else 0) (seq 0 (pN p))) (seq 0 (pN p)))).
  - rewrite Qsum_swap. unfold QQ. apply Qsum_ext. intros i Hi. rewrite Qsum_swap. apply Qsum_ext. intros j Hj.
    rewrite (Qsum_single (fun m => if negb (Nat.eqb i j) && Nat.eqb (gof p i) (gof p j) then B i j else 0)); auto.
    + apply seq_NoDup.
    + apply in_seq in Hi. apply in_seq. destruct (wf_node _ _ _ W (proj2 Hi)) as (nd & E & _ & H & _).
      rewrite (gof_node _ _ _ E). lia.
  - intros m _. rewrite pair_sum_all by (auto; apply (wf_nodup _ _ W)).
    rewrite (Qsum_ls _ p ls m W). apply Qsum_ext. intros i _. rewrite (Nat.eqb_sym m).
    destruct (Nat.eqb_spec (gof p i) m) as [Ei|]; [|symmetry; apply Qsum_0; auto].
    rewrite (Qsum_ls _ p ls m W). apply Qsum_ext. intros j _. rewrite Ei, (Nat.eqb_sym m).
    destruct (Nat.eqb (gof p j) m); [rewrite andb_true_r|rewrite andb_false_r]; reflexivity.
Qed.

Theorem PartitionModularity_exact p ls adj diag : WF p ls -> adj_ok adj (pN p) -> sym_w adj -> simple_rows adj ->
  PartitionModularity p adj diag = Ok (if diag then modularity_diag p adj else modularity p adj).
Proof.
  intros W HA HS HR. rewrite (PartitionModularity_form p ls adj diag W HA).
  rewrite (pairs_by_module p ls (FB p adj) W).
  2: { intros i j. unfold FB. rewrite !first_weight_aw by auto. rewrite (HS i j). ring. }
  rewrite (QQ_ext (pN p) (FB p adj) (BB p adj) (gof p) (gof p)).
  2: { intros i j _ _. unfold FB, BB. rewrite first_weight_aw; auto. }
  2: { auto. }
  rewrite <- (modularity_QQ p ls adj W). unfold modularity_diag. destruct diag; f_equal; ring.
Qed.

(** Modularity depends on the grouping only, not on the numbering. *)
Theorem modularity_grouping p ls q lq adj : WF p ls -> WF q lq -> pN q = pN p ->
  (forall i, strength q i = strength p i) ->
  (forall i j, (i < pN p)%nat -> (j < pN p)%nat -> group p i = group p j <-> group q i = group q j) ->
  modularity q adj = modularity p adj.
Proof.
  intros W Wq N S G. rewrite (modularity_QQ p ls adj W), (modularity_QQ q lq adj Wq), N. apply QQ_ext.
  - intros i j _ _. unfold BB, kk. now rewrite !S.
  - intros i j Hi Hj. specialize (G i j Hi Hj).
    rewrite (group_gof p ls i W), (group_gof p ls j W) in G by lia.
    rewrite (group_gof q lq i Wq), (group_gof q lq j Wq) in G by lia.
    destruct (Nat.eqb_spec (gof p i) (gof p j)) as [e|n]; destruct (Nat.eqb_spec (gof q i) (gof q j)) as [e'|n']; auto.
    + rewrite e in G. exfalso. apply n'. destruct G as [G _]. specialize (G eq_refl). congruence.
    + rewrite e' in G. exfalso. apply n. destruct G as [_ G]. specialize (G eq_refl). congruence.
Qed.

Lemma diag_eq p q : pN q = pN p -> (forall i, strength q i = strength p i) ->
  Qsum (fun i => kk q i * kk q i) (seq 0 (pN q)) = Qsum (fun i => kk p i * kk p i) (seq 0 (pN p)).
Proof. intros -> S. apply Qsum_ext. intros i _. unfold kk. now rewrite S. Qed.

End Mod.

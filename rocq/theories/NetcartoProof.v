(** NetcartoProof.v -- the whole program netcarto, from the text of the file to the table. *)
From Coq Require Import List Arith Lia Bool QArith Qcanon Ascii Permutation.
From Verif Require Import Base Num ListLib QcSum PartModel FillModel SAModel IoModel PartSpec AdjSpec ModSpec PartInv FillProof IoSpec IoProof IoClust
  MergeProof GraphRand EnergyForm ExactProof EdgeListProof EdgeListExact CoreThms CoreExact SAProof RolesProof RolesBounds ProjModel ProjSpec ProjExact NetcartoModel NetcartoSpec.
Import ListNotations.
Local Open Scope nat_scope.

Lemma eqb_label_eq a b : eqb_label a b = true <-> a = b.
Proof. unfold eqb_label. destruct (list_eq_dec ascii_dec a b); split; congruence. Qed.
Lemma eqb_label_spec a b : reflect (a = b) (eqb_label a b).
Proof. apply iff_reflect. symmetry. apply eqb_label_eq. Qed.
Lemma eqb_label_refl a : eqb_label a a = true. Proof. now apply eqb_label_eq. Qed.
Lemma eqb_nth (L : list label) i j : NoDup L -> i < length L -> j < length L -> eqb_label (nth i L []) (nth j L []) = Nat.eqb i j.
Proof.
  intros ND Hi Hj. destruct (Nat.eqb_spec i j) as [->|H]; [apply eqb_label_refl|]. destruct (eqb_label_spec (nth i L []) (nth j L [])) as [E|]; auto.
  destruct H. eapply NoDup_nth; eauto.
Qed.

Section Generic.
Context {A : Type} {ops : NumOps A}.

(** ** Arrays of the reader *)
Lemma foldM_collect {X} (f : nat -> res X) (g : nat -> X) n : (forall k, k < n -> f k = Ok (g k)) ->
  foldM (fun l k => do x <- f k; Ok (l ++ [x])) [] (seq 0 n) = Ok (map g (seq 0 n)).
Proof.
  induction n as [|n IH]; intros H; auto. rewrite seq_S, foldM_app, IH by (intros; apply H; lia). cbn [bind foldM]. rewrite H by lia. cbn [bind].
  now rewrite map_app.
Qed.
Lemma labels_in_spec bip (es : list (label * label * A)) inp : describes bip es inp -> labels_in inp = Ok (numbered (words1 bip es)).
Proof.
  intros D. unfold labels_in. set (L := numbered (words1 bip es)).
  rewrite (foldM_collect (fun k => cell (ei_labels inp) k) (fun k => nth k L [])).
  - f_equal. rewrite (ds_N _ _ _ D). fold L. symmetry. apply (ListLib.nth_ext). intros i. rewrite nth_error_map.
    destruct (lt_dec i (length L)) as [H|H].
    + rewrite (nth_error_nth' L [] H). rewrite (nth_error_nth' (seq 0 (length L)) 0) by (rewrite seq_length; auto). rewrite seq_nth by auto. auto.
    + rewrite !(proj2 (nth_error_None _ _)); auto; rewrite ?seq_length; lia.
  - intros k Hk. unfold cell, get. rewrite (ds_labels _ _ _ D k Hk). cbn [bind]. rewrite (ds_N _ _ _ D) in Hk. fold L in Hk |- *.
    now rewrite (nth_error_nth' L [] Hk).
Qed.
(** Lines and the numbered edges that stand for them. *)
Definition stands (L1 L2 : list label) (e : nat * nat * A) (l : label * label * A) : Prop :=
  nth_error L1 (fst (fst e)) = Some (fst (fst l)) /\ nth_error L2 (snd (fst e)) = Some (snd (fst l)) /\ snd e = snd l.
Definition oriented (bip : nat) (es : list (label * label * A)) : list (label * label * A) := map (fun e => (ends bip e, snd e)) es.
Lemma edges_in_spec bip (es : list (label * label * A)) inp : describes bip es inp ->
  exists ies, edges_in inp = Ok ies /\ Forall2 (stands (numbered (words1 bip es)) (numbered (words2 bip es))) ies (oriented bip es).
Proof.
  intros D. unfold edges_in. set (L1 := numbered (words1 bip es)). set (L2 := numbered (words2 bip es)).
  assert (H : forall n, n <= length es -> exists ies,
    foldM (fun l k => do a <- cell (ei_in inp) k; do b <- cell (ei_out inp) k; do w <- cell (ei_w inp) k; Ok (l ++ [(a, b, w)])) [] (seq 0 n) = Ok ies /\
    Forall2 (stands L1 L2) ies (oriented bip (firstn n es))).
  { induction n as [|n IH]; intros Hn; [exists []; split; [reflexivity|constructor]|]. destruct IH as (ies & E & F); [lia|].
    destruct (nth_ex es n) as [[[a b] w] En]; [lia|].
    destruct (ds_in _ _ _ D n _ En) as (i & Ei & Li). destruct (ds_out _ _ _ D n _ En) as (j & Ej & Lj). pose proof (ds_w _ _ _ D n a b w En) as Ew.
    exists (ies ++ [(i, j, w)]). rewrite seq_S, foldM_app, E. cbn [bind foldM]. unfold cell, get. cbn [plus]. rewrite Ei, Ej, Ew. cbn [bind]. split; auto.
    assert (FS : firstn (S n) es = firstn n es ++ [(a, b, w)]).
    { clear - En. revert n En. induction es as [|x es IH]; intros [|n] En; cbn in *; try discriminate; [injection En as ->; auto|]. f_equal. apply IH; auto. }
    rewrite FS. unfold oriented. rewrite map_app. apply Forall2_app; auto. constructor; [|constructor]. unfold stands. cbn [fst snd]. splits; auto. }
  destruct (H (length es) (le_n _)) as (ies & E & F). rewrite firstn_all in F. exists ies. split; auto. now rewrite (ds_E _ _ _ D).
Qed.

(** ** The table *)
Lemma TabularOutput_spec labels p conn part : pN p = length (pnodes p) -> length labels = pN p -> length conn = pN p -> length part = pN p ->
  TabularOutput labels p conn part =
  Ok (map (fun i => mkRow (nth i labels []) (gof p i) (nth i conn n0) (nth i part n0) (GetRole (nth i part n0) (nth i conn n0) + 1)) (seq 0 (pN p))).
Proof.
  intros HN L1 L2 L3. unfold TabularOutput.
  set (g := fun i => mkRow (nth i labels []) (gof p i) (nth i conn n0) (nth i part n0) (GetRole (nth i part n0) (nth i conn n0) + 1)).
  assert (H : forall n, n <= pN p -> foldM (fun out i => do P <- get part i; do z <- get conn i; let rolenb := GetRole P z + 1 in do l <- get labels i; do nd <- get (pnodes p) i;
     Ok (out ++ [mkRow l (nmod nd) z P rolenb])) [] (seq 0 n) = Ok (map g (seq 0 n))).
  { induction n as [|n IH]; intros Hn; auto. rewrite seq_S, foldM_app, IH by lia. cbn [bind foldM plus]. unfold get.
    rewrite (nth_error_nth' part n0) by lia. cbn [bind]. rewrite (nth_error_nth' conn n0) by lia. cbn [bind]. rewrite (nth_error_nth' labels []) by lia. cbn [bind].
    destruct (nth_ex (pnodes p) n) as [nd En]; [lia|]. rewrite En. cbn [bind]. rewrite map_app. cbn [map]. assert (EG : gof p n = nmod nd) by (unfold gof, group; now rewrite En). unfold g at 3. rewrite EG. reflexivity. }
  apply H. auto.
Qed.
End Generic.

(** ** From node numbers to labels *)
Section Labels.
Local Open Scope Qc_scope.
Variables (q : partition Qc) (adj : adja Qc) (L : list label) (lw : label -> label -> Qc) (lk : label -> Qc).
Hypothesis V : valid q.
Hypothesis OK : adj_ok adj (pN q).
Hypothesis LF : loop_free adj.
Hypothesis ND : NoDup L.
Hypothesis LL : length L = pN q.
Notation lab i := (nth i L []).
Hypothesis AW : forall i j, (i < pN q)%nat -> (j < pN q)%nat -> i <> j -> aw adj i j = lw (lab i) (lab j).
Hypothesis KK : forall i, (i < pN q)%nat -> kk q i = lk (lab i).
Definition grouping : list (label * nat) := map (fun i => (lab i, gof q i)) (seq 0 (pN q)).

Lemma group_gof i : (i < pN q)%nat -> group q i = Some (gof q i).
Proof. intros H. unfold gof, group. rewrite <- (valid_N _ V) in H. destruct (nth_ex (pnodes q) i H) as [nd ->]. auto. Qed.
Lemma other_nth i j : (i < pN q)%nat -> (j < pN q)%nat -> other (lab i) (lab j, gof q j) = negb (Nat.eqb i j).
Proof. intros Hi Hj. unfold other. cbn [fst]. rewrite eqb_nth by (rewrite ?LL; auto). auto. Qed.
Lemma grouping_mod : mod_value lw lk grouping = modularity q adj.
Proof.
  unfold mod_value, modularity, grouping. rewrite Qsum_map. apply Qsum_ext. intros i Hi. rewrite Qsum_map. apply Qsum_ext. intros j Hj. apply in_seq in Hi, Hj. cbn [fst snd].
  rewrite other_nth by lia. unfold together. rewrite !group_gof by lia. destruct (Nat.eqb_spec i j) as [|Hij]; cbn [negb andb]; auto.
  destruct (Nat.eqb (gof q i) (gof q j)); auto. rewrite AW, !KK by (auto; lia). auto.
Qed.
Lemma grouping_diag : diag_value lw lk grouping = modularity_diag q adj.
Proof.
  unfold diag_value, modularity_diag. rewrite grouping_mod. f_equal. unfold grouping. rewrite Qsum_map. apply Qsum_ext. intros i Hi. apply in_seq in Hi. cbn [fst]. rewrite KK by lia. auto.
Qed.
Lemma aw_self i : aw adj i i = 0.
Proof.
  unfold aw. apply Qsum_0. intros [j w] H. cbn [fst snd]. destruct (Nat.eqb_spec j i) as [->|]; auto. exfalso. apply (LF i). apply in_map_iff. exists (i, w); auto.
Qed.
Lemma weighted_row i (phi : nat -> bool) : (i < pN q)%nat ->
  Qsum (fun x => if phi (fst x) then snd x else 0) (row adj i) = Qsum (fun j => if negb (Nat.eqb i j) && phi j then lw (lab i) (lab j) else 0) (seq 0 (pN q)).
Proof.
  intros Hi. rewrite (Qsum_ext _ (fun x => snd x * (fun j => if phi j then 1 else 0) (fst x))) by (intros x _; cbn beta; destruct (phi (fst x)); ring).
  rewrite (row_sum adj (pN q) i (fun j => if phi j then 1 else 0) OK). apply Qsum_ext. intros j Hj. apply in_seq in Hj.
  destruct (Nat.eqb_spec i j) as [->|Hij]; cbn [negb andb]; [rewrite aw_self; ring|]. rewrite AW by (auto; lia). destruct (phi j); ring.
Qed.
Lemma grouping_into i m : (i < pN q)%nat -> into lw grouping (lab i) m = to_module q adj i m.
Proof.
  intros Hi. unfold to_module. transitivity (Qsum (fun x => if Nat.eqb (gof q (fst x)) m then snd x else 0) (row adj i)).
  - rewrite (weighted_row i (fun j => Nat.eqb (gof q j) m) Hi). unfold into, grouping. rewrite Qsum_map. apply Qsum_ext. intros j Hj. apply in_seq in Hj. cbn [fst snd]. rewrite other_nth by lia. auto.
  - apply Qsum_ext. intros [j w] H. cbn [fst snd]. apply (row_lt adj (pN q)) in H as [H _]; auto. rewrite group_gof by auto. auto.
Qed.
Lemma grouping_out i : (i < pN q)%nat -> links_of lw grouping (lab i) = out_strength adj i.
Proof.
  intros Hi. unfold out_strength. transitivity (Qsum (fun x => if (fun _ : nat => true) (fst x) then snd x else 0) (row adj i)); auto.
  rewrite (weighted_row i (fun _ => true) Hi). unfold links_of, grouping. rewrite Qsum_map. apply Qsum_ext. intros j Hj. apply in_seq in Hj. cbn [fst snd]. rewrite other_nth, andb_true_r by lia. auto.
Qed.
Lemma grouping_members m : members_of grouping m = map (fun i => (lab i, gof q i)) (filter (fun i => Nat.eqb (gof q i) m) (seq 0 (pN q))).
Proof. unfold members_of, grouping. generalize (seq 0 (pN q)). induction l as [|i l IH]; auto. cbn [map filter snd]. destruct (Nat.eqb (gof q i) m); cbn [map]; now rewrite IH. Qed.
Lemma members_sum m (f : label * nat -> Qc) (g : nat -> Qc) : (forall i, (i < pN q)%nat -> f (lab i, gof q i) = g i) ->
  Qsum f (members_of grouping m) = over_module q m g.
Proof.
  intros H. rewrite grouping_members, Qsum_map. unfold over_module. rewrite Qsum_filter.
  apply Qsum_ext. intros i Hi. apply in_seq in Hi. rewrite group_gof, H by lia. auto.
Qed.
Lemma members_size m : length (members_of grouping m) = module_size q m.
Proof.
  rewrite grouping_members, map_length. unfold module_size. f_equal. apply filter_ext_in. intros i Hi. apply in_seq in Hi. rewrite group_gof by lia. auto.
Qed.
Lemma grouping_mean m : mean_into lw grouping m = module_mean q adj m.
Proof. unfold mean_into, module_mean. rewrite members_size. f_equal. apply members_sum. intros i Hi. cbn [fst]. apply grouping_into; auto. Qed.
Lemma grouping_var m : var_into lw grouping m = module_var q adj m.
Proof. unfold var_into, module_var. rewrite members_size, grouping_mean. f_equal. apply members_sum. intros i Hi. cbn [fst]. rewrite grouping_into by auto. auto. Qed.
Lemma grouping_modules : (forall m, (m < pM q)%nat -> exists i, group q i = Some m) -> modules_are grouping (pM q).
Proof.
  intros H. split.
  - intros r Hr. apply in_map_iff in Hr as (i & <- & Hi). apply in_seq in Hi. cbn [snd]. unfold gof, group. destruct (nth_ex (pnodes q) i) as [nd En]; [rewrite (valid_N _ V); lia|]. rewrite En. cbn.
    eapply valid_range; eauto.
  - intros m Hm. destruct (H m Hm) as [i Hi]. exists (lab i, gof q i).
    assert (Hl : (i < pN q)%nat). { rewrite <- (valid_N _ V). unfold group in Hi. destruct (nth_error (pnodes q) i) eqn:E; [|discriminate]. eapply nth_lt; eauto. }
    split; [apply in_map_iff; exists i; split; auto; apply in_seq; lia|]. cbn [snd]. unfold gof. now rewrite Hi.
Qed.
Lemma grouping_labels : map fst grouping = L.
Proof.
  unfold grouping. rewrite map_map. apply ListLib.nth_ext. intros i. rewrite nth_error_map. destruct (lt_dec i (pN q)) as [H|H].
  - rewrite (nth_error_nth' (seq 0 (pN q)) 0%nat) by (rewrite seq_length; auto). rewrite seq_nth by auto. cbn. symmetry. apply nth_error_nth'. lia.
  - rewrite !(proj2 (nth_error_None _ _)); auto; rewrite ?seq_length; lia.
Qed.
Lemma out_zero i : positive_row adj i -> (out_strength adj i = 0 <-> row adj i = []).
Proof.
  intros HP. split; [|intros R; unfold out_strength; now rewrite R]. intros H. destruct (row adj i) as [|[j w] r] eqn:R; auto. exfalso.
  unfold out_strength in H. rewrite R in H. cbn [Qsum snd] in H. unfold positive_row in HP. rewrite R in HP.
  pose proof (HP j w (or_introl eq_refl)) as Hw. assert (0 <= Qsum snd r) as Hr. { apply Qsum_nonneg. intros [j' w'] Hin. apply Qclt_le_weak. apply (HP j' w'). right; auto. }
  assert (0 < w + Qsum snd r) as X. { eapply Qclt_le_trans; [exact Hw|]. apply Qcle_minus_iff. replace (w + Qsum snd r + - w) with (Qsum snd r) by ring. auto. }
  rewrite H in X. discriminate X.
Qed.
End Labels.

(** ** The report *)
Section Report.
Variables ex sq : Qc -> Qc.
#[local] Instance opsN : NumOps Qc := Qc_ops ex sq.
Local Open Scope Qc_scope.
Lemma filter_map' {X Y} (f : X -> Y) (c : Y -> bool) l : filter c (map f l) = map f (filter (fun x => c (f x)) l).
Proof. induction l as [|x l IH]; auto. cbn [map filter]. destruct (c (f x)); cbn [map]; now rewrite IH. Qed.
Lemma nodes_listed (q : partition Qc) ls : WF q ls -> Permutation (seq 0 (pN q)) (flat_map ls (seq 0 (pM q))).
Proof.
  intros W. apply NoDup_Permutation.
  - apply seq_NoDup.
  - apply GraphRand.NoDup_flat; [apply seq_NoDup|intros m _; apply (wf_nodup _ _ W)|].
    intros m m' i _ _ H H'. apply (wf_mem _ _ W) in H, H'. congruence.
  - intros i. rewrite in_seq, in_flat_map. split.
    + intros Hi. destruct (nth_ex (pnodes q) i) as [nd En]; [rewrite (wf_N _ _ W); lia|]. exists (nmod nd). split.
      * apply in_seq. pose proof (wf_range _ _ W i nd En). lia.
      * apply (wf_mem _ _ W). unfold group. now rewrite En.
    + intros (m & _ & H). apply (wf_in_lt _ _ _ _ W) in H. lia.
Qed.
Lemma text_shown (q : partition Qc) ls (L : list label) : WF q ls ->
  exists G', Permutation (grouping q L) G' /\ tabbed_text (fun i => nth i L []) (map ls (seq 0 (pM q))) = shown_text G' (pM q).
Proof.
  intros W. set (F := fun i => (nth i L [], gof q i)). exists (map F (flat_map ls (seq 0 (pM q)))). split.
  - unfold grouping. apply Permutation_map. apply nodes_listed; auto.
  - unfold tabbed_text, shown_text. f_equal. rewrite map_map. apply map_ext_in. intros m Hm. f_equal.
    assert (E : members_of (map F (flat_map ls (seq 0 (pM q)))) m = map F (ls m)).
    { unfold members_of. rewrite filter_map'.
      assert (X : filter (fun i => Nat.eqb (snd (F i)) m) (flat_map ls (seq 0 (pM q))) = ls m).
      { assert (Y : forall l, NoDup l -> filter (fun i => Nat.eqb (snd (F i)) m) (flat_map ls l) = if in_dec Nat.eq_dec m l then ls m else []).
        { induction l as [|k l IH]; intros ND; auto. inversion ND as [|? ? NI ND']; subst. cbn [flat_map]. rewrite filter_app, IH by auto.
          assert (Z : filter (fun i => Nat.eqb (snd (F i)) m) (ls k) = if Nat.eqb k m then ls k else []).
          { assert (Z' : forall l', (forall i, In i l' -> In i (ls k)) -> filter (fun i => Nat.eqb (snd (F i)) m) l' = if Nat.eqb k m then l' else []).
            { induction l' as [|i l' IH']; intros H; [destruct (Nat.eqb k m); auto|]. cbn [filter].
              assert (Hg : snd (F i) = k). { pose proof (H i (or_introl eq_refl)) as Hi. apply (wf_mem _ _ W) in Hi. cbn [F snd]. unfold gof. now rewrite Hi. }
              rewrite Hg, IH' by (intros; apply H; right; auto). destruct (Nat.eqb k m); auto. }
            apply Z'. auto. }
          rewrite Z. destruct (Nat.eqb_spec k m) as [->|Hk].
          - destruct (in_dec Nat.eq_dec m l); [contradiction|]. rewrite app_nil_r. destruct (in_dec Nat.eq_dec m (m :: l)) as [|N]; auto. destruct N. left; auto.
          - cbn [app]. destruct (in_dec Nat.eq_dec m l), (in_dec Nat.eq_dec m (k :: l)) as [I|I]; auto; [destruct I; right; auto|]. destruct I; [contradiction|]. contradiction. }
        rewrite Y by apply seq_NoDup. destruct (in_dec Nat.eq_dec m (seq 0 (pM q))); [auto|contradiction]. }
      rewrite X. auto. }
    rewrite E, map_map. auto.
Qed.
Theorem nc_report_spec (o : options Qc) q adj L lw lk : valid q -> adj_ok adj (pN q) -> sym_w adj -> simple_rows adj -> loop_free adj -> (forall i, positive_row adj i) ->
  NoDup L -> length L = pN q -> (forall i j, (i < pN q)%nat -> (j < pN q)%nat -> i <> j -> aw adj i j = lw (nth i L []) (nth j L [])) ->
  (forall i, (i < pN q)%nat -> kk q i = lk (nth i L [])) -> (forall m, (m < pM q)%nat -> exists i, group q i = Some m) ->
  exists r, nc_report o q adj L = Ok r /\ cartography sq lw lk L (oroles o) (grouping q L) r.
Proof.
  intros V OK SW SR LF PR ND LL AW KK MM. unfold nc_report.
  assert (E1 : PartitionModularity q adj false = Ok (modularity q adj)) by exact (modularity_computed ex sq q adj false V OK SW SR).
  assert (E2 : PartitionModularity q adj true = Ok (modularity_diag q adj)) by exact (modularity_computed ex sq q adj true V OK SW SR).
  rewrite E1, E2. cbn [bind]. destruct (oroles o) eqn:Ro.
  - destruct (metrics_exact ex sq q adj (repeat 0 (pN q)) V OK (repeat_length _ _)) as (conn & part & E3 & L1 & L2 & HC & HP).
    assert (E3' : PartitionRolesMetrics q adj (repeat n0 (pN q)) = Ok (conn, part)) by exact E3. rewrite E3'. cbn [bind].
    rewrite TabularOutput_spec by (auto; rewrite (valid_N _ V); auto). cbn [bind]. eexists. split; [reflexivity|]. constructor; cbn [rmod rdiag rtable rtext].
    + apply grouping_labels; auto.
    + symmetry. eapply grouping_mod; eauto.
    + symmetry. eapply grouping_diag; eauto.
    + exists (pM q). split; [eapply grouping_modules; eauto|]. eexists. splits; [reflexivity|reflexivity|rewrite map_map; reflexivity|].
      intros x Hx. apply in_map_iff in Hx as (i & <- & Hi). apply in_seq in Hi.
      assert (Hz : nth i conn 0 = zscore sq q adj i (gof q i)). { apply nth_error_nth. apply HC. apply group_gof; auto. lia. }
      assert (Hp : nth i part 0 = participation_value q adj i 0). { apply nth_error_nth. rewrite HP by lia. rewrite (nth_error_nth' _ 0) by (rewrite repeat_length; lia). now rewrite nth_repeat. }
      constructor; cbn [t_label t_module t_z t_P t_role].
      * change (@n0 Qc opsN) with (0 : Qc). rewrite Hp. rewrite (grouping_out q adj L lw) by (auto; lia). unfold participation_value.
        destruct (Qc_eq_dec (out_strength adj i) 0) as [Z|Z].
        -- apply (out_zero adj i) in Z; auto. rewrite Z. auto.
        -- destruct (row adj i) eqn:R; [exfalso; apply Z; unfold out_strength; now rewrite R|]. cbn [length Nat.eqb]. rewrite Qcplus_0_l. f_equal. f_equal. apply Qsum_ext. intros m _.
           rewrite (grouping_into q adj L lw) by (auto; lia). auto.
      * change (@n0 Qc opsN) with (0 : Qc). rewrite Hz. unfold zscore. rewrite (grouping_var q adj L lw), (grouping_into q adj L lw), (grouping_mean q adj L lw) by (auto; lia). auto.
      * exists (GetRole (nth i part n0) (nth i conn n0)). split; [lia|]. apply (GetRole_spec ex sq). auto.
  - apply valid_WF in V as W. erewrite (ClusteringOutput_text q _ L (fun i => nth i L [])); eauto.
    2: lia. 2: { intros i Hi. apply nth_error_nth'. lia. }
    cbn [bind]. eexists. split; [reflexivity|]. constructor; cbn [rmod rdiag rtable rtext].
    + apply grouping_labels; auto.
    + symmetry. eapply grouping_mod; eauto.
    + symmetry. eapply grouping_diag; eauto.
    + exists (pM q). split; [eapply grouping_modules; eauto|]. split; auto. destruct (text_shown q _ L W) as (G' & P & E). exists G'. split; auto. rewrite E. auto.
Qed.
End Report.

(** ** The partition *)
Section Partition.
Context {A : Type} {ops : NumOps A}.
Implicit Types o : options A.
Lemma nc_partition_anneal o p adj labels N ds : oread o = None -> fresh p -> pN p = N -> pM p = N -> 0 < N -> adj_ok adj N -> sym_adj adj -> Forall good_draw ds ->
  match nc_partition o p adj labels N ds with
  | Ok (q, _) => valid q /\ pN q = N /\ (forall i, strength q i = strength p i) /\ (forall m, m < pM q -> exists i, group q i = Some m)
  | Err e => e = RngOut \/ e = UB_null
  end.
Proof.
  intros R F HN HM Hpos OK SA HD. unfold nc_partition. rewrite R.
  destruct (AssignNodes_singletons p [] F) as (p1 & E1 & W1 & N1 & M1 & _ & S1 & _); [congruence|]. rewrite E1. cbn [bind].
  assert (V1 : valid p1) by (eapply WF_valid; eauto).
  pose proof (annealing_safe p1 adj (ofac o) (ndiv n1 (nofnat N)) (nofQ (1 # Pos.pow 10 200)%Q) (oTs o) (oproba o) 25 ds V1) as H.
  rewrite N1, M1, HN, HM in H. specialize (H OK SA Hpos (le_n _) HD).
  destruct (GeneralSA p1 adj (ofac o) (ndiv n1 (nofnat N)) (nofQ (1 # Pos.pow 10 200)%Q) (oTs o) (oproba o) 25 ds) as [[[[b|] [e|]] ds']|e]; cbn [bind deref]; try contradiction; auto.
  destruct H as (Vb & Nb & Mb & Sb). destruct (compress_spec b Vb) as (q & Eq & Vq & Nq & Mq & _ & Hq & _ & Sq); [lia|].
  rewrite Eq. cbn [bind]. splits; auto; try lia. intros i. rewrite Sq, Sb, S1. auto.
Qed.

Lemma group_gof_any (q : partition A) i : valid q -> i < pN q -> group q i = Some (gof q i).
Proof. intros V H. unfold gof, group. rewrite <- (valid_N _ V) in H. destruct (nth_ex (pnodes q) i H) as [nd ->]. auto. Qed.
Lemma concat_unique {X} (gs : list (list X)) : NoDup (concat gs) -> forall g g' x, In g gs -> In g' gs -> In x g -> In x g' -> g = g'.
Proof.
  induction gs as [|h gs IH]; intros ND g g' x H1 H2 H3 H4; [destruct H1|]. cbn [concat] in ND. apply NoDup_app_iff in ND as (N1 & N2 & D).
  destruct H1 as [<-|H1], H2 as [<-|H2]; auto.
  - exfalso. apply (D x); auto. apply in_concat. eauto.
  - exfalso. apply (D x); auto. apply in_concat. eauto.
  - eapply IH; eauto.
Qed.
(** Groups written one per line, as -p wants them. *)
Lemma nc_partition_read o p adj labels N ds groups : oread o = Some (groups_text (fun i => nth i labels []) groups) -> fresh p -> pN p = N -> pM p = N -> 0 < N ->
  NoDup labels -> length labels = N -> (forall l, In l labels -> cell_label l) ->
  Permutation (concat groups) (seq 0 N) -> (forall g, In g groups -> g <> []) ->
  exists q, nc_partition o p adj labels N ds = Ok (q, ds) /\ valid q /\ pN q = N /\ (forall i, strength q i = strength p i) /\ (forall m, m < pM q -> exists i, group q i = Some m) /\
    (forall i j, i < N -> j < N -> (group q i = group q j <-> exists g, In g groups /\ In i g /\ In j g)).
Proof.
  intros R F HN HM Hpos ND LL CL HP NE. unfold nc_partition. rewrite R.
  assert (LG : length groups <= N).
  { assert (X : length (concat groups) = N) by (rewrite (Permutation_length HP), seq_length; auto). rewrite <- X. clear - NE.
    induction groups as [|g gs IH]; auto. cbn [concat length]. rewrite app_length. assert (g <> []) by (apply NE; left; auto). destruct g; [congruence|]. cbn [length].
    assert (length gs <= length (concat gs)) by (apply IH; intros; apply NE; right; auto). lia. }
  destruct (groups_readable p labels (fun i => nth i labels []) groups F) as (q & Eq & Vq & Nq & Mq & Gq & Sq); auto; try lia.
  - intros i Hi. split; [apply nth_error_nth'; lia|]. apply CL. apply nth_In. lia.
  - rewrite HN. auto.
  - rewrite Eq. cbn [bind]. exists q. rewrite HN in *. splits; auto.
    intros m Hm.
    (* pigeonhole: the modules of the first members *)
    set (hd := fun g : list nat => match g with x :: _ => x | [] => 0 end).
    assert (IN : forall g, In g groups -> In (hd g) g) by (intros g Hg; specialize (NE g Hg); destruct g; [congruence|left; auto]).
    assert (LT : forall g x, In g groups -> In x g -> x < N).
    { intros g x Hg Hx. assert (In x (seq 0 N)) as Hs. { eapply Permutation_in; [exact HP|]. apply in_concat. eauto. } apply in_seq in Hs. lia. }
    assert (NDm : NoDup (map (fun g => gof q (hd g)) groups)).
    { assert (NC : NoDup (concat groups)) by (eapply Permutation_NoDup; [apply Permutation_sym; exact HP|apply seq_NoDup]).
      assert (INJ : forall g g', In g groups -> In g' groups -> gof q (hd g) = gof q (hd g') -> exists h, In h groups /\ In (hd g) h /\ In (hd g') h).
      { intros g g' Hg Hg' E. apply Gq; eauto. rewrite !(group_gof_any q) by (auto; rewrite Nq; eauto). congruence. }
      clear - NC INJ IN NE. assert (SUB : forall l, NoDup (concat l) -> (forall g, In g l -> In g groups) -> NoDup (map (fun g => gof q (hd g)) l)).
      { induction l as [|g l IH]; intros N1 H1; [constructor|]. cbn [map concat] in *. apply NoDup_app_iff in N1 as (Ng & Nl & Dj). constructor; [|apply IH; auto; intros; apply H1; right; auto].
        intros X. apply in_map_iff in X as (g' & E & Hg'). destruct (INJ g g') as (h & Hh & H2 & H3); auto. { apply H1; left; auto. } { apply H1; right; auto. }
        apply (Dj (hd g)); [apply IN, H1; left; auto|]. apply in_concat. exists g'. split; auto.
        assert (Hgg : h = g'). { eapply (concat_unique groups NC h g' (hd g')); eauto; [apply H1; right; auto|apply IN, H1; right; auto]. } now subst. }
      apply SUB; auto. }
    assert (INC : incl (map (fun g => gof q (hd g)) groups) (seq 0 (pM q))).
    { intros x Hx. apply in_map_iff in Hx as (g & <- & Hg). apply in_seq. split; [lia|]. cbn. assert (Hl : hd g < N) by eauto.
      destruct (nth_ex (pnodes q) (hd g)) as [nd En]; [rewrite (valid_N _ Vq); lia|]. unfold gof, group. rewrite En. cbn. eapply valid_range; eauto. }
    assert (In m (map (fun g => gof q (hd g)) groups)) as Hin.
    { assert (X : incl (seq 0 (pM q)) (map (fun g => gof q (hd g)) groups)) by (apply (NoDup_length_incl NDm); [rewrite seq_length, map_length; lia|exact INC]).
      apply X. apply in_seq. lia. }
    apply in_map_iff in Hin as (g & <- & Hg). exists (hd g). apply group_gof_any; auto. rewrite Nq. eauto.
Qed.
End Partition.

(** ** Files of links *)
Section Unipartite.
Local Open Scope Qc_scope.
Implicit Types (es : list (label * label * Qc)) (ies : list (nat * nat * Qc)).
Lemma nth_lab (L : list label) i x : nth_error L i = Some x -> nth i L [] = x.
Proof. intros H. now apply nth_error_nth. Qed.
Lemma stands_sum L1 L2 (f : nat * nat * Qc -> Qc) (g : label * label * Qc -> Qc) ies es : Forall2 (stands L1 L2) ies es ->
  (forall e l, In e ies -> In l es -> stands L1 L2 e l -> f e = g l) -> Qsum f ies = Qsum g es.
Proof.
  intros F. induction F as [|e l ies es S F IH]; intros H; auto. cbn [Qsum]. rewrite (H e l), IH; auto; [|left; auto|left; auto]. intros e' l' H1 H2. apply H; right; auto.
Qed.
Lemma stands_eqb (L : list label) a x i : NoDup L -> (i < length L)%nat -> nth_error L a = Some x -> eqb_label x (nth i L []) = Nat.eqb a i.
Proof. intros ND Hi H. apply nth_lt in H as Ha. rewrite <- (nth_lab L a x H). apply eqb_nth; auto. Qed.
Lemma stands_pair L ies es i j : NoDup L -> (i < length L)%nat -> (j < length L)%nat -> Forall2 (stands L L) ies es ->
  pair_weight ies i j = line_weight es (nth i L []) (nth j L []).
Proof.
  intros ND Hi Hj F. unfold pair_weight, line_weight. eapply stands_sum; [exact F|]. intros [[a b] w] [[x y] v] _ _ (H1 & H2 & H3). cbn [fst snd] in *. subst v.
  rewrite !(stands_eqb L a x), !(stands_eqb L b y) by auto. auto.
Qed.
Lemma stands_node L ies es i : NoDup L -> (i < length L)%nat -> Forall2 (stands L L) ies es -> node_weight ies i = label_weight es (nth i L []).
Proof.
  intros ND Hi F. unfold node_weight, label_weight. eapply stands_sum; [exact F|]. intros [[a b] w] [[x y] v] _ _ (H1 & H2 & H3). cbn [fst snd] in *. subst v.
  rewrite (stands_eqb L a x), (stands_eqb L b y) by auto. auto.
Qed.
Lemma stands_total L1 L2 ies es : Forall2 (stands L1 L2) ies es -> total_weight ies = Qsum snd es.
Proof. intros F. unfold total_weight. eapply stands_sum; [exact F|]. intros [[a b] w] [[x y] v] _ _ (H1 & H2 & H3). cbn in *. auto. Qed.
Lemma Forall2_in_l {X Y} (R : X -> Y -> Prop) l m x : Forall2 R l m -> In x l -> exists y, In y m /\ R x y.
Proof. intros F. induction F as [|a b l m H F IH]; intros HI; [destruct HI|]. destruct HI as [<-|HI]; [exists b; split; [left|]; auto|]. destruct (IH HI) as (y & H1 & H2). exists y. split; [right|]; auto. Qed.
Lemma Forall2_app_l {X Y} (R : X -> Y -> Prop) l1 x l2 m : Forall2 R (l1 ++ x :: l2) m -> exists m1 y m2, m = m1 ++ y :: m2 /\ R x y /\ Forall2 R l2 m2.
Proof.
  intros F. apply Forall2_app_inv_l in F as (m1 & m2 & F1 & F2 & ->). inversion F2 as [|? y ? m2' H F3]; subst. exists m1, y, m2'. auto.
Qed.
Lemma stands_good L ies es : NoDup L -> Forall2 (stands L L) ies es -> good_lines es ->
  no_loops ies /\ in_range (length L) ies /\ no_duplicates ies /\ (forall a b w, In (a, b, w) ies -> 0 < w).
Proof.
  intros ND F [G1 G2].
  assert (INJ : forall a b x, nth_error L a = Some x -> nth_error L b = Some x -> a = b).
  { intros a b x H1 H2. eapply NoDup_nth_error; eauto; [eapply nth_lt; eauto|congruence]. }
  splits.
  - apply Forall_forall. intros [[a b] w] H. destruct (Forall2_in_l _ _ _ _ F H) as ([[x y] v] & Hl & H1 & H2 & H3). cbn [fst snd] in *. intros ->. destruct (G1 x y v Hl) as [X _]. congruence.
  - apply Forall_forall. intros [[a b] w] H. destruct (Forall2_in_l _ _ _ _ F H) as ([[x y] v] & Hl & H1 & H2 & H3). cbn [fst snd] in *. split; eapply nth_lt; eauto.
  - intros l1 a b w l2 a' b' w' -> Hin X. apply Forall2_app_l in F as (m1 & [[x y] v] & m2 & -> & (S1 & S2 & _) & F2). cbn [fst snd] in *.
    destruct (Forall2_in_l _ _ _ _ F2 Hin) as ([[x' y'] v'] & Hl & H1 & H2 & _). cbn [fst snd] in *.
    apply (G2 m1 x y v m2 x' y' v' eq_refl Hl). destruct X as [[-> ->]|[-> ->]]; [left|right]; split; congruence.
  - intros a b w H. destruct (Forall2_in_l _ _ _ _ F H) as ([[x y] v] & Hl & H1 & H2 & H3). cbn [fst snd] in *. subst v. apply (G1 x y w Hl).
Qed.
Lemma Qsum_pos {X} (f : X -> Qc) l : l <> [] -> (forall x, In x l -> 0 < f x) -> 0 < Qsum f l.
Proof.
  destruct l as [|x l]; [congruence|]. intros _ H. cbn [Qsum]. eapply Qclt_le_trans; [apply (H x); left; auto|]. apply Qcle_minus_iff.
  replace (f x + Qsum f l + - f x) with (Qsum f l) by ring. apply Qsum_nonneg. intros y Hy. apply Qclt_le_weak, H. right; auto.
Qed.
Lemma Qc_div_pos a b : 0 < a -> 0 < b -> 0 < a / b.
Proof.
  intros Ha Hb. apply Qcnot_le_lt. intros Y. apply (Qcmult_le_compat_r _ _ b) in Y; [|apply Qclt_le_weak; auto].
  assert (b <> 0) by (intros X; rewrite X in Hb; discriminate Hb). unfold Qcdiv in Y. rewrite <- Qcmult_assoc, Qcmult_inv_l, Qcmult_1_r, Qcmult_0_l in Y by auto.
  apply Qcle_not_lt in Y. contradiction.
Qed.
End Unipartite.

Section Front.
Variables ex sq : Qc -> Qc.
#[local] Instance opsF : NumOps Qc := Qc_ops ex sq.
Local Open Scope Qc_scope.
Variable scan_lf : list ascii -> option Qc.
(** The network made of a file of links. *)
Lemma nc_input_links qsort s0 past1 past2 o file lines es : obipartite o = false -> oinvert o = false ->
  lines_of file lines -> Forall2 (line_holds scan_lf (oweighted o)) lines es -> (forall a b w, In (a, b, w) es -> (length a < 100)%nat /\ (length b < 100)%nat) ->
  es <> [] -> good_lines es -> let L := numbered (words1 0 es) in
  exists p adj, nc_input scan_lf qsort s0 past1 past2 o file = Ok (p, adj, L, length L) /\
    fresh p /\ pN p = length L /\ pM p = length L /\ (0 < length L)%nat /\ NoDup L /\
    adj_ok adj (length L) /\ sym_adj adj /\ sym_w adj /\ loop_free adj /\ simple_rows adj /\ (forall i, positive_row adj i) /\
    (forall i j, (i < length L)%nat -> (j < length L)%nat -> i <> j -> aw adj i j = line_weight es (nth i L []) (nth j L []) / twice_total es) /\
    (forall i, (i < length L)%nat -> kk p i = label_weight es (nth i L []) / twice_total es).
Proof.
  intros OB OI HL HF Hlen NE GL L.
  destruct (EdgeListFileInput_reads scan_lf (oweighted o) 0 file lines es (Nat.le_0_l _) HL HF Hlen) as (inp & EI & D).
  destruct (edges_in_spec 0 es inp D) as (ies & EE & F). pose proof (labels_in_spec 0 es inp D) as EL.
  assert (OR : oriented 0 es = es). { unfold oriented. clear. induction es as [|[[a b] w] es IH]; auto. cbn [map ends snd]. now rewrite IH. }
  rewrite OR in F. fold L in F. change (numbered (words2 0 es)) with L in F.
  assert (ND : NoDup L). { apply numbered_NoDup. }
  destruct (stands_good L ies es ND F GL) as (NL & IR & DU & PO).
  assert (LE : length ies = length es). { eapply Forall2_length; eauto. }
  assert (TP : 0 < Qsum snd es). { apply Qsum_pos; auto. intros [[a b] w] H. apply (proj1 GL a b w H). }
  assert (TW : total_weight ies = Qsum snd es) by (eapply stands_total; eauto).
  assert (T2 : divisor ies true = twice_total es). { unfold divisor. rewrite (weight_all_sum ex sq), TW. cbn [nmul nofnat opsF Qc_ops]. unfold twice_total. rewrite Qc_of_nat_2. apply Qcmult_comm. }
  assert (T2P : 0 < twice_total es). { unfold twice_total. replace 0 with (0 * Qsum snd es) by ring. apply Qcmult_lt_compat_r; auto. reflexivity. }
  destruct (CreatePartition_fresh (A := Qc) (length L) (length L) (le_n _)) as (p0 & E0 & F00 & N00 & _).
  destruct (EdgeList_exact ex sq ies p0 (length L) (length L) true NL IR E0) as (adj & p & E1 & OK & SA & SW & LF & SR & FR & N1 & M1 & AW & KK1 & KK2 & _).
  { intros _ X. rewrite TW in X. rewrite X in TP. discriminate TP. }
  exists p, adj. unfold nc_input. rewrite OB, OI. cbn [plus]. unfold opsF in *. rewrite EI. cbn [bind]. rewrite EE. cbn [bind]. rewrite EL. cbn [bind negb].
  rewrite (ds_N _ _ _ D), (ds_E _ _ _ D). fold L. rewrite <- LE, E0. cbn [bind]. split. { match goal with |- bind ?m _ = _ => replace m with (Ok (adj, p)) end; reflexivity. }
  assert (POS : (0 < length L)%nat).
  { destruct es as [|[[a b] w] es']; [congruence|]. destruct L eqn:EqL; [|simpl; lia]. inversion F as [|? ? ? ? (S1 & _)]; subst. cbn in S1. destruct (fst (fst x)); discriminate S1. }
  splits; auto.
  - intros i j w H. destruct (row_lt adj (length L) i j w OK H) as [Hj Hi].
    assert (IN : exists a b v, In (a, b, v) ies /\ w = v / twice_total es).
    { destruct (EdgeListToAdjaArray_spec ies p0 (length L) true NL IR) as (adj' & p' & E' & _ & _ & ROW & _).
      { rewrite (fr_N _ F00). auto. }
      assert (X : Ok (adj, p) = Ok (adj', p')) by (rewrite <- E'; symmetry; exact E1). injection X as <- <-. rewrite ROW in H by auto. apply in_incident in H as (a & b & v & Hin & -> & _). exists a, b, v. split; auto. rewrite <- T2. reflexivity. }
    destruct IN as (a & b & v & Hin & ->). apply Qc_div_pos; auto. eapply PO; eauto.
  - intros i j Hi Hj Hne. rewrite AW by auto. f_equal; [apply stands_pair; auto|exact T2].
  - intros i Hi. rewrite KK2 by auto. f_equal; [apply stands_node; auto|exact T2].
Qed.
End Front.

(** ** Files of actors and teams *)
Section Teams.
Local Open Scope Qc_scope.
Implicit Types (es : list (label * label * Qc)) (ies : list (nat * nat * Qc)).
Lemma words1_oriented {A} bip (es : list (label * label * A)) : (1 <= bip)%nat -> words1 bip es = map (fun e => fst (fst e)) (oriented bip es).
Proof. intros H. unfold oriented. rewrite map_map. destruct bip as [|[|bip]]; [lia| |]; apply map_ext; intros [[a b] w]; auto. Qed.
Lemma words2_oriented {A} bip (es : list (label * label * A)) : (1 <= bip)%nat -> words2 bip es = map (fun e => snd (fst e)) (oriented bip es).
Proof. intros H. unfold oriented. rewrite map_map. destruct bip as [|[|bip]]; [lia| |]; apply map_ext; intros [[a b] w]; auto. Qed.
Lemma Forall2_in_r {X Y} (R : X -> Y -> Prop) l m y : Forall2 R l m -> In y m -> exists x, In x l /\ R x y.
Proof. intros F. induction F as [|a b l m H F IH]; intros HI; [destruct HI|]. destruct HI as [<-|HI]; [exists a; split; [left|]; auto|]. destruct (IH HI) as (x & H1 & H2). exists x. split; [right|]; auto. Qed.
Lemma stands_once L1 L2 ies es : Forall2 (stands L1 L2) ies es -> NoDup (map fst es) -> once ies.
Proof.
  unfold once. intros F. induction F as [|e l ies es S F IH]; intros ND; [constructor|]. cbn [map] in *. inversion ND as [|? ? NI ND']; subst. constructor; auto.
  intros X. apply NI. apply in_map_iff in X as (e' & E & He'). destruct (Forall2_in_l _ _ _ _ F He') as (l' & Hl' & S').
  apply in_map_iff. exists l'. split; auto. destruct S as (A1 & A2 & _), S' as (B1 & B2 & _). rewrite E in B1, B2. destruct l as [[x y] v], l' as [[x' y'] v']. cbn [fst snd] in *. congruence.
Qed.
Lemma actors_bound n ies : (0 < n)%nat -> (forall a t w, In (a, t, w) ies -> (a < n)%nat) -> (exists t w, In ((n - 1)%nat, t, w) ies) -> actors ies = n.
Proof.
  intros Hn H (t & w & H'). rewrite <- numN_actors. apply Nat.le_antisymm.
  - destruct ies as [|x ies]; [destruct H'|]. destruct (ProjProof.numN_last (x :: ies)) as (a & b & v & Hin & ->); [discriminate|]. apply H in Hin. lia.
  - apply ProjProof.numN_lt in H'. lia.
Qed.
Section Nums.
Variables (L1 L2 : list label) (ies : list (nat * nat * Qc)) (es : list (label * label * Qc)).
Hypothesis N1 : NoDup L1.
Hypothesis N2 : NoDup L2.
Hypothesis F : Forall2 (stands L1 L2) ies es.
Lemma stands_actor i : (i < length L1)%nat -> actor_weight ies i = actor_total es (nth i L1 []).
Proof.
  intros Hi. unfold actor_weight, actor_total. eapply stands_sum; [exact F|]. intros [[a b] w] [[x y] v] _ _ (H1 & H2 & H3). cbn [fst snd] in *. subst v. rewrite (stands_eqb L1 a x) by auto. auto.
Qed.
Lemma stands_mates i j : (i < length L1)%nat -> (j < length L1)%nat -> co_weight ies i j = mate_weight es (nth i L1 []) (nth j L1 []).
Proof.
  intros Hi Hj. unfold co_weight, mate_weight. eapply stands_sum; [exact F|]. intros [[a b] w] [[x y] v] _ _ (H1 & H2 & H3). cbn [fst snd] in *. subst v.
  eapply stands_sum; [exact F|]. intros [[a' b'] w'] [[x' y'] v'] _ _ (H1' & H2' & H3'). cbn [fst snd] in *. subst v'.
  rewrite (stands_eqb L1 a x), (stands_eqb L1 a' x') by auto.
  assert (E : eqb_label y y' = Nat.eqb b b'). { apply nth_lt in H2' as Hb. rewrite <- (nth_lab L2 b' y' H2'). apply stands_eqb; auto. }
  rewrite E. auto.
Qed.
Lemma stands_team t : (t < length L2)%nat -> team_weight ies t = total_of es (nth t L2 []) /\ team_size ies t = size_of es (nth t L2 []).
Proof.
  intros Ht. split.
  - unfold team_weight, total_of. eapply stands_sum; [exact F|]. intros [[a b] w] [[x y] v] _ _ (H1 & H2 & H3). cbn [fst snd] in *. subst v. rewrite (stands_eqb L2 b y) by auto. auto.
  - unfold team_size, size_of. change (count (fun x => Nat.eqb (snd (fst x)) t) ies) with (length (filter (fun x => Nat.eqb (snd (fst x)) t) ies)).
    clear - F Ht N2. induction F as [|[[a b] w] [[x y] v] ies' es' S F' IH]; auto. cbn [filter fst snd]. destruct S as (_ & S2 & _). cbn [fst snd] in S2.
    rewrite (stands_eqb L2 b y t N2 Ht S2). destruct (Nat.eqb b t); cbn [length]; now rewrite IH.
Qed.
Lemma team_list_perm : (forall x, In x L2 <-> In x (map (fun e => snd (fst e)) es)) -> Permutation (team_list ies) (seq 0 (length L2)).
Proof.
  intros HL. apply NoDup_Permutation; [apply NoDup_nodup|apply seq_NoDup|]. intros t. unfold team_list. rewrite nodup_In, in_map_iff, in_seq. split.
  - intros (e & <- & He). destruct (Forall2_in_l _ _ _ _ F He) as (l & _ & (_ & H & _)). apply nth_lt in H. lia.
  - intros Ht. assert (In (nth t L2 []) (map (fun e => snd (fst e)) es)) as Hin by (apply HL, nth_In; lia). apply in_map_iff in Hin as (l & El & Hl).
    destruct (Forall2_in_r _ _ _ _ F Hl) as (e & He & (_ & H & _)). exists e. split; auto. eapply NoDup_nth_error; eauto; [eapply nth_lt; eauto|].
    rewrite H, El. symmetry. apply nth_error_nth'. lia.
Qed.
Lemma stands_norm1 : L2 = numbered (map (fun e => snd (fst e)) es) -> norm1 ies = mates_norm es.
Proof.
  intros HL. assert (P : Permutation (team_list ies) (seq 0 (length L2))). { apply team_list_perm. intros x. rewrite HL. apply numbered_In. }
  unfold norm1, mates_norm. rewrite <- HL. rewrite (Qsum_perm _ _ _ P).
  transitivity (Qsum (fun t => total_of es t * (total_of es t - total_of es t / Qc_of_nat (size_of es t))) (map (fun t => nth t L2 []) (seq 0 (length L2)))).
  - rewrite Qsum_map. apply Qsum_ext. intros t Ht. apply in_seq in Ht. destruct (stands_team t) as [-> ->]; [lia|]. auto.
  - f_equal. apply ListLib.nth_ext. intros i. rewrite nth_error_map. destruct (lt_dec i (length L2)) as [H|H].
    + rewrite (nth_error_nth' (seq 0 (length L2)) 0%nat) by (rewrite seq_length; auto). rewrite seq_nth by auto. cbn. symmetry. apply nth_error_nth'. auto.
    + rewrite !(proj2 (nth_error_None _ _)); auto; rewrite ?seq_length; lia.
Qed.
Lemma stands_norm2 : norm2 ies = Qsum snd es.
Proof. unfold norm2. eapply stands_sum; [exact F|]. intros e l _ _ (_ & _ & H). auto. Qed.
Lemma stands_positive : (forall a b w, In (a, b, w) es -> 0 < w) -> positive ies.
Proof. intros H [[a b] w] Hin. destruct (Forall2_in_l _ _ _ _ F Hin) as ([[x y] v] & Hl & (_ & _ & E)). cbn in E |- *. rewrite E. eapply H; eauto. Qed.
End Nums.

(** Positive rows of the projected network. *)
Lemma co_weight_pos ies i j : positive ies -> shares ies i j -> 0 < co_weight ies i j.
Proof.
  intros P (t & v & w & H1 & H2). unfold co_weight.
  set (f := fun x y : nat * nat * Qc => if Nat.eqb (fst (fst x)) i && Nat.eqb (fst (fst y)) j && Nat.eqb (snd (fst x)) (snd (fst y)) then snd x * snd y else 0).
  assert (NN : forall x y, In x ies -> In y ies -> 0 <= f x y).
  { intros x y Hx Hy. unfold f. destruct (_ && _ && _); [|apply Qcle_refl]. replace 0 with (0 * snd y) by ring. apply Qcmult_le_compat_r; apply Qclt_le_weak, P; auto. }
  assert (PP : 0 < f (i, t, v) (j, t, w)).
  { unfold f. cbn [fst snd]. rewrite !Nat.eqb_refl. cbn [andb]. replace 0 with (0 * w) by ring. apply Qcmult_lt_compat_r; [apply (P _ H2)|apply (P _ H1)]. }
  assert (ST : forall (l : list (nat * nat * Qc)) g x, In x l -> (forall y, In y l -> 0 <= g y) -> g x <= Qsum g l).
  { clear. induction l as [|y l IH]; intros g x Hx NN; [destruct Hx|]. cbn [Qsum]. destruct Hx as [->|Hx].
    - apply Qcle_minus_iff. replace (g x + Qsum g l + - g x) with (Qsum g l) by ring. apply Qsum_nonneg. intros; apply NN; right; auto.
    - eapply Qcle_trans; [apply (IH g x Hx); intros; apply NN; right; auto|]. apply Qcle_minus_iff. replace (g y + Qsum g l + - Qsum g l) with (g y) by ring. apply NN. left; auto. }
  eapply Qclt_le_trans; [exact PP|]. eapply Qcle_trans; [apply (ST ies (f (i, t, v)) _ H2); intros; apply NN; auto|].
  apply (ST ies (fun x => Qsum (fun y => f x y) ies) (i, t, v) H1). intros x Hx. apply Qsum_nonneg. intros; apply NN; auto.
Qed.
Lemma norm1_pos ies i j : positive ies -> i <> j -> shares ies i j -> 0 < norm1 ies.
Proof.
  intros P Hij S. pose proof S as (t & v & w & H1 & H2).
  set (g := fun t => team_weight ies t * (team_weight ies t - team_weight ies t / Qc_of_nat (team_size ies t))).
  assert (TW : forall t, In t (team_list ies) -> 0 < team_weight ies t).
  { intros k Hk. unfold team_list in Hk. rewrite nodup_In, in_map_iff in Hk. destruct Hk as (x & <- & Hx). unfold team_weight.
    rewrite Qsum_if. apply Qsum_pos.
    - intros X. assert (In x (filter (fun x0 : nat * nat * Qc => Nat.eqb (snd (fst x0)) (snd (fst x))) ies)) as Hin by (apply filter_In; split; auto; apply Nat.eqb_refl). rewrite X in Hin. destruct Hin.
    - intros y Hy. apply filter_In in Hy as [Hy _]. apply P; auto. }
  assert (PM : forall u v, 0 < u -> 0 < v -> 0 < u * v) by (intros u0 v0 Hu Hv; replace 0 with (0 * v0) by ring; apply Qcmult_lt_compat_r; auto).
  assert (EQ : forall k, (0 < team_size ies k)%nat -> g k = team_weight ies k * team_weight ies k * ((Qc_of_nat (team_size ies k) - 1) / Qc_of_nat (team_size ies k))).
  { intros k Hk. apply Qc_of_nat_pos in Hk. unfold g. field. intros X. rewrite X in Hk. discriminate Hk. }
  assert (GE : forall k, In k (team_list ies) -> 0 <= g k).
  { intros k Hk. pose proof (team_size_pos ies k Hk) as Hs. rewrite EQ by auto. replace 0 with (0 * ((Qc_of_nat (team_size ies k) - 1) / Qc_of_nat (team_size ies k))) by ring.
    apply Qcmult_le_compat_r; [apply Qclt_le_weak, PM; auto|]. replace 0 with (0 * / Qc_of_nat (team_size ies k)) by ring. apply Qcmult_le_compat_r.
    - apply (proj1 (Qcle_minus_iff 1 _)). change 1 with (Qc_of_nat 1). apply Qc_of_nat_le. auto.
    - apply Qclt_le_weak. replace (/ Qc_of_nat (team_size ies k)) with (1 / Qc_of_nat (team_size ies k)) by (unfold Qcdiv; ring). apply Qc_div_pos; [reflexivity|apply Qc_of_nat_pos; auto]. }
  assert (HT : In t (team_list ies)). { unfold team_list. apply nodup_In. apply (in_map (fun x => snd (fst x)) _ _ H1). }
  assert (H2s : (2 <= team_size ies t)%nat).
  { unfold team_size. rewrite count_filter_len. assert (IN : forall x, In x [(i, t, v); (j, t, w)] -> In x (filter (fun x => Nat.eqb (snd (fst x)) t) ies)).
    { intros x [<-|[<-|[]]]; apply filter_In; split; auto; apply Nat.eqb_refl. }
    change 2%nat with (length [(i, t, v); (j, t, w)]). apply NoDup_incl_length; [|exact IN]. repeat constructor; [|intros []]. intros [X|[]]. congruence. }
  assert (GP : 0 < g t).
  { rewrite EQ by lia. apply PM; [apply PM; auto|]. apply Qc_div_pos; [|apply Qc_of_nat_pos; lia]. apply (proj1 (Qclt_minus_iff 1 _)). change 1 with (Qc_of_nat 1). apply Qc_of_nat_lt. lia. }
  unfold norm1. fold g. apply in_split in HT as (a & b & EL). rewrite EL in GE |- *. rewrite Qsum_app. cbn [Qsum].
  assert (0 <= Qsum g a) by (apply Qsum_nonneg; intros; apply GE, in_or_app; auto). assert (0 <= Qsum g b) by (apply Qsum_nonneg; intros; apply GE, in_or_app; right; right; auto).
  eapply Qclt_le_trans; [exact GP|]. apply Qcle_minus_iff. replace (Qsum g a + (g t + Qsum g b) + - g t) with (Qsum g a + Qsum g b) by ring.
  replace 0 with (0 + 0) by ring. apply Qcplus_le_compat; auto.
Qed.
Lemma in_row_aw adj i j w : simple_rows adj -> In (j, w) (row adj i) -> aw adj i j = w.
Proof.
  intros SR H. specialize (SR i). unfold aw. induction (row adj i) as [|[k v] r IH]; [destruct H|]. cbn [map fst] in SR. inversion SR as [|? ? NI SR']; subst. cbn [Qsum fst snd].
  destruct H as [E|H].
  - injection E as -> ->. rewrite Nat.eqb_refl, Qsum_0; [ring|]. intros [k' v'] H'. cbn [fst snd]. destruct (Nat.eqb_spec k' j) as [->|]; auto. destruct NI. apply in_map_iff. exists (j, v'). auto.
  - destruct (Nat.eqb_spec k j) as [->|]; [destruct NI; apply in_map_iff; exists (j, w); auto|]. rewrite IH by auto. ring.
Qed.
End Teams.

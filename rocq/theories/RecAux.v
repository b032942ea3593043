(** RecAux.v -- ratings and queries of src/recommend.c: the unobserved pairs, the removal of ratings, the reading of queries. *)
From Coq Require Import List Arith ZArith Ascii Bool QArith Lia Permutation.
From Verif Require Import Base Num ListLib NatSum IoModel IoSpec IoProof GraphModel GraphSpec GraphProof NetModel NetBuild BipartModel BipartSpec BipartRen BipartMem BipartRand BipartCopy BipartFile
  RecModel RecSpec RecSets RecSetup RecClean.
Import ListNotations.
Local Open Scope nat_scope.

Section Aux.
Context {A : Type} {ops : NumOps A}.
Implicit Types (b : binet A) (g : net A).

(** ** BuildUnobservedSet *)
Lemma foldM_prod {S X Y} (f : S -> X * Y -> res S) l2 : forall l1 s, foldM (fun s x => foldM (fun s y => f s (x, y)) s l2) s l1 = foldM f s (list_prod l1 l2).
Proof.
  assert (E : forall x l s, foldM (fun s y => f s (x, y)) s l = foldM f s (map (pair x) l)).
  { intros x l. induction l as [|y l IH]; intros s; cbn [foldM map]; auto. destruct (f s (x, y)); cbn [bind]; auto. }
  induction l1 as [|x l1 IH]; intros s; cbn [foldM list_prod]; auto. rewrite foldM_app, <- E. destruct (foldM _ s l2); cbn [bind]; auto.
Qed.
Lemma length_split {X} (f : X -> bool) l : length (filter f l) + length (filter (fun x => negb (f x)) l) = length l.
Proof. induction l as [|x l IH]; cbn; auto. destruct (f x); cbn; lia. Qed.
Lemma NoDup_prod {X Y} (l1 : list X) (l2 : list Y) : NoDup l1 -> NoDup l2 -> NoDup (list_prod l1 l2).
Proof.
  intros H1 H2. induction l1 as [|x l1 IH]; cbn [list_prod]; [constructor|]. inversion H1 as [|? ? N1 N2]; subst. apply NoDup_app_iff. splits; auto.
  - apply FinFun.Injective_map_NoDup; auto. intros ? ? [=]; auto.
  - intros [a c] K1 K2. apply in_map_iff in K1 as (y & [= <- <-] & _). apply in_prod_iff in K2. tauto.
Qed.
Definition unlinked g (pm : nat * nat) : bool := match weight g (fst pm) (snd pm) with None => true | Some _ => false end.
Lemma unlinked_spec g p m : unlinked g (p, m) = if in_dec Nat.eq_dec m (nbrs g p) then false else true.
Proof.
  unfold unlinked. cbn. pose proof (nbrs_weight g p m) as H. destruct (in_dec _ m (nbrs g p)) as [K|K], (weight g p m); auto.
  - now apply H in K.
  - exfalso. apply K, H. discriminate.
Qed.
Lemma unrated_eq b : unrated b = filter (unlinked (bmem b)) (list_prod (bset1 b) (bset2 b)).
Proof. unfold unrated. apply filter_ext. now intros [p m]. Qed.
Lemma unrated_count b : bipartite b -> length (unrated b) + lsum (degree (bmem b)) (bset1 b) = length (bset1 b) * length (bset2 b).
Proof.
  intros B. rewrite unrated_eq, <- prod_length, <- (length_split (unlinked (bmem b)) (list_prod (bset1 b) (bset2 b))), <- bi_edges_length. f_equal.
  destruct (bi_nodup b B) as [N1 N2]. apply Permutation_length, NoDup_Permutation; [now apply NoDup_bi_edges|apply NoDup_filter; now apply NoDup_prod|].
  intros [x y]. rewrite In_bi_edges, filter_In, in_prod_iff, unlinked_spec. destruct (in_dec _ y (nbrs (bmem b) x)) as [K|K]; cbn; [|split; [tauto|intros [_ ?]; congruence]].
  split; [|tauto]. intros [H1 _]. splits; auto. destruct (bi_cross b B x y K) as [[_ H]|[H _]]; auto. exfalso. eapply bi_disjoint; eauto.
Qed.
Lemma unobserved_fold g n l : (forall p m, In (p, m) l -> p < length g) -> forall pre, (Z.of_nat (length pre + length (filter (unlinked g) l)) <= n)%Z ->
  foldM (fun qs pm => do x <- IsThereLink g (fst pm) (snd pm);
      if x : bool then Ok qs else do _ <- check (Z.of_nat (length qs) <? n)%Z UB_oob; Ok (qs ++ [pm])) pre l = Ok (pre ++ filter (unlinked g) l).
Proof.
  induction l as [|[p m] l IH]; intros Hl pre Hn; cbn [foldM filter]. { now rewrite app_nil_r. }
  cbn [fst snd]. rewrite IsThereLink_spec by (eapply Hl; simpl; eauto). cbn [bind]. cbn [filter] in Hn. rewrite unlinked_spec in *. destruct (in_dec _ m (nbrs g p)) as [K|K]; cbn [bind].
  - apply IH; auto. intros; eapply Hl; simpl; eauto.
  - cbn [length] in Hn. rewrite (proj2 (Z.ltb_lt _ _)) by lia. cbn [check bind]. rewrite IH; [now rewrite <- app_assoc|intros; eapply Hl; simpl; eauto|]. rewrite app_length. cbn [length]. lia.
Qed.
Theorem BuildUnobservedSet_spec b : bipartite b -> exists b', BuildUnobservedSet b = Ok (unrated b, b') /\ bipartite b' /\ same_bi b b' /\
  CountUnobserved b = Ok (Z.of_nat (length (unrated b)), b').
Proof.
  intros B. unfold BuildUnobservedSet, CountUnobserved. destruct (NLinksBipart_spec b B) as (b' & -> & B' & Sb). cbn [bind]. exists b'. pose proof Sb as (E1 & E2 & _ & E4 & E5).
  assert (EU : unrated b' = unrated b). { rewrite !unrated_eq, E1, E2. apply filter_ext. intros [p m]. unfold unlinked. cbn. now rewrite E5. }
  pose proof (unrated_count b B) as HC. replace (Z.of_nat (length (bset1 b')) * Z.of_nat (length (bset2 b')) - Z.of_nat (lsum (degree (bmem b)) (bset1 b)))%Z with (Z.of_nat (length (unrated b))) by (rewrite E1, E2; lia).
  splits; auto. pose proof (foldM_prod (fun qs pm => do x <- IsThereLink (bmem b') (fst pm) (snd pm);
      if x : bool then Ok qs else do _ <- check (Z.of_nat (length qs) <? Z.of_nat (length (unrated b)))%Z UB_oob; Ok (qs ++ [pm])) (bset2 b') (bset1 b') []) as HP. cbn [fst snd] in HP. rewrite HP. clear HP.
  rewrite unobserved_fold.
  - cbn [bind app]. now rewrite <- unrated_eq, EU.
  - intros p m H. apply in_prod_iff in H as [H _]. eapply bi_lt; eauto. apply in_app_iff; auto.
  - rewrite <- unrated_eq, EU. cbn. lia.
Qed.

(** ** RemoveRatings *)
Lemma RemoveLink_adj g p j g' n : RemoveLink g p j true = Ok g' -> p <> j -> nth_error g p = Some n ->
  exists n', nth_error g' p = Some n' /\ del_link j (gadj n) = Ok (gadj n').
Proof.
  intros E Hpj En. unfold RemoveLink, upd_node in E. rewrite (get_ok _ _ _ En) in E. cbn [bind] in E. rewrite set_ok in E by (eapply nth_lt; eauto). cbn [bind] in E.
  destruct (get (upd g p _) j) as [m|] eqn:Em; cbn [bind] in E; [|discriminate E].
  destruct (set _ j _) as [g2|] eqn:E2; cbn [bind] in E; [|discriminate E].
  assert (L2 : j < length (upd g p (reset_cache n))). { unfold get in Em. destruct (nth_error _ j) eqn:Q; [|discriminate Em]. eapply nth_lt; eauto. }
  rewrite set_ok in E2 by auto. injection E2 as <-.
  assert (Ep : nth_error (upd (upd g p (reset_cache n)) j (reset_cache m)) p = Some (reset_cache n)).
  { rewrite nth_upd_neq by auto. apply nth_upd_eq. eapply nth_lt; eauto. }
  rewrite (get_ok _ _ _ Ep) in E. cbn [bind gadj reset_cache] in E. destruct (del_link j (gadj n)) as [ls|] eqn:Ed; cbn [bind] in E; [|discriminate E].
  rewrite set_ok in E by (eapply nth_lt; eauto). cbn [bind] in E. rewrite (proj2 (Nat.eqb_neq p j) Hpj) in E. cbn [andb negb] in E.
  match type of E with bind ?x _ = _ => destruct x as [m'|] eqn:Em' end; cbn [bind] in E; [|discriminate E]. destruct (del_link p (gadj m')) as [ls'|]; cbn [bind] in E; [|discriminate E].
  apply set_inv in E as [_ ->]. rewrite nth_upd_neq by auto. rewrite nth_upd_eq by (eapply nth_lt; eauto). eexists. split; eauto.
Qed.
Lemma del_link_at j (pre : list (link A)) l rest : ~ In j (targets pre) -> lref l = Some j -> del_link j (pre ++ l :: rest) = Ok (pre ++ rest).
Proof.
  intros H El. induction pre as [|x pre IH]; cbn [app del_link].
  - rewrite El. cbn. now rewrite Nat.eqb_refl.
  - destruct (eq_ref (lref x) j) eqn:Ex.
    + exfalso. apply H. unfold eq_ref in Ex. cbn. destruct (lref x) as [k|]; [|discriminate Ex]. apply Nat.eqb_eq in Ex. subst. cbn. auto.
    + rewrite IH; auto. intros K. apply H. cbn. apply in_app_iff. auto.
Qed.
Lemma weight_in_at (ls : list (link A)) l j : NoDup (targets ls) -> In l ls -> lref l = Some j -> weight_in ls j = Some (lweight l).
Proof.
  induction ls as [|x ls IH]; intros ND Hl Ej; [destruct Hl|]. rewrite weight_in_cons. destruct Hl as [->|Hl].
  - rewrite Ej. cbn. now rewrite Nat.eqb_refl.
  - cbn [targets flat_map] in ND. fold (targets ls) in ND. apply NoDup_app_iff in ND as (_ & N2 & N3). destruct (eq_ref (lref x) j) eqn:Ex; auto. exfalso. unfold eq_ref in Ex. destruct (lref x) as [k|]; [|discriminate Ex]. apply Nat.eqb_eq in Ex. subst k.
    apply (N3 j); [cbn; auto|]. unfold targets. apply in_flat_map. exists l. rewrite Ej. cbn. auto.
Qed.
Lemma weight_in_link (ls : list (link A)) j w : weight_in ls j = Some w -> exists l, In l ls /\ lref l = Some j /\ lweight l = w.
Proof.
  induction ls as [|x ls IH]; [discriminate|]. rewrite weight_in_cons. destruct (eq_ref (lref x) j) eqn:Ex.
  - intros [= <-]. exists x. unfold eq_ref in Ex. destruct (lref x) as [k|]; [|discriminate Ex]. apply Nat.eqb_eq in Ex. subst. simpl; auto.
  - intros E. destruct (IH E) as (l & K & H). exists l. simpl; auto.
Qed.
Definition swept (r : A) (P : nat -> bool) g g' : Prop := forall i j, weight g' i j = if P i || P j then without (fun x => neqb x r) (weight g i j) else weight g i j.
Lemma remove_from_ok r p : forall fuel b t n pre rest, bipartite b -> nth_error (bmem b) p = Some n -> gadj n = pre ++ rest -> length pre = t ->
  Forall (fun l => neqb (lweight l) r = false) pre -> length rest < fuel ->
  exists g', remove_from fuel r p t (bmem b) = Ok g' /\ bipartite (mkBi g' (bset1 b) (bset2 b)) /\ same_nodes (bmem b) g' /\ swept r (Nat.eqb p) (bmem b) g'.
Proof.
  induction fuel as [|fuel IH]; intros b t n pre rest B En Ea Lt Hpre Hf; [lia|]. cbn [remove_from]. rewrite (get_ok _ _ _ En). cbn [bind]. rewrite Ea.
  assert (NDt : NoDup (targets (gadj n))). { pose proof (bi_once b B p) as H. unfold nbrs in H. now rewrite En in H. }
  destruct rest as [|l rest].
  - rewrite app_nil_r in *. rewrite (proj2 (nth_error_None pre t)) by lia. exists (bmem b). splits; auto using same_nodes_refl; [now destruct b|].
    assert (Hp : forall j, weight (bmem b) p j = without (fun x => neqb x r) (weight (bmem b) p j)).
    { intros j. destruct (weight (bmem b) p j) as [w|] eqn:Ew; auto. unfold weight in Ew. rewrite En in Ew. apply weight_in_link in Ew as (l & Hl & _ & <-). rewrite Ea in Hl. cbn. rewrite Forall_forall in Hpre. now rewrite Hpre. }
    intros i j. destruct (Nat.eqb_spec p i) as [<-|_]; cbn [orb]; auto. destruct (Nat.eqb_spec p j) as [<-|_]; auto. rewrite (bi_sym b B). auto.
  - rewrite nth_error_app2 by lia. replace (t - length pre) with 0 by lia. cbn [nth_error]. destruct (neqb (lweight l) r) eqn:Er.
    + assert (Hl : In l (gadj n)) by (rewrite Ea; apply in_or_app; simpl; auto). destruct (bi_link b B p n l En Hl) as (j & m & Ej & _). rewrite Ej. cbn [deref bind].
      assert (Hj : In j (nbrs (bmem b) p)). { unfold nbrs. rewrite En. unfold targets. apply in_flat_map. exists l. rewrite Ej. simpl; auto. }
      assert (Hpj : p <> j). { intros <-. destruct (bi_cross b B p p Hj) as [[H1 H2]|[H1 H2]]; eapply bi_disjoint; eauto. }
      destruct (bi_remove b p j B Hj) as (g1 & E1 & B1 & S1 & W1). rewrite E1. cbn [bind]. destruct (RemoveLink_adj _ _ _ _ _ E1 Hpj En) as (n1 & En1 & Ed).
      rewrite Ea, del_link_at in Ed; auto.
      2: { rewrite Ea in NDt. unfold targets in *. rewrite flat_map_app in NDt. apply NoDup_app_iff in NDt as (_ & _ & N3). intros K. apply (N3 j K). cbn. rewrite Ej. simpl; auto. }
      injection Ed as Ed. destruct (IH (mkBi g1 (bset1 b) (bset2 b)) t n1 pre rest B1 En1 (eq_sym Ed) Lt Hpre) as (g' & E' & B' & S' & W'); [cbn [length] in Hf; lia|].
      exists g'. splits; auto. { eapply same_nodes_trans; eauto. }
      assert (Ew : weight (bmem b) p j = Some (lweight l)). { unfold weight. rewrite En. now apply weight_in_at. }
      cbn [bmem] in W'. intros x y. rewrite (W' x y), W1. destruct (((x =? p) && (y =? j)) || ((x =? j) && (y =? p))) eqn:Exy; auto.
      assert (Hw : weight (bmem b) x y = Some (lweight l) /\ (p =? x) || (p =? y) = true).
      { apply orb_true_iff in Exy as [Exy|Exy]; apply andb_true_iff in Exy as [X1 X2]; apply Nat.eqb_eq in X1, X2; subst; rewrite Nat.eqb_refl; split; auto using orb_true_r. now rewrite (bi_sym b B). }
      destruct Hw as [-> ->]. cbn. now rewrite Er.
    + rewrite (Nat.add_comm t 1). apply (IH b (1 + t) n (pre ++ [l]) rest); auto.
      * now rewrite <- app_assoc.
      * rewrite app_length. simpl. lia.
      * apply Forall_app. auto.
      * cbn [length] in Hf. lia.
Qed.
Lemma without_twice (f : A -> bool) w : without f (without f w) = without f w.
Proof. destruct w as [x|]; auto. cbn. destruct (f x) eqn:E; cbn; auto. now rewrite E. Qed.
Theorem RemoveRatings_spec b r : bipartite b -> exists b', RemoveRatings b r = Ok b' /\ bipartite b' /\ bset1 b' = bset1 b /\ bset2 b' = bset2 b /\ same_nodes (bmem b) (bmem b') /\
  forall i j, weight (bmem b') i j = without (fun x => neqb x (nofQ (r # 1))) (weight (bmem b) i j).
Proof.
  intros B. unfold RemoveRatings. set (x := nofQ (r # 1)).
  assert (H : forall l, incl l (bset1 b) -> exists g', foldM (fun g p => do n <- get g p; remove_from (length (gadj n) + 1) x p 0 g) (bmem b) l = Ok g' /\
    bipartite (mkBi g' (bset1 b) (bset2 b)) /\ same_nodes (bmem b) g' /\ swept x (fun i => existsb (Nat.eqb i) l) (bmem b) g').
  { induction l as [|p l IH] using rev_ind; intros Hl. { exists (bmem b). splits; auto using same_nodes_refl; [now destruct b|]. intros i j. reflexivity. }
    destruct IH as (g1 & E1 & B1 & S1 & W1); [intros y Hy; apply Hl, in_or_app; auto|]. rewrite foldM_app, E1. cbn [bind foldM].
    destruct (nth_ex g1 p) as [n En]. { apply (bi_lt (mkBi g1 (bset1 b) (bset2 b)) p B1). apply in_or_app. left. apply Hl, in_or_app; simpl; auto. }
    rewrite (get_ok _ _ _ En). cbn [bind]. destruct (remove_from_ok x p (length (gadj n) + 1) (mkBi g1 (bset1 b) (bset2 b)) 0 n [] (gadj n) B1 En eq_refl eq_refl) as (g2 & E2 & B2 & S2 & W2); auto; [lia|].
    cbn [bmem] in E2, W2, S2. rewrite E2. cbn [bind]. exists g2. splits; auto. { eapply same_nodes_trans; eauto. }
    intros i j. rewrite W2, W1, !existsb_app. cbn [existsb]. rewrite !orb_false_r, (Nat.eqb_sym p i), (Nat.eqb_sym p j).
    destruct (existsb (Nat.eqb i) l), (existsb (Nat.eqb j) l), (i =? p), (j =? p); cbn [orb]; auto using without_twice. }
  destruct (H (bset1 b) (incl_refl _)) as (g' & E & B' & S' & W'). exists (mkBi g' (bset1 b) (bset2 b)). cbn [bmem bset1 bset2]. split. { match goal with |- bind ?m _ = _ => replace m with (Ok g') by (symmetry; exact E) end. reflexivity. } cj; auto. intros i j. rewrite W'.
  destruct (existsb (Nat.eqb i) (bset1 b)) eqn:Ei; cbn [orb]; auto. destruct (existsb (Nat.eqb j) (bset1 b)) eqn:Ej; auto.
  destruct (weight (bmem b) i j) as [w|] eqn:Ew; auto. exfalso. assert (K : In j (nbrs (bmem b) i)) by (apply nbrs_weight; congruence).
  assert (Hn : forall y, In y (bset1 b) -> existsb (Nat.eqb y) (bset1 b) = true) by (intros y Hy; apply existsb_exists; exists y; split; auto using Nat.eqb_refl).
  destruct (bi_cross b B i j K) as [[K1 _]|[_ K1]]; apply Hn in K1; congruence.
Qed.

(** ** ReadQueries *)
Lemma numbered_same l : NoDup l -> numbered l = l.
Proof.
  induction l as [|x l IH] using rev_ind; intros ND; auto. apply NoDup_app_iff in ND as (N1 & _ & N3). rewrite numbered_snoc_new, IH; auto. intros K. apply (N3 x K). simpl; auto.
Qed.
Lemma numbered_twice l l' : numbered (numbered l ++ l') = numbered (l ++ l').
Proof.
  induction l' as [|x l' IH] using rev_ind. { rewrite !app_nil_r. apply numbered_same, numbered_NoDup. }
  rewrite !app_assoc, !numbered_snoc, IH. f_equal.
  assert (E : existsb (eqb_label x) (numbered l ++ l') = existsb (eqb_label x) (l ++ l')). { apply eq_true_iff_eq. rewrite !existsb_label, !in_app_iff, numbered_In. reflexivity. }
  now rewrite E.
Qed.
Lemma side_of g s : (forall k i n, nth_error s k = Some i -> nth_error g i = Some n -> gnum n = k) -> (forall i, In i s -> i < length g) -> distinct g s ->
  exists d, side_dict g s = Ok d /\ BipartFile.side g s d (map (label_of g) s).
Proof.
  intros Hn Hs HD. destruct (side_dict_ok g s Hs HD) as (d & Ed & Hd). exists d. split; auto. split; auto. intros lab p. split.
  - intros E. assert (K : forall l d0, (forall lab p, dict_find d0 lab = Some p -> In p s /\ label_of g p = lab) -> incl l s -> forall d1, foldM (fun d i => do n <- get g i; Ok ((glabel n, i) :: d)) d0 l = Ok d1 ->
      forall lab p, dict_find d1 lab = Some p -> In p s /\ label_of g p = lab).
    { induction l as [|i l IH]; intros d0 H0 Hl d1; cbn [foldM]; [intros [= <-]; auto|]. destruct (nth_ex g i) as [n En]; [apply Hs, Hl; simpl; auto|]. rewrite (get_ok _ _ _ En). cbn [bind].
      apply IH; [|intros y Hy; apply Hl; simpl; auto]. intros lab' p'. cbn [dict_find]. destruct (label_eqb (glabel n) lab') eqn:El; [|apply H0]. intros [= <-]. apply label_eqb_eq in El. split; [apply Hl; simpl; auto|]. unfold label_of. now rewrite En. }
    eapply (K s []); eauto; [discriminate|apply incl_refl].
  - intros [Hp <-]. now apply Hd.
Qed.
Lemma bi_swap b : bipartite b -> bipartite (mkBi (bmem b) (bset2 b) (bset1 b)).
Proof.
  intros [H1 H2 H3 H4 H5 H6 H7 H8]. split; cbn [bmem bset1 bset2]; auto. { rewrite Permutation_app_comm. auto. } intros i j Hj. destruct (H5 i j Hj); tauto.
Qed.
Lemma bi_new b lab : bipartite b -> bipartite (mkBi (bmem b ++ [bare lab (length (bset1 b))]) (bset1 b ++ [length (bmem b)]) (bset2 b)).
Proof.
  intros B. pose proof B as [H1 H2 H3 H4 H5 H6 H7 H8]. assert (HL : forall i, In i (bset1 b ++ bset2 b) -> i < length (bmem b)) by (intros i; now apply bi_lt). split; cbn [bmem bset1 bset2].
  - rewrite app_length. simpl. rewrite Nat.add_1_r, seq_S, <- app_assoc. cbn [Nat.add]. rewrite (Permutation_app_comm [length (bmem b)] (bset2 b)), app_assoc. now apply Permutation_app_tail.
  - intros k i n Ek Ei. apply nth_snoc in Ek as [Ek|[-> ->]].
    + rewrite nth_error_app1 in Ei; eauto. apply HL, in_app_iff. left. eapply nth_error_In; eauto.
    + rewrite nth_error_app2, Nat.sub_diag in Ei by lia. injection Ei as <-. reflexivity.
  - intros k i n Ek Ei. rewrite nth_error_app1 in Ei; eauto. apply HL, in_app_iff. right. eapply nth_error_In; eauto.
  - intros i n l Ei Hl. apply nth_snoc in Ei as [Ei|[-> ->]]; [|destruct Hl]. destruct (H4 i n l Ei Hl) as (j & m & E1 & E2 & E3 & E4). exists j, m. splits; auto. rewrite nth_error_app1; auto. eapply nth_lt; eauto.
  - intros i j. rewrite nbrs_snoc by reflexivity. intros Hj. destruct (H5 i j Hj) as [[K1 K2]|[K1 K2]]; [left|right]; split; auto; apply in_app_iff; auto.
  - intros i. rewrite nbrs_snoc by reflexivity. auto.
  - intros i j. rewrite !weight_snoc by reflexivity. auto.
  - intros i n Ei. apply nth_snoc in Ei as [Ei|[-> ->]]; eauto.
Qed.
Lemma grown_refl b : grown b b.
Proof. split; auto; exists []; now rewrite app_nil_r. Qed.
Lemma grown_trans b1 b2 b3 : grown b1 b2 -> grown b2 b3 -> grown b1 b3.
Proof. intros [[l1 H1] [l2 H2] [l3 H3] H4] [[l1' H1'] [l2' H2'] [l3' H3'] H4']. split; [rewrite H1', H1|rewrite H2', H2|rewrite H3', H3|intros; now rewrite H4', H4]; rewrite <- app_assoc; eauto. Qed.
Lemma query_node1 b lab : bipartite b -> NoDup (labs1 b) -> length lab < 100 ->
  exists p g s, query_node (bmem b) (bset1 b) lab = Ok (p, g, s) /\ let b' := mkBi g s (bset2 b) in bipartite b' /\ grown b b' /\ In p s /\ label_of g p = lab /\ labs1 b' = numbered (labs1 b ++ [lab]) /\ labs2 b' = labs2 b.
Proof.
  intros B ND Hl. assert (HL : forall i, In i (bset1 b ++ bset2 b) -> i < length (bmem b)) by (intros i; now apply bi_lt).
  destruct (side_of (bmem b) (bset1 b) (bi_num1 b B)) as (d & Ed & Sd); auto. { intros i Hi. apply HL, in_app_iff; auto. }
  fold (labs1 b) in Sd. rewrite <- (numbered_same (labs1 b)) in Sd by auto. destruct (BipartFile.intern_spec _ _ _ _ lab Sd Hl) as (p & m' & s' & d' & E & Sd' & Ip & Lp & Hc).
  exists p, m', s'. split.
  { unfold query_node. rewrite Ed. cbn [bind]. unfold intern_node in E. change (GetNodeDict lab d) with (dict_find d lab). destruct (dict_find d lab); [now injection E as <- <- <- _|].
    change (last_of (bset1 b)) with (match rev (bset1 b) with [] => None | k :: _ => Some k end).
    match type of E with bind ?x _ = _ => destruct x as [[p' g']|]; cbn [bind] in *; [|discriminate E] end. now injection E as <- <- <- _. }
  cbv zeta. assert (EL : labs1 (mkBi m' s' (bset2 b)) = numbered (labs1 b ++ [lab])) by apply Sd'.
  destruct Hc as [(K & -> & ->)|(K & -> & -> & ->)].
  - assert (Eb : mkBi (bmem b) (bset1 b) (bset2 b) = b) by now destruct b. rewrite Eb in *. cj; auto using grown_refl.
  - cj; auto; [now apply bi_new| |].
    + split; cbn [bmem bset1 bset2]; eauto; [exists []; now rewrite app_nil_r|]. intros i j. now rewrite weight_snoc.
    + unfold labs2. cbn [bmem bset2]. apply map_ext_in. intros i Hi. apply label_of_app, HL, in_app_iff; auto.
Qed.
Lemma query_node2 b lab : bipartite b -> NoDup (labs2 b) -> length lab < 100 ->
  exists p g s, query_node (bmem b) (bset2 b) lab = Ok (p, g, s) /\ let b' := mkBi g (bset1 b) s in bipartite b' /\ grown b b' /\ In p s /\ label_of g p = lab /\ labs2 b' = numbered (labs2 b ++ [lab]) /\ labs1 b' = labs1 b.
Proof.
  intros B ND Hl. destruct (query_node1 (mkBi (bmem b) (bset2 b) (bset1 b)) lab (bi_swap b B) ND Hl) as (p & g & s & E & B' & G & H1 & H2 & H3 & H4). exists p, g, s. split; auto. cbv zeta.
  pose proof (bi_swap _ B') as B''. destruct G as [G1 G2 G3 G4]. cj; auto. split; auto.
Qed.
Lemma label_apps g l i : i < length g -> label_of (g ++ l) i = label_of g i.
Proof. intros H. unfold label_of. now rewrite nth_error_app1. Qed.
Lemma answers_grown b b' pq ac : bipartite b -> grown b b' -> answers b pq ac -> answers b' pq ac.
Proof.
  intros B [[l1 H1] [l2 H2] [l3 H3] _] (K1 & K2 & K3 & K4). assert (HL : forall i, In i (bset1 b ++ bset2 b) -> i < length (bmem b)) by (intros i; now apply bi_lt).
  unfold answers. rewrite H1, H2, H3, !in_app_iff, !label_apps by (apply HL, in_app_iff; auto). auto.
Qed.
Lemma read_queries_ok : forall text qs, asks text qs -> forall b acc got l1 l2 base, bipartite b -> NoDup (labs1 b) -> NoDup (labs2 b) -> Forall2 (answers b) acc got ->
  (forall a c, In (a, c) qs -> length a < 100 /\ length c < 100) ->
  exists b' acc' l1' l2' rest, foldM read_query (b, acc, l1, l2, text) (seq base (length qs)) = Ok (b', acc', l1', l2', rest) /\
    bipartite b' /\ grown b b' /\ labs1 b' = numbered (labs1 b ++ map fst qs) /\ labs2 b' = numbered (labs2 b ++ map snd qs) /\ Forall2 (answers b') acc' (got ++ qs).
Proof.
  induction 1 as [s|s1 a s2 c s qs Hb H2 Ha Hc Hs Hq IH]; intros b acc got l1 l2 base B N1 N2 HF Hl.
  - exists b, acc, l1, l2, s. cbn [length seq foldM map]. rewrite !app_nil_r, !numbered_same by auto. cj; auto using grown_refl.
  - cbn [length seq foldM]. destruct (Hl a c) as [La Lc]; [simpl; auto|]. unfold read_query at 1, scan_into.
    rewrite (scan_s_word s1 a (s2 ++ c ++ s)); auto; [|intros x Hx; apply Hb, in_app_iff; auto|intros x t E; apply Hb, in_app_iff; right; destruct s2 as [|y s2]; [congruence|]; injection E as -> _; simpl; auto].
    unfold store_label, max_label. rewrite (proj2 (Nat.ltb_lt _ _) La). cbn [check bind].
    rewrite (scan_s_word s2 c s); auto; [|intros x Hx; apply Hb, in_app_iff; auto]. rewrite (proj2 (Nat.ltb_lt _ _) Lc). cbn [check bind held].
    destruct (query_node1 b a B N1 La) as (p & g1 & t1 & E1 & B1 & G1 & P1 & P2 & P3 & P4). rewrite E1. cbn [bind].
    assert (N2' : NoDup (labs2 (mkBi g1 t1 (bset2 b)))) by now rewrite P4.
    destruct (query_node2 (mkBi g1 t1 (bset2 b)) c B1 N2' Lc) as (q & g2 & t2 & E2 & B2 & G2 & Q1 & Q2 & Q3 & Q4). cbn [bmem bset2 bset1] in E2, B2, G2, Q3, Q4. rewrite E2. cbn [bind].
    pose proof (grown_trans _ _ _ G1 G2) as G. assert (Hans : answers (mkBi g2 t1 t2) (p, q) (a, c)).
    { unfold answers. cbn [fst snd bmem bset1 bset2]. splits; auto. destruct (gr_mem _ _ G2) as [l El]. cbn [bmem] in El. rewrite El, label_apps; auto. apply (bi_lt _ p B1). cbn [bset1]. apply in_app_iff; auto. }
    destruct (IH (mkBi g2 t1 t2) (acc ++ [(p, q)]) (got ++ [(a, c)]) (Some a) (Some c) (S base)) as (b' & acc' & l1' & l2' & rest & E & B' & G' & R1 & R2 & R3).
    + auto.
    + rewrite Q4, P3. apply numbered_NoDup.
    + rewrite Q3. apply numbered_NoDup.
    + apply Forall2_app; [|constructor; auto]. clear - HF B G. induction HF; constructor; auto. eapply answers_grown; eauto.
    + intros; apply Hl; simpl; auto.
    + exists b', acc', l1', l2', rest. cj; auto.
      * eapply grown_trans; eauto.
      * rewrite R1, Q4, P3, numbered_twice, <- app_assoc. reflexivity.
      * rewrite R2, Q3, P4, numbered_twice, <- app_assoc. reflexivity.
      * now rewrite <- app_assoc in R3.
Qed.
Theorem ReadQueries_spec b text qs : bipartite b -> NoDup (labs1 b) -> NoDup (labs2 b) -> asks text qs -> (forall a c, In (a, c) qs -> length a < 100 /\ length c < 100) ->
  exists ps b', ReadQueries text (length qs) b = Ok (ps, b') /\ Forall2 (answers b') ps qs /\ bipartite b' /\ grown b b' /\
    labs1 b' = numbered (labs1 b ++ map fst qs) /\ labs2 b' = numbered (labs2 b ++ map snd qs).
Proof.
  intros B N1 N2 Hq Hl. unfold ReadQueries. destruct (read_queries_ok text qs Hq b [] [] None None 0 B N1 N2 (Forall2_nil _) Hl) as (b' & acc' & l1' & l2' & rest & E & B' & G & R1 & R2 & R3).
  rewrite E. cbn [bind]. exists acc', b'. cj; auto.
Qed.
End Aux.

(** NetJoin.v -- joining and comparing networks, and removing isolated nodes. *)
From Coq Require Import List Arith Lia Ascii Bool QArith Permutation.
From Verif Require Import Base Num ListLib IoModel IoSpec IoProof GraphModel GraphSpec GraphProof BipartModel BipartSpec BipartRen BipartMem BipartFile BipartCopy NetModel NetSpec NetBuild NetPrint NetCopy.
Import ListNotations.
Local Open Scope nat_scope.

Section Join.
Context {A : Type} {ops : NumOps A}.
Implicit Types (g ga gb s : net A).
Notation row := (label * label * A)%type.

Lemma carries_self add g : wf_net g -> NoDup (map glabel g) -> carries add (all_rows g) g.
Proof.
  intros W D i j Hi Hj. assert (U : forall w, In (label_of g i, label_of g j, w) (all_rows g) -> weight g i j = Some w).
  { intros w H. apply net_rows_In in H as (x & y & Hw & L1 & L2); auto. assert (Hn : In y (nbrs g x)) by (apply nbrs_weight; congruence). destruct (nbrs_lt g x y W Hn).
    apply (labels_inj g) in L1; auto. apply (labels_inj g) in L2; auto. congruence. }
  symmetry. destruct (weight g i j) as [w|] eqn:E.
  - apply rows_weight_const; [exists w; apply net_rows_In; auto; exists i, j; auto|intros w' H; apply U in H; congruence|now apply net_rows_once].
  - apply rows_weight_none. intros w H. apply U in H. discriminate.
Qed.
Lemma label_of_copy g i : label_of (net_copy g) i = label_of g i.
Proof. unfold label_of. rewrite net_copy_nth. destruct (nth_error g i); auto. Qed.
Lemma carries_copy add g : wf_net g -> NoDup (map glabel g) -> carries add (all_rows g) (net_copy g).
Proof. intros W D i j Hi Hj. rewrite net_copy_length in Hi, Hj. rewrite net_copy_weight, !label_of_copy. now apply carries_self. Qed.

Lemma known_In g lab : known g lab = true <-> In lab (map glabel g).
Proof.
  unfold known. rewrite existsb_exists. split; [intros (x & Hx & E); destruct (eqb_label_spec lab x); [subst; auto|discriminate]|]. intros H. exists lab. split; auto. destruct (eqb_label_spec lab lab); congruence.
Qed.
Lemma known_dict g lab : wf_net g -> NoDup (map glabel g) -> known g lab = match dict_find (MakeLabelDict g) lab with Some _ => true | None => false end.
Proof.
  intros W D. destruct (dict_find (MakeLabelDict g) lab) as [p|] eqn:E.
  - apply dict_some in E as (m & Em & <-); auto; [|exact (wf_num _ W)]. apply known_In. apply in_map. eapply nth_error_In; eauto.
  - apply dict_none in E; auto; [|exact (wf_num _ W)]. apply not_true_iff_false. now rewrite known_In.
Qed.
Lemma join_nodes ga : wf_net ga -> NoDup (map glabel ga) -> forall gb s, wf_net s -> carries false (all_rows ga) s -> (forall n, In n gb -> length (glabel n) < 100) ->
  exists s', foldM (fun s n => match dict_find (MakeLabelDict ga) (glabel n) with None => do (_, s) <- CreateNodeGraph s (glabel n); Ok s | Some _ => Ok s end) s gb = Ok s' /\
    wf_net s' /\ carries false (all_rows ga) s' /\ map glabel s' = map glabel s ++ fresh_labels ga (map glabel gb).
Proof.
  intros Wa Da. induction gb as [|n gb IH]; intros s W C L; cbn [foldM map]. { exists s. splits; auto. now rewrite app_nil_r. }
  unfold fresh_labels. cbn [filter]. fold (fresh_labels ga (map glabel gb)).
  rewrite known_dict by auto. destruct (dict_find (MakeLabelDict ga) (glabel n)) as [p|] eqn:E; cbn [negb].
  - cbn [bind]. apply IH; auto; intros; apply L; simpl; auto.
  - apply dict_none in E; auto; [|exact (wf_num _ Wa)]. rewrite Create_ok by (auto; apply L; simpl; auto). cbn [bind].
    destruct (IH (s ++ [bare (glabel n) (length s)])) as (s' & E1 & W' & C' & L'); [now apply wf_snoc| |intros; apply L; simpl; auto|].
    + apply carries_snoc; auto. intros a c w H. apply net_rows_In in H as (x & y & Hw & -> & ->); auto. assert (Hn : In y (nbrs ga x)) by (apply nbrs_weight; congruence). destruct (nbrs_lt ga x y Wa Hn).
      assert (In_label : forall z, z < length ga -> In (label_of ga z) (map glabel ga)). { intros z Hz. destruct (nth_ex ga z Hz) as [m Em]. rewrite (label_of_nth _ _ _ Em). apply in_map. eapply nth_error_In; eauto. }
      split; intros Eq; apply E; rewrite <- Eq; auto.
    + exists s'. splits; auto. rewrite L', map_app, <- app_assoc. reflexivity.
Qed.
Lemma fresh_NoDup ga (labs : list label) : NoDup (map glabel ga) -> NoDup labs -> NoDup (map glabel ga ++ fresh_labels ga labs).
Proof.
  intros D1 D2. apply NoDup_app_iff. splits; auto; [now apply NoDup_filter|]. intros x H1 H2. apply filter_In in H2 as [_ H2]. apply known_In in H1. rewrite H1 in H2. discriminate.
Qed.
Lemma unit_rows_links g i n : wf_net g -> nth_error g i = Some n ->
  map (fun r => (fst r, n1)) (map (fun j => (label_of g i, label_of g j, match weight g i j with Some w => w | None => n0 end)) (nbrs g i)) = map (fun l => (glabel n, llabel l, n1)) (gadj n).
Proof. intros W E. rewrite (net_rows_links g i n W E), map_map. reflexivity. Qed.
Theorem AddTwoNetworks_union ga gb : wf_net ga -> wf_net gb -> NoDup (map glabel ga) -> NoDup (map glabel gb) ->
  (forall n, In n ga \/ In n gb -> length (glabel n) < 100) ->
  exists s, AddTwoNetworks ga gb = Ok s /\ wf_net s /\ map glabel s = map glabel ga ++ fresh_labels ga (map glabel gb) /\
    (forall i j, i < length s -> j < length s -> weight s i j = rows_weight false (all_rows ga ++ unit_rows gb) (label_of s i) (label_of s j)).
Proof.
  intros Wa Wb Da Db L. unfold AddTwoNetworks. rewrite CopyNetwork_copy by auto. cbn [bind].
  destruct (join_nodes ga Wa Da gb (net_copy ga) (net_copy_wf _ Wa) (carries_copy false ga Wa Da)) as (s1 & E1 & W1 & C1 & L1); auto. rewrite E1. cbn [bind]. rewrite net_copy_labels in L1.
  assert (D1 : NoDup (map glabel s1)) by (rewrite L1; now apply fresh_NoDup). pose proof (dict_places s1 (wf_num _ W1) D1) as S1.
  assert (Known : forall n, In n gb -> exists p, dict_find (MakeLabelDict s1) (glabel n) = Some p /\ p < length s1 /\ label_of s1 p = glabel n).
  { intros n Hn. destruct (dict_find (MakeLabelDict s1) (glabel n)) as [p|] eqn:E.
    - exists p. apply (sd_find _ _ _ _ S1) in E as [Hp Ep]. apply in_seq in Hp. splits; auto; lia.
    - apply dict_none in E; auto; [|exact (wf_num _ W1)]. destruct E. rewrite L1. apply in_or_app. destruct (known ga (glabel n)) eqn:K; [left; now apply known_In|]. right. apply filter_In. split; [now apply in_map|]. now rewrite K. }
  set (step := fun (n : gnode A) s (l : link A) => do j <- deref (lref l); do m <- get gb j; do p <- deref (dict_find (MakeLabelDict s1) (glabel n)); do q <- deref (dict_find (MakeLabelDict s1) (glabel m)); do (_, s) <- AddAdjacency s p q true false n1 0; Ok s).
  assert (F : forall i n ls s es, nth_error gb i = Some n -> (forall l, In l ls -> In l (gadj n)) -> wf_net s -> same_nodes s1 s -> carries false es s ->
    exists s', foldM (step n) s ls = Ok s' /\ wf_net s' /\ same_nodes s1 s' /\ carries false (es ++ map (fun l => (glabel n, llabel l, n1)) ls) s').
  { intros i n ls. induction ls as [|l ls IH]; intros s es En Hl W N C; cbn [foldM map]. { exists s. splits; auto. now rewrite app_nil_r. }
    destruct (wf_link _ Wb i n l En) as (j & m & E2 & E3 & E4 & E5); [apply Hl; simpl; auto|]. destruct (Known n) as (p & Ep & Lp & Ap); [eapply nth_error_In; eauto|]. destruct (Known m) as (q & Eq & Lq & Aq); [eapply nth_error_In; eauto|].
    unfold step at 1. rewrite E2. cbn [deref bind]. rewrite (get_ok _ _ _ E3). cbn [bind]. rewrite Ep, Eq. cbn [deref bind].
    assert (Sd : whole s (MakeLabelDict s1) (map glabel s1)) by (unfold whole; rewrite <- (same_nodes_length _ _ N); eapply side_nodes; eauto).
    destruct (carries_add false es s _ _ p q (glabel n) (glabel m) n1 true 0 W Sd C) as (r & s' & E6 & W' & N' & C'); auto; try (rewrite <- (same_nodes_length _ _ N); auto); try (rewrite (same_nodes_label _ _ _ N); auto).
    rewrite E6. cbn [bind]. destruct (IH s' (es ++ [(glabel n, glabel m, n1)])) as (s'' & E7 & W'' & N'' & C''); auto; [intros; apply Hl; simpl; auto|eapply same_nodes_trans; eauto|].
    exists s''. splits; auto. rewrite E5. rewrite <- app_assoc in C''. exact C''. }
  assert (G : forall rest k s es, (forall x n, nth_error rest x = Some n -> nth_error gb (k + x) = Some n) -> wf_net s -> same_nodes s1 s -> carries false es s ->
    exists s', foldM (fun s n => foldM (step n) s (gadj n)) s rest = Ok s' /\ wf_net s' /\ same_nodes s1 s' /\
      carries false (es ++ flat_map (fun i => map (fun r : row => (fst r, n1)) (map (fun j => (label_of gb i, label_of gb j, match weight gb i j with Some w => w | None => n0 end)) (nbrs gb i))) (seq k (length rest))) s').
  { induction rest as [|n rest IH]; intros k s es H W N C; cbn [foldM length seq flat_map]. { exists s. splits; auto. now rewrite app_nil_r. }
    assert (En : nth_error gb k = Some n) by (rewrite <- (Nat.add_0_r k); apply (H 0); auto).
    destruct (F k n (gadj n) s es En) as (s' & E2 & W' & N' & C'); auto. rewrite E2. cbn [bind].
    destruct (IH (S k) s' _ (fun x y Hx => eq_trans (f_equal (nth_error gb) (Nat.add_succ_comm k x)) (H (S x) y Hx)) W' N' C') as (s'' & E3 & W'' & N'' & C'').
    exists s''. splits; auto. rewrite unit_rows_links with (n := n) by auto. now rewrite app_assoc. }
  destruct (G gb 0 s1 (all_rows ga)) as (s & E & W & N & C); auto; [apply same_nodes_refl|]. exists s. splits; auto.
  - rewrite <- L1. clear - N. induction N as [|x y l l' (H & _) N IH]; cbn; auto. now rewrite H, IH.
  - intros i j Hi Hj. rewrite (C i j) by auto. f_equal. f_equal. unfold unit_rows, all_rows. rewrite !flat_map_concat_map, concat_map, map_map. reflexivity.
Qed.


(** ** CompareTwoNetworks *)
Lemma has_row_In g a c : has_row g a c = true <-> exists w, In (a, c, w) (all_rows g).
Proof.
  unfold has_row. rewrite existsb_exists. split.
  - intros ([[x y] w] & H & E). apply same_ends_true in E. cbn in E. injection E as -> ->. eauto.
  - intros [w H]. exists (a, c, w). split; auto. now apply same_ends_true.
Qed.
Lemma row_known g a c w : wf_net g -> In (a, c, w) (all_rows g) -> known g a = true /\ known g c = true.
Proof.
  intros W H. apply net_rows_In in H as (x & y & Hw & -> & ->); auto. assert (Hn : In y (nbrs g x)) by (apply nbrs_weight; congruence). destruct (nbrs_lt g x y W Hn) as [Lx Ly].
  rewrite !known_In. destruct (nth_ex g x Lx) as [n En], (nth_ex g y Ly) as [m Em]. rewrite (label_of_nth _ _ _ En), (label_of_nth _ _ _ Em). split; apply in_map; eapply nth_error_In; eauto.
Qed.
Lemma count_links_spec ga gb f (P : label -> label -> bool) : wf_net ga -> wf_net gb -> NoDup (map glabel gb) ->
  (forall x y n m, nth_error gb x = Some n -> nth_error gb y = Some m -> f x y = Ok (if P (glabel n) (glabel m) then 1 else 0)) ->
  count_links ga (MakeLabelDict gb) f = Ok (length (rows_where ga (fun a c => known gb a && known gb c && P a c))).
Proof.
  intros Wa Wb Db Hf. unfold count_links, rows_where, all_rows. set (Q := fun r : row => known gb (fst (fst r)) && known gb (snd (fst r)) && P (fst (fst r)) (snd (fst r))).
  set (step := fun (n : gnode A) k (l : link A) => do j <- deref (lref l); do m <- get ga j; match dict_find (MakeLabelDict gb) (glabel n), dict_find (MakeLabelDict gb) (glabel m) with Some x, Some y => do c <- f x y; Ok (k + c) | _, _ => Ok k end).
  assert (F : forall i n ls k, nth_error ga i = Some n -> (forall l, In l ls -> In l (gadj n)) -> foldM (step n) k ls = Ok (k + length (filter Q (map (fun l => (glabel n, llabel l, lweight l)) ls)))).
  { intros i n ls. induction ls as [|l ls IH]; intros k En Hl; cbn [foldM map filter]. { cbn. now rewrite Nat.add_0_r. }
    destruct (wf_link _ Wa i n l En) as (j & m & E2 & E3 & E4 & E5); [apply Hl; simpl; auto|].
    assert (E : step n k l = Ok (k + if Q (glabel n, llabel l, lweight l) then 1 else 0)).
    { unfold step. rewrite E2. cbn [deref bind]. rewrite (get_ok _ _ _ E3). cbn [bind]. unfold Q. cbn [fst snd]. rewrite E5, !known_dict by auto.
      destruct (dict_find (MakeLabelDict gb) (glabel n)) as [x|] eqn:Ex; [|cbn; now rewrite Nat.add_0_r]. destruct (dict_find (MakeLabelDict gb) (glabel m)) as [y|] eqn:Ey; [|cbn; now rewrite Nat.add_0_r]. cbn [andb].
      apply dict_some in Ex as (nx & Ex & Lx); auto; [|exact (wf_num _ Wb)]. apply dict_some in Ey as (ny & Ey & Ly); auto; [|exact (wf_num _ Wb)]. rewrite (Hf x y nx ny Ex Ey), Lx, Ly. reflexivity. }
    rewrite E. cbn [bind]. rewrite IH by (auto; intros; apply Hl; simpl; auto). destruct (Q (glabel n, llabel l, lweight l)); cbn [length]; f_equal; lia. }
  assert (G : forall rest k t, (forall x n, nth_error rest x = Some n -> nth_error ga (k + x) = Some n) -> foldM (fun t n => foldM (step n) t (gadj n)) t rest =
    Ok (t + length (filter Q (flat_map (fun i => map (fun j => (label_of ga i, label_of ga j, match weight ga i j with Some w => w | None => n0 end)) (nbrs ga i)) (seq k (length rest)))))).
  { induction rest as [|n rest IH]; intros k t H; cbn [foldM length seq flat_map]. { cbn. now rewrite Nat.add_0_r. }
    assert (En : nth_error ga k = Some n) by (rewrite <- (Nat.add_0_r k); apply (H 0); auto).
    rewrite (F k n (gadj n) t En) by auto. cbn [bind]. rewrite (IH (S k)) by (intros x y Hx; rewrite Nat.add_succ_comm; apply (H (S x)); auto).
    rewrite filter_app, app_length, (net_rows_links ga k n Wa En). f_equal. lia. }
  apply (G ga 0 0). auto.
Qed.
Lemma rows_where_ext g P Q : (forall a c w, In (a, c, w) (all_rows g) -> P a c = Q a c) -> rows_where g P = rows_where g Q.
Proof. intros H. unfold rows_where. apply filter_ext_in. intros [[a c] w] Hr. eapply H; eauto. Qed.
Theorem CompareTwoNetworks_counts ga gb : wf_net ga -> wf_net gb -> NoDup (map glabel ga) -> NoDup (map glabel gb) -> exists r, CompareTwoNetworks ga gb = Ok r /\
  nA_nod r = length ga /\ nB_nod r = length gb /\ ncom_nod r = length (filter (known ga) (map glabel gb)) /\
  nA_lin r = Nat.div (length (rows_where ga (fun a c => known gb a && known gb c))) 2 /\
  nB_lin r = Nat.div (length (rows_where gb (fun a c => known ga a && known ga c))) 2 /\
  ncom_lin r = Nat.div (length (rows_where ga (has_row gb))) 2 /\
  p_nAB r = ndiv (nofnat (ncom_nod r)) (nofnat (nB_nod r)) /\ p_nBA r = ndiv (nofnat (ncom_nod r)) (nofnat (nA_nod r)) /\
  p_lAB r = ndiv (nofnat (ncom_lin r)) (nofnat (nB_lin r)) /\ p_lBA r = ndiv (nofnat (ncom_lin r)) (nofnat (nA_lin r)).
Proof.
  intros Wa Wb Da Db. unfold CompareTwoNetworks.
  rewrite (count_links_spec ga gb _ (fun _ _ => true)) by auto. cbn [bind].
  rewrite (count_links_spec ga gb _ (has_row gb)); auto.
  2: { intros x y n m Ex Ey. rewrite IsThereLink_spec by (eapply nth_lt; eauto). cbn [bind]. destruct (in_dec Nat.eq_dec y (nbrs gb x)) as [Hi|Hi].
       - rewrite (proj2 (has_row_In gb (glabel n) (glabel m))); auto. apply nbrs_weight in Hi. destruct (weight gb x y) as [w|] eqn:Ew; [|congruence]. exists w. apply net_rows_In; auto. exists x, y. rewrite (label_of_nth _ _ _ Ex), (label_of_nth _ _ _ Ey). auto.
       - destruct (has_row gb (glabel n) (glabel m)) eqn:Eh; auto. destruct Hi. apply has_row_In in Eh as [w H]. apply net_rows_In in H as (x' & y' & Hw & L1 & L2); auto. rewrite <- (label_of_nth _ _ _ Ex) in L1. rewrite <- (label_of_nth _ _ _ Ey) in L2.
         assert (Hn : In y' (nbrs gb x')) by (apply nbrs_weight; congruence). destruct (nbrs_lt gb x' y' Wb Hn). apply (labels_inj gb) in L1; auto; [|eapply nth_lt; eauto]. apply (labels_inj gb) in L2; auto; [|eapply nth_lt; eauto]. congruence. }
  cbn [bind]. rewrite (count_links_spec gb ga _ (fun _ _ => true)) by auto. cbn [bind]. eexists. split; [reflexivity|]. cbn. splits; auto.
  - rewrite (filter_ext _ (fun n => known ga (glabel n))) by (intros n; rewrite known_dict; auto). clear. induction gb as [|n gb IH]; auto. cbn. destruct (known ga (glabel n)); cbn; auto.
  - apply (f_equal (fun k => Nat.div k 2)), (f_equal (@length _)), rows_where_ext. intros a c w _. now rewrite andb_true_r.
  - apply (f_equal (fun k => Nat.div k 2)), (f_equal (@length _)), rows_where_ext. intros a c w _. now rewrite andb_true_r.
  - apply (f_equal (fun k => Nat.div k 2)), (f_equal (@length _)), rows_where_ext. intros a c w _. destruct (has_row gb a c) eqn:E; [|apply andb_false_r]. apply has_row_In in E as [v H]. apply row_known in H as [-> ->]; auto.
Qed.
Lemma NoDup_fst_filter g P : wf_net g -> NoDup (map glabel g) -> NoDup (map fst (rows_where g P)).
Proof.
  intros W D. pose proof (net_rows_once g W D) as O. unfold rows_where. induction (all_rows g) as [|r l IH]; cbn [filter map]; [constructor|]. cbn [map] in O. inversion O as [|? ? N1 N2]; subst.
  destruct (P _ _); auto. cbn [map]. constructor; auto. intros H. apply N1. apply in_map_iff in H as (r' & E & Hr'). apply filter_In in Hr' as [Hr' _]. rewrite <- E. now apply in_map.
Qed.
Lemma fst_rows g P a c : In (a, c) (map fst (rows_where g P)) <-> has_row g a c = true /\ P a c = true.
Proof.
  rewrite in_map_iff, has_row_In. split.
  - intros ([[x y] w] & E & H). cbn in E. injection E as -> ->. apply filter_In in H as [H1 H2]. eauto.
  - intros [[w H] HP]. exists (a, c, w). split; auto. apply filter_In. auto.
Qed.
(** The two comparisons of two networks find the same nodes and links in common. *)
Theorem common_symmetric ga gb : wf_net ga -> wf_net gb -> NoDup (map glabel ga) -> NoDup (map glabel gb) ->
  length (filter (known ga) (map glabel gb)) = length (filter (known gb) (map glabel ga)) /\
  length (rows_where ga (has_row gb)) = length (rows_where gb (has_row ga)).
Proof.
  intros Wa Wb Da Db. split.
  - apply Permutation_length. apply NoDup_Permutation; try now apply NoDup_filter. intros x. rewrite !filter_In, !known_In. tauto.
  - rewrite <- (map_length fst (rows_where ga _)), <- (map_length fst (rows_where gb _)). apply Permutation_length. apply NoDup_Permutation; try now apply NoDup_fst_filter. intros [a c]. rewrite !fst_rows. tauto.
Qed.
Lemma filter_split {X} (f : X -> bool) l : length (filter f l) + length (filter (fun x => negb (f x)) l) = length l.
Proof. induction l as [|x l IH]; auto. cbn. destruct (f x); cbn; lia. Qed.
(** Between distinct nodes of an undirected network rows come in pairs. *)
Lemma pairs_even (l : list (label * label)) : NoDup l -> (forall a c, In (a, c) l -> In (c, a) l /\ a <> c) -> exists k, length l = 2 * k.
Proof.
  intros ND H. exists (length (filter (fun p => strcmp_le (fst p) (snd p)) l)).
  assert (E : length (filter (fun p => strcmp_le (fst p) (snd p)) l) = length (filter (fun p => negb (strcmp_le (fst p) (snd p))) l)).
  { rewrite <- (map_length (fun p : label * label => (snd p, fst p)) (filter (fun p => strcmp_le _ _) l)). apply Permutation_length. apply NoDup_Permutation; [|now apply NoDup_filter|].
    - apply FinFun.Injective_map_NoDup; [|now apply NoDup_filter]. intros [a c] [a' c'] E. cbn in E. congruence.
    - intros [a c]. rewrite in_map_iff, filter_In. split.
      + intros ([x y] & E & Hx). cbn in E. injection E as -> ->. apply filter_In in Hx as [Hx Hs]. cbn in *. destruct (H _ _ Hx) as [Hs' N]. split; auto. apply negb_true_iff. apply not_true_iff_false. intros Hl. apply N. apply lex_anti; now apply strcmp_lex.
      + intros [Hx Hs]. cbn in *. destruct (H _ _ Hx) as [Hs' N]. exists (c, a). split; auto. apply filter_In. split; auto. cbn. apply strcmp_lex. destruct (lex_total c a) as [L|L]; auto. apply strcmp_lex in L. rewrite L in Hs. discriminate. }
  pose proof (filter_split (fun p => strcmp_le (fst p) (snd p)) l). lia.
Qed.
Theorem pairs_of_rows g P : undirected g -> NoDup (map glabel g) -> (forall a c, P a c = P c a) -> 2 * Nat.div (length (rows_where g P)) 2 = length (rows_where g P).
Proof.
  intros U D HP. pose proof (un_wf _ U) as W. destruct (pairs_even (map fst (rows_where g P))) as [k E]; [now apply NoDup_fst_filter| |].
  - intros a c H. apply fst_rows in H as [H1 H2]. apply has_row_In in H1 as [w H1]. apply net_rows_In in H1 as (x & y & Hw & -> & ->); auto. split.
    + apply fst_rows. split; [|now rewrite HP]. apply has_row_In. exists w. apply net_rows_In; auto. exists y, x. rewrite (un_sym _ U). auto.
    + intros El. assert (Hn : In y (nbrs g x)) by (apply nbrs_weight; congruence). destruct (nbrs_lt g x y W Hn). apply (labels_inj g) in El; auto. subst. eapply un_loop; eauto.
  - rewrite map_length in E. rewrite E, (Nat.mul_comm 2 k), Nat.div_mul by lia. lia.
Qed.

(** ** RemoveIsolatedNodes *)
Lemma busy_NoDup g : NoDup (busy g).
Proof. apply NoDup_filter, seq_NoDup. Qed.
Lemma busy_In g i : In i (busy g) <-> i < length g /\ nbrs g i <> [].
Proof.
  unfold busy. rewrite filter_In, in_seq, negb_true_iff, Nat.eqb_neq. unfold degree. split; intros [H1 H2]; (split; [lia|]).
  - intros E. rewrite E in H2. auto.
  - destruct (nbrs g i); [congruence|discriminate].
Qed.
Lemma degrees_pass g : wf_net g -> exists g', foldM (fun '(kept, g) i => do (k, g) <- NodeDegree g i; Ok (if k =? 0 then kept else kept ++ [i], g)) ([], g) (seq 0 (length g)) = Ok (busy g, g') /\ same_links g g'.
Proof.
  intros W. unfold busy.
  assert (H : forall l kept g0, same_links g g0 -> (forall i, In i l -> i < length g) -> exists g', foldM (fun '(kept, g) i => do (k, g) <- NodeDegree g i; Ok (if k =? 0 then kept else kept ++ [i], g)) (kept, g0) l =
    Ok (kept ++ filter (fun i => negb (degree g i =? 0)) l, g') /\ same_links g g').
  { induction l as [|i l IH]; intros kept g0 Hs Hl; cbn [foldM filter]. { exists g0. now rewrite app_nil_r. }
    pose proof Hs as (W0 & S0 & N0 & _). destruct (NodeDegree_spec g0 i W0) as (g1 & E1 & Hs1). { rewrite <- (same_nodes_length _ _ S0). apply Hl; simpl; auto. }
    rewrite E1. cbn [bind]. rewrite (same_links_degree g g0 i Hs). destruct (IH (if degree g i =? 0 then kept else kept ++ [i]) g1) as (g' & E & Hs'); [eapply same_links_trans; eauto|intros; apply Hl; simpl; auto|].
    exists g'. split; auto. rewrite E. destruct (degree g i =? 0); cbn [negb]; auto. now rewrite <- app_assoc. }
  destruct (H (seq 0 (length g)) [] g (same_links_refl g W)) as (g' & E & Hs); eauto. intros i Hi. apply in_seq in Hi. lia.
Qed.
Definition cut (ks : list nat) (l : link A) : link A :=
  match lref l with Some j => mkLink (lnode l) (llabel l) (lstatus l) (shift ks j) (lbtw l) (lweight l) | None => l end.
Definition hard (l : link A) : link A := mkLink (match lref l with Some k => k | None => 0 end) (llabel l) (lstatus l) (lref l) (lbtw l) (lweight l).
Theorem RemoveIsolatedNodes_removes g : wf_net g -> (forall i j, In j (nbrs g i) -> nbrs g j <> []) ->
  exists g', RemoveIsolatedNodes g = Ok (length g - length (busy g), g') /\ induced g (busy g) g'.
Proof.
  intros W H. unfold RemoveIsolatedNodes. destruct (degrees_pass g W) as (g1 & E1 & W1 & N1 & Nb1 & Wt1). rewrite E1. cbn [bind]. set (ks := busy g).
  assert (ND : NoDup ks) by apply busy_NoDup. assert (Len : length g1 = length g) by (symmetry; now apply same_nodes_length).
  assert (Hk : forall i, In i ks -> i < length g1) by (intros i Hi; apply busy_In in Hi; lia).
  rewrite (mapM_ok _ (fun i => set_gadj (map (cut ks) (gadj (node_at g1 i))) (node_at g1 i))).
  2: { intros i Hi. destruct (nth_ex g1 i (Hk i Hi)) as [n En]. rewrite (get_ok _ _ _ En), (node_at_ok _ _ _ En). cbn [bind]. rewrite (mapM_ok _ (cut ks)); auto. intros l Hl.
       destruct (wf_link _ W1 i n l En Hl) as (j & m & E2 & E3 & E4 & E5). rewrite E2. cbn [deref bind]. unfold cut. rewrite E2. destruct (shift ks j) as [k|] eqn:Es; auto. apply shift_none in Es; auto. destruct Es. apply busy_In.
       assert (Hj : In j (nbrs g i)) by (rewrite <- Nb1, (nbrs_eq _ _ _ En); apply targets_In; eauto). split; [apply nbrs_lt in Hj; tauto|eauto]. }
  cbn [bind]. unfold RenumberNodes. rewrite map_length.
  set (r1 := map (fun p => set_gnum (fst p) (snd p)) (combine _ _)).
  assert (R1 : forall x i n, nth_error ks x = Some i -> nth_error g1 i = Some n -> nth_error r1 x = Some (set_gnum x (set_gadj (map (cut ks) (gadj n)) n))).
  { intros x i n Ex En. unfold r1. rewrite nth_error_map. rewrite (nth_combine _ _ x x (set_gadj (map (cut ks) (gadj n)) n)); auto.
    - rewrite nth_seq. rewrite (proj2 (Nat.ltb_lt _ _) (nth_lt _ _ _ Ex)). auto.
    - rewrite nth_error_map, Ex. cbn. now rewrite (node_at_ok _ _ _ En). }
  assert (Lr : length r1 = length ks) by (unfold r1; rewrite map_length, combine_length, seq_length, map_length; lia).
  rewrite (mapM_ok _ (fun n => set_gadj (map hard (gadj n)) n)).
  2: { intros n Hn. rewrite (mapM_ok _ hard); auto. intros l Hl. apply In_nth_error in Hn as [x Ex]. destruct (nth_ex ks x) as [i Ei]; [rewrite <- Lr; eapply nth_lt; eauto|]. destruct (nth_ex g1 i) as [m Em]; [apply Hk; eapply nth_error_In; eauto|].
       rewrite (R1 _ _ _ Ei Em) in Ex. injection Ex as <-. cbn in Hl. apply in_map_iff in Hl as (l0 & <- & Hl). destruct (wf_link _ W1 i m l0 Em Hl) as (j & mj & E2 & E3 & E4 & E5). unfold cut. rewrite E2. unfold hard. cbn [lref].
       destruct (shift ks j) as [k|] eqn:Es. 2: { apply shift_none in Es; auto. destruct Es. apply busy_In. assert (Hj : In j (nbrs g i)) by (rewrite <- Nb1, (nbrs_eq _ _ _ Em); apply targets_In; eauto). split; [apply nbrs_lt in Hj; tauto|eauto]. }
       cbn [deref bind]. apply shift_spec in Es; auto. rewrite (get_ok _ _ _ (R1 _ _ _ Es E3)). reflexivity. }
  cbn [bind]. eexists. split; [rewrite Len; reflexivity|].
  assert (I : induced g1 ks (map (fun n => set_gadj (map hard (gadj n)) n) r1)).
  { apply induced_by; auto; [rewrite map_length; auto|]. intros x i n Ei En. eexists. split; [rewrite nth_error_map, (R1 _ _ _ Ei En); reflexivity|]. cbn. splits; auto.
    - rewrite !map_length. eapply wf_deg; eauto.
    - exists (@lbtw A). assert (Hr : forall l, In l (gadj n) -> exists j k, lref l = Some j /\ shift ks j = Some k).
      { intros l Hl. destruct (wf_link _ W1 i n l En Hl) as (j & mj & E2 & E3 & E4 & E5). exists j. destruct (shift ks j) as [k|] eqn:Es; [eauto|]. apply shift_none in Es; auto. destruct Es. apply busy_In.
        assert (Hj : In j (nbrs g i)) by (rewrite <- Nb1, (nbrs_eq _ _ _ En); apply targets_In; eauto). split; [apply nbrs_lt in Hj; tauto|eauto]. }
      revert Hr. induction (gadj n) as [|l ls IH]; intros Hr; auto. cbn [map flat_map]. rewrite <- IH by (intros; apply Hr; simpl; auto). destruct (Hr l) as (j & k & E2 & Es); [simpl; auto|]. unfold shrink, cut, hard. rewrite E2. cbn [lref]. rewrite Es. reflexivity. }
  destruct I as [I1 I2 I3]. split; auto.
  - rewrite I2. apply map_ext. intros i. now apply same_nodes_label.
  - intros x y i j Ex Ey. rewrite (I3 x y i j Ex Ey). apply Wt1.
Qed.
Theorem RemoveIsolatedNodes_frees g i j : wf_net g -> In j (nbrs g i) -> nbrs g j = [] -> RemoveIsolatedNodes g = Err UB_free.
Proof.
  intros W Hj Ej. unfold RemoveIsolatedNodes. destruct (degrees_pass g W) as (g1 & E1 & W1 & N1 & Nb1 & Wt1). rewrite E1. cbn [bind].
  assert (ND : NoDup (busy g)) by apply busy_NoDup. assert (Len : length g1 = length g) by (symmetry; now apply same_nodes_length).
  assert (Lk : forall x n l, nth_error g1 x = Some n -> In l (gadj n) ->
    (do j <- deref (lref l); match shift (busy g) j with Some k => Ok (mkLink (lnode l) (llabel l) (lstatus l) (Some k) (lbtw l) (lweight l)) | None => Err UB_free end) =
    match lref l with Some j => match shift (busy g) j with Some k => Ok (mkLink (lnode l) (llabel l) (lstatus l) (Some k) (lbtw l) (lweight l)) | None => Err UB_free end | None => Err UB_free end).
  { intros x n l En Hl. destruct (wf_link _ W1 x n l En Hl) as (k & mk & E2 & _). now rewrite E2. }
  rewrite (mapM_err _ UB_free); auto.
  - intros x Hx. apply busy_In in Hx as [Lx _]. rewrite <- Len in Lx. destruct (nth_ex g1 x Lx) as [n En]. rewrite (get_ok _ _ _ En). cbn [bind].
    assert (C : forall ls, (forall l, In l ls -> In l (gadj n)) -> (exists y, mapM (fun l => do j <- deref (lref l); match shift (busy g) j with Some k => Ok (mkLink (lnode l) (llabel l) (lstatus l) (Some k) (lbtw l) (lweight l)) | None => Err UB_free end) ls = Ok y) \/ mapM (fun l => do j <- deref (lref l); match shift (busy g) j with Some k => Ok (mkLink (lnode l) (llabel l) (lstatus l) (Some k) (lbtw l) (lweight l)) | None => Err UB_free end) ls = Err UB_free).
    { induction ls as [|l ls IH]; intros Hs; [left; eexists; reflexivity|]. cbn [mapM]. rewrite (Lk x n l En) by (apply Hs; simpl; auto). destruct (lref l) as [k|]; auto. destruct (shift (busy g) k); auto. cbn [bind].
      destruct (IH (fun l0 H0 => Hs l0 (or_intror H0))) as [[y Ey]|Ey]; rewrite Ey; cbn [bind]; eauto. }
    destruct (C (gadj n)) as [[y Ey]|Ey]; auto; rewrite Ey; cbn [bind]; eauto.
  - destruct (nbrs_lt g i j W Hj) as [Li Lj]. exists i. split; [apply busy_In; split; auto; intros E; rewrite E in Hj; destruct Hj|]. rewrite <- Len in Li. destruct (nth_ex g1 i Li) as [n En]. rewrite (get_ok _ _ _ En). cbn [bind].
    rewrite (mapM_err _ UB_free); auto.
    + intros l Hl. rewrite (Lk i n l En Hl). destruct (lref l) as [k|]; auto. destruct (shift (busy g) k); eauto.
    + rewrite <- Nb1, (nbrs_eq _ _ _ En) in Hj. apply targets_In in Hj as (l & Hl & El). exists l. split; auto. rewrite (Lk i n l En Hl), El. rewrite (proj2 (shift_none (busy g) j ND)); auto. rewrite busy_In. intros [_ Hb]. congruence.
Qed.
End Join.

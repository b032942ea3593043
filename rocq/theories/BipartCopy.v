(** BipartCopy.v -- copying bipartite networks; what FPrintBipart writes and FBuildNetworkBipart reads again. *)
From Coq Require Import List Arith Lia Ascii Bool Permutation QArith.
From Verif Require Import Base Num ListLib NatSum IoModel IoSpec IoProof GraphModel GraphSpec GraphProof BipartModel BipartSpec BipartRen BipartMem BipartProj BipartFile.
Import ListNotations.
Local Open Scope nat_scope.

Section Copy.
Context {A : Type} {ops : NumOps A}.
Implicit Types (g m : net A) (b : binet A).
Notation row := (label * label * A)%type.

(** ** Rows of a network *)
Lemma weight_link (ls : list (link A)) l j : NoDup (targets ls) -> In l ls -> lref l = Some j -> weight_in ls j = Some (lweight l).
Proof.
  induction ls as [|x ls IH]; intros ND Hl E; [destruct Hl|]. rewrite weight_in_cons. destruct Hl as [->|Hl].
  - unfold eq_ref. now rewrite E, Nat.eqb_refl.
  - unfold targets in ND. cbn in ND. assert (Hj : In j (targets ls)) by (unfold targets; apply in_flat_map; exists l; rewrite E; simpl; auto). unfold eq_ref. destruct (lref x) as [k|]; cbn in ND.
    + inversion ND as [|? ? N1 N2]; subst. destruct (Nat.eqb_spec k j) as [->|]; [destruct (N1 Hj)|]. apply IH; auto.
    + apply IH; auto.
Qed.
Lemma rows_links b i n : bipartite b -> nth_error (bmem b) i = Some n ->
  map (fun j => (label_of (bmem b) i, label_of (bmem b) j, match weight (bmem b) i j with Some w => w | None => n0 end)) (nbrs (bmem b) i) =
  map (fun l => (glabel n, llabel l, lweight l)) (gadj n).
Proof.
  intros B En. unfold nbrs at 1. rewrite En. pose proof (bi_once _ B i) as ND. unfold nbrs in ND. rewrite En in ND.
  assert (G : forall ls, (forall l, In l ls -> In l (gadj n)) -> map (fun j => (label_of (bmem b) i, label_of (bmem b) j, match weight (bmem b) i j with Some w => w | None => n0 end)) (targets ls) = map (fun l => (glabel n, llabel l, lweight l)) ls); [|apply G; auto].
  induction ls as [|l ls IH]; intros Hs; auto. destruct (bi_link _ B i n l En) as (j & m & E1 & E2 & E3 & E4); [apply Hs; simpl; auto|]. unfold targets. cbn. rewrite E1. cbn. f_equal.
  - rewrite (weight_eq _ _ _ _ En), (weight_link (gadj n) l j ND); auto; [|apply Hs; simpl; auto]. unfold label_of. now rewrite En, E2, E4.
  - apply IH. intros; apply Hs; simpl; auto.
Qed.
Lemma rows_In b a c w : bipartite b -> (In (a, c, w) (rows_of b) <-> exists i j, In i (bset1 b) /\ weight (bmem b) i j = Some w /\ a = label_of (bmem b) i /\ c = label_of (bmem b) j).
Proof.
  intros B. unfold rows_of. rewrite in_flat_map. split.
  - intros (i & Hi & H). apply in_map_iff in H as (j & E & Hj). injection E as <- <- <-. exists i, j. apply nbrs_weight in Hj. destruct (weight (bmem b) i j); [|congruence]. auto.
  - intros (i & j & Hi & Hw & -> & ->). exists i. split; auto. apply in_map_iff. exists j. rewrite Hw. split; auto. apply nbrs_weight. congruence.
Qed.
Definition distinct m s := NoDup (map (label_of m) s).
Lemma distinct_inj m s i j : distinct m s -> In i s -> In j s -> label_of m i = label_of m j -> i = j.
Proof.
  unfold distinct. induction s as [|x s IH]; intros ND Hi Hj E; [destruct Hi|]. cbn in ND. inversion ND as [|? ? N1 N2]; subst. destruct Hi as [->|Hi], Hj as [->|Hj]; auto.
  - exfalso. apply N1. rewrite E. now apply in_map.
  - exfalso. apply N1. rewrite <- E. now apply in_map.
Qed.
Lemma cross2 b i j : bipartite b -> In i (bset1 b) -> weight (bmem b) i j <> None -> In j (bset2 b).
Proof.
  intros B Hi Hw. apply nbrs_weight in Hw. destruct (bi_cross _ B _ _ Hw) as [[_ H]|[H _]]; auto. destruct (bi_disjoint b i B Hi H).
Qed.
Lemma rows_weight_const add (es : list row) a c w : (exists w', In (a, c, w') es) -> (forall w', In (a, c, w') es -> w' = w) -> NoDup (map fst es) -> rows_weight add es a c = Some w.
Proof.
  intros (w' & Hin) Hw ND. rewrite (Hw _ Hin) in Hin. clear w'. unfold rows_weight.
  assert (E : filter (same_ends a c) es = [(a, c, w)]).
  { revert Hin Hw ND. induction es as [|[[x y] v] es IH]; intros Hin Hw ND; [destruct Hin|]. cbn [map fst] in ND. inversion ND as [|? ? N1 N2]; subst. cbn [filter].
    destruct (same_ends a c (x, y, v)) eqn:Es.
    - apply same_ends_true in Es. cbn in Es. injection Es as -> ->. f_equal; [f_equal; apply Hw; simpl; auto|].
      destruct (filter (same_ends a c) es) as [|r l] eqn:Ef; auto. exfalso. assert (Hr : In r (filter (same_ends a c) es)) by (rewrite Ef; simpl; auto).
      apply filter_In in Hr as [Hr Hs]. apply same_ends_true in Hs. apply N1. rewrite <- Hs. now apply in_map.
    - destruct Hin as [Hin|Hin]. { injection Hin as -> -> ->. rewrite (proj2 (same_ends_true a c (a, c, w)) eq_refl) in Es. discriminate. }
      apply IH; auto. intros w' H'. apply Hw. simpl. auto. }
  rewrite E. cbn. now destruct add.
Qed.
Lemma NoDup_flat_map {X Y} (f : X -> list Y) l : NoDup l -> (forall x, In x l -> NoDup (f x)) -> (forall x x' y, In x l -> In x' l -> In y (f x) -> In y (f x') -> x = x') -> NoDup (flat_map f l).
Proof.
  induction l as [|x l IH]; intros ND H1 H2; simpl; [constructor|]. inversion ND as [|? ? N1 N2]; subst. apply NoDup_app_iff. splits.
  - apply H1; simpl; auto.
  - apply IH; auto; [intros; apply H1; simpl; auto|]. intros; eapply H2; simpl; eauto.
  - intros y Hy Hy'. apply in_flat_map in Hy' as (x' & Hx' & Hy'). assert (x = x') by (eapply H2; simpl; eauto). subst. auto.
Qed.
Lemma rows_once b : bipartite b -> distinct (bmem b) (bset1 b) -> distinct (bmem b) (bset2 b) -> NoDup (map fst (rows_of b)).
Proof.
  intros B D1 D2. unfold rows_of. rewrite flat_map_concat_map, concat_map, map_map, <- flat_map_concat_map.
  apply NoDup_flat_map.
  - apply (NoDup_map_inv (label_of (bmem b))). exact D1.
  - intros i Hi. rewrite map_map. cbn. pose proof (bi_once _ B i) as ND.
    assert (Hs : forall j, In j (nbrs (bmem b) i) -> In j (bset2 b)) by (intros j Hj; apply (cross2 b i j B Hi); now apply nbrs_weight).
    revert ND Hs. induction (nbrs (bmem b) i) as [|j l IH]; intros ND Hs; cbn; constructor; inversion ND as [|? ? N1 N2]; subst.
    + intros H. apply in_map_iff in H as (k & E & Hk). injection E as E. apply (distinct_inj _ _ _ _ D2) in E; try (apply Hs; simpl; auto). subst. auto.
    + apply IH; auto. intros; apply Hs; simpl; auto.
  - intros i i' y Hi Hi' Hy Hy'. rewrite map_map in Hy, Hy'. apply in_map_iff in Hy as (j & <- & _). apply in_map_iff in Hy' as (j' & E & _). cbn in E. injection E as E _. apply (distinct_inj (bmem b) (bset1 b)); auto.
Qed.
Lemma rows_weights add b i j : bipartite b -> distinct (bmem b) (bset1 b) -> distinct (bmem b) (bset2 b) -> In i (bset1 b) -> In j (bset2 b) ->
  rows_weight add (rows_of b) (label_of (bmem b) i) (label_of (bmem b) j) = weight (bmem b) i j.
Proof.
  intros B D1 D2 Hi Hj.
  assert (U : forall w, In (label_of (bmem b) i, label_of (bmem b) j, w) (rows_of b) -> weight (bmem b) i j = Some w).
  { intros w Hw. apply rows_In in Hw as (i' & j' & Hi' & Hw & E1 & E2); auto. apply (distinct_inj _ _ _ _ D1) in E1; auto. subst i'.
    apply (distinct_inj _ _ _ _ D2) in E2; auto; [congruence|]. apply (cross2 b i j' B Hi). congruence. }
  destruct (weight (bmem b) i j) as [w|] eqn:Ew.
  - apply rows_weight_const; [|intros w' Hw'; apply U in Hw'; congruence|now apply rows_once]. exists w. apply rows_In; auto. exists i, j. auto.
  - apply rows_weight_none. intros w Hw. apply U in Hw. discriminate.
Qed.

(** ** CopyBipart *)
Definition twin (n : gnode A) : gnode A := mkNode (glabel n) (gnum n) (gstate n) [] (ggroup n) (gdvar n) 0 n0.
Definition node_at m i : gnode A := nth i m (mkNode [] 0 0 [] None n0 0 n0).
Lemma node_at_ok m i n : nth_error m i = Some n -> node_at m i = n.
Proof. intros E. unfold node_at. now apply nth_error_nth. Qed.
Lemma copy_side_spec b l : (forall k i, nth_error l k = Some i -> exists n, nth_error (bmem b) i = Some n /\ gnum n = k /\ length (glabel n) < 100) -> forall g,
  copy_side b g l = Ok (g ++ map (fun i => twin (node_at (bmem b) i)) l, seq (length g) (length l), rev (combine (map (label_of (bmem b)) l) (seq (length g) (length l)))).
Proof.
  induction l as [|i l IH] using rev_ind; intros H g. { cbn. now rewrite app_nil_r. }
  unfold copy_side in *. rewrite foldM_app, IH. 2: { intros k x E. apply H. rewrite nth_error_app1; auto. eapply nth_lt; eauto. }
  destruct (H (length l) i) as (n & En & Nn & Ln); [rewrite nth_error_app2, Nat.sub_diag by lia; reflexivity|].
  cbn [bind foldM]. rewrite (get_ok _ _ _ En). cbn [bind]. unfold CreateNodeAt, store_label, max_label. rewrite (proj2 (Nat.ltb_lt _ _) Ln). cbn [check bind].
  set (m := g ++ map _ l). assert (Lm : length m = length g + length l) by (unfold m; rewrite app_length, map_length; auto).
  assert (Ek : exists num, match match rev (seq (length g) (length l)) with [] => None | k :: _ => Some k end with None => Ok 0 | Some k => do x <- get m k; Ok (gnum x + 1) end = Ok num).
  { destruct (match rev (seq (length g) (length l)) with [] => None | k :: _ => Some k end) as [k|] eqn:Ek; eauto. apply last_of in Ek as [s Es].
    assert (Hk : In k (seq (length g) (length l))) by (rewrite Es; apply in_or_app; simpl; auto). apply in_seq in Hk. destruct (nth_ex m k) as [x Ex]; [lia|]. rewrite (get_ok _ _ _ Ex). cbn [bind]. eauto. }
  destruct Ek as [num ->]. cbn [bind]. unfold upd_node. 
  rewrite (get_ok (m ++ [mkNode (glabel n) num 0 [] None (nofQ (-1 # 1)) 0 n0]) (length m) (mkNode (glabel n) num 0 [] None (nofQ (-1 # 1)) 0 n0)) by (rewrite nth_error_app2, Nat.sub_diag by lia; reflexivity). cbn [bind]. rewrite set_ok by (rewrite app_length; simpl; lia). cbn [bind].
  rewrite app_length. simpl length. rewrite Nat.add_1_r, seq_S, !map_app. cbn [map]. rewrite combine_snoc by (rewrite map_length, seq_length; auto). rewrite rev_app_distr. cbn [rev app].
  rewrite <- Lm. replace (label_of (bmem b) i) with (glabel n) by (unfold label_of; now rewrite En). do 3 f_equal.
  rewrite app_assoc. fold m. rewrite (node_at_ok _ _ _ En). unfold copy_fields. cbn [glabel gadj gdeg gstr]. fold (twin n). generalize (mkNode (glabel n) num 0 [] None (nofQ (-1 # 1)) 0 n0). intros x. generalize (twin n). clear. intros y.
  induction m as [|z m IH]; simpl; [auto|]. now rewrite IH.
Qed.
Lemma nth_seq a n i : nth_error (seq a n) i = if i <? n then Some (a + i) else None.
Proof. destruct (Nat.ltb_spec i n) as [L|L]; [now apply ListLib.nth_error_seq|]. apply nth_error_None. now rewrite seq_length. Qed.
Lemma nth_combine {X Y} (l : list X) : forall (l' : list Y) i x y, nth_error l i = Some x -> nth_error l' i = Some y -> nth_error (combine l l') i = Some (x, y).
Proof. induction l as [|a l IH]; intros [|a' l'] [|i] x y E E'; try discriminate; cbn in *; [congruence|]. now apply IH. Qed.
(** The dictionary of labels copied to the places from [k] on. *)
Lemma side_place m (labs : list label) k d : NoDup labs -> (forall x lab, nth_error labs x = Some lab -> exists n, nth_error m (k + x) = Some n /\ glabel n = lab /\ gnum n = x) ->
  d = rev (combine labs (seq k (length labs))) -> side m (seq k (length labs)) d labs.
Proof.
  intros ND H ->. assert (Hl : map (label_of m) (seq k (length labs)) = labs).
  { apply nth_ext_eq. intros x. rewrite nth_error_map, nth_seq. destruct (Nat.ltb_spec x (length labs)) as [L|L]; cbn.
    - destruct (nth_ex labs x L) as [lab E]. destruct (H x lab E) as (n & E1 & <- & _). rewrite E. unfold label_of. now rewrite E1.
    - symmetry. now apply nth_error_None. }
  split; auto.
  - intros x i n Ex Ei. rewrite nth_seq in Ex. destruct (Nat.ltb_spec x (length labs)) as [L|L]; [|discriminate]. injection Ex as <-. destruct (nth_ex labs x L) as [lab E]. destruct (H x lab E) as (n' & E1 & _ & En). congruence.
  - intros i Hi. apply in_seq in Hi. destruct (nth_ex labs (i - k)) as [lab E]; [lia|]. destruct (H _ _ E) as (n & En & _). replace (k + (i - k)) with i in En by lia. eapply nth_lt; eauto.
  - intros lab p. assert (ND' : NoDup (map fst (rev (combine labs (seq k (length labs)))))).
    { rewrite map_rev. apply NoDup_rev. rewrite <- (map_fst_combine labs (seq k (length labs))) in ND; auto. now rewrite seq_length. }
    rewrite dict_find_In by auto. rewrite <- in_rev. split.
    + intros Hin. apply In_nth_error in Hin as [x Ex]. assert (L : x < length labs) by (pose proof (nth_lt _ _ _ Ex) as L; rewrite combine_length in L; lia).
      destruct (nth_ex labs x L) as [lab' E]. assert (E2 : nth_error (combine labs (seq k (length labs))) x = Some (lab', k + x)) by (apply nth_combine; auto; rewrite nth_seq, (proj2 (Nat.ltb_lt _ _) L); auto).
      rewrite Ex in E2. injection E2 as -> ->. split; [apply in_seq; lia|]. destruct (H x lab' E) as (n & En & El & _). unfold label_of. now rewrite En.
    + intros [Hp Hlab]. apply in_seq in Hp. apply (nth_error_In _ (p - k)). apply nth_combine.
      * destruct (nth_ex labs (p - k)) as [lab' E]; [lia|]. destruct (H _ _ E) as (n & En & El & _). replace (k + (p - k)) with p in En by lia. unfold label_of in Hlab. rewrite En in Hlab. congruence.
      * rewrite nth_seq, (proj2 (Nat.ltb_lt _ _)) by lia. f_equal. lia.
Qed.
Record linked (es : list row) m s1 s2 d1 d2 labs1 labs2 : Prop := {
  lk_simple : simple m;
  lk_apart : forall i, In i s1 -> In i s2 -> False;
  lk_cross : forall i j, In j (nbrs m i) -> In i s1 /\ In j s2 \/ In i s2 /\ In j s1;
  lk_side1 : side m s1 d1 labs1;
  lk_side2 : side m s2 d2 labs2;
  lk_weight : forall i j, In i s1 -> In j s2 -> weight m i j = rows_weight false es (label_of m i) (label_of m j)
}.
Lemma link_step es m s1 s2 d1 d2 labs1 labs2 a c w : linked es m s1 s2 d1 d2 labs1 labs2 -> In a labs1 -> In c labs2 ->
  exists p q r1 r2 m1 m2, dict_find d1 a = Some p /\ dict_find d2 c = Some q /\ AddAdjacency m p q false false w 0 = Ok (r1, m1) /\ AddAdjacency m1 q p false false w 0 = Ok (r2, m2) /\
    same_nodes m m2 /\ linked (es ++ [(a, c, w)]) m2 s1 s2 d1 d2 labs1 labs2.
Proof.
  intros [G1 Dj G3 G4 G5 G6] Ha Hc. rewrite <- (sd_labs _ _ _ _ G4) in Ha. rewrite <- (sd_labs _ _ _ _ G5) in Hc.
  apply in_map_iff in Ha as (p & Lp & Ip). apply in_map_iff in Hc as (q & Lq & Iq). exists p, q.
  assert (Hpq : p <> q) by (intros ->; eauto).
  destruct (add_both_mem m p q false w 0 0 G1) as (r1 & r2 & m1 & m2 & E1 & E2 & S2 & N2 & W2); auto; [apply (sd_lt _ _ _ _ G4); auto|apply (sd_lt _ _ _ _ G5); auto|].
  exists r1, r2, m1, m2. splits; auto; [now apply (sd_find _ _ _ _ G4)|now apply (sd_find _ _ _ _ G5)|]. split; auto.
  - intros i j Hv. apply nbrs_weight in Hv. rewrite W2 in Hv.
    destruct ((i =? p) && (j =? q) || (i =? q) && (j =? p)) eqn:Eb; [|apply G3; now apply nbrs_weight].
    rewrite orb_true_iff, !andb_true_iff, !Nat.eqb_eq in Eb. destruct Eb as [[-> ->]|[-> ->]]; auto.
  - eapply side_nodes; eauto.
  - eapply side_nodes; eauto.
  - intros i j Hi Hj. rewrite W2, !(same_nodes_label _ _ _ N2), rows_weight_snoc.
    assert (Eb : ((i =? p) && (j =? q) || (i =? q) && (j =? p)) = same_ends (label_of m i) (label_of m j) (a, c, w)).
    { apply eq_true_iff_eq. rewrite same_ends_true. cbn. rewrite orb_true_iff, !andb_true_iff, !Nat.eqb_eq. split.
      - intros [[-> ->]|[-> ->]]; [congruence|exfalso; eauto].
      - intros [= K1 K3]. left. split; [eapply (side_inj _ _ _ _ _ _ G4)|eapply (side_inj _ _ _ _ _ _ G5)]; eauto; congruence. }
    rewrite Eb. destruct (same_ends _ _ _) eqn:Es; auto. rewrite (G6 p q) by auto. now rewrite Lp, Lq.
Qed.
Lemma same_nodes_trans' g1 g2 g3 : same_nodes g1 g2 -> same_nodes g2 g3 -> same_nodes g1 g3.
Proof. intros H1 H2. eapply same_nodes_trans; eauto. Qed.
Lemma link_row es0 m s1 s2 d1 d2 labs1 labs2 a ls : linked es0 m s1 s2 d1 d2 labs1 labs2 -> In a labs1 -> (forall l, In l ls -> In (llabel l) labs2) ->
  exists m', foldM (fun g l =>
      do p <- deref (GetNodeDict a d1);
      do q <- deref (GetNodeDict (llabel l) d2);
      do (_, g) <- AddAdjacency g p q false false (lweight l) 0;
      do (_, g) <- AddAdjacency g q p false false (lweight l) 0;
      Ok g) m ls = Ok m' /\ same_nodes m m' /\ linked (es0 ++ map (fun l => (a, llabel l, lweight l)) ls) m' s1 s2 d1 d2 labs1 labs2.
Proof.
  revert es0 m. induction ls as [|l ls IH]; intros es0 m Lk Ha Hc; cbn [foldM map]. { exists m. rewrite app_nil_r. splits; auto. apply same_nodes_refl. }
  destruct (link_step _ _ _ _ _ _ _ _ a (llabel l) (lweight l) Lk Ha) as (p & q & r1 & r2 & m1 & m2 & E1 & E2 & E3 & E4 & N2 & Lk2); [apply Hc; simpl; auto|].
  unfold GetNodeDict at 1 2. rewrite E1, E2. cbn [deref bind]. rewrite E3. cbn [bind]. rewrite E4. cbn [bind].
  destruct (IH _ _ Lk2 Ha ltac:(intros; apply Hc; simpl; auto)) as (m' & E & N & Lk'). exists m'. rewrite <- app_assoc in Lk'. splits; auto. eapply same_nodes_trans; eauto.
Qed.
Theorem CopyBipart_spec b : bipartite b -> distinct (bmem b) (bset1 b) -> distinct (bmem b) (bset2 b) -> labels_fit (bmem b) ->
  exists b', CopyBipart b = Ok b' /\ copy_of b b'.
Proof.
  intros B D1 D2 Fit. destruct b as [m s1 s2]. cbn [bmem bset1 bset2] in *.
  assert (K1 : forall k i, nth_error s1 k = Some i -> exists n, nth_error m i = Some n /\ gnum n = k /\ length (glabel n) < 100).
  { intros k i E. destruct (nth_ex m i) as [n En]. { apply (bi_lt (mkBi m s1 s2) i B). apply in_or_app; left. eapply nth_error_In; eauto. } exists n. splits; auto; [eapply (bi_num1 _ B); eauto|apply Fit; eapply nth_error_In; eauto]. }
  assert (K2 : forall k i, nth_error s2 k = Some i -> exists n, nth_error m i = Some n /\ gnum n = k /\ length (glabel n) < 100).
  { intros k i E. destruct (nth_ex m i) as [n En]. { apply (bi_lt (mkBi m s1 s2) i B). apply in_or_app; right. eapply nth_error_In; eauto. } exists n. splits; auto; [eapply (bi_num2 _ B); eauto|apply Fit; eapply nth_error_In; eauto]. }
  unfold CopyBipart. cbn [bset1 bset2]. rewrite (copy_side_spec (mkBi m s1 s2) s1 K1). cbn [bind]. rewrite (copy_side_spec (mkBi m s1 s2) s2 K2). cbn [bind app length bmem]. rewrite map_length.
  set (f := fun i => twin (node_at m i)). set (m0 := map f s1 ++ map f s2). set (n1 := length s1).
  set (d1 := rev _). set (d2 := rev _).
  assert (F1 : forall x i, nth_error s1 x = Some i -> exists n, nth_error m i = Some n /\ nth_error m0 x = Some (twin n)).
  { intros x i E. destruct (K1 x i E) as (n & En & _). exists n. split; auto. unfold m0. rewrite nth_error_app1 by (rewrite map_length; eapply nth_lt; eauto). rewrite nth_error_map, E. cbn. unfold f. now rewrite (node_at_ok _ _ _ En). }
  assert (F2 : forall x i, nth_error s2 x = Some i -> exists n, nth_error m i = Some n /\ nth_error m0 (n1 + x) = Some (twin n)).
  { intros x i E. destruct (K2 x i E) as (n & En & _). exists n. split; auto. unfold m0. rewrite nth_error_app2 by (rewrite map_length; unfold n1; lia). rewrite map_length. replace (n1 + x - length s1) with x by (unfold n1; lia). rewrite nth_error_map, E. cbn. unfold f. now rewrite (node_at_ok _ _ _ En). }
  assert (Lm : length m0 = n1 + length s2) by (unfold m0; rewrite app_length, !map_length; auto).
  assert (Sd1 : side m0 (seq 0 n1) d1 (map (label_of m) s1)).
  { replace n1 with (length (map (label_of m) s1)) by (rewrite map_length; auto). apply side_place; auto.
    - intros x lab E. rewrite nth_error_map in E. destruct (nth_error s1 x) as [i|] eqn:Ei; [|discriminate]. cbn in E. injection E as <-. destruct (F1 x i Ei) as (n & En & E0). destruct (K1 x i Ei) as (n' & En' & N' & _).
      exists (twin n). splits; auto; [unfold label_of; now rewrite En|cbn; congruence].
    - unfold d1. rewrite map_length. reflexivity. }
  assert (Sd2 : side m0 (seq n1 (length s2)) d2 (map (label_of m) s2)).
  { replace (length s2) with (length (map (label_of m) s2)) by (rewrite map_length; auto). apply side_place; auto.
    - intros x lab E. rewrite nth_error_map in E. destruct (nth_error s2 x) as [i|] eqn:Ei; [|discriminate]. cbn in E. injection E as <-. destruct (F2 x i Ei) as (n & En & E0). destruct (K2 x i Ei) as (n' & En' & N' & _).
      exists (twin n). splits; auto; [unfold label_of; now rewrite En|cbn; congruence].
    - unfold d2. rewrite map_length. reflexivity. }
  assert (Em : forall i n, nth_error m0 i = Some n -> gadj n = [] /\ gdeg n = 0).
  { intros i n E. apply nth_error_In in E. unfold m0 in E. rewrite <- map_app in E. apply in_map_iff in E as (x & <- & _). auto. }
  assert (Nb : forall i, nbrs m0 i = []) by (intros i; unfold nbrs; destruct (nth_error m0 i) as [n|] eqn:E; auto; destruct (Em _ _ E) as [-> _]; auto).
  assert (Wt : forall i j, weight m0 i j = None) by (intros i j; unfold weight; destruct (nth_error m0 i) as [n|] eqn:E; auto; destruct (Em _ _ E) as [-> _]; auto).
  assert (L0 : linked [] m0 (seq 0 n1) (seq n1 (length s2)) d1 d2 (map (label_of m) s1) (map (label_of m) s2)).
  { split; auto.
    - split.
      + intros i n l E Hl. destruct (Em _ _ E) as [Ea _]. rewrite Ea in Hl. destruct Hl.
      + intros i. rewrite Nb. constructor.
      + intros i. rewrite Nb. auto.
      + intros i j. now rewrite !Wt.
      + intros i n E. left. apply (Em _ _ E).
    - intros i Hi Hj. apply in_seq in Hi, Hj. lia.
    - intros i j. rewrite Nb. intros []. }
  assert (G : forall l es g, (forall i, In i l -> In i s1) -> linked es g (seq 0 n1) (seq n1 (length s2)) d1 d2 (map (label_of m) s1) (map (label_of m) s2) ->
    exists g', foldM (fun g i => do n <- get m i; foldM (fun g l =>
      do p <- deref (GetNodeDict (glabel n) d1);
      do q <- deref (GetNodeDict (llabel l) d2);
      do (_, g) <- AddAdjacency g p q false false (lweight l) 0;
      do (_, g) <- AddAdjacency g q p false false (lweight l) 0;
      Ok g) g (gadj n)) g l = Ok g' /\ same_nodes g g' /\
      linked (es ++ flat_map (fun i => map (fun j => (label_of m i, label_of m j, match weight m i j with Some w => w | None => n0 end)) (nbrs m i)) l) g' (seq 0 n1) (seq n1 (length s2)) d1 d2 (map (label_of m) s1) (map (label_of m) s2)).
  { induction l as [|i l IH]; intros es g Hl Lk; cbn [foldM flat_map]. { exists g. rewrite app_nil_r. splits; auto. apply same_nodes_refl. }
    assert (Hi : In i s1) by (apply Hl; simpl; auto). destruct (In_nth_error _ _ Hi) as [k Ek]. destruct (K1 k i Ek) as (n & En & _).
    rewrite (get_ok _ _ _ En). cbn [bind].
    destruct (link_row es g _ _ d1 d2 _ _ (glabel n) (gadj n) Lk) as (g1 & -> & N1 & Lk1).
    - apply in_map_iff. exists i. split; auto. unfold label_of. now rewrite En.
    - intros x Hx. destruct (bi_link _ B i n x En Hx) as (j & nj & E1 & E2 & E3 & E4). cbn [bmem] in E2. rewrite E4. apply in_map_iff. exists j. split; [unfold label_of; now rewrite E2|].
      apply (cross2 _ i j B Hi). cbn. apply nbrs_weight. unfold nbrs. rewrite En. unfold targets. apply in_flat_map. exists x. rewrite E1. simpl. auto.
    - cbn [bind]. destruct (IH _ g1 ltac:(intros; apply Hl; simpl; auto) Lk1) as (g2 & E & N2 & Lk2). exists g2. split; auto. split; [eapply same_nodes_trans; eauto|].
      rewrite <- app_assoc in Lk2. pose proof (rows_links _ _ _ B En) as R. cbn [bmem] in R. now rewrite R. }
  destruct (G s1 [] m0 ltac:(auto) L0) as (g' & -> & Ns & Lk). cbn [bind]. eexists. split; [reflexivity|].
  pose proof Lk as [G1 Dj G3 G4 G5 G6]. split; cbn [bmem bset1 bset2].
  - apply simple_bi; auto.
    + rewrite <- (same_nodes_length _ _ Ns), Lm, <- seq_app. auto.
    + apply (sd_num _ _ _ _ G4).
    + apply (sd_num _ _ _ _ G5).
  - apply seq_length.
  - apply seq_length.
  - assert (T : forall i' n, nth_error m0 i' = Some (twin n) -> exists n', nth_error g' i' = Some n' /\ (glabel n', gnum n', gstate n', ggroup n', gdvar n') = (glabel n, gnum n, gstate n, ggroup n, gdvar n)).
    { intros i' n E. clear - Ns E. revert i' E. induction Ns as [|x y l l' (H1 & H2 & H3 & H4 & H5) _ IH]; intros [|i'] E; try discriminate; [|now apply IH]. injection E as ->. cbn in *. exists y. split; auto. congruence. }
    intros k i i' [[E E']|[E E']]; rewrite nth_seq in E'; destruct (Nat.ltb_spec k (length s1)); destruct (Nat.ltb_spec k (length s2)); unfold n1 in E'; try discriminate.
    all: try (destruct (Nat.ltb_spec k (length s1)); [|discriminate]).
    all: injection E' as <-.
    all: try (destruct (F1 k i E) as (n & En & E0); destruct (T _ _ E0) as (n' & En' & Ef); exists n, n'; splits; auto; fail).
    all: destruct (F2 k i E) as (n & En & E0); destruct (T _ _ E0) as (n' & En' & Ef); exists n, n'; splits; auto.
  - intros k1 k2 i j i' j' E1 E1' E2 E2'. assert (Ii : In i s1) by (eapply nth_error_In; eauto). assert (Ij : In j s2) by (eapply nth_error_In; eauto).
    assert (Ii' : In i' (seq 0 n1)) by (eapply nth_error_In; eauto). assert (Ij' : In j' (seq n1 (length s2))) by (eapply nth_error_In; eauto).
    rewrite (G6 i' j' Ii' Ij'). rewrite !(same_nodes_label _ _ _ Ns).
    assert (Li : label_of m0 i' = label_of m i).
    { rewrite nth_seq in E1'. destruct (k1 <? n1); [|discriminate]. injection E1' as <-. destruct (F1 _ _ E1) as (n & En & E0). unfold label_of. cbn. now rewrite E0, En. }
    assert (Lj : label_of m0 j' = label_of m j).
    { rewrite nth_seq in E2'. destruct (k2 <? length s2); [|discriminate]. injection E2' as <-. destruct (F2 _ _ E2) as (n & En & E0). unfold label_of. now rewrite E0, En. }
    rewrite Li, Lj. exact (rows_weights false (mkBi m s1 s2) i j B D1 D2 Ii Ij).
Qed.

(** ** FPrintBipart *)
Theorem FPrintBipart_text show b weighted : bipartite b -> FPrintBipart show b weighted = Ok (concat (map (row_line show weighted) (rows_of b))).
Proof.
  intros B. unfold FPrintBipart, rows_of.
  assert (G : forall l out, (forall i, In i l -> In i (bset1 b)) -> foldM (fun out i =>
    do n <- get (bmem b) i;
    foldM (fun out l =>
      do j <- deref (lref l);
      do y <- get (bmem b) j;
      Ok (out ++ glabel n ++ [" "%char] ++ glabel y ++ (if weighted then [" "%char] ++ show (lweight l) else []) ++ [nl])) out (gadj n)) out l =
    Ok (out ++ concat (map (row_line show weighted) (flat_map (fun i => map (fun j => (label_of (bmem b) i, label_of (bmem b) j, match weight (bmem b) i j with Some w => w | None => n0 end)) (nbrs (bmem b) i)) l)))).
  { induction l as [|i l IH]; intros out Hl; cbn [foldM flat_map map concat]. { now rewrite app_nil_r. }
    destruct (nth_ex (bmem b) i) as [n En]. { apply bi_lt; auto. apply in_or_app. left. apply Hl. simpl. auto. }
    rewrite (get_ok _ _ _ En). cbn [bind].
    assert (F : forall ls out, (forall x, In x ls -> In x (gadj n)) -> foldM (fun out l =>
      do j <- deref (lref l);
      do y <- get (bmem b) j;
      Ok (out ++ glabel n ++ [" "%char] ++ glabel y ++ (if weighted then [" "%char] ++ show (lweight l) else []) ++ [nl])) out ls =
      Ok (out ++ concat (map (row_line show weighted) (map (fun l => (glabel n, llabel l, lweight l)) ls)))).
    { clear IH. induction ls as [|x ls IH]; intros o Hs; cbn [foldM map concat]. { now rewrite app_nil_r. }
      destruct (bi_link _ B i n x En) as (j & m & E1 & E2 & E3 & E4); [apply Hs; simpl; auto|]. rewrite E1. cbn [deref bind]. rewrite (get_ok _ _ _ E2). cbn [bind].
      rewrite IH by (intros; apply Hs; simpl; auto). unfold row_line at 2. rewrite E4. now rewrite <- !app_assoc. }
    rewrite F by auto. cbn [bind]. rewrite IH by (intros; apply Hl; simpl; auto). rewrite (rows_links b i n B En), map_app, concat_app, app_assoc. reflexivity. }
  apply (G (bset1 b) []); auto.
Qed.

(** ** What was written is read again *)
Lemma word_no_nl w : word w -> ~ In "010"%char w.
Proof. intros [_ H] Hin. apply (H _ Hin). unfold blank. simpl. auto. Qed.
Lemma rows_lines show scan weighted (es : list row) : Forall (row_fits show scan weighted) es ->
  lines_of (concat (map (row_line show weighted) es)) (map (row_line show weighted) es).
Proof.
  intros F. exists (map (row_line show weighted) es), []. rewrite app_nil_r. splits; auto. intros l Hl. apply in_map_iff in Hl as ([[a c] w] & <- & Hr).
  rewrite Forall_forall in F. destruct (F _ Hr) as (Wa & Wc & _ & _ & Hw). exists (a ++ [" "%char] ++ c ++ (if weighted then [" "%char] ++ show w else [])). split.
  - unfold row_line. now rewrite <- !app_assoc.
  - intros Hin. apply in_app_or in Hin as [Hin|Hin]; [apply (word_no_nl _ Wa Hin)|]. apply in_app_or in Hin as [Hin|Hin]; [destruct Hin as [Hin|[]]; discriminate|].
    apply in_app_or in Hin as [Hin|Hin]; [apply (word_no_nl _ Wc Hin)|]. destruct weighted; [|destruct Hin]. apply in_app_or in Hin as [[Hin|[]]|Hin]; [discriminate|]. now apply (Hw eq_refl).
Qed.
Definition as_read (weighted : bool) (r : row) : row := let '(a, c, w) := r in (a, c, if weighted then w else n1).
Lemma rows_hold show scan weighted (es : list row) : Forall (row_fits show scan weighted) es ->
  Forall2 (line_holds scan weighted) (map (row_line show weighted) es) (map (as_read weighted) es).
Proof.
  induction 1 as [|[[a c] w] es (Wa & Wc & _ & _ & Hw) _ IH]; cbn [map]; constructor; auto.
  exists [], [" "%char], ((if weighted then [" "%char] ++ show w else []) ++ ["010"%char]). splits; auto; try discriminate.
  - intros x [].
  - intros x [<-|[]]. unfold blank. simpl. auto.
  - intros x t E. destruct weighted; cbn in E; injection E as <- _; unfold blank; simpl; auto 7.
  - destruct weighted; auto. rewrite <- app_assoc. now apply Hw.
Qed.
Theorem reading_rows show scan weighted add (es : list row) : Forall (row_fits show scan weighted) es ->
  exists b, FBuildNetworkBipart scan (concat (map (row_line show weighted) es)) weighted add = Ok (Some b) /\ network_of add (map (as_read weighted) es) b.
Proof.
  intros F. eapply FBuildNetworkBipart_reads; [eapply rows_lines; eauto|now apply rows_hold|].
  intros a c w Hin. apply in_map_iff in Hin as ([[a' c'] w'] & E & Hr). injection E as <- <- _. rewrite Forall_forall in F. destruct (F _ Hr) as (_ & _ & L1 & L2 & _). auto.
Qed.
Lemma numbered_nodup (l : list label) : NoDup l -> numbered l = l.
Proof.
  induction l as [|x l IH] using rev_ind; intros ND; auto. assert (N : NoDup l /\ ~ In x l). { apply NoDup_app_iff in ND as (N1 & _ & D). split; auto. intros H. apply (D x H). simpl. auto. }
  rewrite numbered_snoc_new by tauto. now rewrite IH.
Qed.
Lemma numbered_blocks (f : nat -> label) (g : nat -> list label) s : (forall i x, In i s -> In x (g i) -> x = f i) -> NoDup (map f s) ->
  numbered (flat_map g s) = map f (filter (fun i => match g i with [] => false | _ => true end) s).
Proof.
  induction s as [|i s IH] using rev_ind; intros Hg ND; auto. rewrite flat_map_app, filter_app, !map_app in *. cbn [flat_map filter map] in *. rewrite app_nil_r.
  apply NoDup_app_iff in ND as (N1 & _ & D). rewrite <- IH by (auto; intros; apply Hg; auto; apply in_or_app; auto).
  assert (Hx : forall x, In x (g i) -> x = f i) by (intros; apply Hg; auto; apply in_or_app; simpl; auto).
  assert (Hn : ~ In (f i) (flat_map g s)). { intros H. apply in_flat_map in H as (j & Hj & H). apply Hg in H; [|apply in_or_app; auto]. apply (D (f i)); [|simpl; auto]. rewrite H. now apply in_map. }
  destruct (g i) as [|y l]; [now rewrite !app_nil_r|]. cbn [map]. clear - Hx Hn. revert y Hx. induction l as [|z l IH] using rev_ind; intros y Hx.
  - rewrite (Hx y) by (simpl; auto). now apply numbered_snoc_new.
  - replace (flat_map g s ++ y :: l ++ [z]) with ((flat_map g s ++ y :: l) ++ [z]) by (rewrite <- app_assoc; auto). rewrite numbered_snoc_old.
    + apply IH. intros x Hin. apply Hx. destruct Hin as [<-|Hin]; [simpl; auto|right; apply in_or_app; auto].
    + rewrite (Hx z) by (right; apply in_or_app; simpl; auto). rewrite <- (Hx y) by (simpl; auto). apply in_or_app. simpl. auto.
Qed.
Theorem Bipart_roundtrip show scan b weighted add : bipartite b -> distinct (bmem b) (bset1 b) -> distinct (bmem b) (bset2 b) -> Forall (row_fits show scan weighted) (rows_of b) ->
  exists text b', FPrintBipart show b weighted = Ok text /\ FBuildNetworkBipart scan text weighted add = Ok (Some b') /\ bipartite b' /\
    map (label_of (bmem b')) (bset1 b') = map (label_of (bmem b)) (filter (fun i => 0 <? degree (bmem b) i) (bset1 b)) /\
    (forall lab, In lab (map (label_of (bmem b')) (bset2 b')) <-> exists j, In j (bset2 b) /\ 0 < degree (bmem b) j /\ label_of (bmem b) j = lab) /\
    (forall i j i' j', In i (bset1 b) -> In j (bset2 b) -> In i' (bset1 b') -> In j' (bset2 b') -> label_of (bmem b') i' = label_of (bmem b) i -> label_of (bmem b') j' = label_of (bmem b) j ->
       weight (bmem b') i' j' = option_map (fun w => if weighted then w else n1) (weight (bmem b) i j)).
Proof.
  intros B D1 D2 F. destruct (reading_rows show scan weighted add _ F) as (b' & E & [N1 N2 N3 N4 N5]). exists (concat (map (row_line show weighted) (rows_of b))), b'.
  split; [now apply FPrintBipart_text|]. splits; auto.
  - rewrite N2, map_map. unfold rows_of. rewrite flat_map_concat_map, concat_map, map_map, <- flat_map_concat_map.
    rewrite (numbered_blocks (label_of (bmem b))); auto.
    + f_equal. apply filter_ext. intros i. unfold degree. destruct (nbrs (bmem b) i); auto.
    + intros i x _ Hx. rewrite map_map in Hx. apply in_map_iff in Hx as (j & <- & _). reflexivity.
  - intros lab. rewrite N3, numbered_In, map_map, in_map_iff. split.
    + intros ([[a c] w] & <- & Hr). apply rows_In in Hr as (i & j & Hi & Hw & -> & ->); auto. exists j. splits; auto; [apply (cross2 b i j); auto; congruence|].
      rewrite (bi_sym _ B) in Hw. assert (Hn : In i (nbrs (bmem b) j)) by (apply nbrs_weight; congruence). unfold degree. destruct (nbrs (bmem b) j); [destruct Hn|simpl; lia].
    + intros (j & Hj & Hd & <-). unfold degree in Hd. destruct (nbrs (bmem b) j) as [|i l] eqn:En; [simpl in Hd; lia|]. assert (Hn : In i (nbrs (bmem b) j)) by (rewrite En; simpl; auto).
      assert (Hi : In i (bset1 b)). { destruct (bi_cross _ B _ _ Hn) as [[H _]|[_ H]]; auto. destruct (bi_disjoint b j B H Hj). }
      apply nbrs_weight in Hn. rewrite (bi_sym _ B) in Hn. destruct (weight (bmem b) i j) as [w|] eqn:Ew; [|congruence].
      exists (label_of (bmem b) i, label_of (bmem b) j, w). split; auto. apply rows_In; auto. exists i, j. auto.
  - intros i j i' j' Hi Hj Hi' Hj' Li Lj. rewrite N4 by auto. rewrite Li, Lj. pose proof (rows_weights add b i j B D1 D2 Hi Hj) as R. pose proof (rows_once b B D1 D2) as O.
    destruct (weight (bmem b) i j) as [w|] eqn:Ew; cbn [option_map].
    + apply rows_weight_const.
      * exists (if weighted then w else n1). apply in_map_iff. exists (label_of (bmem b) i, label_of (bmem b) j, w). split; auto. apply rows_In; auto. exists i, j. auto.
      * intros w' Hw'. apply in_map_iff in Hw' as ([[a c] v] & Er & Hr). cbn in Er. injection Er as -> -> <-. destruct weighted; auto.
        apply rows_In in Hr as (x & y & Hx & Hv & L1 & L2); auto. apply (distinct_inj _ _ _ _ D1) in L1; auto. subst x. apply (distinct_inj _ _ _ _ D2) in L2; auto; [congruence|]. apply (cross2 b i y); auto. congruence.
      * rewrite map_map. erewrite map_ext; [exact O|]. intros [[a c] v]. reflexivity.
    + apply rows_weight_none. intros w' Hw'. apply in_map_iff in Hw' as ([[a c] v] & Er & Hr). cbn in Er. injection Er as -> -> _.
      apply rows_weight_some with (aw := add) in Hr. congruence.
Qed.
End Copy.

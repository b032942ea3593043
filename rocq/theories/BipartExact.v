(** BipartExact.v -- weighted projection and modularity of two-sided networks, in exact arithmetic. *)
From Coq Require Import List Arith Lia Bool Permutation QArith Qround Qcanon.
From Verif Require Import Base Num ListLib NatSum QcSum PairSum IoModel IoSpec IoProof GraphModel GraphSpec GraphProof GroupModel GroupSpec GroupProof GroupExact ModulesSpec ModulesMod BipartModel BipartSpec BipartRen BipartRand BipartMem BipartProj.
Import ListNotations.
Local Open Scope nat_scope.

Section Cache.
Context {A : Type} {ops : NumOps A}.
Implicit Types (g m : net A).
Lemma sbg_simple m m' : simple m -> same_but_group m m' -> degs_cached m' -> simple m'.
Proof.
  intros [R N L S D] H Hd. split; auto.
  - intros i n l E Hl. destruct (nth_ex m i) as [n0 En]; [rewrite (F2_len _ _ _ H); eapply nth_lt; eauto|].
    destruct (F2_nth _ _ _ _ _ H En) as (m0 & E' & Hm). rewrite E in E'. injection E' as <-.
    assert (Hl' : In l (gadj n0)) by (replace (gadj n0) with (gadj n) by (symmetry; apply Hm); auto).
    destruct (R i n0 l En Hl') as (j & k & E1 & E2 & E3 & E4). destruct (F2_nth _ _ _ _ _ H E2) as (k' & E2' & Hk).
    exists j, k'. splits; auto; [rewrite E3|rewrite E4]; apply Hk.
  - intros i. rewrite (sbg_nbrs m m' i H). apply N.
  - intros i. rewrite (sbg_nbrs m m' i H). apply L.
  - intros i j. rewrite !(sbg_weight m m' _ _ H). apply S.
Qed.
Lemma cache_upd m i n n' : simple m -> nth_error m i = Some n -> gdeg n' = 0 \/ gdeg n' = length (gadj n') ->
  glabel n = glabel n' -> gnum n = gnum n' -> gstate n = gstate n' -> gdvar n = gdvar n' -> gadj n = gadj n' -> ggroup n = ggroup n' ->
  same_cache m (upd m i n') /\ simple (upd m i n').
Proof.
  intros Sm E Hd H1 H2 H3 H4 H5 H6. assert (Hs : same_cache m (upd m i n')) by (eapply F2_upd; eauto; simpl; auto 10). split; auto.
  apply (sbg_simple m); auto using sc_sbg. intros j k Ek. rewrite nth_upd in Ek. destruct (_ && _); [injection Ek as <-; auto|apply (si_deg m Sm j k Ek)].
Qed.
Lemma degree_adj' m i n : simple m -> nth_error m i = Some n -> degree m i = length (gadj n).
Proof.
  intros Sm E. unfold degree. rewrite (nbrs_eq _ _ _ E). assert (H : forall l, In l (gadj n) -> exists x, lref l = Some x) by (intros l; apply (refs_targets m i n l (si_refs m Sm) E)).
  induction (gadj n) as [|l ls IH]; auto. unfold targets in *. cbn [flat_map]. destruct (H l (or_introl eq_refl)) as [x ->]. simpl. rewrite IH; auto. intros; apply H; simpl; auto.
Qed.
Lemma NodeDegree_simple m i : simple m -> i < length m ->
  exists m', NodeDegree m i = Ok (degree m i, m') /\ same_cache m m' /\ simple m' /\ map gstr m' = map gstr m.
Proof.
  intros Sm Li. destruct (nth_ex m i Li) as [n E]. unfold NodeDegree. rewrite (get_ok _ _ _ E). cbn [bind]. pose proof (degree_adj' m i n Sm E) as Hd.
  pose proof (si_deg m Sm i n E) as Hc. destruct ((gdeg n =? 0) && negb (length (gadj n) =? 0)) eqn:Ec.
  - apply andb_true_iff in Ec as [E0 _]. apply Nat.eqb_eq in E0. rewrite set_ok by auto. cbn [bind]. rewrite E0, Hd. eexists. split; [reflexivity|].
    destruct (cache_upd m i n (set_gdeg (0 + length (gadj n)) n)) as [H1 H2]; auto. splits; auto.
    apply nth_ext_eq. intros j. rewrite !nth_error_map, nth_upd. match goal with |- context [if ?c then _ else _] => destruct c eqn:Ej end; auto. apply andb_true_iff in Ej as [Ej _]. apply Nat.eqb_eq in Ej as ->. rewrite E. reflexivity.
  - exists m. splits; auto using sc_refl. f_equal. f_equal. rewrite Hd. destruct Hc as [Hc|Hc]; auto. rewrite Hc in Ec. simpl in Ec. apply negb_false_iff, Nat.eqb_eq in Ec. lia.
Qed.
End Cache.

Section Exact.
Variables ex sq : Qc -> Qc.
#[local] Instance opsB : NumOps Qc := Qc_ops ex sq.
Implicit Types (g m : net Qc) (b : binet Qc) (P : gpart Qc).

(** ** Strengths and shared weights *)
Lemma strength_adj m i n : simple m -> nth_error m i = Some n -> Qsum lweight (gadj n) = strength_of m i.
Proof.
  intros Sm E. unfold strength_of. rewrite (nbrs_eq _ _ _ E). assert (ND : NoDup (targets (gadj n))) by (rewrite <- (nbrs_eq _ _ _ E); apply (si_once m Sm)).
  rewrite (Qsum_ext (weight0 m i) (fun j => if true then weight0 m i j else 0%Qc)) by auto.
  rewrite <- (Qsum_targets (weight0 m i) (gadj n)) with (p := fun _ => true).
  - apply Qsum_ext. intros l Hl. destruct (refs_targets m i n l (si_refs m Sm) E Hl) as [x ->]. reflexivity.
  - intros l Hl. destruct (refs_targets m i n l (si_refs m Sm) E Hl) as [x Ex]. exists x. split; auto. unfold weight0. rewrite (weight_eq _ _ _ _ E), (weight_in_link (gadj n) l x); auto.
Qed.
Lemma NodeStrength_simple m i : simple m -> strengths_cached m -> i < length m ->
  exists m', NodeStrength m i = Ok (strength_of m i, m') /\ same_cache m m' /\ simple m' /\ strengths_cached m'.
Proof.
  intros Sm Hc Li. destruct (nth_ex m i Li) as [n E].
  assert (H : exists s m', NodeStrength m i = Ok (s, m') /\ same_cache m m' /\ simple m').
  { unfold NodeStrength. rewrite (get_ok _ _ _ E). cbn [bind]. destruct (_ && _).
    - rewrite set_ok by auto. cbn [bind]. do 2 eexists. split; [reflexivity|]. eapply cache_upd; eauto. simpl. apply (si_deg m Sm i n E).
    - exists (gstr n), m. splits; auto using sc_refl. }
  destruct H as (s & m' & H1 & H2 & H3). destruct (NodeStrength_exact ex sq m i n s m' E Hc H1) as [E1 E2].
  exists m'. rewrite H1, E1, (strength_adj m i n Sm E). auto.
Qed.
Lemma sum_row (ls : list (link Qc)) j w c : NoDup (targets ls) -> (forall l, In l ls -> exists x, lref l = Some x) ->
  fold_left (fun c l2 => if eq_refs (Some j) (lref l2) then nadd c (nmul w (lweight l2)) else c) ls c =
  (c + w * match weight_in ls j with Some v => v | None => 0%Qc end)%Qc.
Proof.
  revert c. induction ls as [|l ls IH]; intros c ND H.
  - simpl. ring.
  - destruct (H l (or_introl eq_refl)) as [x Ex]. unfold targets in ND. cbn [flat_map] in ND. rewrite Ex in ND. cbn [app] in ND. inversion ND as [|? ? Hx ND']; subst.
    cbn [fold_left]. rewrite IH by (auto; intros; apply H; simpl; auto). rewrite weight_in_cons, Ex. simpl. rewrite (Nat.eqb_sym x j).
    destruct (Nat.eqb_spec j x) as [->|]; auto. assert (W : weight_in ls x = None).
    { now apply weight_in_None. }
    rewrite W. simpl. ring.
Qed.
Lemma SumProducts_spec m i j : simple m -> i < length m -> j < length m -> SumProductsOfCommonWeightsBipart m i j = Ok (shared_weight m i j).
Proof.
  intros Sm Li Lj. destruct (nth_ex m i Li) as [n En]. destruct (nth_ex m j Lj) as [k Ek]. unfold SumProductsOfCommonWeightsBipart.
  rewrite (get_ok _ _ _ En), (get_ok _ _ _ Ek). cbn [bind]. f_equal. unfold shared_weight.
  assert (ND : NoDup (targets (gadj k))) by (rewrite <- (nbrs_eq _ _ _ Ek); apply (si_once m Sm)).
  assert (NDn : NoDup (targets (gadj n))) by (rewrite <- (nbrs_eq _ _ _ En); apply (si_once m Sm)).
  assert (H : forall (ls : list (link Qc)) c, (forall l, In l ls -> exists x, lref l = Some x /\ weight_in (gadj n) x = Some (lweight l)) ->
    fold_left (fun c l1 => fold_left (fun c l2 => if eq_refs (lref l1) (lref l2) then nadd c (nmul (lweight l1) (lweight l2)) else c) (gadj k) c) ls c =
    (c + Qsum (fun x => weight0 m i x * weight0 m j x)%Qc (targets ls))%Qc).
  { induction ls as [|l ls IH]; intros c Hl; [simpl; ring|]. destruct (Hl l (or_introl eq_refl)) as (x & Ex & Ew). cbn [fold_left]. rewrite Ex, sum_row; auto.
    2: { intros l' Hl'. exact (refs_targets m j k l' (si_refs m Sm) Ek Hl'). }
    rewrite IH by (intros; apply Hl; simpl; auto). unfold targets. cbn [flat_map]. rewrite Ex. cbn [app Qsum].
    unfold weight0 at 3 4. rewrite (weight_eq _ _ _ _ En), (weight_eq _ _ _ _ Ek), Ew. ring. }
  rewrite H.
  - rewrite (nbrs_eq _ _ _ En). simpl. ring.
  - intros l Hl. destruct (refs_targets m i n l (si_refs m Sm) En Hl) as [x Ex]. exists x. split; auto. apply weight_in_link; auto.
Qed.
Lemma weight0_nbrs m i j : ~ In j (nbrs m i) -> weight0 m i j = 0%Qc.
Proof.
  intros H. unfold weight0, weight. unfold nbrs in H. destruct (nth_error m i); auto. apply weight_in_None in H. now rewrite H.
Qed.
Lemma shared_sym m i j : simple m -> shared_weight m i j = shared_weight m j i.
Proof.
  intros Sm. assert (H : forall a c, shared_weight m a c = Qsum (fun x => weight0 m a x * weight0 m c x)%Qc (seq 0 (length m))).
  { intros a c. unfold shared_weight. rewrite (Qsum_members _ (nbrs m a) (length m)).
    - apply Qsum_ext. intros x _. destruct (mem_spec x (nbrs m a)) as [|Hx]; auto. rewrite (weight0_nbrs m a x Hx). ring.
    - apply (si_once m Sm).
    - intros x Hx. now apply (simple_nbrs_lt m a x Sm). }
  rewrite !H. apply Qsum_ext. intros x _. ring.
Qed.
(** ** The weighted projection *)
Theorem ProjectBipartWeighted_spec b : bipartite b -> labels_fit (bmem b) -> NoDup (map (label_of (bmem b)) (bset1 b)) ->
  exists g, ProjectBipartWeighted b = Ok g /\ undirected g /\ map glabel g = map (label_of (bmem b)) (bset1 b) /\
    forall x y i j, nth_error (bset1 b) x = Some i -> nth_error (bset1 b) y = Some j -> x <> y ->
      weight g x y = let k := Z.to_nat (Qfloor (shared_weight (bmem b) i j)) in if k =? 0 then None else Some (Qc_of_nat k).
Proof.
  intros B Ft ND. pose proof (bi_simple b B) as Sm.
  assert (Hcw : forall i j, In i (bset1 b) -> In j (bset1 b) -> (do s <- SumProductsOfCommonWeightsBipart (bmem b) i j; Ok (nfloor s)) = Ok (Z.to_nat (Qfloor (shared_weight (bmem b) i j)))).
  { intros i j Hi Hj. rewrite SumProducts_spec; auto; apply (set1_lt b B); auto. }
  destruct (project_spec b _ (fun i j => Z.to_nat (Qfloor (shared_weight (bmem b) i j))) B ND Hcw Ft) as (g & E & U & L & W). exists g. splits; auto.
  intros x y i j Ex Ey Hxy. destruct (Nat.lt_total x y) as [H|[H|H]]; [|contradiction|].
  - apply (W x y i j); auto.
  - rewrite (un_sym g U), (shared_sym _ i j Sm). apply (W y x j i); auto.
Qed.

(** ** Sums over pairs *)
Fixpoint tri (D : nat -> nat -> Qc) (l : list nat) : Qc := match l with [] => 0%Qc | x :: l' => (Qsum (D x) l' + tri D l')%Qc end.
Lemma tri_twice D l : NoDup l -> (forall i j, D i j = D j i) ->
  (tri D l + tri D l)%Qc = Qsum (fun i => Qsum (fun j => if i =? j then 0%Qc else D i j) l) l.
Proof.
  intros ND Hs. induction l as [|x l IH]; [reflexivity|]. inversion ND as [|? ? Hx ND']; subst. cbn [tri Qsum]. rewrite Nat.eqb_refl.
  rewrite (Qsum_ext (fun j => if x =? j then 0%Qc else D x j) (D x)).
  2: { intros y Hy. destruct (Nat.eqb_spec x y); [subst; contradiction|auto]. }
  rewrite Qsum_add, <- IH by auto. rewrite (Qsum_ext (fun i => if i =? x then 0%Qc else D i x) (D x)).
  2: { intros y Hy. destruct (Nat.eqb_spec y x); [subst; contradiction|auto]. }
  ring.
Qed.
Definition fine m0 m : Prop := same_cache m0 m /\ simple m /\ (strengths_cached m0 -> strengths_cached m).
Section Step.
Variables (m0 : net Qc) (f : Qc * net Qc -> nat -> nat -> res (Qc * net Qc)) (D : nat -> nat -> Qc) (s : list nat).
Hypothesis Hf : forall q g i j, fine m0 g -> In i s -> In j s -> exists g', f (q, g) i j = Ok ((q + D i j)%Qc, g') /\ fine m0 g'.
Definition pstep (o : option nat) st (l' : link Qc) : res (Qc * net Qc) := do i0 <- deref o; do j <- deref (lref l'); f st i0 j.
Lemma over_pairs_sum (ls : list (link Qc)) : (forall l, In l ls -> exists i, lref l = Some i /\ In i s) -> forall q g, fine m0 g ->
  exists g', over_pairs f (q, g) ls = Ok ((q + tri D (targets ls))%Qc, g') /\ fine m0 g'.
Proof.
  induction ls as [|l ls IH]; intros Hl q g Fg; cbn [over_pairs].
  - exists g. split; auto. f_equal. f_equal. simpl. ring.
  - destruct (Hl l (or_introl eq_refl)) as (i & Ei & Ii). rewrite Ei.
    assert (R : forall (xs : list (link Qc)) q g, (forall l, In l xs -> exists i, lref l = Some i /\ In i s) -> fine m0 g ->
      exists g', foldM (pstep (Some i)) (q, g) xs = Ok ((q + Qsum (D i) (targets xs))%Qc, g') /\ fine m0 g').
    { clear q g Fg. induction xs as [|x xs IHx]; intros q g Hx Fg; cbn [foldM].
      - exists g. split; auto. f_equal. f_equal. simpl. ring.
      - destruct (Hx x (or_introl eq_refl)) as (j & Ej & Ij). destruct (Hf q g i j Fg Ii Ij) as (g' & Eg' & Fg').
        assert (Es : pstep (Some i) (q, g) x = Ok ((q + D i j)%Qc, g')) by (unfold pstep; rewrite Ej; exact Eg'). rewrite Es. cbn [bind].
        destruct (IHx (q + D i j)%Qc g') as (g2 & E2 & F2); auto; [intros; apply Hx; simpl; auto|]. exists g2. split; auto. rewrite E2. f_equal. f_equal.
        unfold targets. cbn [flat_map]. rewrite Ej. cbn [app Qsum]. ring. }
    destruct (R ls q g) as (g1 & E1 & F1); auto; [intros; apply Hl; simpl; auto|]. unfold pstep in E1. rewrite E1. cbn [bind].
    destruct (IH (fun l H => Hl l (or_intror H)) (q + Qsum (D i) (targets ls))%Qc g1 F1) as (g2 & E2 & F2). exists g2. split; auto. rewrite E2. f_equal. f_equal.
    unfold targets at 3. cbn [flat_map]. rewrite Ei. cbn [app tri]. fold (targets ls). ring.
Qed.
Lemma over_groups_sum P : (forall G l, In G P -> In l (pnodes G) -> exists i, lref l = Some i /\ In i s) -> forall q g, fine m0 g ->
  exists g', foldM (fun st G => over_pairs f st (pnodes G)) (q, g) P = Ok ((q + Qsum (fun G => tri D (members G)) P)%Qc, g') /\ fine m0 g'.
Proof.
  induction P as [|G P IH]; intros HP q g Fg; cbn [foldM].
  - exists g. split; auto. f_equal. f_equal. simpl. ring.
  - destruct (over_pairs_sum (pnodes G)) with (q := q) (g := g) as (g1 & E1 & F1); auto; [intros l Hl; apply (HP G l); simpl; auto|]. rewrite E1. cbn [bind].
    destruct (IH (fun G l H => HP G l (or_intror H)) (q + tri D (targets (pnodes G)))%Qc g1 F1) as (g2 & E2 & F2). exists g2. split; auto. rewrite E2. f_equal. f_equal.
    cbn [Qsum]. unfold members at 2. ring.
Qed.
End Step.

Lemma Qsum_sub_list (f : nat -> Qc) (l s : list nat) : NoDup l -> NoDup s -> (forall x, In x l -> In x s) ->
  Qsum f l = Qsum (fun i => if mem i l then f i else 0%Qc) s.
Proof.
  intros ND NS H. rewrite <- Qsum_filter. apply Qsum_perm. apply NoDup_Permutation; auto using NoDup_filter.
  intros x. rewrite filter_In, mem_In. firstorder.
Qed.
Lemma groups_good s P : groups_of s P -> good (abs P) /\ forall G, In G P -> NoDup (members G) /\ forall i, In i (members G) -> In i s.
Proof.
  intros [Lb Rf On In_]. split.
  - split.
    + unfold abs. rewrite map_map. auto.
    + intros lab l H. apply in_map_iff in H as (G & [= <- <-] & HG). clear - On HG. induction P as [|G0 P IH]; [destruct HG|]. simpl in On. apply NoDup_app_iff in On as (O1 & O2 & _). destruct HG as [->|HG]; auto.
    + intros lab l lab' l' i H H' Hi Hi'. apply in_map_iff in H as (G & [= <- <-] & HG). apply in_map_iff in H' as (G' & [= <- <-] & HG').
      clear - On HG HG' Hi Hi'. induction P as [|G0 P IH]; [destruct HG|]. simpl in On. apply NoDup_app_iff in On as (O1 & O2 & O3).
      destruct HG as [->|HG], HG' as [->|HG']; auto.
      * exfalso. apply (O3 i); auto. apply in_flat_map. eauto.
      * exfalso. apply (O3 i); auto. apply in_flat_map. eauto.
  - intros G HG. split.
    + clear - On HG. induction P as [|G0 P IH]; [destruct HG|]. simpl in On. apply NoDup_app_iff in On as (O1 & O2 & _). destruct HG as [->|HG]; auto.
    + intros i Hi. apply In_. apply in_flat_map. eauto.
Qed.
Lemma groups_refs s P : groups_of s P -> forall G l, In G P -> In l (pnodes G) -> exists i, lref l = Some i /\ In i s.
Proof.
  intros [Lb Rf On In_] G l HG Hl. destruct (lref l) as [i|] eqn:E; [|destruct (Rf G l HG Hl E)]. exists i. split; auto. apply In_. apply in_flat_map. exists G. split; auto.
  unfold members. apply targets_In. eauto.
Qed.
Lemma groups_pairs s P (D : nat -> nat -> Qc) : NoDup s -> groups_of s P -> (forall i j, D i j = D j i) ->
  (Qsum (fun G => tri D (members G)) P * Q2Qc (2 # 1))%Qc =
  Qsum (fun i => Qsum (fun j => if same_home (abs P) i j && negb (i =? j) then D i j else 0%Qc) s) s.
Proof.
  intros NS GP Hs. destruct (groups_good s P GP) as [GM HG].
  transitivity (Qsum (fun G => Qsum (fun i => Qsum (fun j => if mem i (members G) && mem j (members G) then (if i =? j then 0%Qc else D i j) else 0%Qc) s) s) P).
  - rewrite <- Qsum_scal_r. apply Qsum_ext. intros G Hg. destruct (HG G Hg) as [ND Sub].
    replace (tri D (members G) * Q2Qc (2 # 1))%Qc with (tri D (members G) + tri D (members G))%Qc.
    2: { replace (Q2Qc (2 # 1)) with (1 + 1)%Qc by (apply Qc_is_canon; reflexivity). ring. }
    rewrite (tri_twice D (members G) ND Hs). rewrite (Qsum_sub_list _ (members G) s ND NS Sub). apply Qsum_ext. intros i _.
    destruct (mem i (members G)); [|symmetry; apply Qsum_0; auto]. rewrite (Qsum_sub_list _ (members G) s ND NS Sub). apply Qsum_ext. intros j _. reflexivity.
  - rewrite Qsum_swap. apply Qsum_ext. intros i _. rewrite Qsum_swap. apply Qsum_ext. intros j _.
    pose proof (over_groups2 (abs P) GM i j (if i =? j then 0%Qc else D i j)) as E. unfold abs in E at 1. rewrite Qsum_map in E. cbn [snd] in E. rewrite E.
    destruct (same_home _ i j), (i =? j); reflexivity.
Qed.

Lemma fine_refl m : simple m -> fine m m.
Proof. intros H. split; [apply sc_refl|split; auto]. Qed.
Lemma fine_len m m' : fine m m' -> length m' = length m.
Proof. intros [H _]. apply sbg_length. now apply sc_sbg. Qed.
Lemma fine_degree m m' i : fine m m' -> degree m' i = degree m i.
Proof. intros [H _]. unfold degree. now rewrite (sbg_nbrs _ _ _ (sc_sbg _ _ H)). Qed.
Lemma fine_common m m' i j : fine m m' -> common m' i j = common m i j.
Proof. intros [H _]. unfold common. now rewrite !(sbg_nbrs _ _ _ (sc_sbg _ _ H)). Qed.
Lemma fine_weight0 m m' i j : fine m m' -> weight0 m' i j = weight0 m i j.
Proof. intros [H _]. unfold weight0. now rewrite (sbg_weight _ _ _ _ (sc_sbg _ _ H)). Qed.
Lemma fine_strength m m' i : fine m m' -> strength_of m' i = strength_of m i.
Proof. intros H. unfold strength_of. rewrite (sbg_nbrs m m' i) by apply sc_sbg, H. apply Qsum_ext. intros; now apply fine_weight0. Qed.
Lemma fine_shared m m' i j : fine m m' -> shared_weight m' i j = shared_weight m i j.
Proof. intros H. unfold shared_weight. rewrite (sbg_nbrs m m' i) by apply sc_sbg, H. apply Qsum_ext. intros; now rewrite !(fine_weight0 m m') by auto. Qed.
Lemma NodeDegree_fine m m' i : fine m m' -> i < length m -> exists m2, NodeDegree m' i = Ok (degree m i, m2) /\ fine m m2.
Proof.
  intros F Li. destruct F as (F1 & F2 & F3). destruct (NodeDegree_simple m' i F2) as (m2 & E & C & S & G); [now rewrite (fine_len m m'); [|split]|].
  exists m2. rewrite E, (fine_degree m m' i) by (split; auto). split; auto. split; [eapply sc_trans; eauto|split; auto]. intros Hc. specialize (F3 Hc).
  intros k n En. assert (Hg : nth_error (map gstr m2) k = Some (gstr n)) by (rewrite nth_error_map, En; reflexivity). rewrite G, nth_error_map in Hg.
  destruct (nth_error m' k) as [n'|] eqn:E'; [|discriminate]. injection Hg as Hg. pose proof (F3 k n' E') as H. destruct (F2_nth _ _ _ _ _ C E') as (n2 & En2 & Hn2).
  rewrite En in En2. injection En2 as <-. rewrite <- Hg. replace (gadj n) with (gadj n') by apply Hn2. exact H.
Qed.
Lemma NodeStrength_fine m m' i : strengths_cached m -> fine m m' -> i < length m -> exists m2, NodeStrength m' i = Ok (strength_of m i, m2) /\ fine m m2.
Proof.
  intros Hc F Li. destruct F as (F1 & F2 & F3). destruct (NodeStrength_simple m' i F2 (F3 Hc)) as (m2 & E & C & S & G); [now rewrite (fine_len m m'); [|split]|].
  exists m2. rewrite E, (fine_strength m m' i) by (split; auto). split; auto. split; [eapply sc_trans; eauto|split; auto].
Qed.

(** ** ModularityBipart *)
Definition unchanged b b' : Prop := same_cache (bmem b) (bmem b') /\ bset1 b' = bset1 b /\ bset2 b' = bset2 b.
Lemma bi_sets b i : bipartite b -> In i (bset1 b) \/ In i (bset2 b) -> i < length (bmem b).
Proof. intros B H. apply (bi_lt b i B). apply in_or_app. exact H. Qed.
Lemma bi_once1 b : bipartite b -> NoDup (bset1 b).
Proof.
  intros B. assert (H : NoDup (bset1 b ++ bset2 b)) by (eapply Permutation_NoDup; [apply Permutation_sym, (bi_nodes b B)|apply seq_NoDup]). now apply NoDup_app_iff in H.
Qed.
Lemma bi_once2 b : bipartite b -> NoDup (bset2 b).
Proof.
  intros B. assert (H : NoDup (bset1 b ++ bset2 b)) by (eapply Permutation_NoDup; [apply Permutation_sym, (bi_nodes b B)|apply seq_NoDup]). now apply NoDup_app_iff in H.
Qed.
Theorem ModularityBipart_spec b P : bipartite b -> groups_of (bset1 b) P ->
  exists b', ModularityBipart b P = Ok (bi_modularity b (same_home (abs P)), b') /\ unchanged b b'.
Proof.
  intros B GP. set (m := bmem b). assert (Sm : simple m) by now apply bi_simple. unfold ModularityBipart.
  assert (R : forall xs s s2 g, fine m g -> (forall x, In x xs -> x < length m) ->
    exists g', foldM (fun '(s, s2, g) i => do (k, g) <- NodeDegree g i; do (k1, g) <- NodeDegree g i; do (k2, g) <- NodeDegree g i;
      Ok (nadd s (nofnat k), nadd s2 (nofnat (k1 * k2)), g)) (s, s2, g) xs =
      Ok ((s + Qsum (teams b) xs)%Qc, (s2 + Qsum (fun x => teams b x * teams b x) xs)%Qc, g') /\ fine m g').
  { induction xs as [|x xs IH]; intros s s2 g Fg Hx; cbn [foldM].
    - exists g. split; auto. simpl. f_equal. f_equal. f_equal; ring.
    - assert (Lx : x < length m) by (apply Hx; simpl; auto).
      destruct (NodeDegree_fine m g x Fg Lx) as (g1 & -> & F1). cbn [bind]. destruct (NodeDegree_fine m g1 x F1 Lx) as (g2 & -> & F2). cbn [bind].
      destruct (NodeDegree_fine m g2 x F2 Lx) as (g3 & -> & F3). cbn [bind]. edestruct IH as (g4 & E4 & F4); [exact F3|intros; apply Hx; simpl; auto|].
      exists g4. split; auto. rewrite E4. f_equal. f_equal. cbn [Qsum]. change nadd with Qcplus. change nofnat with Qc_of_nat. unfold teams. fold m. rewrite Qc_of_nat_mul. f_equal; ring. }
  destruct (R (bset2 b) n0 n0 m (fine_refl m Sm)) as (g1 & E1 & F1); [intros x Hx; apply bi_sets; auto|]. fold m. rewrite E1. cbn [bind]. clear R E1.
  set (sm := (n0 + Qsum (teams b) (bset2 b))%Qc). set (sm2 := (n0 + Qsum (fun x => teams b x * teams b x) (bset2 b))%Qc).
  set (D := fun i j => (Qc_of_nat (common m i j) / (sm2 - sm) - teams b i * teams b j / (sm * sm))%Qc).
  destruct (over_groups_sum m (bimod_pair sm sm2 (nmul sm sm)) D (bset1 b)) with (P := P) (q := n0) (g := g1) as (g2 & E2 & F2); auto.
  - intros q g i j Fg Hi Hj. assert (Li : i < length m) by (apply bi_sets; auto). assert (Lj : j < length m) by (apply bi_sets; auto). unfold bimod_pair.
    rewrite NCommon_spec by (try rewrite (fine_len m g Fg); auto; apply Fg). cbn [bind].
    destruct (NodeDegree_fine m g i Fg Li) as (h1 & -> & H1). cbn [bind]. destruct (NodeDegree_fine m h1 j H1 Lj) as (h2 & -> & H2). cbn [bind].
    exists h2. split; auto. rewrite (fine_common m g i j Fg). unfold D, teams. fold m. simpl. rewrite Qc_of_nat_mul. reflexivity.
  - now apply groups_refs.
  - change (bset1 b) with (bset1 b) in *. rewrite E2. cbn [bind]. exists (mkBi g2 (bset1 b) (bset2 b)). split; [|split; [apply F2|auto]]. f_equal. f_equal.
    transitivity (Qsum (fun G => tri D (members G)) P * Q2Qc (2 # 1))%Qc; [simpl; ring|]. rewrite (groups_pairs (bset1 b) P D); auto.
    + unfold bi_modularity. fold m. apply Qsum_ext. intros i _. apply Qsum_ext. intros j _. unfold D. replace sm with (Qsum (teams b) (bset2 b)) by (unfold sm; simpl; ring).
      replace sm2 with (Qsum (fun x => teams b x * teams b x)%Qc (bset2 b)) by (unfold sm2; simpl; ring). reflexivity.
    + now apply bi_once1.
    + intros i j. unfold D. rewrite (common_sym m i j Sm). unfold Qcdiv. ring.
Qed.

(** ** ModularityBipartWeighted *)
Theorem ModularityBipartWeighted_spec b P : bipartite b -> strengths_cached (bmem b) -> groups_of (bset1 b) P ->
  exists b', ModularityBipartWeighted b P = Ok (bi_modularity_w b (same_home (abs P)), b') /\ unchanged b b'.
Proof.
  intros B Hc GP. set (m := bmem b) in *. assert (Sm : simple m) by now apply bi_simple. unfold ModularityBipartWeighted.
  assert (R : forall xs s s2 g, fine m g -> (forall x, In x xs -> x < length m) ->
    exists g', foldM (fun '(s, s2, g) i => do (k, g) <- NodeStrength g i; do (k1, g) <- NodeStrength g i; do (k2, g) <- NodeStrength g i;
      Ok (nadd s k, nadd s2 (nmul k1 k2), g)) (s, s2, g) xs =
      Ok ((s + Qsum (strength_of m) xs)%Qc, (s2 + Qsum (fun x => strength_of m x * strength_of m x) xs)%Qc, g') /\ fine m g').
  { induction xs as [|x xs IH]; intros s s2 g Fg Hx; cbn [foldM].
    - exists g. split; auto. simpl. f_equal. f_equal. f_equal; ring.
    - assert (Lx : x < length m) by (apply Hx; simpl; auto).
      destruct (NodeStrength_fine m g x Hc Fg Lx) as (g1 & -> & F1). cbn [bind]. destruct (NodeStrength_fine m g1 x Hc F1 Lx) as (g2 & -> & F2). cbn [bind].
      destruct (NodeStrength_fine m g2 x Hc F2 Lx) as (g3 & -> & F3). cbn [bind]. edestruct IH as (g4 & E4 & F4); [exact F3|intros; apply Hx; simpl; auto|].
      exists g4. split; auto. rewrite E4. f_equal. f_equal. cbn [Qsum]. change nadd with Qcplus. change nmul with Qcmult. f_equal; ring. }
  destruct (R (bset2 b) n0 n0 m (fine_refl m Sm)) as (g1 & E1 & F1); [intros x Hx; apply bi_sets; auto|]. fold m. rewrite E1. cbn [bind]. clear R E1.
  set (sm := (n0 + Qsum (strength_of m) (bset2 b))%Qc). set (sm2 := (n0 + Qsum (fun x => strength_of m x * strength_of m x) (bset2 b))%Qc).
  set (D := fun i j => (shared_weight m i j / (sm2 - sm) - strength_of m i * strength_of m j / (sm * sm))%Qc).
  destruct (over_groups_sum m (bimodw_pair sm sm2 (nmul sm sm)) D (bset1 b)) with (P := P) (q := n0) (g := g1) as (g2 & E2 & F2); auto.
  - intros q g i j Fg Hi Hj. assert (Li : i < length m) by (apply bi_sets; auto). assert (Lj : j < length m) by (apply bi_sets; auto). unfold bimodw_pair.
    rewrite SumProducts_spec by (try rewrite (fine_len m g Fg); auto; apply Fg). cbn [bind].
    destruct (NodeStrength_fine m g i Hc Fg Li) as (h1 & -> & H1). cbn [bind]. destruct (NodeStrength_fine m h1 j Hc H1 Lj) as (h2 & -> & H2). cbn [bind].
    exists h2. split; auto. rewrite (fine_shared m g i j Fg). reflexivity.
  - now apply groups_refs.
  - rewrite E2. cbn [bind]. exists (mkBi g2 (bset1 b) (bset2 b)). split; [|split; [apply F2|auto]]. f_equal. f_equal.
    transitivity (Qsum (fun G => tri D (members G)) P * Q2Qc (2 # 1))%Qc; [simpl; ring|]. rewrite (groups_pairs (bset1 b) P D); auto.
    + unfold bi_modularity_w. fold m. apply Qsum_ext. intros i _. apply Qsum_ext. intros j _. unfold D. replace sm with (Qsum (strength_of m) (bset2 b)) by (unfold sm; simpl; ring).
      replace sm2 with (Qsum (fun x => strength_of m x * strength_of m x)%Qc (bset2 b)) by (unfold sm2; simpl; ring). reflexivity.
    + now apply bi_once1.
    + intros i j. unfold D. rewrite (shared_sym m i j Sm). unfold Qcdiv. ring.
Qed.
(** ** All of net1 in one group, all of it apart, all weights 1 *)
Section Whole.
Variable b : binet Qc.
Hypothesis B : bipartite b.
Let m := bmem b.
Definition on (i s : nat) : Qc := if mem s (nbrs m i) then 1%Qc else 0%Qc.
Lemma nbr_weight i j : In j (nbrs m i) <-> weight m i j <> None.
Proof.
  unfold nbrs, weight. destruct (nth_error m i) as [n|]; [|simpl; intuition]. rewrite weight_in_Some. destruct (weight_in (gadj n) j); [split; [discriminate|eauto]|].
  split; [intros [w H]; discriminate|congruence].
Qed.
Lemma nbr_back i j : In j (nbrs m i) -> In i (nbrs m j).
Proof. rewrite !nbr_weight. unfold m. now rewrite (bi_sym b B). Qed.
Lemma on_teams i : In i (bset1 b) -> teams b i = Qsum (on i) (bset2 b).
Proof.
  intros Hi. unfold teams, degree. fold m. replace (Qc_of_nat (length (nbrs m i))) with (Qc_of_nat (length (nbrs m i)) * 1)%Qc by ring. rewrite <- Qsum_const.
  apply (Qsum_sub_list _ (nbrs m i) (bset2 b)); [apply (bi_once b B)|now apply bi_once2|]. intros s Hs. destruct (bi_cross b B i s Hs) as [[_ H]|[H _]]; auto. destruct (bi_disjoint b i B Hi H).
Qed.
Lemma on_members s : In s (bset2 b) -> teams b s = Qsum (fun i => on i s) (bset1 b).
Proof.
  intros Hs. unfold teams, degree. fold m. replace (Qc_of_nat (length (nbrs m s))) with (Qc_of_nat (length (nbrs m s)) * 1)%Qc by ring. rewrite <- Qsum_const.
  rewrite (Qsum_sub_list _ (nbrs m s) (bset1 b)); [|apply (bi_once b B)|now apply bi_once1|].
  - apply Qsum_ext. intros i _. unfold on. destruct (mem_spec i (nbrs m s)) as [H|H], (mem_spec s (nbrs m i)) as [K|K]; auto; exfalso.
    + apply K. now apply nbr_back.
    + apply H. now apply nbr_back.
  - intros i Hi. destruct (bi_cross b B s i Hi) as [[H _]|[_ H]]; auto. destruct (bi_disjoint b s B H Hs).
Qed.
Lemma on_common i j : In i (bset1 b) -> Qc_of_nat (common m i j) = Qsum (fun s => on i s * on j s)%Qc (bset2 b).
Proof.
  intros Hi. unfold common. replace (Qc_of_nat (length (filter (fun x => existsb (Nat.eqb x) (nbrs m j)) (nbrs m i)))) with (Qsum (fun s => on j s) (nbrs m i)).
  - rewrite (Qsum_sub_list _ (nbrs m i) (bset2 b)); [|apply (bi_once b B)|now apply bi_once2|].
    + apply Qsum_ext. intros s _. unfold on at 2. destruct (mem s (nbrs m i)); ring.
    + intros s Hs. destruct (bi_cross b B i s Hs) as [[_ H]|[H _]]; auto. destruct (bi_disjoint b i B Hi H).
  - unfold on. induction (nbrs m i) as [|x l IH]; [reflexivity|]. simpl. rewrite IH, existsb_mem. destruct (mem x (nbrs m j)); simpl; [rewrite Qc_of_nat_S|]; ring.
Qed.
Let M1 := Qsum (teams b) (bset2 b).
Let M2 := Qsum (fun s => teams b s * teams b s)%Qc (bset2 b).
Lemma places1 : Qsum (teams b) (bset1 b) = M1.
Proof.
  rewrite (Qsum_ext (teams b) (fun i => Qsum (on i) (bset2 b))) by (intros; now apply on_teams). rewrite Qsum_swap. apply Qsum_ext. intros s Hs. symmetry. now apply on_members.
Qed.
Lemma pairs_common : Qsum (fun i => Qsum (fun j => Qc_of_nat (common m i j)) (bset1 b)) (bset1 b) = M2.
Proof.
  rewrite (Qsum_ext _ (fun i => Qsum (fun s => on i s * teams b s)%Qc (bset2 b))).
  - rewrite Qsum_swap. apply Qsum_ext. intros s Hs. rewrite Qsum_scal_r. now rewrite <- on_members.
  - intros i Hi. rewrite (Qsum_ext _ (fun j => Qsum (fun s => on i s * on j s)%Qc (bset2 b))) by (intros; now apply on_common). rewrite Qsum_swap.
    apply Qsum_ext. intros s Hs. rewrite Qsum_scal. now rewrite <- on_members.
Qed.
Lemma common_self i : In i (bset1 b) -> Qc_of_nat (common m i i) = teams b i.
Proof. intros Hi. rewrite on_common, on_teams by auto. apply Qsum_ext. intros s _. unfold on. destruct (mem s _); ring. Qed.
Lemma off_diagonal (f : nat -> nat -> Qc) : Qsum (fun i => Qsum (fun j => if negb (i =? j) then f i j else 0%Qc) (bset1 b)) (bset1 b) =
  (Qsum (fun i => Qsum (f i) (bset1 b)) (bset1 b) - Qsum (fun i => f i i) (bset1 b))%Qc.
Proof.
  rewrite <- Qsum_sub. apply Qsum_ext. intros i Hi. rewrite <- (Qsum_single (f i) (bset1 b) i) at 1 by (auto; now apply bi_once1). rewrite <- Qsum_sub. apply Qsum_ext. intros j _.
  rewrite (Nat.eqb_sym i j). destruct (j =? i); simpl; ring.
Qed.
Theorem bi_modularity_whole same : (forall i j, In i (bset1 b) -> In j (bset1 b) -> same i j = true) -> M2 <> M1 -> M1 <> 0%Qc ->
  bi_modularity b same = (Qsum (fun i => teams b i * teams b i) (bset1 b) / (M1 * M1))%Qc.
Proof.
  intros Hs N2 N1. unfold bi_modularity. fold m M1 M2.
  rewrite (Qsum_ext _ (fun i => Qsum (fun j => if negb (i =? j) then (Qc_of_nat (common m i j) * / (M2 - M1) - teams b i * teams b j * / (M1 * M1))%Qc else 0%Qc) (bset1 b))).
  2: { intros i Hi. apply Qsum_ext. intros j Hj. now rewrite (Hs i j Hi Hj). }
  rewrite off_diagonal. rewrite (Qsum_ext _ (fun i => Qsum (fun j => Qc_of_nat (common m i j)) (bset1 b) * / (M2 - M1) - teams b i * M1 * / (M1 * M1))%Qc).
  2: { intros i _. rewrite Qsum_sub, !Qsum_scal_r, Qsum_scal, places1. reflexivity. }
  rewrite Qsum_sub, !Qsum_scal_r, pairs_common, Qsum_sub, !Qsum_scal_r, places1. rewrite (Qsum_ext _ (teams b)) by (intros; now apply common_self). rewrite places1.
  assert (M2 - M1 <> 0)%Qc by (intros H; apply N2; replace M2 with (M2 - M1 + M1)%Qc by ring; rewrite H; ring).
  unfold Qcdiv. field. split; auto.
Qed.
Theorem bi_modularity_apart same : (forall i j, In i (bset1 b) -> In j (bset1 b) -> i <> j -> same i j = false) -> bi_modularity b same = 0%Qc.
Proof.
  intros Hs. unfold bi_modularity. apply Qsum_0. intros i Hi. apply Qsum_0. intros j Hj. destruct (Nat.eqb_spec i j) as [->|H]; [now rewrite andb_false_r|]. now rewrite Hs.
Qed.
Hypothesis W1 : forall i j w, weight m i j = Some w -> w = 1%Qc.
Lemma ones_strength i : strength_of m i = teams b i.
Proof.
  unfold strength_of, teams, degree. fold m. rewrite (Qsum_ext _ (fun _ => 1%Qc)); [rewrite Qsum_const; ring|]. intros j Hj. unfold weight0.
  destruct (weight m i j) as [w|] eqn:E; [now apply (W1 i j)|]. exfalso. unfold nbrs in Hj. unfold weight in E. destruct (nth_error m i); [|destruct Hj]. now apply weight_in_None in E.
Qed.
Lemma ones_weight i j : weight0 m i j = if mem j (nbrs m i) then 1%Qc else 0%Qc.
Proof.
  destruct (mem_spec j (nbrs m i)) as [H|H]; [|now apply weight0_nbrs]. unfold weight0. destruct (weight m i j) as [w|] eqn:E; [now apply (W1 i j)|].
  exfalso. unfold nbrs in H. unfold weight in E. destruct (nth_error m i); [|destruct H]. now apply weight_in_None in E.
Qed.
Lemma ones_shared i j : shared_weight m i j = Qc_of_nat (common m i j).
Proof.
  unfold shared_weight, common. transitivity (Qsum (fun x => if mem x (nbrs m j) then 1%Qc else 0%Qc) (nbrs m i)).
  - apply Qsum_ext. intros x Hx. rewrite !ones_weight. apply mem_In in Hx. rewrite Hx. ring.
  - induction (nbrs m i) as [|x l IH]; [reflexivity|]. simpl. rewrite IH, existsb_mem. destruct (mem x (nbrs m j)); simpl; [rewrite Qc_of_nat_S|]; ring.
Qed.
Theorem bi_modularity_ones same : bi_modularity_w b same = bi_modularity b same.
Proof.
  unfold bi_modularity_w, bi_modularity. fold m. rewrite (Qsum_ext (strength_of m) (teams b)) by (intros; apply ones_strength).
  rewrite (Qsum_ext (fun s => strength_of m s * strength_of m s)%Qc (fun s => teams b s * teams b s)%Qc) by (intros; now rewrite ones_strength).
  apply Qsum_ext. intros i _. apply Qsum_ext. intros j _. now rewrite ones_shared, !ones_strength.
Qed.
End Whole.
End Exact.

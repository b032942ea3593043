(** RecClean.v -- the copy of the network of ratings without the ratings of the queries (src/recommend.c). *)
From Coq Require Import List Arith ZArith Bool QArith Lia Permutation.
From Verif Require Import Base Num ListLib NatSum IoModel GraphModel GraphSpec GraphProof NetModel NetBuild BipartModel BipartSpec BipartRen BipartMem BipartRand BipartCopy BipartFile
  RecModel RecSpec RecSets RecSetup.
Import ListNotations.
Local Open Scope nat_scope.

Section Clean.
Context {A : Type} {ops : NumOps A}.
Implicit Types (b : binet A) (g : net A).

Lemma bi_remove b p q : bipartite b -> In q (nbrs (bmem b) p) -> exists g', RemoveLink (bmem b) p q true = Ok g' /\ bipartite (mkBi g' (bset1 b) (bset2 b)) /\ same_nodes (bmem b) g' /\
  (forall i j, weight g' i j = if ((i =? p) && (j =? q)) || ((i =? q) && (j =? p)) then None else weight (bmem b) i j).
Proof.
  intros B Hq. pose proof (bi_undirected b B) as U. set (num := num_of (bmem b)). assert (Hq' : In q (nbrs (core (bmem b)) p)) by (unfold core; now rewrite nbrs_ren).
  destruct (remove_both _ _ _ U Hq') as (g' & E & U' & S' & W' & _). exists (ren num g').
  assert (HC : forall i j, In j (nbrs g' i) -> In i (bset1 b) /\ In j (bset2 b) \/ In i (bset2 b) /\ In j (bset1 b)).
  { intros i j Hij. apply nbrs_weight in Hij. rewrite W' in Hij. destruct (_ || _); [congruence|]. unfold core in Hij. rewrite weight_ren in Hij. apply (bi_cross b B). now apply nbrs_weight. }
  destruct (bi_back b g' B U' S' HC) as [B' SN]. fold num in B', SN. splits; auto.
  - rewrite (bi_split b B) at 1. fold num. rewrite RemoveLink_ren, E. reflexivity.
  - intros i j. rewrite weight_ren, W'. unfold core. now rewrite weight_ren.
Qed.
Lemma remove_if b p q : bipartite b -> p < length (bmem b) -> exists g', (do x <- IsThereLink (bmem b) p q; if x : bool then RemoveLink (bmem b) p q true else Ok (bmem b)) = Ok g' /\
  bipartite (mkBi g' (bset1 b) (bset2 b)) /\ same_nodes (bmem b) g' /\ (forall i j, weight g' i j = if ((i =? p) && (j =? q)) || ((i =? q) && (j =? p)) then None else weight (bmem b) i j).
Proof.
  intros B Hp. rewrite IsThereLink_spec by auto. cbn [bind]. destruct (in_dec Nat.eq_dec q (nbrs (bmem b) p)) as [H|H]; [now apply bi_remove|]. exists (bmem b). splits; auto using same_nodes_refl; [now destruct b|].
  intros i j. assert (EN : weight (bmem b) p q = None) by (destruct (weight (bmem b) p q) eqn:E; auto; exfalso; apply H, nbrs_weight; congruence).
  destruct (((i =? p) && (j =? q)) || ((i =? q) && (j =? p))) eqn:E; auto. apply orb_true_iff in E as [E|E]; apply andb_true_iff in E as [E1 E2]; apply Nat.eqb_eq in E1, E2; subst; auto. now rewrite (bi_sym b B).
Qed.

(** The tree of labels of one side. *)
Lemma side_dict_ok g s : (forall p, In p s -> p < length g) -> distinct g s -> exists d, side_dict g s = Ok d /\ forall p, In p s -> dict_find d (label_of g p) = Some p.
Proof.
  intros Hs HD. assert (E : forall l d, incl l s -> foldM (fun d i => do n <- get g i; Ok ((glabel n, i) :: d)) d l = Ok (rev (map (fun i => (label_of g i, i)) l) ++ d)).
  { induction l as [|i l IH]; intros d Hl; auto. cbn [foldM]. destruct (nth_ex g i) as [n En]; [apply Hs, Hl; simpl; auto|]. rewrite (get_ok _ _ _ En). cbn [bind]. rewrite IH by (intros x Hx; apply Hl; simpl; auto). cbn [map rev]. rewrite <- app_assoc, (label_of_nth _ _ _ En). reflexivity. }
  exists (rev (map (fun i => (label_of g i, i)) s)). split; [unfold side_dict; rewrite (E s [] (incl_refl _)); now rewrite app_nil_r|].
  intros p Hp. apply dict_find_In.
  - rewrite map_rev, map_map. cbn [fst]. apply NoDup_rev. exact HD.
  - rewrite <- in_rev. apply in_map_iff. eauto.
Qed.

(** What is known of the copy from which the ratings [pos] have been taken away. *)
Record cleaned b (pos : list (nat * nat)) (c : binet A) : Prop := {
  cl_bi : bipartite c;
  cl_len1 : length (bset1 c) = length (bset1 b);
  cl_len2 : length (bset2 c) = length (bset2 b);
  cl_label : forall k i i', nth_error (bset1 b) k = Some i /\ nth_error (bset1 c) k = Some i' \/ nth_error (bset2 b) k = Some i /\ nth_error (bset2 c) k = Some i' -> label_of (bmem c) i' = label_of (bmem b) i;
  cl_weight : forall k1 k2 i j i' j', nth_error (bset1 b) k1 = Some i -> nth_error (bset1 c) k1 = Some i' -> nth_error (bset2 b) k2 = Some j -> nth_error (bset2 c) k2 = Some j' ->
    weight (bmem c) i' j' = if asked pos k1 k2 then None else weight (bmem b) i j }.
Lemma copy_cleaned b c : copy_of b c -> cleaned b [] c.
Proof.
  intros [C1 C2 C3 C4 C5]. split; auto. intros k i i' H. destruct (C4 k i i' H) as (n & n' & En & En' & E). rewrite (label_of_nth _ _ _ En), (label_of_nth _ _ _ En'). congruence.
Qed.
Lemma bi_nodup b : bipartite b -> NoDup (bset1 b) /\ NoDup (bset2 b).
Proof. intros B. assert (ND : NoDup (bset1 b ++ bset2 b)) by (eapply Permutation_NoDup; [symmetry; apply (bi_nodes b B)|apply seq_NoDup]). apply NoDup_app_iff in ND. tauto. Qed.
Lemma same_place (l : list nat) i j p : NoDup l -> nth_error l i = Some p -> nth_error l j = Some p -> i = j.
Proof. intros ND E1 E2. apply (proj1 (NoDup_nth_error l) ND); [eapply nth_lt; eauto|congruence]. Qed.
Lemma query_cleaned b pos c q ij d1 d2 : bipartite b -> cleaned b pos c -> located (bset1 b) (bset2 b) q ij ->
  (forall p, In p (bset1 c) -> dict_find d1 (label_of (bmem c) p) = Some p) -> (forall p, In p (bset2 c) -> dict_find d2 (label_of (bmem c) p) = Some p) ->
  exists g' q', (forall qs, move_query d1 d2 (bmem b) (bmem c, qs) q = Ok (g', qs ++ [q'])) /\ cleaned b (pos ++ [ij]) (mkBi g' (bset1 c) (bset2 c)) /\ located (bset1 c) (bset2 c) q' ij /\ same_nodes (bmem c) g'.
Proof.
  intros B CL [E1 E2] H1 H2. destruct q as [x y]. destruct ij as [i j]. cbn [fst snd] in *.
  assert (L1 : i < length (bset1 c)) by (rewrite (cl_len1 _ _ _ CL); eapply nth_lt; eauto). assert (L2 : j < length (bset2 c)) by (rewrite (cl_len2 _ _ _ CL); eapply nth_lt; eauto).
  destruct (nth_ex _ _ L1) as [p Ep]. destruct (nth_ex _ _ L2) as [m Em].
  assert (Hx : x < length (bmem b)) by (apply (bi_lt b x B), in_app_iff; left; eapply nth_error_In; eauto). assert (Hy : y < length (bmem b)) by (apply (bi_lt b y B), in_app_iff; right; eapply nth_error_In; eauto).
  destruct (nth_ex _ _ Hx) as [nx Ex]. destruct (nth_ex _ _ Hy) as [ny Ey].
  pose proof (cl_bi _ _ _ CL) as Bc. assert (Hp : p < length (bmem c)) by (apply (bi_lt c p Bc), in_app_iff; left; eapply nth_error_In; eauto).
  destruct (remove_if c p m Bc Hp) as (g' & ER & Bg & SN & W). exists g', (p, m).
  assert (D1 : dict_find d1 (glabel nx) = Some p) by (rewrite <- (label_of_nth _ _ _ Ex), <- (cl_label _ _ _ CL i x p (or_introl (conj E1 Ep))); apply H1; eapply nth_error_In; eauto).
  assert (D2 : dict_find d2 (glabel ny) = Some m) by (rewrite <- (label_of_nth _ _ _ Ey), <- (cl_label _ _ _ CL j y m (or_intror (conj E2 Em))); apply H2; eapply nth_error_In; eauto).
  splits.
  - intros qs. unfold move_query. cbn [fst snd]. rewrite (get_ok _ _ _ Ex), (get_ok _ _ _ Ey). cbn [bind]. unfold BipartModel.GetNodeDict. rewrite D1, D2. cbn [deref bind].
    destruct (IsThereLink (bmem c) p m) as [z|e]; cbn [bind] in *; [|discriminate]. rewrite ER. reflexivity.
  - destruct (bi_nodup c Bc) as [ND1 ND2]. split; auto; try apply CL.
    + cbn [bmem bset1 bset2]. intros k z z' H. rewrite (same_nodes_label _ _ z' SN). eapply (cl_label _ _ _ CL); eauto.
    + cbn [bmem bset1 bset2]. intros k1 k2 a e a' e' F1 F2 F3 F4. rewrite W, (cl_weight _ _ _ CL k1 k2 a e a' e' F1 F2 F3 F4). unfold asked. rewrite existsb_app. cbn [existsb fst snd]. rewrite orb_false_r.
      assert (X1 : (a' =? p) = (i =? k1)) by (destruct (Nat.eqb_spec a' p) as [N|N], (Nat.eqb_spec i k1) as [N'|N']; auto; exfalso; [apply N'; apply (same_place (bset1 c) i k1 p ND1 Ep); congruence|apply N; congruence]).
      assert (X2 : (e' =? m) = (j =? k2)) by (destruct (Nat.eqb_spec e' m) as [N|N], (Nat.eqb_spec j k2) as [N'|N']; auto; exfalso; [apply N'; apply (same_place (bset2 c) j k2 m ND2 Em); congruence|apply N; congruence]).
      assert (X3 : (a' =? m) = false) by (apply Nat.eqb_neq; intros ->; eapply (bi_disjoint c m Bc); eapply nth_error_In; eauto).
      rewrite X1, X2, X3. cbn [andb]. rewrite orb_false_r. destruct (existsb _ pos), (i =? k1), (j =? k2); reflexivity.
  - split; auto.
  - auto.
Qed.
Lemma label_side (m m' : net A) s s' : length s' = length s -> (forall k i i', nth_error s k = Some i -> nth_error s' k = Some i' -> label_of m' i' = label_of m i) -> map (label_of m') s' = map (label_of m) s.
Proof.
  intros L H. apply nth_ext. intros k. rewrite !nth_error_map. destruct (nth_error s k) as [i|] eqn:E, (nth_error s' k) as [i'|] eqn:E'; cbn; auto.
  - f_equal. eauto.
  - apply nth_lt in E. apply nth_error_None in E'. lia.
  - apply nth_lt in E'. apply nth_error_None in E. lia.
Qed.
Lemma clean_ratings_ok b qs pos : bipartite b -> distinct (bmem b) (bset1 b) -> distinct (bmem b) (bset2 b) -> labels_fit (bmem b) -> Forall2 (located (bset1 b) (bset2 b)) qs pos ->
  exists c qs', clean_ratings b qs = Ok (c, qs') /\ cleaned b pos c /\ Forall2 (located (bset1 c) (bset2 c)) qs' pos.
Proof.
  intros B D1 D2 Fit HQ. destruct (CopyBipart_spec b B D1 D2 Fit) as (c & EC & CO). pose proof (copy_cleaned _ _ CO) as CL. unfold clean_ratings. rewrite EC. cbn [bind].
  assert (Hl : forall p, In p (bset1 c) \/ In p (bset2 c) -> p < length (bmem c)) by (intros p Hp; apply (bi_lt c p (cl_bi _ _ _ CL)), in_app_iff; auto).
  destruct (side_dict_ok (bmem c) (bset1 c)) as (d1 & -> & F1); [auto| |].
  { unfold distinct. rewrite (label_side (bmem b) (bmem c) (bset1 b) (bset1 c)); [exact D1|apply CL|]. intros k i i' H1 H2. eapply (cl_label _ _ _ CL); eauto. }
  destruct (side_dict_ok (bmem c) (bset2 c)) as (d2 & -> & F2); [auto| |].
  { unfold distinct. rewrite (label_side (bmem b) (bmem c) (bset2 b) (bset2 c)); [exact D2|apply CL|]. intros k i i' H1 H2. eapply (cl_label _ _ _ CL); eauto. }
  cbn [bind].
  assert (G : forall qs pos done dq g, Forall2 (located (bset1 b) (bset2 b)) qs pos -> cleaned b done (mkBi g (bset1 c) (bset2 c)) -> same_nodes (bmem c) g -> Forall2 (located (bset1 c) (bset2 c)) dq done ->
     exists g' dq', foldM (move_query d1 d2 (bmem b)) (g, dq) qs = Ok (g', dq') /\ cleaned b (done ++ pos) (mkBi g' (bset1 c) (bset2 c)) /\ Forall2 (located (bset1 c) (bset2 c)) dq' (done ++ pos)).
  { clear qs pos HQ. intros qs pos. revert pos. induction qs as [|q qs IH]; intros pos done dq g HQ HC SN HD; inversion HQ as [|? ij ? pos' Hq HQ']; subst.
    - exists g, dq. rewrite app_nil_r. splits; auto.
    - destruct (query_cleaned b done (mkBi g (bset1 c) (bset2 c)) q ij d1 d2 B HC Hq) as (g1 & q' & E1 & C1 & L1 & S1).
      { cbn [bmem bset1]. intros p Hp. rewrite (same_nodes_label _ _ p SN). auto. }
      { cbn [bmem bset2]. intros p Hp. rewrite (same_nodes_label _ _ p SN). auto. }
      cbn [bmem bset1 bset2] in *. destruct (IH pos' (done ++ [ij]) (dq ++ [q']) g1 HQ' C1) as (g2 & dq2 & E2 & C2 & L2).
      { eapply same_nodes_trans; eauto. }
      { apply Forall2_app; auto. }
      exists g2, dq2. rewrite <- app_assoc in C2, L2. splits; auto. cbn [foldM]. rewrite E1. exact E2. }
  destruct (G qs pos [] [] (bmem c) HQ) as (g' & qs' & E & C' & L'); auto using same_nodes_refl; [now destruct c|].
  exists (mkBi g' (bset1 c) (bset2 c)), qs'. splits; auto.
  match goal with |- bind ?m _ = _ => replace m with (Ok (g', qs')) by (symmetry; exact E) end. reflexivity.
Qed.
Lemma cleaned_ratings b pos c k i j : cleaned b pos c -> ratings (bmem c) (bset1 c) (bset2 c) k i j = hide pos (ratings (bmem b) (bset1 b) (bset2 b)) k i j.
Proof.
  intros CL. unfold hide, ratings. destruct (nth_error (bset1 b) i) as [p|] eqn:E1; destruct (nth_error (bset1 c) i) as [p'|] eqn:E1'; try (apply nth_lt in E1; apply nth_error_None in E1'; rewrite (cl_len1 _ _ _ CL) in E1'; lia);
    try (apply nth_lt in E1'; apply nth_error_None in E1; rewrite (cl_len1 _ _ _ CL) in E1'; lia); auto.
  destruct (nth_error (bset2 b) j) as [q|] eqn:E2; destruct (nth_error (bset2 c) j) as [q'|] eqn:E2'; try (apply nth_lt in E2; apply nth_error_None in E2'; rewrite (cl_len2 _ _ _ CL) in E2'; lia);
    try (apply nth_lt in E2'; apply nth_error_None in E2; rewrite (cl_len2 _ _ _ CL) in E2'; lia); auto.
  rewrite (cl_weight _ _ _ CL i j p q p' q' E1 E1' E2 E2'). destruct (asked pos i j); cbn [negb]; [now rewrite andb_false_r|]. now rewrite andb_true_r.
Qed.
End Clean.

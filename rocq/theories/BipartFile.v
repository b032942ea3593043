(** BipartFile.v -- reading and writing bipartite networks. *)
From Coq Require Import List Arith Lia Ascii Bool Permutation QArith.
From Verif Require Import Base Num ListLib NatSum IoModel IoSpec IoProof GraphModel GraphSpec GraphProof BipartModel BipartSpec BipartRen BipartMem BipartProj.
Import ListNotations.
Local Open Scope nat_scope.

Section File.
Context {A : Type} {ops : NumOps A}.
Implicit Types (g m : net A) (b : binet A).
Notation row := (label * label * A)%type.

(** ** One side with its search tree *)
Record side m (s : list nat) (d : dict) (labs : list label) : Prop := {
  sd_labs : map (label_of m) s = labs;
  sd_once : NoDup labs;
  sd_num : forall k i n, nth_error s k = Some i -> nth_error m i = Some n -> gnum n = k;
  sd_lt : forall i, In i s -> i < length m;
  sd_find : forall lab p, dict_find d lab = Some p <-> In p s /\ label_of m p = lab
}.
Lemma label_of_app m n i : i < length m -> label_of (m ++ [n]) i = label_of m i.
Proof. intros H. unfold label_of. now rewrite nth_error_app1. Qed.
Lemma side_snoc m n s d labs : side m s d labs -> side (m ++ [n]) s d labs.
Proof.
  intros [H1 H2 H3 H4 H5]. split; auto.
  - rewrite <- H1. apply map_ext_in. intros i Hi. apply label_of_app; auto.
  - intros k i x Ek Ei. rewrite nth_error_app1 in Ei; eauto. apply H4. eapply nth_error_In; eauto.
  - intros i Hi. rewrite app_length. specialize (H4 i Hi). lia.
  - intros lab p. rewrite H5. split; intros [Hp Hl]; split; auto; rewrite ?label_of_app in *; auto.
Qed.
Lemma same_nodes_label g g' i : same_nodes g g' -> label_of g' i = label_of g i.
Proof.
  intros H. unfold label_of. revert i. induction H as [|n m l l' (H & _) _ IH]; intros [|i]; simpl; auto.
Qed.
Lemma same_nodes_num g g' i n' : same_nodes g g' -> nth_error g' i = Some n' -> exists n, nth_error g i = Some n /\ gnum n = gnum n'.
Proof.
  intros H. revert i. induction H as [|n m l l' (H1 & H2 & _) _ IH]; intros [|i] E; simpl in *; try discriminate; [|now apply IH].
  injection E as <-. eauto.
Qed.
Lemma side_nodes m m' s d labs : same_nodes m m' -> side m s d labs -> side m' s d labs.
Proof.
  intros Sn [H1 H2 H3 H4 H5]. split; auto.
  - rewrite <- H1. apply map_ext. intros i. now apply same_nodes_label.
  - intros k i n' Ek Ei. destruct (same_nodes_num _ _ _ _ Sn Ei) as (n & En & <-). eauto.
  - intros i Hi. rewrite <- (same_nodes_length _ _ Sn). auto.
  - intros lab p. rewrite H5, (same_nodes_label _ _ _ Sn). reflexivity.
Qed.
Lemma side_inj m s d labs i j : side m s d labs -> In i s -> In j s -> label_of m i = label_of m j -> i = j.
Proof. intros [H1 H2 H3 H4 H5] Hi Hj E. assert (dict_find d (label_of m i) = Some i) by (apply H5; auto). assert (dict_find d (label_of m i) = Some j) by (apply H5; auto). congruence. Qed.
Lemma last_of (s : list nat) k : match rev s with [] => None | x :: _ => Some x end = Some k <-> exists s', s = s' ++ [k].
Proof.
  destruct s as [|x s _] using rev_ind; simpl. { split; [discriminate|]. intros [[|? ?] H]; discriminate. }
  rewrite rev_app_distr. simpl. split; [intros [= <-]; eauto|]. intros [s' H]. apply app_inj_tail in H as [_ ->]. reflexivity.
Qed.
Lemma intern_spec m s d L lab : side m s d (numbered L) -> length lab < 100 ->
  exists p m' s' d', intern_node m s d lab = Ok (p, m', s', d') /\ side m' s' d' (numbered (L ++ [lab])) /\ In p s' /\ label_of m' p = lab /\
    (In lab L /\ m' = m /\ s' = s \/ ~ In lab L /\ m' = m ++ [bare lab (length s)] /\ s' = s ++ [length m] /\ p = length m).
Proof.
  intros Sd Hl. pose proof Sd as [H1 H2 H3 H4 H5]. unfold intern_node. destruct (dict_find d lab) as [p|] eqn:E.
  - apply H5 in E as [Ip El]. assert (Hin : In lab L). { apply numbered_In. rewrite <- H1, <- El. now apply in_map. }
    exists p, m, s, d. rewrite numbered_snoc_old by auto. splits; auto.
  - assert (Hn : ~ In lab L). { intros H. apply numbered_In in H. rewrite <- H1 in H. apply in_map_iff in H as (p & El & Ip). assert (dict_find d lab = Some p) by (apply H5; auto). congruence. }
    unfold CreateNodeAt, store_label, max_label. rewrite (proj2 (Nat.ltb_lt _ _) Hl). cbn [check bind].
    assert (En : match match rev s with [] => None | k :: _ => Some k end with None => Ok 0 | Some k => do n <- get m k; Ok (gnum n + 1) end = Ok (length s)).
    { destruct (match rev s with [] => None | k :: _ => Some k end) as [k|] eqn:Ek.
      - apply last_of in Ek as [s' ->]. destruct (nth_ex m k) as [n En]; [apply H4; apply in_or_app; simpl; auto|]. rewrite (get_ok _ _ _ En). cbn [bind]. f_equal.
        rewrite (H3 (length s') k n); auto; [rewrite app_length; simpl; lia|]. rewrite nth_error_app2, Nat.sub_diag by lia. reflexivity.
      - destruct s as [|x s] using rev_ind; auto. rewrite rev_app_distr in Ek. discriminate. }
    rewrite En. cbn [bind]. exists (length m), (m ++ [bare lab (length s)]), (s ++ [length m]), ((lab, length m) :: d).
    assert (Lb : label_of (m ++ [bare lab (length s)]) (length m) = lab) by (unfold label_of; rewrite nth_error_app2, Nat.sub_diag by lia; reflexivity).
    splits; [reflexivity| |apply in_or_app; simpl; auto|exact Lb|right; auto]. rewrite numbered_snoc_new by auto. split.
    + rewrite map_app, <- H1. simpl. rewrite Lb. f_equal. apply map_ext_in. intros i Hi. apply label_of_app; auto.
    + rewrite <- (numbered_snoc_new L lab Hn). apply numbered_NoDup.
    + intros k i n Ek Ei. apply nth_snoc in Ek as [Ek|[-> ->]].
      * rewrite nth_error_app1 in Ei; eauto. apply H4. eapply nth_error_In; eauto.
      * rewrite nth_error_app2, Nat.sub_diag in Ei by lia. injection Ei as <-. reflexivity.
    + intros i Hi. rewrite app_length. simpl. apply in_app_or in Hi as [Hi|[<-|[]]]; [specialize (H4 i Hi)|]; lia.
    + intros lab' p. simpl. destruct (label_eqb lab lab') eqn:El.
      * apply label_eqb_eq in El. subst lab'. split.
        -- intros [= <-]. split; auto. apply in_or_app; simpl; auto.
        -- intros [Hp Hlp]. apply in_app_or in Hp as [Hp|[<-|[]]]; auto. exfalso. rewrite label_of_app in Hlp by auto. apply Hn. apply numbered_In. rewrite <- H1, <- Hlp. now apply in_map.
      * rewrite H5. split.
        -- intros [Hp Hlp]. split; [apply in_or_app; auto|]. rewrite label_of_app; auto.
        -- intros [Hp Hlp]. apply in_app_or in Hp as [Hp|[<-|[]]]. { rewrite label_of_app in Hlp by auto. auto. }
           rewrite Lb in Hlp. subst lab'. rewrite (proj2 (label_eqb_eq lab lab) eq_refl) in El. discriminate.
Qed.

(** ** Weights of rows *)
Lemma same_ends_true a c (r : row) : same_ends a c r = true <-> fst r = (a, c).
Proof.
  destruct r as [[x y] w]. cbn. rewrite andb_true_iff, !eqb_label_eq. split; [intros [-> ->]; reflexivity|]. intros [= -> ->]. auto.
Qed.
Lemma rows_weight_snoc aw es a c w x y : rows_weight aw (es ++ [(a, c, w)]) x y =
  if same_ends x y (a, c, w) then match rows_weight aw es a c with Some v => Some (if aw then nadd v w else v) | None => Some w end else rows_weight aw es x y.
Proof.
  unfold rows_weight. rewrite filter_app, map_app. cbn [filter]. destruct (same_ends x y (a, c, w)) eqn:E.
  - apply same_ends_true in E. cbn in E. injection E as <- <-. cbn [map snd]. destruct (map snd (filter (same_ends a c) es)) as [|v vs]; cbn [app fold_left].
    + destruct aw; reflexivity.
    + destruct aw; auto. now rewrite fold_left_app.
  - simpl. now rewrite app_nil_r.
Qed.
Lemma rows_weight_none aw (es : list row) x y : (forall w, ~ In (x, y, w) es) -> rows_weight aw es x y = None.
Proof.
  intros H. unfold rows_weight. destruct (filter (same_ends x y) es) as [|r l] eqn:E; auto. exfalso.
  assert (Hr : In r (filter (same_ends x y) es)) by (rewrite E; simpl; auto). apply filter_In in Hr as [Hr Hs]. apply same_ends_true in Hs. destruct r as [[a c] w]. cbn in Hs. injection Hs as -> ->. eapply H; eauto.
Qed.
Lemma rows_weight_some aw (es : list row) x y w : In (x, y, w) es -> rows_weight aw es x y <> None.
Proof.
  intros H. unfold rows_weight. destruct (filter (same_ends x y) es) as [|r l] eqn:E; [|discriminate]. exfalso.
  assert (Hr : In (x, y, w) (filter (same_ends x y) es)) by (apply filter_In; split; auto; now apply same_ends_true). rewrite E in Hr. destruct Hr.
Qed.

(** ** Building *)
Record built aw (es : list row) b d1 d2 : Prop := {
  bt_simple : simple (bmem b);
  bt_nodes : Permutation (bset1 b ++ bset2 b) (seq 0 (length (bmem b)));
  bt_cross : forall i j, In j (nbrs (bmem b) i) -> In i (bset1 b) /\ In j (bset2 b) \/ In i (bset2 b) /\ In j (bset1 b);
  bt_side1 : side (bmem b) (bset1 b) d1 (numbered (map (fun r => fst (fst r)) es));
  bt_side2 : side (bmem b) (bset2 b) d2 (numbered (map (fun r => snd (fst r)) es));
  bt_weight : forall i j, In i (bset1 b) -> In j (bset2 b) -> weight (bmem b) i j = rows_weight aw es (label_of (bmem b) i) (label_of (bmem b) j);
  bt_fields : forall n, In n (bmem b) -> gstate n = 0 /\ ggroup n = None
}.
Lemma built_network aw es b d1 d2 : built aw es b d1 d2 -> network_of aw es b.
Proof.
  intros [H1 H2 H3 H4 H5 H6 H7]. split; auto; try (apply H4); try (apply H5). destruct b as [m s1 s2]. apply simple_bi; auto; [apply H4|apply H5].
Qed.
Lemma built_nil aw : built aw [] (mkBi [] [] []) [] [].
Proof.
  split; cbn; try (intros; tauto).
  - apply simple_nil.
  - constructor.
  - intros [|i] j [].
  - split; cbn; try (intros; tauto); try constructor. { intros [|k] i n E; discriminate. } { discriminate. } { intros [[] _]. }
  - split; cbn; try (intros; tauto); try constructor. { intros [|k] i n E; discriminate. } { discriminate. } { intros [[] _]. }
Qed.
(** A node without links joins one side. *)
Lemma add_first m s1 s2 lab num : simple m -> Permutation (s1 ++ s2) (seq 0 (length m)) -> Permutation ((s1 ++ [length m]) ++ s2) (seq 0 (length (m ++ [bare lab num]))).
Proof.
  intros _ H. rewrite app_length. simpl. rewrite Nat.add_1_r, seq_S. simpl. rewrite <- app_assoc. rewrite (Permutation_app_comm [length m] s2), app_assoc. now apply Permutation_app_tail.
Qed.
Lemma add_second m s1 s2 lab num : simple m -> Permutation (s1 ++ s2) (seq 0 (length m)) -> Permutation (s1 ++ s2 ++ [length m]) (seq 0 (length (m ++ [bare lab num]))).
Proof. intros _ H. rewrite app_length. simpl. rewrite Nat.add_1_r, seq_S. simpl. rewrite app_assoc. now apply Permutation_app_tail. Qed.

Lemma built_node1 aw es b d1 d2 lab : built aw es b d1 d2 -> length lab < 100 ->
  exists p m' s' d', intern_node (bmem b) (bset1 b) d1 lab = Ok (p, m', s', d') /\ In p s' /\ label_of m' p = lab /\
    simple m' /\ Permutation (s' ++ bset2 b) (seq 0 (length m')) /\ (forall i j, In j (nbrs m' i) -> In i s' /\ In j (bset2 b) \/ In i (bset2 b) /\ In j s') /\
    side m' s' d' (numbered (map (fun r => fst (fst r)) es ++ [lab])) /\ side m' (bset2 b) d2 (numbered (map (fun r => snd (fst r)) es)) /\
    (forall i j, In i s' -> In j (bset2 b) -> weight m' i j = rows_weight aw es (label_of m' i) (label_of m' j)) /\ (forall n, In n m' -> gstate n = 0 /\ ggroup n = None).
Proof.
  intros [H1 H2 H3 H4 H5 H6 H7] Hl. destruct (intern_spec _ _ _ _ lab H4 Hl) as (p & m' & s' & d' & E & S' & Ip & Lp & [(Hin & -> & ->)|(Hn & -> & -> & ->)]).
  - exists p, (bmem b), (bset1 b), d'. splits; auto.
  - do 4 eexists. split; [exact E|]. splits; auto.
    + now apply simple_snoc.
    + now apply add_first.
    + intros i j. rewrite nbrs_snoc by reflexivity. intros H. destruct (H3 i j H) as [[K1 K2]|[K1 K2]]; [left|right]; split; auto; apply in_or_app; auto.
    + now apply side_snoc.
    + intros i j Hi Hj. rewrite weight_snoc by reflexivity. rewrite (label_of_app _ _ j) by (apply (sd_lt _ _ _ _ H5); auto). apply in_app_or in Hi as [Hi|[<-|[]]].
      * rewrite (label_of_app _ _ i) by (apply (sd_lt _ _ _ _ H4); auto). auto.
      * rewrite Lp. rewrite rows_weight_none. { unfold weight. now rewrite (proj2 (nth_error_None _ _)). }
        intros w Hw. apply Hn. apply in_map_iff. exists (lab, label_of (bmem b) j, w). auto.
    + intros n Hin. apply in_app_or in Hin as [Hin|[<-|[]]]; auto.
Qed.
Lemma built_node2 aw es m s1 s2 d1 d2 lab labs1 : simple m -> Permutation (s1 ++ s2) (seq 0 (length m)) ->
  (forall i j, In j (nbrs m i) -> In i s1 /\ In j s2 \/ In i s2 /\ In j s1) -> side m s1 d1 labs1 -> side m s2 d2 (numbered (map (fun r => snd (fst r)) es)) ->
  (forall i j, In i s1 -> In j s2 -> weight m i j = rows_weight aw es (label_of m i) (label_of m j)) -> (forall n, In n m -> gstate n = 0 /\ ggroup n = None) -> length lab < 100 ->
  exists q m' s' d', intern_node m s2 d2 lab = Ok (q, m', s', d') /\ In q s' /\ label_of m' q = lab /\ (forall i, In i s1 -> label_of m' i = label_of m i) /\
    simple m' /\ Permutation (s1 ++ s') (seq 0 (length m')) /\ (forall i j, In j (nbrs m' i) -> In i s1 /\ In j s' \/ In i s' /\ In j s1) /\
    side m' s1 d1 labs1 /\ side m' s' d' (numbered (map (fun r => snd (fst r)) es ++ [lab])) /\
    (forall i j, In i s1 -> In j s' -> weight m' i j = rows_weight aw es (label_of m' i) (label_of m' j)) /\ (forall n, In n m' -> gstate n = 0 /\ ggroup n = None).
Proof.
  intros H1 H2 H3 H4 H5 H6 H7 Hl. destruct (intern_spec _ _ _ _ lab H5 Hl) as (p & m' & s' & d' & E & S' & Ip & Lp & [(Hin & -> & ->)|(Hn & -> & -> & ->)]).
  - exists p, m, s2, d'. splits; auto.
  - do 4 eexists. split; [exact E|]. splits; auto.
    + intros i Hi. apply label_of_app. apply (sd_lt _ _ _ _ H4); auto.
    + now apply simple_snoc.
    + now apply add_second.
    + intros i j. rewrite nbrs_snoc by reflexivity. intros H. destruct (H3 i j H) as [[K1 K2]|[K1 K2]]; [left|right]; split; auto; apply in_or_app; auto.
    + now apply side_snoc.
    + intros i j Hi Hj. rewrite weight_snoc by reflexivity. rewrite (label_of_app _ _ i) by (apply (sd_lt _ _ _ _ H4); auto). apply in_app_or in Hj as [Hj|[<-|[]]].
      * rewrite (label_of_app _ _ j) by (apply (sd_lt _ _ _ _ H5); auto). auto.
      * rewrite Lp. rewrite rows_weight_none.
        -- rewrite (si_sym _ H1). unfold weight. now rewrite (proj2 (nth_error_None _ _)).
        -- intros w Hw. apply Hn. apply in_map_iff. exists (label_of m i, lab, w). auto.
    + intros n Hin. apply in_app_or in Hin as [Hin|[<-|[]]]; auto.
Qed.
Lemma same_nodes_fields g g' : same_nodes g g' -> (forall n, In n g -> gstate n = 0 /\ ggroup n = None) -> forall n, In n g' -> gstate n = 0 /\ ggroup n = None.
Proof.
  intros H. induction H as [|n m l l' (E1 & E2 & E3 & E4 & E5) _ IH]; intros Hf x Hx; [destruct Hx|].
  destruct Hx as [<-|Hx]; [|apply IH; auto; intros; apply Hf; simpl; auto]. destruct (Hf n (or_introl eq_refl)) as [F1 F2]. rewrite <- E3, <- E4. auto.
Qed.
Lemma build_line_spec aw es b d1 d2 l1 l2 w : built aw es b d1 d2 -> length l1 < 100 -> length l2 < 100 ->
  exists b' d1' d2', build_line aw b d1 d2 l1 l2 w = Ok (b', d1', d2') /\ built aw (es ++ [(l1, l2, w)]) b' d1' d2'.
Proof.
  intros Bt L1 L2. unfold build_line. destruct (built_node1 aw es b d1 d2 l1 Bt L1) as (p & m & s1 & d1' & -> & Ip & Lp & K1 & K2 & K3 & K4 & K5 & K6 & K7). cbn [bind].
  destruct (built_node2 aw es m s1 (bset2 b) d1' d2 l2 _ K1 K2 K3 K4 K5 K6 K7 L2) as (q & m' & s2 & d2' & -> & Iq & Lq & Eq & G1 & G2 & G3 & G4 & G5 & G6 & G7). cbn [bind].
  assert (Dj : forall i, In i s1 -> In i s2 -> False).
  { intros i Hi Hj. assert (ND : NoDup (s1 ++ s2)) by (eapply Permutation_NoDup; [apply Permutation_sym; exact G2|apply seq_NoDup]). apply NoDup_app_iff in ND as (_ & _ & D). eapply D; eauto. }
  assert (Hpq : p <> q) by (intros ->; eauto).
  destruct (add_both_mem m' p q aw w 0 0 G1) as (r1 & r2 & m1 & m2 & -> & E2 & S2 & N2 & W2); auto; [apply (sd_lt _ _ _ _ G4); auto|apply (sd_lt _ _ _ _ G5); auto|]. cbn [bind]. rewrite E2. cbn [bind].
  do 3 eexists. split; [reflexivity|].
  assert (Lp' : label_of m' p = l1) by (rewrite Eq; auto).
  split; cbn [bmem bset1 bset2]; [auto|..].
  - rewrite <- (same_nodes_length _ _ N2). exact G2.
  - intros i j Hv. apply nbrs_weight in Hv. rewrite W2 in Hv.
    destruct ((i =? p) && (j =? q) || (i =? q) && (j =? p)) eqn:Eb; [|apply G3; now apply nbrs_weight].
    rewrite orb_true_iff, !andb_true_iff, !Nat.eqb_eq in Eb. destruct Eb as [[-> ->]|[-> ->]]; auto.
  - rewrite map_app. eapply side_nodes; eauto.
  - rewrite map_app. eapply side_nodes; eauto.
  - intros i j Hi Hj. rewrite W2, !(same_nodes_label _ _ _ N2), rows_weight_snoc.
    assert (Eb : ((i =? p) && (j =? q) || (i =? q) && (j =? p)) = same_ends (label_of m' i) (label_of m' j) (l1, l2, w)).
    { apply eq_true_iff_eq. rewrite same_ends_true. cbn. rewrite orb_true_iff, !andb_true_iff, !Nat.eqb_eq. split.
      - intros [[-> ->]|[-> ->]]; [congruence|exfalso; eauto].
      - intros [= E1 E3]. left. split; [eapply (side_inj _ _ _ _ _ _ G4)|eapply (side_inj _ _ _ _ _ _ G5)]; eauto; congruence. }
    rewrite Eb. destruct (same_ends _ _ _) eqn:Es; auto. rewrite (G6 p q) by auto. now rewrite Lp', Lq.
  - eapply same_nodes_fields; eauto.
Qed.

Variable scan_lf : list ascii -> option A.
Lemma build_lines_spec weighted aw lines : forall es' es b d1 d2, Forall2 (line_holds scan_lf weighted) lines es' ->
  (forall a c w, In (a, c, w) es' -> length a < 100 /\ length c < 100) -> built aw es b d1 d2 ->
  exists b', build_lines scan_lf weighted aw (b, d1, d2) lines = Ok (Some b') /\ network_of aw (es ++ es') b'.
Proof.
  induction lines as [|l ls IH]; intros es' es b d1 d2 F L Bt; inversion F as [|? e ? es1 Hl F1]; subst; cbn [build_lines].
  - exists b. rewrite app_nil_r. split; auto. eapply built_network; eauto.
  - destruct e as [[a c] w]. destruct (L a c w) as [La Lc]; [simpl; auto|]. rewrite (scan_line_ok scan_lf weighted l a c w Hl La Lc). cbn [bind].
    destruct (build_line_spec aw es b d1 d2 a c w Bt La Lc) as (b' & d1' & d2' & -> & Bt'). cbn [bind].
    destruct (IH es1 _ _ _ _ F1 ltac:(intros; eapply L; simpl; eauto) Bt') as (b'' & E & N). rewrite <- app_assoc in N. eauto.
Qed.
Theorem FBuildNetworkBipart_reads weighted aw file lines es : lines_of file lines -> Forall2 (line_holds scan_lf weighted) lines es ->
  (forall a c w, In (a, c, w) es -> length a < 100 /\ length c < 100) ->
  exists b, FBuildNetworkBipart scan_lf file weighted aw = Ok (Some b) /\ network_of aw es b.
Proof.
  intros HL F L. unfold FBuildNetworkBipart. rewrite (getlines_spec _ _ HL). exact (build_lines_spec weighted aw lines es [] _ _ _ F L (built_nil aw)).
Qed.
(** A line without the expected fields ends the reading. *)
Theorem FBuildNetworkBipart_refuses weighted aw file lines l : lines_of file lines -> In l lines -> (forall e, ~ line_holds scan_lf weighted l e) ->
  (forall s w t, file = s ++ w ++ t -> word w -> length w < 100) -> FBuildNetworkBipart scan_lf file weighted aw = Ok None.
Proof.
  intros HL Hl Hn Hw. unfold FBuildNetworkBipart. rewrite (getlines_spec _ _ HL). destruct HL as (full & last & -> & -> & _). set (lines := full ++ last) in *. clearbody lines. clear full last.
  assert (G : forall ls es b d1 d2, In l ls -> (exists pre, lines = pre ++ ls) -> built aw es b d1 d2 -> build_lines scan_lf weighted aw (b, d1, d2) ls = Ok None).
  { induction ls as [|x ls IH]; intros es b d1 d2 Hin (pre & Ep) Bt; [destruct Hin|]. cbn [build_lines]. pose proof (scan_line_cases scan_lf weighted x) as C.
    destruct (scan_line scan_lf weighted x) as [[[[a c] w]|]|e] eqn:Es; cbn [bind]; auto.
    - destruct C as (Hx & La & Lc). destruct (build_line_spec aw es b d1 d2 a c w Bt La Lc) as (b' & d1' & d2' & -> & Bt'). cbn [bind].
      destruct Hin as [->|Hin]; [destruct (Hn _ Hx)|]. apply (IH _ _ _ _ Hin) with (2 := Bt'). exists (pre ++ [x]). now rewrite <- app_assoc.
    - destruct C as (_ & s & w & t & -> & Ww & Lw). exfalso. specialize (Hw (concat pre ++ s) w (t ++ concat ls)).
      assert (length w < 100); [|lia]. apply Hw; auto. rewrite Ep, concat_app. cbn [concat]. now rewrite <- !app_assoc. }
  apply (G lines [] _ _ _ Hl); [exists []; reflexivity|apply built_nil].
Qed.
End File.

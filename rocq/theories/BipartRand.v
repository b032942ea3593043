(** BipartRand.v -- counting and switching the links of a bipartite network (C27, C50). *)
From Coq Require Import List Arith Lia Bool Permutation QArith.
From Verif Require Import Base Num ListLib NatSum IoModel GraphModel GraphSpec GraphProof SAProof GraphRand BipartModel BipartSpec BipartRen.
Import ListNotations.
Local Open Scope nat_scope.

Section Rand.
Context {A : Type} {ops : NumOps A}.
Implicit Types (g : net A) (b : binet A).

(** ** Counting *)
Lemma degrees_sum g : wf_net g -> forall l t g0, same_links g g0 -> (forall i, In i l -> i < length g) ->
  exists g', foldM (fun '(t, g) i => do (k, g) <- NodeDegree g i; Ok (t + k, g)) (t, g0) l = Ok (t + lsum (degree g) l, g') /\ same_links g g'.
Proof.
  intros W. induction l as [|i l IH]; intros t g0 Hs Hl; simpl.
  - exists g0. rewrite Nat.add_0_r. auto.
  - pose proof Hs as (W0 & S0 & N0 & _). destruct (NodeDegree_spec g0 i W0) as (g1 & E1 & Hs1).
    { rewrite <- (same_nodes_length _ _ S0). apply Hl; simpl; auto. }
    rewrite E1. cbn [bind]. rewrite (same_links_degree g g0 i Hs).
    destruct (IH (t + degree g i) g1) as (g' & E & H).
    + eapply same_links_trans; eauto.
    + intros x Hx. apply Hl; simpl; auto.
    + exists g'. rewrite E. split; auto. now rewrite <- Nat.add_assoc.
Qed.
Lemma degrees_ren num l : forall t g, foldM (fun '(t, g) i => do (k, g) <- NodeDegree g i; Ok (t + k, g)) (t, ren num g) l =
  rmap (fun '(t, g) => (t, ren num g)) (foldM (fun '(t, g) i => do (k, g) <- NodeDegree g i; Ok (t + k, g)) (t, g) l).
Proof.
  induction l as [|i l IH]; intros t g; simpl; auto. rewrite NodeDegree_ren. destruct (NodeDegree g i) as [[k g']|e]; simpl; auto.
Qed.

(** The memory of a bipartite network is a renumbered undirected network. *)
Lemma bi_split b : bipartite b -> bmem b = ren (num_of (bmem b)) (core (bmem b)).
Proof. intros B. symmetry. apply core_back. intros i n l. apply (bi_link b B). Qed.

Definition same_bi b b' : Prop := bset1 b' = bset1 b /\ bset2 b' = bset2 b /\ same_nodes (bmem b) (bmem b') /\
  (forall i, nbrs (bmem b') i = nbrs (bmem b) i) /\ (forall i j, weight (bmem b') i j = weight (bmem b) i j).

Lemma sum_sides b : bipartite b -> lsum (degree (bmem b)) (bset1 b) = lsum (degree (bmem b)) (bset2 b).
Proof.
  intros B. set (g := bmem b).
  assert (ND : NoDup (bset1 b ++ bset2 b)) by (eapply Permutation_NoDup; [symmetry; apply (bi_nodes b B)|apply seq_NoDup]).
  apply NoDup_app_iff in ND as (ND1 & ND2 & Dj).
  assert (M : forall (l : list nat) i, NoDup l -> (forall j, In j (nbrs g i) -> In j l) ->
    degree g i = lsum (fun j => if mem j (nbrs g i) then 1 else 0) l).
  { intros l i ND Hl. unfold degree. rewrite <- count_lsum. unfold count. apply Permutation_length. apply NoDup_Permutation.
    - apply (bi_once b B).
    - now apply NoDup_filter.
    - intros x. rewrite filter_In, mem_In. split; [auto|tauto]. }
  rewrite (lsum_ext (degree g) (fun i => lsum (fun j => if mem j (nbrs g i) then 1 else 0) (bset2 b)) (bset1 b)).
  - rewrite lsum_swap. apply lsum_ext. intros j Hj. symmetry. rewrite (M (bset1 b) j ND1).
    + apply lsum_ext. intros i Hi. replace (mem i (nbrs g j)) with (mem j (nbrs g i)); auto.
      apply eq_true_iff_eq. rewrite !mem_In, !nbrs_weight. unfold g. now rewrite (bi_sym b B).
    + intros i Hi. destruct (bi_cross b B j i Hi) as [[H1 H2]|[H1 H2]]; auto. exfalso. apply (Dj j); auto.
  - intros i Hi. apply M; auto. intros j Hj. destruct (bi_cross b B i j Hj) as [[H1 H2]|[H1 H2]]; auto. exfalso. apply (Dj i); auto.
Qed.

Theorem NLinksBipart_spec b : bipartite b -> exists b', NLinksBipart b = Ok (lsum (degree (bmem b)) (bset1 b), b') /\ bipartite b' /\ same_bi b b'.
Proof.
  intros B. pose proof (bi_undirected b B) as U. unfold NLinksBipart. pose proof (degrees_ren (num_of (bmem b)) (bset1 b) 0 (core (bmem b))) as R. rewrite <- (bi_split b B) in R. rewrite R. clear R.
  destruct (degrees_sum _ (un_wf _ U) (bset1 b) 0 _ (same_links_refl _ (un_wf _ U))) as (g' & E & Hs).
  { intros i Hi. unfold core. rewrite length_ren. eapply bi_lt; eauto. apply in_app_iff; auto. }
  rewrite E. cbn [rmap bind]. set (num := num_of (bmem b)).
  assert (Hd : lsum (degree (core (bmem b))) (bset1 b) = lsum (degree (bmem b)) (bset1 b)) by (apply lsum_ext; intros; apply degree_ren).
  rewrite Nat.add_0_l, Hd. eexists. split; [reflexivity|]. pose proof Hs as (W' & S' & N' & Wt').
  destruct (bi_back b g' B (same_links_undirected _ _ U Hs) S') as [B' SN].
  { intros i j. rewrite N'. unfold core. rewrite nbrs_ren. apply (bi_cross b B). }
  split; [exact B'|]. unfold same_bi. cbn [bmem bset1 bset2]. splits; auto.
  - intros i. rewrite nbrs_ren, N'. apply nbrs_ren.
  - intros i j. rewrite weight_ren, Wt'. apply weight_ren.
Qed.

(** ** The list of links *)
Definition bi_edges b : list (nat * nat) := flat_map (fun i => map (pair i) (nbrs (bmem b) i)) (bset1 b).
Lemma link_list_bi_spec b : bipartite b -> link_list_bi b = Ok (bi_edges b).
Proof.
  intros B. unfold link_list_bi, bi_edges.
  assert (H : forall l acc, (forall i, In i l -> i < length (bmem b)) ->
    foldM (fun acc i => do n <- get (bmem b) i; foldM (fun acc l => do j <- deref (lref l); Ok (acc ++ [(i, j)])) acc (gadj n)) acc l =
    Ok (acc ++ flat_map (fun i => map (pair i) (nbrs (bmem b) i)) l)).
  { induction l as [|i l IH]; intros acc Hl; simpl. { now rewrite app_nil_r. }
    destruct (nth_ex (bmem b) i) as [n En]; [apply Hl; simpl; auto|]. rewrite (get_ok _ _ _ En). cbn [bind].
    assert (Hi : forall ls acc, (forall x, In x ls -> In x (gadj n)) ->
      foldM (fun acc l => do j <- deref (lref l); Ok (acc ++ [(i, j)])) acc ls = Ok (acc ++ map (pair i) (targets ls))).
    { induction ls as [|x ls IHl]; intros ac Hx; simpl. { now rewrite app_nil_r. }
      destruct (bi_link b B i n x En (Hx x (or_introl eq_refl))) as (j & m & E1 & _). rewrite E1. cbn [deref bind].
      rewrite IHl by (intros; apply Hx; simpl; auto). simpl. now rewrite <- app_assoc. }
    rewrite Hi by auto. cbn [bind]. rewrite IH by (intros; apply Hl; simpl; auto). now rewrite (nbrs_eq _ _ _ En), app_assoc. }
  rewrite H; auto. intros i Hi. eapply bi_lt; eauto. apply in_app_iff; auto.
Qed.
Lemma In_bi_edges b x y : In (x, y) (bi_edges b) <-> In x (bset1 b) /\ In y (nbrs (bmem b) x).
Proof.
  unfold bi_edges. rewrite in_flat_map. split.
  - intros (i & Hi & H). apply in_map_iff in H as (j & [= <- <-] & H). auto.
  - intros [H1 H2]. exists x. split; auto. now apply in_map.
Qed.
Lemma bi_edges_length b : length (bi_edges b) = lsum (degree (bmem b)) (bset1 b).
Proof. unfold bi_edges. rewrite length_flat. apply lsum_ext. intros. apply map_length. Qed.
Lemma NoDup_set1 b : bipartite b -> NoDup (bset1 b).
Proof.
  intros B. assert (ND : NoDup (bset1 b ++ bset2 b)) by (eapply Permutation_NoDup; [symmetry; apply (bi_nodes b B)|apply seq_NoDup]).
  now apply NoDup_app_iff in ND.
Qed.
Lemma NoDup_bi_edges b : bipartite b -> NoDup (bi_edges b).
Proof.
  intros B. apply NoDup_flat.
  - now apply NoDup_set1.
  - intros i _. apply FinFun.Injective_map_NoDup; [intros ? ? [=]; auto|]. apply (bi_once b B).
  - intros x x' [c d] _ _ H1 H2. apply in_map_iff in H1 as (? & [= <- <-] & _). apply in_map_iff in H2 as (? & [= <- <-] & _). auto.
Qed.

(** ** Switching *)
Variables s1 s2 : list nat.
Hypothesis apart : forall i, In i s1 -> In i s2 -> False.
Definition across g : Prop := forall i j, In j (nbrs g i) -> In i s1 /\ In j s2 \/ In i s2 /\ In j s1.
Definition across_list (ls : list (nat * nat)) : Prop := forall k x y, nth_error ls k = Some (x, y) -> In x s1 /\ In y s2.

Definition good_both g (ls : list (nat * nat)) (r : nat * nat * nat * nat * nat * nat * list A) ds : Prop :=
  let '(t1, t2, n1, n2, n3, n4, ds') := r in
  nth_error ls t1 = Some (n1, n2) /\ nth_error ls t2 = Some (n3, n4) /\ n1 <> n3 /\ n2 <> n4 /\
  ~ In n4 (nbrs g n1) /\ ~ In n3 (nbrs g n2) /\ exists used, ds = used ++ ds'.

Lemma pick_second_spec ls n1 n2 : 0 < length ls -> forall fuel ds, Forall good_draw ds -> length ds < fuel ->
  safe (pick_second fuel ls (length ls) n1 n2 ds) (fun '(t2, n3, n4, ds') =>
    nth_error ls t2 = Some (n3, n4) /\ n1 <> n3 /\ n2 <> n4 /\ exists used, ds = used ++ ds').
Proof.
  intros Hpos. induction fuel as [|f IH]; intros ds Hd Hf; [lia|]. cbn [pick_second]. destruct ds as [|u ds]; simpl; auto.
  inversion Hd as [|? ? D1 Hd1]; subst. destruct (nth_ex ls (nfloor (nmul u (nofnat (length ls))))) as [[x y] E]; [apply D1; auto|].
  rewrite (get_ok _ _ _ E). cbn [bind].
  assert (IH' : safe (pick_second f ls (length ls) n1 n2 ds) (fun '(t2, n3, n4, ds') =>
    nth_error ls t2 = Some (n3, n4) /\ n1 <> n3 /\ n2 <> n4 /\ exists used, u :: ds = used ++ ds')).
  { eapply safe_impl; [apply IH; auto; simpl in Hf; lia|]. intros [[[t2 n3] n4] ds'] (H1 & H2 & H3 & used & ->). splits; auto. exists (u :: used). reflexivity. }
  destruct (Nat.eqb_spec n1 x); simpl; auto. destruct (Nat.eqb_spec n2 y); simpl; auto. splits; auto. exists [u]. reflexivity.
Qed.

Lemma pick_both_spec g ls : across_list ls -> (forall x, In x s1 \/ In x s2 -> x < length g) -> 0 < length ls -> forall fuel ds, Forall good_draw ds -> length ds < fuel ->
  safe (pick_both fuel g ls (length ls) ds) (fun r => good_both g ls r ds).
Proof.
  intros HA HV Hpos. induction fuel as [|f IH]; intros ds Hd Hf; [lia|]. cbn [pick_both]. destruct ds as [|u ds]; simpl; auto.
  inversion Hd as [|? ? D1 Hd1]; subst. destruct (nth_ex ls (nfloor (nmul u (nofnat (length ls))))) as [[n1 n2] E1]; [apply D1; auto|].
  rewrite (get_ok _ _ _ E1). cbn [bind].
  eapply safe_bind; [apply pick_second_spec; auto; lia|]. intros [[[t2 n3] n4] ds'] (E2 & D13 & D24 & used & ->).
  apply Forall_app in Hd1 as [_ Hd']. destruct (HA _ _ _ E1) as [V1 V2]. destruct (HA _ _ _ E2) as [V3 V4].
  rewrite !IsThereLink_spec by auto. cbn [bind].
  assert (IH' : safe (pick_both f g ls (length ls) ds') (fun r => good_both g ls r (u :: used ++ ds'))).
  { eapply safe_impl; [apply IH; auto; simpl in Hf; rewrite app_length in Hf; lia|].
    intros [[[[[[t1' t2'] m1] m2] m3] m4] ds''] (H1 & H2 & H3 & H4 & H5 & H6 & used' & ->).
    split; splits; auto. exists (u :: used ++ used'). simpl. now rewrite app_assoc. }
  destruct (in_dec _ n4 _); auto. destruct (in_dec _ n3 _); auto. split; splits; auto. exists (u :: used). reflexivity.
Qed.

Record switched_bi g (ls : list (nat * nat)) g' (ls' : list (nat * nat)) : Prop := {
  sb_sw : switched g ls g' ls';
  sb_across : across g';
  sb_list : across_list ls';
  sb_weight : forall x y w, weight g' x y = Some w -> weight g x y = Some w \/ w = n0 }.

Lemma switch_bi_spec g ls ds : undirected g -> across g -> (forall x, In x s1 \/ In x s2 -> x < length g) -> listed g ls -> across_list ls -> 0 < length ls -> Forall good_draw ds ->
  safe (switch_bi (g, ls, ds) (length ls)) (fun '(g', ls', ds') => switched_bi g ls g' ls' /\ Forall good_draw ds').
Proof.
  intros U X HV HLs HA Hpos Hd. unfold switch_bi. eapply safe_bind; [apply pick_both_spec; auto; lia|].
  intros [[[[[[t1 t2] n1] n2] n3] n4] ds'] (E1 & E2 & D13 & D24 & A14 & A23 & used & ->).
  destruct (HA _ _ _ E1) as [V1 V2]. destruct (HA _ _ _ E2) as [V3 V4].
  assert (n3 <> n2) by (intros ->; eauto). assert (n4 <> n1) by (intros ->; eauto).
  destruct (switch_ends_spec g ls t1 t2 n1 n2 n3 n4 n0 U HLs E1 (or_introl E2)) as (g' & -> & Hs & T1 & T2 & Wt); auto.
  cbn [bind]. rewrite set_ok by auto. cbn [bind]. rewrite set_ok by (rewrite length_upd; auto). cbn [bind safe].
  split; [|apply Forall_app in Hd; tauto]. split; auto.
  - intros x y Hy. apply nbrs_weight in Hy. rewrite Wt in Hy. unfold switched_weight in Hy.
    destruct ((x =? n3) && (y =? n2) || (x =? n2) && (y =? n3)) eqn:C. { apply orb_true_iff in C as [C|C]; apply andb_true_iff in C as [C C']; apply Nat.eqb_eq in C, C'; subst; auto. }
    clear C. destruct ((x =? n1) && (y =? n4) || (x =? n4) && (y =? n1)) eqn:C. { apply orb_true_iff in C as [C|C]; apply andb_true_iff in C as [C C']; apply Nat.eqb_eq in C, C'; subst; auto. }
    destruct ((x =? n3) && (y =? n4) || (x =? n4) && (y =? n3)); [congruence|]. destruct ((x =? n1) && (y =? n2) || (x =? n2) && (y =? n1)); [congruence|]. apply X. now apply nbrs_weight.
  - intros k x y. rewrite nth_upd. destruct (_ && _); [intros [= <- <-]; auto|]. rewrite nth_upd. destruct (_ && _); [intros [= <- <-]; auto|]. apply HA.
  - intros x y w. rewrite Wt. unfold switched_weight. destruct (_ || _); [intros [= <-]; auto|]. destruct (_ || _); [intros [= <-]; auto|].
    destruct (_ || _); [discriminate|]. destruct (_ || _); [discriminate|auto].
Qed.

Lemma pick_both_ren num ls nlink : forall fuel g ds, pick_both fuel (ren num g) ls nlink ds = pick_both fuel g ls nlink ds.
Proof.
  induction fuel as [|f IH]; intros g ds; auto. cbn [pick_both]. destruct (draw ds) as [[u ds1]|e]; auto. cbn [bind].
  destruct (get ls _) as [[n1 n2]|e]; auto. cbn [bind]. destruct (pick_second _ _ _ _ _ _) as [[[[t2 n3] n4] ds2]|e]; auto. cbn [bind].
  rewrite !IsThereLink_ren. destruct (IsThereLink g n1 n4) as [[]|e]; cbn [bind]; auto. destruct (IsThereLink g n2 n3) as [[]|e]; cbn [bind]; auto.
Qed.
Definition ren_st num (st : net A * list (nat * nat) * list A) := let '(g, ls, ds) := st in (ren num g, ls, ds).
Lemma switch_bi_ren num nlink st : switch_bi (ren_st num st) nlink = rmap (ren_st num) (switch_bi st nlink).
Proof.
  destruct st as [[g ls] ds]. unfold switch_bi, ren_st. rewrite pick_both_ren. destruct (pick_both _ _ _ _ _) as [[[[[[[t1 t2] n1] n2] n3] n4] ds']|e]; auto. cbn [bind].
  rewrite switch_ends_ren. destruct (switch_ends g n1 n2 n3 n4 n0) as [g'|e]; auto. cbn [rmap bind]. destruct (set ls t1 _) as [ls1|e]; auto. cbn [bind].
  destruct (set ls1 t2 _); reflexivity.
Qed.
Lemma switches_ren num nlink l : forall st, foldM (fun st _ => switch_bi st nlink) (ren_st num st) l = rmap (ren_st num) (foldM (fun st (_ : nat) => switch_bi st nlink) st l).
Proof.
  induction l as [|i l IH]; intros st; auto. cbn [foldM]. rewrite switch_bi_ren. destruct (switch_bi st nlink) as [st'|e]; cbn [rmap bind]; auto.
Qed.
End Rand.

Section Main.
Context {A : Type} {ops : NumOps A}.
Implicit Types (g : net A) (b : binet A).

(** C27.  With at least one link the only way not to return is to need more draws. *)
Theorem RandomizeBipart_spec b times ds : bipartite b -> Forall good_draw ds -> (exists i j, In j (nbrs (bmem b) i)) ->
  safe (RandomizeBipart b times ds) (fun '(b', ds') => bipartite b' /\ bset1 b' = bset1 b /\ bset2 b' = bset2 b /\ same_nodes (bmem b) (bmem b') /\
    (forall i, degree (bmem b') i = degree (bmem b) i) /\
    (forall i j w, weight (bmem b') i j = Some w -> weight (bmem b) i j = Some w \/ w = n0)).
Proof.
  intros B Hd (i0 & j0 & Hex). unfold RandomizeBipart.
  destruct (NLinksBipart_spec b B) as (b1 & -> & B1 & (F1 & F2 & F3 & F4 & F5)). cbn [bind].
  rewrite (link_list_bi_spec b1 B1). cbn [bind].
  assert (El : length (bi_edges b1) = lsum (degree (bmem b)) (bset1 b)).
  { rewrite bi_edges_length, F1. apply lsum_ext. intros i _. unfold degree. now rewrite F4. }
  rewrite <- El, Nat.leb_refl. cbn [check bind]. clear El.
  assert (Hpos : 0 < length (bi_edges b1)).
  { assert (H : exists x y, In (x, y) (bi_edges b1)).
    { rewrite <- F4 in Hex. destruct (bi_cross b1 B1 i0 j0 Hex) as [[H1 H2]|[H1 H2]]; [exists i0, j0|exists j0, i0]; apply In_bi_edges; split; auto.
      apply nbrs_weight. rewrite (bi_sym b1 B1). now apply nbrs_weight. }
    destruct H as (x & y & H). destruct (bi_edges b1); simpl in *; [tauto|lia]. }
  assert (Ap : forall i, In i (bset1 b1) -> In i (bset2 b1) -> False) by (intros; eapply bi_disjoint; eauto).
  set (g1 := core (bmem b1)). set (num := num_of (bmem b1)). pose proof (bi_undirected b1 B1) as U1. fold g1 in U1.
  rewrite (bi_split b1 B1). fold g1 num.
  change (ren num g1, bi_edges b1, ds) with (ren_st num (g1, bi_edges b1, ds)). rewrite switches_ren.
  assert (N1 : forall i, nbrs g1 i = nbrs (bmem b1) i) by (intros; apply nbrs_ren).
  assert (H : safe (foldM (fun st (_ : nat) => switch_bi st (length (bi_edges b1))) (g1, bi_edges b1, ds) (seq 0 (nceil (nmul times (nofnat (length (bi_edges b1)))))))
    (fun '(g', ls', ds') => switched_bi (bset1 b1) (bset2 b1) g1 (bi_edges b1) g' ls' /\ Forall good_draw ds')).
  { refine (foldM_seq_safe (fun _ '(g', ls', ds') => switched_bi (bset1 b1) (bset2 b1) g1 (bi_edges b1) g' ls' /\ Forall good_draw ds') (fun e => e = RngOut) _ _ (g1, bi_edges b1, ds) _ _).
    - split; auto. assert (HA : across_list (bset1 b1) (bset2 b1) (bi_edges b1)).
      { intros k x y E. apply nth_error_In, In_bi_edges in E as [E1 E2]. split; auto. destruct (bi_cross b1 B1 x y E2) as [[H1 H2]|[H1 H2]]; auto. exfalso; eauto. }
      split; auto.
      + split; auto using same_nodes_refl. split.
        * intros k x y E. rewrite N1. apply nth_error_In, In_bi_edges in E. tauto.
        * intros k k' [x y] [x' y'] E E' Hk [H|H].
          -- injection H as -> ->. apply Hk. apply (proj1 (NoDup_nth_error _) (NoDup_bi_edges b1 B1)); [eapply nth_lt; eauto|congruence].
          -- injection H as -> ->. apply HA in E, E'. destruct E, E'. eauto.
      + intros i j. rewrite N1. apply (bi_cross b1 B1).
    - intros _ [[g' ls'] ds'] _ [[[H1 H2 H3 H4 H5] H6 H7 H8] H9].
      assert (HV : forall x, In x (bset1 b1) \/ In x (bset2 b1) -> x < length g').
      { intros x Hx. rewrite <- (same_nodes_length _ _ H2). unfold g1, core. rewrite length_ren. apply (bi_lt b1 x B1). now apply in_app_iff. }
      pose proof (switch_bi_spec _ _ Ap g' ls' ds' H1 H6 HV H4 H7 ltac:(lia) H9) as H. rewrite H5 in H.
      destruct (switch_bi _ _) as [[[g2 ls2] ds2]|e]; auto. destruct H as [[[K1 K2 K3 K4 K5] K6 K7 K8] K9]. split; auto. split; auto.
      + split; auto; [eapply same_nodes_trans; eauto| |lia]. intros i. now rewrite K3.
      + intros x y w Hw. apply K8 in Hw as [Hw|Hw]; auto. }
  destruct (foldM _ _ _) as [[[g' ls'] ds']|e]; simpl in *; auto.
  destruct H as [[[H1 H2 H3 H4 H5] H6 H7 H8] H9].
  destruct (bi_back b1 g' B1 H1 H2 H6) as [B' SN]. fold num in B', SN. splits; auto.
  - eapply same_nodes_trans; eauto.
  - intros i. rewrite degree_ren, H3. unfold g1, core. rewrite degree_ren. unfold degree. now rewrite F4.
  - intros i j w. rewrite weight_ren. intros Hw. apply H8 in Hw as [Hw|Hw]; auto. unfold g1, core in Hw. rewrite weight_ren, F5 in Hw. auto.
Qed.
End Main.

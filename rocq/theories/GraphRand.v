(** GraphRand.v -- degrees add up to twice the number of links; switching links keeps every degree (C26). *)
From Coq Require Import List Arith Lia Bool Permutation QArith.
From Verif Require Import Base Num ListLib NatSum IoModel GraphModel GraphSpec GraphProof SAProof.
Import ListNotations.
Local Open Scope nat_scope.

Section Rand.
Context {A : Type} {ops : NumOps A}.
Implicit Types g : net A.

(** The links of an undirected network, each once. *)
Definition edges g : list (nat * nat) :=
  flat_map (fun i => map (pair i) (filter (fun j => j <? i) (nbrs g i))) (seq 0 (length g)).

Lemma sum_deg_lsum g : sum_deg g = lsum (degree g) (seq 0 (length g)).
Proof. unfold sum_deg. now rewrite lsum_fold. Qed.

Lemma mem_nbrs_sym g i j : undirected g -> mem i (nbrs g j) = mem j (nbrs g i).
Proof.
  intros U. apply eq_true_iff_eq. rewrite !mem_In. split; apply undirected_sym; auto.
Qed.

Lemma handshake g : undirected g -> sum_deg g = 2 * length (edges g).
Proof.
  intros U. pose proof U as [W Lp Sy]. rewrite sum_deg_lsum. unfold edges. rewrite length_flat.
  set (V := seq 0 (length g)).
  assert (H : forall P i, count P (nbrs g i) = lsum (fun j => if mem j (nbrs g i) then if P j then 1 else 0 else 0) V).
  { intros P i. rewrite count_lsum. apply lsum_members; [apply (wf_nodup g W)|]. intros x Hx. now destruct (nbrs_lt g i x W Hx). }
  rewrite (lsum_ext (degree g) (fun i => count (fun j => j <? i) (nbrs g i) + count (fun j => i <? j) (nbrs g i))).
  - rewrite lsum_add. rewrite (lsum_ext (fun i => count (fun j => i <? j) (nbrs g i)) (fun i => lsum (fun j => if mem j (nbrs g i) then if i <? j then 1 else 0 else 0) V)) by auto.
    rewrite lsum_swap.
    rewrite (lsum_ext (fun y => length (map (pair y) _)) (fun i => count (fun j => j <? i) (nbrs g i))) by (intros; apply map_length).
    rewrite (lsum_ext (fun y => lsum _ V) (fun i => count (fun j => j <? i) (nbrs g i))); [lia|].
    intros y _. rewrite H. apply lsum_ext. intros x _. now rewrite (mem_nbrs_sym g y x U).
  - intros i _. unfold degree. specialize (Lp i). induction (nbrs g i) as [|j l IH]; simpl; auto. rewrite !count_cons.
    rewrite IH by (intros ?; apply Lp; simpl; auto). assert (j <> i) by (intros ->; apply Lp; simpl; auto).
    destruct (Nat.ltb_spec j i), (Nat.ltb_spec i j); lia.
Qed.

Lemma In_edges g a b : In (a, b) (edges g) <-> In b (nbrs g a) /\ b < a /\ a < length g.
Proof.
  unfold edges. rewrite in_flat_map. split.
  - intros (i & Hi & H). apply in_map_iff in H as (j & [= <- <-] & H). apply filter_In in H as [H1 H2]. apply in_seq in Hi.
    apply Nat.ltb_lt in H2. splits; auto. lia.
  - intros (H1 & H2 & H3). exists a. split; [apply in_seq; lia|]. apply in_map, filter_In. split; auto. now apply Nat.ltb_lt.
Qed.
Lemma NoDup_flat {X Y} (h : X -> list Y) l : NoDup l -> (forall x, In x l -> NoDup (h x)) ->
  (forall x x' y, In x l -> In x' l -> In y (h x) -> In y (h x') -> x = x') -> NoDup (flat_map h l).
Proof.
  induction l as [|x l IH]; simpl; intros ND H1 H2; [constructor|]. inversion ND; subst. apply NoDup_app_iff. splits.
  - apply H1; auto.
  - apply IH; auto. intros; eapply H2; eauto.
  - intros y Hy Hf. apply in_flat_map in Hf as (x' & Hx' & Hy'). assert (x = x') by (eapply H2; eauto). subst. contradiction.
Qed.
Lemma NoDup_edges g : wf_net g -> NoDup (edges g).
Proof.
  intros W. apply NoDup_flat.
  - apply seq_NoDup.
  - intros i _. apply FinFun.Injective_map_NoDup; [intros ? ? [=]; auto|]. apply NoDup_filter, (wf_nodup g W).
  - intros x x' [a b] _ _ H1 H2. apply in_map_iff in H1 as (? & [= <- <-] & _). apply in_map_iff in H2 as (? & [= <- <-] & _). auto.
Qed.

Lemma link_list_spec g : wf_net g -> link_list g = Ok (edges g).
Proof.
  intros W. unfold link_list, edges.
  assert (H : forall l acc, (forall i, In i l -> i < length g) ->
    foldM (fun acc i => do n <- get g i;
      foldM (fun acc l => if lnode l <? gnum n then do j <- deref (lref l); Ok (acc ++ [(i, j)]) else Ok acc) acc (gadj n)) acc l =
    Ok (acc ++ flat_map (fun i => map (pair i) (filter (fun j => j <? i) (nbrs g i))) l)).
  { induction l as [|i l IH]; intros acc Hl; simpl. { now rewrite app_nil_r. }
    destruct (nth_ex g i) as [n En]; [apply Hl; simpl; auto|]. rewrite (get_ok _ _ _ En). cbn [bind]. rewrite (wf_num g W i n En).
    assert (Hi : forall ls acc, (forall x, In x ls -> In x (gadj n)) ->
      foldM (fun acc l => if lnode l <? i then do j <- deref (lref l); Ok (acc ++ [(i, j)]) else Ok acc) acc ls =
      Ok (acc ++ map (pair i) (filter (fun j => j <? i) (targets ls)))).
    { induction ls as [|x ls IHl]; intros ac Hx; simpl. { now rewrite app_nil_r. }
      destruct (wf_link g W i n x En (Hx x (or_introl eq_refl))) as (j & m & E1 & E2 & E3 & E4).
      rewrite E1, E3. cbn [deref bind]. simpl.
      destruct (j <? i); cbn [bind]; rewrite IHl; auto; try (intros; apply Hx; simpl; auto).
      now rewrite <- app_assoc. }
    rewrite Hi by auto. cbn [bind]. rewrite IH by (intros; apply Hl; simpl; auto).
    now rewrite (nbrs_eq g i n En), app_assoc. }
  rewrite H; auto. intros i Hi. apply in_seq in Hi. lia.
Qed.

(** ** Switching *)
Definition same_edge (e f : nat * nat) : Prop := e = f \/ e = (snd f, fst f).
Lemma edge_neq a b c d : ~ same_edge (a, b) (c, d) -> ((a =? c) && (b =? d)) || ((a =? d) && (b =? c)) = false.
Proof.
  intros H. apply not_true_is_false. intros E. apply H. apply orb_true_iff in E as [E|E]; apply andb_true_iff in E as [E1 E2];
    apply Nat.eqb_eq in E1, E2; subst; [left|right]; reflexivity.
Qed.
Definition listed g (ls : list (nat * nat)) : Prop :=
  (forall k a b, nth_error ls k = Some (a, b) -> In b (nbrs g a)) /\
  (forall k k' e f, nth_error ls k = Some e -> nth_error ls k' = Some f -> k <> k' -> ~ same_edge e f).

Lemma listed_edges g : undirected g -> listed g (edges g).
Proof.
  intros [W Lp Sy]. split.
  - intros k a b E. apply nth_error_In, In_edges in E. tauto.
  - intros k k' [a b] [c d] E E' Hk [H|H].
    + injection H as -> ->. apply Hk. apply (proj1 (NoDup_nth_error _) (NoDup_edges g W)); [eapply nth_lt; eauto|congruence].
    + injection H as -> ->. apply nth_error_In, In_edges in E, E'. lia.
Qed.

Record switched g (ls : list (nat * nat)) g' (ls' : list (nat * nat)) : Prop := {
  sw_un : undirected g';
  sw_nodes : same_nodes g g';
  sw_deg : forall i, degree g' i = degree g i;
  sw_listed : listed g' ls';
  sw_len : length ls' = length ls }.

(** One pick. *)
Definition good_pick g ls (r : nat * nat * nat * nat * nat * nat * list A) ds : Prop :=
  let '(t1, t2, n1, n2, n3, n4, ds') := r in
  nth_error ls t1 = Some (n1, n2) /\ (nth_error ls t2 = Some (n3, n4) \/ nth_error ls t2 = Some (n4, n3)) /\
  n3 <> n1 /\ n3 <> n2 /\ n4 <> n1 /\ n4 <> n2 /\ ~ In n4 (nbrs g n1) /\ ~ In n3 (nbrs g n2) /\ exists used, ds = used ++ ds'.

Lemma pick_links_spec g ls nlink : wf_net g -> listed g ls -> nlink = length ls -> 0 < nlink ->
  forall fuel ds, Forall good_draw ds -> length ds < fuel ->
  safe (pick_links fuel g ls nlink ds) (fun r => good_pick g ls r ds).
Proof.
  intros W [HL HD] -> Hpos. induction fuel as [|f IH]; intros ds Hd Hf; [lia|]. cbn [pick_links].
  destruct ds as [|u1 ds]; simpl; auto. inversion Hd as [|? ? D1 Hd1]; subst. 
  destruct (nth_ex ls (nfloor (nmul u1 (nofnat (length ls))))) as [[n1 n2] E1]; [apply D1; auto|]. rewrite (get_ok _ _ _ E1). cbn [bind].
  destruct ds as [|u2 ds]; simpl; auto. inversion Hd1 as [|? ? D2 Hd2]; subst.
  destruct ds as [|u3 ds]; simpl; auto. inversion Hd2 as [|? ? D3 Hd3]; subst.
  destruct (nth_ex ls (nfloor (nmul u2 (nofnat (length ls))))) as [[a b] E2]; [apply D2; auto|]. rewrite (get_ok _ _ _ E2). cbn [bind].
  assert (IH' : safe (pick_links f g ls (length ls) ds) (fun r => good_pick g ls r (u1 :: u2 :: u3 :: ds))).
  { eapply safe_impl; [apply IH; auto; simpl in Hf; lia|]. intros [[[[[[t1 t2] m1] m2] m3] m4] ds'] (H1 & H2 & H3 & H4 & H5 & H6 & H7 & H8 & used & ->).
    splits; auto. split; splits; auto. exists (u1 :: u2 :: u3 :: used). reflexivity. }
  destruct (if nltb u3 (nofQ (1 # 2)) then (b, a) else (a, b)) as [n3 n4] eqn:E34.
  assert (H34 : nth_error ls (nfloor (nmul u2 (nofnat (length ls)))) = Some (n3, n4) \/ nth_error ls (nfloor (nmul u2 (nofnat (length ls)))) = Some (n4, n3)).
  { destruct (nltb u3 (nofQ (1 # 2))); injection E34 as <- <-; auto. }
  assert (L34 : n3 < length g /\ n4 < length g). { destruct H34 as [H|H]; apply HL in H; apply nbrs_lt in H; tauto. }
  assert (L12 : n1 < length g /\ n2 < length g). { apply HL in E1. apply nbrs_lt in E1; tauto. }
  destruct (Nat.eqb_spec n3 n1); simpl; auto. destruct (Nat.eqb_spec n3 n2); simpl; auto.
  destruct (Nat.eqb_spec n4 n1); simpl; auto. destruct (Nat.eqb_spec n4 n2); simpl; auto.
  destruct (nth_ex g n4) as [m4 Em4]; [tauto|]. destruct (nth_ex g n3) as [m3 Em3]; [tauto|].
  rewrite (get_ok _ _ _ Em4), (get_ok _ _ _ Em3). cbn [bind].
  rewrite (wf_num g W _ _ Em4), (wf_num g W _ _ Em3). rewrite !IsThereLinkSoft_spec by tauto. cbn [bind].
  destruct (in_dec _ _ _); auto. destruct (in_dec _ _ _); auto. simpl. splits; auto. exists [u1; u2; u3]. reflexivity.
Qed.

(** The weight of every link after a switch. *)
Definition switched_weight g (n1 n2 n3 n4 : nat) (w : A) (a b : nat) : option A :=
  if ((a =? n3) && (b =? n2)) || ((a =? n2) && (b =? n3)) then Some w else
  if ((a =? n1) && (b =? n4)) || ((a =? n4) && (b =? n1)) then Some w else
  if ((a =? n3) && (b =? n4)) || ((a =? n4) && (b =? n3)) then None else
  if ((a =? n1) && (b =? n2)) || ((a =? n2) && (b =? n1)) then None else weight g a b.

Lemma switch_ends_spec g ls t1 t2 n1 n2 n3 n4 w : undirected g -> listed g ls ->
  nth_error ls t1 = Some (n1, n2) -> nth_error ls t2 = Some (n3, n4) \/ nth_error ls t2 = Some (n4, n3) ->
  n3 <> n1 -> n3 <> n2 -> n4 <> n1 -> n4 <> n2 -> ~ In n4 (nbrs g n1) -> ~ In n3 (nbrs g n2) ->
  exists g', switch_ends g n1 n2 n3 n4 w = Ok g' /\ switched g ls g' (upd (upd ls t1 (n1, n4)) t2 (n3, n2)) /\
    t1 < length ls /\ t2 < length ls /\ forall a b, weight g' a b = switched_weight g n1 n2 n3 n4 w a b.
Proof.
  intros U HLs E1 E2 D31 D32 D41 D42 A14 A23. pose proof U as [W Lp Sy]. unfold switch_ends.
  pose proof HLs as [HL HD].
  pose proof (HL _ _ _ E1) as K12. assert (K34 : In n4 (nbrs g n3)). { destruct E2 as [E2|E2]; apply HL in E2; auto. eapply undirected_sym; eauto. }
  assert (D12 : n1 <> n2) by (intros ->; eapply Lp; eauto). assert (D34 : n3 <> n4) by (intros ->; eapply Lp; eauto).
  destruct (remove_both g n1 n2 U K12) as (g1 & -> & U1 & S1 & W1 & G1). cbn [bind].
  assert (K34' : In n4 (nbrs g1 n3)). { apply nbrs_weight. rewrite W1. rewrite (proj2 (Nat.eqb_neq n3 n1)), (proj2 (Nat.eqb_neq n3 n2)) by auto. simpl. now apply nbrs_weight. }
  destruct (remove_both g1 n3 n4 U1 K34') as (g2 & -> & U2 & S2 & W2 & G2). cbn [bind].
  pose proof (same_nodes_length _ _ S1) as L1. pose proof (same_nodes_length _ _ S2) as L2.
  destruct (nbrs_lt g n1 n2 W K12) as [B1 B2]. destruct (nbrs_lt g n3 n4 W K34) as [B3 B4].
  assert (Hno : forall a b, ~ In b (nbrs g a) -> ~ In b (nbrs g2 a)).
  { intros a b H Hb. apply H. apply nbrs_weight. apply nbrs_weight in Hb. rewrite W2, W1 in Hb.
    destruct (_ || _); [congruence|]. destruct (_ || _); congruence. }
  destruct (add_both g2 n1 n4 false w 1 1 U2) as (r1 & r2 & g3 & g4 & -> & H4 & U4 & S4 & W4 & G4); try lia. cbn [bind]. rewrite H4. cbn [bind].
  pose proof (same_nodes_length _ _ S4) as L4.
  destruct (add_both g4 n3 n2 false w 1 1 U4) as (r3 & r4 & g5 & g6 & -> & H6 & U6 & S6 & W6 & G6); try lia. cbn [bind]. rewrite H6. cbn [bind].
  assert (T12 : t1 <> t2). { intros <-. rewrite E1 in E2. destruct E2 as [E2|E2]; injection E2 as -> ->; auto. }
  assert (T1 : t1 < length ls) by (eapply nth_lt; eauto). assert (T2 : t2 < length ls) by (destruct E2; eapply nth_lt; eauto).
  assert (N14 : ~ In n4 (nbrs g2 n1)) by auto.
  assert (N32 : ~ In n2 (nbrs g4 n3)).
  { intros H. apply nbrs_weight in H. rewrite W4 in H. rewrite (proj2 (Nat.eqb_neq n3 n1)), (proj2 (Nat.eqb_neq n3 n4)) in H by auto. simpl in H.
    apply nbrs_weight in H. revert H. apply Hno. intros H. apply A23. eapply undirected_sym; eauto. }
  assert (Wf : forall a b, weight g6 a b = switched_weight g n1 n2 n3 n4 w a b).
  { intros a b. unfold switched_weight. rewrite W6. assert (weight g4 n3 n2 = None) as ->. { destruct (weight g4 n3 n2) eqn:E; auto. exfalso. apply N32, nbrs_weight. congruence. }
      rewrite W4. assert (weight g2 n1 n4 = None) as ->. { destruct (weight g2 n1 n4) eqn:E; auto. exfalso. apply N14, nbrs_weight. congruence. }
      now rewrite W2, W1. }
  exists g6. splits; auto. split; auto.
  - eapply same_nodes_trans; [|eauto]. eapply same_nodes_trans; [|eauto]. eapply same_nodes_trans; eauto.
  - intros i. specialize (G1 i). specialize (G2 i). rewrite G6, G4. destruct (in_dec _ n2 _); [contradiction|]. destruct (in_dec _ n4 _); [contradiction|]. lia.
  - (* the list of links *)
    assert (Nth : forall k e, nth_error (upd (upd ls t1 (n1, n4)) t2 (n3, n2)) k = Some e ->
       (k = t2 /\ e = (n3, n2)) \/ (k = t1 /\ e = (n1, n4)) \/ (k <> t1 /\ k <> t2 /\ nth_error ls k = Some e)).
    { intros k e. rewrite nth_upd, length_upd. destruct (Nat.eqb_spec k t2) as [->|]; simpl.
      - rewrite (proj2 (Nat.ltb_lt _ _) T2). intros [= <-]. auto.
      - rewrite nth_upd. destruct (Nat.eqb_spec k t1) as [->|]; simpl; auto.
        rewrite (proj2 (Nat.ltb_lt _ _) T1). intros [= <-]. auto. }
    assert (Old : forall k e, nth_error ls k = Some e -> k <> t1 -> k <> t2 ->
       ~ same_edge e (n1, n2) /\ ~ same_edge e (n3, n4) /\ ~ same_edge e (n1, n4) /\ ~ same_edge e (n3, n2)).
    { intros k e Ek K1 K2. splits.
      - eapply HD; eauto.
      - destruct E2 as [E2|E2].
        + eapply HD; eauto.
        + intros [->|H]; [|simpl in H; subst e]; eapply (HD k t2); eauto; [right|left]; reflexivity.
      - intros [->|H]; [|simpl in H; subst e]; apply HL in Ek; [auto|]. apply A14. eapply undirected_sym; eauto.
      - intros [->|H]; [|simpl in H; subst e]; apply HL in Ek; [|auto]. apply A23. eapply undirected_sym; eauto. }
    split.
    + intros k a b Ek. apply nbrs_weight. rewrite Wf; unfold switched_weight. apply Nth in Ek as [[-> [= -> ->]]|[[-> [= -> ->]]|(K1 & K2 & Ek)]].
      * rewrite !Nat.eqb_refl. simpl. congruence.
      * rewrite !Nat.eqb_refl. simpl. destruct (_ || _); congruence.
      * destruct (Old k (a, b) Ek K1 K2) as (O1 & O2 & O3 & O4). apply HL, nbrs_weight in Ek.
        destruct (_ || _); [congruence|]. destruct (_ || _); [congruence|].
        rewrite (edge_neq _ _ _ _ O1), (edge_neq _ _ _ _ O2). auto.
    + intros k k' e f Ek Ek' Hk. apply Nth in Ek as [[-> ->]|[[-> ->]|(K1 & K2 & Ek)]]; apply Nth in Ek' as [[-> ->]|[[-> ->]|(K1' & K2' & Ek')]]; try congruence.
      * intros [[=]|[=]]; congruence.
      * intros H. destruct (Old k' f Ek' K1' K2') as (_ & _ & _ & O). apply O. destruct f as [x y]. destruct H as [[= <- <-]|[= <- <-]]; [left|right]; reflexivity.
      * intros [[=]|[=]]; congruence.
      * intros H. destruct (Old k' f Ek' K1' K2') as (_ & _ & O & _). apply O. destruct f as [x y]. destruct H as [[= <- <-]|[= <- <-]]; [left|right]; reflexivity.
      * destruct (Old k e Ek K1 K2) as (_ & _ & _ & O). auto.
      * destruct (Old k e Ek K1 K2) as (_ & _ & O & _). auto.
      * eapply HD; eauto.
  - now rewrite !length_upd.
Qed.

Lemma switch_once_spec g ls ds nlink : undirected g -> listed g ls -> nlink = length ls -> 0 < nlink -> Forall good_draw ds ->
  safe (switch_once (g, ls, ds) nlink) (fun '(g', ls', ds') => switched g ls g' ls' /\ Forall good_draw ds').
Proof.
  intros U HLs Hn Hpos Hd. pose proof U as [W Lp Sy]. unfold switch_once.
  eapply safe_bind; [apply (pick_links_spec g ls nlink); auto; lia|].
  intros [[[[[[t1 t2] n1] n2] n3] n4] ds'] (E1 & E2 & D31 & D32 & D41 & D42 & A14 & A23 & used & ->).
  destruct (switch_ends_spec g ls t1 t2 n1 n2 n3 n4 (nofQ (1 # 1)) U HLs E1 E2 D31 D32 D41 D42 A14 A23) as (g' & -> & Hs & T1 & T2 & _).
  cbn [bind]. rewrite set_ok by auto. cbn [bind]. rewrite set_ok by (rewrite length_upd; auto). cbn [bind safe].
  split; auto. apply Forall_app in Hd; tauto.
Qed.

(** C26.  With at least one link (or no iteration) the only way not to return is to need more draws. *)
Theorem RandomizeSymmetricNetwork_spec g times ds : undirected g -> Forall good_draw ds -> (exists i j, In j (nbrs g i)) ->
  safe (RandomizeSymmetricNetwork g times ds) (fun '(g', ds') => undirected g' /\ same_nodes g g' /\ forall i, degree g' i = degree g i).
Proof.
  intros U Hd (i0 & j0 & Hex). pose proof U as [W Lp Sy]. unfold RandomizeSymmetricNetwork.
  destruct (TotalNLinks_spec g true W) as (g1 & -> & Hs). cbn [bind]. rewrite (handshake g U), Nat.mul_comm, Nat.div_mul by lia.
  pose proof Hs as (W1 & S1 & N1 & _). pose proof (same_links_undirected g g1 U Hs) as U1.
  destruct ds as [|u ds]; simpl; auto. inversion Hd as [|? ? Du Hds]; subst.
  rewrite (link_list_spec g1 W1). cbn [bind].
  assert (Ee : edges g1 = edges g).
  { unfold edges. rewrite <- (same_nodes_length _ _ S1). apply flat_map_ext. intros i. now rewrite N1. }
  rewrite Ee, Nat.leb_refl. cbn [check bind].
  assert (Hpos : 0 < length (edges g)).
  { destruct (nbrs_lt g i0 j0 W Hex) as [Li Lj]. assert (H : In (i0, j0) (edges g) \/ In (j0, i0) (edges g)).
    { rewrite !In_edges. destruct (Nat.lt_trichotomy i0 j0) as [H|[->|H]]; [right|exfalso; eapply Lp; eauto|left]; splits; auto. eapply undirected_sym; eauto. }
    destruct (edges g); simpl in *; [tauto|lia]. }
  eapply safe_bind with (Q := fun '(g', ls', ds') => switched g (edges g) g' ls' /\ Forall good_draw ds').
  - refine (foldM_seq_safe (fun _ '(g', ls', ds') => switched g (edges g) g' ls' /\ Forall good_draw ds') (fun e => e = RngOut) _ _ (g1, edges g, ds) _ _).
    + split; auto. split; auto.
      * intros i. now apply same_links_degree.
      * rewrite <- Ee. now apply listed_edges.
    + intros _ [[g' ls'] ds'] _ [[H1 H2 H3 H4 H5] H6].
      pose proof (switch_once_spec g' ls' ds' (length (edges g)) H1 H4 (eq_sym H5) Hpos H6) as H.
      destruct (switch_once _ _) as [[[g2 ls2] ds2]|e]; auto. destruct H as [[K1 K2 K3 K4 K5] K6]. split; auto. split; auto.
      * eapply same_nodes_trans; eauto.
      * intros i. now rewrite K3.
      * lia.
  - intros [[g' ls'] ds'] [[H1 H2 H3 _ _] _]. simpl. auto.
Qed.
End Rand.

(** MissSets.v -- links inside and between sets of nodes when one node moves. *)
From Coq Require Import List Arith ZArith Bool QArith Qcanon Lia.
From Verif Require Import Base Num ListLib NatSum QcSum GraphModel GraphSpec GraphProof GroupModel GroupSpec PairSum GroupProof GroupExact MatLib MissSpec.
Import ListNotations.
Local Open Scope nat_scope.

Section Any.
Context {A : Type} {ops : NumOps A}.
Implicit Types g : net A.

(** The number of neighbours of [v] in [S]. *)
Definition to_set g (v : nat) (S : list nat) : nat := count (linked g v) S.

Lemma count_0 {X} (p : X -> bool) l : (forall x, In x l -> p x = false) -> count p l = 0.
Proof. induction l as [|a l IH]; intros H; auto. rewrite count_cons, H by (simpl; auto). rewrite IH; auto. intros; apply H; simpl; auto. Qed.
Lemma count_one (v : nat) l : NoDup l -> count (fun x => x =? v) l = if mem v l then 1 else 0.
Proof.
  induction l as [|a l IH]; intros ND; auto. inversion ND; subst. rewrite count_cons, IH; auto. unfold mem. cbn [existsb].
  rewrite (Nat.eqb_sym v a). destruct (Nat.eqb_spec a v) as [->|]; auto. change (existsb (Nat.eqb v) l) with (mem v l). destruct (mem_spec v l); [contradiction|auto].
Qed.
Lemma count_or_split {X} (p q : X -> bool) l : (forall x, In x l -> p x = true -> q x = false) -> count (fun x => p x || q x) l = count p l + count q l.
Proof.
  induction l as [|a l IH]; intros H; auto. rewrite !count_cons, IH by (intros; apply H; simpl; auto). specialize (H a (or_introl eq_refl)).
  destruct (p a), (q a); simpl; try lia; discriminate (H eq_refl).
Qed.
Lemma count_mem_swap (l T : list nat) : NoDup l -> NoDup T -> count (fun j => mem j T) l = count (fun j => mem j l) T.
Proof.
  intros Hl HT. revert HT. induction T as [|t T IH]; intros HT.
  - apply count_0. reflexivity.
  - inversion HT; subst. rewrite count_cons, <- IH by auto.
    rewrite (count_ext _ (fun j => (j =? t) || mem j T)) by (intros; reflexivity).
    rewrite count_or_split.
    + now rewrite count_one.
    + intros x _ E. apply Nat.eqb_eq in E. subst. destruct (mem_spec t T); auto; contradiction.
Qed.
Lemma to_set_nbrs g v S : wf_net g -> NoDup S -> count (fun j => mem j S) (nbrs g v) = to_set g v S.
Proof.
  intros W ND. unfold to_set. rewrite count_mem_swap; auto; [|apply (wf_nodup g W)]. apply count_ext. intros x _. now rewrite linked_nbrs.
Qed.
Lemma to_set_le g v S : to_set g v S <= length S.
Proof. apply count_le. Qed.
Lemma to_set_snoc g v S x : to_set g v (S ++ [x]) = to_set g v S + (if linked g v x then 1 else 0).
Proof. unfold to_set. rewrite count_app, count_cons. change (count (linked g v) []) with 0. lia. Qed.
Lemma to_set_remove g v S x : NoDup S -> In x S -> to_set g v S = to_set g v (remove1 x S) + (if linked g v x then 1 else 0).
Proof.
  intros ND Hx. destruct (in_split_nodup x S Hx ND) as (l1 & l2 & -> & H1 & H2). unfold to_set, remove1. rewrite filter_app. cbn [filter]. rewrite Nat.eqb_refl. cbn [negb].
  assert (F : forall l, ~ In x l -> filter (fun y => negb (y =? x)) l = l).
  { induction l as [|y l IH]; simpl; intros H; auto. destruct (Nat.eqb_spec y x); simpl; [tauto|]. f_equal. apply IH. tauto. }
  rewrite !F by auto. rewrite !count_app, count_cons. lia.
Qed.
Lemma to_set_remove_self g v S : undirected g -> NoDup S -> to_set g v (remove1 v S) = to_set g v S.
Proof.
  intros U ND. destruct (in_dec Nat.eq_dec v S) as [Hv|Hv].
  - rewrite (to_set_remove g v S v ND Hv), linked_loop; auto.
  - unfold remove1. f_equal. induction S as [|y S IH]; auto. cbn [filter]. simpl in Hv. destruct (Nat.eqb_spec y v); [tauto|]. cbn [negb]. f_equal. apply IH; [inversion ND; auto|tauto].
Qed.

(** Links between sets. *)
Lemma across_snoc g S T v : across g (S ++ [v]) T = across g S T + to_set g v T.
Proof. unfold across. rewrite lsum_app. cbn [lsum]. unfold to_set. lia. Qed.
Lemma across_sym g S T : undirected g -> across g S T = across g T S.
Proof.
  intros U. unfold across. rewrite (lsum_ext _ (fun i => lsum (fun j => if linked g i j then 1 else 0) T)) by (intros; apply count_lsum).
  rewrite lsum_swap. apply lsum_ext. intros j _. rewrite count_lsum. apply lsum_ext. intros i _. now rewrite (linked_sym g i j U).
Qed.
Lemma across_remove g S T v : NoDup S -> In v S -> across g S T = across g (remove1 v S) T + to_set g v T.
Proof.
  intros ND Hx. destruct (in_split_nodup v S Hx ND) as (l1 & l2 & -> & H1 & H2). unfold across, remove1. rewrite filter_app. cbn [filter]. rewrite Nat.eqb_refl. cbn [negb].
  assert (F : forall l, ~ In v l -> filter (fun y => negb (y =? v)) l = l).
  { induction l as [|y l IH]; simpl; intros H; auto. destruct (Nat.eqb_spec y v); simpl; [tauto|]. f_equal. apply IH. tauto. }
  rewrite !F by auto. rewrite !lsum_app. cbn [lsum]. unfold to_set. lia.
Qed.
Lemma across_le g S T : across g S T <= length S * length T.
Proof.
  unfold across. induction S as [|x S IH]; auto. cbn [lsum length]. pose proof (count_le (linked g x) T). lia.
Qed.
Lemma across_nil_l g T : across g [] T = 0. Proof. reflexivity. Qed.
Lemma across_nil_r g S : across g S [] = 0.
Proof. unfold across. apply lsum_0. reflexivity. Qed.

(** Pairs. *)
Lemma choose2_S n : choose2 (n + 1) = choose2 n + n.
Proof.
  unfold choose2. replace ((n + 1) * (n + 1 - 1)) with (n * (n - 1) + n * 2) by (destruct n; [reflexivity|nia]). rewrite Nat.div_add by lia. lia.
Qed.
Lemma choose2_0 : choose2 0 = 0. Proof. reflexivity. Qed.
Lemma choose2_1 : choose2 1 = 0. Proof. reflexivity. Qed.
Lemma choose2_Z n : Z.quot (Z.of_nat n * (Z.of_nat n - 1)) 2 = Z.of_nat (choose2 n).
Proof.
  unfold choose2. rewrite Nat2Z.inj_div, Nat2Z.inj_mul. destruct n as [|n]; [reflexivity|].
  rewrite Z.quot_div_nonneg by lia. do 2 f_equal. lia.
Qed.

(** Links inside a set. *)
Lemma links_in_snoc g S v : undirected g -> v < length g -> NoDup S -> ~ In v S -> links_in g (S ++ [v]) = links_in g S + to_set g v S.
Proof. intros U Hv ND Hn. destruct (links_add g S v U Hv Hn) as [-> _]. rewrite to_set_nbrs; auto. apply U. Qed.
Lemma remove1_nodup v S : NoDup S -> NoDup (remove1 v S).
Proof. apply NoDup_filter. Qed.
Lemma links_in_remove g S v : undirected g -> v < length g -> NoDup S -> In v S -> links_in g S = links_in g (remove1 v S) + to_set g v S.
Proof.
  intros U Hv ND Hi. assert (Hn : ~ In v (remove1 v S)) by (rewrite remove1_In; tauto).
  rewrite <- (to_set_remove_self g v S U ND). rewrite <- (links_in_snoc g (remove1 v S) v U Hv (remove1_nodup v S ND) Hn).
  apply (links_ext g). intros i. rewrite in_app_iff, remove1_In. simpl. destruct (Nat.eq_dec i v); [subst; tauto|]. split; [tauto|]. intros [H|[H|[]]]; [tauto|congruence].
Qed.
Lemma links_in_le g S : undirected g -> NoDup S -> (forall i, In i S -> i < length g) -> links_in g S <= choose2 (length S).
Proof.
  intros U. induction S as [|v S IH] using rev_ind; intros ND Hr.
  - destruct (links_nil g) as (-> & _). lia.
  - apply NoDup_remove in ND as [ND Hn]. rewrite app_nil_r in *. rewrite links_in_snoc; auto; [|apply Hr, in_or_app; simpl; auto].
    rewrite app_length. cbn [length]. rewrite choose2_S. pose proof (to_set_le g v S). specialize (IH ND). assert (links_in g S <= choose2 (length S)) by (apply IH; intros; apply Hr, in_or_app; auto). lia.
Qed.
Lemma length_remove1 v S : NoDup S -> In v S -> length S = length (remove1 v S) + 1.
Proof. intros ND Hi. now destruct (count_remove1 S v ND Hi). Qed.
End Any.

(** * Groups labelled by position *)
Section Grp.
Variable N : nat.
Implicit Types M : groups.

Lemma as_length M : assigned N M -> length M = N.
Proof. intros [H _ _ _ _]. apply (f_equal (@length nat)) in H. now rewrite map_length, seq_length in H. Qed.
Lemma as_nth M k : assigned N M -> k < N -> nth_error M k = Some (k, nth_members M k).
Proof.
  intros Hm Hk. destruct (nth_ex M k) as [[lab l] E]; [now rewrite (as_length M Hm)|]. rewrite (nth_members_eq _ _ _ _ E), E.
  pose proof (as_labels _ _ Hm) as L. assert (F : nth_error (map fst M) k = Some lab) by (rewrite nth_error_map, E; reflexivity).
  rewrite L, nth_error_seq in F by auto. injection F as <-. reflexivity.
Qed.
Lemma nth_members_out M k : length M <= k -> nth_members M k = [].
Proof. intros H. unfold nth_members. now rewrite (proj2 (nth_error_None _ _) H). Qed.
Lemma as_lt M k i : assigned N M -> In i (nth_members M k) -> k < N.
Proof. intros Hm Hi. destruct (Nat.lt_ge_cases k N) as [|H]; auto. rewrite nth_members_out in Hi by (now rewrite (as_length M Hm)). destruct Hi. Qed.
Lemma nth_set_members M k l j : k < length M -> nth_members (set_members M k l) j = if j =? k then l else nth_members M j.
Proof.
  intros Hk. destruct (nth_ex M k Hk) as [[lab x] E]. rewrite (set_members_eq _ _ _ _ _ E). unfold nth_members. rewrite nth_upd.
  destruct (Nat.eqb_spec j k) as [->|]; simpl; auto. now rewrite (proj2 (Nat.ltb_lt _ _) Hk).
Qed.
Lemma length_set_members M k l : length (set_members M k l) = length M.
Proof. unfold set_members. destruct (nth_error M k) as [[lab x]|]; auto. apply length_upd. Qed.
Lemma labels_set_members M k l : map fst (set_members M k l) = map fst M.
Proof. unfold set_members. destruct (nth_error M k) as [[lab x]|] eqn:E; auto. eapply map_fst_upd; eauto. Qed.

(** Node [v] of group [o] goes to group [w]. *)
Definition moved M (v o w : nat) : groups := grop_do M (GMove v o w).
Lemma nth_moved M v o w k : assigned N M -> o < N -> w < N -> o <> w -> In v (nth_members M o) ->
  nth_members (moved M v o w) k = if k =? w then nth_members M w ++ [v] else if k =? o then remove1 v (nth_members M o) else nth_members M k.
Proof.
  intros Hm Ho Hw Hne Hv. unfold moved. cbn [grop_do]. rewrite (proj2 (mem_In v _) Hv). cbv zeta.
  rewrite nth_set_members by (rewrite length_set_members, (as_length M Hm); auto). rewrite !nth_set_members by (rewrite (as_length M Hm); auto).
  destruct (Nat.eqb_spec k w) as [->|]; auto. destruct (Nat.eqb_spec w o); [congruence|auto].
Qed.
Lemma moved_assigned M v o w : assigned N M -> o < N -> w < N -> o <> w -> In v (nth_members M o) -> assigned N (moved M v o w).
Proof.
  intros Hm Ho Hw Hne Hv. pose proof (fun k => nth_moved M v o w k Hm Ho Hw Hne Hv) as E.
  assert (Hi : forall k i, In i (nth_members (moved M v o w) k) <-> (i = v /\ k = w) \/ (i <> v /\ In i (nth_members M k))).
  { intros k i. rewrite E. destruct (Nat.eqb_spec k w) as [->|Nw].
    - rewrite in_app_iff. simpl. split.
      + intros [H|[<-|[]]]; auto. right. split; auto. intros ->. apply Hne. eapply as_apart; eauto.
      + intros [[-> _]|[_ H]]; auto.
    - destruct (Nat.eqb_spec k o) as [->|No].
      + rewrite remove1_In. split; [tauto|]. intros [[_ ?]|?]; [congruence|tauto].
      + split; [|intros [[_ ?]|[_ ?]]; [congruence|auto]]. intros H. right. split; auto. intros ->. apply No. eapply as_apart; eauto. }
  split.
  - unfold moved. cbn [grop_do]. rewrite (proj2 (mem_In v _) Hv). cbv zeta. rewrite !labels_set_members. apply Hm.
  - intros k. rewrite E. destruct (Nat.eqb_spec k w) as [->|Nw].
    + assert (H : ~ In v (nth_members M w)) by (intros K; apply Hne; eapply as_apart; eauto).
      pose proof (as_once _ _ Hm w) as ND. rewrite <- (rev_involutive (nth_members M w ++ [v])). rewrite rev_unit. apply NoDup_rev. constructor; [now rewrite <- in_rev|now apply NoDup_rev].
    + destruct (Nat.eqb_spec k o) as [->|No]; [apply NoDup_filter|]; apply Hm.
  - intros k l i H1 H2. apply Hi in H1. apply Hi in H2. destruct H1 as [[-> ->]|[N1 H1]], H2 as [[? ->]|[N2 H2]]; auto; try congruence. eapply as_apart; eauto.
  - intros k i H. apply Hi in H as [[-> ->]|[_ H]]; [|eapply as_range; eauto]. eapply as_range; eauto.
  - intros i Li. destruct (Nat.eq_dec i v) as [->|Nv]; [exists w; apply Hi; auto|]. destruct (as_cover _ _ Hm i Li) as [k Hk]. exists k. apply Hi; auto.
Qed.
(** The groups with nodes. *)
Lemma filled_count M : assigned N M -> filled M = count (fun k => nonempty (nth_members M k)) (seq 0 N).
Proof.
  intros Hm. unfold filled. assert (E : M = map (fun k => (k, nth_members M k)) (seq 0 N)).
  { apply nth_ext. intros k. rewrite nth_error_map. destruct (Nat.lt_ge_cases k N) as [H|H].
    - rewrite nth_error_seq by auto. simpl. now apply as_nth.
    - rewrite (proj2 (nth_error_None M k)) by (now rewrite (as_length M Hm)). rewrite (proj2 (nth_error_None (seq 0 N) k)) by (now rewrite seq_length). reflexivity. }
  rewrite E at 1. unfold count. rewrite <- (map_length (fun k => (k, nth_members M k)) (filter _ (seq 0 N))). f_equal.
  generalize (seq 0 N). intros l. induction l as [|k l IH]; auto. cbn [map filter snd]. unfold nonempty at 1. destruct (nth_members M k) eqn:Ek; cbn [map]; rewrite IH, ?Ek; reflexivity.
Qed.
Lemma filled_le M : assigned N M -> filled M <= N.
Proof. intros Hm. rewrite filled_count by auto. rewrite <- (seq_length N 0) at 2. apply count_le. Qed.
Lemma sizes_sum M : assigned N M -> lsum (fun k => length (nth_members M k)) (seq 0 N) = N.
Proof.
  intros Hm. rewrite (lsum_ext _ (fun k => lsum (fun i => if mem i (nth_members M k) then 1 else 0) (seq 0 N))).
  - rewrite lsum_swap. transitivity (lsum (fun _ => 1) (seq 0 N)); [|rewrite lsum_const, seq_length; lia]. apply lsum_ext. intros i Hi. apply in_seq in Hi.
    destruct (as_cover _ _ Hm i) as [k Hk]; [lia|]. rewrite (lsum_ext _ (fun x => if x =? k then 1 else 0)).
    + apply (lsum_single (fun _ => 1)); [apply seq_NoDup|]. apply in_seq. pose proof (as_lt M k i Hm Hk). lia.
    + intros x _. destruct (mem_spec i (nth_members M x)) as [H|H], (Nat.eqb_spec x k) as [->|Hn]; auto; [|contradiction]. exfalso. apply Hn. eapply as_apart; eauto.
  - intros k _. rewrite <- (lsum_members (fun _ => 1)); [|apply Hm|apply (as_range _ _ Hm)]. now rewrite lsum_const, Nat.mul_1_r.
Qed.
End Grp.

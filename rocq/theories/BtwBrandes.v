(** BtwBrandes.v -- shortest paths through a node, and the recursion for the dependency of a source on a node. *)
From Coq Require Import List Arith Lia ZArith Bool QArith Qcanon Permutation.
From Verif Require Import Base Num ListLib NatSum QcSum IoModel GraphModel GraphSpec GraphProof BfsModel BfsProof BtwSpec BtwCount.
Import ListNotations.
Local Open Scope nat_scope.

Section Brandes.
Context {A : Type}.
Variable g : net A.
Hypothesis W : wf_net g.
Notation N := (length g).
Notation wk := (wk g).

Definition at_pos (k v : nat) (p : list nat) : bool := match nth_error p k with Some x => x =? v | None => false end.
Lemma count_at k : forall n s t v, k <= n -> length (filter (at_pos k v) (walks_to g n s t)) = wk k s v * wk (n - k) v t.
Proof.
  induction k as [|k IH]; intros n s t v H.
  - rewrite wk_0, Nat.sub_0_r. assert (E : forall p, In p (walks_to g n s t) -> at_pos 0 v p = (s =? v)).
    { intros p Hp. apply filter_In in Hp as [Hp _]. destruct (walks_shape g _ _ _ Hp) as (q & -> & _). reflexivity. }
    rewrite (filter_ext_in _ _ _ E). unfold BtwCount.wk. destruct (Nat.eqb_spec s v) as [->|].
    + clear. induction (walks_to g n v t); cbn in *; lia.
    + clear. induction (walks_to g n s t); cbn in *; auto.
  - destruct n as [|n]; [lia|]. rewrite walks_to_S, filter_flat, length_flat, wk_S. cbn [Nat.sub].
    rewrite Nat.mul_comm, <- lsum_scal. apply lsum_ext. intros u _. rewrite filter_map_comp, map_length.
    rewrite (filter_ext _ (at_pos k v)) by reflexivity. rewrite IH by lia. lia.
Qed.
Lemma path_cat : forall e j k, path g e j k -> forall d i, path g d i j -> path g (d + e) i k.
Proof. induction 1 as [j Hj|e j l k P IH H]; intros d i P'; [now rewrite Nat.add_0_r|]. rewrite Nat.add_succ_r. econstructor; eauto. Qed.
Lemma pos_path n s t v k p : s < N -> In p (walks_to g n s t) -> nth_error p k = Some v -> k <= n /\ path g k s v /\ path g (n - k) v t.
Proof.
  intros Hs Hp E. assert (Hk : k <= n). { apply filter_In in Hp as [Hp _]. destruct (walks_shape g _ _ _ Hp) as (q & -> & L). apply nth_lt in E. simpl in E. lia. }
  split; auto. assert (X : 0 < wk k s v * wk (n - k) v t).
  { rewrite <- count_at by auto. assert (Y : In p (filter (at_pos k v) (walks_to g n s t))) by (apply filter_In; split; auto; unfold at_pos; rewrite E; apply Nat.eqb_refl).
    destruct (filter _ _); [destruct Y|simpl; lia]. }
  assert (P : path g k s v) by (apply (wk_path g W); auto; lia). split; auto. apply (wk_path g W); [apply (path_lt g W _ _ _ P)|lia].
Qed.
(** A node is on a shortest path only at its own distance. *)
Lemma pos_dist n s t v k p : distance g s t n -> In p (walks_to g n s t) -> nth_error p k = Some v -> k <= n /\ distance g s v k.
Proof.
  intros [P M] Hp E. destruct (pos_path n s t v k p) as (Hk & P1 & P2); auto; [apply (path_lt g W _ _ _ P)|]. split; auto. split; auto. intros d' P'.
  pose proof (M _ (path_cat _ _ _ P2 _ _ P')). lia.
Qed.
Definition npaths s t : nat := length (geodesics g s t).
Lemma npaths_dist s t n : distance g s t n -> npaths s t = wk n s t.
Proof. intros D. unfold npaths, geodesics. rewrite (proj2 (dist_spec g W s t n (proj1 (path_lt g W _ _ _ (proj1 D)))) D). reflexivity. Qed.
Lemma npaths_none s t : s < N -> (forall n, ~ path g n s t) -> npaths s t = 0.
Proof. intros Hs H. unfold npaths, geodesics. destruct (dist g s t) as [n|] eqn:E; auto. apply (dist_spec g W) in E; auto. destruct (H n). apply E. Qed.
Lemma npaths_pos s t n : distance g s t n -> 0 < npaths s t.
Proof. intros D. rewrite (npaths_dist _ _ _ D). apply (wk_path g W); [|apply D]. apply (path_lt g W _ _ _ (proj1 D)). Qed.
Lemma through_count s t v n : distance g s t n ->
  (forall k, distance g s v k -> k <= n -> length (through g s t v) = wk k s v * wk (n - k) v t) /\
  ((forall k, distance g s v k -> n < k) -> length (through g s t v) = 0).
Proof.
  intros D. assert (Hs := proj1 (path_lt g W _ _ _ (proj1 D))). unfold through, geodesics. rewrite (proj2 (dist_spec g W s t n Hs) D). split.
  - intros k Dk Hk. rewrite <- count_at by auto. f_equal. apply filter_ext_in. intros p Hp. unfold at_pos.
    destruct (existsb (Nat.eqb v) p) eqn:E.
    + apply existsb_exists in E as (x & Hx & E). apply Nat.eqb_eq in E as <-. apply In_nth_error in Hx as (k' & Ek). destruct (pos_dist _ _ _ _ _ _ D Hp Ek) as [_ D'].
      rewrite (distance_fun g s v k k' Dk D'), Ek. symmetry. apply Nat.eqb_refl.
    + destruct (nth_error p k) as [x|] eqn:Ek; auto. destruct (Nat.eqb_spec x v) as [->|]; auto. rewrite <- E. apply existsb_exists. exists v. split; [eapply nth_error_In; eauto|apply Nat.eqb_refl].
  - intros H. assert (Z : forall p, In p (walks_to g n s t) -> existsb (Nat.eqb v) p = false).
    { intros p Hp. destruct (existsb (Nat.eqb v) p) eqn:E; auto. apply existsb_exists in E as (x & Hx & E). apply Nat.eqb_eq in E as <-. apply In_nth_error in Hx as (k' & Ek).
      destruct (pos_dist _ _ _ _ _ _ D Hp Ek) as [L D']. specialize (H _ D'). lia. }
    rewrite (filter_ext_in _ (fun _ => false)) by auto. clear. induction (walks_to g n s t); cbn; auto.
Qed.

(** ** The recursion *)
Definition before s v w : bool := mem w (nbrs g v) && match dist g s v, dist g s w with Some k, Some k' => k' =? S k | _, _ => false end.
Lemma before_spec s v w : s < N -> (before s v w = true <-> In w (nbrs g v) /\ exists k, distance g s v k /\ distance g s w (S k)).
Proof.
  intros Hs. unfold before. rewrite andb_true_iff, mem_In. split; intros [H1 H2]; split; auto.
  - destruct (dist g s v) as [k|] eqn:E1; [|discriminate]. destruct (dist g s w) as [k'|] eqn:E2; [|discriminate]. apply Nat.eqb_eq in H2 as ->. exists k.
    split; apply (dist_spec g W); auto.
  - destruct H2 as (k & D1 & D2). apply (dist_spec g W) in D1, D2; auto. rewrite D1, D2. apply Nat.eqb_refl.
Qed.
Definition ratio s v w : Qc := (Qc_of_nat (npaths s v) / Qc_of_nat (npaths s w))%Qc.

Definition share s t v : Qc := pair_share g s t v.
Lemma share_eq s t v n : distance g s t n -> share s t v = (Qc_of_nat (length (through g s t v)) / Qc_of_nat (npaths s t))%Qc.
Proof. intros D. unfold share, pair_share. pose proof (npaths_pos _ _ _ D) as H. unfold npaths in *. destruct (geodesics g s t); [simpl in H; lia|reflexivity]. Qed.
Lemma share_none s t v : s < N -> (forall n, ~ path g n s t) -> share s t v = 0%Qc.
Proof. intros Hs H. unfold share, pair_share. pose proof (npaths_none _ _ Hs H) as E. unfold npaths in E. destruct (geodesics g s t); [reflexivity|discriminate]. Qed.
Lemma reach_dec s t : s < N -> (exists n, distance g s t n) \/ (forall n, ~ path g n s t).
Proof.
  intros Hs. destruct (dist g s t) as [n|] eqn:E; [left; exists n; now apply (dist_spec g W)|]. right. intros n P. destruct (exists_distance g W _ _ _ P) as [d D].
  apply (dist_spec g W) in D; auto. congruence.
Qed.
Lemma share_far s t v : s < N -> (forall k n, distance g s v k -> distance g s t n -> n < k) -> share s t v = 0%Qc.
Proof.
  intros Hs H. destruct (reach_dec s t Hs) as [[n D]|H']; [|now apply share_none]. rewrite (share_eq _ _ _ _ D). rewrite (proj2 (through_count _ _ v _ D)) by eauto.
  unfold Qcdiv. rewrite Qc_of_nat_0. ring.
Qed.
Lemma share_self s t n : distance g s t n -> share s t t = 1%Qc.
Proof.
  intros D. rewrite (share_eq _ _ _ _ D), (proj1 (through_count _ _ t _ D) n D (le_n n)), Nat.sub_diag, wk_0, Nat.eqb_refl, Nat.mul_1_r, (npaths_dist _ _ _ D). unfold Qcdiv. apply Qcmult_inv_r.
  rewrite <- (npaths_dist _ _ _ D). pose proof (Qc_of_nat_pos _ (npaths_pos _ _ _ D)). intros E. rewrite E in H. discriminate H.
Qed.
Lemma Qsum_nat {X} (f : X -> nat) l : Qc_of_nat (lsum f l) = Qsum (fun x => Qc_of_nat (f x)) l.
Proof. induction l as [|x l IH]; cbn [lsum Qsum fold_right]; [reflexivity|]. rewrite Qc_of_nat_add, IH. reflexivity. Qed.
Lemma pos_ne n : 0 < n -> Qc_of_nat n <> 0%Qc.
Proof. intros H E. pose proof (Qc_of_nat_pos _ H) as P. rewrite E in P. discriminate P. Qed.
(** One target. *)
Lemma share_rec s t v : s < N -> t <> v ->
  share s t v = Qsum (fun w => if before s v w then (ratio s v w * share s t w)%Qc else 0%Qc) (seq 0 N).
Proof.
  intros Hs Hne. destruct (reach_dec s t Hs) as [[n D]|H].
  2: { rewrite share_none by auto. symmetry. apply Qsum_0. intros w _. destruct (before s v w); auto. rewrite share_none by auto. ring. }
  destruct (reach_dec s v Hs) as [[k Dv]|H].
  2: { rewrite share_far; auto. 2: { intros k n' [P _] _. destruct (H _ P). } symmetry. apply Qsum_0. intros w _. destruct (before s v w) eqn:E; auto. apply before_spec in E as (_ & k & [P _] & _); auto. destruct (H _ P). }
  destruct (lt_dec k n) as [Hk|Hk].
  - rewrite (share_eq _ _ _ _ D), (proj1 (through_count _ _ v _ D) k Dv) by lia.
    replace (n - k) with (S (n - S k)) by lia. rewrite wk_S, (lsum_nbrs g W).
    rewrite <- lsum_scal, Qsum_nat. unfold Qcdiv. rewrite <- Qsum_scal_r. apply Qsum_ext. intros w Hw. apply in_seq in Hw.
    unfold lk. destruct (before s v w) eqn:E.
    + apply before_spec in E as (E & k' & D1 & D2); auto. rewrite (distance_fun g s v k' k D1 Dv) in D2. rewrite (proj2 (mem_In _ _) E).
      rewrite (share_eq _ _ _ _ D), (proj1 (through_count _ _ w _ D) (S k) D2) by lia. unfold ratio. rewrite (npaths_dist _ _ _ Dv), (npaths_dist _ _ _ D2), (npaths_dist _ _ _ D), Nat.mul_1_l, !Qc_of_nat_mul.
      field. split; apply pos_ne; [rewrite <- (npaths_dist _ _ _ D); apply (npaths_pos _ _ _ D)|rewrite <- (npaths_dist _ _ _ D2); apply (npaths_pos _ _ _ D2)].
    + destruct (mem_spec w (nbrs g v)) as [Hm|Hm].
      2: { rewrite Nat.mul_0_l, Nat.mul_0_r, Qc_of_nat_0. ring. }
      destruct (Nat.eq_dec (wk (n - S k) w t) 0) as [Z|Z]; [rewrite Z, !Nat.mul_0_r, Qc_of_nat_0; ring|]. exfalso.
      assert (P : path g (n - S k) w t) by (apply (wk_path g W); lia).
      enough (before s v w = true) by congruence. apply before_spec; auto. split; auto. exists k. split; auto. split; [econstructor; [apply Dv|auto]|].
      intros d' P'. pose proof (proj2 D _ (path_cat _ _ _ P _ _ P')). lia.
  - transitivity 0%Qc.
    + destruct (Nat.eq_dec k n) as [->|Hn].
      * rewrite (share_eq _ _ _ _ D), (proj1 (through_count _ _ v _ D) n Dv) by lia. rewrite Nat.sub_diag, wk_0. destruct (Nat.eqb_spec v t); [congruence|]. rewrite Nat.mul_0_r, Qc_of_nat_0. unfold Qcdiv. ring.
      * apply share_far; auto. intros k' n' D1 D2. rewrite (distance_fun g _ _ _ _ D1 Dv), (distance_fun g _ _ _ _ D2 D). lia.
    + symmetry. apply Qsum_0. intros w _. destruct (before s v w) eqn:E; auto. apply before_spec in E as (_ & k' & D1 & D2); auto.
      rewrite share_far; [ring|auto|]. intros a b Da Db. rewrite (distance_fun g _ _ _ _ Da D2), (distance_fun g _ _ _ _ Db D), (distance_fun g _ _ _ _ D1 Dv). lia.
Qed.
(** The dependency of [s] on [v]: all targets. *)
Definition depend s v : Qc := Qsum (fun t => if t =? v then 0%Qc else share s t v) (seq 0 N).
Theorem depend_rec s v : s < N ->
  depend s v = Qsum (fun w => if before s v w then (ratio s v w * (1 + depend s w))%Qc else 0%Qc) (seq 0 N).
Proof.
  intros Hs. unfold depend at 1.
  rewrite (Qsum_ext _ (fun t => Qsum (fun w => if before s v w then (ratio s v w * share s t w)%Qc else 0%Qc) (seq 0 N))).
  - rewrite Qsum_swap. apply Qsum_ext. intros w Hw. apply in_seq in Hw. destruct (before s v w) eqn:E; [|now apply Qsum_0]. rewrite Qsum_scal. f_equal.
    apply before_spec in E as (_ & k & _ & Dw); auto.
    unfold depend. transitivity (Qsum (fun t => (if t =? w then share s t w else 0) + (if t =? w then 0 else share s t w))%Qc (seq 0 N)).
    { apply Qsum_ext. intros t _. destruct (t =? w); ring. }
    rewrite Qsum_add. f_equal. rewrite (Qsum_single (fun t => share s t w)); [apply (share_self _ _ _ Dw)|apply seq_NoDup|apply in_seq; lia].
  - intros t _. destruct (Nat.eqb_spec t v) as [->|Hne]; [|now apply share_rec].
    symmetry. apply Qsum_0. intros w _. destruct (before s v w) eqn:E; auto. apply before_spec in E as (_ & k & D1 & D2); auto.
    rewrite share_far; [ring|auto|]. intros a b Da Db. rewrite (distance_fun g _ _ _ _ Da D2), (distance_fun g _ _ _ _ Db D1). lia.
Qed.
Lemma depend_none s v : s < N -> (forall n, ~ path g n s v) -> depend s v = 0%Qc.
Proof. intros Hs H. apply Qsum_0. intros t _. destruct (t =? v); auto. apply share_far; auto. intros k n [P _]. destruct (H _ P). Qed.
Lemma betweenness_depend v : betweenness g v = Qsum (fun s => if s =? v then 0%Qc else depend s v) (seq 0 N).
Proof. unfold betweenness, depend. apply Qsum_ext. intros s _. destruct (s =? v); cbn [orb]; [now apply Qsum_0|reflexivity]. Qed.
End Brandes.

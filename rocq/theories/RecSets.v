(** RecSets.v -- tallies of ratings when one element changes its group. *)
From Coq Require Import List Arith ZArith Bool Lia.
From Verif Require Import Base Num ListLib NatSum MatLib RecSpec.
Import ListNotations.
Local Open Scope nat_scope.

Definition one (b : bool) : nat := if b then 1 else 0.
Lemma colour_nth c i : i < length c -> nth_error c i = Some (colour c i).
Proof. intros H. unfold colour. now apply nth_error_nth'. Qed.
Lemma colour_upd c v w i : v < length c -> colour (upd c v w) i = if i =? v then w else colour c i.
Proof.
  intros Hv. destruct (Nat.lt_ge_cases i (length c)) as [Hi|Hi].
  - assert (E : nth_error (upd c v w) i = Some (colour (upd c v w) i)) by (apply colour_nth; now rewrite length_upd). rewrite nth_upd in E.
    destruct (Nat.eqb_spec i v) as [->|]; cbn [andb] in E; [rewrite (proj2 (Nat.ltb_lt _ _) Hv) in E; congruence|]. rewrite colour_nth in E by auto. congruence.
  - unfold colour. rewrite !nth_overflow by (rewrite ?length_upd; auto). destruct (Nat.eqb_spec i v); auto. lia.
Qed.
Lemma csize_seq c k : csize c k = count (fun i => colour c i =? k) (seq 0 (length c)).
Proof.
  unfold csize. rewrite !count_lsum. rewrite <- (lsum_map (colour c) (fun x => if x =? k then 1 else 0)). f_equal.
  apply nth_ext. intros i. rewrite nth_error_map. destruct (Nat.lt_ge_cases i (length c)) as [Hi|Hi].
  - rewrite nth_error_seq by auto. simpl. now apply colour_nth.
  - rewrite (proj2 (nth_error_None _ _)) by auto. rewrite (proj2 (nth_error_None (seq 0 (length c)) i)) by (rewrite seq_length; auto). reflexivity.
Qed.
Lemma csize_upd c v w k : v < length c -> csize (upd c v w) k + one (colour c v =? k) = csize c k + one (w =? k).
Proof.
  intros Hv. rewrite !csize_seq, length_upd, !count_lsum.
  rewrite (lsum_ext _ (fun i => (if i =? v then one (w =? k) else 0) + (if i =? v then 0 else one (colour c i =? k)))).
  2: { intros i _. rewrite colour_upd by auto. destruct (Nat.eqb_spec i v); unfold one; lia. }
  rewrite (lsum_ext (fun i => if colour c i =? k then 1 else 0) (fun i => (if i =? v then one (colour c i =? k) else 0) + (if i =? v then 0 else one (colour c i =? k)))).
  2: { intros i _. destruct (Nat.eqb_spec i v); unfold one; lia. }
  rewrite !lsum_add. rewrite (lsum_single (fun _ => one (w =? k))), (lsum_single (fun i => one (colour c i =? k))) by (auto using seq_NoDup; apply in_seq; lia). lia.
Qed.
Lemma csize_pos c k : 0 < csize c k <-> exists i, i < length c /\ colour c i = k.
Proof.
  rewrite csize_seq. split.
  - intros H. unfold count in H. destruct (filter _ _) as [|i l] eqn:E; [simpl in H; lia|]. exists i.
    assert (Hi : In i (filter (fun i => colour c i =? k) (seq 0 (length c)))) by (rewrite E; simpl; auto). apply filter_In in Hi as [Hi He]. apply in_seq in Hi. apply Nat.eqb_eq in He. split; auto; lia.
  - intros (i & Hi & He). apply (count_pos _ _ i); [apply in_seq; lia|now apply Nat.eqb_eq].
Qed.
Lemma coloured_lt c i : coloured c -> i < length c -> colour c i < length c.
Proof. intros H Hi. unfold coloured in H. rewrite Forall_forall in H. apply H. eapply nth_error_In. now apply colour_nth. Qed.
Lemma coloured_upd c v w : coloured c -> w < length c -> coloured (upd c v w).
Proof.
  unfold coloured. intros H Hw. rewrite length_upd. apply Forall_forall. intros x Hx. apply In_nth_error in Hx as [i Ei]. rewrite nth_upd in Ei.
  destruct ((i =? v) && (v <? length c)); [injection Ei as <-; auto|]. rewrite Forall_forall in H. apply H. eapply nth_error_In; eauto.
Qed.
Lemma used_le c : used c <= length c.
Proof. unfold used. etransitivity; [apply count_le|]. now rewrite seq_length. Qed.
(** The number of groups in use, when an element moves to another group. *)
Lemma used_upd c v w : coloured c -> v < length c -> w < length c -> colour c v <> w ->
  used (upd c v w) + one (csize c (colour c v) =? 1) = used c + one (csize c w =? 0).
Proof.
  intros HC Hv Hw Hne. set (o := colour c v) in *. assert (Ho : o < length c) by (apply coloured_lt; auto). unfold used. rewrite length_upd, !count_lsum.
  set (n := length c). set (f := fun k => if k =? o then 0 else if k =? w then 0 else one (0 <? csize c k)).
  rewrite (lsum_ext _ (fun k => (if k =? o then one (negb (csize c k =? 1)) else 0) + ((if k =? w then 1 else 0) + f k))).
  2: { intros k _. pose proof (csize_upd c v w k Hv) as E. fold o in E. unfold f, one in *. rewrite (Nat.eqb_sym o k), (Nat.eqb_sym w k) in E.
       assert (P : 0 < csize c o) by (apply csize_pos; exists v; auto).
       destruct (Nat.eqb_spec k o) as [Eo|], (Nat.eqb_spec k w) as [Ew|]; try rewrite Eo in *; try rewrite Ew in *; try lia.
       - destruct (Nat.eqb_spec (csize c o) 1); cbn [negb]; destruct (Nat.ltb_spec 0 (csize (upd c v w) o)); lia.
       - destruct (Nat.ltb_spec 0 (csize (upd c v w) w)); lia.
       - replace (csize (upd c v w) k) with (csize c k) by lia. destruct (0 <? csize c k); lia. }
  rewrite (lsum_ext (fun k => if 0 <? csize c k then 1 else 0) (fun k => (if k =? o then 1 else 0) + ((if k =? w then one (negb (csize c k =? 0)) else 0) + f k))).
  2: { intros k _. unfold f, one in *. assert (P : 0 < csize c o) by (apply csize_pos; exists v; auto).
       destruct (Nat.eqb_spec k o) as [Eo|], (Nat.eqb_spec k w) as [Ew|]; try rewrite Eo in *; try rewrite Ew in *; try lia.
       - destruct (Nat.ltb_spec 0 (csize c o)); lia.
       - destruct (Nat.eqb_spec (csize c w) 0); cbn [negb]; destruct (Nat.ltb_spec 0 (csize c w)); lia. }
  rewrite !lsum_add. rewrite (lsum_single (fun k => one (negb (csize c k =? 1)))), (lsum_single (fun k => one (negb (csize c k =? 0)))), !(lsum_single (fun _ => 1)) by (auto using seq_NoDup; apply in_seq; unfold n; lia).
  destruct (csize c o =? 1), (csize c w =? 0); unfold one; cbn [negb]; lia.
Qed.

Section R.
Variable R : nat -> nat -> nat -> bool.
Lemma tally_flip c1 c2 k a b : tally R c1 c2 k a b = tally (flip R) c2 c1 k b a.
Proof.
  unfold tally, given, flip. set (F := fun i j => one ((colour c1 i =? a) && (colour c2 j =? b) && R k i j)).
  transitivity (lsum (fun i => lsum (F i) (seq 0 (length c2))) (seq 0 (length c1))).
  - apply lsum_ext. intros i _. unfold F, one. destruct (colour c1 i =? a); cbn [andb]; [apply count_lsum|]. symmetry. apply lsum_0. reflexivity.
  - rewrite lsum_swap. apply lsum_ext. intros j _. unfold F, one. destruct (colour c2 j =? b); cbn [andb].
    + rewrite count_lsum. apply lsum_ext. intros i _. now rewrite andb_true_r.
    + apply lsum_0. intros i _. now rewrite andb_false_r.
Qed.
(** An element of the first set changes its group. *)
Lemma tally_upd c1 c2 v w k a b : v < length c1 ->
  tally R (upd c1 v w) c2 k a b + (if colour c1 v =? a then given R c2 k v b else 0) = tally R c1 c2 k a b + (if w =? a then given R c2 k v b else 0).
Proof.
  intros Hv. unfold tally. rewrite length_upd. set (G := fun i => given R c2 k i b).
  rewrite (lsum_ext _ (fun i => (if i =? v then (if w =? a then G v else 0) else 0) + (if i =? v then 0 else if colour c1 i =? a then G i else 0))).
  2: { intros i _. rewrite colour_upd by auto. destruct (Nat.eqb_spec i v) as [->|]; unfold G; lia. }
  rewrite (lsum_ext (fun i => if colour c1 i =? a then given R c2 k i b else 0) (fun i => (if i =? v then (if colour c1 i =? a then G i else 0) else 0) + (if i =? v then 0 else if colour c1 i =? a then G i else 0))).
  2: { intros i _. destruct (Nat.eqb_spec i v) as [->|]; unfold G; lia. }
  rewrite !lsum_add. rewrite (lsum_single (fun _ => if w =? a then G v else 0)), (lsum_single (fun i => if colour c1 i =? a then G i else 0)) by (auto using seq_NoDup; apply in_seq; lia). unfold G. lia.
Qed.
Lemma given_upd c2 v w k i b : v < length c2 ->
  given R (upd c2 v w) k i b + (if colour c2 v =? b then one (R k i v) else 0) = given R c2 k i b + (if w =? b then one (R k i v) else 0).
Proof.
  intros Hv. unfold given. rewrite length_upd, !count_lsum. set (G := fun j => one (R k i j)).
  rewrite (lsum_ext _ (fun j => (if j =? v then (if w =? b then G v else 0) else 0) + (if j =? v then 0 else if colour c2 j =? b then G j else 0))).
  2: { intros j _. rewrite colour_upd by auto. destruct (Nat.eqb_spec j v) as [->|]; unfold G, one; [destruct (w =? b), (R k i v); cbn [andb]; lia|destruct (colour c2 j =? b), (R k i j); cbn [andb]; lia]. }
  rewrite (lsum_ext (fun j => if (colour c2 j =? b) && R k i j then 1 else 0) (fun j => (if j =? v then (if colour c2 j =? b then G j else 0) else 0) + (if j =? v then 0 else if colour c2 j =? b then G j else 0))).
  2: { intros j _. destruct (Nat.eqb_spec j v) as [->|]; unfold G, one; [destruct (colour c2 v =? b), (R k i v)|destruct (colour c2 j =? b), (R k i j)]; cbn [andb]; lia. }
  rewrite !lsum_add. rewrite (lsum_single (fun _ => if w =? b then G v else 0)), (lsum_single (fun j => if colour c2 j =? b then G j else 0)) by (auto using seq_NoDup; apply in_seq; lia). unfold G. lia.
Qed.
Lemma given_empty c2 k i b : csize c2 b = 0 -> given R c2 k i b = 0.
Proof.
  intros H. unfold given. rewrite count_lsum. apply lsum_0. intros j Hj. apply in_seq in Hj. destruct (Nat.eqb_spec (colour c2 j) b) as [E|]; auto.
  exfalso. assert (0 < csize c2 b) by (apply csize_pos; exists j; split; auto; lia). lia.
Qed.
Lemma tally_empty_r c1 c2 k a b : csize c2 b = 0 -> tally R c1 c2 k a b = 0.
Proof. intros H. unfold tally. apply lsum_0. intros i _. rewrite given_empty by auto. now destruct (_ =? _). Qed.
Lemma tally_empty_l c1 c2 k a b : csize c1 a = 0 -> tally R c1 c2 k a b = 0.
Proof.
  intros H. unfold tally. apply lsum_0. intros i Hi. apply in_seq in Hi. destruct (Nat.eqb_spec (colour c1 i) a) as [E|]; auto.
  exfalso. assert (0 < csize c1 a) by (apply csize_pos; exists i; split; auto; lia). lia.
Qed.
End R.

(** * Arrays of matrices *)
Record tab3 (K n m : nat) (T : list (list (list Z))) (F : nat -> nat -> nat -> Z) : Prop := {
  t3_len : length T = K;
  t3_mat : forall k, k < K -> exists M, nth_error T k = Some M /\ mat n m M (F k) }.
Lemma tab3_ext K n m T F F' : tab3 K n m T F -> (forall k i j, k < K -> i < n -> j < m -> F k i j = F' k i j) -> tab3 K n m T F'.
Proof. intros [H1 H2] H. split; auto. intros k Hk. destruct (H2 k Hk) as (M & E & HM). exists M. split; auto. eapply mat_ext; eauto. Qed.
Lemma tab3_get {X} K n m T F k i j (f : Z -> res X) : tab3 K n m T F -> k < K -> i < n -> j < m -> (do M <- get T k; do x <- get2 M i j; f x) = f (F k i j).
Proof. intros [H1 H2] Hk Hi Hj. destruct (H2 k Hk) as (M & E & HM). rewrite (get_ok _ _ _ E). cbn [bind]. now rewrite (mat_get _ _ _ _ i j HM Hi Hj). Qed.
Lemma tab3_inj K n m T T' F F' : tab3 K n m T F -> tab3 K n m T' F' -> (forall k i j, k < K -> i < n -> j < m -> F k i j = F' k i j) -> T = T'.
Proof.
  intros [L1 H1] [L2 H2] H. apply nth_ext. intros k. destruct (Nat.lt_ge_cases k K) as [Hk|Hk].
  - destruct (H1 k Hk) as (M & -> & HM). destruct (H2 k Hk) as (M' & -> & HM'). f_equal. eapply mat_inj; eauto.
  - rewrite !(proj2 (nth_error_None _ _)); auto; lia.
Qed.

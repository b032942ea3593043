(** MatLib.v -- rectangular arrays of arrays (allocate_i_mat, allocate_d_mat of src/tools.c) and their entries. *)
From Coq Require Import List Arith Lia Bool.
From Verif Require Import Base ListLib.
Import ListNotations.
Local Open Scope nat_scope.

Lemma nth_repeat_lt {X} (v : X) n i : i < n -> nth_error (repeat v n) i = Some v.
Proof. revert i; induction n as [|n IH]; intros [|i] H; simpl; try lia; auto. apply IH. lia. Qed.

Section Mat.
Context {X : Type}.

(** [m[i][j]] and [m[i][j] = v]. *)
Definition get2 (m : list (list X)) (i j : nat) : res X := do r <- get m i; get r j.
Definition set2 (m : list (list X)) (i j : nat) (v : X) : res (list (list X)) := do r <- get m i; do r <- set r j v; set m i r.

(** A matrix with [a] rows and [b] columns whose entries are given by [f]. *)
Record mat (a b : nat) (m : list (list X)) (f : nat -> nat -> X) : Prop := {
  mat_rows : length m = a;
  mat_row : forall i, i < a -> exists r, nth_error m i = Some r /\ length r = b /\ forall j, j < b -> nth_error r j = Some (f i j) }.

Definition fupd2 (f : nat -> nat -> X) (i j : nat) (v : X) : nat -> nat -> X := fun a b => if (a =? i) && (b =? j) then v else f a b.

Lemma mat_get a b m f i j : mat a b m f -> i < a -> j < b -> get2 m i j = Ok (f i j).
Proof.
  intros [H1 H2] Hi Hj. destruct (H2 i Hi) as (r & E & L & Er). unfold get2. rewrite (get_ok _ _ _ E). cbn [bind]. now rewrite (get_ok _ _ _ (Er j Hj)).
Qed.
Lemma mat_set a b m f i j v : mat a b m f -> i < a -> j < b -> exists m', set2 m i j v = Ok m' /\ mat a b m' (fupd2 f i j v).
Proof.
  intros [H1 H2] Hi Hj. destruct (H2 i Hi) as (r & E & L & Er). unfold set2. rewrite (get_ok _ _ _ E). cbn [bind].
  rewrite set_ok by lia. cbn [bind]. rewrite set_ok by lia. eexists. split; [reflexivity|]. split; [now rewrite length_upd|].
  intros k Hk. rewrite nth_upd. unfold fupd2. destruct (Nat.eqb_spec k i) as [->|]; simpl.
  - rewrite (proj2 (Nat.ltb_lt _ _)) by lia. eexists. split; [reflexivity|]. rewrite length_upd. split; auto. intros x Hx. rewrite nth_upd.
    destruct (Nat.eqb_spec x j) as [->|]; simpl; auto. now rewrite (proj2 (Nat.ltb_lt _ _)) by lia.
  - auto.
Qed.
Lemma mat_ext a b m f f' : mat a b m f -> (forall i j, i < a -> j < b -> f i j = f' i j) -> mat a b m f'.
Proof.
  intros [H1 H2] H. split; auto. intros i Hi. destruct (H2 i Hi) as (r & E & L & Er). exists r. splits; auto. intros j Hj. rewrite Er; auto. now rewrite H.
Qed.
Lemma mat_repeat a b v : mat a b (repeat (repeat v b) a) (fun _ _ => v).
Proof.
  split; [apply repeat_length|]. intros i Hi. exists (repeat v b). rewrite nth_repeat_lt by auto. splits; auto using repeat_length. intros; now apply nth_repeat_lt.
Qed.
Lemma mat_inj a b m f m' f' : mat a b m f -> mat a b m' f' -> (forall i j, i < a -> j < b -> f i j = f' i j) -> m = m'.
Proof.
  intros [H1 H2] [H1' H2'] H. apply nth_ext. intros i. destruct (Nat.lt_ge_cases i a) as [Hi|Hi].
  - destruct (H2 i Hi) as (r & -> & L & Er). destruct (H2' i Hi) as (r' & -> & L' & Er'). f_equal. apply nth_ext. intros j.
    destruct (Nat.lt_ge_cases j b) as [Hj|Hj]; [rewrite Er, Er', H; auto|]. rewrite !(proj2 (nth_error_None _ _)); auto; lia.
  - rewrite !(proj2 (nth_error_None _ _)); auto; lia.
Qed.
End Mat.

(** Nested loops over a matrix. *)
Lemma mat_fill {X} a b (m : list (list X)) f (v : nat -> nat -> X) (body : list (list X) -> nat -> nat -> res (list (list X))) :
  mat a b m f ->
  (forall i j m f', i < a -> j < b -> mat a b m f' ->
     (forall x y, f' x y = if (x <? i) || ((x =? i) && (y <? j)) then v x y else f x y) -> exists m', body m i j = Ok m' /\ mat a b m' (fupd2 f' i j (v i j))) ->
  exists m', foldM (fun m i => foldM (fun m j => body m i j) m (seq 0 b)) m (seq 0 a) = Ok m' /\ mat a b m' v.
Proof.
  intros Hm Hb.
  destruct (foldM_seq (fun i m => mat a b m (fun x y => if x <? i then v x y else f x y)) (fun m i => foldM (fun m j => body m i j) m (seq 0 b)) a m) as (m' & E & Hm').
  - exact Hm.
  - intros i mi Hi Hmi.
    destruct (foldM_seq (fun j m => mat a b m (fun x y => if (x <? i) || ((x =? i) && (y <? j)) then v x y else f x y)) (fun m j => body m i j) b mi) as (m' & E & Hm').
    + eapply mat_ext; eauto. intros x y _ _. simpl. now rewrite andb_false_r, orb_false_r.
    + intros j mj Hj Hmj. destruct (Hb i j mj _ Hi Hj Hmj) as (m' & E & Hm'); [reflexivity|]. exists m'. split; auto. eapply mat_ext; eauto.
      intros x y _ _. unfold fupd2. destruct (Nat.eqb_spec x i), (Nat.eqb_spec y j), (Nat.ltb_spec x i), (Nat.ltb_spec y j), (Nat.ltb_spec y (j + 1)); simpl; subst; auto; lia.
    + exists m'. split; auto. eapply mat_ext; eauto. intros x y _ Hy. cbv beta. rewrite (proj2 (Nat.ltb_lt y b)) by auto.
      destruct (Nat.eqb_spec x i), (Nat.ltb_spec x i), (Nat.ltb_spec x (i + 1)); simpl; auto; lia.
  - exists m'. split; auto. eapply mat_ext; eauto. intros x y Hx _. cbv beta. now rewrite (proj2 (Nat.ltb_lt x a)) by auto.
Qed.

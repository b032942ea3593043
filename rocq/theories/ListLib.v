(** ListLib.v -- facts about array access, updates and counting used by the proofs. *)
From Coq Require Import List Arith Lia Bool Permutation.
From Verif Require Import Base.
Import ListNotations.
Local Open Scope nat_scope.

Ltac splits := repeat match goal with |- _ /\ _ => split end.

Lemma bind_Ok {A B} (m : res A) (f : A -> res B) b :
  bind m f = Ok b -> exists a, m = Ok a /\ f a = Ok b.
Proof. destruct m; simpl; [eauto|discriminate]. Qed.

Section Arr.
Context {A : Type}.
Implicit Types l : list A.

Lemma length_upd l i v : length (upd l i v) = length l.
Proof. revert i; induction l as [|a l IH]; intros [|i]; simpl; auto. Qed.

Lemma nth_upd_eq l i v : i < length l -> nth_error (upd l i v) i = Some v.
Proof. revert i; induction l as [|a l IH]; intros [|i] H; simpl in *; try lia; auto. apply IH; lia. Qed.

Lemma nth_upd_neq l i j v : i <> j -> nth_error (upd l i v) j = nth_error l j.
Proof.
  revert i j; induction l as [|a l IH]; intros [|i] [|j] H; simpl; auto; try congruence.
Qed.

Lemma nth_upd l i j v :
  nth_error (upd l i v) j = if (j =? i) && (i <? length l) then Some v else nth_error l j.
Proof.
  destruct (Nat.eqb_spec j i) as [->|Hn]; simpl.
  - destruct (Nat.ltb_spec i (length l)).
    + apply nth_upd_eq; auto.
    + rewrite (proj2 (nth_error_None l i)) by lia. apply nth_error_None. rewrite length_upd. lia.
  - apply nth_upd_neq. congruence.
Qed.

Lemma nth_lt l i a : nth_error l i = Some a -> i < length l.
Proof. intros H; apply nth_error_Some; congruence. Qed.

Lemma nth_ex l i : i < length l -> exists a, nth_error l i = Some a.
Proof.
  intros H. destruct (nth_error l i) eqn:E; eauto. apply nth_error_None in E; lia.
Qed.

Lemma get_ok l i a : nth_error l i = Some a -> get l i = Ok a.
Proof. unfold get; intros ->; auto. Qed.

Lemma get_inv l i a : get l i = Ok a -> nth_error l i = Some a.
Proof. unfold get; destruct (nth_error l i); congruence. Qed.

Lemma set_ok l i v : i < length l -> set l i v = Ok (upd l i v).
Proof. unfold set; intros H. apply Nat.ltb_lt in H. now rewrite H. Qed.

Lemma set_inv l i v l' : set l i v = Ok l' -> i < length l /\ l' = upd l i v.
Proof. unfold set. destruct (Nat.ltb_spec i (length l)); try discriminate. intros [= <-]; auto. Qed.

Lemma upd_upd l i v w : upd (upd l i v) i w = upd l i w.
Proof. revert i; induction l as [|a l IH]; intros [|i]; simpl; auto. now rewrite IH. Qed.

Lemma upd_same l i v : nth_error l i = Some v -> upd l i v = l.
Proof.
  revert i; induction l as [|a l IH]; intros [|i]; simpl; auto; try congruence.
  intros H; now rewrite IH.
Qed.

Lemma upd_app_l (l1 l2 : list A) i v : i < length l1 -> upd (l1 ++ l2) i v = upd l1 i v ++ l2.
Proof. revert i; induction l1 as [|a l IH]; intros [|i] H; simpl in *; try lia; auto. rewrite IH by lia; auto. Qed.

Lemma upd_app_mid (l1 l2 : list A) a v : upd (l1 ++ a :: l2) (length l1) v = l1 ++ v :: l2.
Proof. induction l1 as [|x l1 IH]; simpl; auto. now rewrite IH. Qed.

Lemma nth_ext l l' : (forall i, nth_error l i = nth_error l' i) -> l = l'.
Proof.
  revert l'; induction l as [|a l IH]; intros [|b l'] H; auto.
  - specialize (H 0); discriminate.
  - specialize (H 0); discriminate.
  - f_equal; [specialize (H 0); simpl in H; congruence|]. apply IH. intros i. exact (H (S i)).
Qed.

Lemma foldM_app {S} (f : S -> A -> res S) s l1 l2 :
  foldM f s (l1 ++ l2) = do s' <- foldM f s l1; foldM f s' l2.
Proof.
  revert s; induction l1 as [|a l1 IH]; intros s; simpl; auto.
  destruct (f s a); simpl; auto.
Qed.

(** Loop rule: an invariant indexed by the part of the list already processed. *)
Lemma foldM_inv {S} (I : list A -> S -> Prop) (f : S -> A -> res S) l :
  forall s, I [] s ->
  (forall done x rest s, l = done ++ x :: rest -> I done s -> exists s', f s x = Ok s' /\ I (done ++ [x]) s') ->
  exists s', foldM f s l = Ok s' /\ I l s'.
Proof.
  intros s H0 Hstep.
  assert (G : forall rest done s, l = done ++ rest -> I done s ->
              exists s', foldM f s rest = Ok s' /\ I l s').
  { induction rest as [|x rest IH]; intros done s1 Hl HI; simpl.
    - rewrite app_nil_r in Hl; subst; eauto.
    - destruct (Hstep done x rest s1 Hl HI) as [s2 [E2 I2]]. rewrite E2; simpl.
      apply (IH (done ++ [x])); auto. rewrite Hl, <- app_assoc; auto. }
  apply (G l [] s); auto.
Qed.

(** Partial-correctness version of the rule. *)
Lemma foldM_inv_ok {S} (I : list A -> S -> Prop) (f : S -> A -> res S) l :
  forall s s', I [] s ->
  (forall done x rest s s', l = done ++ x :: rest -> I done s -> f s x = Ok s' -> I (done ++ [x]) s') ->
  foldM f s l = Ok s' -> I l s'.
Proof.
  intros s s' H0 Hstep.
  assert (G : forall rest done s, l = done ++ rest -> I done s -> foldM f s rest = Ok s' -> I l s').
  { induction rest as [|x rest IH]; intros done s1 Hl HI; simpl.
    - rewrite app_nil_r in Hl; subst. intros [= <-]; auto.
    - intros E. apply bind_Ok in E as [s2 [E2 E3]].
      apply (IH (done ++ [x]) s2); auto. rewrite Hl, <- app_assoc; auto.
      eapply Hstep; eauto. }
  apply (G l [] s); auto.
Qed.

(** Safety rule: the loop either finishes in a state satisfying the invariant or stops with an allowed error. *)
Lemma foldM_safe {S} (I : list A -> S -> Prop) (f : S -> A -> res S) (P : err -> Prop) l :
  forall s, I [] s ->
  (forall done x rest s, l = done ++ x :: rest -> I done s ->
     match f s x with Ok s' => I (done ++ [x]) s' | Err e => P e end) ->
  match foldM f s l with Ok s' => I l s' | Err e => P e end.
Proof.
  intros s H0 Hstep.
  assert (G : forall rest done s, l = done ++ rest -> I done s ->
     match foldM f s rest with Ok s' => I l s' | Err e => P e end).
  { induction rest as [|x rest IH]; intros done s1 Hl HI; simpl.
    - rewrite app_nil_r in Hl; subst. auto.
    - specialize (Hstep done x rest s1 Hl HI). destruct (f s1 x) as [s2|e]; simpl; auto.
      apply (IH (done ++ [x]) s2); auto. rewrite Hl, <- app_assoc; auto. }
  apply (G l [] s); auto.
Qed.

End Arr.

Lemma nth_error_seq a n i : i < n -> nth_error (seq a n) i = Some (a + i).
Proof.
  intros H. rewrite (nth_error_nth' _ 0) by (rewrite seq_length; auto).
  now rewrite seq_nth.
Qed.

Lemma seq_split a n done x rest : seq a n = done ++ x :: rest ->
  done = seq a (length done) /\ x = a + length done /\ rest = seq (a + length done + 1) (length rest)
  /\ n = length done + 1 + length rest.
Proof.
  revert a n; induction done as [|d done IH]; intros a n H; simpl in *.
  - destruct n; simpl in H; [discriminate|]. injection H as Hx Hr. subst.
    rewrite seq_length. repeat split; try lia. f_equal; lia.
  - destruct n; simpl in H; [discriminate|]. injection H as Hx Hr.
    destruct (IH _ _ Hr) as (H1 & H2 & H3 & H4). subst d. repeat split.
    + simpl. f_equal. auto.
    + lia.
    + rewrite H3 at 1. f_equal. lia.
    + lia.
Qed.

(** Loop rule specialised to [for (i = 0; i < n; i++)]. *)
Lemma foldM_seq {S} (I : nat -> S -> Prop) (f : S -> nat -> res S) n :
  forall s, I 0 s ->
  (forall i s, i < n -> I i s -> exists s', f s i = Ok s' /\ I (i + 1) s') ->
  exists s', foldM f s (seq 0 n) = Ok s' /\ I n s'.
Proof.
  intros s H0 Hs.
  destruct (foldM_inv (fun d s => I (length d) s) f (seq 0 n) s) as [s' [E HI]]; auto.
  - intros done x rest s1 Hl HI. apply seq_split in Hl as (H1 & H2 & H3 & H4). simpl in H2. subst x.
    destruct (Hs (length done) s1) as [s2 [E2 I2]]; auto. lia.
    exists s2; split; auto. rewrite app_length; simpl; auto.
  - rewrite seq_length in HI. eauto.
Qed.

Lemma foldM_seq_safe {S} (I : nat -> S -> Prop) (P : err -> Prop) (f : S -> nat -> res S) n :
  forall s, I 0 s ->
  (forall i s, i < n -> I i s -> match f s i with Ok s' => I (i + 1) s' | Err e => P e end) ->
  match foldM f s (seq 0 n) with Ok s' => I n s' | Err e => P e end.
Proof.
  intros s H0 Hs.
  pose proof (foldM_safe (fun d s => I (length d) s) f P (seq 0 n) s) as G.
  destruct (foldM f s (seq 0 n)) as [s'|e]; rewrite ?seq_length in *; apply G; auto;
  intros done x rest s1 Hl HI; apply seq_split in Hl as (H1 & H2 & H3 & H4); simpl in H2; subst x;
  specialize (Hs (length done) s1); destruct (f s1 (length done)); rewrite ?app_length; simpl; apply Hs; auto; lia.
Qed.

(** Last element, and head with default. *)
Definition last_error {A} (l : list A) : option A := hd_error (rev l).

Lemma last_error_snoc {A} (l : list A) a : last_error (l ++ [a]) = Some a.
Proof. unfold last_error. now rewrite rev_unit. Qed.

Lemma last_error_cons {A} (l : list A) a : l <> [] -> last_error (a :: l) = last_error l.
Proof.
  intros H. destruct (exists_last H) as [l' [b ->]].
  change (a :: l' ++ [b]) with ((a :: l') ++ [b]). now rewrite !last_error_snoc.
Qed.

Lemma snoc_cases {A} (l : list A) : l = [] \/ exists l' a, l = l' ++ [a].
Proof. destruct l as [|x l]; auto. right. destruct (@exists_last _ (x :: l)) as [l' [a ->]]; [discriminate|eauto]. Qed.

Lemma in_split_nodup {A} (x : A) l : In x l -> NoDup l -> exists l1 l2, l = l1 ++ x :: l2 /\ ~ In x l1 /\ ~ In x l2.
Proof.
  intros Hi Hn. destruct (in_split _ _ Hi) as (l1 & l2 & ->). exists l1, l2. split; auto.
  apply NoDup_remove_2 in Hn. rewrite in_app_iff in Hn. tauto.
Qed.

(** Pointwise update of a function. *)
Definition fupd {B} (f : nat -> B) (k : nat) (v : B) : nat -> B := fun i => if i =? k then v else f i.
Lemma fupd_eq {B} (f : nat -> B) k v : fupd f k v k = v.
Proof. unfold fupd. now rewrite Nat.eqb_refl. Qed.
Lemma fupd_neq {B} (f : nat -> B) k v i : i <> k -> fupd f k v i = f i.
Proof. unfold fupd. intros H. apply Nat.eqb_neq in H. now rewrite H. Qed.

(** Counting. *)
Definition count {A} (f : A -> bool) (l : list A) : nat := length (filter f l).
Lemma count_ext {A} (f g : A -> bool) l : (forall x, In x l -> f x = g x) -> count f l = count g l.
Proof.
  unfold count. induction l as [|a l IH]; intros H; simpl; auto.
  rewrite (H a) by (simpl; auto). destruct (g a); simpl; rewrite IH; auto; intros; apply H; simpl; auto.
Qed.
Lemma count_app {A} (f : A -> bool) l1 l2 : count f (l1 ++ l2) = count f l1 + count f l2.
Proof. unfold count. now rewrite filter_app, app_length. Qed.
Lemma count_le {A} (f : A -> bool) l : count f l <= length l.
Proof. unfold count. induction l; simpl; auto. destruct (f a); simpl; lia. Qed.
Lemma count_cons {A} (f : A -> bool) x l : count f (x :: l) = (if f x then 1 else 0) + count f l.
Proof. unfold count. simpl. destruct (f x); simpl; lia. Qed.
Lemma count_pos {A} (f : A -> bool) l x : In x l -> f x = true -> 0 < count f l.
Proof.
  intros Hi Hf. apply in_split in Hi as (l1 & l2 & ->). rewrite count_app, count_cons, Hf. lia.
Qed.
Lemma count_pos_ex {A} (f : A -> bool) l : 0 < count f l -> exists x, In x l /\ f x = true.
Proof.
  unfold count. intros H. destruct (filter f l) as [|x t] eqn:E; simpl in H; [lia|].
  exists x. apply filter_In. rewrite E; simpl; auto.
Qed.
(** Changing a predicate at one point of a duplicate-free list. *)
Lemma count_change {A} (f g : A -> bool) l x :
  NoDup l -> In x l -> (forall y, In y l -> y <> x -> f y = g y) ->
  count f l + (if g x then 1 else 0) = count g l + (if f x then 1 else 0).
Proof.
  intros Hn Hi He. destruct (in_split_nodup x l Hi Hn) as (l1 & l2 & -> & H1 & H2).
  rewrite !count_app, !count_cons.
  rewrite (count_ext f g l1), (count_ext f g l2).
  - destruct (f x), (g x); lia.
  - intros y Hy. apply He. apply in_app_iff; simpl; auto. congruence.
  - intros y Hy. apply He. apply in_app_iff; auto. congruence.
Qed.

Lemma NoDup_bound (l : list nat) n : NoDup l -> (forall x, In x l -> x < n) -> length l <= n.
Proof.
  intros Hn Hb. rewrite <- (seq_length n 0). apply NoDup_incl_length; auto.
  intros x Hx. apply in_seq. specialize (Hb x Hx). lia.
Qed.

(** Walking along a linked list whose cells are [l]. *)
Lemma walkM_list {S} (nx : S -> nat -> res (option nat)) (body : S -> nat -> res S) (I : list nat -> S -> Prop) l :
  forall fuel s, length l <= fuel -> I [] s ->
  (forall done i rest s, l = done ++ i :: rest -> I done s ->
     exists s', body s i = Ok s' /\ I (done ++ [i]) s' /\ nx s' i = Ok (hd_error rest)) ->
  exists s', walkM nx body fuel (hd_error l) s = Ok s' /\ I l s'.
Proof.
  intros fuel s Hf H0 Hstep.
  assert (G : forall rest done fuel s, l = done ++ rest -> length rest <= fuel -> I done s ->
              exists s', walkM nx body fuel (hd_error rest) s = Ok s' /\ I l s').
  { induction rest as [|x rest IH]; intros done fu s1 Hl Hfu HI.
    - rewrite app_nil_r in Hl; subst. exists s1. destruct fu; simpl; auto.
    - destruct fu as [|fu]; simpl in Hfu; [lia|].
      destruct (Hstep done x rest s1 Hl HI) as (s2 & E2 & I2 & N2). simpl. rewrite E2; simpl. rewrite N2; simpl.
      apply (IH (done ++ [x])); auto. rewrite Hl, <- app_assoc; auto. lia. }
  apply (G l [] fuel s); auto.
Qed.

Lemma walkM_safe {S} (nx : S -> nat -> res (option nat)) (body : S -> nat -> res S) (I : list nat -> S -> Prop)
  (P : err -> Prop) l :
  forall fuel s, length l <= fuel -> I [] s ->
  (forall done i rest s, l = done ++ i :: rest -> I done s ->
     match body s i with Ok s' => I (done ++ [i]) s' /\ nx s' i = Ok (hd_error rest) | Err e => P e end) ->
  match walkM nx body fuel (hd_error l) s with Ok s' => I l s' | Err e => P e end.
Proof.
  intros fuel s Hf H0 Hstep.
  assert (G : forall rest done fuel s, l = done ++ rest -> length rest <= fuel -> I done s ->
     match walkM nx body fuel (hd_error rest) s with Ok s' => I l s' | Err e => P e end).
  { induction rest as [|x rest IH]; intros done fu s1 Hl Hfu HI.
    - rewrite app_nil_r in Hl; subst. destruct fu; simpl; auto.
    - destruct fu as [|fu]; simpl in Hfu; [lia|].
      specialize (Hstep done x rest s1 Hl HI). simpl. destruct (body s1 x) as [s2|e]; simpl; auto.
      destruct Hstep as [I2 N2]. rewrite N2; simpl.
      apply (IH (done ++ [x])); auto. rewrite Hl, <- app_assoc; auto. lia. }
  apply (G l [] fuel s); auto.
Qed.

Definition mem (i : nat) (l : list nat) : bool := existsb (Nat.eqb i) l.
Lemma mem_In i l : mem i l = true <-> In i l.
Proof.
  unfold mem. rewrite existsb_exists. split.
  - intros (x & H & E). apply Nat.eqb_eq in E. now subst.
  - intros H. exists i. split; auto. apply Nat.eqb_refl.
Qed.
Lemma mem_spec i l : reflect (In i l) (mem i l).
Proof. apply iff_reflect. symmetry. apply mem_In. Qed.
Lemma mem_app i l1 l2 : mem i (l1 ++ l2) = mem i l1 || mem i l2.
Proof. unfold mem. apply existsb_app. Qed.

Lemma NoDup_app_iff {B} (l1 l2 : list B) :
  NoDup (l1 ++ l2) <-> NoDup l1 /\ NoDup l2 /\ (forall x, In x l1 -> ~ In x l2).
Proof.
  induction l1 as [|a l1 IH]; simpl.
  - split; [intros H; splits; auto; constructor|tauto].
  - split.
    + intros H. inversion H as [|? ? Hn Hd]; subst. apply IH in Hd as (H1 & H2 & H3).
      rewrite in_app_iff in Hn. splits; auto.
      * constructor; tauto.
      * intros x [<-|Hx]; [tauto|]. apply H3; auto.
    + intros (H1 & H2 & H3). inversion H1; subst. constructor.
      * rewrite in_app_iff. intros [|Hx]; auto. apply (H3 a); auto.
      * apply IH. splits; auto.
Qed.

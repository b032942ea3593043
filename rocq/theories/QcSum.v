(** QcSum.v -- finite sums of canonical rationals. *)
From Coq Require Import List Arith Lia Bool ZArith QArith Qcanon Permutation.
From Verif Require Import Base ListLib Num.
Import ListNotations.
Local Open Scope nat_scope.
Local Open Scope Qc_scope.

Lemma Qc_of_nat_0 : Qc_of_nat 0 = 0. Proof. reflexivity. Qed.
Lemma Qc_of_nat_1 : Qc_of_nat 1 = 1. Proof. reflexivity. Qed.
Lemma Qc_of_nat_add a b : Qc_of_nat (a + b) = Qc_of_nat a + Qc_of_nat b.
Proof.
  unfold Qc_of_nat. apply Qc_is_canon. unfold Qcplus. cbn [this Q2Qc]. rewrite !Qred_correct.
  rewrite Nat2Z.inj_add, inject_Z_plus. reflexivity.
Qed.
Lemma Qc_of_nat_S a : Qc_of_nat (S a) = 1 + Qc_of_nat a.
Proof. change (S a) with (1 + a)%nat. now rewrite Qc_of_nat_add. Qed.
Lemma Qc_of_nat_2 : Qc_of_nat 2 = 1 + 1. Proof. reflexivity. Qed.
Lemma Qc_of_nat_mul a b : Qc_of_nat (a * b) = Qc_of_nat a * Qc_of_nat b.
Proof.
  unfold Qc_of_nat. apply Qc_is_canon. unfold Qcmult. cbn [this Q2Qc]. rewrite !Qred_correct.
  rewrite Nat2Z.inj_mul, inject_Z_mult. reflexivity.
Qed.
Lemma Qc_of_nat_nonneg a : 0 <= Qc_of_nat a.
Proof.
  unfold Qc_of_nat, Qcle. cbn [this Q2Qc]. rewrite !Qred_correct. change (inject_Z 0 <= inject_Z (Z.of_nat a))%Q.
  rewrite <- Zle_Qle. lia.
Qed.
Lemma Qc_of_nat_inj a b : Qc_of_nat a = Qc_of_nat b -> a = b.
Proof.
  unfold Qc_of_nat. intros H. apply (f_equal this) in H. cbn [this Q2Qc] in H.
  assert (inject_Z (Z.of_nat a) == inject_Z (Z.of_nat b))%Q as E.
  { rewrite <- (Qred_correct (inject_Z (Z.of_nat a))), H, Qred_correct. reflexivity. }
  unfold Qeq in E. simpl in E. lia.
Qed.
Lemma Qc_of_nat_pos a : (0 < a)%nat -> 0 < Qc_of_nat a.
Proof.
  intros H. unfold Qc_of_nat, Qclt. cbn [this Q2Qc]. rewrite !Qred_correct. change (inject_Z 0 < inject_Z (Z.of_nat a))%Q.
  rewrite <- Zlt_Qlt. lia.
Qed.
Lemma Qc_of_nat_le a b : (a <= b)%nat -> Qc_of_nat a <= Qc_of_nat b.
Proof.
  intros H. unfold Qc_of_nat, Qcle. cbn [this Q2Qc]. rewrite !Qred_correct. rewrite <- Zle_Qle. lia.
Qed.
Lemma Qc_of_nat_lt a b : (a < b)%nat -> Qc_of_nat a < Qc_of_nat b.
Proof.
  intros H. unfold Qc_of_nat, Qclt. cbn [this Q2Qc]. rewrite !Qred_correct. rewrite <- Zlt_Qlt. lia.
Qed.

Fixpoint Qsum {X} (f : X -> Qc) (l : list X) : Qc :=
  match l with [] => 0 | x :: l => f x + Qsum f l end.

Section S.
Context {X : Type}.
Implicit Types (f g : X -> Qc) (l : list X).

Lemma Qsum_ext f g l : (forall x, In x l -> f x = g x) -> Qsum f l = Qsum g l.
Proof.
  induction l as [|a l IH]; intros H; simpl; auto. rewrite (H a) by (simpl; auto). f_equal. apply IH.
  intros; apply H; simpl; auto.
Qed.
Lemma Qsum_app f l1 l2 : Qsum f (l1 ++ l2) = Qsum f l1 + Qsum f l2.
Proof. induction l1 as [|a l IH]; simpl; [ring|]. rewrite IH. ring. Qed.
Lemma Qsum_add f g l : Qsum (fun x => f x + g x) l = Qsum f l + Qsum g l.
Proof. induction l as [|a l IH]; simpl; [ring|]. rewrite IH. ring. Qed.
Lemma Qsum_sub f g l : Qsum (fun x => f x - g x) l = Qsum f l - Qsum g l.
Proof. induction l as [|a l IH]; simpl; [ring|]. rewrite IH. ring. Qed.
Lemma Qsum_scal c f l : Qsum (fun x => c * f x) l = c * Qsum f l.
Proof. induction l as [|a l IH]; simpl; [ring|]. rewrite IH. ring. Qed.
Lemma Qsum_scal_r c f l : Qsum (fun x => f x * c) l = Qsum f l * c.
Proof. induction l as [|a l IH]; simpl; [ring|]. rewrite IH. ring. Qed.
Lemma Qsum_0 f l : (forall x, In x l -> f x = 0) -> Qsum f l = 0.
Proof.
  induction l as [|a l IH]; intros H; simpl; auto. rewrite (H a) by (simpl; auto). rewrite IH; [ring|].
  intros; apply H; simpl; auto.
Qed.
Lemma Qsum_const c l : Qsum (fun _ => c) l = Qc_of_nat (length l) * c.
Proof. induction l as [|a l IH]; [simpl; rewrite Qc_of_nat_0; ring|]. simpl Qsum. rewrite IH. simpl length. rewrite Qc_of_nat_S. ring. Qed.
Lemma Qsum_perm f l l' : Permutation l l' -> Qsum f l = Qsum f l'.
Proof. induction 1; simpl; auto; try congruence. ring. Qed.
Lemma Qsum_rev f l : Qsum f (rev l) = Qsum f l.
Proof. apply Qsum_perm. symmetry. apply Permutation_rev. Qed.
Lemma Qsum_filter (c : X -> bool) f l : Qsum f (filter c l) = Qsum (fun x => if c x then f x else 0) l.
Proof. induction l as [|a l IH]; simpl; auto. destruct (c a); simpl; rewrite IH; auto. ring. Qed.
Lemma Qsum_fold f l : forall a, fold_left (fun s x => s + f x) l a = a + Qsum f l.
Proof. induction l as [|x l IH]; intros a; simpl; [ring|]. rewrite IH. ring. Qed.
Lemma Qsum_nonneg f l : (forall x, In x l -> 0 <= f x) -> 0 <= Qsum f l.
Proof.
  induction l as [|a l IH]; intros H; simpl; [apply Qcle_refl|].
  change 0 with (0 + 0). apply Qcplus_le_compat; [apply H; simpl; auto|apply IH; intros; apply H; simpl; auto].
Qed.
Lemma Qsum_le f g l : (forall x, In x l -> f x <= g x) -> Qsum f l <= Qsum g l.
Proof.
  induction l as [|a l IH]; intros H; simpl; [apply Qcle_refl|].
  apply Qcplus_le_compat; [apply H; simpl; auto|apply IH; intros; apply H; simpl; auto].
Qed.
Lemma Qsum_map {Y} (h : Y -> X) f (l : list Y) : Qsum f (map h l) = Qsum (fun y => f (h y)) l.
Proof. induction l as [|a l IH]; simpl; auto. rewrite IH. auto. Qed.
Lemma Qsum_flat {Y} (h : Y -> list X) f (l : list Y) : Qsum f (flat_map h l) = Qsum (fun y => Qsum f (h y)) l.
Proof. induction l as [|a l IH]; simpl; auto. rewrite Qsum_app, IH. auto. Qed.
End S.

Lemma Qsum_swap {X Y} (f : X -> Y -> Qc) l l' :
  Qsum (fun x => Qsum (fun y => f x y) l') l = Qsum (fun y => Qsum (fun x => f x y) l) l'.
Proof.
  induction l as [|a l IH]; simpl.
  - symmetry. apply Qsum_0. auto.
  - rewrite IH, <- Qsum_add. auto.
Qed.

(** A sum with a single non-zero term. *)
Lemma Qsum_single (f : nat -> Qc) l n : NoDup l -> In n l -> Qsum (fun i => if Nat.eqb i n then f i else 0) l = f n.
Proof.
  intros ND Hi. destruct (in_split_nodup n l Hi ND) as (l1 & l2 & -> & H1 & H2).
  rewrite Qsum_app. simpl. rewrite Nat.eqb_refl, !Qsum_0; [ring| |];
    intros x Hx; destruct (Nat.eqb_spec x n); congruence.
Qed.
Lemma Qsum_single_none (f : nat -> Qc) l n : ~ In n l -> Qsum (fun i => if Nat.eqb i n then f i else 0) l = 0.
Proof. intros Hn. apply Qsum_0. intros x Hx. destruct (Nat.eqb_spec x n); congruence. Qed.

(** Sum over the members of a duplicate-free list inside 0..N-1 is a conditional sum over 0..N-1. *)
Lemma Qsum_members (f : nat -> Qc) (l : list nat) N : NoDup l -> (forall x, In x l -> (x < N)%nat) ->
  Qsum f l = Qsum (fun i => if mem i l then f i else 0) (seq 0 N).
Proof.
  intros ND Hl. rewrite <- Qsum_filter. apply Qsum_perm. apply NoDup_Permutation; auto.
  - apply NoDup_filter, seq_NoDup.
  - intros x. rewrite filter_In, in_seq, mem_In. split; [intros H; split; auto; specialize (Hl x H); lia|tauto].
Qed.

(** A symmetric function of two indices that vanishes except on the row and the column of [n]. *)
Lemma cross_sum (D : nat -> nat -> Qc) n l : NoDup l -> In n l ->
  (forall i j, In i l -> In j l -> D i j = D j i) ->
  (forall i j, In i l -> In j l -> i <> n -> j <> n -> D i j = 0) -> D n n = 0 ->
  Qsum (fun i => Qsum (fun j => D i j) l) l = (1 + 1) * Qsum (fun j => D n j) l.
Proof.
  intros ND Hn Hs Hz Hnn.
  rewrite (Qsum_ext (fun i => Qsum (fun j => D i j) l)
     (fun i => (if Nat.eqb i n then Qsum (fun j => D n j) l else 0) + D n i)).
  - rewrite Qsum_add. rewrite (Qsum_single (fun _ => Qsum (fun j => D n j) l)); auto. cbv beta. change (Qsum (D n) l) with (Qsum (fun j => D n j) l). ring.
  - intros i Hi. destruct (Nat.eqb_spec i n) as [->|Hne].
    + rewrite Hnn. ring.
    + rewrite (Qsum_ext (fun j => D i j) (fun j => if Nat.eqb j n then D i j else 0)).
      * rewrite Qsum_single by auto. rewrite (Hs i n) by auto. ring.
      * intros j Hj. destruct (Nat.eqb_spec j n); auto.
Qed.

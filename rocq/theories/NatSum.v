(** NatSum.v -- finite sums of natural numbers over lists. *)
From Coq Require Import List Arith Lia Bool Permutation.
From Verif Require Import Base ListLib.
Import ListNotations.
Local Open Scope nat_scope.

Fixpoint lsum {X} (f : X -> nat) (l : list X) : nat := match l with [] => 0 | x :: l => f x + lsum f l end.

Section Sum.
Context {X : Type}.
Implicit Types (f g : X -> nat) (l : list X).
Lemma lsum_ext f g l : (forall x, In x l -> f x = g x) -> lsum f l = lsum g l.
Proof. induction l as [|x l IH]; simpl; intros H; [reflexivity|]. rewrite H, IH; auto. Qed.
Lemma lsum_app f l1 l2 : lsum f (l1 ++ l2) = lsum f l1 + lsum f l2.
Proof. induction l1; simpl; lia. Qed.
Lemma lsum_add f g l : lsum (fun x => f x + g x) l = lsum f l + lsum g l.
Proof. induction l; simpl; lia. Qed.
Lemma lsum_0 f l : (forall x, In x l -> f x = 0) -> lsum f l = 0.
Proof. induction l as [|x l IH]; simpl; intros H; [reflexivity|]. rewrite H, IH; auto. Qed.
Lemma lsum_const c l : lsum (fun _ => c) l = length l * c.
Proof. induction l; simpl; lia. Qed.
Lemma lsum_scal c f l : lsum (fun x => c * f x) l = c * lsum f l.
Proof. induction l; simpl; lia. Qed.
Lemma lsum_le f g l : (forall x, In x l -> f x <= g x) -> lsum f l <= lsum g l.
Proof. induction l as [|x l IH]; simpl; intros H; auto. specialize (H x (or_introl eq_refl)) as H1. specialize (IH (fun y Hy => H y (or_intror Hy))). lia. Qed.
Lemma lsum_perm f l l' : Permutation l l' -> lsum f l = lsum f l'.
Proof. induction 1; simpl; lia. Qed.
Lemma lsum_fold f l : forall a, fold_left (fun s x => s + f x) l a = a + lsum f l.
Proof. induction l as [|x l IH]; simpl; intros a; [lia|]. rewrite IH. lia. Qed.
Lemma lsum_map {Y} (h : Y -> X) f (l : list Y) : lsum f (map h l) = lsum (fun y => f (h y)) l.
Proof. induction l; simpl; auto. Qed.
Lemma lsum_flat {Y} (h : Y -> list X) f (l : list Y) : lsum f (flat_map h l) = lsum (fun y => lsum f (h y)) l.
Proof. induction l; simpl; auto. rewrite lsum_app. lia. Qed.
Lemma lsum_filter (c : X -> bool) f l : lsum f (filter c l) = lsum (fun x => if c x then f x else 0) l.
Proof. induction l as [|x l IH]; simpl; auto. destruct (c x); simpl; lia. Qed.
Lemma length_lsum l : length l = lsum (fun _ => 1) l.
Proof. induction l; simpl; auto. Qed.
Lemma count_lsum (c : X -> bool) l : count c l = lsum (fun x => if c x then 1 else 0) l.
Proof. unfold count. now rewrite length_lsum, lsum_filter. Qed.
Lemma length_flat {Y} (h : Y -> list X) (l : list Y) : length (flat_map h l) = lsum (fun y => length (h y)) l.
Proof. induction l; simpl; auto. rewrite app_length. lia. Qed.
End Sum.

Lemma lsum_swap {X Y} (f : X -> Y -> nat) l l' : lsum (fun x => lsum (f x) l') l = lsum (fun y => lsum (fun x => f x y) l) l'.
Proof.
  induction l as [|x l IH]; simpl.
  - symmetry. now apply lsum_0.
  - now rewrite IH, lsum_add.
Qed.
Lemma lsum_members (f : nat -> nat) (l : list nat) N : NoDup l -> (forall x, In x l -> x < N) ->
  lsum f l = lsum (fun i => if mem i l then f i else 0) (seq 0 N).
Proof.
  intros ND H. rewrite <- lsum_filter. apply lsum_perm. apply NoDup_Permutation; auto.
  - apply NoDup_filter, seq_NoDup.
  - intros x. rewrite filter_In, in_seq, mem_In. split; [|tauto]. intros Hx. specialize (H x Hx). split; auto. lia.
Qed.
Lemma lsum_single (f : nat -> nat) l n : NoDup l -> In n l -> lsum (fun i => if i =? n then f i else 0) l = f n.
Proof.
  induction l as [|a l IH]; simpl; intros ND Hn; [tauto|]. inversion ND; subst. destruct Hn as [->|Hn].
  - rewrite Nat.eqb_refl. rewrite lsum_0; [lia|]. intros x Hx. destruct (Nat.eqb_spec x n); auto. subst. contradiction.
  - rewrite IH; auto. destruct (Nat.eqb_spec a n); auto. subst. contradiction.
Qed.

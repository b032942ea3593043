(** SearchSpec.v -- search trees, their shape in memory and their balance. *)
From Coq Require Import List Arith ZArith Bool Sorted Permutation.
From Verif Require Import Base SearchModel.
Import ListNotations.
Local Open Scope nat_scope.

Section Spec.
Context {K : Type}.
Variable compar : K -> K -> Z.

(** A comparison function: equality is an equivalence that the order respects, the order is total. *)
Record good_compar : Prop := {
  gc_refl : forall a, compar a a = 0%Z;
  gc_anti : forall a b, (compar a b < 0)%Z <-> (0 < compar b a)%Z;
  gc_trans : forall a b c, (compar a b < 0)%Z -> (compar b c < 0)%Z -> (compar a c < 0)%Z;
  gc_eq : forall a b c, compar a b = 0%Z -> (compar b c < 0)%Z -> (compar a c < 0)%Z
}.

(** Trees: [T i k red l r] is the node at address [i] with key [k]. *)
Inductive tree := E | T (i : nat) (k : K) (red : bool) (l r : tree).
Fixpoint elems (t : tree) : list (nat * K) := match t with E => [] | T i k _ l r => elems l ++ (i, k) :: elems r end.
Fixpoint ids (t : tree) : list nat := match t with E => [] | T i _ _ l r => i :: ids l ++ ids r end.
Fixpoint height (t : tree) : nat := match t with E => 0 | T _ _ _ l r => S (Nat.max (height l) (height r)) end.

(** The tree that a pointer leads to in a memory. *)
Fixpoint rep (h : theap K) (p : option nat) (t : tree) : Prop :=
  match t with
  | E => p = None
  | T i k c l r => p = Some i /\ exists n, nth_error (hnodes h) i = Some n /\ tkey n = k /\ tred n = c /\ rep h (tleft n) l /\ rep h (tright n) r
  end.

(** Red nodes have black children; all ways down meet the same number of black nodes. *)
Definition isred (t : tree) : bool := match t with T _ _ c _ _ => c | E => false end.
Fixpoint balanced (t : tree) (n : nat) : Prop :=
  match t with
  | E => n = 0
  | T _ _ true l r => balanced l n /\ balanced r n /\ isred l = false /\ isred r = false
  | T _ _ false l r => exists m, n = S m /\ balanced l m /\ balanced r m
  end.

Definition sorted (t : tree) : Prop := StronglySorted (fun a b => (compar (snd a) (snd b) < 0)%Z) (elems t).

(** The memory holds the search tree [t]. *)
Record holds (h : theap K) (t : tree) : Prop := {
  ho_rep : rep h (hroot h) t;
  ho_nodup : NoDup (ids t);
  ho_sorted : sorted t;
  ho_balanced : exists n, balanced t n
}.

(** The calls of the action of a walk that report a node in the middle of, or before, its subtree. *)
Definition inorder_event (e : nat * visit * nat) : bool := match snd (fst e) with postorder | leaf => true | _ => false end.
Definition preorder_event (e : nat * visit * nat) : bool := match snd (fst e) with preorder | leaf => true | _ => false end.
Definition who (e : nat * visit * nat) : nat := fst (fst e).

(** The entries in the order in which they were made; the tree holds all of them. *)
Definition entries (h : theap K) : list K := map (@tkey K) (hnodes h).
Definition is_table (h : theap K) : Prop := exists t, holds h t /\ Permutation (map fst (elems t)) (seq 0 (length (hnodes h))).
End Spec.
Arguments tree : clear implicits.

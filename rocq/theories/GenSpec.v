(** GenSpec.v -- what the generators of src/models.c are said to produce. *)
From Coq Require Import List Arith Ascii Bool.
From Verif Require Import Base IoModel GraphModel GraphSpec.
Import ListNotations.
Local Open Scope nat_scope.

(** The text is the decimal numeral of [n]: digits only, no leading zero, and read from the left it has the value [n]. *)
Definition is_digit (c : ascii) : Prop := 48 <= nat_of_ascii c <= 57.
Definition value (l : label) : nat := fold_left (fun v c => 10 * v + (nat_of_ascii c - 48)) l 0.
Definition numeral (l : label) (n : nat) : Prop := Forall is_digit l /\ (forall c l', l = c :: l' -> l' <> [] -> nat_of_ascii c <> 48) /\ l <> [] /\ value l = n.

(** Written with at most 99 digits, so that it fits a label (every C int has at most 10). *)
Definition writable (n : nat) : Prop := exists k, k < 100 /\ n < 10 ^ k.

(** The pairs [i < j < n] in the order (0,1), (0,2), ..., (1,2), ... *)
Definition upper (n : nat) : list (nat * nat) := flat_map (fun i => map (pair i) (seq (i + 1) (n - (i + 1)))) (seq 0 n).

(** The groups of the nodes: first [gsize[0]] times 0, then [gsize[1]] times 1, ... *)
Definition blocks (ngroup : nat) (gsize : list nat) : list nat := flat_map (fun g => repeat g (nth g gsize 0)) (seq 0 ngroup).

Section GenSpec.
Context {A : Type} {ops : NumOps A}.

(** Entry of a matrix. *)
Definition entry (q : list (list A)) (g h : nat) : option A := match nth_error q g with Some r => nth_error r h | None => None end.

(** Nodes are named 1, 2, ..., n. *)
Definition named (g : net A) (n : nat) : Prop := length g = n /\ forall i nd, nth_error g i = Some nd -> numeral (glabel nd) (i + 1).

(** The weight of every link is 0. *)
Definition weightless (g : net A) : Prop := forall a b w, weight g a b = Some w -> w = n0.

(** A random number below 1: the index drawn among [n] is below [n], and 0 if there is nothing to choose from. *)
Definition good_pick (u : A) : Prop := forall n, nfloor (nmul u (nofnat n)) < Nat.max 1 n.

(** Neighbours with a smaller number. *)
Definition earlier (g : net A) (i : nat) : list nat := filter (fun j => j <? i) (nbrs g i).
End GenSpec.

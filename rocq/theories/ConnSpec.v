(** ConnSpec.v -- strongly connected sets of a network; no model function of ConnModel.v appears here. *)
From Coq Require Import List Arith ZArith.
From Verif Require Import Base GraphModel GraphSpec.
Import ListNotations.
Local Open Scope nat_scope.

Section Spec.
Context {A : Type}.
Implicit Types g : net A.

(** Each of two nodes can be reached from the other. *)
Definition mutual g (a b : nat) : Prop := reachable g a b /\ reachable g b a.
(** [M] is the strongly connected set of its members. *)
Definition strong_set g (M : list nat) : Prop := M <> [] /\ NoDup M /\ forall a b, In a M -> (In b M <-> mutual g a b).
(** The strongly connected sets of [g]: every node is in exactly one of them. *)
Definition strong_sets_of g (Ms : list (list nat)) : Prop :=
  Forall (strong_set g) Ms /\ NoDup (concat Ms) /\ forall v, In v (concat Ms) <-> v < length g.
End Spec.

Section Parts.
Context {A : Type}.
Implicit Types g : net A.
(** [loc] has the nodes [M] of [g], in order, with their labels and numbers, and the links between them if [links]. *)
Record part_of g (M : list nat) (links : bool) (loc : net A) : Prop := {
  po_labels : map (@glabel A) loc = map (fun i => match nth_error g i with Some n => glabel n | None => [] end) M;
  po_nums : map (@gnum A) loc = M;
  po_nbrs : forall x y, In y (nbrs loc x) -> y < length loc;
  po_weight : forall x y i j, nth_error M x = Some i -> nth_error M y = Some j -> weight loc x y = if links then weight g i j else None
}.
(** Ways along links in either direction. *)
Inductive joined g : nat -> nat -> Prop :=
| joined_refl i : i < length g -> joined g i i
| joined_out i j k : joined g i j -> In k (nbrs g j) -> joined g i k
| joined_in i j k : joined g i j -> In j (nbrs g k) -> joined g i k.
End Parts.

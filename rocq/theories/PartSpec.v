(** PartSpec.v -- what a partition means to its user, stated on the data structure alone (no model function
    appears here).  Used by the property statements. *)
From Coq Require Import List Arith.
From Verif Require Import Base PartModel.
Import ListNotations.
Local Open Scope nat_scope.

(** [walks step o l]: starting at pointer [o] and following [step], the nodes met are exactly [l], and
    the walk ends at the null pointer. *)
Inductive walks (step : nat -> option (option nat)) : option nat -> list nat -> Prop :=
| walks_nil : walks step None []
| walks_cons i o l : step i = Some o -> walks step o l -> walks step (Some i) (i :: l).

Section Spec.
Context {A : Type}.
Implicit Types p : partition A.

Definition fwd p (i : nat) : option (option nat) := option_map nnext (nth_error (pnodes p) i).
Definition bwd p (i : nat) : option (option nat) := option_map nprev (nth_error (pnodes p) i).

(** The module a node reports, and a node's strength. *)
Definition group p (i : nat) : option nat := option_map nmod (nth_error (pnodes p) i).
Definition strength p (i : nat) : option A := option_map nstr (nth_error (pnodes p) i).

(** A well-formed partition: sizes of the arrays, identifiers equal to positions, every node in an existing module,
    every module list a null-terminated doubly linked list of exactly the nodes that report the module, the
    recorded size its length, and the recorded number of empty modules the number of modules of size 0. *)
Record valid p : Prop := {
  valid_N : length (pnodes p) = pN p;
  valid_M : length (pmods p) = pM p;
  valid_nid : forall i nd, nth_error (pnodes p) i = Some nd -> nid nd = i;
  valid_mid : forall m md, nth_error (pmods p) m = Some md -> mid md = m;
  valid_range : forall i nd, nth_error (pnodes p) i = Some nd -> nmod nd < pM p;
  valid_lists : forall m md, nth_error (pmods p) m = Some md ->
    exists l, walks (fwd p) (mfirst md) l /\ walks (bwd p) (mlast md) (rev l) /\
              length l = msize md /\ NoDup l /\
              (forall i, In i l <-> group p i = Some m);
  valid_nempty : pnempty p = length (filter (fun md => msize md =? 0) (pmods p))
}.

End Spec.

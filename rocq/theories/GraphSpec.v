(** GraphSpec.v -- networks as mathematical objects: neighbours, weights, simple undirected networks, paths. *)
From Coq Require Import List Arith.
From Verif Require Import Base GraphModel.
Import ListNotations.
Local Open Scope nat_scope.

Section Spec.
Context {A : Type}.
Implicit Types g : net A.

(** The neighbours listed by node [i], in order, and the weight of the link from [i] to [j] (the first one listed). *)
Definition targets (ls : list (link A)) : list nat := flat_map (fun l => match lref l with Some j => [j] | None => [] end) ls.
Definition nbrs g (i : nat) : list nat := match nth_error g i with Some n => targets (gadj n) | None => [] end.
Definition weight_in (ls : list (link A)) (j : nat) : option A :=
  option_map lweight (find (fun l => match lref l with Some k => k =? j | None => false end) ls).
Definition weight g (i j : nat) : option A := match nth_error g i with Some n => weight_in (gadj n) j | None => None end.
Definition degree g (i : nat) : nat := length (nbrs g i).

(** A network in the state the library keeps: numbers are positions, every link points to a node of the network and carries
    its number and label, no neighbour is listed twice, a cached degree is right. *)
Record wf_net g : Prop := {
  wf_num : forall i n, nth_error g i = Some n -> gnum n = i;
  wf_link : forall i n l, nth_error g i = Some n -> In l (gadj n) ->
    exists j m, lref l = Some j /\ nth_error g j = Some m /\ lnode l = j /\ llabel l = glabel m;
  wf_nodup : forall i, NoDup (nbrs g i);
  wf_deg : forall i n, nth_error g i = Some n -> gdeg n = 0 \/ gdeg n = length (gadj n)
}.

(** A simple undirected network. *)
Record undirected g : Prop := {
  un_wf : wf_net g;
  un_loop : forall i, ~ In i (nbrs g i);
  un_sym : forall i j, weight g i j = weight g j i
}.

(** Everything but links and caches. *)
Definition same_nodes g g' : Prop :=
  Forall2 (fun n m => glabel n = glabel m /\ gnum n = gnum m /\ gstate n = gstate m /\ ggroup n = ggroup m /\ gdvar n = gdvar m) g g'.

(** Paths and distances. *)
Inductive path g : nat -> nat -> nat -> Prop :=
| path_0 i : i < length g -> path g 0 i i
| path_S d i j k : path g d i j -> In k (nbrs g j) -> path g (S d) i k.
Definition reachable g i j : Prop := exists d, path g d i j.
Definition distance g i j d : Prop := path g d i j /\ forall d', path g d' i j -> d <= d'.
End Spec.

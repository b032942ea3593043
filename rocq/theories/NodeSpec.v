(** NodeSpec.v -- what the removal of a node and the statistics of the participation coefficients are (independent of NodeModel). *)
From Coq Require Import List Arith Bool QArith Qcanon.
From Verif Require Import Base IoModel IoSpec GraphModel GraphSpec BipartModel BipartSpec.
Import ListNotations.
Local Open Scope nat_scope.

(** The place before the removal of a place after it. *)
Definition up (p i : nat) : nat := if i <? p then i else i + 1.

Section Spec.
Context {A : Type}.
Implicit Types b : binet A.
(** [b'] is [b] without the node at place p: the other nodes in the same order, with the same labels, groups and links. *)
Record removed b (p : nat) b' : Prop := {
  rm_bi : bipartite b';
  rm_1 : map (up p) (bset1 b') = filter (fun i => negb (i =? p)) (bset1 b);
  rm_2 : map (up p) (bset2 b') = filter (fun i => negb (i =? p)) (bset2 b);
  rm_weight : forall i j, weight (bmem b') i j = weight (bmem b) (up p i) (up p j);
  rm_node : forall i n', nth_error (bmem b') i = Some n' -> exists n, nth_error (bmem b) (up p i) = Some n /\ glabel n' = glabel n /\ gstate n' = gstate n /\ ggroup n' = ggroup n /\ gdvar n' = gdvar n;
  rm_len : length (bmem b') + 1 = length (bmem b) }.

(** One of the two lists, its labels, and a list of labels without the first that matches. *)
Definition side_of b (first : bool) : list nat := if first then bset1 b else bset2 b.
Definition named b (first : bool) : list label := map (label_of (bmem b)) (side_of b first).
Fixpoint without_first (lab : label) (ls : list label) : list label := match ls with [] => [] | x :: ls => if eqb_label x lab then ls else x :: without_first lab ls end.
End Spec.

(** Every node that shares a team with node i has a group, below N. *)
Definition grouped (m : net Qc) (N i : nat) : Prop := forall j, In j (peers m i) -> exists n x, nth_error m j = Some n /\ ggroup n = Some x /\ x < N.

(** ModulesSpec.v -- partitions of a network as a whole, stated without the functions of ModulesModel.v. *)
From Coq Require Import List Arith Ascii ZArith Bool QArith Qcanon.
From Verif Require Import Base ListLib NatSum QcSum IoSpec GraphModel GraphSpec GroupModel GroupSpec.
Import ListNotations.
Local Open Scope nat_scope.

(** Every node is in a group; two nodes are in the same group. *)
Definition covering (N : nat) (M : groups) : Prop := forall i, i < N -> home M i <> None.
Definition same_home (M : groups) (i j : nat) : bool :=
  match home M i, home M j with Some a, Some b => a =? b | _, _ => false end.

(** Modularity of a grouping for the weights [f]: the sum over the ordered pairs of nodes of one group, the pairs (i, i)
    included, of f_ij / T - k_i k_j / T^2, with k_i the sum of the weights at i and T the sum of the k_i. *)
Definition node_sum (N : nat) (f : nat -> nat -> Qc) (i : nat) : Qc := Qsum (f i) (seq 0 N).
Definition all_sum (N : nat) (f : nat -> nat -> Qc) : Qc := Qsum (node_sum N f) (seq 0 N).
Definition pair_modularity (N : nat) (f : nat -> nat -> Qc) (same : nat -> nat -> bool) : Qc :=
  let T := all_sum N f in
  Qsum (fun i => Qsum (fun j =>
    if same i j then (f i j / T - node_sum N f i * node_sum N f j / (T * T))%Qc else 0%Qc) (seq 0 N)) (seq 0 N).

(** 1 for a link, 0 otherwise. *)
Definition unit_weight {A} (g : net A) (i j : nat) : Qc := if linked g i j then 1%Qc else 0%Qc.

(** Labels of the groups and of their nodes; a partition that can be found in a network by the labels of the nodes. *)
Definition names {A} (P : gpart A) := map (fun G => (plabel G, map llabel (pnodes G))) P.
Record nameable {A} (g : net A) (P : gpart A) : Prop := {
  nm_nodes : NoDup (map glabel g);
  nm_groups : NoDup (map plabel P);
  nm_found : forall G l, In G P -> In l (pnodes G) -> In (llabel l) (map glabel g);
  nm_once : NoDup (flat_map (fun G => map llabel (pnodes G)) P);
  nm_size : forall G, In G P -> psize G = Z.of_nat (length (pnodes G))
}.

(** A text of words [ws], with blanks behind every word (the last word may end the text). *)
Inductive text : list (list ascii) -> list ascii -> Prop :=
| text_nil : text [] []
| text_last w : word w -> text [w] w
| text_cons w b ws s : word w -> b <> [] -> (forall c, In c b -> blank c) -> text ws s -> text (w :: ws) (w ++ b ++ s).
(** The line between groups, the words of a file of groups, and a label that can be stored. *)
Definition slashes : list ascii := ["/"; "/"; "/"]%char.
Definition group_words (gs : list (list (list ascii))) : list (list ascii) := flat_map (fun ls => ls ++ [slashes]) gs.
Definition plain (w : list ascii) : Prop := word w /\ w <> slashes /\ length w < 100.
(** The labels in the groups that are not empty. *)
Definition kept {A} (P : gpart A) : list (list (list ascii)) := flat_map (fun G => match pnodes G with [] => [] | ns => [map llabel ns] end) P.

(** A partition of the nodes 0 .. n-1 by their numbers, with labels below n. *)
Record numbering {A} (n : nat) (P : gpart A) : Prop := {
  nb_labels : NoDup (map plabel P);
  nb_below : forall G, In G P -> plabel G < n;
  nb_once : NoDup (flat_map (fun G => map lnode (pnodes G)) P);
  nb_range : forall G l, In G P -> In l (pnodes G) -> lnode l < n /\ lref l <> None;
  nb_all : length (flat_map pnodes P) = n;
  nb_size : forall G, In G P -> psize G = Z.of_nat (length (pnodes G))
}.

(** Nothing but groups, states and caches has changed. *)
Definition same_net {A} (g g' : net A) : Prop :=
  Forall2 (fun n m => glabel n = glabel m /\ gnum n = gnum m /\ gdvar n = gdvar m /\ gadj n = gadj m) g g'.

(** NetSpec.v -- what reading, writing, copying, joining and cutting networks means; no model function of NetModel.v appears here. *)
From Coq Require Import List Arith Ascii Bool.
From Verif Require Import Base IoModel IoSpec GraphModel GraphSpec BipartSpec.
Import ListNotations.
Local Open Scope nat_scope.

Section Spec.
Context {A : Type} {ops : NumOps A}.
Notation row := (list ascii * list ascii * A)%type.
Implicit Types (g : net A).

(** The arcs of a list of rows: each row is one, and its reverse too in symmetric networks; loops only if they are allowed, once. *)
Definition arcs (auto_link symmetric : bool) (es : list row) : list row :=
  flat_map (fun r => let '(a, c, w) := r in
    if eqb_label a c then (if auto_link then [r] else []) else r :: (if symmetric then [(c, a, w)] else [])) es.
Definition row_labels (es : list row) : list (list ascii) := flat_map (fun r => [fst (fst r); snd (fst r)]) es.
(** The network of a list of rows: labels in order of first appearance, and an arc of the summed or first weight wherever there is
    one in the list. *)
Record net_of (auto_link symmetric add : bool) (es : list row) g : Prop := {
  nt_wf : wf_net g;
  nt_labels : map glabel g = numbered (row_labels es);
  nt_weight : forall i j ni nj, nth_error g i = Some ni -> nth_error g j = Some nj ->
    weight g i j = rows_weight add (arcs auto_link symmetric es) (glabel ni) (glabel nj);
  nt_fields : forall n, In n g -> gstate n = 0 /\ ggroup n = None
}.
(** The rows of a network: for every node and every neighbour, their labels and the weight. *)
Definition all_rows g : list row :=
  flat_map (fun i => map (fun j => (label_of g i, label_of g j, match weight g i j with Some w => w | None => n0 end)) (nbrs g i)) (seq 0 (length g)).
(** The copy of a network: everything but the caches and the betweenness of links. *)
Definition link_copy (l : link A) : link A := mkLink (lnode l) (llabel l) (lstatus l) (lref l) n0 (lweight l).
Definition net_copy g : net A :=
  map (fun n => mkNode (glabel n) (gnum n) (gstate n) (map link_copy (gadj n)) (ggroup n) (gdvar n) 0 n0) g.
(** [c] is the part of [g] on the nodes [ks], numbered from 0. *)
Record induced g (ks : list nat) (c : net A) : Prop := {
  in_wf : wf_net c;
  in_labels : map glabel c = map (label_of g) ks;
  in_weight : forall x y i j, nth_error ks x = Some i -> nth_error ks y = Some j -> weight c x y = weight g i j
}.
(** The labels of a list that no node of [g] has. *)
Definition known g (lab : list ascii) : bool := existsb (eqb_label lab) (map glabel g).
Definition fresh_labels g (labs : list (list ascii)) := filter (fun lab => negb (known g lab)) labs.
(** A row of [g] whose ends [P] holds of. *)
Definition rows_where g (P : list ascii -> list ascii -> bool) : list row := filter (fun r => P (fst (fst r)) (snd (fst r))) (all_rows g).
Definition has_row g (a c : list ascii) : bool := existsb (same_ends a c) (all_rows g).
(** The nodes with neighbours. *)
Definition busy g : list nat := filter (fun i => negb (degree g i =? 0)) (seq 0 (length g)).
(** The cell [p] of a group refers to node [i] of [g]. *)
Definition cell_at g (p : link A) (i : nat) : Prop := lref p = Some i /\ i < length g /\ llabel p = label_of g i.
(** The rows of [g] with weight 1. *)
Definition unit_rows g : list row := map (fun r => (fst r, n1)) (all_rows g).
End Spec.

(** The order of labels: character codes, left to right; a prefix comes first. *)
Inductive lex : list ascii -> list ascii -> Prop :=
| lex_nil b : lex [] b
| lex_lt x y a b : nat_of_ascii x < nat_of_ascii y -> lex (x :: a) (y :: b)
| lex_eq x a b : lex a b -> lex (x :: a) (x :: b).

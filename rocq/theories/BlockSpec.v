(** BlockSpec.v -- the pattern of links between groups, and the groups in the order in which their nodes appear. *)
From Coq Require Import List Arith Bool QArith Qcanon.
From Verif Require Import Base Num ListLib GraphModel GraphSpec GroupModel GroupSpec MissSpec RoleModel.
Import ListNotations.
Local Open Scope nat_scope.

Notation q := Qc_of_nat.
(** The groups that have members, and all members. *)
Definition some_in (x : nat * list nat) : bool := match snd x with [] => false | _ => true end.
Definition used_groups (M : groups) : groups := filter some_in M.
Definition placed (M : groups) : list nat := concat (map snd M).
Section Block.
Context {A : Type}.
Variable g : net A.
Variable M : groups.
(** Links inside a group or between two groups; pairs of nodes; ends of links in a group. *)
Definition between (x y : nat * list nat) : nat := if fst x =? fst y then links_in g (snd x) else across g (snd x) (snd y).
Definition pairs (x y : nat * list nat) : Qc :=
  (if fst x =? fst y then q (length (snd x)) * (q (length (snd x)) - 1) / (1 + 1) else q (length (snd x)) * q (length (snd y)))%Qc.
Definition ends (x : nat * list nat) : nat := links_in g (snd x) + links_tot g (snd x).
(** All links between members of groups, and the fraction of the pairs of members that are linked. *)
Definition all_links : Qc := q (links_in g (placed M)).
Definition link_density : Qc := ((1 + 1) * all_links / (q (length (placed M)) * (q (length (placed M)) - 1)))%Qc.
(** The entry of a pair of groups.  On the diagonal the type p has half the fraction of the pairs that are linked. *)
Definition block_entry (sq : Qc -> Qc) (t : bm_type) (x y : nat * list nat) : Qc :=
  (match t with
   | BM_n => q (between x y)
   | BM_f => q (between x y) / all_links
   | BM_p => if fst x =? fst y then q (between x y) / pairs x y / (1 + 1) else q (between x y) / pairs x y
   | BM_e => q (between x y) / all_links - q (ends x) * q (ends y) / ((1 + 1) * all_links * ((1 + 1) * all_links))
   | BM_z => (q (between x y) - link_density * pairs x y) / sq (pairs x y * link_density * (1 - link_density))
   | BM_other => 0
   end)%Qc.
End Block.

(** The labels in the order in which they appear first. *)
Fixpoint first_seen (seen l : list nat) : list nat :=
  match l with [] => [] | x :: l => if mem x seen then first_seen seen l else x :: first_seen (x :: seen) l end.

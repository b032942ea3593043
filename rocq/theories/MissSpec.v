(** MissSpec.v -- the missing-link sampler of src/missing.c, stated on sets of nodes. *)
From Coq Require Import List Arith ZArith Bool QArith Qcanon Qround.
From Verif Require Import Base Num ListLib NatSum QcSum GraphModel GraphSpec GroupModel GroupSpec MatLib.
Import ListNotations.
Local Open Scope nat_scope.

(** The number of pairs among [n] nodes. *)
Definition choose2 (n : nat) : nat := Nat.div (n * (n - 1)) 2.

(** The nodes 0 .. N-1, each in exactly one of the groups labelled 0 .. N-1. *)
Record assigned (N : nat) (M : groups) : Prop := {
  as_labels : map fst M = seq 0 N;
  as_once : forall k, NoDup (nth_members M k);
  as_apart : forall k l i, In i (nth_members M k) -> In i (nth_members M l) -> k = l;
  as_range : forall k i, In i (nth_members M k) -> i < N;
  as_cover : forall i, i < N -> exists k, In i (nth_members M k)
}.
(** The number of groups with nodes, and the nodes in the group of [i]. *)
Definition filled (M : groups) : nat := count (fun x => match snd x with [] => false | _ => true end) M.
Definition mates (M : groups) (i : nat) : list nat := match find (fun x => mem i (snd x)) M with Some x => snd x | None => [] end.

Definition nonempty {X} (l : list X) : bool := match l with [] => false | _ => true end.

Section Any.
Context {A : Type}.
Implicit Types g : net A.

(** Links between two sets of nodes. *)
Definition across g (S T : list nat) : nat := lsum (fun i => count (linked g i) T) S.

(** The table of links inside and between groups. *)
Definition table_exact g (M : groups) (tab : list (list Z)) : Prop :=
  mat (length g) (length g) tab (fun a b => Z.of_nat (if a =? b then links_in g (nth_members M a) else across g (nth_members M a) (nth_members M b))).

Context {ops : NumOps A}.
(** The start: the first draws place nodes 0, 1, ..., N-1, each in the group that its draw selects. *)
Definition started (N : nat) (ds : list A) (M : groups) (rest : list A) : Prop :=
  exists us, length us = N /\ ds = us ++ rest /\ forall i u, nth_error us i = Some u -> In i (nth_members M (nfloor (nmul u (nofnat N)))).
(** What one sampled partition adds to the score of a pair of nodes: (links + 1) / (pairs + 2) for the two groups. *)
Definition pair_score g (M : groups) (i j : nat) : A :=
  let S := mates M i in
  let T := mates M j in
  if mem j S then ndiv (nofnat (links_in g S + 1)) (nofnat (choose2 (length S) + 2))
  else ndiv (nofnat (across g S T + 1)) (nofnat (length S * length T + 2)).
End Any.

(** The energy of a partition: one term for each group with nodes, one for each pair of such groups, a cost per group, and
    the correction for the labels. *)
Section Energy.
Variable logf : nat -> Qc.
Variable lnchoose : nat -> nat -> Qc.
Variable lnfact : nat -> Qc.
Variable linC : Qc.
Definition cost (r l : nat) : Qc := (logf (r + 1) + lnchoose r l)%Qc.
Definition energy (g : net Qc) (M : groups) : Qc :=
  (linC * Qc_of_nat (filled M)
   + Qsum (fun k => let S := nth_members M k in if nonempty S then cost (choose2 (length S)) (links_in g S) else 0) (seq 0 (length M))
   + pair_sum (length M) (fun k l => let S := nth_members M k in let T := nth_members M l in
       if nonempty S && nonempty T then cost (length S * length T) (across g S T) else 0)
   - lnfact (length g - filled M))%Qc.
End Energy.

(** The Metropolis algorithm on partitions, for an energy [E] and the exponential function [ex]. *)
Section Metropolis.
Variable ex : Qc -> Qc.
Variable N : nat.
Variable E : groups -> Qc.
(** The number from 0 to N-1 that a draw selects. *)
Definition selects (u : Qc) : nat := Z.to_nat (Qfloor (this (u * Qc_of_nat N)%Qc)).
(** Draw numbers until one differs from [o]. *)
Inductive picks (o : nat) : list Qc -> nat -> list Qc -> Prop :=
| picks_now u ds : selects u <> o -> picks o (u :: ds) (selects u) ds
| picks_next u ds w ds' : selects u = o -> picks o ds w ds' -> picks o (u :: ds) w ds'.
(** [M'] is [M] with node [v] in group [w]. *)
Record relocated (M : groups) (v w : nat) (M' : groups) : Prop := {
  re_labels : map fst M' = map fst M;
  re_to : nth_members M' w = nth_members M w ++ [v];
  re_from : forall k, k <> w -> nth_members M' k = filter (fun i => negb (i =? v)) (nth_members M k)
}.
(** One attempt: a node, another group, and a draw for acceptance only if the energy would rise. *)
Inductive attempt (M : groups) : list Qc -> groups -> list Qc -> Prop :=
| at_down u ds o w ds' M' : In (selects u) (nth_members M o) -> picks o ds w ds' -> relocated M (selects u) w M' -> (E M' <= E M)%Qc -> attempt M (u :: ds) M' ds'
| at_up u ds o w u' ds' M' : In (selects u) (nth_members M o) -> picks o ds w (u' :: ds') -> relocated M (selects u) w M' -> (E M < E M')%Qc -> (u' < ex (E M - E M'))%Qc -> attempt M (u :: ds) M' ds'
| at_stay u ds o w u' ds' M' : In (selects u) (nth_members M o) -> picks o ds w (u' :: ds') -> relocated M (selects u) w M' -> (E M < E M')%Qc -> (ex (E M - E M') <= u')%Qc -> attempt M (u :: ds) M ds'.
Inductive attempts : nat -> groups -> list Qc -> groups -> list Qc -> Prop :=
| ats_0 M ds : attempts 0 M ds M ds
| ats_S n M ds M1 ds1 M2 ds2 : attempts n M ds M1 ds1 -> attempt M1 ds1 M2 ds2 -> attempts (S n) M ds M2 ds2.
(** Partitions sampled every [n] attempts. *)
Inductive samples (n : nat) : groups -> list Qc -> list groups -> groups -> list Qc -> Prop :=
| sa_nil M ds : samples n M ds [] M ds
| sa_snoc M ds Ms M1 ds1 M2 ds2 : samples n M ds Ms M1 ds1 -> attempts n M1 ds1 M2 ds2 -> samples n M ds (Ms ++ [M2]) M2 ds2.
End Metropolis.

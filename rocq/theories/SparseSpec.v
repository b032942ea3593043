(** SparseSpec.v -- the sampler of src/sparse_missing.c, stated on sets of nodes: links follow a Beta(a, b) prior. *)
From Coq Require Import List Arith Bool QArith Qcanon.
From Verif Require Import Base Num ListLib QcSum GraphModel GraphSpec GroupModel GroupSpec MissSpec.
Import ListNotations.
Local Open Scope nat_scope.

Section SparseSpec.
Variable lngamma : Qc -> Qc.
Variable lnfact : nat -> Qc.
Variables a b : Qc.
(** Minus the logarithm of B(l + a, r - l + b): [l] links among [r] pairs. *)
Definition beta_cost (r l : nat) : Qc := (lngamma (Qc_of_nat r + (a + b)) - lngamma (Qc_of_nat l + a) - lngamma (Qc_of_nat (r - l) + b))%Qc.
(** The energy: a term for each group and for each pair of groups, with or without nodes, and the correction for the labels. *)
Definition sparse_energy (g : net Qc) (M : groups) : Qc :=
  (Qsum (fun k => let S := nth_members M k in beta_cost (choose2 (length S)) (links_in g S)) (seq 0 (length M))
   + pair_sum (length M) (fun k l => let S := nth_members M k in let T := nth_members M l in beta_cost (length S * length T) (across g S T))
   - lnfact (length g - filled M))%Qc.
(** The mean of the posterior, for [l] links among [r] pairs, and what one partition adds to the score of a pair of nodes. *)
Definition beta_mean (r l : nat) : Qc := ((Qc_of_nat l + a) / (Qc_of_nat r + a + b))%Qc.
Definition sparse_score (g : net Qc) (M : groups) (i j : nat) : Qc :=
  let S := mates M i in
  let T := mates M j in
  if mem j S then beta_mean (choose2 (length S)) (links_in g S) else beta_mean (length S * length T) (across g S T).
Definition sparse_average (g : net Qc) (Ms : list groups) (i j : nat) : Qc :=
  if i =? j then 0%Qc else (Qsum (fun M => sparse_score g M i j) Ms / Qc_of_nat (length Ms))%Qc.
End SparseSpec.

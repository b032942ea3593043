(** KsSpec.v -- the K-state sampler of src/missing.c, stated on colourings: a list that gives each node a group. *)
From Coq Require Import List Arith ZArith Bool QArith Qcanon.
From Verif Require Import Base Num ListLib NatSum QcSum GraphModel GraphSpec MissSpec RecSpec.
Import ListNotations.
Local Open Scope nat_scope.

(** Nodes [i] and [j] are joined by a link with value [k]. *)
Definition valued {A} {ops : NumOps A} (g : net A) (k i j : nat) : bool :=
  match weight g i j with Some w => neqb w (nofnat k) | None => false end.
(** Every link has one of the values 0, 1, ..., K-1. *)
Definition values_in (K : nat) (g : net Qc) : Prop := forall i j w, weight g i j = Some w -> exists k, k < K /\ w = Qc_of_nat k.

Section Pairs.
Variable R : nat -> nat -> nat -> bool.
Variable c : list nat.
(** One of [i] and [j] is in group [a], the other in group [b]. *)
Definition joins (a b i j : nat) : bool := ((colour c i =? a) && (colour c j =? b)) || ((colour c i =? b) && (colour c j =? a)).
(** The number of pairs of nodes, one in [a] and one in [b], joined by a link with value [k]. *)
Definition between (k a b : nat) : nat :=
  lsum (fun i => count (fun j => (i <? j) && joins a b i j && R k i j) (seq 0 (length c))) (seq 0 (length c)).
Definition betweens (K a b : nat) : list nat := map (fun k => between k a b) (seq 0 K).
End Pairs.

(** One term for every pair of groups, a group with itself included, and the correction for the labels. *)
Definition kenergy (lnfact : nat -> Qc) (K : nat) (R : nat -> nat -> nat -> bool) (c : list nat) : Qc :=
  (Qsum (fun a => Qsum (fun b => if a <=? b then costK lnfact K (betweens R c K a b) else 0%Qc) (seq 0 (length c))) (seq 0 (length c))
   - lnfact (length c - used c)%nat)%Qc.

(** The colouring and the random numbers still to come; one attempt of the Metropolis algorithm. *)
Definition kstate : Type := (list nat * list Qc)%type.
Definition kattempt (ex : Qc -> Qc) (E : list nat -> Qc) (s t : kstate) : Prop := changes ex E (fst s) (snd s) (fst t) (snd t).

(** The estimate of the chance of value [k] between two nodes; its mean over samples. *)
Definition kguess (R : nat -> nat -> nat -> bool) (K : nat) (ij : nat * nat) (k : nat) (s : kstate) : Qc :=
  estimate (betweens R (fst s) K (colour (fst s) (fst ij)) (colour (fst s) (snd ij))) k.
Definition kmean (R : nat -> nat -> nat -> bool) (K : nat) (samples : list kstate) (ij : nat * nat) : list Qc :=
  map (fun k => (Qsum (kguess R K ij k) samples / Qc_of_nat (length samples))%Qc) (seq 0 K).

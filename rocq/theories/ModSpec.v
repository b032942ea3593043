(** ModSpec.v -- modularity of a grouping, in exact arithmetic, stated without any model function. *)
From Coq Require Import List Arith Bool QArith Qcanon.
From Verif Require Import Base PartModel PartSpec AdjSpec QcSum.
Import ListNotations.
Local Open Scope nat_scope.

(** Total weight listed in the row of [i] for neighbour [j]. *)
Definition aw (adj : adja Qc) (i j : nat) : Qc :=
  Qsum (fun x => if fst x =? j then snd x else 0%Qc) (row adj i).

(** Undirected weights; no self loop; each neighbour listed at most once. *)
Definition sym_w (adj : adja Qc) : Prop := forall i j, aw adj i j = aw adj j i.
Definition loop_free (adj : adja Qc) : Prop := forall i, ~ adjacent adj i i.
Definition simple_rows (adj : adja Qc) : Prop := forall i, NoDup (map fst (row adj i)).

(** Strength of a node (0 outside the array) and whether two nodes report the same module. *)
Definition kk (p : partition Qc) (i : nat) : Qc := match strength p i with Some s => s | None => 0%Qc end.
Definition together (p : partition Qc) (i j : nat) : bool :=
  match group p i, group p j with Some a, Some b => a =? b | _, _ => false end.

(** Sum over ordered pairs of different nodes in the same module of A_ij - k_i k_j. *)
Definition modularity (p : partition Qc) (adj : adja Qc) : Qc :=
  Qsum (fun i => Qsum (fun j =>
     if negb (i =? j) && together p i j then (aw adj i j - kk p i * kk p j)%Qc else 0%Qc)
    (seq 0 (pN p))) (seq 0 (pN p)).

(** The same with the pairs i = j added (no self loops: only -k_i^2). *)
Definition modularity_diag (p : partition Qc) (adj : adja Qc) : Qc :=
  (modularity p adj - Qsum (fun i => kk p i * kk p i) (seq 0 (pN p)))%Qc.

(** Module strengths are the sums of the strengths of the members. *)
Definition strengths_ok (p : partition Qc) : Prop :=
  forall m md, nth_error (pmods p) m = Some md ->
    mstr md = Qsum (fun i => match group p i with Some g => if g =? m then kk p i else 0%Qc | None => 0%Qc end)
                   (seq 0 (pN p)).

(** StatSpec.v -- clustering, squares and assortativity. *)
From Coq Require Import List Arith Bool QArith Qcanon.
From Verif Require Import Base Num ListLib QcSum IoModel GraphModel GraphSpec.
Import ListNotations.
Local Open Scope nat_scope.

Section Spec.
Context {A : Type}.
Implicit Types g : net A.

(** Ordered pairs of neighbours of [v] that are linked, and the fraction they are of all ordered pairs of different neighbours. *)
Definition closed_pairs g (v : nat) : nat := length (filter (fun '(u, w) => mem w (nbrs g u)) (list_prod (nbrs g v) (nbrs g v))).
Definition open_pairs g (v : nat) : nat := degree g v * (degree g v - 1).
Definition local_clustering g (v : nat) : Qc := (Qc_of_nat (closed_pairs g v) / Qc_of_nat (open_pairs g v))%Qc.
Definition branching g : list nat := filter (fun v => 2 <=? degree g v) (seq 0 (length g)).
Definition mean_clustering g : Qc := (Qsum (local_clustering g) (branching g) / Qc_of_nat (length (branching g)))%Qc.
Definition transitivity g : Qc := (Qsum (fun v => Qc_of_nat (closed_pairs g v)) (seq 0 (length g)) / Qsum (fun v => Qc_of_nat (open_pairs g v)) (seq 0 (length g)))%Qc.

(** Common neighbours; the nodes two steps away; the fraction of the conceivable squares at [v] that exist. *)
Definition common g (v w : nat) : nat := length (filter (fun u => mem w (nbrs g u)) (nbrs g v)).
Definition second g (v : nat) : list nat := filter (fun w => negb (w =? v) && negb (mem w (nbrs g v)) && (0 <? common g v w)) (seq 0 (length g)).
Definition squares_at g (v : nat) : Qc :=
  (Qsum (fun w => Qc_of_nat (common g v w * (common g v w - 1))) (second g v) / Qc_of_nat (length (second g v) * degree g v * (degree g v - 1)))%Qc.
Definition square_nodes g : list nat := filter (fun v => (2 <=? degree g v) && (degree g v + 1 <? length g)) (seq 0 (length g)).
Definition mean_squares g : Qc := (Qsum (squares_at g) (square_nodes g) / Qc_of_nat (length (square_nodes g)))%Qc.

(** The degrees at the two ends of every link, in both directions, and their correlation. *)
Definition end_degrees g : list (Qc * Qc) :=
  flat_map (fun i => flat_map (fun j => [(Qc_of_nat (degree g i), Qc_of_nat (degree g j)); (Qc_of_nat (degree g j), Qc_of_nat (degree g i))]) (nbrs g i)) (seq 0 (length g)).
Definition avg (f : Qc * Qc -> Qc) (l : list (Qc * Qc)) : Qc := (Qsum f l / Qc_of_nat (length l))%Qc.
Definition covariance (l : list (Qc * Qc)) : Qc := avg (fun p => (fst p - avg fst l) * (snd p - avg snd l))%Qc l.
Definition variance_fst (l : list (Qc * Qc)) : Qc := avg (fun p => (fst p - avg fst l) * (fst p - avg fst l))%Qc l.
(** Both ends have the same variance, so the correlation needs no root. *)
Definition correlation (l : list (Qc * Qc)) : Qc := (covariance l / variance_fst l)%Qc.
End Spec.

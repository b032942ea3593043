(** BtwSpec.v -- shortest paths as lists of nodes, and betweenness. *)
From Coq Require Import List Arith ZArith Bool QArith Qcanon.
From Verif Require Import Base Num QcSum IoModel GraphModel GraphSpec.
Import ListNotations.
Local Open Scope nat_scope.

Section Spec.
Context {A : Type}.
Implicit Types g : net A.

(** All ways of following [n] links from [s], as lists of the nodes visited. *)
Fixpoint walks g (n s : nat) : list (list nat) :=
  match n with
  | 0 => [[s]]
  | S n => flat_map (fun u => map (cons s) (walks g n u)) (nbrs g s)
  end.
Definition ends_at (t : nat) (p : list nat) : bool := match p with [] => false | x :: l => last l x =? t end.
Definition walks_to g (n s t : nat) : list (list nat) := filter (ends_at t) (walks g n s).
(** The length of the shortest ones that end in [t]; [None] if there are none. *)
Definition dist g (s t : nat) : option nat := find (fun n => match walks_to g n s t with [] => false | _ => true end) (seq 0 (length g)).
(** The shortest paths. *)
Definition geodesics g (s t : nat) : list (list nat) := match dist g s t with Some n => walks_to g n s t | None => [] end.
Definition through g (s t v : nat) : list (list nat) := filter (fun p => existsb (Nat.eqb v) p) (geodesics g s t).

(** Betweenness: over the sources s and targets t different from v, the fraction of the shortest paths from s to t that visit v;
    pairs without a path do not count. *)
Definition pair_share g (s t v : nat) : Qc :=
  match geodesics g s t with [] => 0%Qc | _ => (Qc_of_nat (length (through g s t v)) / Qc_of_nat (length (geodesics g s t)))%Qc end.
Definition betweenness g (v : nat) : Qc :=
  Qsum (fun s => Qsum (fun t => if (s =? v) || (t =? v) then 0%Qc else pair_share g s t v) (seq 0 (length g))) (seq 0 (length g)).
End Spec.

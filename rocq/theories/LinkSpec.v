(** LinkSpec.v -- the links of a network as a list. *)
From Coq Require Import List Arith Bool.
From Verif Require Import Base GraphModel GraphSpec.
Import ListNotations.
Local Open Scope nat_scope.

(** The number of different elements. *)
Notation distinct u := (length (nodup Nat.eq_dec u)).

Section Spec.
Context {A : Type}.
Implicit Types g : net A.

(** The links, node after node; an undirected link is listed at its end with the smaller number. *)
Definition links_of (symmetric : bool) g : list (nat * nat) :=
  flat_map (fun i => map (pair i) (filter (fun j => negb symmetric || (i <=? j)) (nbrs g i))) (seq 0 (length g)).
(** The link from [a] to [b], as one of a list of links. *)
Definition among (symmetric : bool) (R : list (nat * nat)) (a b : nat) : Prop := In (a, b) R \/ (symmetric = true /\ In (b, a) R).

(** [R] are the links at the places [used] of the list of links. *)
Definition drawn (sym : bool) g (used : list nat) (R : list (nat * nat)) : Prop :=
  NoDup R /\ forall e, In e R <-> exists k, In k used /\ nth_error (links_of sym g) k = Some e.
(** The last draw was needed. *)
Definition needed (used : list nat) : Prop := used = [] \/ exists u n, used = u ++ [n] /\ ~ In n u.

(** The pairs of a sequence that join two different nodes not yet linked, each link once. *)
Fixpoint accepted (linked : nat -> nat -> Prop) (ps R : list (nat * nat)) : Prop :=
  match ps with
  | [] => R = []
  | (a, b) :: ps =>
      ((a = b \/ linked a b) /\ accepted linked ps R) \/
      (a <> b /\ ~ linked a b /\ exists R', R = (a, b) :: R' /\ accepted (fun x y => linked x y \/ (x = a /\ y = b) \/ (x = b /\ y = a)) ps R')
  end.
(** The last pair drawn was needed. *)
Definition needed_pair (ps R : list (nat * nat)) : Prop := ps = [] \/ exists ps0 R0 e, ps = ps0 ++ [e] /\ R = R0 ++ [e].
(** The draws of a sequence of pairs. *)
Definition flat (ps : list (nat * nat)) : list nat := flat_map (fun '(a, b) => [a; b]) ps.
End Spec.

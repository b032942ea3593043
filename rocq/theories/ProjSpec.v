(** ProjSpec.v -- what the projection of a bipartite edge list is: rows (actor, team, weight). *)
From Coq Require Import List Arith Bool ZArith QArith Qcanon Sorting.Sorted Sorting.Permutation.
From Verif Require Import Base Num ListLib QcSum ProjModel.
Import ListNotations.
Local Open Scope nat_scope.

(** The contract of qsort called with EdgeCompare. *)
Definition sorts {A} (qsort : list (Edge A) -> list (Edge A)) : Prop :=
  forall l, Permutation l (qsort l) /\ StronglySorted (fun a b => (EdgeCompare a b <= 0)%Z) (qsort l).

Section Spec.
Context {A : Type}.
(** No actor is listed twice in the same team. *)
Definition once (es : list (nat * nat * A)) : Prop := NoDup (map fst es).
Definition shares (es : list (nat * nat * A)) (i j : nat) : Prop :=
  exists t v w, In (i, t, v) es /\ In (j, t, w) es.
Definition team_list (es : list (nat * nat * A)) : list nat := nodup Nat.eq_dec (map (fun x => snd (fst x)) es).
Definition team_size (es : list (nat * nat * A)) (t : nat) : nat := count (fun x => snd (fst x) =? t) es.
(** One node for every actor number up to the largest. *)
Definition actors (es : list (nat * nat * A)) : nat :=
  match es with [] => 0 | _ => S (fold_right Nat.max 0 (map (fun x => fst (fst x)) es)) end.
End Spec.

Section Exact.
Local Open Scope Qc_scope.
Implicit Types es : list (nat * nat * Qc).
Definition actor_weight es (i : nat) : Qc := Qsum (fun x => if Nat.eqb (fst (fst x)) i then snd x else 0) es.
Definition team_weight es (t : nat) : Qc := Qsum (fun x => if Nat.eqb (snd (fst x)) t then snd x else 0) es.
(** Sum over the common teams of the product of the two weights. *)
Definition co_weight es (i j : nat) : Qc :=
  Qsum (fun x => Qsum (fun y =>
    if Nat.eqb (fst (fst x)) i && Nat.eqb (fst (fst y)) j && Nat.eqb (snd (fst x)) (snd (fst y)) then snd x * snd y else 0) es) es.
(** The two normalisations. *)
Definition norm1 es : Qc :=
  Qsum (fun t => team_weight es t * (team_weight es t - team_weight es t / Qc_of_nat (team_size es t))) (team_list es).
Definition norm2 es : Qc := Qsum snd es.
Definition units es : Prop := forall x, In x es -> snd x = 1.
Definition positive es : Prop := forall x, In x es -> 0 < snd x.
End Exact.

(** RoleSpec.v -- the roles of the nodes of a partitioned network, stated without the functions of ModulesModel.v and RoleModel.v. *)
From Coq Require Import List Arith ZArith Bool QArith Qcanon.
From Verif Require Import Base Num ListLib NatSum QcSum GraphModel GraphSpec GroupModel GroupSpec ModulesSpec ToolsProof RolesBounds.
Import ListNotations.
Local Open Scope nat_scope.

Section Spec.
Variable sq : Qc -> Qc.
Variable N : nat.
Variable f : nat -> nat -> Qc.

(** The weight between a node and the nodes of a set. *)
Definition weight_to (i : nat) (S : list nat) : Qc := Qsum (f i) (filter (fun j => mem j S) (seq 0 N)).
(** 1 - sum over the sets of the squares of the shares of the weight of the node. *)
Definition participation (sets : list (list nat)) (i : nat) : Qc :=
  (1 - Qsum (fun S => (weight_to i S / node_sum N f i) * (weight_to i S / node_sum N f i)) sets)%Qc.
(** The weight of node i within its set S, in standard deviations from the mean over S; 0 without a deviation. *)
Definition relative (S : list nat) (i : nat) : Qc :=
  let d := map (fun j => weight_to j S) S in
  if Qc_eq_dec (sq (variance d)) 0 then 0%Qc else ((weight_to i S - Qsum (fun x => x) d / Qc_of_nat (length d)) / sq (variance d))%Qc.
End Spec.

(** The nodes that are in no group. *)
Definition homeless (N : nat) (M : groups) : list nat := filter (fun i => match home M i with None => true | Some _ => false end) (seq 0 N).
(** The role of a node i of set S, for the weights f; a node without neighbours has participation 0. *)
Definition role_of (sq : Qc -> Qc) {A} (g : net A) (f : nat -> nat -> Qc) (sets : list (list nat)) (S : list nat) (i r : nat) : Prop :=
  role_box (match nbrs g i with [] => 0%Qc | _ => participation (length g) f sets i end) (relative sq (length g) f S i) r.

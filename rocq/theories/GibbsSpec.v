(** GibbsSpec.v -- Gibbs sampling of partitions ("heat bath"), stated on sets of nodes. *)
From Coq Require Import List Arith Bool QArith Qcanon.
From Verif Require Import Base Num ListLib QcSum GraphModel GraphSpec GroupModel GroupSpec MissSpec MbModel MbSpec.
From Verif Require RecSpec.
Import ListNotations.
Local Open Scope nat_scope.

(** [M] with node [v] last in group [w], whatever its group was. *)
Definition put (M : groups) (v w : nat) : groups :=
  map (fun x => let l := filter (fun i => negb (i =? v)) (snd x) in (fst x, if fst x =? w then l ++ [v] else l)) M.
(** The start: node [i] alone in group [i]. *)
Definition alone (N : nat) : groups := map (fun i => (i, [i])) (seq 0 N).

Section Heat.
Variable ex : Qc -> Qc.
Variable E : groups -> Qc.
(** The weight of putting [v] into group [w].  A number [u] is scaled by the sum of all weights, and the groups of a list [ks], the
    known groups, are passed until the sum of their weights reaches it; if it never does, the first empty group is taken. *)
Definition gweight (M : groups) (v w : nat) : Qc := ex (E M - E (put M v w))%Qc.
Definition gtotal (M : groups) (v : nat) : Qc := Qsum (gweight M v) (seq 0 (length M)).
Inductive gheats (M : groups) (v : nat) : list nat -> Qc -> nat -> Prop :=
| gh_known pre w post u : (Qsum (gweight M v) pre < u * gtotal M v)%Qc -> (u * gtotal M v <= Qsum (gweight M v) pre + gweight M v w)%Qc ->
    gheats M v (pre ++ w :: post) u w
| gh_new ks u w : (Qsum (gweight M v) ks < u * gtotal M v)%Qc -> w < length M -> nth_members M w = [] -> (forall k, k < w -> nth_members M k <> []) ->
    gheats M v ks u w.
(** A partition, the known groups and the random numbers still to come. *)
Definition gstate : Type := (groups * list nat * list Qc)%type.
Inductive gregroup (v : nat) : gstate -> gstate -> Prop :=
| gregroup_intro M ks u ds w : gheats M v ks u w -> gregroup v (M, ks, u :: ds) (put M v w, RecSpec.known ks w, ds).
Definition occupied (M : groups) : list nat := filter (fun k => nonempty (nth_members M k)) (seq 0 (length M)).
(** All nodes in turn; the groups known at the start are those with nodes. *)
Definition gsweep (s t : groups * list Qc) : Prop :=
  exists ks, RecSpec.chain gregroup (seq 0 (length (fst s))) (fst s, occupied (fst s), snd s) (fst t, ks, snd t).
End Heat.

(** The energy of each sampler: that of src/missing.c without degeneracies, else that of MbSpec.v. *)
Definition heat_energy (ln : Qc -> Qc) (lnchoose : nat -> nat -> Qc) (lnfact : nat -> Qc) (linC : Qc) (kd : kind) (deg : bool) (g : net Qc) (M : groups) : Qc :=
  if deg then mb_energy ln lnchoose lnfact linC kd g M else energy (fun n => ln (Qc_of_nat n)) lnchoose lnfact linC g M.

(** ScoreSpec.v -- what src/missing.c computes from scores and samples, stated on sets of nodes and pairs. *)
From Coq Require Import List Arith ZArith Bool QArith Qcanon.
From Verif Require Import Base Num ListLib NatSum QcSum GraphModel GraphSpec GroupModel GroupSpec MissSpec.
Import ListNotations.
Local Open Scope nat_scope.

(** A run of the sampler: nodes placed by the first draws, some attempts, then one partition every [N * thin decor] attempts
    until [nIter] of them are taken. *)
Definition sampled (ex sq : Qc -> Qc) (N : nat) (E : groups -> Qc) (thin : nat -> nat) (nIter : nat) (ds : list Qc) (Ms : list groups) (rest : list Qc) : Prop :=
  exists M0 d0 warm M1 d1 decor Mend, assigned N M0 /\ started (ops := Qc_ops ex sq) N ds M0 d0 /\ attempts ex N E warm M0 d0 M1 d1 /\
    samples ex N E (N * thin decor) M1 d1 Ms Mend rest /\ length Ms = nIter /\ Forall (assigned N) Ms.

Section Spec.
Variables ex sq : Qc -> Qc.
(** The score of a pair of nodes: the mean over the samples. *)
Definition mean_score (g : net Qc) (Ms : list groups) (i j : nat) : Qc :=
  (Qsum (fun M => pair_score (ops := Qc_ops ex sq) g M i j) Ms / Qc_of_nat (length Ms))%Qc.
(** The mean over the pairs of nodes of the square of the difference between the network (1 for a link, 0 otherwise) and a
    prediction. *)
Definition link01 (g : net Qc) (i j : nat) : Qc := if linked g i j then 1%Qc else 0%Qc.
Definition misfit (g : net Qc) (p : nat -> nat -> Qc) : Qc :=
  (pair_sum (length g) (fun i j => (link01 g i j - p i j) * (link01 g i j - p i j)) / Qc_of_nat (choose2 (length g)))%Qc.

(** The weight of a partition for a network [tar] when [obs] was observed (in logarithms). *)
Variable logf : nat -> Qc.
Variable lnchoose : nat -> nat -> Qc.
Definition gain (r lo lt : nat) : Qc := (logf (r + 1) + lnchoose r lo - logf (2 * r + 1) - lnchoose (2 * r) (lo + lt))%Qc.
Definition contribution (obs tar : net Qc) (M : groups) : Qc :=
  (Qsum (fun k => let S := nth_members M k in if nonempty S then gain (choose2 (length S)) (links_in obs S) (links_in tar S) else 0) (seq 0 (length M))
   + pair_sum (length M) (fun k l => let S := nth_members M k in let T := nth_members M l in
       if nonempty S && nonempty T then gain (length S * length T) (across obs S T) (across tar S T) else 0))%Qc.
(** The score of [tar]: the sum over the samples of the exponentials, relative to the same sum for [obs]; the contribution of
    the first sample is the origin. *)
Definition base_of (obs : net Qc) (Ms : list groups) : Qc := match Ms with M :: _ => contribution obs obs M | [] => 0%Qc end.
Definition network_score (obs tar : net Qc) (Ms : list groups) : Qc :=
  (Qsum (fun M => ex (contribution obs tar M - base_of obs Ms)) Ms / Qsum (fun M => ex (contribution obs obs M - base_of obs Ms)) Ms)%Qc.
End Spec.

(** The number of links of a network. *)
Definition n_links {A} (g : net A) : nat := pair_count (length g) (linked g).
(** [h] has the labels of [g] and a link wherever [p] holds. *)
Definition drawn {A} (g : net A) (p : nat -> nat -> Prop) (h : net A) : Prop :=
  undirected h /\ map glabel h = map glabel g /\ forall i j, i < j -> j < length g -> (In j (nbrs h i) <-> p i j).
(** [h] is a network with the nodes and the degrees of [g]. *)
Definition rewired {A} (g h : net A) : Prop := undirected h /\ map glabel h = map glabel g /\ forall i, degree h i = degree g i.

(** * Reconstruction *)
(** The same nodes and the same links (weights and groups may differ). *)
Definition like {A} (g h : net A) : Prop := map glabel h = map glabel g /\ forall i j, linked h i j = linked g i j.
(** [h] is [g] with one more link and one link less. *)
Definition exchanged {A} (g : net A) (add rem : nat * nat) (h : net A) : Prop :=
  map glabel h = map glabel g /\ forall i j, i < j -> j < length g ->
    linked h i j = if (i =? fst add) && (j =? snd add) then true else if (i =? fst rem) && (j =? snd rem) then false else linked g i j.
(** The pair without link that has the largest score, the link that has the smallest. *)
Definition best_missing (p : nat -> nat -> Qc) (g : net Qc) (a b : nat) : Prop :=
  a < b /\ b < length g /\ linked g a b = false /\ forall i j, i < j -> j < length g -> linked g i j = false -> (p i j <= p a b)%Qc.
Definition worst_link (p : nat -> nat -> Qc) (g : net Qc) (a b : nat) : Prop :=
  a < b /\ b < length g /\ linked g a b = true /\ forall i j, i < j -> j < length g -> linked g i j = true -> (p a b <= p i j)%Qc.

(** The networks that the search can reach from [obs], each with its score: a step exchanges the worst link for the best
    missing pair, by the scores of an earlier network of the search, and the score, over new samples, rises. *)
Section Climb.
Variables ex sq : Qc -> Qc.
Variable logf : nat -> Qc.
Variable lnchoose : nat -> nat -> Qc.
Variable lnfact : nat -> Qc.
Variables few some : nat.
Variable obs : net Qc.
Definition drawn_for (g : net Qc) (k : nat) (Ms : list groups) : Prop :=
  exists ds rest, sampled ex sq (length g) (energy logf lnchoose lnfact 0%Qc g) (fun d => d) k ds Ms rest.
Inductive climbed : net Qc -> Qc -> Prop :=
| cl_start h Ms : like obs h -> drawn_for obs few Ms -> climbed h (network_score ex logf lnchoose obs obs Ms)
| cl_same h s h' : climbed h s -> like h h' -> climbed h' s
| cl_swap h0 s0 Ls h s a b c d h' Ms : climbed h0 s0 -> undirected h0 -> drawn_for h0 some Ls -> climbed h s ->
    best_missing (mean_score ex sq h0 Ls) h a b -> worst_link (mean_score ex sq h0 Ls) h c d -> exchanged h (a, b) (c, d) h' ->
    drawn_for obs few Ms -> (s < network_score ex logf lnchoose obs h' Ms)%Qc -> climbed h' (network_score ex logf lnchoose obs h' Ms).
End Climb.

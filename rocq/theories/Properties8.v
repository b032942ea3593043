(** Properties8.v -- networks with two kinds of nodes: C27, C50, C51, C52, C53, C54. *)
From Coq Require Import List Arith ZArith Lia Bool Permutation QArith Qround Qcanon.
From Coq Require Import Strings.Ascii.
From Verif Require Import Base Num ListLib NatSum QcSum IoModel GraphModel GraphSpec GraphProof SAProof GraphRand GroupModel GroupSpec GroupProof GroupExact
  ModulesSpec ModulesMod BipartModel BipartSpec BipartRen BipartRand BipartMem BipartProj BipartExact BipartPart BipartStar Refute.
Import ListNotations.
Local Open Scope nat_scope.

Section Generic.
Context {A : Type} {ops : NumOps A}.
Implicit Types b : binet A.

(** C27: a shuffled network has the same nodes on the same sides with the same degrees, and stays bipartite and simple. *)
Theorem C27_shuffle b times ds : bipartite b -> Forall good_draw ds -> (exists i j, In j (nbrs (bmem b) i)) ->
  match RandomizeBipart b times ds with
  | Ok (b', _) => bipartite b' /\ bset1 b' = bset1 b /\ bset2 b' = bset2 b /\ same_nodes (bmem b) (bmem b') /\
      (forall i, degree (bmem b') i = degree (bmem b) i) /\
      (forall i j w, weight (bmem b') i j = Some w -> weight (bmem b) i j = Some w \/ w = n0)
  | Err e => e = RngOut
  end.
Proof. intros B H1 H2. pose proof (RandomizeBipart_spec b times ds B H1 H2) as H. destruct (RandomizeBipart b times ds) as [[b' ds']|e]; exact H. Qed.
(** C27: it never comes back when every two links share an end. *)
Theorem C27_star b times ds : bipartite b -> Forall good_draw ds -> (exists i j, In j (nbrs (bmem b) i)) ->
  (forall i j i' j', In i (bset1 b) -> In i' (bset1 b) -> In j (nbrs (bmem b) i) -> In j' (nbrs (bmem b) i') -> i = i' \/ j = j') ->
  0 < nceil (nmul times (nofnat (lsum (degree (bmem b)) (bset1 b)))) -> RandomizeBipart b times ds = Err RngOut.
Proof. exact (RandomizeBipart_star b times ds). Qed.

(** C50: the links can be counted from either side, and turning the network around twice is turning it not at all. *)
Theorem C50_links b : bipartite b -> exists b1 b2, NLinksBipart b = Ok (lsum (degree (bmem b)) (bset1 b), b1) /\ NLinksBipart (InvertBipart b) = Ok (lsum (degree (bmem b)) (bset1 b), b2).
Proof. exact (NLinks_invert b). Qed.
Theorem C50_invert b : bipartite b -> bipartite (InvertBipart b) /\ InvertBipart (InvertBipart b) = b.
Proof. intros B. split; [exact (invert_bipartite b B)|destruct b; reflexivity]. Qed.

(** C51: the projection links two nodes of the first side by the number of neighbours they share. *)
Theorem C51_projection b : bipartite b -> labels_fit (bmem b) -> NoDup (map (label_of (bmem b)) (bset1 b)) ->
  exists g, ProjectBipart b = Ok g /\ undirected g /\ map glabel g = map (label_of (bmem b)) (bset1 b) /\
    forall x y i j, nth_error (bset1 b) x = Some i -> nth_error (bset1 b) y = Some j -> x <> y ->
      weight g x y = if common (bmem b) i j =? 0 then None else Some (nofnat (common (bmem b) i j)).
Proof. exact (ProjectBipart_spec b). Qed.
End Generic.

Section Exact.
Variables ex sq : Qc -> Qc.
#[local] Instance opsR8 : NumOps Qc := Qc_ops ex sq.
Implicit Types b : binet Qc.

(** C52: the weighted projection sums the products of the weights to shared neighbours, and drops the fraction of the sum. *)
Theorem C52_weighted_projection b : bipartite b -> labels_fit (bmem b) -> NoDup (map (label_of (bmem b)) (bset1 b)) ->
  exists g, ProjectBipartWeighted b = Ok g /\ undirected g /\ map glabel g = map (label_of (bmem b)) (bset1 b) /\
    forall x y i j, nth_error (bset1 b) x = Some i -> nth_error (bset1 b) y = Some j -> x <> y ->
      weight g x y = let k := Z.to_nat (Qfloor (shared_weight (bmem b) i j)) in if k =? 0 then None else Some (Qc_of_nat k).
Proof. exact (ProjectBipartWeighted_spec ex sq b). Qed.

(** C53: the modularity of groups of nodes of the first side. *)
Theorem C53_modularity b P : bipartite b -> groups_of (bset1 b) P ->
  exists b', ModularityBipart b P = Ok (bi_modularity b (same_home (abs P)), b') /\ unchanged b b'.
Proof. exact (ModularityBipart_spec ex sq b P). Qed.
Theorem C53_modularity_weighted b P : bipartite b -> strengths_cached (bmem b) -> groups_of (bset1 b) P ->
  exists b', ModularityBipartWeighted b P = Ok (bi_modularity_w b (same_home (abs P)), b') /\ unchanged b b'.
Proof. exact (ModularityBipartWeighted_spec ex sq b P). Qed.
Theorem C53_whole b P : bipartite b -> groups_of (bset1 b) P -> (forall i j, In i (bset1 b) -> In j (bset1 b) -> same_home (abs P) i j = true) ->
  let m := Qsum (teams b) (bset2 b) in Qsum (fun s => teams b s * teams b s)%Qc (bset2 b) <> m -> m <> 0%Qc ->
  exists b', ModularityBipart b P = Ok ((Qsum (fun i => teams b i * teams b i) (bset1 b) / (m * m))%Qc, b').
Proof.
  intros B GP H m H2 H1. destruct (ModularityBipart_spec ex sq b P B GP) as (b' & E & _). exists b'. etransitivity; [exact E|]. now rewrite (bi_modularity_whole ex sq b B _ H H2 H1).
Qed.
Theorem C53_apart b P : bipartite b -> groups_of (bset1 b) P -> (forall G, In G P -> length (members G) <= 1) -> exists b', ModularityBipart b P = Ok (0%Qc, b').
Proof.
  intros B GP H. destruct (ModularityBipart_spec ex sq b P B GP) as (b' & E & _). exists b'. etransitivity; [exact E|]. rewrite bi_modularity_apart; auto. intros i j _ _ Hij.
  destruct (groups_good (bset1 b) P GP) as [GM _]. unfold same_home. destruct (home (abs P) i) as [x|] eqn:Ei; auto. destruct (home (abs P) j) as [y|] eqn:Ej; auto.
  destruct (Nat.eqb_spec x y) as [->|]; auto. exfalso. apply (home_iff _ _ _ GM) in Ei as (l & Hl & Hi). apply (home_iff _ _ _ GM) in Ej as (l' & Hl' & Hj).
  rewrite (lab_unique _ _ _ _ (gd_lab _ GM) Hl' Hl) in Hj. apply in_map_iff in Hl as (G & [= _ <-] & HG). specialize (H G HG).
  destruct (members G) as [|a [|c r]]; simpl in *; lia.
Qed.
Theorem C53_ones b P : bipartite b -> strengths_cached (bmem b) -> groups_of (bset1 b) P -> (forall i j w, weight (bmem b) i j = Some w -> w = 1%Qc) ->
  exists q b1 b2, ModularityBipart b P = Ok (q, b1) /\ ModularityBipartWeighted b P = Ok (q, b2).
Proof.
  intros B Sc GP W1. destruct (ModularityBipart_spec ex sq b P B GP) as (b1 & E1 & _). destruct (ModularityBipartWeighted_spec ex sq b P B Sc GP) as (b2 & E2 & _).
  do 3 eexists. split; [exact E1|]. etransitivity; [exact E2|]. now rewrite (bi_modularity_ones b W1).
Qed.

(** C54: the participation coefficient in a bipartite network, and its bounds. *)
Theorem C54_participation b i : bipartite b -> In i (bset1 b) -> peers (bmem b) i <> [] ->
  (forall j, In j (peers (bmem b) i) -> exists n x, nth_error (bmem b) j = Some n /\ ggroup n = Some x /\ x < length (bset1 b)) ->
  exists p, ParticipationCoefficientBipart (bmem b) (bset1 b) i = Ok p /\ p = participation (bmem b) (length (bset1 b)) i /\
    (0 <= p)%Qc /\ (p <= 1 - / Qc_of_nat (length (bset1 b)))%Qc.
Proof.
  intros B Hi Hn Hg. eexists. split; [exact (ParticipationCoefficientBipart_spec ex sq b i B Hi Hn Hg)|]. split; auto. exact (participation_bounds (bmem b) _ i Hn Hg).
Qed.
End Exact.

(** * The hypotheses are met. *)
#[local] Instance opsE8 : NumOps Qc := Qc_ops ex0 sq0.
(** Three people a, b, c in teams t (all of them) and u (a and b); a works [w] times as much in t. *)
Definition crew_of (w : Qc) : binet Qc :=
  let l k lab i w := mkLink k lab 0 (Some i) n0 w in
  mkBi [mkNode ["a"%char] 0 0 [l 0 ["t"%char] 3 w; l 1 ["u"%char] 4 (qq 1)] (Some 0) n0 0 n0;
        mkNode ["b"%char] 1 0 [l 0 ["t"%char] 3 (qq 1); l 1 ["u"%char] 4 (qq 1)] (Some 1) n0 0 n0;
        mkNode ["c"%char] 2 0 [l 0 ["t"%char] 3 (qq 1)] (Some 0) n0 0 n0;
        mkNode ["t"%char] 0 0 [l 0 ["a"%char] 0 w; l 1 ["b"%char] 1 (qq 1); l 2 ["c"%char] 2 (qq 1)] None n0 0 n0;
        mkNode ["u"%char] 1 0 [l 0 ["a"%char] 0 (qq 1); l 1 ["b"%char] 1 (qq 1)] None n0 0 n0] [0; 1; 2] [3; 4].
Definition crew : binet Qc := crew_of (qq 2).
Lemma crew_bipartite w : bipartite (crew_of w).
Proof.
  split.
  - apply Permutation_refl.
  - intros [|[|[|k]]] i n E H; cbn in E; try (destruct k; discriminate); injection E as <-; injection H as <-; reflexivity.
  - intros [|[|k]] i n E H; cbn in E; try (destruct k; discriminate); injection E as <-; injection H as <-; reflexivity.
  - intros [|[|[|[|[|i]]]]] n l E Hl; cbn in E; try (destruct i; discriminate); injection E as <-; cbn in Hl; repeat (destruct Hl as [<-|Hl]; [do 2 eexists; splits; reflexivity|]); destruct Hl.
  - intros [|[|[|[|[|i]]]]] j H; cbn in H; try (destruct i; destruct H); repeat (destruct H as [<-|H]; [cbn; auto 10|]); destruct H.
  - intros [|[|[|[|[|i]]]]]; cbn; try (destruct i; constructor); repeat constructor; cbn; intuition discriminate.
  - intros [|[|[|[|[|i]]]]] [|[|[|[|[|j]]]]]; cbn; try reflexivity; try (destruct i; reflexivity); try (destruct j; reflexivity); destruct i, j; reflexivity.
  - intros [|[|[|[|[|i]]]]] n E; cbn in E; try (destruct i; discriminate); injection E as <-; auto.
Qed.
Example crew_met : bipartite crew.
Proof. exact (crew_bipartite _). Qed.
Example crew_links : (exists i j, In j (nbrs (bmem crew) i)) /\ labels_fit (bmem crew) /\ NoDup (map (label_of (bmem crew)) (bset1 crew)) /\ strengths_cached (bmem crew).
Proof.
  splits.
  - exists 0, 3. cbn; auto.
  - intros n Hn. cbn in Hn. repeat (destruct Hn as [<-|Hn]; [cbn; lia|]). destruct Hn.
  - cbn. repeat constructor; cbn; intuition discriminate.
  - intros [|[|[|[|[|i]]]]] n E; cbn in E; try (destruct i; discriminate); injection E as <-; left; reflexivity.
Qed.
Example crew_projected : exists g, ProjectBipart crew = Ok g /\ weight g 0 1 = Some (qq 2) /\ weight g 2 1 = Some (qq 1).
Proof. eexists. splits; vm_compute; reflexivity. Qed.
Example crew_projected_weighted : exists g, ProjectBipartWeighted crew = Ok g /\ weight g 0 1 = Some (qq 3) /\ weight g 2 1 = Some (qq 1).
Proof. eexists. splits; vm_compute; reflexivity. Qed.
Definition crew_groups : gpart Qc :=
  [mkGroup 0 2 0 0 0 n0 n0 n0 [mkLink 0 [] 0 (Some 0) n0 n0; mkLink 2 [] 0 (Some 2) n0 n0];
   mkGroup 1 1 0 0 0 n0 n0 n0 [mkLink 1 [] 0 (Some 1) n0 n0]].
Definition crew_one : gpart Qc :=
  [mkGroup 0 3 0 0 0 n0 n0 n0 [mkLink 0 [] 0 (Some 0) n0 n0; mkLink 2 [] 0 (Some 2) n0 n0; mkLink 1 [] 0 (Some 1) n0 n0]].
Definition crew_apart : gpart Qc := map (fun i => mkGroup i 1 0 0 0 n0 n0 n0 [mkLink i [] 0 (Some i) n0 n0]) [0; 1; 2].
Ltac groups_tac := split; [cbn; repeat constructor; cbn; intuition discriminate
  | intros G l HG Hl; cbn in HG; repeat (destruct HG as [<-|HG]; [cbn in Hl; repeat (destruct Hl as [<-|Hl]; [discriminate|]); destruct Hl|]); destruct HG
  | cbn; repeat constructor; cbn; intuition discriminate | cbn; intuition].
Example crew_groups_met : groups_of (bset1 crew) crew_groups /\ groups_of (bset1 crew) crew_one /\ groups_of (bset1 crew) crew_apart.
Proof. splits; groups_tac. Qed.
Definition value {X} (r : res (Qc * X)) : option Q := match r with Ok (q, _) => Some (this q) | Err _ => None end.
Example crew_modularity : value (ModularityBipart crew crew_groups) = Some (9 # 100) /\ value (ModularityBipartWeighted crew crew_groups) = Some (5 # 42) /\
  value (ModularityBipart crew crew_one) = Some (9 # 25) /\ value (ModularityBipart crew crew_apart) = Some (0 # 1).
Proof. splits; vm_compute; reflexivity. Qed.
Example crew_whole : (forall i j, In i (bset1 crew) -> In j (bset1 crew) -> same_home (abs crew_one) i j = true) /\
  Qsum (fun s => teams crew s * teams crew s)%Qc (bset2 crew) <> Qsum (teams crew) (bset2 crew) /\ Qsum (teams crew) (bset2 crew) <> 0%Qc.
Proof.
  splits.
  - intros i j Hi Hj. cbn in Hi, Hj. destruct Hi as [<-|[<-|[<-|[]]]], Hj as [<-|[<-|[<-|[]]]]; reflexivity.
  - intros H. apply (f_equal this) in H. vm_compute in H. discriminate.
  - intros H. apply (f_equal this) in H. vm_compute in H. discriminate.
Qed.
Example crew_ones : bipartite (crew_of 1%Qc) /\ groups_of (bset1 (crew_of 1%Qc)) crew_groups /\ strengths_cached (bmem (crew_of 1%Qc)) /\ forall i j w, weight (bmem (crew_of 1%Qc)) i j = Some w -> w = 1%Qc.
Proof.
  splits.
  - apply crew_bipartite.
  - apply crew_groups_met.
  - intros [|[|[|[|[|i]]]]] n E; cbn in E; try (destruct i; discriminate); injection E as <-; left; reflexivity.
  - assert (Q1 : qq 1 = 1%Qc) by (apply Qc_is_canon; reflexivity).
    intros [|[|[|[|[|i]]]]] [|[|[|[|[|j]]]]] w; cbn; try discriminate; try (destruct i; discriminate); try (destruct j; discriminate); intros [= <-]; auto.
Qed.
Example crew_peers : peers (bmem crew) 0 = [1; 2; 1] /\ (forall j, In j (peers (bmem crew) 0) -> exists n x, nth_error (bmem crew) j = Some n /\ ggroup n = Some x /\ x < 3) /\
  match ParticipationCoefficientBipart (bmem crew) (bset1 crew) 0 with Ok p => this p = (4 # 9)%Q | Err _ => False end.
Proof.
  splits; [reflexivity| |vm_compute; reflexivity]. intros j Hj. cbn in Hj. destruct Hj as [<-|[<-|[<-|[]]]]; do 2 eexists; splits; try reflexivity; lia.
Qed.
(** A square of two people in two teams each can be shuffled: the links a-t and b-u become a-u and b-t. *)
Definition square : binet Qc :=
  let l k lab i w := mkLink k lab 0 (Some i) n0 w in
  mkBi [mkNode ["a"%char] 0 0 [l 0 ["t"%char] 2 (qq 3)] None n0 0 n0; mkNode ["b"%char] 1 0 [l 1 ["u"%char] 3 (qq 4)] None n0 0 n0;
        mkNode ["t"%char] 0 0 [l 0 ["a"%char] 0 (qq 3)] None n0 0 n0; mkNode ["u"%char] 1 0 [l 1 ["b"%char] 1 (qq 4)] None n0 0 n0] [0; 1] [2; 3].
Example square_met : bipartite square /\ Forall good_draw [qq 0; qq (1 # 2)] /\ exists b' ds', RandomizeBipart square (qq (1 # 2)) [qq 0; qq (1 # 2)] = Ok (b', ds') /\
  weight (bmem b') 0 3 = Some (qq 0) /\ weight (bmem b') 0 2 = None.
Proof.
  splits.
  - split.
    + apply Permutation_refl.
    + intros [|[|k]] i n E H; cbn in E; try (destruct k; discriminate); injection E as <-; injection H as <-; reflexivity.
    + intros [|[|k]] i n E H; cbn in E; try (destruct k; discriminate); injection E as <-; injection H as <-; reflexivity.
    + intros [|[|[|[|i]]]] n l E Hl; cbn in E; try (destruct i; discriminate); injection E as <-; cbn in Hl; repeat (destruct Hl as [<-|Hl]; [do 2 eexists; splits; reflexivity|]); destruct Hl.
    + intros [|[|[|[|i]]]] j H; cbn in H; try (destruct i; destruct H); repeat (destruct H as [<-|H]; [cbn; auto 10|]); destruct H.
    + intros [|[|[|[|i]]]]; cbn; try (destruct i; constructor); repeat constructor; cbn; intuition discriminate.
    + intros [|[|[|[|i]]]] [|[|[|[|j]]]]; cbn; try reflexivity; try (destruct i; reflexivity); try (destruct j; reflexivity); destruct i, j; reflexivity.
    + intros [|[|[|[|i]]]] n E; cbn in E; try (destruct i; discriminate); injection E as <-; auto.
  - repeat constructor; apply (good_draw_Qc ex0 sq0); first [discriminate|reflexivity].
  - do 2 eexists. splits; vm_compute; reflexivity.
Qed.
(** In a crew of one team every two links share their end. *)
Definition single : binet Qc :=
  let l k lab i w := mkLink k lab 0 (Some i) n0 w in
  mkBi [mkNode ["a"%char] 0 0 [l 0 ["t"%char] 2 (qq 3)] None n0 0 n0; mkNode ["b"%char] 1 0 [l 0 ["t"%char] 2 (qq 4)] None n0 0 n0;
        mkNode ["t"%char] 0 0 [l 0 ["a"%char] 0 (qq 3); l 1 ["b"%char] 1 (qq 4)] None n0 0 n0] [0; 1] [2].
Example single_met : bipartite single /\ (exists i j, In j (nbrs (bmem single) i)) /\
  (forall i j i' j', In i (bset1 single) -> In i' (bset1 single) -> In j (nbrs (bmem single) i) -> In j' (nbrs (bmem single) i') -> i = i' \/ j = j') /\
  0 < nceil (nmul (qq 1) (nofnat (lsum (degree (bmem single)) (bset1 single)))).
Proof.
  splits.
  - split.
    + apply Permutation_refl.
    + intros [|[|k]] i n E H; cbn in E; try (destruct k; discriminate); injection E as <-; injection H as <-; reflexivity.
    + intros [|k] i n E H; cbn in E; try (destruct k; discriminate); injection E as <-; injection H as <-; reflexivity.
    + intros [|[|[|i]]] n l E Hl; cbn in E; try (destruct i; discriminate); injection E as <-; cbn in Hl; repeat (destruct Hl as [<-|Hl]; [do 2 eexists; splits; reflexivity|]); destruct Hl.
    + intros [|[|[|i]]] j H; cbn in H; try (destruct i; destruct H); repeat (destruct H as [<-|H]; [cbn; auto 10|]); destruct H.
    + intros [|[|[|i]]]; cbn; try (destruct i; constructor); repeat constructor; cbn; intuition discriminate.
    + intros [|[|[|i]]] [|[|[|j]]]; cbn; try reflexivity; try (destruct i; reflexivity); try (destruct j; reflexivity); destruct i, j; reflexivity.
    + intros [|[|[|i]]] n E; cbn in E; try (destruct i; discriminate); injection E as <-; auto.
  - exists 0, 2. cbn; auto.
  - intros i j i' j' Hi Hi' Hj Hj'. cbn in Hi, Hi'. destruct Hi as [<-|[<-|[]]], Hi' as [<-|[<-|[]]]; cbn in Hj, Hj'; destruct Hj as [<-|[]], Hj' as [<-|[]]; auto.
  - vm_compute. lia.
Qed.

Print Assumptions C27_shuffle.
Print Assumptions C27_star.
Print Assumptions C50_links.
Print Assumptions C50_invert.
Print Assumptions C51_projection.
Print Assumptions C52_weighted_projection.
Print Assumptions C53_modularity.
Print Assumptions C53_modularity_weighted.
Print Assumptions C53_whole.
Print Assumptions C53_apart.
Print Assumptions C53_ones.
Print Assumptions C54_participation.

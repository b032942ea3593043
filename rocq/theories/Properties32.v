(** Properties32.v -- the link of largest betweenness (C172, C173). *)
From Coq Require Import List Arith ZArith Bool QArith Qcanon Lia.
From Verif Require Import Base Num ListLib QcSum IoModel GraphModel GraphSpec LbtwModel LbtwProof BigModel BigProof Refute Properties21 Properties31.
Import ListNotations.
Local Open Scope nat_scope.

Section Exact.
Variables ex sq : Qc -> Qc.
#[local] Instance ops32 : NumOps Qc := Qc_ops ex sq.
(** C172: the network is the one that CalculateLinkBetweenness leaves; the two numbers are the ends of a link that no other exceeds; they are set exactly if there is a link. *)
Theorem C172_biggest (g : net Qc) : undirected g -> g <> [] ->
  exists g' out, CalculateBiggestLinkBetweenness g = Ok (g', out) /\ CalculateLinkBetweenness g = Ok g' /\ Forall2 same_node g g' /\
    (out = None <-> forall i, nbrs g i = []) /\
    forall n1 n2, out = Some (n1, n2) -> In n1 (nbrs g n2) /\ In n2 (nbrs g n1) /\ exists v, btw_of g' n1 n2 = Some v /\ btw_of g' n2 n1 = Some v /\ forall a b y, btw_of g' a b = Some y -> (y <= v)%Qc.
Proof.
  intros U Hne. destruct (Biggest_spec ex sq g U Hne) as (g' & out & E & E' & Ha & H). exists g', out. split; [exact E|]. split; [exact E'|]. split; [exact (alike_same g g' Ha)|].
  destruct (Properties4.C44_distances g (un_wf g U)) as [dist Hd]. destruct (C168_total ex sq g dist U Hd) as (g2 & E2 & _ & _ & M). assert (X : Ok g2 = Ok g') by (etransitivity; [symmetry; exact E2|exact E']). injection X as X. subst g2.
  assert (L : forall a b y, btw_of g' a b = Some y -> In b (nbrs g a)).
  { intros a b y Hy. rewrite <- (alike_nbrs g g' a Ha). unfold btw_of in Hy. unfold nbrs. destruct (nth_error g' a) as [n|] eqn:En; [|discriminate]. destruct (find _ (gadj n)) as [l|] eqn:F; [|discriminate]. apply find_some in F as [F1 F2]. apply Nat.eqb_eq in F2. subst b.
    pose proof (alike_undirected g g' Ha U) as U'. destruct (wf_link g' (un_wf g' U') a n l En F1) as (j & m & X1 & _ & X3 & _). apply GraphProof.targets_In. exists l. split; auto. congruence. }
  split.
  - destruct out as [[n1 n2]|]; split; auto; [discriminate|]. intros X. exfalso. destruct H as (v & V & _). specialize (L n2 n1 v V). rewrite X in L. destruct L.
  - intros n1 n2 ->. destruct H as (v & V & Mx). split; [exact (L n2 n1 v V)|]. assert (V' : btw_of g' n1 n2 = Some v) by (rewrite M; exact V). split; [exact (L n1 n2 v V')|]. exists v. splits; auto.
Qed.
(** C173: the empty network has no first node. *)
Theorem C173_empty_refuted : undirected (@nil (gnode Qc)) /\ CalculateBiggestLinkBetweenness (@nil (gnode Qc)) = Err UB_null /\ CalculateLinkBetweenness (@nil (gnode Qc)) = Ok [].
Proof.
  split; [|split; reflexivity]. assert (X : forall i, nth_error (@nil (gnode Qc)) i = None) by (intros [|i]; reflexivity). split.
  - split; [intros i n; rewrite X; discriminate|intros i n l; rewrite X; discriminate|intros i; unfold nbrs; rewrite X; constructor|intros i n; rewrite X; discriminate].
  - intros i. unfold nbrs. rewrite X. auto.
  - intros i j. unfold weight. now rewrite !X.
Qed.
End Exact.

(** The hypotheses are met by the network of 7 nodes; the link between 0 and 1 is a largest one there. *)
#[local] Instance opsE32 : NumOps Qc := Qc_ops ex0 sq0.
Example net7_biggest : undirected net7 /\ net7 <> [] /\ match CalculateBiggestLinkBetweenness net7 with Ok (_, out) => out | Err _ => None end = Some (1, 0).
Proof. split; [apply net7_met|]. split; [vm_compute; discriminate|vm_compute; reflexivity]. Qed.

Print Assumptions C172_biggest.
Print Assumptions C173_empty_refuted.
Print Assumptions net7_biggest.

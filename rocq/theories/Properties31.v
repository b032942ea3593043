(** Properties31.v -- the betweenness of the links and the modularity from a table (C168-C171). *)
From Coq Require Import List Arith ZArith Bool QArith Qcanon Lia.
From Coq Require Import Strings.Ascii.
From Verif Require Import Base Num ListLib NatSum QcSum IoModel GraphModel GraphSpec GraphProof BfsModel BfsProof PathLen BtwSpec GroupModel GroupSpec ModulesSpec MatLib BipartModel BipartSpec BipartMem BipartExact LbtwModel LbtwProof Refute Properties4 Properties8 Properties21.
Import ListNotations.
Local Open Scope nat_scope.

(** Link for link, everything but the betweenness; node for node, everything but the links and the mark of the search. *)
Definition same_link {A} (l m : link A) : Prop := lnode l = lnode m /\ llabel l = llabel m /\ lstatus l = lstatus m /\ lref l = lref m /\ lweight l = lweight m.
Definition same_node {A} (n m : gnode A) : Prop :=
  glabel n = glabel m /\ gnum n = gnum m /\ ggroup n = ggroup m /\ gdvar n = gdvar m /\ gdeg n = gdeg m /\ gstr n = gstr m /\ Forall2 same_link (gadj n) (gadj m).
Lemma alike_same {A} {ops : NumOps A} (g h : net A) : alike g h -> Forall2 same_node g h.
Proof.
  unfold alike, skel. revert h. induction g as [|n g IH]; intros [|m h] E; try discriminate; [constructor|]. cbn [map] in E. assert (E1 : clr m = clr n) by congruence; assert (E2 : map clr h = map clr g) by congruence; constructor; [|apply IH; exact E2].
  clear E E2 IH. revert E1.
  assert (H : clr m = clr n -> same_node n m).
  { intros H. unfold same_node. pose proof (f_equal glabel H) as H1. pose proof (f_equal gnum H) as H2. pose proof (f_equal ggroup H) as H3. pose proof (f_equal gdvar H) as H4. pose proof (f_equal gdeg H) as H5.
    pose proof (f_equal gstr H) as H6. pose proof (f_equal gadj H) as H7. cbn in *. splits; auto. clear - H7. revert H7. generalize (gadj m). induction (gadj n) as [|l ls IH]; intros [|k ks] E; try discriminate; constructor.
    - assert (X : clr_link k = clr_link l) by (cbn [map] in E; congruence). unfold same_link. pose proof (f_equal lnode X). pose proof (f_equal llabel X). pose proof (f_equal lstatus X). pose proof (f_equal lref X). pose proof (f_equal lweight X). cbn in *. splits; auto.
    - apply IH. cbn [map] in E. congruence. }
  exact H.
Qed.
(** The betweenness in the first link from [i] to the number [j]. *)
Definition btw_of {A} (g : net A) (i j : nat) : option A :=
  match nth_error g i with Some n => option_map lbtw (find (fun l => lnode l =? j) (gadj n)) | None => None end.

Section Exact.
Variables ex sq : Qc -> Qc.
#[local] Instance ops31 : NumOps Qc := Qc_ops ex sq.
(** C168: the betweenness of all links, each in both directions, adds up to twice the sum of all distances; both directions of a link have the same. *)
Theorem C168_total (g : net Qc) dist : undirected g -> (forall s v d, dist s v = Some d <-> distance g s v d) ->
  exists g', CalculateLinkBetweenness g = Ok g' /\ Forall2 same_node g g' /\
    Qsum (fun n => Qsum lbtw (gadj n)) g' =
      (Qc_of_nat 2 * Qsum (fun s => Qsum (fun v => match dist s v with Some d => Qc_of_nat d | None => 0%Qc end) (seq 0 (length g))) (seq 0 (length g)))%Qc /\
    forall i j, btw_of g' i j = btw_of g' j i.
Proof.
  intros U Hd. destruct (LinkBetweenness_total ex sq g dist U Hd) as (g' & E & Ha & T & M). exists g'. split; [exact E|]. split; [exact (alike_same g g' Ha)|]. split; [exact T|exact M].
Qed.
(** C171: the modularity from the table of the contributions is half of the weighted bipartite modularity. *)
Definition contribution (b : binet Qc) (i j : nat) : Qc :=
  (let st := strength_of (bmem b) in let w := Qsum st (bset2 b) in let w2 := Qsum (fun s => st s * st s) (bset2 b) in
   shared_weight (bmem b) i j / (w2 - w) - st i * st j / (w * w))%Qc.
Theorem C171_from_table (b : binet Qc) (P : gpart Qc) mat num : bipartite b -> strengths_cached (bmem b) -> groups_of (bset1 b) P ->
  (forall G l, In G P -> In l (pnodes G) -> exists i, lref l = Some i /\ lnode l = num i) ->
  (forall i j, In i (bset1 b) -> In j (bset1 b) -> get2 mat (num i) (num j) = Ok (contribution b i j)) ->
  exists x b', ModularityBipartWeightedFast P mat = Ok x /\ ModularityBipartWeighted b P = Ok ((x * Q2Qc (2 # 1))%Qc, b').
Proof.
  intros B Sc GP HP HM. destruct (ModularityBipartWeighted_spec ex sq b P B Sc GP) as (b' & E & _).
  destruct (Fast_spec ex sq (bset1 b) num mat (contribution b) HM P (bi_once1 b B) GP) as (x & Ex & Sx).
  - intros G HG l Hl. destruct (HP G l HG Hl) as (i & Ei & Ni). destruct (groups_refs (bset1 b) P GP G l HG Hl) as (j & Ej & Ij). assert (j = i) by congruence. subst j. eauto.
  - intros i j. unfold contribution. rewrite (shared_sym (bmem b) i j (bi_simple b B)). unfold Qcdiv. ring.
  - exists x, b'. split; [exact Ex|]. rewrite Sx. exact E.
Qed.
End Exact.

#[local] Instance opsE31 : NumOps Qc := Qc_ops ex0 sq0.
(** The shares of the shortest paths that use the link between [i] and [j]. *)
Fixpoint uses (i j : nat) (p : list nat) : bool :=
  match p with a :: (b :: _) as r => ((a =? i) && (b =? j)) || ((a =? j) && (b =? i)) || uses i j r | _ => false end.
Definition link_share (g : net Qc) (i j : nat) : Qc :=
  Qsum (fun s => Qsum (fun t => match geodesics g s t with [] => 0%Qc | l => (Qc_of_nat (length (filter (uses i j) l)) / Qc_of_nat (length l))%Qc end) (seq 0 (length g))) (seq 0 (length g)).
Definition letters (k : nat) : list label := map (fun n => [ascii_of_nat (97 + n)]) (seq 0 k).
Definition net7 : net Qc := wired (letters 7) [(0, 1); (0, 2); (0, 3); (1, 4); (4, 6); (2, 5); (5, 6); (3, 5)].
(** C169: it is not the share of the shortest paths that use the link: loads are split evenly among the predecessors, whatever the number of paths that come through each. *)
Theorem C169_share_refuted : exists (g g' : net Qc) i j x, undirected g /\ CalculateLinkBetweenness g = Ok g' /\ btw_of g' i j = Some x /\ x <> link_share g i j.
Proof.
  assert (U : undirected net7) by (apply wired_ok; vm_compute; reflexivity).
  destruct (CalculateLinkBetweenness net7) as [g'|e] eqn:E; [|vm_compute in E; discriminate].
  exists net7, g', 1, 4, (Q2Qc (29 # 3)). split; [exact U|]. split; [exact E|]. split.
  - assert (X : match CalculateLinkBetweenness net7 with Ok g' => btw_of g' 1 4 = Some (Q2Qc (29 # 3)) | Err _ => False end).
    { assert (Y : match CalculateLinkBetweenness net7 with Ok g' => match btw_of g' 1 4 with Some x => this x | None => 0%Q end | Err _ => 0%Q end = (29 # 3)%Q) by (vm_compute; reflexivity).
      destruct (CalculateLinkBetweenness net7) as [h|]; [|vm_compute in Y; discriminate]. destruct (btw_of h 1 4) as [x|]; [|vm_compute in Y; discriminate]. f_equal. apply Qc_is_canon. rewrite Y. reflexivity. }
    rewrite E in X. exact X.
  - intros F. apply (f_equal this) in F. vm_compute in F. discriminate.
Qed.
(** C170: a link in one direction only makes it follow a null pointer. *)
Definition arrow : net Qc := [mkNode ["a"%char] 0 0 [mkLink 1 ["b"%char] 0 (Some 1) 0%Qc 1%Qc] None 0%Qc 0 0%Qc; mkNode ["b"%char] 1 0 [] None 0%Qc 0 0%Qc].
Theorem C170_directed_refuted : exists g : net Qc, wf_net g /\ CalculateLinkBetweenness g = Err UB_null.
Proof.
  exists arrow. split; [|vm_compute; reflexivity]. split.
  - intros [|[|i]] n E; cbn in E; try (destruct i; discriminate); injection E as <-; reflexivity.
  - intros [|[|i]] n l E Hl; cbn in E; try (destruct i; discriminate); injection E as <-; cbn in Hl; [|destruct Hl]. destruct Hl as [<-|[]]. do 2 eexists. splits; reflexivity.
  - intros [|[|[|i]]]; cbn; repeat constructor; auto.
  - intros [|[|i]] n E; cbn in E; try (destruct i; discriminate); injection E as <-; auto.
Qed.

(** The hypotheses are met: the distances of the network above exist, and for the two-sided network [crew] a table of the contributions. *)
Example net7_met : undirected net7 /\ length net7 = 7 /\ exists dist, forall s v d, dist s v = Some d <-> distance net7 s v d.
Proof.
  assert (U : undirected net7) by (apply wired_ok; vm_compute; reflexivity). split; [exact U|]. split; [vm_compute; reflexivity|]. apply Properties4.C44_distances. apply U.
Qed.
Definition crew_table : list (list Qc) := map (fun i => map (contribution crew i) (bset1 crew)) (bset1 crew).
Example crew_table_met : bipartite crew /\ strengths_cached (bmem crew) /\ groups_of (bset1 crew) crew_groups /\
  (forall G l, In G crew_groups -> In l (pnodes G) -> exists i, lref l = Some i /\ lnode l = i) /\
  (forall i j, In i (bset1 crew) -> In j (bset1 crew) -> get2 crew_table i j = Ok (contribution crew i j)) /\ contribution crew 0 1 <> contribution crew 0 2.
Proof.
  split; [exact crew_met|]. split; [apply crew_links|]. split; [apply crew_groups_met|]. split; [|split].
  - intros G l HG Hl. cbn in HG. repeat (destruct HG as [<-|HG]; [cbn in Hl; repeat (destruct Hl as [<-|Hl]; [eexists; split; reflexivity|]); destruct Hl|]). destruct HG.
  - intros i j Hi Hj. cbn in Hi, Hj. destruct Hi as [<-|[<-|[<-|[]]]], Hj as [<-|[<-|[<-|[]]]]; reflexivity.
  - intros F. apply (f_equal this) in F. vm_compute in F. discriminate.
Qed.

Print Assumptions C168_total.
Print Assumptions C169_share_refuted.
Print Assumptions C170_directed_refuted.
Print Assumptions C171_from_table.
Print Assumptions net7_met.
Print Assumptions crew_table_met.

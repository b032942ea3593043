(** CommCopy.v -- CopyPartition of src/modules.c for a partition that is not the one of the network, and MapPartToNet afterwards. *)
From Coq Require Import List Arith ZArith Bool Lia.
From Verif Require Import Base ListLib NatSum IoModel IoSpec GraphModel GraphSpec GraphProof GroupModel GroupSpec PairSum GroupProof GroupExact ModulesModel ModulesSpec ModulesMap ModulesCopy MissSpec MissSets MissStep
  CommSpec CommSums.
Import ListNotations.
Local Open Scope nat_scope.

Section Any.
Context {A : Type} {ops : NumOps A}.
Implicit Types (g : net A) (P Q : gpart A).

Definition sized P : Prop := forall G, In G P -> psize G = Z.of_nat (length (pnodes G)).
Lemma cells_same g g' P : same_but_group g g' -> cells_right g P -> cells_right g' P.
Proof. intros S HC G l HG Hl. destruct (HC G l HG Hl) as (i & n & Q1 & Q2 & Q3 & Q4). destruct (F2_nth _ _ _ _ _ S Q2) as (m & Em & Hm). exists i, m. splits; auto. rewrite Q4. apply Hm. Qed.
(** A cell and what is filled so far. *)
Definition filled g (S : list nat) (G : grp A) : Prop := members G = S /\ psize G = Z.of_nat (length (pnodes G)) /\
  forall l, In l (pnodes G) -> exists i n, lref l = Some i /\ nth_error g i = Some n /\ lnode l = i /\ llabel l = glabel n.
Lemma any_add g g1 Q H S i : same_but_group g g1 -> undirected g1 -> i < length g -> filled g S H ->
  exists g2 H1, AddNodeToGroup (g1, Q ++ [H]) (length Q) i = Ok (g2, Q ++ [H1]) /\ same_but_group g g2 /\ undirected g2 /\ plabel H1 = plabel H /\ filled g (S ++ [i]) H1.
Proof.
  intros S0 U0 Li (C1 & C2 & C3). destruct (nth_ex g i Li) as [n En]. destruct (F2_nth _ _ _ _ _ S0 En) as (m & Em & Hm).
  assert (EH : nth_error (Q ++ [H]) (length Q) = Some H) by (rewrite nth_error_app2, Nat.sub_diag by lia; reflexivity).
  destruct (Add_raw g1 (Q ++ [H]) (length Q) i m H U0 Em EH) as (g3 & tw & g2 & n2 & g' & _ & _ & _ & _ & S2 & U2 & En2 & E' & EQ).
  set (H1 := grown H m i (degree g1 i) (count (in_grp g1 (plabel H)) (nbrs g1 i)) tw (sum_to g1 (gadj m) (plabel H) n0)) in *.
  replace (upd (Q ++ [H]) (length Q) H1) with (Q ++ [H1]) in EQ by (symmetry; clear; induction Q as [|x Q IH]; [reflexivity|simpl; f_equal; exact IH]).
  assert (S3 : same_but_group g2 g') by (rewrite E'; apply sbg_group_upd; auto).
  exists g', H1. split; auto. split; [|split; [|split; [reflexivity|split; [|split]]]].
  - eapply sbg_trans; [exact S0|]. eapply sbg_trans; [apply sc_sbg; exact S2|exact S3].
  - apply (sbg_undirected g2 g' U2 S3). rewrite E'. apply degs_group_upd; auto.
  - unfold H1. rewrite members_grown. now rewrite C1.
  - unfold H1, grown. cbn [psize pnodes]. rewrite C2, app_length. cbn [length]. lia.
  - unfold H1, grown. cbn [pnodes]. intros l Hl. apply in_app_or in Hl as [Hl|[<-|[]]]; auto. exists i, n. unfold cell_of. simpl. splits; auto.
    + rewrite (wf_num g1 (un_wf g1 U0) i m Em). reflexivity.
    + symmetry. apply Hm.
Qed.
Lemma any_cells g Q (cs : list (link A)) : forall g1 H S, (forall l, In l cs -> exists i, lref l = Some i /\ i < length g) -> same_but_group g g1 -> undirected g1 -> filled g S H ->
  exists g2 H1, foldM (fun st l => do i <- deref (lref l); AddNodeToGroup st (length Q) i) (g1, Q ++ [H]) cs = Ok (g2, Q ++ [H1]) /\ same_but_group g g2 /\ undirected g2 /\ plabel H1 = plabel H /\ filled g (S ++ targets cs) H1.
Proof.
  induction cs as [|l cs IH]; intros g1 H S Hc S0 U0 C.
  - exists g1, H. rewrite app_nil_r. split; auto.
  - destruct (Hc l (or_introl eq_refl)) as (i & El & Li). destruct (any_add g g1 Q H S i S0 U0 Li C) as (g2 & H1 & E1 & S1 & U1 & L1 & C1).
    cbn [foldM]. rewrite El. cbn [deref bind]. rewrite E1. cbn [bind].
    destruct (IH g2 H1 (S ++ [i])) as (g3 & H2 & E2 & S2 & U2 & L2 & C2); auto.
    { intros x Hx. apply Hc. simpl; auto. }
    exists g3, H2. split; auto. split; auto. split; auto. split; [congruence|]. replace (targets (l :: cs)) with (i :: targets cs) by (unfold targets; cbn [flat_map]; now rewrite El).
    now rewrite <- app_assoc in C2.
Qed.
Lemma any_groups g : forall P g1 Q, cells_right g P -> same_but_group g g1 -> undirected g1 ->
  exists g2 Q1, foldM (fun '(g, Q) G => CopyGroup g Q G) (g1, Q) P = Ok (g2, Q ++ Q1) /\ same_but_group g g2 /\ undirected g2 /\ Forall2 (fun G H => plabel H = plabel G /\ filled g (members G) H) P Q1.
Proof.
  induction P as [|G P IH]; intros g1 Q Hc S0 U0.
  - exists g1, []. rewrite app_nil_r. split; auto.
  - assert (C0 : filled g [] (mkGroup (plabel G) 0 0 0 0 n0 n0 n0 [])) by (split; [reflexivity|split; [reflexivity|intros l []]]).
    assert (HG : forall l, In l (pnodes G) -> exists i, lref l = Some i /\ i < length g) by (intros l Hl; destruct (Hc G l (or_introl eq_refl) Hl) as (i & n & Q1 & Q2 & _); exists i; split; auto; eapply nth_lt; eauto).
    destruct (any_cells g Q (pnodes G) g1 (mkGroup (plabel G) 0 0 0 0 n0 n0 n0 []) [] HG S0 U0 C0) as (g2 & H1 & E1 & S1 & U1 & L1 & C1).
    assert (EC : CopyGroup g1 Q G = Ok (g2, Q ++ [H1])) by exact E1. cbn [foldM]. rewrite EC. cbn [bind].
    destruct (IH g2 (Q ++ [H1])) as (g3 & Q2 & E2 & S2 & U2 & F2); auto.
    { intros G' l HG'. apply Hc. simpl; auto. }
    exists g3, (H1 :: Q2). rewrite <- app_assoc in E2. split; auto.
Qed.
Lemma copy_any g P : undirected g -> cells_right g P ->
  exists g' Q, CopyPartition g P = Ok (g', Q) /\ undirected g' /\ same_but_group g g' /\ abs Q = abs P /\ cells_right g' Q /\ sized Q.
Proof.
  intros U HC. destruct (any_groups g P g [] HC (sbg_refl g) U) as (g1 & Q & E & S & U1 & F). cbn [app] in E. exists g1, Q. split; auto. split; auto. split; auto. split; [|split].
  - clear - F. unfold abs. induction F as [|G H P Q (E1 & E2 & _) _ IH]; auto. cbn [map]. now rewrite IH, E1, E2.
  - apply (cells_same g); auto. intros H l HH Hl. destruct (F2_in _ _ _ _ F HH) as (G & _ & _ & _ & _ & C). now apply C.
  - intros H HH. destruct (F2_in _ _ _ _ F HH) as (G & _ & _ & _ & C & _). exact C.
Qed.
Lemma nameable_right g Q : NoDup (map glabel g) -> cells_right g Q -> good (abs Q) -> sized Q -> nameable g Q.
Proof.
  intros ND HC GD HS. apply good_map in GD as (D1 & D2 & D3). split; auto.
  - intros G l HG Hl. destruct (HC G l HG Hl) as (i & n & _ & Q2 & _ & ->). apply in_map_iff. exists n. split; auto. eapply nth_error_In; eauto.
  - assert (EF : flat_map (fun G => map llabel (pnodes G)) Q = map (label_of g) (flat_map members Q)).
    { pose proof (names_abs g Q HC) as EQ. apply (f_equal (flat_map (snd (B := _)))) in EQ. unfold names, abs in EQ.
      rewrite !flat_map_concat_map, !map_map in EQ. cbn [snd] in EQ. rewrite flat_map_concat_map, EQ. rewrite flat_map_concat_map, concat_map, !map_map. reflexivity. }
    rewrite EF. assert (HL : forall i, In i (flat_map members Q) -> i < length g).
    { intros i Hi. apply in_flat_map in Hi as (G & HG & Hi). eapply cells_lt; eauto. }
    assert (NF : NoDup (flat_map members Q)).
    { clear - D1 D2 D3. induction Q as [|G Q IH]; [constructor|]. cbn [flat_map]. inversion D1; subst. apply NoDup_app_iff. splits; [apply D2; simpl; auto|apply IH; auto; intros; [apply D2|eapply D3]; simpl; eauto|].
      intros i Hi Hi'. apply in_flat_map in Hi' as (G' & HG' & Hi'). apply H1. rewrite (D3 G G' i) by (simpl; auto). now apply in_map. }
    clear - HL NF ND. induction (flat_map members Q) as [|i S IH]; [constructor|]. inversion NF; subst. cbn [map]. constructor; [|apply IH; auto; intros; apply HL; simpl; auto].
    intros K. apply in_map_iff in K as (j & Ej & Hj). apply H1. rewrite <- (label_of_inj g j i); auto; apply HL; simpl; auto.
Qed.
Lemma map_any g P : undirected g -> NoDup (map glabel g) -> cells_right g P -> good (abs P) -> sized P ->
  exists g' P', MapPartToNet (g, P) = Ok (g', P') /\ undirected g' /\ same_but_group g g' /\ mapped g' P' /\ abs P' = abs P.
Proof.
  intros U ND HC GD HS. destruct (MapPartToNet_mapped g P U (nameable_right g P ND HC GD HS)) as (g2 & P2 & E & U2 & S2 & M2 & EN). exists g2, P2. splits; auto.
  symmetry. apply (names_members g P g2 P2); auto. exact (mp_cells _ _ M2).
Qed.
Lemma sized_mapped g P : mapped g P -> sized P.
Proof.
  intros M G HG. destruct (mp_counts _ _ M G HG) as [-> _]. f_equal. unfold members. apply targets_length. apply Forall_forall. intros l Hl. destruct (mp_cells _ _ M G l HG Hl) as (i & n & Q1 & _). eauto.
Qed.
End Any.

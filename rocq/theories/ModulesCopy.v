(** ModulesCopy.v -- copying a partition of a network. *)
From Coq Require Import List Arith ZArith Bool QArith Qcanon Lia Permutation.
From Verif Require Import Base Num ListLib NatSum QcSum IoModel GraphModel GraphSpec GraphProof GroupModel GroupSpec GroupProof GroupExact ModulesModel ModulesSpec ModulesMod ModulesMap.
Import ListNotations.
Local Open Scope nat_scope.

Section Any.
Context {A : Type} {ops : NumOps A}.
Implicit Types (g : net A) (P Q : gpart A) (G H : grp A).

(** What a copy looks like while the network still carries the groups of the original. *)
Definition copied g (S : list nat) G : Prop :=
  members G = S /\ psize G = Z.of_nat (length S) /\
  pin G = Z.of_nat (lsum (fun i => count (in_grp g (plabel G)) (nbrs g i)) S) /\
  ptot G = (Z.of_nat (lsum (degree g) S) - pin G)%Z /\ (S <> [] -> pout G = (ptot G - pin G)%Z) /\ (S = [] -> pout G = 0%Z) /\
  (forall l, In l (pnodes G) -> exists i n, lref l = Some i /\ nth_error g i = Some n /\ lnode l = i /\ llabel l = glabel n).

Lemma copy_add g g0 Q H S i : undirected g -> same_cache g g0 -> undirected g0 -> i < length g -> group_of g i = Some (plabel H) -> copied g S H ->
  exists g1 H1, AddNodeToGroup (g0, Q ++ [H]) (length Q) i = Ok (g1, Q ++ [H1]) /\ same_cache g g1 /\ undirected g1 /\ plabel H1 = plabel H /\ copied g (S ++ [i]) H1.
Proof.
  intros U S0 U0 Li Gi (C1 & C2 & C3 & C4 & C5 & C5' & C6). destruct (nth_ex g i Li) as [n En]. destruct (F2_nth _ _ _ _ _ S0 En) as (m & Em & Hm).
  assert (EH : nth_error (Q ++ [H]) (length Q) = Some H) by (rewrite nth_error_app2, Nat.sub_diag by lia; reflexivity).
  destruct (Add_raw g0 (Q ++ [H]) (length Q) i m H U0 Em EH) as (g1 & tw & g2 & n2 & g' & _ & _ & _ & _ & S2 & U2 & En2 & -> & EQ).
  set (H1 := grown H m i (degree g0 i) (count (in_grp g0 (plabel H)) (nbrs g0 i)) tw (sum_to g0 (gadj m) (plabel H) n0)) in *.
  assert (EG : upd g2 i (set_ggroup (Some (plabel H)) n2) = g2).
  { rewrite <- (upd_same g2 i n2 En2) at 2. f_equal. assert (K : ggroup n2 = Some (plabel H)) by (rewrite <- (group_of_at g2 i n2 En2), (sc_group g0 g2 i S2), (sc_group g g0 i S0); auto).
    destruct n2; simpl in *. now rewrite K. }
  rewrite EG in EQ. replace (upd (Q ++ [H]) (length Q) H1) with (Q ++ [H1]) in EQ by (symmetry; clear; induction Q as [|x Q IH]; [reflexivity|simpl; f_equal; exact IH]).
  exists g2, H1. splits; auto; [eapply sc_trans; eauto|].
  assert (Ed : degree g0 i = degree g i) by (unfold degree; now rewrite (sbg_nbrs g g0 i (sc_sbg _ _ S0))).
  assert (Ec : count (in_grp g0 (plabel H)) (nbrs g0 i) = count (in_grp g (plabel H)) (nbrs g i)).
  { rewrite (sbg_nbrs g g0 i (sc_sbg _ _ S0)). apply count_ext. intros; now apply in_grp_sc. }
  unfold copied, H1. rewrite members_grown. unfold grown. cbn [psize pin ptot pout plabel pnodes]. rewrite Ed, Ec, C1, C2, C4, C3, app_length, !lsum_app. cbn [lsum length].
  splits; auto; try lia.
  - intros K. apply app_eq_nil in K as [_ K]. discriminate.
  - intros l Hl. apply in_app_or in Hl as [Hl|[<-|[]]]; auto. exists i, n. unfold cell_of. simpl. splits; auto.
    + rewrite (wf_num g0 (un_wf g0 U0) i m Em). reflexivity.
    + symmetry. apply Hm.
Qed.
Lemma copy_cells g Q (cs : list (link A)) : undirected g -> forall g0 H S, (forall l, In l cs -> exists i, lref l = Some i /\ i < length g /\ group_of g i = Some (plabel H)) ->
  same_cache g g0 -> undirected g0 -> copied g S H ->
  exists g1 H1, foldM (fun st l => do i <- deref (lref l); AddNodeToGroup st (length Q) i) (g0, Q ++ [H]) cs = Ok (g1, Q ++ [H1]) /\
    same_cache g g1 /\ undirected g1 /\ plabel H1 = plabel H /\ copied g (S ++ targets cs) H1.
Proof.
  intros U. induction cs as [|l cs IH]; intros g0 H S Hc S0 U0 C.
  - exists g0, H. rewrite app_nil_r. splits; auto.
  - destruct (Hc l (or_introl eq_refl)) as (i & El & Li & Gi). destruct (copy_add g g0 Q H S i U S0 U0 Li Gi C) as (g1 & H1 & E1 & S1 & U1 & L1 & C1).
    cbn [foldM]. rewrite El. cbn [deref bind]. rewrite E1. cbn [bind].
    destruct (IH g1 H1 (S ++ [i])) as (g2 & H2 & E2 & S2 & U2 & L2 & C2); auto.
    { intros x Hx. rewrite L1. apply Hc. simpl; auto. }
    exists g2, H2. splits; auto; [congruence|]. replace (targets (l :: cs)) with (i :: targets cs) by (unfold targets; cbn [flat_map]; now rewrite El).
    now rewrite <- app_assoc in C2.
Qed.
Lemma copy_groups g : undirected g -> forall P g0 Q, (forall G l, In G P -> In l (pnodes G) -> exists i, lref l = Some i /\ i < length g /\ group_of g i = Some (plabel G)) ->
  same_cache g g0 -> undirected g0 ->
  exists g1 Q1, foldM (fun '(g, Q) G => CopyGroup g Q G) (g0, Q) P = Ok (g1, Q ++ Q1) /\ same_cache g g1 /\ undirected g1 /\
    Forall2 (fun G H => plabel H = plabel G /\ copied g (members G) H) P Q1.
Proof.
  intros U. induction P as [|G P IH]; intros g0 Q Hc S0 U0.
  - exists g0, []. rewrite app_nil_r. splits; auto.
  - assert (C0 : copied g [] (mkGroup (plabel G) 0 0 0 0 n0 n0 n0 [])).
    { unfold copied. cbn. splits; auto. intros l []. }
    destruct (copy_cells g Q (pnodes G) U g0 (mkGroup (plabel G) 0 0 0 0 n0 n0 n0 []) [] (fun l => Hc G l (or_introl eq_refl)) S0 U0 C0) as (g1 & H1 & E1 & S1 & U1 & L1 & C1).
    assert (EC : CopyGroup g0 Q G = Ok (g1, Q ++ [H1])) by exact E1. cbn [foldM]. rewrite EC. cbn [bind].
    destruct (IH g1 (Q ++ [H1])) as (g2 & Q2 & E2 & S2 & U2 & F2); auto.
    { intros G' l HG. apply Hc. simpl; auto. }
    exists g2, (H1 :: Q2). rewrite <- app_assoc in E2. splits; auto.
Qed.
Lemma mapped_at g P G l : mapped g P -> In G P -> In l (pnodes G) -> exists i, lref l = Some i /\ i < length g /\ group_of g i = Some (plabel G).
Proof.
  intros M HG Hl. destruct (mp_cells _ _ M G l HG Hl) as (i & n & E1 & E2 & _). exists i. splits; auto; [eapply nth_lt; eauto|].
  rewrite (group_of_at g i n E2), (mp_group _ _ M i n E2). apply home_iff; [apply good_map; split; [|split]; apply M|]. exists (members G). split; [apply in_abs; eauto|].
  apply targets_In. eauto.
Qed.
Definition label_of g (i : nat) : label := match nth_error g i with Some n => glabel n | None => [] end.
Definition cells_right g P : Prop := forall G l, In G P -> In l (pnodes G) -> exists i n, lref l = Some i /\ nth_error g i = Some n /\ lnode l = i /\ llabel l = glabel n.
Lemma names_abs g P : cells_right g P -> names P = map (fun '(lab, T) => (lab, map (label_of g) T)) (abs P).
Proof.
  intros HC. unfold names, abs. rewrite map_map. apply map_ext_in. intros G HG. f_equal. unfold members.
  assert (HC' : forall l, In l (pnodes G) -> exists i n, lref l = Some i /\ nth_error g i = Some n /\ llabel l = glabel n).
  { intros l Hl. destruct (HC G l HG Hl) as (i & n & E1 & E2 & _ & E4). eauto 6. }
  clear - HC'. induction (pnodes G) as [|l ls IH]; auto. unfold targets in *. cbn [flat_map map]. destruct (HC' l (or_introl eq_refl)) as (i & n & E1 & E2 & E3). rewrite E1. cbn [app map].
  unfold label_of at 1. rewrite E2, E3. f_equal. apply IH. intros; apply HC'; simpl; auto.
Qed.

Lemma label_of_inj g i j : NoDup (map glabel g) -> i < length g -> j < length g -> label_of g i = label_of g j -> i = j.
Proof.
  intros ND Li Lj E. destruct (nth_ex g i Li) as [n En]. destruct (nth_ex g j Lj) as [m Em]. unfold label_of in E. rewrite En, Em in E.
  pose proof (GetNodeDict_found g i n ND En) as X1. pose proof (GetNodeDict_found g j m ND Em) as X2. rewrite E, X2 in X1. congruence.
Qed.
Lemma map_inj_in {X Y} (f : X -> Y) (p : X -> Prop) l l' : (forall x y, p x -> p y -> f x = f y -> x = y) -> (forall x, In x l -> p x) -> (forall x, In x l' -> p x) -> map f l = map f l' -> l = l'.
Proof.
  intros Hf. revert l'. induction l as [|x l IH]; intros [|y l'] H1 H2 E; try discriminate; auto. injection E as E1 E2. f_equal; [apply Hf; simpl in *; auto|apply IH; simpl in *; auto].
Qed.
Lemma cells_lt g P G i : cells_right g P -> In G P -> In i (members G) -> i < length g.
Proof. intros HC HG Hi. apply targets_In in Hi as (l & Hl & El). destruct (HC G l HG Hl) as (j & n & Q1 & Q2 & _). rewrite El in Q1. injection Q1 as <-. eapply nth_lt; eauto. Qed.
Lemma names_members g P g' P' : NoDup (map glabel g) -> same_but_group g g' -> cells_right g P -> cells_right g' P' -> names P = names P' -> abs P = abs P'.
Proof.
  intros ND S HC HC' E. rewrite (names_abs g P HC), (names_abs g' P' HC') in E.
  assert (EL : forall i, label_of g' i = label_of g i).
  { intros i. unfold label_of. destruct (nth_error g i) as [n|] eqn:En.
    - destruct (F2_nth _ _ _ _ _ S En) as (m & -> & Hm). symmetry. apply Hm.
    - rewrite (proj2 (nth_error_None g' i)); auto. rewrite (sbg_length g g' S). now apply nth_error_None. }
  rewrite (map_ext _ (fun '(lab, T) => (lab, map (label_of g) T)) (fun x => match x with (lab, T) => f_equal (pair lab) (map_ext _ _ EL T) end) (abs P')) in E.
  apply (map_inj_in (fun '(lab, T) => (lab, map (label_of g) T)) (fun x => forall i, In i (snd x) -> i < length g)) in E; auto.
  - intros [a S1] [b S2] H1 H2 [= -> Es]. f_equal. eapply (map_inj_in (label_of g) (fun i => i < length g)); eauto. intros x y Lx Ly. apply label_of_inj; auto.
  - intros [a S1] H i Hi. apply in_abs in H as (G & HG & _ & <-). eapply cells_lt; eauto.
  - intros [a S1] H i Hi. apply in_abs in H as (G & HG & _ & <-). rewrite <- (sbg_length g g' S). eapply cells_lt; eauto.
Qed.
(** The copy has the same groups of the same nodes, while its counters are those of a network that already carried the groups:
    the inner links are counted twice. *)
Theorem CopyPartition_spec g P : undirected g -> mapped g P ->
  exists g' Q, CopyPartition g P = Ok (g', Q) /\ undirected g' /\ same_but_group g g' /\ (forall i n m, nth_error g i = Some n -> nth_error g' i = Some m -> ggroup m = ggroup n) /\
    abs Q = abs P /\ names Q = names P /\ cells_right g' Q /\
    forall G, In G Q -> psize G = Z.of_nat (length (members G)) /\ pin G = Z.of_nat (2 * links_in g (members G)) /\ ptot G = Z.of_nat (links_out g (members G)) /\
      pout G = (Z.of_nat (links_out g (members G)) - Z.of_nat (2 * links_in g (members G)))%Z.
Proof.
  intros U M. destruct (copy_groups g U P g [] (fun G l => mapped_at g P G l M) (sc_refl g) U) as (g1 & Q & E & S & U1 & F). cbn [app] in E.
  assert (GD : good (abs P)) by (apply good_map; split; [|split]; apply M).
  assert (EA : abs Q = abs P).
  { clear - F. unfold abs. induction F as [|G H P Q (E1 & E2 & _) _ IH]; auto. cbn [map]. now rewrite IH, E1, E2. }
  assert (HC : cells_right g Q). { intros H l HH Hl. destruct (F2_in _ _ _ _ F HH) as (G & _ & _ & C). apply C; auto. }
  exists g1, Q. splits; auto.
  - now apply sc_sbg.
  - intros i n m En Em. rewrite <- (group_of_at g i n En), <- (group_of_at g1 i m Em). now apply sc_group.
  - now rewrite (names_abs g Q HC), (names_abs g P (mp_cells _ _ M)), EA.
  - intros H l HH Hl. destruct (HC H l HH Hl) as (i & n & Q1 & Q2 & Q3 & Q4). destruct (F2_nth _ _ _ _ _ S Q2) as (m & Em & Hm). exists i, m. splits; auto. rewrite Q4. apply Hm.
  - intros H HH. destruct (F2_in _ _ _ _ F HH) as (G & HG & EL & (C1 & C2 & C3 & C4 & C5 & C5' & _)).
    assert (HM : forall i, In i (members G) -> i < length g).
    { intros i Hi. apply targets_In in Hi as (l & Hl & El). destruct (mapped_at g P G l M HG Hl) as (j & Q1 & Q2 & _). rewrite El in Q1. injection Q1 as <-. auto. }
    destruct (links_twice g (members G) U (mp_once _ _ M G HG) HM) as [L1 L2]. pose proof (links_out_eq g (members G)) as L3.
    assert (Hin : forall j, j < length g -> in_grp g (plabel G) j = mem j (members G)).
    { intros j Lj. apply (in_grp_home g P G j GD); auto. intros i Li. destruct (nth_ex g i Li) as [n En]. rewrite (group_of_at g i n En). apply (mp_group _ _ M i n En). }
    assert (E3 : pin H = Z.of_nat (2 * links_in g (members G))).
    { rewrite C3, EL. f_equal. rewrite <- L1. apply lsum_ext. intros i Hi. apply count_ext. intros j Hj. apply Hin. apply (nbrs_lt g i j (un_wf g U) Hj). }
    rewrite C1. rewrite E3, L2 in C4. rewrite C2, E3, C4. splits; auto; [lia|]. destruct (members G) as [|x S'] eqn:ES.
    + rewrite C5' by auto. destruct (links_nil g) as (-> & _ & ->). lia.
    + rewrite C5, C4, E3 by discriminate. lia.
Qed.
(** Mapped to the network again the copy is as good as the original. *)
Theorem Copy_then_map g P : undirected g -> mapped g P -> NoDup (map glabel g) ->
  exists g' Q g'' Q', CopyPartition g P = Ok (g', Q) /\ MapPartToNet (g', Q) = Ok (g'', Q') /\ undirected g'' /\ same_but_group g g'' /\ mapped g'' Q' /\ abs Q' = abs P /\ names Q' = names P.
Proof.
  intros U M ND. destruct (CopyPartition_spec g P U M) as (g1 & Q & E & U1 & S1 & _ & EA & EN & HC & HQ).
  assert (HN : nameable g1 Q).
  { pose proof (good_map P) as [_ GP]. assert (GD : good (abs Q)) by (rewrite EA; apply good_map; split; [|split]; apply M). apply good_map in GD as (D1 & D2 & D3).
    split; auto.
    - now rewrite (sbg_labels g g1 S1).
    - intros G l HG Hl. destruct (HC G l HG Hl) as (i & n & _ & Q2 & _ & ->). apply in_map_iff. exists n. split; auto. eapply nth_error_In; eauto.
    - assert (EF : flat_map (fun G => map llabel (pnodes G)) Q = map (label_of g1) (flat_map members Q)).
      { pose proof (names_abs g1 Q HC) as EQ. apply (f_equal (flat_map (snd (B := _)))) in EQ. unfold names, abs in EQ.
        rewrite !flat_map_concat_map, !map_map in EQ. cbn [snd] in EQ. rewrite flat_map_concat_map, EQ. rewrite flat_map_concat_map, concat_map, !map_map. reflexivity. }
      rewrite EF. assert (HL : forall i, In i (flat_map members Q) -> i < length g1).
      { intros i Hi. apply in_flat_map in Hi as (G & HG & Hi). apply targets_In in Hi as (l & Hl & El). destruct (HC G l HG Hl) as (j & n & Q1 & Q2 & _). rewrite El in Q1. injection Q1 as <-. eapply nth_lt; eauto. }
      assert (NF : NoDup (flat_map members Q)).
      { clear - D1 D2 D3. induction Q as [|G Q IH]; [constructor|]. cbn [flat_map]. inversion D1; subst. apply NoDup_app_iff. splits; [apply D2; simpl; auto|apply IH; auto; intros; [apply D2|eapply D3]; simpl; eauto|].
        intros i Hi Hi'. apply in_flat_map in Hi' as (G' & HG' & Hi'). apply H1. rewrite (D3 G G' i) by (simpl; auto). now apply in_map. }
      assert (ND1 : NoDup (map glabel g1)) by now rewrite (sbg_labels g g1 S1).
      clear - HL NF ND1. induction (flat_map members Q) as [|i S IH]; [constructor|]. inversion NF; subst. cbn [map]. constructor; [|apply IH; auto; intros; apply HL; simpl; auto].
      intros K. apply in_map_iff in K as (j & Ej & Hj). apply H1. rewrite <- (label_of_inj g1 j i); auto; apply HL; simpl; auto.
    - intros G HG. destruct (HQ G HG) as (-> & _). f_equal. unfold members. apply targets_length. apply Forall_forall. intros l Hl. destruct (HC G l HG Hl) as (i & n & Q1 & _). eauto. }
  destruct (MapPartToNet_mapped g1 Q U1 HN) as (g2 & Q2 & E2 & U2 & S2 & M2 & EN2).
  exists g1, Q, g2, Q2. splits; auto; [eapply sbg_trans; eauto| |congruence].
  rewrite <- EA. symmetry. apply (names_members g1 Q g2 Q2); auto; [now rewrite (sbg_labels g g1 S1)|exact (mp_cells _ _ M2)].
Qed.
End Any.

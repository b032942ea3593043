(** RoleProof.v -- participation coefficients, relative degrees and the role partitions. *)
From Coq Require Import List Arith ZArith Bool QArith Qcanon Lia Permutation.
From Verif Require Import Base Num ListLib NatSum QcSum ToolsProof RolesBounds IoModel GraphModel GraphSpec GraphProof GroupModel GroupSpec PairSum GroupProof GroupExact ModulesModel ModulesSpec ModulesMod ModulesMap ModulesCopy RoleModel RoleSpec.
Import ListNotations.
Local Open Scope nat_scope.

Section Any.
Context {A : Type} {ops : NumOps A}.
Implicit Types (g : net A) (P : gpart A).
Lemma mapped_sc g g' P : mapped g P -> same_cache g g' -> mapped g' P.
Proof.
  intros M S. pose proof (sc_sbg _ _ S) as B. destruct M as [H1 H2 H3 H4 H5 H6]. split; auto.
  - intros G l HG Hl. destruct (H4 G l HG Hl) as (j & n & E1 & E2 & E3 & E4). destruct (F2_nth _ _ _ _ _ B E2) as (m & Em & Hm). exists j, m. splits; auto. rewrite E4. apply Hm.
  - intros i m Em. destruct (nth_ex g i) as [n En]; [rewrite <- (sbg_length _ _ B); eapply nth_lt; eauto|].
    rewrite <- (group_of_at g' i m Em), (sc_group g g' i S), (group_of_at g i n En). auto.
  - intros G HG. apply (sbg_counts g g' G B). auto.
Qed.
Lemma mapped_group g P i : mapped g P -> i < length g -> group_of g i = home (abs P) i.
Proof. intros M Li. destruct (nth_ex g i Li) as [n En]. rewrite (group_of_at g i n En). apply (mp_group _ _ M i n En). Qed.
Lemma mapped_good g P : mapped g P -> good (abs P).
Proof. intros [H1 H2 H3 _ _ _]. apply good_map. auto. Qed.
Lemma ByNum_spec g i lab : wf_net g -> i < length g -> NLinksToGroupByNum g i lab = Ok (count (fun j => same_group (group_of g j) lab) (nbrs g i)).
Proof.
  intros W Li. destruct (nth_ex g i Li) as [n E]. unfold NLinksToGroupByNum. rewrite (get_ok _ _ _ E). cbn [bind]. rewrite (nbrs_eq g i n E).
  assert (H : forall ls c, (forall l, In l ls -> In l (gadj n)) ->
    foldM (fun c l => do j <- deref (lref l); do m <- get g j; Ok (if same_group (ggroup m) lab then c + 1 else c)) c ls =
    Ok (c + count (fun j => same_group (group_of g j) lab) (targets ls))).
  { induction ls as [|l ls IH]; intros c Hls; cbn [foldM]; [rewrite Nat.add_0_r; auto|].
    destruct (wf_link g W i n l E) as (j & m & E1 & E2 & _); [simpl in Hls; auto|]. rewrite E1. cbn [deref bind]. rewrite (get_ok _ _ _ E2). cbn [bind].
    rewrite IH by (intros; apply Hls; simpl; auto). f_equal. cbn [targets flat_map]. rewrite E1. cbn [app]. rewrite count_cons, (group_of_at g j m E2).
    unfold targets. destruct (same_group (ggroup m) lab); lia. }
  apply (H _ 0). auto.
Qed.
End Any.

Section Exact.
Variables ex sq : Qc -> Qc.
#[local] Instance opsO : NumOps Qc := Qc_ops ex sq.
Implicit Types (g : net Qc) (P : gpart Qc).

Lemma weight_to_s N f i S : weight_to N f i S = s_to N f i S.
Proof. unfold weight_to, s_to. apply Qsum_filter. Qed.
Lemma weight_to_ext N f h i S : (forall j, f i j = h i j) -> weight_to N f i S = weight_to N h i S.
Proof. intros H. unfold weight_to. apply Qsum_ext. auto. Qed.
Lemma participation_ext N f h sets i : (forall j, f i j = h i j) -> participation N f sets i = participation N h sets i.
Proof.
  intros H. unfold participation. f_equal. apply Qsum_ext. intros S _. rewrite (weight_to_ext N f h i S H).
  replace (node_sum N h i) with (node_sum N f i); auto. unfold node_sum. apply Qsum_ext. auto.
Qed.
Lemma relative_ext N f h S i : (forall i j, f i j = h i j) -> relative sq N f S i = relative sq N h S i.
Proof.
  intros H. unfold relative. rewrite (map_ext (fun j => weight_to N f j S) (fun j => weight_to N h j S)) by (intros; apply weight_to_ext; auto).
  now rewrite (weight_to_ext N f h i S) by auto.
Qed.
Lemma unit_sbg g g' : same_but_group g g' -> forall i j, unit_weight g' i j = unit_weight g i j.
Proof. intros S i j. unfold unit_weight, linked. now rewrite (sbg_weight g g' i j S). Qed.
Lemma wt_sbg g g' : same_but_group g g' -> forall i j, wt g' i j = wt g i j.
Proof. intros S i j. unfold wt. now rewrite (sbg_weight g g' i j S). Qed.

Lemma same_sets N M j k : good M -> j < N -> k < N ->
  Qsum (fun S => if mem j S && mem k S then 1%Qc else 0%Qc) (map snd M ++ [homeless N M]) = if same_group (home M j) (home M k) then 1%Qc else 0%Qc.
Proof.
  intros GM Lj Lk. rewrite Qsum_app, Qsum_map. rewrite (over_groups2 M GM j k 1%Qc). cbn [Qsum].
  assert (E : forall x, x < N -> mem x (homeless N M) = match home M x with None => true | _ => false end).
  { intros x Lx. unfold homeless. destruct (mem_spec x (filter (fun i => match home M i with None => true | Some _ => false end) (seq 0 N))) as [H|H].
    - apply filter_In in H as [_ H]. now rewrite H.
    - destruct (home M x) eqn:Ex; auto. destruct H. apply filter_In. rewrite Ex. split; auto. apply in_seq. lia. }
  rewrite !E by auto. unfold same_home, same_group. destruct (home M j), (home M k); cbn [andb]; try ring; destruct (_ =? _); ring.
Qed.
Lemma count_nbrs g i (p : nat -> bool) : Qc_of_nat (count p (nbrs g i)) = Qsum (fun j => if p j then 1%Qc else 0%Qc) (nbrs g i).
Proof. induction (nbrs g i) as [|j l IH]; auto. rewrite count_cons, Qc_of_nat_add, IH. cbn [Qsum]. destruct (p j); reflexivity. Qed.
Lemma weight_to_nbrs g i S : wf_net g -> weight_to (length g) (unit_weight g) i S = Qsum (fun j => if mem j S then 1%Qc else 0%Qc) (nbrs g i).
Proof.
  intros W. rewrite weight_to_s. unfold s_to. rewrite (Qsum_nbrs g i _ W). apply Qsum_ext. intros j _. unfold unit_weight. destruct (mem j S), (linked g i j); auto.
Qed.
Definition sets_of g P := map snd (abs P) ++ [homeless (length g) (abs P)].

Theorem Participation_value g P i : undirected g -> mapped g P -> i < length g ->
  exists g', ParticipationCoefficient g i = Ok (match nbrs g i with [] => 0%Qc | _ => participation (length g) (unit_weight g) (sets_of g P) i end, g') /\
    same_cache g g' /\ undirected g' /\ (forall j, option_map (@gstr Qc) (nth_error g' j) = option_map (@gstr Qc) (nth_error g j)).
Proof.
  intros U M Li. destruct (NodeDegree_cache g i U Li) as (g1 & E1 & S1 & U1 & T1). unfold ParticipationCoefficient. rewrite E1. cbn [bind].
  exists g1. split; [|splits; auto]. pose proof (un_wf g1 U1) as W1. pose proof (un_wf g U) as W. pose proof (sc_sbg _ _ S1) as B1.
  assert (Ed : degree g i = length (nbrs g i)) by reflexivity.
  destruct (Nat.eqb_spec (degree g i) 0) as [E0|E0].
  { rewrite Ed in E0. destruct (nbrs g i); [reflexivity|discriminate]. }
  assert (L1 : i < length g1) by (rewrite (sbg_length g g1 B1); auto). destruct (nth_ex g1 i L1) as [m1 En1]. rewrite (get_ok _ _ _ En1). cbn [bind].
  set (k := fun j => count (fun x => same_group (group_of g x) (group_of g j)) (nbrs g i)).
  assert (H : forall ls s, (forall l, In l ls -> In l (gadj m1)) ->
    foldM (fun q l => do j <- deref (lref l); do m <- get g1 j; do k <- NLinksToGroupByNum g1 i (ggroup m);
      Ok (nadd q (ndiv (nofnat k) (nofnat (degree g i * degree g i))))) s ls =
    Ok (s + Qsum (fun j => Qc_of_nat (k j) / Qc_of_nat (degree g i * degree g i)) (targets ls))%Qc).
  { induction ls as [|l ls IH]; intros s Hls; cbn [foldM]; [f_equal; cbn; ring|].
    destruct (wf_link g1 W1 i m1 l En1) as (j & m & F1 & F2 & _); [simpl in Hls; auto|]. rewrite F1. cbn [deref bind]. rewrite (get_ok _ _ _ F2). cbn [bind].
    rewrite (ByNum_spec g1 i (ggroup m) W1 L1). cbn [bind]. rewrite IH by (intros; apply Hls; simpl; auto). f_equal. cbn [targets flat_map]. rewrite F1. cbn [app Qsum].
    replace (count (fun x => same_group (group_of g1 x) (ggroup m)) (nbrs g1 i)) with (k j).
    - cbn [nadd ndiv nofnat opsO Qc_ops]. unfold targets. ring.
    - unfold k. rewrite (sbg_nbrs g g1 i B1). apply count_ext. intros x _. rewrite (sc_group g g1 x S1). now rewrite <- (group_of_at g1 j m F2), (sc_group g g1 j S1). }
  rewrite H by auto. cbn [bind]. rewrite <- (nbrs_eq g1 i m1 En1), (sbg_nbrs g g1 i B1).
  rewrite Qcplus_0_l. replace (match nbrs g i with [] => 0%Qc | _ => participation (length g) (unit_weight g) (sets_of g P) i end) with (participation (length g) (unit_weight g) (sets_of g P) i)
    by (rewrite Ed in E0; destruct (nbrs g i); [destruct (E0 eq_refl)|reflexivity]).
  f_equal. f_equal. unfold participation. cbn [nsub n1 opsO Qc_ops]. f_equal.
  pose proof (mapped_good g P M) as GM.
  assert (Hd : node_sum (length g) (unit_weight g) i = Qc_of_nat (degree g i)) by (symmetry; exact (degree_Qc g i W)).
  assert (Hn : (Qc_of_nat (degree g i) <> 0)%Qc) by (intros K; apply E0; apply Qc_of_nat_inj; exact K).
  transitivity (Qsum (fun j => Qsum (fun x => Qsum (fun S => (if mem x S && mem j S then 1 else 0)%Qc * / (Qc_of_nat (degree g i) * Qc_of_nat (degree g i)))%Qc (sets_of g P)) (nbrs g i)) (nbrs g i)).
  - apply Qsum_ext. intros j Hj. unfold k. rewrite count_nbrs, Qc_of_nat_mul. unfold Qcdiv. rewrite <- Qsum_scal_r. apply Qsum_ext. intros x Hx.
    rewrite Qsum_scal_r. f_equal. pose proof (nbrs_lt g i j W Hj) as Lj. pose proof (nbrs_lt g i x W Hx) as Lx. unfold sets_of. rewrite same_sets by (auto; tauto).
    now rewrite !(mapped_group g P) by (auto; tauto).
  - rewrite (Qsum_ext _ (fun j => Qsum (fun S => Qsum (fun x => (if mem x S && mem j S then 1 else 0)%Qc * / (Qc_of_nat (degree g i) * Qc_of_nat (degree g i)))%Qc (nbrs g i)) (sets_of g P))) by (intros; apply Qsum_swap).
    rewrite Qsum_swap. apply Qsum_ext. intros S _. rewrite Hd, (weight_to_nbrs g i S W).
    replace (Qsum (fun j => if mem j S then 1%Qc else 0%Qc) (nbrs g i) / Qc_of_nat (degree g i) * (Qsum (fun j => if mem j S then 1%Qc else 0%Qc) (nbrs g i) / Qc_of_nat (degree g i)))%Qc
      with ((Qsum (fun j => if mem j S then 1%Qc else 0%Qc) (nbrs g i) * Qsum (fun j => if mem j S then 1%Qc else 0%Qc) (nbrs g i)) * / (Qc_of_nat (degree g i) * Qc_of_nat (degree g i)))%Qc by (field; auto).
    rewrite Qsum_prod, <- Qsum_scal_r. apply Qsum_ext. intros j _. rewrite <- Qsum_scal_r. apply Qsum_ext. intros x _. rewrite andb_comm. destruct (mem j S), (mem x S); cbn [andb]; ring.
Qed.

(** * Relative degrees and strengths *)
Lemma zscore_value (to : nat -> res Qc) (x : nat -> Qc) i (G : grp Qc) : psize G = Z.of_nat (length (members G)) ->
  (forall l, In l (pnodes G) -> exists j, lref l = Some j) -> (forall j, In j (members G) -> to j = Ok (x j)) -> In i (members G) ->
  zscore_in to i G = Ok (let d := map x (members G) in
    if Qc_eq_dec (sq (variance d)) 0 then 0%Qc else ((x i - Qsum (fun y => y) d / Qc_of_nat (length d)) / sq (variance d))%Qc).
Proof.
  intros Hs Hc Ht Hi. unfold zscore_in.
  assert (H : forall ls a b, (forall l, In l ls -> In l (pnodes G)) ->
    foldM (fun '(km, k2) l => do j <- deref (lref l); do x <- to j; Ok (nadd km x, nadd k2 (nmul x x))) (a, b) ls =
    Ok ((a + Qsum x (targets ls))%Qc, (b + Qsum (fun j => x j * x j) (targets ls))%Qc)).
  { induction ls as [|l ls IH]; intros a b Hls; cbn [foldM]; [f_equal; f_equal; cbn; ring|].
    destruct (Hc l) as [j E]; [apply Hls; simpl; auto|]. rewrite E. cbn [deref bind]. rewrite Ht. 2: { apply targets_In. exists l. split; auto. apply Hls; simpl; auto. }
    cbn [bind]. rewrite IH by (intros; apply Hls; simpl; auto). cbn [targets flat_map]. rewrite E. cbn [app Qsum]. unfold targets. cbn [nadd nmul opsO Qc_ops]. f_equal. f_equal; ring. }
  rewrite (H (pnodes G) n0 n0) by auto. cbn [bind]. cbn [n0 opsO Qc_ops]. rewrite !Qcplus_0_l. fold (members G). rewrite Hs. change (zA (Z.of_nat (length (members G)))) with (Qc_of_nat (length (members G))). cbn [ndiv opsO Qc_ops].
  set (d := map x (members G)). assert (Hd : d <> []) by (unfold d; destruct (members G); [destruct Hi|discriminate]).
  assert (Ld : length d = length (members G)) by (unfold d; apply map_length).
  assert (E1 : Qsum x (members G) = Qsum (fun y => y) d) by (unfold d; now rewrite Qsum_map).
  assert (E2 : Qsum (fun j => (x j * x j)%Qc) (members G) = Qsum (fun y => (y * y)%Qc) d) by (unfold d; now rewrite Qsum_map).
  rewrite E1, E2, <- Ld. cbv zeta. cbn [nsub nmul nsqrt opsO Qc_ops]. rewrite <- (variance_alt d Hd). change (neqb (sq (variance d)) 0%Qc) with (if Qc_eq_dec (sq (variance d)) 0%Qc then true else false).
  destruct (Qc_eq_dec (sq (variance d)) 0) as [K|K]; auto. rewrite (Ht i Hi). cbn [bind]. reflexivity.
Qed.
Lemma in_grp_mapped g P G j : mapped g P -> In G P -> j < length g -> in_grp g (plabel G) j = mem j (members G).
Proof.
  intros M HG Lj. destruct (In_nth_error _ _ HG) as [k Ek].
  apply (in_grp_home g P G j (mapped_good g P M)); auto. intros i Li. now apply mapped_group.
Qed.
Lemma mapped_cells g P G : mapped g P -> In G P -> forall l, In l (pnodes G) -> exists j, lref l = Some j.
Proof. intros M HG l Hl. destruct (mp_cells _ _ M G l HG Hl) as (j & n & E & _). eauto. Qed.
Lemma mapped_lt g P G i : mapped g P -> In G P -> In i (members G) -> i < length g.
Proof. intros M HG Hi. eapply (cells_lt g P G i); eauto. intros G' l H1 H2. exact (mp_cells _ _ M G' l H1 H2). Qed.
Theorem RelativeDegree_value g P G i : undirected g -> mapped g P -> In G P -> In i (members G) ->
  WithinModuleRelativeDegree g i G = Ok (relative sq (length g) (unit_weight g) (members G) i).
Proof.
  intros U M HG Hi. unfold WithinModuleRelativeDegree, relative. apply (zscore_value _ (fun j => weight_to (length g) (unit_weight g) j (members G))); auto.
  - apply (mp_counts _ _ M G HG).
  - exact (mapped_cells g P G M HG).
  - intros j Hj. pose proof (mapped_lt g P G j M HG Hj) as Lj. rewrite (NLinksToGroup_spec g j (plabel G) (un_wf g U) Lj). cbn [bind nofnat opsO Qc_ops]. f_equal.
    rewrite (weight_to_nbrs g j (members G) (un_wf g U)). cbn [nofnat opsO Qc_ops]. rewrite count_nbrs. apply Qsum_ext. intros x Hx. rewrite (in_grp_mapped g P G x M HG); auto. apply (nbrs_lt g j x (un_wf g U) Hx).
Qed.
Lemma StrengthTo_value g P G i : undirected g -> mapped g P -> In G P -> i < length g -> StrengthToGroup g i (plabel G) = Ok (weight_to (length g) (wt g) i (members G)).
Proof.
  intros U M HG Li. destruct (nth_ex g i Li) as [n En]. rewrite (StrengthToGroup_spec g i n (plabel G) (un_wf g U) En). f_equal. rewrite weight_to_s.
  apply (sum_to_exact ex sq g i n); auto. intros j Hj. apply (in_grp_mapped g P G j M HG). apply (nbrs_lt g i j (un_wf g U) Hj).
Qed.
Theorem RelativeStrength_value g P G i : undirected g -> mapped g P -> In G P -> In i (members G) ->
  WithinModuleRelativeStrength g i G = Ok (relative sq (length g) (wt g) (members G) i).
Proof.
  intros U M HG Hi. unfold WithinModuleRelativeStrength, relative. apply (zscore_value _ (fun j => weight_to (length g) (wt g) j (members G))); auto.
  - apply (mp_counts _ _ M G HG).
  - exact (mapped_cells g P G M HG).
  - intros j Hj. apply (StrengthTo_value g P); auto. exact (mapped_lt g P G j M HG Hj).
Qed.
Theorem WeightedParticipation_value g P i : undirected g -> strengths_cached g -> mapped g P -> i < length g ->
  (nbrs g i <> [] -> node_sum (length g) (wt g) i <> 0%Qc) ->
  exists g', WeightedParticipationCoefficient g i P = Ok (match nbrs g i with [] => 0%Qc | _ => participation (length g) (wt g) (map snd (abs P)) i end, g') /\
    same_cache g g' /\ undirected g' /\ strengths_cached g'.
Proof.
  intros U X M Li HS. destruct (NodeStrength_cache g i U Li) as (s & g1 & E1 & S1 & U1). unfold WeightedParticipationCoefficient. rewrite E1. cbn [bind].
  destruct (nth_ex g i Li) as [n En]. destruct (NodeStrength_exact ex sq g i n s g1 En X E1) as [Es X1]. pose proof (sc_sbg _ _ S1) as B1.
  assert (L1 : i < length g1) by (rewrite (sbg_length g g1 B1); auto).
  destruct (NodeDegree_cache g1 i U1 L1) as (g2 & E2 & S2 & U2 & T2). rewrite E2. cbn [bind]. assert (X2 : strengths_cached g2) by exact (E_cache g1 g2 X1 S2 T2).
  pose proof (sc_trans _ _ _ S1 S2) as S12. pose proof (sc_sbg _ _ S12) as B12. exists g2. split; [|splits; auto].
  assert (Ed : degree g1 i = length (nbrs g i)) by (unfold degree; now rewrite (sbg_nbrs g g1 i B1)). rewrite Ed.
  destruct (nbrs g i) as [|a ns] eqn:En0; [reflexivity|]. cbn [length Nat.eqb].
  assert (Hs : s = node_sum (length g) (wt g) i) by (rewrite Es; exact (strength_sum g i n (un_wf g U) En)).
  assert (Hne : node_sum (length g) (wt g) i <> 0%Qc) by (apply HS; discriminate).
  pose proof (mapped_sc g g2 P M S12) as M2.
  assert (H : forall Q a, (forall G, In G Q -> In G P) -> foldM (fun s0 G => do w <- StrengthToGroup g2 i (plabel G); Ok (nadd s0 (ndiv (nmul w w) (nmul s s)))) a Q =
    Ok (a + Qsum (fun G => weight_to (length g) (wt g) i (members G) / s * (weight_to (length g) (wt g) i (members G) / s)) Q)%Qc).
  { induction Q as [|G Q IH]; intros b HQ; cbn [foldM Qsum]; [f_equal; ring|].
    rewrite (StrengthTo_value g2 P G i U2 M2) by (try (rewrite (sbg_length g g2 B12)); auto; apply HQ; simpl; auto). cbn [bind]. rewrite IH by (intros; apply HQ; simpl; auto).
    rewrite (sbg_length g g2 B12), (weight_to_ext _ (wt g2) (wt g)) by (intros; apply wt_sbg; auto). f_equal. cbn [nadd ndiv nmul opsO Qc_ops]. rewrite Hs. field. auto. }
  rewrite (H P n0) by auto. cbn [bind]. f_equal. f_equal. unfold participation. cbn [nsub n1 n0 opsO Qc_ops]. rewrite Qcplus_0_l. f_equal.
  rewrite Qsum_map. rewrite <- (Qsum_abs (fun p => (weight_to (length g) (wt g) i (snd p) / node_sum (length g) (wt g) i * (weight_to (length g) (wt g) i (snd p) / node_sum (length g) (wt g) i))%Qc)).
  now rewrite Hs.
Qed.
End Exact.

(** * The role partition *)
Section Catalog.
Variables ex sq : Qc -> Qc.
#[local] Instance opsC : NumOps Qc := Qc_ops ex sq.
Variable g1 : net Qc.
Variable mods : gpart Qc.
Variable X : net Qc -> Prop.
Variable Pf : net Qc -> nat -> res (Qc * net Qc).
Variable Zf : net Qc -> nat -> grp Qc -> res Qc.
Variable rho : nat -> nat.
Hypothesis Hlab : forall i n, nth_error g1 i = Some n -> length (glabel n) < max_label.
Hypothesis Hcell : forall G l, In G mods -> In l (pnodes G) -> exists i, lref l = Some i /\ i < length g1.
Hypothesis Hval : forall g G i, same_cache g1 g -> X g -> In G mods -> In i (members G) ->
  exists P z g', Pf g i = Ok (P, g') /\ Zf g' i G = Ok z /\ same_cache g1 g' /\ X g' /\ PartModel.GetRole P z = rho i /\ rho i < 7.

Definition soft_cell (i : nat) : link Qc := mkLink 0 (label_of g1 i) 0 None 0%Qc 0%Qc.
Definition soft_group (vs : list nat) (r : nat) : grp Qc :=
  let c := filter (fun i => rho i =? r) vs in mkGroup r (Z.of_nat (length c)) 0 0 0 0%Qc 0%Qc 0%Qc (map soft_cell c).
Definition soft_roles (vs : list nat) : gpart Qc := map (soft_group vs) (seq 0 7).
Lemma soft_nil : fold_left (fun Q i => snd (CreateGroup Q i)) (seq 0 7) [] = soft_roles [].
Proof. reflexivity. Qed.
Lemma soft_add vs i n : nth_error g1 i = Some n -> rho i < 7 -> AddNodeToGroupSoft (soft_roles vs) (rho i) (glabel n) = Ok (soft_roles (vs ++ [i])).
Proof.
  intros En Lr. unfold AddNodeToGroupSoft, store_label. rewrite (proj2 (Nat.ltb_lt _ _) (Hlab i n En)). cbn [check bind].
  assert (Ej : forall us j, j < 7 -> nth_error (soft_roles us) j = Some (soft_group us j)).
  { intros us j Lj. unfold soft_roles. rewrite nth_error_map, (nth_error_seq 0 7 j Lj). reflexivity. }
  assert (L7 : forall us, length (soft_roles us) = 7) by (intros us; unfold soft_roles; now rewrite map_length, seq_length).
  rewrite (get_ok _ _ _ (Ej vs _ Lr)). cbn [bind]. rewrite set_ok by (rewrite L7; auto). f_equal.
  apply nth_ext. intros j. rewrite nth_upd, L7, (proj2 (Nat.ltb_lt _ _) Lr), andb_true_r. destruct (Nat.eqb_spec j (rho i)) as [->|Hj].
  - rewrite Ej by auto. f_equal. unfold soft_group. cbn [plabel psize ptot pin pout ptotW pinW poutW pnodes]. rewrite filter_app. cbn [filter]. rewrite Nat.eqb_refl, app_length, map_app.
    cbn [length map]. rewrite Nat2Z.inj_add. change (Z.of_nat 1) with 1%Z. unfold soft_cell at 3, label_of. rewrite En. reflexivity.
  - destruct (Nat.lt_ge_cases j 7) as [L|L].
    + rewrite !Ej by auto. f_equal. unfold soft_group. rewrite filter_app. cbn [filter]. destruct (Nat.eqb_spec (rho i) j) as [E|_]; [congruence|]. now rewrite app_nil_r.
    + rewrite !(proj2 (nth_error_None _ _)); auto; rewrite L7; auto.
Qed.
Definition role_step G : net Qc * gpart Qc -> link Qc -> res (net Qc * gpart Qc) := fun '(g, roles) l =>
  do i <- deref (lref l);
  do (P, g) <- Pf g i;
  do z <- Zf g i G;
  do n <- get g i;
  do roles <- AddNodeToGroupSoft roles (PartModel.GetRole P z) (glabel n);
  Ok (g, roles).
Lemma role_cells G : In G mods -> forall ls g vs, (forall l, In l ls -> In l (pnodes G)) -> same_cache g1 g -> X g ->
  exists g', foldM (role_step G) (g, soft_roles vs) ls = Ok (g', soft_roles (vs ++ targets ls)) /\ same_cache g1 g' /\ X g'.
Proof.
  intros HG. induction ls as [|l ls IH]; intros g vs Hls S HX; [exists g; cbn [foldM targets flat_map]; rewrite app_nil_r; auto|].
  destruct (Hcell G l HG (Hls l (or_introl eq_refl))) as (i & El & Li).
  assert (Hi : In i (members G)) by (apply targets_In; exists l; split; auto; apply Hls; simpl; auto).
  destruct (Hval g G i S HX HG Hi) as (P & z & g' & E1 & E2 & S' & X' & Er & Lr).
  destruct (nth_ex g1 i Li) as [n En]. destruct (F2_nth _ _ _ _ _ S' En) as (m & Em & Hm).
  destruct (IH g' (vs ++ [i])) as (g2 & F1 & F2 & F3); auto. { intros; apply Hls; simpl; auto. }
  exists g2. split; auto. cbn [foldM]. unfold role_step at 1. rewrite El. cbn [deref bind]. rewrite E1. cbn [bind]. rewrite E2. cbn [bind]. rewrite (get_ok _ _ _ Em). cbn [bind].
  rewrite Er. replace (glabel m) with (glabel n) by apply Hm. rewrite (soft_add vs i n En Lr). cbn [bind]. rewrite F1. cbn [targets flat_map]. rewrite El, <- app_assoc. reflexivity.
Qed.
Lemma role_groups : forall Q g vs, (forall G, In G Q -> In G mods) -> same_cache g1 g -> X g ->
  exists g', foldM (fun '(g, roles) G => foldM (role_step G) (g, roles) (pnodes G)) (g, soft_roles vs) Q = Ok (g', soft_roles (vs ++ flat_map (@members Qc) Q)) /\ same_cache g1 g' /\ X g'.
Proof.
  induction Q as [|G Q IH]; intros g vs HQ S HX; [exists g; cbn [foldM flat_map]; rewrite app_nil_r; auto|].
  destruct (role_cells G (HQ G (or_introl eq_refl)) (pnodes G) g vs) as (g' & E & S' & X'); auto.
  destruct (IH g' (vs ++ members G)) as (g2 & F1 & F2 & F3); auto. { intros; apply HQ; simpl; auto. }
  exists g2. split; auto. cbn [foldM flat_map]. rewrite E. cbn [bind]. fold (members G). rewrite F1, <- app_assoc. reflexivity.
Qed.

Hypothesis Hmap : mapped g1 mods.
Hypothesis Hnames : NoDup (map glabel g1).
Lemma NoDup_flat {Y Z} (h : Y -> list Z) (l : list Y) : NoDup l -> (forall y, In y l -> NoDup (h y)) -> (forall y y' z, In y l -> In y' l -> In z (h y) -> In z (h y') -> y = y') -> NoDup (flat_map h l).
Proof.
  induction l as [|y l IH]; intros ND H1 H2; cbn [flat_map]; [constructor|]. inversion ND; subst. apply NoDup_app_iff. splits.
  - apply H1; simpl; auto.
  - apply IH; auto; [intros; apply H1; simpl; auto|]. intros y0 y' z Hy Hy'. apply H2; simpl; auto.
  - intros z Hz Hz'. apply in_flat_map in Hz' as (y' & Hy' & Hz'). assert (y = y') by (apply (H2 y y' z); simpl; auto). subst. contradiction.
Qed.
Lemma NoDup_labels {Y} (p : Y -> nat) (l : list Y) : NoDup (map p l) -> NoDup l.
Proof. apply NoDup_map_inv. Qed.
Definition placed := flat_map (@members Qc) mods.
Lemma placed_lt i : In i placed -> i < length g1.
Proof. intros H. apply in_flat_map in H as (G & HG & Hi). eapply mapped_lt; eauto. Qed.
Lemma placed_NoDup : NoDup placed.
Proof.
  apply NoDup_flat.
  - apply (NoDup_labels plabel). apply Hmap.
  - intros G HG. apply (mp_once _ _ Hmap G HG).
  - intros G H i HG HH Hi Hi'. pose proof (mp_disjoint _ _ Hmap G H i HG HH Hi Hi') as E.
    pose proof (mp_labels _ _ Hmap) as ND. clear - ND E HG HH. induction mods as [|K Q IH]; [destruct HG|]. cbn [map] in ND. inversion ND; subst.
    destruct HG as [<-|HG], HH as [<-|HH]; auto.
    + exfalso. apply H2. rewrite E. now apply in_map.
    + exfalso. apply H2. rewrite <- E. now apply in_map.
Qed.
Lemma placed_home i : i < length g1 -> (In i placed <-> home (abs mods) i <> None).
Proof.
  intros Li. pose proof (mapped_good g1 mods Hmap) as GM. split.
  - intros H. apply in_flat_map in H as (G & HG & Hi). rewrite (proj2 (home_iff (abs mods) i (plabel G) GM)); [discriminate|]. exists (members G). split; auto. apply in_abs. eauto.
  - intros H. destruct (home (abs mods) i) as [lab|] eqn:E; [|congruence]. apply (home_iff _ _ _ GM) in E as (l & Hl & Hi). apply in_abs in Hl as (G & HG & _ & <-). apply in_flat_map. eauto.
Qed.
Lemma label_at i n : nth_error g1 i = Some n -> label_of g1 i = glabel n.
Proof. unfold label_of. now intros ->. Qed.
Lemma soft_nameable g : same_but_group g1 g -> nameable g (soft_roles placed).
Proof.
  intros S. split.
  - rewrite (sbg_labels g1 g S). auto.
  - unfold soft_roles. rewrite map_map. rewrite (map_ext _ (fun r => r)) by reflexivity. rewrite map_id. apply seq_NoDup.
  - intros G l HG Hl. unfold soft_roles in HG. apply in_map_iff in HG as (r & <- & _). cbn [soft_group pnodes] in Hl. apply in_map_iff in Hl as (i & <- & Hi). apply filter_In in Hi as [Hi _].
    rewrite (sbg_labels g1 g S). cbn [soft_cell llabel]. destruct (nth_ex g1 i (placed_lt i Hi)) as [n En]. rewrite (label_at i n En). apply in_map. eapply nth_error_In; eauto.
  - unfold soft_roles. rewrite flat_map_concat_map, map_map, <- flat_map_concat_map. 
    rewrite (flat_map_ext _ (fun r => map (label_of g1) (filter (fun i => rho i =? r) placed))) by (intros r; cbn [soft_group pnodes]; rewrite map_map; reflexivity).
    apply NoDup_flat; [apply seq_NoDup| |].
    + intros r _. assert (Hin : forall l, NoDup l -> (forall i, In i l -> i < length g1) -> NoDup (map (label_of g1) l)).
      { induction l as [|i l IH]; intros ND Hl; cbn [map]; [constructor|]. inversion ND; subst. constructor; [|apply IH; auto; intros; apply Hl; simpl; auto].
        intros K. apply in_map_iff in K as (j & Ej & Hj). apply (label_of_inj g1) in Ej; auto; [subst; contradiction| |]; apply Hl; simpl; auto. }
      apply Hin; [apply NoDup_filter, placed_NoDup|]. intros i Hi. apply filter_In in Hi as [Hi _]. now apply placed_lt.
    + intros r r' z _ _ Hz Hz'. apply in_map_iff in Hz as (i & <- & Hi). apply in_map_iff in Hz' as (j & Ej & Hj). apply filter_In in Hi as [Hi Ei]. apply filter_In in Hj as [Hj Er].
      apply (label_of_inj g1) in Ej; auto using placed_lt. subst j. apply Nat.eqb_eq in Ei, Er. congruence.
  - intros G HG. unfold soft_roles in HG. apply in_map_iff in HG as (r & <- & _). cbn [soft_group psize pnodes]. now rewrite map_length.
Qed.
Definition role_sets : groups := map (fun r => (r, filter (fun i => rho i =? r) placed)) (seq 0 7).
Definition catalog : res (net Qc * gpart Qc * gpart Qc) :=
  do (g, roles) <- foldM (fun '(g, roles) G => foldM (role_step G) (g, roles) (pnodes G)) (g1, fold_left (fun Q i => snd (CreateGroup Q i)) (seq 0 7) []) mods;
  do (g, roles) <- MapPartToNet (g, roles);
  Ok (g, roles, mods).
Hypothesis X_und : forall g, X g -> undirected g.
Theorem catalog_run : X g1 -> exists g' roles, catalog = Ok (g', roles, mods) /\ undirected g' /\ same_but_group g1 g' /\ mapped g' roles /\ abs roles = role_sets.
Proof.
  intros HX. destruct (role_groups mods g1 []) as (g2 & E2 & S2 & X2); auto using sc_refl. unfold catalog. rewrite soft_nil, E2. cbn [bind app].
  pose proof (sc_sbg _ _ S2) as B2. destruct (MapPartToNet_mapped g2 (soft_roles placed) (X_und g2 X2) (soft_nameable g2 B2)) as (g3 & roles & E3 & U3 & B3 & M3 & N3).
  fold placed. rewrite E3. cbn [bind]. pose proof (sbg_trans _ _ _ B2 B3) as B13. exists g3, roles. splits; auto.
  set (fake := map (fun r => mkGroup r 0%Z 0%Z 0%Z 0%Z 0%Qc 0%Qc 0%Qc (map (fun i => mkLink i (label_of g1 i) 0 (Some i) 0%Qc 0%Qc) (filter (fun i => rho i =? r) placed))) (seq 0 7)).
  assert (Ef : abs fake = role_sets).
  { unfold fake, abs, role_sets. rewrite map_map. apply map_ext. intros r. cbn [plabel]. f_equal. unfold members. cbn [pnodes]. induction (filter (fun i => rho i =? r) placed) as [|i l IH]; auto. cbn [map targets flat_map lref app] in *. f_equal. exact IH. }
  rewrite <- Ef. symmetry. apply (names_members g1 fake g3 roles); auto.
  - intros G l HG Hl. unfold fake in HG. apply in_map_iff in HG as (r & <- & _). cbn [pnodes] in Hl. apply in_map_iff in Hl as (i & <- & Hi). apply filter_In in Hi as [Hi _].
    destruct (nth_ex g1 i (placed_lt i Hi)) as [n En]. exists i, n. splits; auto. cbn [llabel]. now apply label_at.
  - intros G l HG Hl. exact (mp_cells _ _ M3 G l HG Hl).
  - rewrite N3. unfold fake, soft_roles, names. rewrite !map_map. apply map_ext. intros r. cbn [plabel soft_group pnodes]. f_equal. rewrite !map_map. reflexivity.
Qed.
Lemma role_home (roles : gpart Qc) i (g : net Qc) : mapped g roles -> abs roles = role_sets -> i < length g1 -> (forall i, In i placed -> rho i < 7) ->
  home (abs roles) i = match home (abs mods) i with Some _ => Some (rho i) | None => None end.
Proof.
  intros M E Li Hr. pose proof (mapped_good g roles M) as GM. destruct (home (abs mods) i) as [lab|] eqn:Eh.
  - assert (Hi : In i placed) by (apply placed_home; [auto|congruence]). apply (home_iff _ _ _ GM). exists (filter (fun j => rho j =? rho i) placed). split.
    + rewrite E. unfold role_sets. apply in_map_iff. exists (rho i). split; auto. apply in_seq. pose proof (Hr i Hi). lia.
    + apply filter_In. split; auto. apply Nat.eqb_refl.
  - destruct (home (abs roles) i) as [r|] eqn:Er; auto. exfalso. apply (home_iff _ _ _ GM) in Er as (l & Hl & Hi). rewrite E in Hl. unfold role_sets in Hl. apply in_map_iff in Hl as (r' & [= _ <-] & _).
    apply filter_In in Hi as [Hi _]. apply placed_home in Hi; auto.
Qed.
End Catalog.

Section Roles.
Variables ex sq : Qc -> Qc.
#[local] Instance opsL : NumOps Qc := Qc_ops ex sq.
Implicit Types (g : net Qc) (P : gpart Qc).
Definition set_at (M : groups) (i : nat) : list nat := match find (fun x => mem i (snd x)) M with Some (_, T) => T | None => [] end.
Lemma set_at_members g P G i : mapped g P -> In G P -> In i (members G) -> set_at (abs P) i = members G.
Proof.
  intros M HG Hi. pose proof (mapped_good g P M) as GM. assert (HIn : In (plabel G, members G) (abs P)) by (apply in_abs; eauto).
  unfold set_at. destruct (find _ (abs P)) as [[lab T]|] eqn:E.
  - apply find_some in E as [E1 E2]. cbn [snd] in E2. apply mem_In in E2. pose proof (gd_disj _ GM lab T (plabel G) (members G) i E1 HIn E2 Hi) as ->.
    exact (lab_unique (abs P) _ _ _ (gd_lab _ GM) E1 HIn).
  - apply find_none with (x := (plabel G, members G)) in E; auto. cbn [snd] in E. apply mem_In in Hi. congruence.
Qed.
Definition rho_of g1 (f : nat -> nat -> Qc) (sets : list (list nat)) (M : groups) (i : nat) : nat :=
  PartModel.GetRole (match nbrs g1 i with [] => 0%Qc | _ => participation (length g1) f sets i end) (relative sq (length g1) f (set_at M i) i).
Lemma rho_lt g1 f sets M i : rho_of g1 f sets M i < 7.
Proof. unfold rho_of. match goal with |- PartModel.GetRole ?a ?b < 7 => pose proof (proj1 (role_range ex sq a b)) as H end. unfold opsL in *. unfold opsB in H. lia. Qed.
Definition roles_given g (f : nat -> nat -> Qc) (sets : list (list nat)) (M R : groups) : Prop :=
  map fst R = seq 0 7 /\
  forall i, i < length g -> match home M i with
    | None => home R i = None
    | Some lab => exists S r, In (lab, S) M /\ In i S /\ home R i = Some r /\ role_of sq g f sets S i r
    end.
Lemma roles_given_of g1 mods g' roles f sets : mapped g1 mods -> mapped g' roles -> abs roles = role_sets mods (rho_of g1 f sets (abs mods)) ->
  roles_given g1 f sets (abs mods) (abs roles).
Proof.
  intros M M' E. split.
  - rewrite E. unfold role_sets. rewrite map_map. cbn [fst]. apply map_id.
  - intros i Li. pose proof (role_home g1 mods (rho_of g1 f sets (abs mods)) M roles i g' M' E Li (fun j _ => rho_lt _ _ _ _ _)) as H.
    destruct (home (abs mods) i) as [lab|] eqn:Eh; auto. pose proof (mapped_good g1 mods M) as GM. apply (home_iff _ _ _ GM) in Eh as (S & HS & Hi).
    exists S, (rho_of g1 f sets (abs mods) i). splits; auto. apply in_abs in HS as (G & HG & _ & ES). subst S.
    unfold role_of, rho_of. rewrite (set_at_members g1 mods G i M HG Hi). exact (GetRole_box ex sq _ _).
Qed.
Lemma short_sbg g g1 : same_but_group g g1 -> (forall n, In n g -> length (glabel n) < max_label) -> forall i n, nth_error g1 i = Some n -> length (glabel n) < max_label.
Proof.
  intros B H i m E. destruct (nth_ex g i) as [n En]; [rewrite <- (sbg_length g g1 B); eapply nth_lt; eauto|]. destruct (F2_nth _ _ _ _ _ B En) as (m' & Em & Hm).
  rewrite E in Em. injection Em as <-. replace (glabel m) with (glabel n) by apply Hm. apply H. eapply nth_error_In; eauto.
Qed.

Theorem CatalogRoleIdent_roles g P : undirected g -> nameable g P -> (forall n, In n g -> length (glabel n) < max_label) ->
  exists g' roles mods g1, CatalogRoleIdent g P = Ok (g', roles, mods) /\ undirected g' /\ same_but_group g g' /\ mapped g' roles /\
    same_but_group g g1 /\ mapped g1 mods /\ names mods = names P /\
    roles_given g1 (unit_weight g1) (map snd (abs mods) ++ [homeless (length g1) (abs mods)]) (abs mods) (abs roles).
Proof.
  intros U HN HL. destruct (MapPartToNet_mapped g P U HN) as (g1 & mods & E1 & U1 & B1 & M1 & N1).
  set (rho := rho_of g1 (unit_weight g1) (sets_of g1 mods) (abs mods)).
  destruct (catalog_run ex sq g1 mods (fun g => undirected g) (fun g i => ParticipationCoefficient g i) (fun g i G => WithinModuleRelativeDegree g i G) rho) as (g' & roles & E2 & U2 & B2 & M2 & A2); auto.
  - exact (short_sbg g g1 B1 HL).
  - intros G l HG Hl. destruct (mp_cells _ _ M1 G l HG Hl) as (j & n & F1 & F2 & _). exists j. split; auto. eapply nth_lt; eauto.
  - intros ga G i S Ua HG Hi. pose proof (mapped_sc g1 ga mods M1 S) as Ma. pose proof (sc_sbg _ _ S) as Ba. pose proof (mapped_lt ga mods G i Ma HG Hi) as Li.
    destruct (Participation_value ex sq ga mods i Ua Ma Li) as (gb & F1 & Sb & Ub & _). pose proof (mapped_sc ga gb mods Ma Sb) as Mb. pose proof (sc_trans _ _ _ S Sb) as S1b. pose proof (sc_sbg _ _ S1b) as B1b.
    do 3 eexists. split; [exact F1|]. split; [exact (RelativeDegree_value ex sq gb mods G i Ub Mb HG Hi)|]. splits; auto; [|apply rho_lt].
    unfold rho, rho_of, sets_of. rewrite (set_at_members g1 mods G i M1 HG Hi). rewrite (sbg_nbrs g1 ga i Ba), (sbg_length g1 ga Ba), (sbg_length g1 gb B1b).
    rewrite (relative_ext sq _ (unit_weight gb) (unit_weight g1)) by (apply unit_sbg; auto).
    rewrite (participation_ext _ (unit_weight ga) (unit_weight g1)) by (apply unit_sbg; auto). reflexivity.
  - rewrite (sbg_labels g g1 B1). apply HN.
  - exists g', roles, mods, g1. splits; auto.
    + unfold CatalogRoleIdent. rewrite E1. cbn [bind]. exact E2.
    + eapply sbg_trans; eauto.
    + exact (roles_given_of g1 mods g' roles _ _ M1 M2 A2).
Qed.
Theorem CatalogRoleIdentStrength_roles g P : undirected g -> strengths_cached g -> nameable g P -> (forall n, In n g -> length (glabel n) < max_label) ->
  (forall i, nbrs g i <> [] -> node_sum (length g) (wt g) i <> 0%Qc) ->
  exists g' roles mods g1, CatalogRoleIdentStrength g P = Ok (g', roles, mods) /\ undirected g' /\ same_but_group g g' /\ mapped g' roles /\
    same_but_group g g1 /\ mapped g1 mods /\ names mods = names P /\
    roles_given g1 (wt g1) (map snd (abs mods)) (abs mods) (abs roles).
Proof.
  intros U C HN HL HS. destruct (MapPartToNet_weights ex sq g P U C HN) as (g1 & mods & E1 & U1 & C1 & B1 & M1 & _ & N1).
  set (rho := rho_of g1 (wt g1) (map snd (abs mods)) (abs mods)).
  destruct (catalog_run ex sq g1 mods (fun g => undirected g /\ strengths_cached g) (fun g i => WeightedParticipationCoefficient g i mods) (fun g i G => WithinModuleRelativeStrength g i G) rho) as (g' & roles & E2 & U2 & B2 & M2 & A2); auto; try tauto.
  - exact (short_sbg g g1 B1 HL).
  - intros G l HG Hl. destruct (mp_cells _ _ M1 G l HG Hl) as (j & n & F1 & F2 & _). exists j. split; auto. eapply nth_lt; eauto.
  - intros ga G i S [Ua Ca] HG Hi. pose proof (mapped_sc g1 ga mods M1 S) as Ma. pose proof (sc_sbg _ _ S) as Ba. pose proof (mapped_lt ga mods G i Ma HG Hi) as Li.
    assert (HSa : nbrs ga i <> [] -> node_sum (length ga) (wt ga) i <> 0%Qc).
    { intros Hne K. pose proof (sbg_trans _ _ _ B1 Ba) as B. apply (HS i); [now rewrite <- (sbg_nbrs g ga i B)|]. rewrite <- K, (sbg_length g ga B). unfold node_sum. apply Qsum_ext. intros j _. symmetry. apply wt_sbg; auto. }
    destruct (WeightedParticipation_value ex sq ga mods i Ua Ca Ma Li HSa) as (gb & F1 & Sb & Ub & Cb). pose proof (mapped_sc ga gb mods Ma Sb) as Mb. pose proof (sc_trans _ _ _ S Sb) as S1b. pose proof (sc_sbg _ _ S1b) as B1b.
    do 3 eexists. split; [exact F1|]. split; [exact (RelativeStrength_value ex sq gb mods G i Ub Mb HG Hi)|]. splits; auto; [|apply rho_lt].
    unfold rho, rho_of. rewrite (set_at_members g1 mods G i M1 HG Hi). rewrite (sbg_nbrs g1 ga i Ba), (sbg_length g1 ga Ba), (sbg_length g1 gb B1b).
    rewrite (relative_ext sq _ (wt gb) (wt g1)) by (apply wt_sbg; auto).
    rewrite (participation_ext _ (wt ga) (wt g1)) by (apply wt_sbg; auto). reflexivity.
  - rewrite (sbg_labels g g1 B1). apply HN.
  - exists g', roles, mods, g1. splits; auto.
    + unfold CatalogRoleIdentStrength. change (@MapPartToNet Qc opsL (g, P)) with (@MapPartToNet Qc (opsX ex sq) (g, P)). rewrite E1. cbn [bind]. exact E2.
    + eapply sbg_trans; eauto.
    + exact (roles_given_of g1 mods g' roles _ _ M1 M2 A2).
Qed.
End Roles.

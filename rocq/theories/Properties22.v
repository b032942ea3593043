(** Properties22.v -- roles, fast operations on groups, further ways to map a partition, statistics of partitions
    (src/modules.c): C118 to C128. *)
From Coq Require Import List Arith ZArith Lia Bool QArith Qcanon.
From Coq Require Import Strings.Ascii.
From Verif Require Import Base Num ListLib NatSum QcSum ToolsProof IoModel GraphModel GraphSpec GraphProof GroupModel GroupSpec GroupProof ModulesModel ModulesSpec ModulesMap ModulesCopy Refute IoProof
  MissSpec RoleModel RoleSpec RoleProof RoleFast RoleMore BlockSpec RoleBlock RoleSizes Properties21.
Import ListNotations.
Local Open Scope nat_scope.

Section Exact.
Variables ex sq : Qc -> Qc.
#[local] Instance ops22 : NumOps Qc := Qc_ops ex sq.

(** C118: CatalogRoleIdent gives every node of a group the role that its degree in and out of the group calls for. *)
Theorem C118_roles g P : undirected g -> nameable g P -> (forall n, In n g -> length (glabel n) < max_label) ->
  exists g' roles mods g1, CatalogRoleIdent g P = Ok (g', roles, mods) /\ undirected g' /\ same_but_group g g' /\ mapped g' roles /\
    same_but_group g g1 /\ mapped g1 mods /\ names mods = names P /\
    roles_given sq g1 (unit_weight g1) (map snd (abs mods) ++ [homeless (length g1) (abs mods)]) (abs mods) (abs roles).
Proof. exact (CatalogRoleIdent_roles ex sq g P). Qed.
Theorem C118_participation g P i : undirected g -> mapped g P -> i < length g ->
  exists g', ParticipationCoefficient g i = Ok (match nbrs g i with [] => 0%Qc | _ => participation (length g) (unit_weight g) (map snd (abs P) ++ [homeless (length g) (abs P)]) i end, g') /\
    same_cache g g' /\ undirected g' /\ (forall j, option_map (@gstr Qc) (nth_error g' j) = option_map (@gstr Qc) (nth_error g j)).
Proof. exact (Participation_value ex sq g P i). Qed.
Theorem C118_relative g P G i : undirected g -> mapped g P -> In G P -> In i (members G) ->
  WithinModuleRelativeDegree g i G = Ok (relative sq (length g) (unit_weight g) (members G) i).
Proof. exact (RelativeDegree_value ex sq g P G i). Qed.

(** C119: the same by strength. *)
Theorem C119_roles g P : undirected g -> strengths_cached g -> nameable g P -> (forall n, In n g -> length (glabel n) < max_label) ->
  (forall i, nbrs g i <> [] -> node_sum (length g) (wt g) i <> 0%Qc) ->
  exists g' roles mods g1, CatalogRoleIdentStrength g P = Ok (g', roles, mods) /\ undirected g' /\ same_but_group g g' /\ mapped g' roles /\
    same_but_group g g1 /\ mapped g1 mods /\ names mods = names P /\
    roles_given sq g1 (wt g1) (map snd (abs mods)) (abs mods) (abs roles).
Proof. exact (CatalogRoleIdentStrength_roles ex sq g P). Qed.
Theorem C119_participation g P i : undirected g -> strengths_cached g -> mapped g P -> i < length g ->
  (nbrs g i <> [] -> node_sum (length g) (wt g) i <> 0%Qc) ->
  exists g', WeightedParticipationCoefficient g i P = Ok (match nbrs g i with [] => 0%Qc | _ => participation (length g) (wt g) (map snd (abs P)) i end, g') /\
    same_cache g g' /\ undirected g' /\ strengths_cached g'.
Proof. exact (WeightedParticipation_value ex sq g P i). Qed.
Theorem C119_relative g P G i : undirected g -> mapped g P -> In G P -> In i (members G) ->
  WithinModuleRelativeStrength g i G = Ok (relative sq (length g) (wt g) (members G) i).
Proof. exact (RelativeStrength_value ex sq g P G i). Qed.

(** C124: mean, deviation, minimum and maximum of the sizes of the groups that have members. *)
Theorem C124_sizes (g : net Qc) P : mapped g P -> used_groups (abs P) <> [] -> exists mn mx,
  GroupSizeStatistics P = Ok ((Qsum (fun x => x) (sizes P) / q (length (sizes P)))%Qc, if Qc_eq_dec (variance (sizes P)) 0 then 0%Qc else sq (variance (sizes P)), mn, mx) /\
  In mn (sizes P) /\ (forall x, In x (sizes P) -> (mn <= x)%Qc) /\ In mx (sizes P) /\ (forall x, In x (sizes P) -> (x <= mx)%Qc).
Proof. exact (GroupSizeStatistics_spec ex sq g P). Qed.

(** C125: BlockModel prints one row for every pair of groups that have members. *)
Theorem C125_rows (g : net Qc) P t : undirected g -> mapped g P -> t <> BM_other ->
  BlockModel g P t = Ok (flat_map (fun x => map (fun y => (fst x + 1, fst y + 1, block_entry g (abs P) sq t x y)) (used_groups (abs P))) (used_groups (abs P))).
Proof. exact (fun U M => BlockModel_rows ex sq g P U M t). Qed.
Theorem C125_modularity (g : net Qc) P : undirected g -> mapped g P -> covering (length g) (abs P) ->
  Qsum (fun x => block_entry g (abs P) sq BM_e x x) (used_groups (abs P)) = pair_modularity (length g) (unit_weight g) (same_home (abs P)).
Proof. exact (block_diagonal sq g P). Qed.
End Exact.

Section Any.
Context {A : Type} {ops : NumOps A}.
Implicit Types (g : net A) (P : gpart A).
(** C120: the fast operations move the nodes as the others do, and leave the counts of links alone. *)
Theorem C120_operations g P os : undirected g -> mapped g P -> grops_ok (length g) (abs P) os ->
  exists g' P', foldM run_fast (g, P) os = Ok (g', P') /\ same_but_group g g' /\ abs P' = fold_left grop_do os (abs P) /\
    (forall i n, nth_error g' i = Some n -> ggroup n = home (abs P') i) /\
    (forall G, In G P' -> psize G = Z.of_nat (length (members G))) /\ untouched P P'.
Proof. exact (fast_run g P os). Qed.
Theorem C120_map g P : undirected g -> nameable g P ->
  exists g' P', MapPartToNetFast (g, P) = Ok (g', P') /\ undirected g' /\ same_but_group g g' /\ names P' = names P /\ cells_right g' P' /\
    (forall i n, nth_error g' i = Some n -> ggroup n = home (abs P') i) /\ (forall G, In G P' -> counters G = no_counts /\ psize G = Z.of_nat (length (members G))).
Proof. exact (MapFast g P). Qed.

(** C121: MapPartToNetSoft tells the nodes their groups. *)
Theorem C121_map g P : undirected g -> nameable g P ->
  exists g', MapPartToNetSoft (g, P) = Ok (g', map emptied P) /\ undirected g' /\ same_but_group g g' /\
    forall i n, nth_error g' i = Some n -> forall lab, ggroup n = Some lab <-> exists G, In G P /\ plabel G = lab /\ In (glabel n) (map llabel (pnodes G)).
Proof. exact (MapSoft g P). Qed.
(** C122: not of a partition of a larger network. *)
Theorem C122_subset_refuted g P G x : In G P -> In x (pnodes G) -> ~ In (llabel x) (map glabel g) -> MapPartToNetSoft (g, P) = Err UB_null.
Proof. exact (MapSoft_missing g P G x). Qed.

(** C123: no link is ever removed. *)
Theorem C123_within_refuted g (G : grp A) sw : undirected g -> (forall l, In l (pnodes G) -> exists i, lref l = Some i /\ i < length g) ->
  (RemoveWithinGroupLinks g G sw = Ok g /\ forall i, In i (members G) -> nbrs g i = []) \/
  (RemoveWithinGroupLinks g G sw = Err UB_free /\ exists i j, In i (members G) /\ In j (nbrs g i)).
Proof. exact (RemoveWithin_spec g G sw). Qed.
Theorem C123_between_refuted g P sw : undirected g -> (forall G l, In G P -> In l (pnodes G) -> exists i, lref l = Some i /\ i < length g) ->
  (RemoveBetweenGroupLinks g P sw = Ok g /\ forall G i j, In G P -> In i (members G) -> In j (nbrs g i) -> group_of g i = group_of g j) \/
  (RemoveBetweenGroupLinks g P sw = Err UB_free /\ exists G i j, In G P /\ In i (members G) /\ In j (nbrs g i) /\ group_of g i <> group_of g j).
Proof. exact (RemoveBetween_spec g P sw). Qed.
Theorem C123_inter_refuted g : undirected g ->
  (RemoveInterGroupLinks g = Ok g /\ forall i j, In j (nbrs g i) -> group_of g i = group_of g j) \/
  (RemoveInterGroupLinks g = Err UB_free /\ exists i j, In j (nbrs g i) /\ group_of g i <> group_of g j).
Proof. exact (RemoveInter_spec g). Qed.

(** C127: CreateEquiNPartitionSoft numbers the nodes from 1, group by group. *)
Theorem C127_equal_groups (show : nat -> label) ngroups gsize : (forall k, length (show k) < max_label) -> exists P : gpart A,
  CreateEquiNPartitionSoft show ngroups gsize = Ok P /\
  names P = map (fun i => (i, map (fun j => show (j + i * gsize + 1)) (seq 0 gsize))) (seq 0 ngroups) /\
  forall G, In G P -> psize G = Z.of_nat gsize /\ counters G = no_counts.
Proof. exact (CreateEqui_spec show ngroups gsize). Qed.

(** C128: CreatePartitionFromInGroup. *)
Theorem C128_groups g : undirected g -> (forall i, i < length g -> group_of g i <> None) -> exists g' Q, CreatePartitionFromInGroup g = Ok (g', Q) /\ same_cache g g' /\ undirected g' /\
  map plabel Q = first_seen [] (labs g (length g)) /\ forall H, In H Q -> copied g (filter (in_grp g (plabel H)) (seq 0 (length g))) H.
Proof. exact (InGroup_spec g). Qed.
Theorem C128_without_group g i : undirected g -> i < length g -> group_of g i = None -> CreatePartitionFromInGroup g = Err UB_oob.
Proof. exact (fun U => InGroup_missing g U i). Qed.
End Any.

(** * Two triangles joined by a link; one node is in no group. *)
#[local] Instance ops22e : NumOps Qc := Qc_ops ex0 sq0.
Definition names6 : list label := [["a"]; ["b"]; ["c"]; ["d"]; ["e"]; ["f"]]%char.
Definition net22 := wired names6 [(0, 1); (0, 2); (1, 2); (2, 3); (3, 4); (3, 5); (4, 5)].
Definition soft22 (ls : list (nat * list label)) : gpart Qc := map (fun '(lab, l) => mkGroup lab (Z.of_nat (length l)) 0 0 0 n0 n0 n0 (map (fun x => mkLink 0 x 0 None n0 n0) l)) ls.
Definition part22 := soft22 [(4, [["a"]; ["b"]; ["c"]]); (2, []); (7, [["d"]; ["e"]])]%char.
Definition whole22 := soft22 [(4, [["a"]; ["b"]; ["c"]]); (7, [["d"]; ["e"]; ["f"]])]%char.
Example net22_fine : undirected net22 /\ map glabel net22 = names6.
Proof. apply wired_ok; vm_compute; reflexivity. Qed.
Fixpoint distinct {B} (same : B -> B -> bool) (l : list B) : bool := match l with [] => true | x :: l => negb (existsb (same x) l) && distinct same l end.
Lemma distinct_NoDup {B} (same : B -> B -> bool) l : (forall x, same x x = true) -> distinct same l = true -> NoDup l.
Proof.
  intros R. induction l as [|x l IH]; intros H; [constructor|]. cbn [distinct] in H. apply andb_prop in H as [H1 H2]. constructor; auto. intros K. apply negb_true_iff in H1.
  assert (X : existsb (same x) l = true) by (apply existsb_exists; eauto). congruence.
Qed.
Lemma nodup_labels (l : list label) : distinct label_eqb l = true -> NoDup l.
Proof. apply distinct_NoDup. intros x. now apply label_eqb_eq. Qed.
Lemma nodup_nats (l : list nat) : distinct Nat.eqb l = true -> NoDup l.
Proof. apply distinct_NoDup, Nat.eqb_refl. Qed.
Lemma named22 ls : distinct label_eqb (flat_map snd ls) = true -> distinct Nat.eqb (map fst ls) = true ->
  forallb (fun x => existsb (label_eqb x) names6) (flat_map snd ls) = true -> nameable net22 (soft22 ls).
Proof.
  intros H1 H2 H3. apply nodup_labels in H1. apply nodup_nats in H2. rewrite forallb_forall in H3. destruct net22_fine as [_ L].
  assert (E1 : map plabel (soft22 ls) = map fst ls) by (unfold soft22; rewrite map_map; apply map_ext; intros []; reflexivity).
  assert (E2 : flat_map (fun G => map llabel (pnodes G)) (soft22 ls) = flat_map snd ls).
  { unfold soft22. clear. induction ls as [|[lab l] ls IH]; [reflexivity|]. cbn [map flat_map snd]. rewrite IH. f_equal. cbn [pnodes]. rewrite map_map. apply map_id. }
  split.
  - rewrite L. apply nodup_labels. vm_compute. reflexivity.
  - now rewrite E1.
  - intros G l HG Hl. rewrite L. assert (K : In (llabel l) (flat_map snd ls)) by (rewrite <- E2; apply in_flat_map; exists G; split; auto; now apply in_map). specialize (H3 _ K).
    apply existsb_exists in H3 as (y & Hy & E). apply label_eqb_eq in E. now rewrite E.
  - now rewrite E2.
  - intros G HG. unfold soft22 in HG. apply in_map_iff in HG as ([lab l] & <- & _). cbn [psize pnodes]. now rewrite map_length.
Qed.
Example part22_nameable : nameable net22 part22.
Proof. apply named22; vm_compute; reflexivity. Qed.
Example whole22_nameable : nameable net22 whole22.
Proof. apply named22; vm_compute; reflexivity. Qed.
Example net22_short : forall n, In n net22 -> length (glabel n) < max_label.
Proof.
  destruct net22_fine as [_ L]. intros n Hn. apply (in_map glabel) in Hn. rewrite L in Hn. assert (H : forallb (fun l : label => length l <? max_label) names6 = true) by (vm_compute; reflexivity). rewrite forallb_forall in H. now apply Nat.ltb_lt, H.
Qed.
(** The roles: the labels of the role groups and the nodes in them. *)
Definition roles22 (r : res (net Qc * gpart Qc * gpart Qc)) := match r with Ok (_, R, _) => Some (filter some_in (abs R)) | Err _ => None end.
Example roles_degree : roles22 (CatalogRoleIdent net22 part22) = Some [(0, [0; 1]); (1, [2; 4]); (2, [3])].
Proof. vm_compute. reflexivity. Qed.
(** By strength the links to the node without a group do not count: another role. *)
Example roles_strength : roles22 (CatalogRoleIdentStrength net22 part22) = Some [(0, [0; 1]); (1, [2]); (2, [3; 4])].
Proof. vm_compute. reflexivity. Qed.
(** The weights: links have weight 1, no strength has been cached, and no node with a neighbour has strength 0. *)
Example weights22 : strengths_cached net22 /\ forall i, nbrs net22 i <> [] -> node_sum (length net22) (wt net22) i <> 0%Qc.
Proof.
  split.
  - intros i n E. left. do 6 (destruct i as [|i]; [vm_compute in E; injection E as <-; reflexivity|]). destruct i; discriminate.
  - intros i H. do 6 (destruct i as [|i]; [vm_compute; discriminate|]). exfalso. apply H. destruct i; reflexivity.
Qed.
(** ** Mapped partitions *)
Definition mapped22 := match MapPartToNet (net22, part22) with Ok st => st | Err _ => ([], []) end.
Definition covered22 := match MapPartToNet (net22, whole22) with Ok st => st | Err _ => ([], []) end.
Lemma mapped_of P : nameable net22 P -> let st := match MapPartToNet (net22, P) with Ok st => st | Err _ => ([], []) end in undirected (fst st) /\ mapped (fst st) (snd st).
Proof.
  intros HN. destruct (MapPartToNet_mapped net22 P (proj1 net22_fine) HN) as (g' & P' & E & U & _ & M & _). intros st.
  assert (X : st = (g', P')). { unfold st. match type of E with ?a = _ => match goal with |- match ?b with _ => _ end = _ => change b with a end end. rewrite E. reflexivity. } rewrite X. auto.
Qed.
Example mapped22_fine : undirected (fst mapped22) /\ mapped (fst mapped22) (snd mapped22).
Proof. exact (mapped_of part22 part22_nameable). Qed.
Example covered22_fine : undirected (fst covered22) /\ mapped (fst covered22) (snd covered22).
Proof. exact (mapped_of whole22 whole22_nameable). Qed.
Example covered22_all : covering (length (fst covered22)) (abs (snd covered22)).
Proof. intros i H. do 6 (destruct i as [|i]; [vm_compute; discriminate|]). vm_compute in H. lia. Qed.
(** The operations. *)
Definition ops_list22 : list grop := [GNew 9; GMove 0 0 3; GMerge 2 3; GCompress; GAdd 0 5].
Example ops22_ok : grops_ok (length (fst mapped22)) (abs (snd mapped22)) ops_list22.
Proof.
  replace (abs (snd mapped22)) with [(4, [0; 1; 2]); (2, []); (7, [3; 4])] by (vm_compute; reflexivity). replace (length (fst mapped22)) with 6 by (vm_compute; reflexivity).
  cbn -[Nat.lt lt]. split; [intuition discriminate|]. split; [lia|]. split; [lia|]. split; [exact I|]. split; auto. split; [lia|]. split; [lia|].
  intros [|[|m]]; cbn; try (intuition discriminate). destruct m; cbn; auto.
Qed.
Example ops22_run : match foldM run_fast mapped22 ops_list22 with Ok (g, P) => Some (abs P, map ggroup g, map pin P) | Err _ => None end
  = Some ([(4, [1; 2; 5]); (9, [0; 3; 4])], [Some 9; Some 4; Some 4; Some 9; Some 9; Some 4], [3%Z; 0%Z]).
Proof. vm_compute. reflexivity. Qed.
Example soft22_run : match MapPartToNetSoft (net22, part22) with Ok (g, P) => Some (map ggroup g, names P) | Err _ => None end
  = Some ([Some 4; Some 4; Some 4; Some 7; Some 7; None], names part22).
Proof. vm_compute. reflexivity. Qed.
Example sizes22 : match GroupSizeStatistics (snd mapped22) with Ok (a, b, c, d) => map this [a; b; c; d] | Err _ => [] end = [5 # 2; 1 # 4; 2; 3]%Q.
Proof. vm_compute. reflexivity. Qed.
Example rows22 : match BlockModel (fst mapped22) (snd mapped22) BM_n with Ok r => map (fun '(a, b, x) => (a, b, this x)) r | Err _ => [] end
  = [(5, 5, 3%Q); (5, 8, 1%Q); (8, 5, 1%Q); (8, 8, 1%Q)].
Proof. vm_compute. reflexivity. Qed.
Example removal22 : RemoveWithinGroupLinks net22 (nth 0 (snd mapped22) (mkGroup 0 0 0 0 0 n0 n0 n0 [])) true = Err UB_free /\
  RemoveBetweenGroupLinks (fst mapped22) (snd mapped22) true = Err UB_free /\ RemoveInterGroupLinks (fst mapped22) = Err UB_free.
Proof. vm_compute. auto. Qed.
(** C126: three nodes with all links between them are said to be linked with probability 1/2. *)
Theorem C126_probability_refuted : exists (g : net Qc) P, undirected g /\ mapped g P /\
  exists x, In x (used_groups (abs P)) /\ q (between g x x) = pairs x x /\ exists r, BlockModel g P BM_p = Ok r /\ exists v, In (fst x + 1, fst x + 1, v) r /\ (v + v = 1)%Qc.
Proof.
  exists (fst mapped22), (snd mapped22). destruct mapped22_fine as [U M]. split; auto. split; auto. exists (4, [0; 1; 2]). split; [vm_compute; auto|]. split; [apply Qc_is_canon; vm_compute; reflexivity|].
  eexists. split; [apply C125_rows; auto; discriminate|]. exists (block_entry (fst mapped22) (abs (snd mapped22)) sq0 BM_p (4, [0; 1; 2]) (4, [0; 1; 2])). split; [|apply Qc_is_canon; vm_compute; reflexivity].
  apply in_flat_map. exists (4, [0; 1; 2]). split; [vm_compute; auto|]. apply in_map_iff. exists (4, [0; 1; 2]). split; [reflexivity|vm_compute; auto].
Qed.
(** C126: the fractions minus the expected ones do not add up to 0. *)
Theorem C126_expected_refuted : exists (g : net Qc) P, undirected g /\ mapped g P /\ covering (length g) (abs P) /\
  exists x y, used_groups (abs P) = [x; y] /\ (block_entry g (abs P) sq0 BM_f x x + block_entry g (abs P) sq0 BM_f x y + block_entry g (abs P) sq0 BM_f y y = 1)%Qc /\
    (block_entry g (abs P) sq0 BM_e x x + block_entry g (abs P) sq0 BM_e x y + block_entry g (abs P) sq0 BM_e y y <> 0)%Qc.
Proof.
  exists (fst covered22), (snd covered22). destruct covered22_fine as [U M]. split; auto. split; auto. split; [exact covered22_all|]. exists (4, [0; 1; 2]), (7, [3; 4; 5]).
  split; [vm_compute; reflexivity|]. split; [apply Qc_is_canon; vm_compute; reflexivity|]. intros H. apply (f_equal this) in H. vm_compute in H. discriminate.
Qed.
(** Equal groups; groups from the nodes. *)
Definition show22 (k : nat) : label := [nth k ["0"; "1"; "2"; "3"; "4"; "5"; "6"; "7"; "8"; "9"] "x"]%char.
Example show22_short k : length (show22 k) < max_label.
Proof. unfold max_label. cbn. lia. Qed.
Example equal22 : match CreateEquiNPartitionSoft show22 2 3 with Ok P => names P | Err _ => [] end = [(0, [["1"]; ["2"]; ["3"]]); (1, [["4"]; ["5"]; ["6"]])]%char.
Proof. vm_compute. reflexivity. Qed.
Example ingroup22 : match CreatePartitionFromInGroup (fst covered22) with Ok (_, P) => Some (map (fun G => (plabel G, members G, psize G, pin G)) P) | Err _ => None end
  = Some [(4, [0; 1; 2], 3%Z, 6%Z); (7, [3; 4; 5], 3%Z, 6%Z)].
Proof. vm_compute. reflexivity. Qed.
Example ingroup22_missing : CreatePartitionFromInGroup (fst mapped22) = Err UB_oob /\ group_of (fst mapped22) 5 = None.
Proof. vm_compute. auto. Qed.

Print Assumptions C118_roles.
Print Assumptions C118_participation.
Print Assumptions C118_relative.
Print Assumptions C119_roles.
Print Assumptions C119_participation.
Print Assumptions C119_relative.
Print Assumptions C124_sizes.
Print Assumptions C125_rows.
Print Assumptions C125_modularity.
Print Assumptions C120_operations.
Print Assumptions C120_map.
Print Assumptions C121_map.
Print Assumptions C122_subset_refuted.
Print Assumptions C123_within_refuted.
Print Assumptions C123_between_refuted.
Print Assumptions C123_inter_refuted.
Print Assumptions C127_equal_groups.
Print Assumptions C128_groups.
Print Assumptions C128_without_group.
Print Assumptions C126_probability_refuted.
Print Assumptions C126_expected_refuted.

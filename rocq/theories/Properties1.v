(** Properties1.v -- the properties of the partition library (C01-C20), stated on the data structures and proved by the lemmas of
    the other files.  Examples show that the hypotheses are met by a graph and partition built by the library itself. *)
From Coq Require Import List Arith Lia Bool QArith Qcanon.
From Verif Require Import Base Num ListLib QcSum PartModel MoveModel FillModel SAModel PartSpec AdjSpec ModSpec
  ChangeProof MergeProof Steps FillProof CopyProof CompressProof SplitProof EnergyForm SAProof ExactProof ModularityProof SAExact
  EdgeListProof EdgeListExact RolesProof RolesBounds Fuel CoreThms CoreExact Refute.
Import ListNotations.
Local Open Scope nat_scope.

(** * For every arithmetic *)
Section Generic.
Context {A : Type} {ops : NumOps A}.
Implicit Types p : partition A.

Theorem C01_operations_keep_partition_valid adj p l r :
  valid p -> 0 < pN p -> pM p <= pN p -> adj_ok adj (pN p) -> sym_adj adj -> reaches adj p l r ->
  match r with
  | Ok q => valid q /\ pN q = pN p /\ pM q <= pN q /\ (forall i, strength q i = strength p i)
  | Err e => e = RngOut
  end.
Proof. exact (operations_valid adj p l r). Qed.

Theorem C02_move p n m : valid p -> n < pN p -> m < pM p ->
  exists p', ChangeModule n m p = Ok p' /\ valid p' /\ pN p' = pN p /\ pM p' = pM p /\
    group p' n = Some m /\ (forall i, i <> n -> group p' i = group p i) /\ (forall i, strength p' i = strength p i).
Proof. exact (move_spec p n m). Qed.

Theorem C03_merge p a b : valid p -> a <> b -> a < pM p -> b < pM p ->
  exists p', MergeModules a b p = Ok p' /\ valid p' /\ pN p' = pN p /\ pM p' = pM p /\
    (forall i, strength p' i = strength p i) /\
    (((forall i, group p i <> Some a) \/ (forall i, group p i <> Some b)) -> p' = p) /\
    ((exists i, group p i = Some a) -> (exists i, group p i = Some b) ->
       exists s l, ((s = a /\ l = b) \/ (s = b /\ l = a)) /\
         (forall i, group p' i = Some l <-> group p i = Some a \/ group p i = Some b) /\
         (forall i, group p' i <> Some s) /\ module_at p' s = Some (0, n0) /\
         (forall i, group p i <> Some a -> group p i <> Some b -> group p' i = group p i) /\
         (forall m, m <> a -> m <> b -> module_at p' m = module_at p m)).
Proof. exact (merge_spec p a b). Qed.

Theorem C07_compress p : valid p -> 0 < pN p ->
  exists p', CompressPartition p = Ok p' /\ valid p' /\ pN p' = pN p /\
    pM p' = length (filter (fun md => negb (msize md =? 0)) (pmods p)) /\ pnempty p' = 0 /\
    (forall m, m < pM p' -> exists i, group p' i = Some m) /\
    (forall i j, i < pN p -> j < pN p -> (group p' i = group p' j <-> group p i = group p j)) /\
    (forall i, strength p' i = strength p i).
Proof. exact (compress_spec p). Qed.

Theorem C08_copy_equal p : valid p -> pM p <= pN p -> CopyPartitionStruct p = Ok p.
Proof. exact (copy_equal p). Qed.

Theorem C11_assign_random p N M ds : M <= N -> N <> M -> CreatePartition N M = Ok p ->
  Forall (fun j => j < M) ds -> N <= length ds ->
  exists p', AssignNodesToModules p ds = Ok (p', skipn N ds) /\ valid p' /\ pN p' = N /\ pM p' = M /\
    (forall i, i < N -> group p' i = nth_error ds i).
Proof. exact (assign_random p N M ds). Qed.

Theorem C11_assign_singletons p N ds : CreatePartition N N = Ok p ->
  exists p', AssignNodesToModules p ds = Ok (p', ds) /\ valid p' /\ pN p' = N /\ pM p' = N /\
    (forall i, i < N -> group p' i = Some i).
Proof. exact (assign_singletons p N ds). Qed.

(** CreatePartition writes outside the module array exactly when asked for more modules than nodes. *)
Theorem C11_create N M : (exists p : partition A, CreatePartition N M = Ok p) <-> M <= N.
Proof.
  split.
  - intros [p H]. destruct (le_lt_dec M N) as [|L]; auto. rewrite (CreatePartition_oob N M L) in H. discriminate.
  - intros H. destruct (CreatePartition_fresh N M H) as (p & E & _). eauto.
Qed.

Theorem C12_annealing_safe p adj fac Ti Tf Ts proba limit ds : valid p -> adj_ok adj (pN p) -> sym_adj adj ->
  0 < pN p -> pM p <= pN p -> Forall good_draw ds ->
  match GeneralSA p adj fac Ti Tf Ts proba limit ds with
  | Ok (Some b, Some e, _) => valid b /\ pN b = pN p /\ pM b = pM p /\ (forall i, strength b i = strength p i)
  | Ok (None, None, _) => True
  | Ok _ => False
  | Err e => e = RngOut
  end.
Proof. exact (annealing_safe p adj fac Ti Tf Ts proba limit ds). Qed.

Theorem C12_fuel_is_irrelevant p adj fac Ti Tf Ts proba limit ds f :
  0 < individual_movements fac (pN p) + collective_movements fac (pN p) -> length ds < f ->
  GeneralSA p adj fac Ti Tf Ts proba limit ds =
  (do (st, ds) <- sa_loop adj (individual_movements fac (pN p)) (collective_movements fac (pN p))
                    Ti Tf Ts proba limit f Ti (mkSA p n0 n0 None None 0) ds;
   Ok (sbest st, sbestE st, ds)).
Proof. exact (GeneralSA_fuel p adj fac Ti Tf Ts proba limit ds f). Qed.

Theorem C15_split_components p adj t e ds : valid p -> adj_ok adj (pN p) -> sym_adj adj -> t < pM p -> e < pM p ->
  match SplitModuleByComponent t e p adj ds with
  | Err er => er = RngOut
  | Ok (c, p', _) =>
      valid p' /\ pN p' = pN p /\ pM p' = pM p /\ (forall i, strength p' i = strength p i) /\
      (forall i, group p i <> Some t -> group p' i = group p i) /\
      (forall i, group p i = Some t -> group p' i = Some t \/ group p' i = Some e) /\
      (exists comp : nat -> nat,
         (forall x, group p x = Some t -> 1 <= comp x <= c) /\
         (forall k, 1 <= k <= c -> exists x, group p x = Some t /\ comp x = k) /\
         (forall x y, group p x = Some t -> group p y = Some t -> (comp x = comp y <-> connected adj x y))) /\
      (forall x y, group p x = Some t -> group p y = Some t -> connected adj x y -> group p' x = group p' y) /\
      (c <= 1 -> p' = p) /\
      (2 <= c -> (exists x, group p x = Some t /\ group p' x = Some t) /\
                 (exists x, group p x = Some t /\ group p' x = Some e))
  end.
Proof. exact (split_components p adj t e ds). Qed.

Theorem C17_split_annealing p adj t e Ti Tf Ts limit ds : valid p -> adj_ok adj (pN p) -> 0 < pN p -> pM p <= pN p ->
  t < pM p -> e < pM p -> (exists i, group p i = Some t) -> Forall good_draw ds ->
  match SplitModuleSA t e Ti Tf Ts limit p adj ds with
  | Err er => er = RngOut
  | Ok (p', _) => valid p' /\ pN p' = pN p /\ pM p' = pM p /\ (forall i, strength p' i = strength p i) /\
      (forall i, group p i <> Some t -> group p' i = group p i) /\
      (forall i, group p i = Some t -> group p' i = Some t \/ group p' i = Some e)
  end.
Proof. exact (split_annealing p adj t e Ti Tf Ts limit ds). Qed.

(** C09, for every arithmetic: the rows are the incident edges in file order. *)
Theorem C09_rows es p N normalize : no_loops es -> in_range N es -> length (pnodes p) = N ->
  exists (adj : adja A) p', EdgeListToAdjaArray es (CreateAdjaArray N (length es)) p normalize = Ok (adj, p') /\
    adj_ok adj N /\ aE adj = length es /\
    (forall i, i < N -> row adj i = incident (divisor es normalize) es i) /\
    pN p' = pN p /\ pM p' = pM p /\ pnempty p' = pnempty p /\ pmods p' = pmods p /\ length (pnodes p') = N /\
    (forall i nd, nth_error (pnodes p) i = Some nd ->
       nth_error (pnodes p') i = Some (set_nstr (ndiv (weight_at es i (nstr nd)) (divisor es normalize)) nd)).
Proof. exact (EdgeListToAdjaArray_spec es p N normalize). Qed.
End Generic.

(** * In exact arithmetic; [ex] and [sq] stand for exp and sqrt *)
Section Exact.
Variables ex sq : Qc -> Qc.
#[local] Instance opsX : NumOps Qc := Qc_ops ex sq.
Implicit Types (p q : partition Qc) (adj : adja Qc).

Theorem C02_strengths p n m p' :
  valid p -> strengths_ok p -> n < pN p -> m < pM p -> ChangeModule n m p = Ok p' -> strengths_ok p'.
Proof. exact (move_strengths ex sq p n m p'). Qed.

Theorem C03_strengths p a b p' : valid p -> strengths_ok p -> a <> b -> a < pM p -> b < pM p ->
  MergeModules a b p = Ok p' -> strengths_ok p'.
Proof. exact (merge_strengths ex sq p a b p'). Qed.

Theorem C04_move_gain p adj n m : valid p -> strengths_ok p -> adj_ok adj (pN p) -> sym_w adj -> ~ adjacent adj n n ->
  n < pN p -> m < pM p -> group p n <> Some m ->
  exists p' d, ChangeModule n m p = Ok p' /\ dEChangeModule n m p adj = Ok d /\
    d = (modularity p' adj - modularity p adj)%Qc.
Proof. exact (move_gain ex sq p adj n m). Qed.

Theorem C05_merge_gain p adj a b : valid p -> strengths_ok p -> adj_ok adj (pN p) -> sym_w adj -> a <> b -> a < pM p -> b < pM p ->
  exists p' d, MergeModules a b p = Ok p' /\ dEMergeModules a b p adj = Ok d /\ dEMergeModules b a p adj = Ok d /\
    d = (modularity p' adj - modularity p adj)%Qc.
Proof. exact (merge_gain ex sq p adj a b). Qed.

Theorem C06_modularity p adj diag : valid p -> adj_ok adj (pN p) -> sym_w adj -> simple_rows adj ->
  PartitionModularity p adj diag = Ok (if diag then modularity_diag p adj else modularity p adj).
Proof. exact (modularity_computed ex sq p adj diag). Qed.

Theorem C06_numbering_irrelevant p q adj :
  valid p -> valid q -> pN q = pN p -> (forall i, strength q i = strength p i) ->
  (forall i j, i < pN p -> j < pN p -> (group p i = group p j <-> group q i = group q j)) ->
  modularity q adj = modularity p adj /\ modularity_diag q adj = modularity_diag p adj.
Proof. exact (modularity_of_grouping p q adj). Qed.

Theorem C07_modularity p p' adj : valid p -> 0 < pN p -> CompressPartition p = Ok p' ->
  modularity p' adj = modularity p adj /\ (strengths_ok p -> strengths_ok p').
Proof. exact (compress_modularity p p' adj). Qed.

Theorem C09_edge_list es p N M normalize : no_loops es -> in_range N es -> CreatePartition N M = Ok p ->
  (normalize = true -> total_weight es <> 0%Qc) ->
  exists adj p', EdgeListToAdjaArray es (CreateAdjaArray N (length es)) p normalize = Ok (adj, p') /\
    adj_ok adj N /\ sym_adj adj /\ sym_w adj /\ loop_free adj /\ (no_duplicates es -> simple_rows adj) /\
    fresh p' /\ pN p' = N /\ pM p' = M /\
    (forall i j, i < N -> aw adj i j = (pair_weight es i j / divisor es normalize)%Qc) /\
    (forall i, i < N -> kk p' i = Qsum snd (row adj i)) /\
    (forall i, i < N -> kk p' i = (node_weight es i / divisor es normalize)%Qc) /\
    (normalize = true -> Qsum (kk p') (seq 0 N) = 1%Qc).
Proof. exact (EdgeList_exact ex sq es p N M normalize). Qed.

(** The divisor is twice the total weight (or 1 without normalisation). *)
Theorem C09_divisor es : divisor es true = (Qc_of_nat 2 * total_weight es)%Qc /\ divisor es false = 1%Qc.
Proof.
  split; [|reflexivity]. unfold divisor. rewrite (weight_all_sum ex sq). cbn [nmul nofnat opsX Qc_ops]. apply Qcmult_comm.
Qed.

Theorem C13_annealing_energy p adj fac Ti Tf Ts proba limit ds : valid p -> adj_ok adj (pN p) -> sym_adj adj ->
  0 < pN p -> pM p <= pN p -> Forall good_draw ds ->
  match GeneralSA p adj fac Ti Tf Ts proba limit ds with
  | Ok (Some b, Some e, _) => valid b /\ pN b = pN p /\ pM b = pM p /\ (forall i, strength b i = strength p i) /\
      (strengths_ok p -> sym_w adj -> loop_free adj -> strengths_ok b /\ e = (modularity b adj - modularity p adj)%Qc)
  | Ok (None, None, _) => True
  | Ok _ => False
  | Err e => e = RngOut
  end.
Proof. exact (annealing_valid ex sq p adj fac Ti Tf Ts proba limit ds). Qed.

Theorem C14_limit_one_returns_null p adj fac Ti Tf Ts proba ds best bestE ds' :
  GeneralSA p adj fac Ti Tf Ts proba 1 ds = Ok (best, bestE, ds') -> best = None.
Proof. exact (GeneralSA_limit1_null ex sq p adj fac Ti Tf Ts proba ds best bestE ds'). Qed.

Theorem C14_one_step_returns_null p adj fac Ti Tf Ts proba limit ds best bestE ds' :
  nltb Tf (nmul Ti Ts) = false ->
  GeneralSA p adj fac Ti Tf Ts proba limit ds = Ok (best, bestE, ds') -> best = None.
Proof. exact (GeneralSA_onestep_null ex sq p adj fac Ti Tf Ts proba limit ds best bestE ds'). Qed.

Theorem C18_participation p adj : valid p -> adj_ok adj (pN p) -> (forall i, positive_row adj i) ->
  exists conn part, PartitionRolesMetrics p adj (repeat 0%Qc (pN p)) = Ok (conn, part) /\
    length part = pN p /\
    forall i, i < pN p -> exists P, nth_error part i = Some P /\
      (row adj i = [] -> P = 0%Qc) /\
      (row adj i <> [] -> P = (1 - Qsum (fun m => to_module p adj i m * to_module p adj i m) (seq 0 (pM p))
                                 / (out_strength adj i * out_strength adj i))%Qc) /\
      (0 <= P)%Qc /\ (P <= 1 - 1 / Qc_of_nat (pM p))%Qc /\ (P = 0%Qc <-> one_module p adj i).
Proof.
  intros V HA HP. destruct (metrics_exact ex sq p adj (repeat 0%Qc (pN p)) V HA (repeat_length _ _))
    as (conn & part & E & L1 & L2 & _ & Hp).
  exists conn, part. splits; auto. intros i Hi. exists (participation_value p adj i 0%Qc).
  apply valid_WF in V as W. pose proof (participation_bounds p _ adj i W HA Hi (HP i)) as [B1 B2].
  splits; auto.
  - rewrite Hp by auto. rewrite (nth_error_nth' _ 0%Qc) by (rewrite repeat_length; auto). now rewrite nth_repeat.
  - intros R. unfold participation_value. now rewrite R.
  - intros R. unfold participation_value. destruct (Nat.eqb_spec (length (row adj i)) 0) as [Z|Z].
    + apply length_zero_iff_nil in Z. congruence.
    + rewrite Qcplus_0_l. reflexivity.
  - exact (participation_zero p _ adj i W HA Hi (HP i)).
Qed.

(** The value reported for node [i] (0 outside the array). *)
Definition reported (l : list Qc) (i : nat) : Qc := nth i l 0%Qc.

Theorem C19_zscores p adj init : valid p -> adj_ok adj (pN p) -> length init = pN p ->
  exists conn part, PartitionRolesMetrics p adj init = Ok (conn, part) /\ length conn = pN p /\
    (forall i g, group p i = Some g -> sq (module_var p adj g) <> 0%Qc ->
       reported conn i = ((to_module p adj i g - module_mean p adj g) / sq (module_var p adj g))%Qc) /\
    (forall i g, group p i = Some g -> sq (module_var p adj g) = 0%Qc -> reported conn i = 0%Qc) /\
    (forall m, over_module p m (reported conn) = 0%Qc) /\
    (forall m, (sq (module_var p adj m) * sq (module_var p adj m) = module_var p adj m)%Qc ->
       sq (module_var p adj m) <> 0%Qc ->
       over_module p m (fun i => (reported conn i * reported conn i)%Qc) = Qc_of_nat (module_size p m)) /\
    (forall m, (forall i j, group p i = Some m -> group p j = Some m -> to_module p adj i m = to_module p adj j m) ->
       forall i, group p i = Some m -> reported conn i = 0%Qc).
Proof.
  intros V HA HL. destruct (metrics_exact ex sq p adj init V HA HL) as (conn & part & E & L1 & L2 & C & _).
  apply valid_WF in V as W.
  assert (R : forall i g, group p i = Some g -> reported conn i = zscore sq p adj i g).
  { intros i g H. apply C in H. unfold reported. erewrite nth_error_nth; eauto. }
  assert (O : forall m f g, (forall i, group p i = Some m -> f i = g i) -> over_module p m f = over_module p m g).
  { intros m f g H. apply Qsum_ext. intros i _. destruct (group p i) as [k|] eqn:Ek; auto.
    destruct (Nat.eqb_spec k m) as [->|]; auto. }
  exists conn, part. splits; auto.
  - intros i g Hg Hs. rewrite (R i g Hg). unfold zscore. destruct (Qc_eq_dec _ _); [contradiction|reflexivity].
  - intros i g Hg Hs. rewrite (R i g Hg). unfold zscore. destruct (Qc_eq_dec _ _); [reflexivity|contradiction].
  - intros m. rewrite (O m _ (fun i => zscore sq p adj i m)) by (intros; now apply R). exact (zscore_sum sq p _ adj m W).
  - intros m H1 H2. rewrite (O m _ (fun i => zscore sq p adj i m * zscore sq p adj i m)%Qc) by (intros; now rewrite (R i m)).
    exact (zscore_sum_sq sq p _ adj m W H1 H2).
  - intros m H i Hi. rewrite (R i m Hi). exact (zscore_equal sq p _ adj m W H i Hi).
Qed.

Theorem C20_roles P z r : GetRole P z = r <-> role_box P z r.
Proof. exact (GetRole_spec ex sq P z r). Qed.

Theorem C20_range P z : GetRole P z <= 6 /\ (4 <= GetRole P z <-> (cut (5 # 2) <= z)%Qc).
Proof. exact (role_range ex sq P z). Qed.

Theorem C20_monotone P P' z : (P <= P')%Qc -> GetRole P z <= GetRole P' z.
Proof. exact (role_monotone ex sq P P' z). Qed.
End Exact.

(** Each role is attained. *)
Theorem C20_attained r : r <= 6 -> exists P z, role_box P z r.
Proof.
  intros H. assert (r = 0 \/ r = 1 \/ r = 2 \/ r = 3 \/ r = 4 \/ r = 5 \/ r = 6) as D by lia.
  decompose [or] D; subst.
  - exists (cut 0), (cut 0). constructor; vm_compute; congruence.
  - exists (cut (1 # 10)), (cut 0). constructor; vm_compute; congruence.
  - exists (cut (7 # 10)), (cut 0). constructor; vm_compute; congruence.
  - exists (cut (9 # 10)), (cut 0). constructor; vm_compute; congruence.
  - exists (cut 0), (cut 3). constructor; vm_compute; congruence.
  - exists (cut (1 # 2)), (cut 3). constructor; vm_compute; congruence.
  - exists (cut (9 # 10)), (cut 3). constructor; vm_compute; congruence.
Qed.

(** * Refutations (witnesses checked by computation) *)
Theorem C14_annealing_result_at_least_as_good_refuted : exists (p : partition Qc) adj ds b e,
  valid p /\ strengths_ok p /\ adj_ok adj (pN p) /\ sym_adj adj /\ sym_w adj /\ loop_free adj /\
  Forall (@good_draw Qc (Qc_ops ex0 sq0)) ds /\
  @GeneralSA Qc (Qc_ops ex0 sq0) p adj (qq (1 # 10)) (qq 1) (qq (985 # 1000)) (qq (99 # 100)) (qq 0) 5 ds = Ok (Some b, Some e, []) /\
  (modularity b adj < modularity p adj)%Qc.
Proof. exact GeneralSA_may_get_worse. Qed.

Theorem C16_component_count_refuted : exists (p : partition Qc) adj target empty p' ds',
  valid p /\ adj_ok adj (pN p) /\ sym_adj adj /\
  target < pM p /\ empty < pM p /\ (forall i, group p i <> Some empty) /\
  @SplitModuleByComponent Qc (Qc_ops ex0 sq0) target empty p adj [] = Ok (1, p', ds') /\
  exists x y, group p x = Some target /\ group p y = Some target /\
    ~ connected_within adj (fun i => group p i = Some target) x y.
Proof. exact SplitModuleByComponent_counts_outside. Qed.

Theorem C10_self_loop_refuted : exists es N p adj p',
  in_range N es /\ @CreatePartition Qc (Qc_ops ex0 sq0) N 1 = Ok p /\
  @EdgeListToAdjaArray Qc (Qc_ops ex0 sq0) es (@CreateAdjaArray Qc (Qc_ops ex0 sq0) N (length es)) p true = Ok (adj, p') /\
  exists i j, j < N /\ In j (map fst (row adj i)) /\
    (forall a b w, In (a, b, w) es -> a <> j /\ b <> j) /\
    Qsum snd (row adj i) <> kk p' i.
Proof. exact self_loop_phantom. Qed.

Theorem C03_merge_with_itself_refuted : exists (p : partition Qc) p' a,
  valid p /\ a < pM p /\ @MergeModules Qc (Qc_ops ex0 sq0) a a p = Ok p' /\ ~ valid p'.
Proof. exact MergeModules_same_corrupts. Qed.

Theorem C18_participation_without_reset_refuted : exists (p : partition Qc) adj init conn part x,
  valid p /\ adj_ok adj (pN p) /\ length init = pN p /\ (forall i, positive_row adj i) /\
  @PartitionRolesMetrics Qc (Qc_ops ex0 sq0) p adj init = Ok (conn, part) /\ nth_error part 0 = Some x /\ (x < 0)%Qc.
Proof. exact participation_not_reset. Qed.

(** * The hypotheses are met: the path 0-1-2, three nodes, two modules, built by the library *)
Example hypotheses_met :
  valid p14 /\ strengths_ok p14 /\ adj_ok adj14 (pN p14) /\ sym_adj adj14 /\ sym_w adj14 /\ loop_free adj14 /\
  simple_rows adj14 /\ 0 < pN p14 /\ pM p14 <= pN p14 /\ pM p14 = 2 /\ group p14 1 = Some 0 /\ (forall i, group p14 i <> Some 1).
Proof.
  destruct path3_ok as (P1 & P2 & P3 & P4).
  destruct (setup_ok 3 2 path3 [0; 0; 0] p14 adj14 P1 P2 P3) as (V & S & A1 & A2 & A3 & A4 & N14 & M14 & SR & G).
  - lia.
  - lia.
  - repeat constructor.
  - simpl; lia.
  - vm_compute. reflexivity.
  - splits; try assumption; try lia.
    + now apply SR.
    + reflexivity.
    + intros i. destruct (lt_dec i 3) as [Hi|Hi].
      * rewrite G by auto. destruct i as [|[|[|i]]]; cbn; try discriminate. lia.
      * unfold group. rewrite (proj2 (nth_error_None _ _)); [discriminate|]. rewrite (valid_N _ V), N14. lia.
Qed.

(** A non-trivial history for C01: move, copy, move, merge, split by component, compress. *)
Example history_met : exists q,
  @reaches Qc (Qc_ops ex0 sq0) adj14 p14 [OMove 1 1; OCopy; OMove 0 1; OMerge 0 1; OSplitComponents 1 0 []; OCompress] (Ok q) /\ pM q = 1.
Proof.
  assert (S1 := reach_nil (ops := Qc_ops ex0 sq0) adj14 p14).
  assert (S2 := reach_snoc adj14 p14 _ (OMove 1 1) _ S1 ltac:(vm_compute; lia)).
  remember (run_op _ _ _) as r2 eqn:E2 in S2. vm_compute in E2. subst r2.
  assert (S3 := reach_snoc adj14 p14 _ OCopy _ S2 I). remember (run_op _ _ _) as r3 eqn:E3 in S3. vm_compute in E3. subst r3.
  assert (S4 := reach_snoc adj14 p14 _ (OMove 0 1) _ S3 ltac:(vm_compute; lia)).
  remember (run_op _ _ _) as r4 eqn:E4 in S4. vm_compute in E4. subst r4.
  assert (S5 := reach_snoc adj14 p14 _ (OMerge 0 1) _ S4 ltac:(vm_compute; repeat split; lia)).
  remember (run_op _ _ _) as r5 eqn:E5 in S5. vm_compute in E5. subst r5.
  assert (S6 := reach_snoc adj14 p14 _ (OSplitComponents 1 0 []) _ S5 ltac:(vm_compute; lia)).
  remember (run_op _ _ _) as r6 eqn:E6 in S6. vm_compute in E6. subst r6.
  assert (S7 := reach_snoc adj14 p14 _ OCompress _ S6 I).
  remember (run_op _ _ _) as r7 eqn:E7 in S7. vm_compute in E7. subst r7.
  eexists. split; [exact S7|reflexivity].
Qed.

(** Random draws for C12/C13: the run of the C14 witness is made of good draws and returns a partition. *)
Example draws_met : Forall (@good_draw Qc (Qc_ops ex0 sq0)) ds14.
Proof. repeat (constructor; [apply good_draw_Qc; vm_compute; congruence|]). constructor. Qed.

Print Assumptions C01_operations_keep_partition_valid.
Print Assumptions C02_move.
Print Assumptions C02_strengths.
Print Assumptions C03_merge.
Print Assumptions C03_strengths.
Print Assumptions C04_move_gain.
Print Assumptions C05_merge_gain.
Print Assumptions C06_modularity.
Print Assumptions C06_numbering_irrelevant.
Print Assumptions C07_compress.
Print Assumptions C07_modularity.
Print Assumptions C08_copy_equal.
Print Assumptions C09_rows.
Print Assumptions C09_edge_list.
Print Assumptions C11_assign_random.
Print Assumptions C11_assign_singletons.
Print Assumptions C12_annealing_safe.
Print Assumptions C12_fuel_is_irrelevant.
Print Assumptions C13_annealing_energy.
Print Assumptions C14_annealing_result_at_least_as_good_refuted.
Print Assumptions C15_split_components.
Print Assumptions C16_component_count_refuted.
Print Assumptions C17_split_annealing.
Print Assumptions C18_participation.
Print Assumptions C19_zscores.
Print Assumptions C20_roles.
Print Assumptions C03_merge_with_itself_refuted.
Print Assumptions C09_divisor.
Print Assumptions C10_self_loop_refuted.
Print Assumptions C11_create.
Print Assumptions C14_limit_one_returns_null.
Print Assumptions C14_one_step_returns_null.
Print Assumptions C18_participation_without_reset_refuted.
Print Assumptions C20_range.
Print Assumptions C20_monotone.
Print Assumptions C20_attained.

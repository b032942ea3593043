(** Properties2.v -- further properties of the partition library: the rules of the annealing (C41-C43) and the strengths after
    an assignment (C11). *)
From Coq Require Import List Arith Lia Bool QArith Qcanon.
From Verif Require Import Base Num ListLib PartModel MoveModel FillModel SAModel PartSpec AdjSpec ModSpec FillProof EdgeListExact
  CoreThms SARules Refute HeapModel HeapProof.
Import ListNotations.
Local Open Scope nat_scope.

Section Generic.
Context {A : Type} {ops : NumOps A}.
Implicit Types (p : partition A) (ds : list A).

Theorem C41_individual adj T p E ds p' E' ds' : individual_move adj T (p, E) ds = Ok (p', E', ds') ->
  exists u skipped v used old d b,
    ds = u :: skipped ++ v :: used ++ ds' /\
    group p (index u (pN p)) = Some old /\
    Forall (fun x => index x (pM p) = old) skipped /\ index v (pM p) <> old /\
    dEChangeModule (index u (pN p)) (index v (pM p)) p adj = Ok d /\ decision d T used b /\
    (b = true -> ChangeModule (index u (pN p)) (index v (pM p)) p = Ok p' /\ E' = nadd E d) /\
    (b = false -> p' = p /\ E' = E).
Proof. exact (individual_rule adj T p E ds p' E' ds'). Qed.

Theorem C41_merge adj T p E ds p' E' ds' : merge_move adj T (p, E) ds = Ok (p', E', ds') ->
  exists u g1, group p (index u (pN p)) = Some g1 /\
  ((pM p <= pnempty p + 1 /\ ds = u :: ds' /\ p' = p /\ E' = E) \/
   (pnempty p + 1 < pM p /\ exists skipped v g2 used d b,
      ds = u :: skipped ++ v :: used ++ ds' /\
      Forall (fun x => group p (index x (pN p)) = Some g1) skipped /\ group p (index v (pN p)) = Some g2 /\ g2 <> g1 /\
      dEMergeModules g1 g2 p adj = Ok d /\ decision d T used b /\
      (b = true -> MergeModules g1 g2 p = Ok p' /\ E' = nadd E d) /\
      (b = false -> p' = p /\ E' = E))).
Proof. exact (merge_rule adj T p E ds p' E' ds'). Qed.

Theorem C41_split adj Ti T proba limit p E ds p' E' ds' : split_move adj Ti T proba limit (p, E) ds = Ok (p', E', ds') ->
  (pnempty p = 0 /\ p' = p /\ E' = E /\ ds' = ds) \/
  (pnempty p <> 0 /\ exists e skipped v w t q ds1,
     first_empty_module p e /\ ds = skipped ++ v :: w :: ds1 /\
     Forall (fun x => exists m, group p (index x (pN p)) = Some m /\ size_of p m = Some 1) skipped /\
     group p (index v (pN p)) = Some t /\ size_of p t <> Some 1 /\
     exists ds2,
     ((nltb w proba = true /\ exists c q1 dsc, SplitModuleByComponent t e p adj ds1 = Ok (c, q1, dsc) /\
         ((c = 1 /\ SplitModuleSA t e Ti T (nofQ (95 # 100)%Q) limit q1 adj dsc = Ok (q, ds2)) \/
          (c <> 1 /\ q = q1 /\ ds2 = dsc))) \/
      (nltb w proba = false /\ SplitModuleSA t e Ti T (nofQ (95 # 100)%Q) limit p adj ds1 = Ok (q, ds2))) /\
     (((size_of q t = Some 0 \/ size_of q e = Some 0) /\ p' = q /\ E' = E /\ ds' = ds2) \/
      (size_of q t <> Some 0 /\ size_of q e <> Some 0 /\ exists d used b,
         dEMergeModules t e q adj = Ok d /\ ds2 = used ++ ds' /\ decision (nopp d) T used b /\
         (b = true -> p' = q /\ E' = nadd E (nopp d)) /\
         (b = false -> MergeModules t e q = Ok p' /\ E' = E)))).
Proof. exact (split_rule adj Ti T proba limit p E ds p' E' ds'). Qed.

Theorem C43_other_module_exists p old : 2 <= pM p -> exists m, m < pM p /\ m <> old.
Proof. exact (other_module_exists p old). Qed.

Theorem C43_merge_partner_exists p n g1 : valid p -> group p n = Some g1 -> pnempty p + 1 < pM p ->
  exists n2 g2, n2 < pN p /\ group p n2 = Some g2 /\ g2 <> g1.
Proof. exact (merge_partner_exists p n g1). Qed.

Theorem C43_splittable_exists p : valid p -> 0 < pN p -> pM p <= pN p -> pnempty p <> 0 ->
  exists n g k, n < pN p /\ group p n = Some g /\ size_of p g = Some k /\ 2 <= k.
Proof. exact (splittable_exists p). Qed.

(** With a single module the loop that draws another module never ends: every draw is refused. *)
Theorem C43_single_module_refuted ds : Forall (fun u => index u 1 = 0) ds ->
  pick_newg 1 0 ds = Err RngOut.
Proof.
  induction ds as [|u ds IH]; intros H; [reflexivity|]. apply Forall_cons_iff in H as [Hu H]. cbn [pick_newg].
  change (rng_index u 1) with (index u 1). rewrite Hu. cbn [Nat.eqb]. auto.
Qed.

(** The copy made by CopyPartitionStruct on the heap holds the same partition in objects of its own; moving, merging or freeing
    either of the two leaves the other as it was. *)
Theorem C08_copy_independent h r L p : Rep h r L p -> valid p -> pM p <= pN p ->
  exists c h1 Lc, h_CopyPartitionStruct r h = Ok (c, h1) /\ Rep h1 r L p /\ Rep h1 c Lc p /\
    disjoint (footprint r L) (footprint c Lc) /\
    (forall a, a < length h -> nth_error h1 a = nth_error h a) /\
    (forall l, Forall (hop_ok p) l -> exists h2 q, foldM (h_op c) h1 l = Ok h2 /\ foldM v_op p l = Ok q /\
       Rep h2 r L p /\ Rep h2 c Lc q) /\
    (forall l, Forall (hop_ok p) l -> exists h2 q, foldM (h_op r) h1 l = Ok h2 /\ foldM v_op p l = Ok q /\
       Rep h2 r L q /\ Rep h2 c Lc p) /\
    (exists h2, h_FreePartition c h1 = Ok h2 /\ Rep h2 r L p /\ forall a, In a (footprint c Lc) -> nth_error h2 a = Some CFreed) /\
    (exists h2, h_FreePartition r h1 = Ok h2 /\ Rep h2 c Lc p /\ forall a, In a (footprint r L) -> nth_error h2 a = Some CFreed).
Proof. exact (copy_independent h r L p). Qed.

(** Every valid partition is held by some heap. *)
Theorem C08_heap_exists p : valid p -> exists h r L, Rep h r L p.
Proof. exact (Rep_exists p). Qed.

(** The operations on heap objects are the operations on values used everywhere else. *)
Theorem C08_heap_refines h r L p l : Rep h r L p -> valid p -> Forall (hop_ok p) l ->
  exists h' p', foldM (h_op r) h l = Ok h' /\ foldM v_op p l = Ok p' /\ Rep h' r L p' /\ valid p' /\ only h h' r L.
Proof. exact (history_heap r L l h p). Qed.
End Generic.

Section Exact.
Variables ex sq : Qc -> Qc.
#[local] Instance opsP2 : NumOps Qc := Qc_ops ex sq.

Theorem C11_random_strengths p N M ds p' ds' : M <= N -> N <> M -> CreatePartition N M = Ok p ->
  Forall (fun j => j < M) ds -> N <= length ds -> AssignNodesToModules p ds = Ok (p', ds') -> strengths_ok p'.
Proof.
  intros HM HN E HD HL H. destruct (CreatePartition_fresh N M HM) as (q & Eq & F & N' & M' & _).
  rewrite E in Eq. injection Eq as <-. subst N M. exact (strengths_assign_random ex sq p ds p' ds' F HN HD HL H).
Qed.

Theorem C11_singletons_strengths p N ds p' ds' : CreatePartition N N = Ok p -> AssignNodesToModules p ds = Ok (p', ds') ->
  strengths_ok p'.
Proof.
  intros E H. destruct (CreatePartition_fresh N N (le_n N)) as (q & Eq & F & N' & M' & _).
  rewrite E in Eq. injection Eq as <-. exact (strengths_assign_singletons ex sq p ds p' ds' F (eq_trans N' (eq_sym M')) H).
Qed.

Theorem C42_best p adj fac Ti Tf Ts proba limit ds best bestE ds' :
  GeneralSA p adj fac Ti Tf Ts proba limit ds = Ok (best, bestE, ds') ->
  exists st log,
    temperature_run adj (individual_movements fac (pN p)) (collective_movements fac (pN p)) Ti Tf Ts proba limit Ti
      (mkSA p n0 n0 None None 0) ds st ds' log /\ is_best ex sq log best bestE.
Proof. exact (GeneralSA_best ex sq p adj fac Ti Tf Ts proba limit ds best bestE ds'). Qed.
End Exact.

(** The run of the C14 witness returns a partition: its log is not empty, so the movements, checkpoints and the copy of the
    best partition are all exercised. *)
Example best_met : exists b e,
  @GeneralSA Qc (Qc_ops ex0 sq0) p14 adj14 (qq (1 # 10)) (qq 1) (qq (985 # 1000)) (qq (99 # 100)) (qq 0) 5 ds14 = Ok (Some b, Some e, []).
Proof.
  destruct (@GeneralSA Qc (Qc_ops ex0 sq0) p14 adj14 (qq (1 # 10)) (qq 1) (qq (985 # 1000)) (qq (99 # 100)) (qq 0) 5 ds14)
    as [[[[b|] [e|]] [|]]|] eqn:E; vm_compute in E; try discriminate E. eauto.
Qed.

(** One accepted and one refused individual movement, and a split on the same partition. *)
Example movements_met :
  (exists p' E', @individual_move Qc (Qc_ops ex0 sq0) adj14 (qq 1) (p14, qq 0) [qq 0; qq 0; qq (1 # 2); qq 0] = Ok (p', E', []) /\ group p' 0 = Some 1) /\
  (exists E', @individual_move Qc (Qc_ops ex0 sq0) adj14 (qq 1) (p14, qq 0) [qq 0; qq 0; qq (1 # 2); qq (9999 # 10000)] = Ok (p14, E', [])).
Proof. split; [eexists; eexists; split; vm_compute; reflexivity|eexists; vm_compute; reflexivity]. Qed.

Print Assumptions C11_random_strengths.
Print Assumptions C11_singletons_strengths.
Print Assumptions C41_individual.
Print Assumptions C41_merge.
Print Assumptions C41_split.
Print Assumptions C42_best.
Print Assumptions C43_merge_partner_exists.
Print Assumptions C43_splittable_exists.
Print Assumptions C08_copy_independent.
Print Assumptions C08_heap_exists.
Print Assumptions C08_heap_refines.
Print Assumptions C43_other_module_exists.
Print Assumptions C43_single_module_refuted.

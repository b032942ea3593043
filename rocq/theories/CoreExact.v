(** CoreExact.v -- the exact-arithmetic properties in terms of [valid] only. *)
From Coq Require Import List Arith Lia Bool QArith Qcanon.
From Verif Require Import Base Num ListLib QcSum PartModel MoveModel FillModel SAModel PartSpec AdjSpec ModSpec PartInv
  ChangeProof MergeProof Steps FillProof CopyProof CompressProof SplitProof EnergyForm SAProof ExactProof ModularityProof SAExact
  EdgeListProof EdgeListExact RolesProof RolesBounds CoreThms.
Import ListNotations.
Local Open Scope nat_scope.

Section Exact.
Variables ex sq : Qc -> Qc.
#[local] Instance opsP : NumOps Qc := Qc_ops ex sq.
Implicit Types (p q : partition Qc) (adj : adja Qc).

Lemma move_strengths p n m p' : valid p -> strengths_ok p -> n < pN p -> m < pM p -> ChangeModule n m p = Ok p' -> strengths_ok p'.
Proof.
  intros V S Hn Hm E. apply valid_WF in V as W. destruct (wf_node _ _ _ W Hn) as (nd & En & _).
  exact (strengths_change ex sq p _ n m nd p' W S En Hm E).
Qed.

Lemma merge_strengths p a b p' : valid p -> strengths_ok p -> a <> b -> a < pM p -> b < pM p ->
  MergeModules a b p = Ok p' -> strengths_ok p'.
Proof. intros V. apply valid_WF in V as W. exact (strengths_merge ex sq p _ a b p' W). Qed.

Theorem move_gain p adj n m : valid p -> strengths_ok p -> adj_ok adj (pN p) -> sym_w adj -> ~ adjacent adj n n ->
  n < pN p -> m < pM p -> group p n <> Some m ->
  exists p' d, ChangeModule n m p = Ok p' /\ dEChangeModule n m p adj = Ok d /\
    d = (modularity p' adj - modularity p adj)%Qc.
Proof.
  intros V S HA SW NL Hn Hm Hg. apply valid_WF in V as W. destruct (wf_node _ _ _ W Hn) as (nd & En & _).
  destruct (move_spec p n m V Hn Hm) as (p' & E & _).
  destruct (dEChangeModule_form p _ adj n m nd W HA En Hm) as (mo & mn & _ & _ & Ed).
  destruct (dEChangeModule n m p adj) as [d|] eqn:EdE; [clear Ed|discriminate].
  exists p', d. splits; auto. eapply (dEChangeModule_exact ex sq p); eauto.
  intros ->. apply Hg. unfold group. now rewrite En.
Qed.

Lemma dEMergeModules_total p ls adj a b : WF p ls -> adj_ok adj (pN p) -> a < pM p -> b < pM p ->
  exists d, dEMergeModules a b p adj = Ok d.
Proof.
  intros W HA Ha Hb. destruct (dEMergeModules_form p ls adj a b W HA Ha Hb) as (ma & mb & _ & _ & E).
  destruct (if length (ls b) <? length (ls a) then (b, a) else (a, b)) as [s l]. eauto.
Qed.

Theorem merge_gain p adj a b : valid p -> strengths_ok p -> adj_ok adj (pN p) -> sym_w adj -> a <> b -> a < pM p -> b < pM p ->
  exists p' d, MergeModules a b p = Ok p' /\ dEMergeModules a b p adj = Ok d /\ dEMergeModules b a p adj = Ok d /\
    d = (modularity p' adj - modularity p adj)%Qc.
Proof.
  intros V S HA SW Hne Ha Hb. apply valid_WF in V as W.
  destruct (merge_spec p a b V Hne Ha Hb) as (p' & E & _).
  destruct (dEMergeModules_total p _ adj a b W HA Ha Hb) as [d Ed].
  destruct (dEMergeModules_total p _ adj b a W HA Hb Ha) as [d' Ed'].
  assert (d = d') by (exact (dEMergeModules_sym ex sq p _ adj a b d d' W HA SW Ha Hb Ed Ed')). subst d'.
  exists p', d. splits; auto. exact (dEMergeModules_exact ex sq p _ adj a b p' d W S HA SW Hne Ha Hb Ed E).
Qed.

Theorem modularity_computed p adj diag : valid p -> adj_ok adj (pN p) -> sym_w adj -> simple_rows adj ->
  PartitionModularity p adj diag = Ok (if diag then modularity_diag p adj else modularity p adj).
Proof. intros V. apply valid_WF in V as W. exact (PartitionModularity_exact ex sq p _ adj diag W). Qed.

Theorem modularity_of_grouping p q adj : valid p -> valid q -> pN q = pN p -> (forall i, strength q i = strength p i) ->
  (forall i j, i < pN p -> j < pN p -> (group p i = group p j <-> group q i = group q j)) ->
  modularity q adj = modularity p adj /\ modularity_diag q adj = modularity_diag p adj.
Proof.
  intros Vp Vq HN HS HG. apply valid_WF in Vp as Wp. apply valid_WF in Vq as Wq.
  assert (E : modularity q adj = modularity p adj) by (exact (modularity_grouping p _ q _ adj Wp Wq HN HS HG)).
  split; auto. unfold modularity_diag. rewrite E, HN. f_equal. apply Qsum_ext. intros i _. unfold kk. now rewrite HS.
Qed.

Theorem compress_modularity p p' adj : valid p -> 0 < pN p -> CompressPartition p = Ok p' ->
  modularity p' adj = modularity p adj /\ (strengths_ok p -> strengths_ok p').
Proof.
  intros V HN E. destruct (compress_spec p V HN) as (q & Eq & V' & N' & _ & _ & _ & G & S). rewrite E in Eq. injection Eq as <-.
  split.
  - apply (modularity_of_grouping p p' adj V V' N' S). intros i j Hi Hj. symmetry. now apply G.
  - intros H. apply valid_WF in V as W. exact (strengths_compress p _ p' W HN H E).
Qed.

Theorem annealing_valid p adj fac Ti Tf Ts proba limit ds : valid p -> adj_ok adj (pN p) -> sym_adj adj ->
  0 < pN p -> pM p <= pN p -> Forall good_draw ds ->
  match GeneralSA p adj fac Ti Tf Ts proba limit ds with
  | Ok (Some b, Some e, _) => valid b /\ pN b = pN p /\ pM b = pM p /\ (forall i, strength b i = strength p i) /\
      (strengths_ok p -> sym_w adj -> loop_free adj -> strengths_ok b /\ e = (modularity b adj - modularity p adj)%Qc)
  | Ok (None, None, _) => True
  | Ok _ => False
  | Err e => e = RngOut
  end.
Proof.
  intros V HA HS HN HMN Hd. apply valid_WF in V as W.
  pose proof (@GeneralSA_safe Qc _ adj p _ W HA HS HN HMN (fun _ _ => True)) as H.
  specialize (H (fun _ _ _ _ _ _ _ _ _ _ _ _ _ _ => I) (fun _ _ _ _ _ _ _ _ _ _ _ _ _ => I)
                (fun _ _ _ _ _ _ _ _ _ _ _ _ _ => I) (fun _ _ _ _ _ _ _ => I) fac Ti Tf Ts proba limit ds I Hd).
  pose proof (GeneralSA_energy ex sq p _ adj fac Ti Tf Ts proba limit ds W) as HE.
  change (opsE ex sq) with opsP in HE.
  destruct (GeneralSA p adj fac Ti Tf Ts proba limit ds) as [[[[b|] [e|]] d]|er]; cbn in *; auto.
  destruct H as [St _]. destruct (steps_WF p _ b W St) as (lb & Wb & Nb & Mb & Sb). splits; auto.
  - eapply WF_valid; eauto.
  - intros SO SW LF. split.
    + exact (strengths_steps ex sq p _ b W SO St).
    + apply HE; auto.
Qed.

Theorem metrics_exact p adj init : valid p -> adj_ok adj (pN p) -> length init = pN p ->
  exists conn part, PartitionRolesMetrics p adj init = Ok (conn, part) /\ length conn = pN p /\ length part = pN p /\
    (forall i g, group p i = Some g -> nth_error conn i = Some (zscore sq p adj i g)) /\
    (forall i, i < pN p -> nth_error part i = option_map (participation_value p adj i) (nth_error init i)).
Proof.
  intros V HA HL. apply valid_WF in V as W. destruct (PartitionRolesMetrics_exact ex sq p _ adj init W HA HL) as (c & t & E & L1 & L2 & C & P).
  exists c, t. splits; auto. intros i g Hg.
  assert (Hi : i < pN p). { rewrite <- (valid_N _ V). apply nth_error_Some. unfold group in Hg. destruct (nth_error (pnodes p) i); discriminate. }
  rewrite C by auto. unfold gof. now rewrite Hg.
Qed.

End Exact.

Section Generic.
Context {A : Type} {ops : NumOps A}.
Implicit Types (p : partition A).

Theorem annealing_safe p adj fac Ti Tf Ts proba limit ds : valid p -> adj_ok adj (pN p) -> sym_adj adj ->
  0 < pN p -> pM p <= pN p -> Forall good_draw ds ->
  match GeneralSA p adj fac Ti Tf Ts proba limit ds with
  | Ok (Some b, Some e, _) => valid b /\ pN b = pN p /\ pM b = pM p /\ (forall i, strength b i = strength p i)
  | Ok (None, None, _) => True
  | Ok _ => False
  | Err e => e = RngOut
  end.
Proof.
  intros V HA HS HN HMN Hd. apply valid_WF in V as W.
  pose proof (@GeneralSA_safe A _ adj p _ W HA HS HN HMN (fun _ _ => True)) as H.
  specialize (H (fun _ _ _ _ _ _ _ _ _ _ _ _ _ _ => I) (fun _ _ _ _ _ _ _ _ _ _ _ _ _ => I)
                (fun _ _ _ _ _ _ _ _ _ _ _ _ _ => I) (fun _ _ _ _ _ _ _ => I) fac Ti Tf Ts proba limit ds I Hd).
  destruct (GeneralSA p adj fac Ti Tf Ts proba limit ds) as [[[[b|] [e|]] d]|er]; cbn in *; auto.
  destruct H as [St _]. destruct (steps_WF p _ b W St) as (lb & Wb & Nb & Mb & Sb). splits; auto.
  eapply WF_valid; eauto.
Qed.

Theorem split_components p adj t e ds : valid p -> adj_ok adj (pN p) -> sym_adj adj -> t < pM p -> e < pM p ->
  match SplitModuleByComponent t e p adj ds with
  | Err er => er = RngOut
  | Ok (c, p', _) =>
      valid p' /\ pN p' = pN p /\ pM p' = pM p /\ (forall i, strength p' i = strength p i) /\
      (forall i, group p i <> Some t -> group p' i = group p i) /\
      (forall i, group p i = Some t -> group p' i = Some t \/ group p' i = Some e) /\
      (exists comp : nat -> nat,
         (forall x, group p x = Some t -> 1 <= comp x <= c) /\
         (forall k, 1 <= k <= c -> exists x, group p x = Some t /\ comp x = k) /\
         (forall x y, group p x = Some t -> group p y = Some t -> (comp x = comp y <-> connected adj x y))) /\
      (forall x y, group p x = Some t -> group p y = Some t -> connected adj x y -> group p' x = group p' y) /\
      (c <= 1 -> p' = p) /\
      (2 <= c -> (exists x, group p x = Some t /\ group p' x = Some t) /\
                 (exists x, group p x = Some t /\ group p' x = Some e))
  end.
Proof.
  intros V HA HS Ht He. apply valid_WF in V as W.
  pose proof (SplitModuleByComponent_spec adj p _ t W HA HS e ds Ht He) as H.
  destruct (SplitModuleByComponent t e p adj ds) as [[[c q] ds']|er]; auto.
  destruct H as (ls' & comp & W' & St & N' & M' & OM & C1 & C2 & C3 & C4 & C5 & C6).
  destruct (steps_WF p _ q W St) as (_ & _ & _ & _ & S).
  assert (M : forall x, In x (members p t) <-> group p x = Some t) by (intros; apply (wf_mem _ _ W)).
  splits; auto.
  - eapply WF_valid; eauto.
  - intros i Hi. destruct (OM i) as [|[? _]]; [auto|congruence].
  - intros i Hi. destruct (OM i) as [E|[_ E]]; auto. left; congruence.
  - exists comp. splits.
    + intros x Hx. apply C1, M, Hx.
    + intros k Hk. destruct (C2 k Hk) as (x & Hx & E). exists x. split; auto. now apply M.
    + intros x y Hx Hy. apply C3; now apply M.
  - intros x y Hx Hy. apply C4; now apply M.
  - intros Hc. destruct (C6 Hc) as [(x & Hx & E) (y & Hy & F)]. split; [exists x|exists y]; split; auto; now apply M.
Qed.

Theorem split_annealing p adj t e Ti Tf Ts limit ds : valid p -> adj_ok adj (pN p) -> 0 < pN p -> pM p <= pN p ->
  t < pM p -> e < pM p -> (exists i, group p i = Some t) -> Forall good_draw ds ->
  match SplitModuleSA t e Ti Tf Ts limit p adj ds with
  | Err er => er = RngOut
  | Ok (p', _) => valid p' /\ pN p' = pN p /\ pM p' = pM p /\ (forall i, strength p' i = strength p i) /\
      (forall i, group p i <> Some t -> group p' i = group p i) /\
      (forall i, group p i = Some t -> group p' i = Some t \/ group p' i = Some e)
  end.
Proof.
  intros V HA HN HMN Ht He [i0 Hi0] Hd. apply valid_WF in V as W.
  assert (M : forall x, In x (members p t) <-> group p x = Some t) by (intros; apply (wf_mem _ _ W)).
  assert (Hne : members p t <> []). { apply M in Hi0. intros X. rewrite X in Hi0. destruct Hi0. }
  pose proof (SplitModuleSA_safe adj p _ W HA HN HMN p _ t e Ti Tf Ts limit ds (steps_refl p) W Ht He Hne Hd) as H.
  destruct (SplitModuleSA t e Ti Tf Ts limit p adj ds) as [[q ds']|er]; cbn in *; auto.
  destruct H as (St & [C1 C2] & _). destruct (steps_WF p _ q W St) as (lq & Wq & N' & M' & S). splits; auto.
  - eapply WF_valid; eauto.
  - intros i Hi. apply C2. intros X. apply Hi, M, X.
  - intros i Hi. apply C1, M, Hi.
Qed.

Theorem copy_equal p : valid p -> pM p <= pN p -> CopyPartitionStruct p = Ok p.
Proof. intros V. apply valid_WF in V as W. exact (CopyPartition_spec p _ W). Qed.
End Generic.

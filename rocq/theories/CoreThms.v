(** CoreThms.v -- the partition properties in terms of [valid] only, including sequences of operations. *)
From Coq Require Import List Arith Lia Bool QArith Qcanon.
From Verif Require Import Base Num ListLib QcSum PartModel MoveModel FillModel SAModel PartSpec AdjSpec ModSpec PartInv
  ChangeProof MergeProof Steps FillProof CopyProof CompressProof SplitProof EnergyForm SAProof ExactProof ModularityProof
  EdgeListExact.
Import ListNotations.
Local Open Scope nat_scope.

Section Core.
Context {A : Type} {ops : NumOps A}.
Implicit Types p : partition A.

(** ** C02 *)
Theorem move_spec p n m : valid p -> n < pN p -> m < pM p ->
  exists p', ChangeModule n m p = Ok p' /\ valid p' /\ pN p' = pN p /\ pM p' = pM p /\
    group p' n = Some m /\ (forall i, i <> n -> group p' i = group p i) /\
    (forall i, strength p' i = strength p i).
Proof.
  intros V Hn Hm. apply valid_WF in V as W. destruct (wf_node _ _ _ W Hn) as (nd & En & _).
  destruct (ChangeModule_spec p _ n m nd W En Hm) as (p' & E & W' & N' & M' & G & S & _).
  exists p'. splits; auto.
  - eapply WF_valid; eauto.
  - rewrite G, Nat.eqb_refl. auto.
  - intros i Hi. rewrite G, (proj2 (Nat.eqb_neq _ _) Hi). auto.
Qed.

(** ** C03 *)
Definition module_at p (m : nat) : option (nat * A) := option_map (fun md => (msize md, mstr md)) (nth_error (pmods p) m).

Theorem merge_spec p a b : valid p -> a <> b -> a < pM p -> b < pM p ->
  exists p', MergeModules a b p = Ok p' /\ valid p' /\ pN p' = pN p /\ pM p' = pM p /\
    (forall i, strength p' i = strength p i) /\
    (((forall i, group p i <> Some a) \/ (forall i, group p i <> Some b)) -> p' = p) /\
    ((exists i, group p i = Some a) -> (exists i, group p i = Some b) ->
       exists s l, ((s = a /\ l = b) \/ (s = b /\ l = a)) /\
         (forall i, group p' i = Some l <-> group p i = Some a \/ group p i = Some b) /\
         (forall i, group p' i <> Some s) /\ module_at p' s = Some (0, n0) /\
         (forall i, group p i <> Some a -> group p i <> Some b -> group p' i = group p i) /\
         (forall m, m <> a -> m <> b -> module_at p' m = module_at p m)).
Proof.
  intros V Hne Ha Hb. apply valid_WF in V as W. set (ls := members p) in *.
  destruct (wf_module _ _ _ W Ha) as (m1 & E1 & _ & S1 & _).
  destruct (wf_module _ _ _ W Hb) as (m2 & E2 & _ & S2 & _).
  assert (Hnil : forall m, (forall i, group p i <> Some m) <-> ls m = []).
  { intros m. split; intros H.
    - destruct (ls m) as [|i l] eqn:El; auto. exfalso. apply (H i). apply (wf_mem _ _ W). rewrite El. left; auto.
    - intros i Hi. apply (wf_mem _ _ W) in Hi. rewrite H in Hi. destruct Hi. }
  assert (Hz : ls a = [] \/ ls b = [] -> MergeModules a b p = Ok p).
  { intros H. unfold MergeModules. rewrite (get_ok _ _ _ E1). cbn [bind]. rewrite (get_ok _ _ _ E2). cbn [bind].
    rewrite S1, S2. destruct H as [-> | ->]; cbn [length Nat.eqb orb]; rewrite ?orb_true_r; auto. }
  destruct (list_eq_dec Nat.eq_dec (ls a) []) as [Za|NZa].
  { exists p. splits; auto. intros [i Hi] _. exfalso. eapply (proj2 (Hnil a)); eauto. }
  destruct (list_eq_dec Nat.eq_dec (ls b) []) as [Zb|NZb].
  { exists p. splits; auto. intros _ [i Hi]. exfalso. eapply (proj2 (Hnil b)); eauto. }
  destruct (if length (ls b) <? length (ls a) then (b, a) else (a, b)) as [s l] eqn:Esl.
  assert (Hsl : ((s = a /\ l = b) \/ (s = b /\ l = a))) by (destruct (_ <? _); injection Esl as <- <-; auto).
  assert (Hs : s < pM p) by intuition congruence. assert (Hl : l < pM p) by intuition congruence.
  assert (Hsl' : s <> l) by (intuition congruence).
  destruct (wf_module _ _ _ W Hs) as (ms & Es & _). destruct (wf_module _ _ _ W Hl) as (ml & El & _).
  destruct (MergeModules_large p ls a b s l ms ml W Hne Ha Hb (eq_sym Esl) Es El NZa NZb) as (p' & E & W' & N' & M' & G & S & St).
  exists p'. splits; auto.
  - eapply WF_valid; eauto.
  - intros [H|H]; apply Hnil in H; congruence.
  - intros _ _. exists s, l. splits; auto.
    + intros i. rewrite G. destruct (mem_spec i (ls s)) as [Hi|Hi].
      * apply (wf_mem _ _ W) in Hi. split; auto. intros _. destruct Hsl as [[-> ->]|[-> ->]]; auto.
      * rewrite (wf_mem _ _ W) in Hi. destruct Hsl as [[-> ->]|[-> ->]]; tauto.
    + intros i. rewrite G. destruct (mem_spec i (ls s)) as [Hi|Hi]; [congruence|]. now rewrite (wf_mem _ _ W) in Hi.
    + destruct (wf_module p' _ s W') as (ms' & Es' & _ & Sz' & _); [lia|]. unfold module_at. rewrite Es'. cbn.
      rewrite Sz'. specialize (St s). rewrite Nat.eqb_refl, Es' in St. cbn in St. injection St as ->.
      unfold ls_merge, fupd. rewrite (proj2 (Nat.eqb_neq s l)) by auto. rewrite Nat.eqb_refl. reflexivity.
    + intros i H1 H2. rewrite G. destruct (mem_spec i (ls s)) as [Hi|Hi]; auto.
      apply (wf_mem _ _ W) in Hi. destruct Hsl as [[-> ->]|[-> ->]]; congruence.
    + intros m Hma Hmb. assert (m <> s /\ m <> l) as [Hms Hml] by (intuition congruence).
      specialize (St m). rewrite (proj2 (Nat.eqb_neq m s)), (proj2 (Nat.eqb_neq m l)) in St by auto.
      unfold module_at. destruct (nth_error (pmods p) m) as [mm|] eqn:Em; destruct (nth_error (pmods p') m) as [mm'|] eqn:Em'; cbn in *; try discriminate; auto.
      injection St as St. f_equal. f_equal; auto.
      rewrite (wf_size _ _ W _ _ Em), (wf_size _ _ W' _ _ Em'). unfold ls_merge, fupd.
      rewrite (proj2 (Nat.eqb_neq m s)), (proj2 (Nat.eqb_neq m l)) by auto. reflexivity.
Qed.

(** ** C07 *)
Theorem compress_spec p : valid p -> 0 < pN p ->
  exists p', CompressPartition p = Ok p' /\ valid p' /\ pN p' = pN p /\
    pM p' = length (filter (fun md => negb (msize md =? 0)) (pmods p)) /\ pnempty p' = 0 /\
    (forall m, m < pM p' -> exists i, group p' i = Some m) /\
    (forall i j, i < pN p -> j < pN p -> (group p' i = group p' j <-> group p i = group p j)) /\
    (forall i, strength p' i = strength p i).
Proof.
  intros V HN. apply valid_WF in V as W. set (ls := members p) in *.
  destruct (CompressPartition_spec p ls W HN) as (q & lq & f & Eq & Wq & N' & M' & NE' & G & L & NN & St).
  exists q. splits; auto.
  - eapply WF_valid; eauto.
  - rewrite M', (valid_nempty _ V), <- (valid_M _ V).
    clear. induction (pmods p) as [|md l IH]; cbn [length filter]; auto.
    pose proof (count_le (fun md0 : module A => msize md0 =? 0) l). unfold count in *.
    destruct (msize md =? 0); cbn [negb length]; lia.
  - intros m Hm. destruct (lq m) as [|i l] eqn:El; [exfalso; apply (NN m Hm); auto|]. exists i. apply (wf_mem _ _ Wq). rewrite El. left; auto.
  - intros i j Hi Hj. rewrite !G.
    destruct (wf_node _ _ _ W Hi) as (ni & Ei & _). destruct (wf_node _ _ _ W Hj) as (nj & Ej & _).
    assert (Gi : group p i = Some (nmod ni)) by (unfold group; now rewrite Ei).
    assert (Gj : group p j = Some (nmod nj)) by (unfold group; now rewrite Ej).
    rewrite Gi, Gj. cbn. split; [|congruence]. intros H. injection H as H.
    apply (wf_mem _ _ W) in Gi as Hi'. apply (wf_mem _ _ W) in Gj as Hj'.
    destruct (L (nmod ni)) as [L1 _]; [intros X; rewrite X in Hi'; destruct Hi'|].
    destruct (L (nmod nj)) as [L2 _]; [intros X; rewrite X in Hj'; destruct Hj'|].
    rewrite H, L2 in L1. rewrite <- L1 in Hi'. apply (wf_mem _ _ W) in Hi'. congruence.
Qed.

(** ** C11 *)
Theorem assign_random p N M ds : M <= N -> N <> M -> CreatePartition N M = Ok p ->
  Forall (fun j => j < M) ds -> N <= length ds ->
  exists p', AssignNodesToModules p ds = Ok (p', skipn N ds) /\ valid p' /\ pN p' = N /\ pM p' = M /\
    (forall i, i < N -> group p' i = nth_error ds i).
Proof.
  intros HMN Hne EC Hds Hlen. destruct (CreatePartition_fresh N M HMN) as (p0 & E0 & F0 & N0 & M0 & G0).
  rewrite EC in E0. injection E0 as <-.
  destruct (AssignNodes_random (fun _ _ => True) p ds F0) as (p' & ls & E & W & _ & N' & M' & G & S); auto; try lia.
  { rewrite M0; auto. }
  exists p'. rewrite N0 in *. splits; auto; try lia. eapply WF_valid; eauto.
Qed.

Theorem assign_singletons p N ds : CreatePartition N N = Ok p ->
  exists p', AssignNodesToModules p ds = Ok (p', ds) /\ valid p' /\ pN p' = N /\ pM p' = N /\
    (forall i, i < N -> group p' i = Some i).
Proof.
  intros EC. destruct (CreatePartition_fresh N N (le_n N)) as (p0 & E0 & F0 & N0 & M0 & G0).
  rewrite EC in E0. injection E0 as <-.
  destruct (AssignNodes_singletons p ds F0) as (p' & E & W & N' & M' & G & _); [lia|].
  exists p'. rewrite N0 in *. splits; auto; try lia. eapply WF_valid; eauto.
Qed.

(** ** C01: sequences of operations *)
Inductive pop : Type :=
| OMove (n m : nat)
| OMerge (a b : nat)
| OSplitComponents (t e : nat) (ds : list A)
| OSplitSA (t e : nat) (Ti Tf Ts : A) (limit : nat) (ds : list A)
| OCopy
| OCompress.

Definition run_op (adj : adja A) (o : pop) p : res (partition A) :=
  match o with
  | OMove n m => ChangeModule n m p
  | OMerge a b => MergeModules a b p
  | OSplitComponents t e ds => do (_, p', _) <- SplitModuleByComponent t e p adj ds; Ok p'
  | OSplitSA t e Ti Tf Ts limit ds => do (p', _) <- SplitModuleSA t e Ti Tf Ts limit p adj ds; Ok p'
  | OCopy => CopyPartitionStruct p
  | OCompress => CompressPartition p
  end.

(** In-range arguments; random draws in [0,1); nested annealing is called on a non-empty module. *)
Definition op_ok (o : pop) p : Prop :=
  match o with
  | OMove n m => n < pN p /\ m < pM p
  | OMerge a b => a <> b /\ a < pM p /\ b < pM p
  | OSplitComponents t e ds => t < pM p /\ e < pM p
  | OSplitSA t e Ti Tf Ts limit ds => t < pM p /\ e < pM p /\ (exists i, group p i = Some t) /\ Forall good_draw ds
  | OCopy | OCompress => True
  end.

(** [reaches adj p l q]: running the operations [l], each with acceptable arguments, from [p] gives [q]. *)
Inductive reaches (adj : adja A) p : list pop -> res (partition A) -> Prop :=
| reach_nil : reaches adj p [] (Ok p)
| reach_snoc l o q : reaches adj p l (Ok q) -> op_ok o q -> reaches adj p (l ++ [o]) (run_op adj o q).

Lemma run_op_valid adj o p : valid p -> 0 < pN p -> pM p <= pN p -> adj_ok adj (pN p) -> sym_adj adj -> op_ok o p ->
  safe (run_op adj o p) (fun q => valid q /\ pN q = pN p /\ pM q <= pN q /\ (forall i, strength q i = strength p i)).
Proof.
  intros V HN HMN HA HS Hop. apply valid_WF in V as W. set (ls := members p) in *. destruct o; cbn [run_op op_ok] in *.
  - destruct Hop as [Hn Hm]. destruct (move_spec p n m V Hn Hm) as (q & -> & V' & N' & M' & _ & _ & S). cbn. splits; auto; lia.
  - destruct Hop as (Hne & Ha & Hb). destruct (merge_spec p a b V Hne Ha Hb) as (q & -> & V' & N' & M' & S & _). cbn. splits; auto; lia.
  - destruct Hop as [Ht He]. pose proof (SplitModuleByComponent_spec adj p ls t W HA HS e ds Ht He) as H.
    destruct (SplitModuleByComponent t e p adj ds) as [[[c q] ds']|er]; cbn; auto.
    destruct H as (ls' & comp & W' & St & N' & M' & _). destruct (steps_WF p ls q W St) as (_ & _ & _ & _ & S).
    splits; auto; try lia. eapply WF_valid; eauto.
  - destruct Hop as (Ht & He & [i Hi] & Hd).
    assert (Hne : ls t <> []). { apply (wf_mem _ _ W) in Hi. intros X. rewrite X in Hi. destruct Hi. }
    pose proof (SplitModuleSA_safe adj p ls W HA) as H.
    specialize (H HN HMN p ls t e Ti Tf Ts limit ds (steps_refl p) W Ht He Hne Hd).
    destruct (SplitModuleSA t e Ti Tf Ts limit p adj ds) as [[q ds']|er]; cbn in *; auto.
    destruct H as (St & _ & _). destruct (steps_WF p ls q W St) as (lq & Wq & N' & M' & S). splits; auto; try lia. eapply WF_valid; eauto.
  - rewrite (CopyPartition_spec p ls W HMN). cbn. splits; auto.
  - destruct (compress_spec p V HN) as (q & -> & V' & N' & M' & _ & _ & _ & S). cbn. splits; auto. rewrite M', N'.
    etransitivity; [apply (count_le (fun md : module A => negb (msize md =? 0)))|]. rewrite (valid_M _ V). auto.
Qed.

Theorem operations_valid adj p l r : valid p -> 0 < pN p -> pM p <= pN p -> adj_ok adj (pN p) -> sym_adj adj ->
  reaches adj p l r ->
  match r with
  | Ok q => valid q /\ pN q = pN p /\ pM q <= pN q /\ (forall i, strength q i = strength p i)
  | Err e => e = RngOut
  end.
Proof.
  intros V HN HMN HA HS H. induction H as [|l o q H IH Hop].
  - splits; auto.
  - destruct IH as (Vq & Nq & Mq & Sq). pose proof (run_op_valid adj o q Vq) as R.
    rewrite Nq in R. specialize (R HN). rewrite <- Nq in R at 1. specialize (R Mq HA HS Hop).
    destruct (run_op adj o q) as [r|e]; cbn in *; auto. destruct R as (V' & N' & M' & S'). splits; auto; try congruence.
Qed.

End Core.

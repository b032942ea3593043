(** Steps.v -- sequences of ChangeModule and MergeModules calls with arguments in range. *)
From Coq Require Import List Arith Lia Bool.
From Verif Require Import Base ListLib PartModel MoveModel PartSpec PartInv ChangeProof MergeProof.
Import ListNotations.
Local Open Scope nat_scope.

Section Steps.
Context {A : Type} {ops : NumOps A}.
Implicit Types p q r : partition A.

Inductive steps p : partition A -> Prop :=
| steps_refl : steps p p
| steps_change q r n m : steps p q -> n < pN q -> m < pM q -> ChangeModule n m q = Ok r -> steps p r
| steps_merge q r a b : steps p q -> a <> b -> a < pM q -> b < pM q -> MergeModules a b q = Ok r -> steps p r.

Lemma steps_trans p q r : steps p q -> steps q r -> steps p r.
Proof.
  intros H1 H2. induction H2.
  - auto.
  - eapply steps_change; eauto.
  - eapply steps_merge with (a := a) (b := b); eauto.
Qed.

(** MergeModules on any two different modules, empty or not. *)
Lemma MergeModules_spec p ls a b : WF p ls -> a <> b -> a < pM p -> b < pM p ->
  exists p' ls', MergeModules a b p = Ok p' /\ WF p' ls' /\ pN p' = pN p /\ pM p' = pM p /\
    (forall i, strength p' i = strength p i) /\
    (forall i j, group p' i = group p' j <->
       group p i = group p j \/
       ((group p i = Some a \/ group p i = Some b) /\ (group p j = Some a \/ group p j = Some b))) /\
    (forall i, group p i <> Some a -> group p i <> Some b -> group p' i = group p i).
Proof.
  intros W Hne Ha Hb.
  destruct (wf_module _ _ _ W Ha) as (m1 & E1 & _ & S1 & _).
  destruct (wf_module _ _ _ W Hb) as (m2 & E2 & _ & S2 & _).
  destruct (list_eq_dec Nat.eq_dec (ls a) []) as [Z|NZ].
  { exists p, ls. splits; auto.
    - unfold MergeModules. rewrite (get_ok _ _ _ E1). cbn [bind].
      rewrite (get_ok _ _ _ E2). cbn [bind]. rewrite S1, Z. reflexivity.
    - assert (F : forall i, group p i <> Some a) by (intros i Hi; apply (wf_mem _ _ W) in Hi; rewrite Z in Hi; auto).
      intros i j. split; auto. intros [|[[Hi|Hi] [Hj|Hj]]]; auto; try congruence; exfalso; eapply F; eauto. }
  destruct (list_eq_dec Nat.eq_dec (ls b) []) as [Z2|NZ2].
  { exists p, ls. splits; auto.
    - unfold MergeModules. rewrite (get_ok _ _ _ E1). cbn [bind].
      rewrite (get_ok _ _ _ E2). cbn [bind]. rewrite S2, Z2. simpl. rewrite orb_true_r. reflexivity.
    - assert (F : forall i, group p i <> Some b) by (intros i Hi; apply (wf_mem _ _ W) in Hi; rewrite Z2 in Hi; auto).
      intros i j. split; auto. intros [|[[Hi|Hi] [Hj|Hj]]]; auto; try congruence; exfalso; eapply F; eauto. }
  remember (if length (ls b) <? length (ls a) then (b, a) else (a, b)) as sl eqn:Esl. destruct sl as [small large].
  assert (exists ms ml, nth_error (pmods p) small = Some ms /\ nth_error (pmods p) large = Some ml) as (ms & ml & Q1 & Q2).
  { destruct (_ <? _); injection Esl as -> ->; eauto. }
  destruct (MergeModules_large p ls a b small large ms ml W Hne Ha Hb Esl Q1 Q2 NZ NZ2) as (p' & E & W' & N' & M' & G' & S' & _).
  exists p', (ls_merge ls small large).
  assert (Gs : forall i, (In i (ls small) <-> group p i = Some small)) by (intros; apply (wf_mem _ _ W)).
  assert (Hsl : (small = a /\ large = b) \/ (small = b /\ large = a)) by (destruct (_ <? _); injection Esl as -> ->; auto).
  splits; auto.
  - intros i j. rewrite !G'.
    destruct (mem_spec i (ls small)) as [Hi|Hi]; destruct (mem_spec j (ls small)) as [Hj|Hj]; rewrite Gs in Hi, Hj;
      destruct Hsl as [[-> ->]|[-> ->]]; split; intros H; try tauto; try congruence;
      try (right; split; auto; fail); try (symmetry in H; tauto);
      repeat match goal with [H : _ \/ _ |- _] => destruct H | [H : _ /\ _ |- _] => destruct H end; congruence.
  - intros i Hia Hib. rewrite G'. destruct (mem_spec i (ls small)) as [Hi|]; auto. rewrite Gs in Hi.
    destruct Hsl as [[-> ->]|[-> ->]]; congruence.
Qed.

Lemma steps_WF p ls q : WF p ls -> steps p q ->
  exists lq, WF q lq /\ pN q = pN p /\ pM q = pM p /\ (forall i, strength q i = strength p i).
Proof.
  intros W H. induction H as [|q r n m H IH Hn Hm E|q r a b H IH Hne Ha Hb E].
  - exists ls. splits; auto.
  - destruct IH as (lq & Wq & N & M & S). destruct (wf_node _ _ _ Wq Hn) as (nd & End & _).
    destruct (ChangeModule_spec q lq n m nd Wq End Hm) as (r' & E' & W' & N' & M' & _ & S' & _).
    rewrite E in E'. injection E' as <-. exists (ls_move lq n (nmod nd) m). splits; auto; try lia.
    intros i. now rewrite S'.
  - destruct IH as (lq & Wq & N & M & S).
    destruct (MergeModules_spec q lq a b Wq Hne Ha Hb) as (r' & lr & E' & W' & N' & M' & S' & _).
    rewrite E in E'. injection E' as <-. exists lr. splits; auto; try lia. intros i. now rewrite S'.
Qed.

End Steps.

(** SAExact.v -- exact arithmetic: the energy GeneralSA accumulates is the change of modularity. *)
From Coq Require Import List Arith Lia Bool QArith Qcanon.
From Verif Require Import Base Num ListLib QcSum PartModel MoveModel SAModel PartSpec AdjSpec ModSpec PartInv ChangeProof
  MergeProof Steps EnergyForm ExactProof ModularityProof SAProof.
Import ListNotations.
Local Open Scope nat_scope.

Section E.
Variables ex sq : Qc -> Qc.
#[local] Instance opsE : NumOps Qc := Qc_ops ex sq.

Theorem GeneralSA_energy (p : partition Qc) ls adj fac Ti Tf Ts proba limit ds :
  WF p ls -> strengths_ok p -> adj_ok adj (pN p) -> sym_adj adj -> sym_w adj -> loop_free adj ->
  0 < pN p -> pM p <= pN p -> Forall good_draw ds ->
  safe (GeneralSA p adj fac Ti Tf Ts proba limit ds)
    (fun '(best, bestE, _) => match best, bestE with
       | Some b, Some e => steps p b /\ e = (modularity b adj - modularity p adj)%Qc
       | None, None => True
       | _, _ => False
       end).
Proof.
  intros W S HA HSa HSw HL HN HM Hd.
  apply (GeneralSA_safe adj p ls W HA HSa HN HM (fun q E => E = (modularity q adj - modularity p adj)%Qc)); auto.
  - intros q E n m nd d q' St -> En Hm Hne Ed Eq. destruct (steps_WF _ _ _ W St) as (lq & Wq & Nq & Mq & _).
    rewrite <- Nq in HA.
    rewrite (dEChangeModule_exact ex sq q lq adj n m nd q' d); auto.
    + cbn [nadd opsE Qc_ops]. ring.
    + exact (strengths_steps ex sq p ls q W S St).
  - intros q E a b d q' St -> Ha Hb Hne Ed Eq. destruct (steps_WF _ _ _ W St) as (lq & Wq & Nq & Mq & _).
    rewrite <- Nq in HA.
    rewrite (dEMergeModules_exact ex sq q lq adj a b q' d); auto.
    + cbn [nadd opsE Qc_ops]. ring.
    + exact (strengths_steps ex sq p ls q W S St).
  - intros q E a b d q' St -> Ha Hb Hne Ed Eq. destruct (steps_WF _ _ _ W St) as (lq & Wq & Nq & Mq & _).
    rewrite <- Nq in HA.
    rewrite (dEMergeModules_exact ex sq q lq adj a b q' d); auto.
    + cbn [nadd nopp opsE Qc_ops]. ring.
    + exact (strengths_steps ex sq p ls q W S St).
  - intros q r E Sq Sr G ->. destruct (steps_WF _ _ _ W Sq) as (lq & Wq & Nq & _ & Kq).
    destruct (steps_WF _ _ _ W Sr) as (lr & Wr & Nr & _ & Kr). f_equal. symmetry.
    apply (modularity_grouping q lq r lr adj); auto.
    + congruence.
    + intros i. rewrite Kr, Kq. auto.
  - cbn [n0 opsE Qc_ops]. ring.
Qed.

(** The state at the end of the first temperature step is never saved: the test at line 191 compares with the
    initial previousE = 0. *)
Lemma first_checkpoint limit (q : partition Qc) E r :
  sa_checkpoint limit (mkSA q E n0 None None 0) = Ok r ->
  match r with inl st => sbest st = None /\ limit = 1 | inr st => sbest st = None /\ sbestE st = None /\ limit <> 1 end.
Proof.
  unfold sa_checkpoint. cbn [sE sprevE snochange sbestE sbest spart].
  assert (no_change E n0 = true) as ->.
  { unfold no_change. apply orb_true_intro. right. reflexivity. }
  destruct (Nat.eqb_spec (0 + 1) limit) as [<-|Hne]; intros [= <-]; cbn [sbest sbestE]; auto.
Qed.

Theorem GeneralSA_limit1_null (p : partition Qc) adj fac Ti Tf Ts proba ds best bestE ds' :
  GeneralSA p adj fac Ti Tf Ts proba 1 ds = Ok (best, bestE, ds') -> best = None.
Proof.
  unfold GeneralSA. intros H. apply bind_Ok in H as ([st ds1] & H1 & H2). injection H2 as <- <- <-.
  cbn [sa_loop] in H1. destruct (nltb Tf Ti); [|injection H1 as <- <-; reflexivity].
  apply bind_Ok in H1 as ([[p1 E1] d1] & _ & H1). apply bind_Ok in H1 as ([[p2 E2] d2] & _ & H1).
  cbn [sprevE sbest sbestE snochange] in H1.
  apply bind_Ok in H1 as (r & Hr & H1). apply first_checkpoint in Hr. destruct r as [st'|st'].
  - injection H1 as <- <-. tauto.
  - tauto.
Qed.

(** A schedule with one temperature step returns the null pointer whatever happened in it. *)
Theorem GeneralSA_onestep_null (p : partition Qc) adj fac Ti Tf Ts proba limit ds best bestE ds' :
  nltb Tf (nmul Ti Ts) = false ->
  GeneralSA p adj fac Ti Tf Ts proba limit ds = Ok (best, bestE, ds') -> best = None.
Proof.
  unfold GeneralSA. intros HT H. apply bind_Ok in H as ([st ds1] & H1 & H2). injection H2 as <- <- <-.
  cbn [sa_loop] in H1. destruct (nltb Tf Ti); [|injection H1 as <- <-; reflexivity].
  apply bind_Ok in H1 as ([[p1 E1] d1] & _ & H1). apply bind_Ok in H1 as ([[p2 E2] d2] & _ & H1).
  cbn [sprevE sbest sbestE snochange] in H1.
  apply bind_Ok in H1 as (r & Hr & H1). apply first_checkpoint in Hr. destruct r as [st'|st'].
  - injection H1 as <- <-. tauto.
  - destruct (length ds); cbn [sa_loop] in H1; [discriminate|]. rewrite HT in H1. injection H1 as <- <-. tauto.
Qed.

End E.

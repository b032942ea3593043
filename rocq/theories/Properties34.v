(** Properties34.v -- random two-sided networks with modules can be completed (C179). *)
From Coq Require Import List Arith ZArith Bool QArith Qcanon Lia.
From Verif Require Import Base Num ListLib QcSum ToolsModel TeamModel TeamProof TeamLive Refute Properties33.
Import ListNotations.
Local Open Scope nat_scope.

Section Exact.
Variables ex sq : Qc -> Qc.
#[local] Instance ops34 : NumOps Qc := Qc_ops ex sq.
(** C179: if no team has to be larger than the number of agents, then whatever has been drawn, further numbers complete the network. *)
Theorem C179_completed sizes col_prob S2 lo mmax gp p ds : 0 < list_sum sizes -> draws_ok sizes col_prob ds -> lo <= mmax <= list_sum sizes ->
  exists more, draws_ok sizes col_prob (ds ++ more) /\ exists out, BuildModularBipartiteNetwork sizes col_prob S2 (Some lo) mmax gp p (ds ++ more) = Ok out.
Proof.
  intros Hs Hd Hm. destruct col_prob as [cp|]; cbn [draws_ok] in *.
  - destruct Hd as (L & S1 & F). destruct (Build_live ex sq (fun u => 0 < u /\ u < 1)%Qc) with (sizes := sizes) (col_prob := Some cp) (S2 := S2) (lo := lo) (mmax := mmax) (gp := gp) (p := p) (ds := ds) as (e & Ge & out & E); auto.
    + intros u [H1 H2]; split; auto; now apply Qclt_le_weak.
    + cbn. split; [exact L|]. split; [exact S1|]. intros u [H _]. exact H.
    + exists e. split; [|exists out; exact E]. split; auto. split; auto. apply Forall_app. auto.
  - destruct (Build_live ex sq unit_number) with (sizes := sizes) (col_prob := @None (list Qc)) (S2 := S2) (lo := lo) (mmax := mmax) (gp := gp) (p := p) (ds := ds) as (e & Ge & out & E); auto.
    + intros u H1 H2; split; auto; now apply Qclt_le_weak.
    + exact I.
    + exists e. split; [|exists out; exact E]. apply Forall_app. auto.
Qed.
End Exact.

(** The hypotheses are met with draws after which the run waits for more: the second agent of the team is drawn again and again. *)
#[local] Instance opsE34 : NumOps Qc := Qc_ops ex0 sq0.
Example waiting_met : draws_ok [2; 3] None [h 3 4; h 0 1; h 1 2; h 0 1; h 1 2; h 1 2; h 1 2] /\ 0 < list_sum [2; 3] /\ 3 <= 3 <= list_sum [2; 3] /\
  match BuildModularBipartiteNetwork [2; 3] None 1 (Some 3) 3 (h 1 2) (h 1 2) [h 3 4; h 0 1; h 1 2; h 0 1; h 1 2; h 1 2; h 1 2] with Err RngOut => True | _ => False end.
Proof. split; [repeat constructor; vm_compute; discriminate || reflexivity|]. split; [cbn; lia|]. split; [cbn; lia|]. vm_compute. exact I. Qed.

Print Assumptions C179_completed.
Print Assumptions waiting_met.

(** Properties26.v -- scores for all pairs of a bipartite network (src/conflict.c): C147. *)
From Coq Require Import List Arith ZArith Lia Bool QArith Qcanon.
From Verif Require Import Base Num ListLib QcSum SAProof GraphModel GraphSpec GroupModel BipartModel BipartSpec MissModel MissSpec
  RecModel RecSpec RecStep RecScore RecMain Refute Properties20.
Import ListNotations.
Local Open Scope nat_scope.

Section Exact.
Variables ex sq : Qc -> Qc.
#[local] Instance ops26 : NumOps Qc := Qc_ops ex sq.
Variable logf : nat -> Qc.
Variable lnchoose : nat -> nat -> Qc.
Variable lnfact : nat -> Qc.
Variable mutual : gpart Qc -> gpart Qc -> Qc.
Variable decay_of : nat -> nat -> Qc -> nat -> Qc -> Qc.
Variables llsize lcsize lfsize : nat.
Implicit Types b : binet Qc.
Notation all_scores := (AllLinkScore2State logf lnchoose lnfact mutual decay_of llsize lcsize lfsize).

(** C147: one score for each pair of a node of the first set and one of the second, in order: the mean over samples of the Metropolis
    algorithm, which sees all the ratings, of the probability of rating 1. *)
Theorem C147_scores debug b nIter decor ds : cost2 logf lnchoose [0; 0] = 0%Qc -> bipartite b -> in_range 2 b -> 0 < length (bset1 b) -> 0 < length (bset2 b) -> Forall good_draw ds ->
  match all_scores debug b nIter decor ds with
  | Ok out => exists l, all_sampled ex sq logf lnchoose lnfact b nIter decor ds l /\ length out = length (bset1 b) * length (bset2 b) /\
      forall i j p q, nth_error (bset1 b) i = Some p -> nth_error (bset2 b) j = Some q ->
        nth_error out (i * length (bset2 b) + j) = Some (p, q, nth 1 (means (ratings (bmem b) (bset1 b) (bset2 b)) 2 l (i, j)) 0%Qc)
  | Err e => rng_err e
  end.
Proof. intros H0 B HI N1 N2 HD. exact (all_scores2 ex sq logf lnchoose lnfact mutual decay_of llsize lcsize lfsize H0 debug b nIter decor ds B HI N1 N2 HD). Qed.
(** C147: every score is strictly between 0 and 1. *)
Theorem C147_bounds debug b nIter decor ds out : cost2 logf lnchoose [0; 0] = 0%Qc -> bipartite b -> in_range 2 b -> 0 < length (bset1 b) -> 0 < length (bset2 b) -> Forall good_draw ds -> 0 < nIter ->
  all_scores debug b nIter decor ds = Ok out -> forall p q x, In (p, q, x) out -> In p (bset1 b) /\ In q (bset2 b) /\ (0 < x)%Qc /\ (x < 1)%Qc.
Proof.
  intros H0 B HI N1 N2 HD Hn E p q x Hin. pose proof (C147_scores debug b nIter decor ds H0 B HI N1 N2 HD) as H. rewrite E in H. destruct H as (l & (HL & _) & Lo & Ho).
  apply In_nth_error in Hin as [k Ek]. assert (Hk : k < length out) by (eapply nth_lt; eauto). rewrite Lo in Hk. set (m := length (bset2 b)) in *.
  assert (Hi : k / m < length (bset1 b)) by (apply Nat.div_lt_upper_bound; nia). assert (Hj : k mod m < m) by (apply Nat.mod_upper_bound; lia).
  destruct (nth_error (bset1 b) (k / m)) as [p'|] eqn:Ep; [|apply nth_error_None in Ep; lia]. destruct (nth_error (bset2 b) (k mod m)) as [q'|] eqn:Eq; [|apply nth_error_None in Eq; fold m in Eq; lia].
  specialize (Ho _ _ _ _ Ep Eq). rewrite (Nat.mul_comm (k / m)), <- Nat.div_mod in Ho by lia. rewrite Ek in Ho.
  assert (NL : l <> []) by (intros ->; cbn in HL; lia). set (s := means (ratings (bmem b) (bset1 b) (bset2 b)) 2 l (k / m, k mod m)) in *.
  pose proof (means_bounds (ratings (bmem b) (bset1 b) (bset2 b)) 2 l (k / m, k mod m) ltac:(lia) NL) as F. fold s in F. rewrite Forall_forall in F.
  assert (HIn : In (nth 1 s 0%Qc) s) by (apply nth_In; unfold s; rewrite means_length; lia). apply F in HIn. destruct HIn as [F1 F2].
  assert (E1 : p = p') by congruence. assert (E2 : q = q') by congruence. assert (E3 : x = nth 1 s 0%Qc) by congruence. subst p q. rewrite E3. splits; eauto using nth_error_In.
Qed.
End Exact.

(** * The hypotheses are met: two persons, one item, and a score for each. *)
#[local] Instance ops26' : NumOps Qc := Qc_ops ex0 sq0.
Definition z26 (r : nat) : Qc := 0%Qc.
Definition zz26 (r l : nat) : Qc := 0%Qc.
Example zero26 : cost2 z26 zz26 [0; 0] = 0%Qc.
Proof. reflexivity. Qed.
Example all26 : match AllLinkScore2State z26 zz26 lnf mut0 dec0 8 8 8 false film20 2 (Some 1) ds20 with Ok s => map (fun x => (fst x, this (snd x))) s = [((0, 2), 7 # 12); ((1, 2), 5 # 12)] | Err _ => False end.
Proof. vm_compute. reflexivity. Qed.

Print Assumptions C147_scores.
Print Assumptions C147_bounds.

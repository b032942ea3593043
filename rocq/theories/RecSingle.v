(** RecSingle.v -- one person and one item: the samplers of src/recommend.c look for another group and there is none. *)
From Coq Require Import List Arith ZArith Bool QArith Qcanon Qround Lia.
From Verif Require Import Base Num ListLib NatSum QcSum SAProof GraphModel GroupModel BipartModel BipartSpec MissModel MissSpec MissStep RecModel RecSpec RecStep RecRun RecScore RecMain.
Import ListNotations.
Local Open Scope nat_scope.

Lemma power_first {S} (Q : S -> S -> Prop) : forall n s u, power Q (Datatypes.S n) s u -> exists t, Q s t.
Proof.
  induction n as [|n IH]; intros s u H; inversion H as [|? ? t ? H1 H2]; subst; eauto. inversion H1; subst. eauto.
Qed.
Lemma visits_power {S} (Q : S -> S -> Prop) s l u : visits Q s l u -> power Q (length l) s u.
Proof. induction 1 as [s|s l t u H IH HQ]; [constructor|]. rewrite app_length, Nat.add_comm. cbn. econstructor; eauto. Qed.
Section Single.
Variables ex sq : Qc -> Qc.
#[local] Instance opsR : NumOps Qc := Qc_ops ex sq.
Lemma selects_one (u : Qc) : good_draw u -> selects 1 u = 0.
Proof. intros H. pose proof (H 1 ltac:(lia)) as X. assert (E : selects 1 u < 1) by exact X. lia. Qed.
Lemma picks_none ds w ds' : Forall good_draw ds -> ~ picks 1 0 ds w ds'.
Proof.
  intros HD H. induction H as [u ds Hu|u ds w ds' Hu H IH]; [|apply IH; now inversion HD]. apply Hu, selects_one. now apply Forall_inv in HD.
Qed.
Lemma changes_none E ds c' ds' : Forall good_draw ds -> ~ changes ex E [0] ds c' ds'.
Proof.
  intros HD H. inversion H as [u ds0 w ds1 v Hp|u ds0 w u' ds1 v Hp|u ds0 w u' ds1 v Hp]; subst; apply Forall_inv_tail in HD as HD'; apply Forall_inv in HD; unfold v in Hp; cbn [length] in Hp; rewrite (selects_one u HD) in Hp; exact (picks_none _ _ _ HD' Hp).
Qed.
Lemma attempt_none E ds t : Forall good_draw ds -> ~ rattempt ex E ([0], [0], ds) t.
Proof. intros HD H. inversion H as [u ds0 c1 c2 c1' ds' Hu Hc|u ds0 c1 c2 c2' ds' Hu Hc]; subst; apply Forall_inv_tail in HD; exact (changes_none _ _ _ _ HD Hc). Qed.
Variables (logf : nat -> Qc) (lnfact : nat -> Qc) (mutual : gpart Qc -> gpart Qc -> Qc) (decay_of : nat -> nat -> Qc -> nat -> Qc -> Qc) (llsize lcsize lfsize : nat).
Theorem single_never K b qs pos nIter d ds : 0 < K -> rating_net K b -> length (bset1 b) = 1 -> length (bset2 b) = 1 -> Forall2 (located (bset1 b) (bset2 b)) qs pos -> Forall good_draw ds ->
  0 < nIter -> 0 < d -> exists e, MultiLinkScoreKState logf lnfact mutual decay_of llsize lcsize lfsize K b qs nIter (Some d) ds = Err e /\ rng_err e.
Proof.
  intros HK HN L1 L2 HQ HD Hn Hd. pose proof (scoresK ex sq logf lnfact mutual decay_of llsize lcsize lfsize K b qs pos nIter (Some d) ds HK HN HQ HD) as H.
  change (Qc_ops ex sq) with opsR in *. match type of H with ends _ ?m _ => destruct m as [scores|e] eqn:E end; [|exists e; split; [exact E|exact H]]. exfalso. cbn [ends] in H. destruct H as (l & (HL & M & d' & sB & sE & H1 & H2 & H3) & _).
  rewrite L1, L2 in *. specialize (H1 d eq_refl). subst d'. apply visits_power, power_mul in H3. pose proof (power_app _ _ _ _ _ _ H2 H3) as HP. rewrite HL in HP.
  destruct (M + nIter * ((1 + 1) * d)) as [|k] eqn:Ek; [assert (0 < nIter * ((1 + 1) * d)) by (apply Nat.mul_pos_pos; lia); lia|]. apply power_first in HP as (t & HA). exact (attempt_none _ _ _ HD HA).
Qed.
End Single.

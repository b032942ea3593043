(** ConnProof.v -- AreConnectedList answers whether a set can be reached; the sifted search finds the strongly connected set of a node. *)
From Coq Require Import List Arith Lia Bool Permutation.
From Verif Require Import Base ListLib NatSum IoModel GraphModel GraphSpec GraphProof GraphSim BfsModel BfsProof SearchProof NetModel ConnModel.
Import ListNotations.
Local Open Scope nat_scope.

Section Conn.
Context {A : Type} {ops : NumOps A}.
Implicit Types g c : net A.

(** ** AreConnectedList *)
Lemma refs_bound g (l : list nat) : NoDup l -> (forall v, In v l -> v < length g) -> length l <= length g.
Proof. intros D H. rewrite <- (seq_length (length g) 0). apply NoDup_incl_length; auto. intros v Hv. apply in_seq. specialize (H v Hv). lia. Qed.
Lemma found_spec g1 cl (l : list bent) : wf_net g1 -> length g1 <= length cl -> (forall e, In e l -> bref e < length g1) -> forall b,
  exists r, foldM (fun (found : bool) e => if found then Ok true else do n <- get g1 (bref e); get cl (gnum n)) b l = Ok r /\ (r = true <-> b = true \/ exists e, In e l /\ nth (bref e) cl false = true).
Proof.
  intros W LC. induction l as [|e l IH]; intros H b; cbn [foldM].
  - exists b. split; auto. split; [auto|]. intros [|(e & [] & _)]; auto.
  - destruct b; cbn [bind].
    + destruct (IH (fun e He => H e (or_intror He)) true) as (r & E & Hr). exists r. rewrite E. split; auto. rewrite Hr. split; auto.
    + destruct (nth_ex g1 (bref e)) as [n En]; [apply H; left; auto|]. rewrite (get_ok _ _ _ En). cbn [bind]. rewrite (wf_num g1 W _ _ En).
      destruct (nth_ex cl (bref e)) as [b Eb]; [apply nth_lt in En; lia|]. rewrite (get_ok _ _ _ Eb). cbn [bind]. pose proof (nth_error_nth _ _ false Eb) as Nb.
      destruct (IH (fun e He => H e (or_intror He)) b) as (r & E & Hr). exists r. rewrite E. split; auto. rewrite Hr. rewrite <- Nb. split.
      * intros [Q|(x & Hx & Q)]; right; [exists e|exists x]; split; auto; [left; auto|right; auto].
      * intros [Q|(x & [<-|Hx] & Q)]; [discriminate|left; auto|right; eauto].
Qed.
Lemma connected_layers_spec g s cl : wf_net g -> length g <= length cl -> forall fuel d k g' q, OI g s d k g' q -> length g - length (bq q) < fuel ->
  (forall p e, nth_error (bq q) p = Some e -> 0 < p -> nth (bref e) cl false = false) ->
  exists b g'' q', connected_layers fuel (g', q) k d cl = Ok (b, (g'', q')) /\ same_but_state g g'' /\ bsize q' = length (bq q') /\
    (b = true <-> exists u, u <> s /\ reachable g s u /\ nth u cl false = true).
Proof.
  intros W LC. induction fuel as [|f IH]; intros d k g' q O Hf HN; [lia|]. cbn [connected_layers fst snd].
  assert (LQ : forall d k g' q, OI g s d k g' q -> length (bq q) <= length g).
  { intros d0 k0 g0 q0 O0. rewrite <- (map_length bref). apply refs_bound; [eapply oi_nodup; eauto|]. intros v Hv. apply in_map_iff in Hv as (e & <- & He). eapply oi_lt; eauto. }
  pose proof (LQ _ _ _ _ O) as Lq. pose proof (sbs_length g g' (oi_sbs _ _ _ _ _ _ O)) as Lg.
  destruct (round g W s d k g' q (length g' + 1) O) as (g1 & q1 & new & E1 & Eq & O1 & Hnew); [lia|]. rewrite E1. cbn [bind fst snd].
  pose proof (oi_sbs _ _ _ _ _ _ O1) as S1. pose proof (sbs_wf g g1 S1 W) as W1. pose proof (sbs_length g g1 S1) as L1.
  replace (skipn (length (bq q)) (bq q1)) with new by (rewrite Eq, skipn_app, skipn_all, Nat.sub_diag; reflexivity).
  destruct (found_spec g1 cl new W1 ltac:(lia)) with (b := false) as (r & Er & Hr).
  { intros e He. rewrite L1. eapply oi_lt; eauto. rewrite Eq. apply in_or_app. auto. }
  rewrite Er. cbn [bind]. destruct (oi_first _ _ _ _ _ _ O1) as (e0 & F1 & F2 & F3). destruct (oi_first _ _ _ _ _ _ O) as (e0' & G1 & _ & _). destruct r.
  - exists true, g1, q1. split; auto. split; auto. split; [eapply oi_size; eauto|]. split; auto. intros _. destruct (proj1 Hr eq_refl) as [|(e & He & Q)]; [discriminate|]. exists (bref e).
    assert (He1 : In e (bq q1)) by (rewrite Eq; apply in_or_app; auto). split; [|split; auto; exists (bd e); eapply oi_path; eauto].
    intros Es. apply In_nth_error in He1 as [p Hp]. assert (p = 0) by (eapply refs_nodup_inj; [eapply oi_nodup; eauto|exact Hp|exact F1|congruence]). subst p. rewrite F1 in Hp. injection Hp as <-. rewrite (Hnew e0 He) in F3. lia.
  - assert (HN1 : forall p e, nth_error (bq q1) p = Some e -> 0 < p -> nth (bref e) cl false = false).
    { intros p e Ep Hp. rewrite Eq in Ep. destruct (lt_dec p (length (bq q))) as [L|L]; [rewrite nth_error_app1 in Ep by auto; eauto|]. rewrite nth_error_app2 in Ep by lia. apply nth_error_In in Ep. destruct (nth (bref e) cl false) eqn:Q; auto. assert (false = true) by (apply Hr; right; eauto). discriminate. }
    rewrite (oi_size _ _ _ _ _ _ O), (oi_size _ _ _ _ _ _ O1), Eq, app_length. destruct new as [|e new].
    + cbn [length]. rewrite Nat.add_0_r, Nat.eqb_refl. exists false, g1, q1. split; auto. split; auto. split; [eapply oi_size; eauto|]. split; [discriminate|]. intros (u & Hu & R & Q). exfalso.
      rewrite app_nil_r in Eq. pose proof (oi_complete g s _ _ _ _ O1 ltac:(now rewrite Eq)) as C. apply (c_reach _ _ _ C) in R. apply in_map_iff in R as (e & <- & He). apply In_nth_error in He as [p Hp].
      destruct p as [|p]; [congruence|]. rewrite (HN1 _ _ Hp) in Q by lia. discriminate.
    + cbn [length]. rewrite (proj2 (Nat.eqb_neq _ _)) by lia. apply IH; auto. pose proof (LQ _ _ _ _ O1) as Lq1. rewrite Eq, app_length in *. cbn [length] in *. lia.
Qed.
Theorem are_connected_list g g0 v cl : wf_net g -> same_but_state g g0 -> v < length g -> length g <= length cl ->
  exists b g', AreConnectedList g0 v cl = Ok (b, g') /\ same_but_state g g' /\ (b = true <-> exists u, u <> v /\ reachable g v u /\ nth u cl false = true).
Proof.
  intros W S0 Lv LC. unfold AreConnectedList. destruct (start g v Lv g0 S0) as (g1 & q & E1 & O). rewrite E1. cbn [bind].
  pose proof (sbs_length g g0 S0) as L0. destruct (connected_layers_spec g v cl W LC (length g0 + 1) 0 0 g1 q O) as (b & g2 & q2 & E2 & S2 & Z2 & H2); [lia| |].
  { unfold Enqueue in E1. destruct (get (ResetNodesState g0) v) as [n|] eqn:En; [|discriminate]. cbn [bind] in E1. destruct (gstate n =? 0).
    - destruct (set (ResetNodesState g0) v (set_gstate 1 n)); [|discriminate]. cbn [bind] in E1. injection E1 as <- <-. intros [|[|p]] e Ep Hp; cbn in Ep; try discriminate; lia.
    - cbn in E1. injection E1 as <- <-. intros p e Ep _. destruct p; discriminate. }
  rewrite E2. cbn [bind fst snd]. rewrite (ClearList_ok q2 Z2). cbn [bind]. exists b, g2. auto.
Qed.
End Conn.

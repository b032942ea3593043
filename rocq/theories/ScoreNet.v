(** ScoreNet.v -- the partitions sampled and the score of a network (src/missing.c). *)
From Coq Require Import List Arith ZArith Bool QArith Qcanon Lia.
From Verif Require Import Base Num ListLib NatSum QcSum IoModel GraphModel GraphSpec GraphProof NetModel GenModel GroupModel GroupSpec PairSum GroupProof GroupExact MatLib
  ToolsModel ToolsProof ModulesModel ModulesSpec ModulesMap ModulesCopy CommCopy SAProof RolesBounds MissModel MissSpec MissSets MissStep MissRun MissScore MissExact GenSpec ScoreModel ScoreSpec ScoreProof.
Import ListNotations.
Local Open Scope nat_scope.

Lemma sbg_sym {A} (g g' : net A) : same_but_group g g' -> same_but_group g' g.
Proof. intros S. induction S as [|a b l l' (H1 & H2 & H3 & H4 & H5) _ IH]; constructor; auto 10. Qed.
Lemma ratio_cancel (a b n : Qc) : n <> 0%Qc -> ((a / n) / (b / n) = a / b)%Qc.
Proof.
  intros Hn. destruct (Qc_eq_dec b 0%Qc) as [->|Hb].
  - unfold Qcdiv. rewrite Qcmult_0_l. change (/ 0)%Qc with 0%Qc. now rewrite !Qcmult_0_r.
  - field. auto.
Qed.
Lemma pair_sum_rows n (F : nat -> nat -> Qc) : pair_sum n F = Qsum (fun i => Qsum (F i) (seq (i + 1) (n - (i + 1)))) (seq 0 n).
Proof. rewrite <- pair_sum_upper. unfold upper. rewrite Qsum_flat. apply Qsum_ext. intros i _. now rewrite Qsum_map. Qed.
Lemma foldM_sum2 {X} (f : Qc * Qc -> X -> res (Qc * Qc)) (F G : X -> Qc) l : (forall s x, In x l -> f s x = Ok (fst s + F x, snd s + G x)%Qc) ->
  forall s, foldM f s l = Ok (fst s + Qsum F l, snd s + Qsum G l)%Qc.
Proof.
  induction l as [|a l IH]; intros H s; cbn [foldM Qsum]; [f_equal; destruct s; cbn [fst snd]; f_equal; ring|]. rewrite H by (simpl; auto). cbn [bind]. rewrite IH by (intros; apply H; simpl; auto). cbn [fst snd]. f_equal. f_equal; ring.
Qed.

Section Exact.
Variables ex sq : Qc -> Qc.
Local Instance nops : NumOps Qc := Qc_ops ex sq.
Variable logf : nat -> Qc.
Variable lnchoose : nat -> nat -> Qc.
Variable lnfact : nat -> Qc.
Variable mutual : gpart Qc -> gpart Qc -> Qc.
Variable decay_of : nat -> nat -> Qc -> nat -> Qc -> Qc.
Variables lcsize lfsize : nat.
Hypothesis log1 : logf 1 = 0%Qc.
Hypothesis choose00 : lnchoose 0 0 = 0%Qc.
Variable x : option Z.
Hypothesis Hx : x = None \/ x = Some 0%Z.
Implicit Types g h : net Qc.
Notation energy := (energy logf lnchoose lnfact).
Notation serr := (serr x).

Section Net.
Variable g : net Qc.
Hypothesis U : undirected g.
Hypothesis ND : NoDup (map glabel g).
Variable linC : Qc.
Let N := length g.
Notation attempts := (attempts ex N (energy linC g)).
Notation samples := (samples ex N (energy linC g)).
(** Nothing is said of the energy kept: its origin is reset before the samples. *)
Definition wanders (ds0 : list Qc) (M : groups) (_ : Qc) (ds : list Qc) : Prop := exists M0 d0 k, assigned N M0 /\ started N ds0 M0 d0 /\ attempts k M0 d0 M ds.
Lemma wanders_move ds0 : attempt_ok logf lnchoose lnfact linC g (wanders ds0).
Proof.
  intros M slg u o w H ds ds2 acc ds3 v HA HL Ho Hw How Hv ER EC (M0 & d0 & k & HA0 & HS & HT).
  pose proof (follows_move ex sq logf lnchoose lnfact linC log1 choose00 g U ds0 M slg u o w (energy linC g M) ds ds2 acc ds3 HA HL Ho Hw How Hv ER EC) as G.
  assert (K : follows ex sq logf lnchoose lnfact linC g ds0 M (energy linC g M) (u :: ds)) by (split; auto; exists M0, d0, k; auto).
  specialize (G K). destruct acc; destruct G as [_ (M1 & d1 & k1 & G)]; exists M1, d1, k1; exact G.
Qed.
Lemma wanders_init ds0 : forall M ds, assigned N M -> started N ds0 M ds -> wanders ds0 M (H_of logf lnchoose lnfact linC g M) ds.
Proof. intros M ds HA HS. exists M, ds, 0. splits; auto. constructor. Qed.
Notation zeroed := (x = Some 0%Z).
Notation minv ds0 := (minv lnchoose lcsize g (wanders ds0) zeroed).

Lemma sampler_ok ds : Forall good_draw ds ->
  ends serr (sampler logf lnchoose lnfact mutual decay_of lcsize lfsize x linC g ds) (fun '(nl, gl, decor, st) => nl = ident g /\ gl = ident g /\ minv ds st).
Proof.
  intros HD. unfold sampler. fold N. destruct (fresh_array g x Hx) as [F1 F2]. apply (ends_serr x Hx). eapply ends_bind.
  { apply (setup_ok logf lnchoose lnfact mutual decay_of lcsize linC g U (wanders ds) zeroed (repeat x N) ds (wanders_init ds) F1 F2 (fresh_zero x Hx N) HD). }
  intros [[nl gl] st] (-> & -> & I).
  eapply ends_bind; [exact (decor_ok logf lnchoose lnfact mutual decay_of lcsize lfsize linC (neg_small ex sq) g U (wanders ds) (wanders_move ds) zeroed st I)|]. intros [decor st1] I1.
  eapply ends_bind; [exact (therm_ok logf lnchoose lnfact lcsize lfsize linC (neg_small ex sq) g U (wanders ds) (wanders_move ds) zeroed decor st1 I1)|]. intros st2 I2. cbn [ends]. auto.
Qed.
Lemma reset_inv ds st : minv ds st -> minv ds (reset_H st).
Proof. intros [I1 I2 I3 I4 I5 I6 I7 I8]. split; auto. Qed.

(** A copy of a partition of the sampler, and the partition mapped to the network again. *)
Definition saved (M : groups) (Q : gpart Qc) : Prop := abs Q = M /\ cells_right g Q /\
  forall G, In G Q -> psize G = Z.of_nat (length (members G)) /\ pin G = Z.of_nat (2 * links_in g (members G)).
Lemma copy_map g1 P : pinv g g1 P -> exists g2 Q g3 P', CopyPartition g1 P = Ok (g2, Q) /\ saved (abs P) Q /\ MapPartToNet (g2, P) = Ok (g3, P') /\ pinv g g3 P' /\ abs P' = abs P.
Proof.
  intros I. pose proof (pi_map _ _ _ I) as MP. pose proof (pi_sbg _ _ _ I) as S0. destruct (CopyPartition_spec g1 P (pi_un _ _ _ I) MP) as (g2 & Q & E & U2 & S2 & _ & EA & EN & HC & HQ).
  assert (S02 : same_but_group g g2) by (eapply sbg_trans; eauto).
  assert (ND2 : NoDup (map glabel g2)) by now rewrite (sbg_labels g g2 S02).
  assert (GD : good (abs P)) by (apply good_map; split; [|split]; apply MP).
  destruct (map_any g2 P U2 ND2 (cells_same g1 g2 P S2 (mp_cells _ _ MP)) GD (sized_mapped g1 P MP)) as (g3 & P' & E3 & U3 & S3 & M3 & EA3).
  exists g2, Q, g3, P'. splits; auto.
  - split; [auto|split].
    + apply (cells_same g2 g Q); auto. now apply sbg_sym.
    + intros G HG. destruct (HQ G HG) as (Q1 & Q2 & _). split; auto. rewrite Q2. destruct (sbg_links g g1 (members G) S0) as (-> & _). reflexivity.
  - split; auto; [eapply sbg_trans; eauto|]. rewrite EA3. apply I.
Qed.
Lemma set_np_inv ds st h P : minv ds st -> pinv g h P -> abs P = abs (mpart st) -> minv ds (set_np h P st).
Proof. intros [I1 I2 I3 I4 I5 I6 I7 I8] HP EA. split; cbn [set_np mnet mpart mG2G mn2g mtab mds mH]; try rewrite EA; auto. Qed.

(** ** Sampling partitions *)
Theorem PartitionSampling_ok nIter burnin thinning ds : Forall good_draw ds ->
  ends serr (PartitionSampling logf lnchoose lnfact mutual decay_of lcsize lfsize x linC g nIter burnin thinning ds) (fun '(Qs, st) =>
    net_after g (mnet st) /\ exists Ms, sampled ex sq N (energy linC g) (fun d => Z.to_nat (Qround.Qfloor (this (Qc_of_nat d * thinning)%Qc))) nIter ds Ms (mds st) /\ Forall2 saved Ms Qs).
Proof.
  intros HD. unfold PartitionSampling. eapply ends_bind; [apply sampler_ok; auto|]. intros [[[nl gl] decor] st0] (-> & -> & I0).
  eapply (ends_bind serr _ _ (minv ds)).
  { apply ends_foldM; auto. intros s b _ Is. apply (ends_serr x Hx). eapply ends_impl; [exact (mc_step_ok ex sq logf lnchoose lnfact lcsize lfsize log1 choose00 g U linC (wanders ds) (wanders_move ds) zeroed decor s Is)|]. cbn beta. tauto. }
  intros st1 I1. set (F := nfloor (nmul (nofnat decor) thinning)).
  pose proof (foldM_seq_safe (fun k '(st, acc) => minv ds st /\ exists Ms, length Ms = k /\ Forall (assigned N) Ms /\ samples (N * F) (abs (mpart st1)) (mds st1) Ms (abs (mpart st)) (mds st) /\ Forall2 saved Ms acc) serr
    (take_sample logf lnchoose lnfact lcsize lfsize linC g (ident g) (ident g) F) nIter (reset_H st1, [])) as G.
  eapply (ends_bind serr _ _ (fun '(st, acc) => minv ds st /\ exists Ms, length Ms = nIter /\ Forall (assigned N) Ms /\ samples (N * F) (abs (mpart st1)) (mds st1) Ms (abs (mpart st)) (mds st) /\ Forall2 saved Ms acc)).
  - unfold ends. apply G.
    + split; [now apply reset_inv|]. exists []. splits; auto; constructor.
    + intros k [st acc] Hk (I & Ms & LM & HA & HS & F2). unfold take_sample. pose proof (mc_step_ok ex sq logf lnchoose lnfact lcsize lfsize log1 choose00 g U linC (wanders ds) (wanders_move ds) zeroed F st I) as HM.
      apply (ends_serr x Hx) in HM. destruct (mc_step _ _ _ _ _ _ g _ _ F st) as [s|e]; cbn [bind ends] in *; auto. destruct HM as [Is HT].
      destruct (copy_map (mnet s) (mpart s) (mi_p _ _ _ _ _ _ Is)) as (g2 & Q & g3 & P' & -> & HQ & E3 & I3 & EA). cbn [bind]. rewrite E3. cbn [bind].
      split; [now apply set_np_inv|]. exists (Ms ++ [abs (mpart s)]). splits.
      * rewrite app_length. cbn [length]. lia.
      * apply Forall_app. split; auto. constructor; auto. apply (mi_p _ _ _ _ _ _ Is).
      * cbn [set_np mpart mds]. rewrite EA. econstructor; eauto.
      * apply Forall2_app; auto.
  - intros [st acc] (I & Ms & LM & HA & HS & F2). cbn [ends]. split; [split; apply I|]. exists Ms. split; auto.
    destruct (mi_J _ _ _ _ _ _ I1) as (M0 & d0 & k & HA0 & HS0 & HT). exists M0, d0, k, (abs (mpart st1)), (mds st1), decor, (abs (mpart st)). splits; auto.
Qed.
End Net.

(** ** The score of a network *)
Section Target.
Variables g tar : net Qc.
Hypothesis U : undirected g.
Hypothesis UT : undirected tar.
Hypothesis ND : NoDup (map glabel g).
Hypothesis EL : map glabel tar = map glabel g.
Let N := length g.
Lemma tar_len : length tar = N.
Proof. unfold N. rewrite <- (map_length glabel tar), EL. apply map_length. Qed.
Notation gain := (gain logf lnchoose).
Lemma ns_terms_ok c r lo lt zr zo zt : zr = Z.of_nat r -> zo = Z.of_nat lo -> zt = Z.of_nat lt ->
  ns_terms logf lnchoose c zr zo zt = Ok (fst c + gain r lo lt, snd c + gain r lo lo)%Qc.
Proof.
  intros -> -> ->. unfold ns_terms. rewrite !nat_of_nat. cbn [bind]. destruct c as [a b]. cbn [fst snd]. unfold ScoreSpec.gain. cbn [nadd nsub nops Qc_ops]. replace (2 * lo) with (lo + lo) by lia. reflexivity.
Qed.
Lemma ns_groups_ok gP P h Q tab : pinv g gP P -> pinv tar h Q -> abs Q = abs P -> table_exact g (abs P) tab ->
  foldM (ns_group logf lnchoose tab P h Q) (n0, n0) (seq 0 (length P)) = Ok (contribution logf lnchoose g tar (abs P), contribution logf lnchoose g g (abs P)).
Proof.
  intros IP IQ EA HT. pose proof (pi_plen g gP P IP) as LP. rewrite LP. fold N. set (M := abs P) in *. pose proof (pi_as _ _ _ IP) as AS. pose proof (as_length N M AS) as LM.
  set (mem2 := fun (t : net Qc) k l => if nonempty (nth_members M k) && nonempty (nth_members M l) then gain (length (nth_members M k) * length (nth_members M l)) (across g (nth_members M k) (nth_members M l)) (across t (nth_members M k) (nth_members M l)) else 0%Qc).
  set (one := fun (t : net Qc) k => if nonempty (nth_members M k) then gain (choose2 (length (nth_members M k))) (links_in g (nth_members M k)) (links_in t (nth_members M k)) else 0%Qc).
  rewrite (foldM_sum2 _ (fun k => one tar k + Qsum (mem2 tar k) (seq (k + 1) (N - (k + 1))))%Qc (fun k => one g k + Qsum (mem2 g k) (seq (k + 1) (N - (k + 1))))%Qc).
  - cbn [fst snd]. f_equal. unfold contribution. rewrite LM, !pair_sum_rows. fold M. rewrite !Qsum_add. cbn [n0 nops Qc_ops]. rewrite !Qcplus_0_l. reflexivity.
  - intros c k Hk. apply in_seq in Hk. assert (Lk : k < N) by lia. unfold ns_group. destruct (pi_group g gP P IP k Lk) as (G & EG & El & Em & Es & Ei). fold M in Es, Ei, Em.
    destruct (pi_group tar h Q IQ k) as (T & ET & _ & _ & _ & Ti); [rewrite tar_len; auto|]. rewrite EA in Ti. rewrite (get_ok _ _ _ EG). cbn [bind]. rewrite ET. cbn [bind]. rewrite Es, nonempty_len.
    unfold one. destruct (nonempty (nth_members M k)) eqn:NE.
    + rewrite (ns_terms_ok c _ _ _ _ _ _ (choose2_Z _) Ei Ti). cbn [bind]. rewrite LP. fold N. rewrite (foldM_sum2 _ (mem2 tar k) (mem2 g k)); [cbn [fst snd]; f_equal; f_equal; ring|].
      intros d l Hl. apply in_seq in Hl. assert (Ll : l < N) by lia. unfold ns_other. destruct (pi_group g gP P IP l Ll) as (G2 & EG2 & El2 & _ & Es2 & _). fold M in Es2.
      destruct (pi_group tar h Q IQ l) as (T2 & ET2 & _); [rewrite tar_len; auto|]. rewrite (get_ok _ _ _ EG2). cbn [bind]. rewrite ET2. cbn [bind]. rewrite Es2, Es, nonempty_len. unfold mem2. rewrite NE. cbn [andb].
      destruct (nonempty (nth_members M l)); [|f_equal; destruct d; cbn [fst snd]; f_equal; ring].
      rewrite El, El2, (mat_get _ _ tab _ k l HT) by auto. cbn [bind]. rewrite (proj2 (Nat.eqb_neq k l)) by lia. rewrite (pi_ng2g tar UT h Q IQ k l) by (rewrite ?tar_len; lia). cbn [bind]. rewrite EA. fold M.
      apply ns_terms_ok; auto. now rewrite Nat2Z.inj_mul.
    + f_equal. rewrite (Qsum_0 (mem2 tar k)), (Qsum_0 (mem2 g k)) by (intros l _; unfold mem2; now rewrite NE). destruct c; cbn [fst snd]. f_equal; ring.
Qed.
Lemma map_target g1 P Q t : pinv g g1 P -> saved g (abs P) Q -> undirected t -> same_but_group tar t -> exists t' Q', MapPartToNet (t, Q) = Ok (t', Q') /\ pinv tar t' Q' /\ abs Q' = abs P.
Proof.
  intros IP (EA & HC & HQ) Ut St. assert (ELt : map glabel t = map glabel g) by now rewrite (sbg_labels tar t St).
  assert (GD : good (abs Q)) by (rewrite EA; apply good_map; split; [|split]; apply (pi_map _ _ _ IP)).
  assert (HC' : cells_right t Q).
  { intros G l HG Hl. destruct (HC G l HG Hl) as (i & n & Q1 & Q2 & Q3 & Q4). destruct (nth_ex t i) as [m Em].
    - apply nth_lt in Q2. rewrite <- (map_length glabel t), ELt, map_length. auto.
    - exists i, m. splits; auto. rewrite Q4. assert (K : nth_error (map glabel t) i = nth_error (map glabel g) i) by now rewrite ELt. rewrite !nth_error_map, Em, Q2 in K. cbn in K. congruence. }
  destruct (map_any t Q Ut) as (t' & Q' & E & U' & S' & M' & EA'); auto.
  - now rewrite ELt.
  - intros G HG. destruct (HQ G HG) as [-> _]. f_equal. unfold members. apply targets_length. apply Forall_forall. intros l Hl. destruct (HC G l HG Hl) as (i & n & Q1 & _). eauto.
  - exists t', Q'. splits; auto; [|congruence]. split; auto; [eapply sbg_trans; eauto|]. rewrite EA', EA, tar_len. apply IP.
Qed.

Theorem NetworkScore_ok linC nIter ds : Forall good_draw ds -> 0 < nIter ->
  ends serr (NetworkScore logf lnchoose lnfact mutual decay_of lcsize lfsize x linC tar g nIter ds) (fun '(s, tar', g', ds') => net_after tar tar' /\ net_after g g' /\ Forall good_draw ds' /\
    exists Ms, sampled ex sq N (energy linC g) (fun d => d) nIter ds Ms ds' /\ s = network_score ex logf lnchoose g tar Ms).
Proof.
  intros HD Hn. unfold NetworkScore. eapply ends_bind; [apply sampler_ok; auto|]. intros [[[nl gl] decor] st1] (-> & -> & I1).
  set (inv := fun (k : nat) (s : mc Qc * net Qc * option Qc * Qc * Qc) => let '(st, t, base, sT, sO) := s in minv lnchoose lcsize g (wanders g linC ds) (x = Some 0%Z) st /\ undirected t /\ same_but_group tar t /\
    exists Ms, length Ms = k /\ Forall (assigned N) Ms /\ samples ex N (energy linC g) (N * decor) (abs (mpart st1)) (mds st1) Ms (abs (mpart st)) (mds st) /\
      base = match Ms with [] => None | M :: _ => Some (contribution logf lnchoose g g M) end /\
      sT = Qsum (fun M => ex (contribution logf lnchoose g tar M - base_of logf lnchoose g Ms)%Qc) Ms /\ sO = Qsum (fun M => ex (contribution logf lnchoose g g M - base_of logf lnchoose g Ms)%Qc) Ms).
  pose proof (foldM_seq_safe inv serr (ns_sample logf lnchoose lnfact lcsize lfsize linC g (ident g) (ident g) decor) nIter (reset_H st1, tar, None, n0, n0)) as G.
  eapply (ends_bind serr _ _ (inv nIter)).
  - unfold ends. apply G.
    + unfold inv. splits; auto; [now apply reset_inv|apply sbg_refl|]. exists []. splits; auto; constructor.
    + intros k [[[[st t] base] sT] sO] Hk (I & Ut & St & Ms & LM & HA & HS & EB & ET & EO). unfold ns_sample. pose proof (mc_step_ok ex sq logf lnchoose lnfact lcsize lfsize log1 choose00 g U linC (wanders g linC ds) (wanders_move g U linC ds) (x = Some 0%Z) decor st I) as HM.
      apply (ends_serr x Hx) in HM. destruct (mc_step _ _ _ _ _ _ g _ _ decor st) as [s|e]; cbn [bind ends] in *; auto. destruct HM as [Is HT].
      destruct (copy_map g ND (mnet s) (mpart s) (mi_p _ _ _ _ _ _ Is)) as (g2 & Q & g3 & P' & -> & HQ & E3 & I3 & EA). cbn [bind].
      destruct (map_target (mnet s) (mpart s) Q t (mi_p _ _ _ _ _ _ Is) HQ Ut St) as (t' & Q' & -> & It & EAQ). cbn [bind]. rewrite E3. cbn [bind].
      rewrite (ns_groups_ok g3 P' t' Q' (mG2G s)); auto; [|congruence|rewrite EA; apply (mi_g2g _ _ _ _ _ _ Is)]. cbn [bind]. rewrite EA. set (M := abs (mpart s)) in *.
      unfold inv. splits; [now apply set_np_inv|apply It|apply It|]. exists (Ms ++ [M]).
      assert (EBo : base_of logf lnchoose g (Ms ++ [M]) = match base with Some b => b | None => contribution logf lnchoose g g M end) by (rewrite EB; unfold base_of; destruct Ms; reflexivity).
      assert (EBn : forall M', In M' Ms -> base_of logf lnchoose g (Ms ++ [M]) = base_of logf lnchoose g Ms) by (intros M'; destruct Ms; [intros []|reflexivity]).
      splits.
      * rewrite app_length. cbn [length]. lia.
      * apply Forall_app. split; auto. constructor; auto. apply (mi_p _ _ _ _ _ _ Is).
      * cbn [set_np mpart mds]. rewrite EA. econstructor; eauto.
      * rewrite EB. destruct Ms; reflexivity.
      * rewrite Qsum_app. cbn [Qsum]. rewrite Qcplus_0_r, <- EBo. cbn [nadd nexp nsub nops Qc_ops]. rewrite ET. f_equal. apply Qsum_ext. intros M' HM'. now rewrite (EBn M').
      * rewrite Qsum_app. cbn [Qsum]. rewrite Qcplus_0_r, <- EBo. cbn [nadd nexp nsub nops Qc_ops]. rewrite EO. f_equal. apply Qsum_ext. intros M' HM'. now rewrite (EBn M').
  - intros [[[[st t] base] sT] sO] (I & Ut & St & Ms & LM & HA & HS & EB & ET & EO). cbn [ends]. splits; [split; auto|split; apply I|apply I|]. exists Ms. split.
    + destruct (mi_J _ _ _ _ _ _ I1) as (M0 & d0 & k & HA0 & HS0 & HT). exists M0, d0, k, (abs (mpart st1)), (mds st1), decor, (abs (mpart st)). splits; auto.
    + unfold network_score. rewrite <- ET, <- EO. cbn [ndiv nofnat nops Qc_ops]. assert (K : Qc_of_nat nIter <> 0%Qc) by now apply Qc_neq_S.
      now apply ratio_cancel.
Qed.
End Target.
End Exact.

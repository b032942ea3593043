(** GibbsRun.v -- set-up, thermalisation and scores of the Gibbs samplers of src/missing.c, src/multiblock.c and src/only_deg.c. *)
From Coq Require Import List Arith ZArith Bool QArith Qcanon Lia.
From Verif Require Import Base Num ListLib NatSum QcSum GraphModel GraphSpec GraphProof GroupModel GroupSpec PairSum GroupProof GroupExact MatLib
  ToolsModel ToolsProof ModulesModel SAProof MissModel MissSpec MissSets MissStep MissRun MissScore MissExact MbModel MbSpec MbStep MbRun MbExact MbScore GibbsModel GibbsSpec GibbsSets GibbsStep.
From Verif Require RecSpec RecGibbs RolesBounds.
Import ListNotations.
Local Open Scope nat_scope.

Section Run.
Variables ex sq : Qc -> Qc.
Hypothesis ex_pos : forall x, (0 < ex x)%Qc.
Local Instance rops : NumOps Qc := Qc_ops ex sq.
Variable ln : Qc -> Qc.
Variable lnchoose : nat -> nat -> Qc.
Variable lnfact : nat -> Qc.
Variables lcsize lfsize : nat.
Variable linC : Qc.
Variable kd : kind.
Variable deg : bool.
Hypothesis ln1 : ln 1%Qc = 0%Qc.
Hypothesis choose00 : lnchoose 0 0 = 0%Qc.
Variable g0 : net Qc.
Hypothesis U0 : undirected g0.
Let N := length g0.
Notation logf := (logf ln).
Notation lnch := (lnch ln lnchoose kd).
Notation lnfg := (lnfg ln lnfact kd deg g0).
Notation E := (MissSpec.energy logf lnch lnfg linC g0).
Variable hl : list Qc.
Hypothesis Hhl : forall i, i < length hl -> nth_error hl i = Some (Qsum (fun j => 1 / Qc_of_nat j) (seq 1 i))%Qc.
Notation mb_err := (mb_err kd g0 hl).
Notation pinv := (pinv g0).
Notation ident := (ident g0).
Notation tfact := (InitializeTable lnfact lfsize).

Lemma any_move : attempt_ok logf lnch (lnfd ln lnfact kd g0) linC g0 (fun _ _ _ => True).
Proof. intros M slg u o w H d d2 acc d3 v ? ? ? ? ? ? ? ? ?. now destruct acc. Qed.

Section State.
Variable pos : Prop.
Variable c : Qc.
Notation ginv := (ginv ex sq ln lnchoose lnfact lcsize linC kd deg g0 pos c).
Notation gb_err := (gb_err kd g0 hl pos).
Notation gstep := (GibbsLinkScoreStep ln lnchoose lnfact lcsize lfsize linC kd deg N ident ident tfact hl).
Notation gmove := (gb_move ln lnchoose lnfact lcsize lfsize linC kd deg N ident ident tfact hl).

(** * One step *)
Lemma shortlist_occupied g P : pinv g P -> map plabel (filter (fun G => (0 <? psize G)%Z) P) = occupied (abs P).
Proof.
  intros I. pose proof (pi_plen g0 g P I) as LP. unfold occupied. replace (length (abs P)) with (length P) by (unfold abs; now rewrite map_length).
  assert (HP : forall k G, nth_error P k = Some G -> plabel G = k /\ (0 <? psize G)%Z = nonempty (nth_members (abs P) k)).
  { intros k G EG. assert (Hk : k < length g0) by (rewrite <- LP; eapply nth_lt; eauto). destruct (pi_group g0 g P I k Hk) as (G' & EG' & El & _ & Es & _). rewrite EG in EG'. injection EG' as <-. split; auto. rewrite Es. apply nonempty_len. }
  assert (G : forall f Q a, (forall k G, nth_error Q k = Some G -> plabel G = a + k /\ (0 <? psize G)%Z = f (a + k)) -> map plabel (filter (fun G : grp Qc => (0 <? psize G)%Z) Q) = filter f (seq a (length Q))).
  { intros f. induction Q as [|G Q IH]; intros a HQ; auto. cbn [filter length seq]. destruct (HQ 0 G eq_refl) as [E1 E2]. rewrite Nat.add_0_r in E1, E2. rewrite E2.
    rewrite <- (IH (Datatypes.S a)); [destruct (f a); cbn [map]; rewrite ?E1; reflexivity|]. intros k G' EG'. destruct (HQ (Datatypes.S k) G' EG') as [F1 F2]. replace (Datatypes.S a + k) with (a + Datatypes.S k) by lia. auto. }
  apply (G (fun k => nonempty (nth_members (abs P) k)) P 0). exact HP.
Qed.
Notation one_group st := (filled (abs (mpart st)) = 1).
Lemma gb_moves_ok l : forall st slg dHs loc, (forall v, In v l -> v < N) -> ginv st -> listed g0 (abs (mpart st)) slg -> 2 <= length slg -> length dHs = N ->
  ends gb_err (foldM gmove (st, slg, dHs, loc) l) (fun '(st', slg', _, _) => ginv st' /\ RecSpec.chain (gregroup ex E) l (abs (mpart st), slg, mds st) (abs (mpart st'), slg', mds st')).
Proof.
  induction l as [|v l IH]; intros st slg dHs loc Hl I HL H2 Ld; [cbn [foldM ends]; split; auto; constructor|]. cbn [foldM].
  eapply ends_bind; [apply (gb_move_ok ex sq ex_pos ln lnchoose lnfact lcsize lfsize linC kd deg ln1 choose00 g0 U0 hl Hhl pos c st slg dHs loc v); auto; apply Hl; simpl; auto|].
  intros [[[st1 slg1] dHs1] loc1] (I1 & HL1 & H21 & Ld1 & R1). eapply ends_impl; [apply (IH st1 slg1 dHs1 loc1); auto; intros; apply Hl; simpl; auto|].
  intros [[[st2 slg2] dHs2] loc2] (I2 & C2). split; auto. econstructor; eauto.
Qed.
(** With all nodes in one group the step reads variables never set. *)
Theorem gb_step_single st : 0 < N -> ginv st -> one_group st -> gstep st = Err UB_uninit.
Proof.
  intros HN I HF. pose proof (gn_p _ _ _ _ _ _ _ _ _ _ _ _ _ I) as PI. pose proof (pi_as _ _ _ PI) as AS. fold N in AS.
  destruct (pi_home g0 _ _ PI 0 HN) as (n & o & En & Eg & Ho & Hvo).
  assert (ES : map plabel (filter (fun G => (0 <? psize G)%Z) (mpart st)) = [o]).
  { rewrite (shortlist_occupied _ _ PI). pose proof (occupied_filled N _ AS) as L. rewrite HF in L. destruct (occupied (abs (mpart st))) as [|a [|b l]] eqn:EO; cbn in L; try lia.
    assert (K : In o (occupied (abs (mpart st)))). { apply (li_all _ _ _ (occupied_listed N Qc g0 _ eq_refl AS)); auto. destruct (nth_members (abs (mpart st)) o); [destruct Hvo|reflexivity]. }
    rewrite EO in K. destruct K as [->|[]]. reflexivity. }
  unfold GibbsLinkScoreStep. rewrite ES. cbn [length]. rewrite (proj2 (Nat.leb_le 1 N)) by lia. cbn [check bind].
  replace (seq 0 N) with (0 :: seq 1 (N - 1)) by (replace N with (Datatypes.S (N - 1)) at 2 by lia; reflexivity). cbn [foldM].
  unfold gb_move at 1. rewrite (ident_get g0 0 HN). cbn [bind deref]. rewrite (get_ok _ _ _ En). cbn [bind]. rewrite Eg. cbn [bind]. rewrite (ident_get g0 o Ho). cbn [bind deref foldM].
  unfold gb_dest. rewrite (ident_get g0 o Ho). cbn [bind deref]. rewrite Nat.eqb_refl, set_ok by (now rewrite repeat_length). cbn [bind].
  destruct (pi_group g0 _ _ PI o Ho) as (G & EG & _). unfold gb_empty. rewrite (get_ok _ _ _ EG). reflexivity.
Qed.
Lemma filled_pos M : 0 < N -> assigned N M -> 1 <= filled M.
Proof.
  intros HN AS. rewrite <- (occupied_filled N M AS). destruct (as_cover _ _ AS 0 HN) as [k Hk].
  assert (K : In k (occupied M)). { apply (li_all _ _ _ (occupied_listed N Qc g0 M eq_refl AS)); [eapply as_lt; eauto|]. destruct (nth_members M k); [destruct Hk|reflexivity]. }
  destruct (occupied M); [destruct K|cbn; lia].
Qed.
Theorem gb_step_ok st : ginv st -> ends (fun e => gb_err e \/ (e = UB_uninit /\ 0 < N /\ one_group st)) (gstep st) (fun st' => ginv st' /\ gsweep ex E (abs (mpart st), mds st) (abs (mpart st'), mds st')).
Proof.
  intros I. pose proof (gn_p _ _ _ _ _ _ _ _ _ _ _ _ _ I) as PI. pose proof (pi_as _ _ _ PI) as AS. fold N in AS.
  destruct (Nat.eq_dec N 0) as [E0|HN].
  { unfold GibbsLinkScoreStep. rewrite (shortlist_occupied _ _ PI). pose proof (as_length N _ AS) as LM. rewrite E0 in LM |- *. unfold occupied. rewrite LM. cbn [seq filter length Nat.leb check bind foldM ends]. split; auto.
    exists []. cbn [fst snd]. unfold occupied. rewrite LM. constructor. }
  destruct (Nat.eq_dec (filled (abs (mpart st))) 1) as [H1|H1].
  { rewrite gb_step_single by (auto; lia). cbn [ends]. right. splits; auto. lia. }
  pose proof (filled_pos _ ltac:(lia) AS) as HF. pose proof (occupied_filled N _ AS) as LO. pose proof (occupied_listed N Qc g0 _ eq_refl AS) as HL.
  unfold GibbsLinkScoreStep. rewrite (shortlist_occupied _ _ PI). rewrite (proj2 (Nat.leb_le _ N)) by (rewrite LO; apply (filled_le N _ AS)). cbn [check bind].
  eapply ends_weaken with (E := gb_err); [|auto].
  eapply ends_bind; [apply (gb_moves_ok (seq 0 N) st (occupied (abs (mpart st))) (repeat None N) None); auto; [intros v Hv; apply in_seq in Hv; lia|lia|apply repeat_length]|].
  intros [[[st' slg'] dHs'] loc'] (I' & C'). cbn [ends]. split; auto. exists slg'. cbn [fst snd]. rewrite (as_length N _ AS). exact C'.
Qed.

(** * Thermalisation and scores *)
Variable s0 : groups * list Qc.
Definition gone (st : mc Qc) : Prop := exists n, RecSpec.power (gsweep ex E) n s0 (abs (mpart st), mds st).
Definition run_err (e : err) : Prop := gb_err e \/ (e = UB_uninit /\ 0 < N /\ exists n t, RecSpec.power (gsweep ex E) n s0 t /\ filled (fst t) = 1).
Lemma gb_step_run st : ginv st -> gone st -> ends run_err (gstep st) (fun st' => ginv st' /\ gone st' /\ gsweep ex E (abs (mpart st), mds st) (abs (mpart st'), mds st')).
Proof.
  intros I [n HP]. eapply ends_weaken; [eapply ends_impl; [apply (gb_step_ok st I)|]|].
  - intros st' [I' S']. splits; auto. exists (Datatypes.S n). econstructor; eauto.
  - intros e [H|(-> & HN & H)]; [now left|]. right. splits; auto. exists n, (abs (mpart st), mds st). auto.
Qed.
(** At least [5 - eq] rounds of 20 sweeps. *)
Definition gone_n (n : nat) (st : mc Qc) : Prop := RecSpec.power (gsweep ex E) n s0 (abs (mpart st), mds st).
Lemma gb_therm_loop_ok fuel : forall m0 s1 eq st n, ginv st -> gone_n n st ->
  ends run_err (gb_therm_loop ln lnchoose lnfact lcsize lfsize linC kd deg fuel N ident ident tfact hl m0 s1 eq st) (fun st' => ginv st' /\ exists r, 5 - eq <= r /\ gone_n (n + 20 * r) st').
Proof.
  induction fuel as [|f IH]; intros m0 s1 eq st n I R; [left; left; right; now left|]. cbn [gb_therm_loop].
  apply (ends_bind run_err _ _ (fun '(st', hs) => (ginv st' /\ gone_n (n + 20) st') /\ length hs = 20)).
  - apply (ends_from run_err (fun i '(st', hs) => (ginv st' /\ gone_n (n + i) st') /\ length hs = i) (gb_therm_step ln lnchoose lnfact lcsize lfsize linC kd deg N ident ident tfact hl) 20 0); [rewrite Nat.add_0_r; split; auto|].
    intros i [s2 h2] _ _ [[H1 H2] H3]. unfold gb_therm_step. cbn [fst snd]. eapply ends_bind; [apply (gb_step_run s2); auto; now exists (n + i)|]. intros s' (H4 & _ & H5). cbn [ends]. rewrite app_length. cbn [length]. split; [|lia].
    split; auto. unfold gone_n. rewrite Nat.add_1_r, Nat.add_succ_r. econstructor; eauto.
  - intros [s hs] [[H1 H2] H3]. eapply ends_bind; [apply mean_ends; auto|]. intros m _. eapply ends_bind; [apply stddev_ends; auto|]. intros sd _. cbv zeta.
    assert (G : forall m' s' eq', ends run_err (gb_therm_loop ln lnchoose lnfact lcsize lfsize linC kd deg f N ident ident tfact hl m' s' eq' s) (fun st' => ginv st' /\ exists r, 6 - eq' <= r /\ gone_n (n + 20 * r) st')).
    { intros m' s' eq'. eapply ends_impl; [apply (IH m' s' eq' s (n + 20) H1 H2)|]. intros st' (I' & r & Hr & G'). split; auto. exists (r + 1). split; [lia|]. replace (n + 20 * (r + 1)) with (n + 20 + 20 * r) by lia. exact G'. }
    match goal with |- ends _ (if ?c then _ else _) _ => destruct c end; [destruct (eq + 1 <? 5) eqn:Eq|].
    + eapply ends_impl; [apply G|]. intros st' (I' & r & Hr & G'). split; auto. exists r. split; auto. lia.
    + apply Nat.ltb_ge in Eq. cbn [ends]. split; auto. exists 1. split; [lia|exact H2].
    + eapply ends_impl; [apply G|]. intros st' (I' & r & Hr & G'). split; auto. exists r. split; auto. lia.
Qed.
Notation score := (mb_score kd g0).
Definition sampled (nIter : nat) (s1 : mc Qc) (sm : mc Qc * list (list Qc)) : Prop :=
  exists ss, length ss = nIter /\ RecSpec.visits (gsweep ex E) (abs (mpart s1), mds s1) ss (abs (mpart (fst sm)), mds (fst sm)) /\ Forall (fun s => assigned N (fst s)) ss /\
    mat N N (snd sm) (mb_summed kd g0 (map fst ss)).
Lemma gb_samples_ok nIter s1 : ginv s1 -> gone s1 ->
  ends run_err (foldM (gb_sample ln lnchoose lnfact lcsize lfsize linC kd deg N ident ident tfact hl) (s1, repeat (repeat n0 N) N) (seq 0 nIter)) (fun sm => ginv (fst sm) /\ gone (fst sm) /\ sampled nIter s1 sm).
Proof.
  intros I1 R1. apply (ends_from run_err (fun k sm => ginv (fst sm) /\ gone (fst sm) /\ sampled k s1 sm) _ nIter 0).
  - cbn [fst snd]. splits; auto. exists []. cbn [fst snd]. splits; auto; [constructor|]. eapply mat_ext; [apply mat_repeat|]. intros i j _ _. unfold mb_summed. cbn. now destruct (i =? j).
  - intros k [s m] _ Hk (Is & Rs & ss & LM & HV & HF & Hm). cbn [fst snd] in *. unfold gb_sample. cbn [fst snd].
    eapply ends_bind; [apply (gb_step_run s); auto|]. intros s' (Is' & Rs' & SW).
    eapply ends_bind.
    { eapply ends_weaken; [|intros e K; left; left; exact K]. apply (mb_scores_ok ex sq ln lnchoose lnfact (fun _ _ _ _ _ => 0%Qc) 0 linC kd g0 U0 hl Hhl (fun _ _ _ => True) any_move s' (gn_p _ _ _ _ _ _ _ _ _ _ _ _ _ Is') (gn_g2g _ _ _ _ _ _ _ _ _ _ _ _ _ Is') m _ Hm). }
    intros m' Hm'. cbn [ends fst snd]. splits; auto. exists (ss ++ [(abs (mpart s'), mds s')]). cbn [fst snd]. splits.
    + rewrite app_length. cbn [length]. lia.
    + econstructor; eauto.
    + apply Forall_app. split; auto. constructor; [|constructor]. cbn [fst]. apply (pi_as _ _ _ (gn_p _ _ _ _ _ _ _ _ _ _ _ _ _ Is')).
    + eapply mat_ext; [exact Hm'|]. intros i j _ _. unfold mb_summed. rewrite !map_app, Qsum_app. cbn [map Qsum fst]. destruct (i =? j); auto. ring.
Qed.
End State.
End Run.

(** MbScore.v -- the scores of LinkScoreMB, ORLinkScoreMB and LinkScoreMB_OD (src/multiblock.c 449-672, 1079-1285,
    src/only_deg.c 448-655), and the table of harmonic numbers that they read. *)
From Coq Require Import List Arith ZArith Bool QArith Qcanon Lia.
From Verif Require Import Base Num ListLib NatSum QcSum IoModel GraphModel GraphSpec GraphProof GroupModel GroupSpec PairSum GroupProof GroupExact MatLib
  ToolsModel ToolsProof ModulesModel ModulesCopy SAProof RolesBounds MissModel MissSpec MissSets MissStep MissRun MissScore MissExact MbModel MbSpec MbStep MbRun MbExact.
From Verif Require Refute.
Import ListNotations.
Local Open Scope nat_scope.

Lemma mat_map {X Y} (h : X -> Y) a b m f : mat a b m f -> mat a b (map (map h) m) (fun i j => h (f i j)).
Proof.
  intros [H1 H2]. split; [now rewrite map_length|]. intros i Hi. destruct (H2 i Hi) as (r & Er & Lr & Hr). exists (map h r). rewrite nth_error_map, Er. splits; auto; [now rewrite map_length|].
  intros j Hj. now rewrite nth_error_map, Hr.
Qed.

Section Score.
Variables ex sq : Qc -> Qc.
Local Instance rops : NumOps Qc := Qc_ops ex sq.
Variable ln : Qc -> Qc.
Variable lnchoose : nat -> nat -> Qc.
Variable lnfact : nat -> Qc.
Variable mutual : gpart Qc -> gpart Qc -> Qc.
Variable decay_of : nat -> nat -> Qc -> nat -> Qc -> Qc.
Variables lcsize lfsize : nat.
Variable linC : Qc.
Variable kd : kind.
Hypothesis ln1 : ln 1%Qc = 0%Qc.
Hypothesis choose00 : lnchoose 0 0 = 0%Qc.
Variable g : net Qc.
Hypothesis U : undirected g.
Let N := length g.
Notation logf := (logf ln).
Notation lnch := (lnch ln lnchoose kd).
Notation lnfd := (lnfd ln lnfact kd g).
Notation menergy := (MissSpec.energy logf lnch lnfd linC g).
Notation E := (mb_energy ln lnchoose lnfact linC kd g).
Notation tfact := (InitializeTable lnfact lfsize).
Notation ident := (ident g).
Notation fol ds := (follows ex sq logf lnch lnfd linC g ds).
Notation score := (mb_score kd g).
Notation since c := (since ln lnchoose lnfact linC kd g c).

(** The value of the result at (i, j), given the sampled partitions. *)
Definition mb_average (Ms : list groups) (i j : nat) : Qc :=
  match kd with
  | OR => if i =? j then 1%Qc else (1 - Qsum (fun M => score M i j) Ms / Qc_of_nat (length Ms))%Qc
  | _ => if i =? j then 0%Qc else (Qsum (fun M => score M i j) Ms / Qc_of_nat (length Ms))%Qc
  end.
Lemma mb_average_sym Ms i j : (forall M, In M Ms -> assigned N M) -> i < N -> j < N -> mb_average Ms i j = mb_average Ms j i.
Proof.
  intros HM Hi Hj. assert (HS : Qsum (fun M => score M i j) Ms = Qsum (fun M => score M j i) Ms) by (apply Qsum_ext; intros M K; apply mb_score_sym; auto).
  unfold mb_average. rewrite HS, (Nat.eqb_sym j i). reflexivity.
Qed.
Lemma mb_average_between Ms i j : (forall M, In M Ms -> assigned N M) -> Ms <> [] -> i < N -> j < N -> i <> j -> (0 < mb_average Ms i j)%Qc /\ (mb_average Ms i j < 1)%Qc.
Proof.
  intros HM Hne Hi Hj Hij. unfold mb_average. rewrite (proj2 (Nat.eqb_neq i j) Hij).
  destruct (Qsum_between (fun M => score M i j) Ms Hne) as [B1 B2]; [intros M K; apply mb_score_between; auto|].
  assert (PN : (0 < Qc_of_nat (length Ms))%Qc) by (rewrite <- Qc_of_nat_0; apply Qc_of_nat_lt; destruct Ms; [congruence|cbn; lia]).
  assert (C1 : (0 < Qsum (fun M => score M i j) Ms / Qc_of_nat (length Ms))%Qc) by now apply Qc_div_pos.
  assert (C2 : (Qsum (fun M => score M i j) Ms / Qc_of_nat (length Ms) < 1)%Qc) by (apply Qc_div_lt; auto; now rewrite Qcmult_1_l).
  set (q := (Qsum _ _ / _)%Qc) in *. destruct kd; auto. split.
  - apply Qclt_minus_iff in C2. exact C2.
  - apply Qclt_minus_iff. replace (1 + - (1 - q))%Qc with q by ring. exact C1.
Qed.

Theorem LinkScoreMB_any hsize debug nIter ds : 0 < hsize -> Forall good_draw ds ->
  ends (fun e => e = RngOut \/ e = Diverge \/ (e = UB_oob /\ kd <> OD /\ hsize < choose2 N + 3))
    (LinkScoreMB_on ln lnchoose lnfact mutual decay_of lcsize lfsize linC kd hsize debug g nIter ds)
    (fun '(m, st) => exists M0 d0 warm decor M1 d1 Ms,
       assigned N M0 /\ started N ds M0 d0 /\ attempts ex N E warm M0 d0 M1 d1 /\ samples ex N E (N * decor) M1 d1 Ms (abs (mpart st)) (mds st) /\ length Ms = nIter /\
       (forall M, In M Ms -> assigned N M) /\ assigned N (abs (mpart st)) /\ table_exact g (abs (mpart st)) (mG2G st) /\
       mH st = (if debug then E (abs (mpart st)) else E (abs (mpart st)) - E M1)%Qc /\
       (0 < nIter -> mat N N m (mb_average Ms))).
Proof.
  intros Hs HD. unfold LinkScoreMB_on. fold N. destruct (harmonic_spec ex sq hsize Hs) as (hl & EH & Lh & Hh).
  match goal with |- ends _ (bind ?a _) _ => assert (EH' : a = Ok hl) by exact EH; rewrite EH'; clear EH' end. cbn [bind].
  assert (Hhl : forall i, i < length hl -> nth_error hl i = Some (Qsum (fun j => 1 / Qc_of_nat j) (seq 1 i))%Qc) by (intros i Hi; apply Hh; lia).
  eapply (ends_weaken (mb_err kd g hl)).
  2: { intros e [->|[->|(-> & K1 & K2)]]; auto. right; right. splits; auto. fold N in K2. lia. }
  eapply ends_bind.
  { exact (mb_setup_ok ex sq ln lnchoose lnfact mutual decay_of lcsize linC kd g U hl Hhl (fol ds) (fol_move ex sq ln lnchoose lnfact linC kd ln1 choose00 g U ds) ds
      (fol_init ex sq ln lnchoose lnfact linC kd ln1 choose00 g U ds) HD). }
  intros [[nl gl] s0] (-> & -> & I0).
  eapply ends_bind; [exact (mb_decor_ok ex sq ln lnchoose lnfact mutual decay_of lcsize lfsize linC kd g U hl Hhl (fol ds) (fol_move ex sq ln lnchoose lnfact linC kd ln1 choose00 g U ds) s0 I0)|].
  intros [decor s1] I1.
  eapply ends_bind; [exact (mb_therm_ok ex sq ln lnchoose lnfact lcsize lfsize linC kd g U hl Hhl (fol ds) (fol_move ex sq ln lnchoose lnfact linC kd ln1 choose00 g U ds) decor s1 I1)|].
  intros s2 I2. cbn beta in I2.
  set (c := if debug then 0%Qc else menergy (abs (mpart s2))).
  set (s3 := if debug then s2 else _).
  assert (I3 : MbStep.binv ex sq lnchoose lcsize g (since c) s3 /\ mpart s3 = mpart s2 /\ mds s3 = mds s2).
  { destruct I2 as [B1 B2 B3 B4 B5 B6]. destruct B6 as [B6 _]. unfold s3, c. destruct debug; (splits; [split; cbn [mnet mpart mH mG2G mn2g mtab mds]; auto|reflexivity|reflexivity]); unfold MbExact.since.
    - rewrite B6. ring.
    - change (@n0 Qc rops) with 0%Qc. ring. }
  destruct I3 as (I3 & EP3 & ED3).
  eapply ends_bind; [exact (mb_samples_ok ex sq ln lnchoose lnfact decay_of lcsize lfsize linC kd g U hl Hhl (fol ds) (fol_move ex sq ln lnchoose lnfact linC kd ln1 choose00 g U ds)
    (since c) (since_move ex sq ln lnchoose lnfact linC kd ln1 choose00 g U c) decor nIter s3 I3)|].
  intros [st m] (sts & LM & HF & HST & I & Hm). cbn [fst snd] in *. cbn [ends].
  destruct (mb_stepped_samples ex sq ln lnchoose lnfact lcsize lfsize linC kd ln1 choose00 g U hl Hhl (since c) (since_move ex sq ln lnchoose lnfact linC kd ln1 choose00 g U c) decor s3 sts st HST I3 HF) as [_ HSS].
  set (Ms := map (fun s => abs (mpart s)) sts) in *. rewrite EP3, ED3 in HSS.
  destruct (bi_J _ _ _ _ _ _ _ I2) as [_ (M0 & d0 & k & HA0 & HS0 & HT)].
  assert (HM : forall M, In M Ms -> assigned N M).
  { intros M K. unfold Ms in K. apply in_map_iff in K as (s & <- & Hs'). rewrite Forall_forall in HF. apply (bi_p _ _ _ _ _ _ _ (HF s Hs')). }
  assert (LMs : length Ms = nIter) by (unfold Ms; now rewrite map_length).
  pose proof (pi_as _ _ _ (bi_p _ _ _ _ _ _ _ I)) as HA. pose proof (pi_as _ _ _ (bi_p _ _ _ _ _ _ _ I2)) as HA2. fold N in HA, HA2.
  exists M0, d0, k, decor, (abs (mpart s2)), (mds s2), Ms. splits; auto.
  - refine (proj1 (attempts_ext ex g menergy E (energy_mb ln lnchoose lnfact linC kd g) _ _ _ _ _ _ HA0)). exact HT.
  - apply I.
  - pose proof (bi_J _ _ _ _ _ _ _ I) as K. unfold MbExact.since in K. unfold c in K. rewrite <- (energy_mb ln lnchoose lnfact linC kd g _ HA), <- (energy_mb ln lnchoose lnfact linC kd g _ HA2). destruct debug.
    + rewrite <- K. ring.
    + rewrite <- K. ring.
  - intros Hn. assert (HmD : mat N N (map (map (fun x => ndiv x (nofnat nIter))) m) (fun i j => if i =? j then 0%Qc else (Qsum (fun M => score M i j) Ms / Qc_of_nat nIter)%Qc)).
    { eapply mat_ext; [eapply mat_map; exact Hm|]. intros i j _ _. cbn [ndiv nofnat rops Qc_ops]. unfold mb_summed. destruct (i =? j); auto. unfold Qcdiv. apply Qcmult_0_l. }
    unfold mb_average. rewrite LMs. destruct kd; auto. eapply mat_ext; [eapply mat_map; exact HmD|]. intros i j _ _. cbn [nsub nofQ rops Qc_ops]. destruct (i =? j); [apply Qc_is_canon; reflexivity|reflexivity].
Qed.

(** * The table of harmonic numbers is one entry too short. *)
Section Short.
Hypothesis HN : 0 < N.
Hypothesis NOD : kd <> OD.
Lemma zero_good : good_draw (0%Qc : Qc).
Proof. apply Refute.good_draw_Qc; [apply Qcle_refl|reflexivity]. Qed.
Lemma zfloor_0 : nfloor (nmul 0%Qc (nofnat N)) = 0.
Proof. cbn [nfloor nmul nofnat rops Qc_ops]. rewrite Qcmult_0_l. reflexivity. Qed.
Lemma zero_setup hl tail : length hl = choose2 N + 1 -> Forall good_draw tail -> mb_setup ln lnchoose lnfact lcsize linC kd g hl (repeat 0%Qc N ++ tail) = Err UB_oob.
Proof.
  intros Lh HT. set (bad := repeat 0%Qc N ++ tail).
  assert (BG : Forall good_draw bad) by (unfold bad; apply Forall_app; split; auto; apply Forall_forall; intros x K; apply repeat_spec in K; subst; apply zero_good).
  unfold mb_setup. fold N. pose proof (map_nodes_ok g U) as EM. fold N in EM. match goal with |- bind ?a _ = _ => assert (EM' : a = Ok (ident, ident, fresh_groups N)) by exact EM; rewrite EM' end. cbn [bind].
  destruct (foldM_seq (fun i s => plinv g i s /\ snd s = repeat 0%Qc (N - i) ++ tail /\ forall k, k <> 0 -> nth_members (abs (snd (fst s))) k = []) (place_node N ident) N
    ((ResetNetGroup g, fresh_groups N), bad)) as (((g' & P) & ds) & EF & I & Eds & HE).
  - splits.
    + split; cbn [fst snd]; auto; [apply (un_reset g U)|apply sbg_reset|apply fresh_mapped|apply fresh_placed].
    + cbn [snd]. unfold bad. now rewrite Nat.sub_0_r.
    + intros k _. apply nth_fresh.
  - intros i [[g1 P1] ds] Hi (I & Eds & HE). cbn [fst snd] in *. replace (N - i) with (S (N - (i + 1))) in Eds by lia. cbn [repeat app] in Eds. subst ds.
    destruct (place_one mutual decay_of lcsize linC g i g1 P1 0%Qc _ Hi I) as (Hk & g2 & P2 & E' & EA & I2). fold N in E', EA, Hk, I2. exists ((g2, P2), repeat 0%Qc (N - (i + 1)) ++ tail). splits; auto.
    intros k K. cbn [fst snd]. rewrite EA, zfloor_0. rewrite nth_set_members; [now rewrite (proj2 (Nat.eqb_neq k 0) K), HE|].
    pose proof (pl_labels _ _ _ (pv_pl _ _ _ I)) as L. cbn [fst snd] in L. apply (f_equal (@length nat)) in L. rewrite map_length, seq_length in L. fold N in L. lia.
  - rewrite EF. cbn [bind fst snd] in *. destruct I as [I1 I2 I3 I4 I5]. cbn [fst snd] in *. assert (PI : pinv g g' P) by (split; auto; apply (placed_all g); auto).
    destruct (g2g_rows_ok g U g' P (repeat (repeat 0%Z N) N) PI) as (m & E' & Hm); [eexists; apply mat_repeat|]. fold N in E'. rewrite E'. cbn [bind].
    assert (EPH : PartitionHMB ln lnchoose lnfact linC kd hl g' P = Err UB_oob); [|now rewrite EPH].
    pose proof (pi_plen g g' P PI) as LP. fold N in LP. pose proof (pi_as _ _ _ PI) as HA. fold N in HA.
    assert (S0 : length (nth_members (abs P) 0) = N).
    { pose proof (sizes_sum N (abs P) HA) as K. replace (seq 0 N) with (0 :: seq 1 (N - 1)) in K by (replace N with (S (N - 1)) at 2 by lia; reflexivity). cbn [lsum] in K.
      rewrite (lsum_0 _ (seq 1 (N - 1))) in K; [lia|]. intros k Hk. apply in_seq in Hk. rewrite HE by lia. reflexivity. }
    unfold PartitionHMB. rewrite LP. replace (seq 0 N) with (0 :: seq 1 (N - 1)) by (replace N with (S (N - 1)) at 2 by lia; reflexivity). cbn [foldM].
    destruct (pi_group g g' P PI 0 HN) as (G & EG & _ & _ & Es & Ei). unfold mb_ph_group at 1. rewrite (get_ok _ _ _ EG). cbn [bind]. rewrite Es, Ei, nonempty_len, S0.
    assert (NE : nonempty (nth_members (abs P) 0) = true) by (destruct (nth_members (abs P) 0); [cbn in S0; lia|reflexivity]). rewrite NE.
    rewrite choose2_Z, !nat_of_nat. cbn [bind]. unfold mb_add. unfold harm.
    assert (EG1 : get hl (choose2 N + 1) = Err UB_oob) by (unfold get; rewrite (proj2 (nth_error_None hl (choose2 N + 1))); [reflexivity|lia]).
    destruct kd; [|  |congruence]; rewrite EG1; reflexivity.
Qed.
Theorem LinkScoreMB_oob debug nIter tail : Forall good_draw tail ->
  Forall good_draw (repeat 0%Qc N ++ tail) /\ LinkScoreMB ln lnchoose lnfact mutual decay_of lcsize lfsize linC kd debug g nIter (repeat 0%Qc N ++ tail) = Err UB_oob.
Proof.
  intros HT. split; [apply Forall_app; split; auto; apply Forall_forall; intros x K; apply repeat_spec in K; subst; apply zero_good|].
  unfold LinkScoreMB, LinkScoreMB_on. fold N. change (Nat.div (N * (N - 1)) 2) with (choose2 N).
  destruct (harmonic_spec ex sq (1 + choose2 N) ltac:(lia)) as (hl & EH & Lh & _).
  match goal with |- bind ?a _ = _ => assert (EH' : a = Ok hl) by exact EH; rewrite EH'; clear EH' end. cbn [bind]. rewrite zero_setup; auto. lia.
Qed.
End Short.
End Score.

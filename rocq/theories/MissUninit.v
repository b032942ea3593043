(** MissUninit.v -- LinkScore of src/missing.c reads the array n2gList before it is written, on every network with two nodes. *)
From Coq Require Import List Arith ZArith Bool QArith Qcanon Lia.
From Verif Require Import Base Num ListLib NatSum QcSum IoModel GraphModel GraphSpec GraphProof GroupModel GroupSpec PairSum GroupProof GroupExact MatLib
  ToolsModel ToolsProof ModulesModel ModulesCopy SAProof RolesBounds Refute MissModel MissSpec MissSets MissStep MissRun MissScore.
Import ListNotations.
Local Open Scope nat_scope.

Section Uninit.
Variables ex sq : Qc -> Qc.
Hypothesis ex_pos : forall x, (0 < ex x)%Qc.
Local Instance qops : NumOps Qc := Qc_ops ex sq.
Variable logf : nat -> Qc.
Variable lnchoose : nat -> nat -> Qc.
Variable lnfact : nat -> Qc.
Variable mutual : gpart Qc -> gpart Qc -> Qc.
Variable decay_of : nat -> nat -> Qc -> nat -> Qc -> Qc.
Variables lcsize lfsize : nat.
Variable linC : Qc.
Variable g : net Qc.
Hypothesis U : undirected g.
Let N := length g.
Hypothesis two : 2 <= N.
Definition anyJ (M : groups) (H : Qc) (ds : list Qc) : Prop := True.
Notation minv := (minv lnchoose lcsize g anyJ False).
Notation tfact := (InitializeTable lnfact lfsize).
Notation ident := (ident g).

(** Node 0, then group 1, then acceptance. *)
Definition bad_tail : list Qc := [0%Qc; (1 / Qc_of_nat N)%Qc; 0%Qc].
Definition bad_draws : list Qc := repeat 0%Qc N ++ bad_tail.
Lemma N_pos : (0 < Qc_of_nat N)%Qc.
Proof. rewrite <- Qc_of_nat_0. apply Qc_of_nat_lt. lia. Qed.
Lemma N_neq : Qc_of_nat N <> 0%Qc.
Proof. intros E. pose proof N_pos as H. rewrite E in H. now apply Qclt_not_eq in H. Qed.
Lemma bad_good : Forall good_draw bad_draws.
Proof.
  assert (Z : @good_draw Qc qops 0%Qc) by (apply good_draw_Qc; vm_compute; congruence).
  apply Forall_app. split; [apply Forall_forall; intros x Hx; apply repeat_spec in Hx; now subst|]. repeat constructor; auto.
  assert (P2 : (1 < Qc_of_nat N)%Qc) by (replace 1%Qc with (Qc_of_nat 1) by reflexivity; apply Qc_of_nat_lt; lia). pose proof N_pos as P. pose proof N_neq as HN.
  set (u := (1 / Qc_of_nat N)%Qc). assert (E : (u * Qc_of_nat N = 1)%Qc) by (unfold u, Qcdiv; rewrite Qcmult_1_l, Qcmult_comm; now apply Qcmult_inv_r).
  apply good_draw_Qc.
  - apply Qcnot_lt_le. intros K. apply (Qcmult_lt_compat_r _ _ _ P) in K. rewrite E, Qcmult_0_l in K. discriminate K.
  - apply Qcnot_le_lt. intros K. apply (Qcmult_le_compat_r _ _ (Qc_of_nat N)) in K; [|now apply Qclt_le_weak]. rewrite E, Qcmult_1_l in K. now apply Qcle_not_lt in K.
Qed.
Lemma floor_0 : nfloor (nmul 0%Qc (nofnat N)) = 0.
Proof. cbn [nfloor nmul nofnat qops Qc_ops]. rewrite Qcmult_0_l. reflexivity. Qed.
Lemma floor_1 : nfloor (nmul (1 / Qc_of_nat N)%Qc (nofnat N)) = 1.
Proof. cbn [nfloor nmul nofnat qops Qc_ops]. unfold Qcdiv. rewrite Qcmult_1_l, Qcmult_comm, Qcmult_inv_r by apply N_neq. reflexivity. Qed.

Lemma neg_ok : nltb (nofQ (-1 # 1)) n0 = true.
Proof. reflexivity. Qed.
Lemma setup_zero : exists st, mc_setup logf lnchoose lnfact lcsize linC g (repeat None N) bad_draws = Ok (ident, ident, st) /\ minv st /\ mds st = bad_tail /\ mn2g st = repeat None N /\
  forall k, k <> 0 -> nth_members (abs (mpart st)) k = [].
Proof.
  unfold mc_setup. fold N. rewrite (map_nodes_ok g U). cbn [bind]. fold N.
  destruct (foldM_seq (fun i s => plinv g i s /\ snd s = repeat 0%Qc (N - i) ++ bad_tail /\ forall k, k <> 0 -> nth_members (abs (snd (fst s))) k = []) (place_node N ident) N
    ((ResetNetGroup g, fresh_groups N), bad_draws)) as (((g' & P) & ds) & -> & I & Eds & HE).
  - splits.
    + split; cbn [fst snd]; [now apply un_reset|apply sbg_reset|apply fresh_mapped; auto|apply fresh_placed|apply bad_good].
    + cbn [snd]. unfold bad_draws. now rewrite Nat.sub_0_r.
    + intros k _. apply nth_fresh.
  - intros i [[g1 P1] ds] Hi (I & Eds & HE). cbn [fst snd] in *. replace (N - i) with (S (N - (i + 1))) in Eds by lia. cbn [repeat app] in Eds. subst ds.
    destruct (place_one mutual decay_of lcsize linC g i g1 P1 0%Qc _ Hi I) as (Hk & g2 & P2 & E & EA & I2). fold N in E, EA, Hk, I2. exists ((g2, P2), repeat 0%Qc (N - (i + 1)) ++ bad_tail). splits; auto.
    intros k K. cbn [fst snd]. rewrite EA, floor_0. rewrite nth_set_members; [now rewrite (proj2 (Nat.eqb_neq k 0) K), HE|].
    pose proof (pl_labels _ _ _ (pv_pl _ _ _ I)) as L. cbn [fst snd] in L. apply (f_equal (@length nat)) in L. rewrite map_length, seq_length in L. fold N in L. lia.
  - cbn [bind fst snd] in *. destruct I as [I1 I2 I3 I4 I5]. cbn [fst snd] in *. assert (PI : pinv g g' P) by (split; auto; apply (placed_all g); auto).
    destruct (g2g_rows_ok g U g' P (repeat (repeat 0%Z N) N) PI) as (m & E & Hm); [eexists; apply mat_repeat|]. fold N in E. rewrite E. cbn [bind].
    rewrite (PartitionH_ok logf lnchoose lnfact linC g U g' P PI). cbn [bind]. eexists. split; [reflexivity|]. splits; auto.
    + split; cbn; auto; try contradiction.
      * apply repeat_length.
      * intros k x Ex _. apply nth_error_In, repeat_spec in Ex. auto.
      * apply lc_init.
      * exact Logic.I.
    + cbn [mds]. rewrite Eds, Nat.sub_diag. reflexivity.
Qed.

Lemma first_move st : minv st -> mds st = bad_tail -> mn2g st = repeat None N -> (forall k, k <> 0 -> nth_members (abs (mpart st)) k = []) ->
  LinkScoreMCStep logf lnchoose lnfact lcsize lfsize linC N ident ident tfact 1 st = Err UB_uninit.
Proof.
  intros I Ed En HE. pose proof (mi_p _ _ _ _ _ _ I) as PI. unfold LinkScoreMCStep. pose proof (shortlist g _ _ PI) as HL. set (slg := map plabel _) in *.
  assert (H1 : mem 1 slg = false).
  { destruct (mem_spec 1 slg) as [K|]; auto. exfalso. unfold slg in K. apply in_map_iff in K as (G & EG & HG). apply filter_In in HG as [HG HS]. apply In_nth_error in HG as [j Ej].
    assert (Hj : j < N) by (unfold N; rewrite <- (pi_plen g _ _ PI); eapply nth_lt; eauto). destruct (pi_group g _ _ PI j Hj) as (G' & EG' & El & _ & Es & _). rewrite Ej in EG'. injection EG' as <-.
    rewrite EG in El. subst j. rewrite Es, HE in HS by auto. discriminate HS. }
  pose proof (listed_len g _ _ HL) as LL. fold N in LL. rewrite (proj2 (Nat.leb_le _ _) LL). cbn [check bind]. rewrite Nat.mul_1_r. replace N with (S (N - 1)) at 2 by lia. cbn [seq foldM].
  assert (E0 : In 0 (nth_members (abs (mpart st)) 0)).
  { destruct (as_cover _ _ (pi_as _ _ _ PI) 0) as [k Hk]; [fold N; lia|]. destruct (Nat.eq_dec k 0) as [->|K]; auto. rewrite HE in Hk by auto. destruct Hk. }
  assert (EM : mc_move logf lnchoose lnfact lcsize lfsize linC N ident ident tfact (st, slg) 0 = Err UB_uninit); [|now rewrite EM].
  unfold mc_move. rewrite Ed. unfold bad_tail. cbn [draw bind]. rewrite floor_0, (ident_get g 0) by (fold N; lia). cbn [bind deref].
  destruct (pi_home g _ _ PI 0) as (n & k & Eg0 & Egr & Hk & Hin); [fold N; lia|]. rewrite (get_ok _ _ _ Eg0). cbn [bind].
  assert (Ek : k = 0) by (eapply (as_apart _ _ (pi_as _ _ _ PI)); eauto). rewrite Egr, Ek. cbn [bind redraw]. rewrite floor_1. cbn [Nat.eqb bind].
  rewrite !(ident_get g) by (fold N; lia). cbn [bind deref].
  destruct (mc_change_ok logf lnchoose lnfact lcsize lfsize linC neg_ok g U anyJ False st slg 0 0 1 I HL) as (tab & n2g & EC & _ & L & Hn); try (fold N; lia); auto.
  fold N in EC. rewrite EC. cbn [bind]. set (dH := dH_of _ _ _ _ _ _ _ _ _ _).
  assert (EA : exists rest, accepts dH [0%Qc] = Ok (true, rest)).
  { unfold accepts. destruct (nleb dH n0); [eauto|]. cbn [draw bind]. exists []. do 2 f_equal. cbn [nltb nexp qops Qc_ops]. now rewrite Qc_ltb_spec. }
  destruct EA as (rest & ->). cbn [bind].
  destruct (pi_move g _ _ PI 0 0 1) as (r & g' & P' & -> & _); try (fold N; lia); auto. cbn [bind].
  assert (EF : foldM (g2g_step n2g 0 1) (mG2G st) (seq 0 N) = Err UB_uninit); [|now rewrite EF].
  replace N with (S (S (N - 2))) by lia. cbn [seq foldM].
  assert (E1 : exists m, g2g_step n2g 0 1 (mG2G st) 0 = Ok m).
  { pose proof (mi_g2g _ _ _ _ _ _ I) as HT. unfold table_exact in HT. fold N in HT. unfold g2g_step.
    assert (K0 : mem 0 slg = true) by (apply mem_In, HL; [fold N; lia|]; destruct (nth_members (abs (mpart st)) 0); [destruct E0|reflexivity]).
    specialize (Hn 0). rewrite K0 in Hn. rewrite (get_ok _ _ _ Hn). cbn [bind written].
    rewrite (mat_get _ _ _ _ 0 0 HT) by lia. cbn [bind]. match goal with |- context [set2 (mG2G st) 0 0 ?y] => destruct (mat_set _ _ _ _ 0 0 y HT) as (m1 & -> & H1') end; try lia. cbn [bind].
    rewrite (mat_get _ _ _ _ 0 0 H1') by lia. cbn [bind]. match goal with |- context [set2 m1 0 0 ?y] => destruct (mat_set _ _ _ _ 0 0 y H1') as (m2 & -> & H2') end; try lia. cbn [bind].
    rewrite (mat_get _ _ _ _ 0 1 H2') by lia. cbn [bind]. match goal with |- context [set2 m2 0 1 ?y] => destruct (mat_set _ _ _ _ 0 1 y H2') as (m3 & -> & H3') end; try lia. cbn [bind].
    rewrite (mat_get _ _ _ _ 0 1 H3') by lia. cbn [bind]. match goal with |- context [set2 m3 1 0 ?y] => destruct (mat_set _ _ _ _ 1 0 y H3') as (m4 & -> & H4') end; try lia. eauto. }
  destruct E1 as (m & ->). cbn [bind]. unfold g2g_step at 1. specialize (Hn 1). rewrite H1, En, nth_repeat_lt in Hn by lia. rewrite (get_ok _ _ _ Hn). reflexivity.
Qed.

Theorem LinkScore_uninit nIter : Forall good_draw bad_draws /\ LinkScore logf lnchoose lnfact mutual decay_of lcsize lfsize linC g nIter bad_draws = Err UB_uninit.
Proof.
  split; [apply bad_good|]. unfold LinkScore, LinkScore_on. fold N. destruct setup_zero as (st & -> & I & Ed & En & HE). cbn [bind].
  assert (EG : GetDecorrelationStep logf lnchoose lnfact mutual decay_of lcsize lfsize linC N ident ident tfact st = Err UB_uninit); [|now rewrite EG].
  unfold GetDecorrelationStep. replace (length (mds st) + 11) with (S (length (mds st) + 10)) by lia. cbn [decor_reps].
  assert (EO : decor_one logf lnchoose lnfact mutual decay_of lcsize lfsize linC N ident ident tfact st = Err UB_uninit); [|now rewrite EO].
  unfold decor_one. pose proof (mi_p _ _ _ _ _ _ I) as PI. destruct (CopyPartition_spec (mnet st) (mpart st)) as (g' & Q & E & _); try apply PI. rewrite E. cbn [bind].
  rewrite Nat.add_1_r. cbn [seq foldM]. unfold decor_step at 1. cbn [fst snd]. rewrite first_move; auto.
  split; cbn; try apply I. eapply (copy_pinv g); eauto.
Qed.
End Uninit.

(** MbExact.v -- what the samplers of src/multiblock.c and src/only_deg.c compute. *)
From Coq Require Import List Arith ZArith Bool QArith Qcanon Lia.
From Verif Require Import Base Num ListLib NatSum QcSum IoModel GraphModel GraphSpec GraphProof GroupModel GroupSpec PairSum GroupProof GroupExact MatLib
  ToolsModel ToolsProof ModulesModel ModulesCopy SAProof RolesBounds MissModel MissSpec MissSets MissStep MissRun MissScore MissExact MbModel MbSpec MbStep MbRun.
Import ListNotations.
Local Open Scope nat_scope.

(** The Metropolis algorithm for two energies that agree on partitions of the nodes. *)
Section Ext.
Variable ex : Qc -> Qc.
Variable g : net Qc.
Let N := length g.
Variables E E' : groups -> Qc.
Hypothesis HE : forall M, assigned N M -> E M = E' M.
Lemma attempt_ext M ds M' d : assigned N M -> attempt ex N E M ds M' d -> attempt ex N E' M ds M' d /\ assigned N M'.
Proof.
  intros HA H. destruct H as [u ds o w ds' M' Hv HP HR HX|u ds o w u' ds' M' Hv HP HR HX HU|u ds o w u' ds' M' Hv HP HR HX HU].
  all: pose proof (picks_ne g _ _ _ _ HP) as Hne; assert (Ho : o < N) by (eapply as_lt; eauto); destruct (relocated_moved g M (selects N u) o w M' HA (fun K => Hne (eq_sym K)) Hv HR) as [Hw EM];
    assert (HA1 : assigned N M') by (rewrite EM; apply moved_assigned; auto); rewrite (HE M HA), (HE M' HA1) in *; split; auto.
  - eapply at_down; eauto.
  - eapply at_up; eauto.
  - eapply at_stay; eauto.
Qed.
Lemma attempts_ext n M ds M' d : attempts ex N E n M ds M' d -> assigned N M -> attempts ex N E' n M ds M' d /\ assigned N M'.
Proof.
  induction 1 as [|n M ds M1 ds1 M2 ds2 _ IH HT]; intros HA; [split; auto; constructor|]. destruct (IH HA) as [H1 HA1]. destruct (attempt_ext _ _ _ _ HA1 HT) as [H2 HA2]. split; auto. econstructor; eauto.
Qed.
Lemma samples_ext n M ds Ms M' d : samples ex N E n M ds Ms M' d -> assigned N M -> samples ex N E' n M ds Ms M' d /\ assigned N M'.
Proof.
  induction 1 as [|M ds Ms M1 ds1 M2 ds2 _ IH HT]; intros HA; [split; auto; constructor|]. destruct (IH HA) as [H1 HA1]. destruct (attempts_ext _ _ _ _ _ HT HA1) as [H2 HA2]. split; auto. econstructor; eauto.
Qed.
End Ext.

(** Sums of inverses. *)
Lemma inv_pos n : (0 < 1 / Qc_of_nat (S n))%Qc.
Proof. apply Qc_div_pos; [reflexivity|]. rewrite <- Qc_of_nat_0. apply Qc_of_nat_lt. lia. Qed.
Lemma inv_less n : (1 / Qc_of_nat (S (S n)) < 1 / Qc_of_nat (S n))%Qc.
Proof.
  assert (P1 : (0 < Qc_of_nat (S n))%Qc) by (rewrite <- Qc_of_nat_0; apply Qc_of_nat_lt; lia).
  assert (P2 : (0 < Qc_of_nat (S (S n)))%Qc) by (rewrite <- Qc_of_nat_0; apply Qc_of_nat_lt; lia).
  assert (P3 : (Qc_of_nat (S n) < Qc_of_nat (S (S n)))%Qc) by (apply Qc_of_nat_lt; lia).
  assert (N1 : Qc_of_nat (S n) <> 0%Qc) by (intros K; rewrite K in P1; now apply Qclt_not_eq in P1).
  apply Qc_div_lt; auto. replace (1 / Qc_of_nat (S n) * Qc_of_nat (S (S n)))%Qc with (Qc_of_nat (S (S n)) / Qc_of_nat (S n))%Qc by (field; auto).
  apply Qcnot_le_lt. intros K. apply (Qcmult_le_compat_r _ _ (Qc_of_nat (S n))) in K; [|now apply Qclt_le_weak].
  rewrite Qcmult_1_l in K. replace (Qc_of_nat (S (S n)) / Qc_of_nat (S n) * Qc_of_nat (S n))%Qc with (Qc_of_nat (S (S n))) in K by (field; auto). now apply Qcle_not_lt in K.
Qed.
Lemma Qsum_nat_pos (f : nat -> Qc) l : l <> [] -> (forall x, In x l -> (0 < f x)%Qc) -> (0 < Qsum f l)%Qc.
Proof.
  induction l as [|x l IH]; intros Hne H; [congruence|]. cbn [Qsum]. destruct l as [|y l]; [cbn [Qsum]; rewrite Qcplus_0_r; apply H; now left|].
  rewrite <- (Qcplus_0_l 0). apply Qc_plus_lt; [apply H; now left|]. apply IH; [discriminate|]. intros; apply H; now right.
Qed.
Lemma Qsum_nat_lt (f h : nat -> Qc) l : l <> [] -> (forall x, In x l -> (f x < h x)%Qc) -> (Qsum f l < Qsum h l)%Qc.
Proof.
  induction l as [|x l IH]; intros Hne H; [congruence|]. cbn [Qsum]. destruct l as [|y l]; [cbn [Qsum]; rewrite !Qcplus_0_r; apply H; now left|].
  apply Qc_plus_lt; [apply H; now left|]. apply IH; [discriminate|]. intros; apply H; now right.
Qed.
Lemma hsum_pos a b : a < b -> (0 < hsum a b)%Qc.
Proof.
  intros H. unfold hsum. apply Qsum_nat_pos; [replace (b - a) with (S (b - a - 1)) by lia; discriminate|]. intros x Hx. apply in_seq in Hx. replace x with (S (x - 1)) by lia. apply inv_pos.
Qed.
Lemma hsum_shift a b : a < b -> (hsum (a + 1) (b + 1) < hsum a b)%Qc.
Proof.
  intros H. unfold hsum. replace (b + 1 - (a + 1)) with (b - a) by lia. replace (seq (a + 1 + 1) (b - a)) with (map (fun x => S x) (seq (a + 1) (b - a))) by (rewrite seq_shift, !Nat.add_1_r; reflexivity).
  rewrite Qsum_map. apply Qsum_nat_lt; [replace (b - a) with (S (b - a - 1)) by lia; discriminate|]. intros x Hx. apply in_seq in Hx. replace x with (S (x - 1)) by lia. apply inv_less.
Qed.
Lemma Qc_mult_lt a b c d : (0 < a -> a <= b -> 0 < c -> c < d -> a * c < b * d)%Qc.
Proof.
  intros Ha Hab Hc Hcd. assert (Hb : (0 < b)%Qc) by (exact (Qclt_le_trans _ _ _ Ha Hab)).
  eapply Qcle_lt_trans; [apply (Qcmult_le_compat_r _ _ c Hab); now apply Qclt_le_weak|]. rewrite !(Qcmult_comm b). now apply Qcmult_lt_compat_r.
Qed.
Lemma ratio_between a r : a <= r -> (0 < ratio a r)%Qc /\ (ratio a r < 1)%Qc.
Proof.
  intros H. unfold ratio.
  assert (P1 : (0 < Qc_of_nat (a + 1))%Qc) by (rewrite <- Qc_of_nat_0; apply Qc_of_nat_lt; lia).
  assert (P2 : (Qc_of_nat (a + 1) < Qc_of_nat (r + 2))%Qc) by (apply Qc_of_nat_lt; lia).
  pose proof (hsum_pos (a + 1) (r + 2) ltac:(lia)) as P3. pose proof (hsum_pos a (r + 1) ltac:(lia)) as P4.
  pose proof (hsum_shift a (r + 1) ltac:(lia)) as P5. replace (r + 1 + 1) with (r + 2) in P5 by lia.
  assert (M0 : forall x y, (0 < x -> 0 < y -> 0 < x * y)%Qc) by (intros x y Hx Hy; rewrite <- (Qcmult_0_l y); now apply Qcmult_lt_compat_r).
  assert (P6 : (0 < Qc_of_nat (r + 2))%Qc) by exact (Qclt_trans _ _ _ P1 P2).
  assert (P7 : (Qc_of_nat (a + 1) * hsum (a + 1) (r + 2) < Qc_of_nat (r + 2) * hsum a (r + 1))%Qc) by (apply Qc_mult_lt; auto; now apply Qclt_le_weak).
  pose proof (M0 _ _ P1 P3) as P8. pose proof (M0 _ _ P6 P4) as P9.
  match goal with |- (0 < ?x)%Qc /\ _ => replace x with (Qc_of_nat (a + 1) * hsum (a + 1) (r + 2) / (Qc_of_nat (r + 2) * hsum a (r + 1)))%Qc end.
  - split; [now apply Qc_div_pos|]. apply Qc_div_lt; auto. now rewrite Qcmult_1_l.
  - field. split; intros K; rewrite K in *; now apply Qclt_not_eq in P4 || now apply Qclt_not_eq in P6.
Qed.
Lemma share_between kd r l : l <= r -> (0 < mb_share kd r l)%Qc /\ (mb_share kd r l < 1)%Qc.
Proof.
  intros H. unfold mb_share. destruct kd; [now apply ratio_between|apply ratio_between; lia|].
  assert (P1 : (0 < Qc_of_nat (l + 1))%Qc) by (rewrite <- Qc_of_nat_0; apply Qc_of_nat_lt; lia).
  assert (P2 : (0 < Qc_of_nat (r + 2))%Qc) by (rewrite <- Qc_of_nat_0; apply Qc_of_nat_lt; lia).
  assert (P3 : (Qc_of_nat (l + 1) < Qc_of_nat (r + 2))%Qc) by (apply Qc_of_nat_lt; lia). split; [now apply Qc_div_pos|apply Qc_div_lt; auto; now rewrite Qcmult_1_l].
Qed.

Section Exact.
Variables ex sq : Qc -> Qc.
Local Instance rops : NumOps Qc := Qc_ops ex sq.
Variable ln : Qc -> Qc.
Variable lnchoose : nat -> nat -> Qc.
Variable lnfact : nat -> Qc.
Variable mutual : gpart Qc -> gpart Qc -> Qc.
Variable decay_of : nat -> nat -> Qc -> nat -> Qc -> Qc.
Variables lcsize lfsize : nat.
Variable linC : Qc.
Variable kd : kind.
Hypothesis ln1 : ln 1%Qc = 0%Qc.
Hypothesis choose00 : lnchoose 0 0 = 0%Qc.
Variable g : net Qc.
Hypothesis U : undirected g.
Let N := length g.
Notation logf := (logf ln).
Notation lnch := (lnch ln lnchoose kd).
Notation lnfd := (lnfd ln lnfact kd g).
Notation menergy := (MissSpec.energy logf lnch lnfd linC g).
Notation E := (mb_energy ln lnchoose lnfact linC kd g).
Notation tfact := (InitializeTable lnfact lfsize).
Notation ident := (ident g).

Lemma logf1 : logf 1 = 0%Qc.
Proof. unfold MbStep.logf. replace (Qc_of_nat 1) with 1%Qc; auto. Qed.
Lemma lnch00 : lnch 0 0 = 0%Qc.
Proof.
  unfold MbStep.lnch. rewrite choose00. assert (H1 : hsum 0 (0 + 1) = 1%Qc) by (unfold hsum; cbn; apply Qc_is_canon; reflexivity).
  destruct kd; rewrite ?Nat.sub_0_r, ?H1, ?ln1; ring.
Qed.
Lemma energy_mb M : assigned N M -> menergy M = E M.
Proof.
  intros HA. unfold MissSpec.energy, mb_energy. unfold MbStep.lnfd. fold N. pose proof (filled_le N M HA) as HF. replace (N - (N - filled M)) with (filled M) by lia.
  assert (EC : forall r l, MissSpec.cost logf lnch r l = mb_cost ln lnchoose kd r l) by (intros; unfold MissSpec.cost, mb_cost, MbStep.logf, MbStep.lnch; ring).
  rewrite (Qsum_ext _ (fun k => let S := nth_members M k in if nonempty S then mb_cost ln lnchoose kd (choose2 (length S)) (links_in g S) else 0%Qc) (seq 0 (length M))).
  2: { intros k _. cbv zeta. destruct (nonempty _); auto. }
  rewrite (pair_sum_ext (length M) _ (fun k l => let S := nth_members M k in let T := nth_members M l in if nonempty S && nonempty T then mb_cost ln lnchoose kd (length S * length T) (across g S T) else 0%Qc)).
  2: { intros k l _ _. cbv zeta. destruct (_ && _); auto. }
  cbv zeta. ring.
Qed.

Variable hl : list Qc.
Hypothesis Hhl : forall i, i < length hl -> nth_error hl i = Some (Qsum (fun j => 1 / Qc_of_nat j) (seq 1 i))%Qc.
Notation mb_err := (mb_err kd g hl).
Notation binv J := (binv ex sq lnchoose lcsize g J).
Notation mstep := (LSMCStepMB ln lnchoose lnfact lcsize lfsize linC kd N ident ident tfact hl).
Notation fol ds := (follows ex sq logf lnch lnfd linC g ds).

Lemma fol_move ds : attempt_ok logf lnch lnfd linC g (fol ds).
Proof. exact (follows_move ex sq logf lnch lnfd linC logf1 lnch00 g U ds). Qed.
Lemma fol_init ds : forall M ds', assigned N M -> started N ds M ds' -> fol ds M (H_of logf lnch lnfd linC g M) ds'.
Proof. exact (follows_init ex sq logf lnch lnfd linC logf1 lnch00 g U ds). Qed.
Lemma move_E M slg v o w : assigned N M -> listed g M slg -> o < N -> w < N -> o <> w -> In v (nth_members M o) ->
  menergy (moved M v o w) = (menergy M + dH_of logf lnch lnfd linC g M slg v o w)%Qc.
Proof. intros. exact (move_energy ex sq logf lnch lnfd linC logf1 lnch00 g U M slg v o w ltac:(auto) ltac:(auto) ltac:(auto) ltac:(auto) ltac:(auto) ltac:(auto)). Qed.
Lemma PartitionHMB_energy g' P' : pinv g g' P' -> ends mb_err (PartitionHMB ln lnchoose lnfact linC kd hl g' P') (fun H => H = E (abs P')).
Proof.
  intros I. eapply ends_impl; [apply (PartitionHMB_ok ex sq ln lnchoose lnfact mutual decay_of lcsize linC kd g U hl Hhl (fol []) (fol_move []) g' P' I)|]. intros H ->.
  rewrite <- energy_mb by apply I. exact (H_of_energy ex sq logf lnch lnfd linC logf1 lnch00 g U (abs P') (pi_as _ _ _ I)).
Qed.

(** The states that the program reaches: the set-up, then any number of steps of any length. *)
Definition mb_reached (ds : list Qc) (factors : list nat) : res (mc Qc) :=
  do (nlist, glist, st) <- mb_setup ln lnchoose lnfact lcsize linC kd g hl ds;
  foldM (fun st f => LSMCStepMB ln lnchoose lnfact lcsize lfsize linC kd (length g) nlist glist tfact hl f st) st factors.
Lemma mb_reached_ok ds factors : Forall good_draw ds -> ends mb_err (mb_reached ds factors) (binv (fol ds)).
Proof.
  intros HD. unfold mb_reached. eapply ends_bind.
  { apply (mb_setup_ok ex sq ln lnchoose lnfact mutual decay_of lcsize linC kd g U hl Hhl (fol ds) (fol_move ds) ds (fol_init ds) HD). }
  intros [[nl gl] st] (-> & -> & I). fold N. apply ends_foldM; auto. intros s f _ Is.
  exact (MbStep.step_ok ex sq ln lnchoose lnfact lcsize lfsize linC kd g U hl Hhl (fol ds) (fol_move ds) f s Is).
Qed.

(** A step makes N * factor attempts. *)
Section Walk.
Variable J : groups -> Qc -> list Qc -> Prop.
Hypothesis J_move : attempt_ok logf lnch lnfd linC g J.
Lemma mb_moves_attempts l : forall s s', 0 < N -> binv J s ->
  foldM (mb_move ln lnchoose lnfact lcsize lfsize linC kd N ident ident tfact hl) s l = Ok s' -> attempts ex N menergy (length l) (abs (mpart s)) (mds s) (abs (mpart s')) (mds s').
Proof.
  induction l as [|i l IH]; intros s s' HN I EQ.
  - cbn [foldM] in EQ. injection EQ as ->. constructor.
  - cbn [foldM] in EQ. pose proof (move_ok ex sq ln lnchoose lnfact lcsize lfsize linC kd g U hl Hhl J J_move s i HN I) as H1. fold N in H1.
    destruct (mb_move _ _ _ _ _ _ _ _ _ _ _ _ s i) as [s1|e] eqn:E1; [|discriminate]. cbn [bind ends] in *. destruct H1 as (I1 & u & ds & o & w & ds2 & acc & Ed & Hv & Ho & Hw & How & ER & EC & EA).
    change (length (i :: l)) with (1 + length l). eapply attempts_trans; [|eapply IH; eauto]. rewrite Ed, EA. econstructor; [constructor|].
    exact (attempt_of ex sq logf lnch lnfd linC logf1 lnch00 g U (abs (mpart s)) (seq 0 N) u o w ds ds2 acc (mds s1) (pi_as _ _ _ (bi_p _ _ _ _ _ _ _ I)) (all_listed g _) Ho Hw How Hv ER EC).
Qed.
Lemma mb_step_attempts factor st st' : binv J st -> mstep factor st = Ok st' -> attempts ex N E (N * factor) (abs (mpart st)) (mds st) (abs (mpart st')) (mds st').
Proof.
  intros I EQ. pose proof (pi_as _ _ _ (bi_p _ _ _ _ _ _ _ I)) as HA. refine (proj1 (attempts_ext ex g menergy E energy_mb _ _ _ _ _ _ HA)).
  unfold LSMCStepMB in EQ. destruct (Nat.eq_dec N 0) as [E0|HN].
  - rewrite E0 in EQ. cbn [Nat.mul seq foldM] in EQ. injection EQ as ->. rewrite E0. cbn [Nat.mul]. constructor.
  - apply mb_moves_attempts in EQ; auto; [|lia]. now rewrite seq_length in EQ.
Qed.
Lemma mb_stepped_samples decor s0 sts st : mb_stepped ex sq ln lnchoose lnfact lcsize lfsize linC kd g hl decor s0 sts st -> binv J s0 -> Forall (binv J) sts ->
  binv J st /\ samples ex N E (N * decor) (abs (mpart s0)) (mds s0) (map (fun s => abs (mpart s)) sts) (abs (mpart st)) (mds st).
Proof.
  induction 1 as [s|s sts s1 s2 _ IH EQ]; intros I HF; [split; auto; constructor|]. apply Forall_app in HF as [HF HF2]. inversion HF2 as [|? ? I2 _]; subst. destruct (IH I HF) as [I1 HS]. split; auto.
  rewrite map_app. cbn [map]. econstructor; eauto. eapply mb_step_attempts; eauto.
Qed.
End Walk.

Theorem mb_reached_attempts ds factors st : Forall good_draw ds -> mb_reached ds factors = Ok st ->
  exists M0 d0, assigned N M0 /\ started N ds M0 d0 /\ attempts ex N E (N * list_sum factors) M0 d0 (abs (mpart st)) (mds st) /\
    forall M' d', attempts ex N E (N * list_sum factors) M0 d0 M' d' -> M' = abs (mpart st) /\ d' = mds st.
Proof.
  intros HD EQ. unfold mb_reached in EQ.
  set (K := fun (M : groups) (H : Qc) (d : list Qc) => assigned N M /\ started N ds M d).
  assert (KM : attempt_ok logf lnch lnfd linC g (fun _ _ _ => True)) by (intros M slg u o w H d d2 acc d3 v ? ? ? ? ? ? ? ? ?; now destruct acc).
  pose proof (mb_setup_ok ex sq ln lnchoose lnfact mutual decay_of lcsize linC kd g U hl Hhl (fol ds) (fol_move ds) ds (fol_init ds) HD) as HS.
  pose proof (mb_setup_ok ex sq ln lnchoose lnfact mutual decay_of lcsize linC kd g U hl Hhl) as HK.
  destruct (mb_setup _ _ _ _ _ _ _ _ _) as [[[nl gl] s0]|e] eqn:ES; [|discriminate]. cbn [bind ends] in *. destruct HS as (-> & -> & I).
  destruct (bi_J _ _ _ _ _ _ _ I) as [_ (M0 & d0 & k & HA0 & HS0 & HT)].
  assert (HX : exists d1, assigned N (abs (mpart s0)) /\ started N ds (abs (mpart s0)) d1 /\ d1 = mds s0).
  { clear - ES HD U mutual decay_of. unfold mb_setup in ES. fold N in ES. pose proof (map_nodes_ok g U) as EM. fold N in EM.
    match type of ES with bind ?a _ = _ => assert (EM' : a = Ok (ident, ident, fresh_groups N)) by exact EM end. rewrite EM' in ES. cbn [bind] in ES.
    assert (G : ends (mc_err True) (foldM (place_node N ident) (ResetNetGroup g, fresh_groups N, ds) (seq 0 N)) (fun s => plinv g N s /\ used g ds N s)).
    { apply (ends_from (mc_err True) (fun i s => plinv g i s /\ used g ds i s) (place_node N ident) N 0).
      - split; [split; cbn [fst snd]; auto; [apply (un_reset g U)|apply sbg_reset|apply fresh_mapped|apply fresh_placed]|apply used_0].
      - intros i s _ Hi Hs. apply (place_used mutual decay_of lcsize linC g True ds i s Hi Hs). }
    destruct (foldM (place_node N ident) _ _) as [[[g1 P1] ds1]|e]; [|discriminate]. cbn [bind ends] in *. destruct G as [[H1 H2 H3 H4 H5] (us & Lu & Eu & Hu)]. cbn [fst snd] in *.
    destruct (foldM _ _ _); [|discriminate]. cbn [bind] in ES. destruct (PartitionHMB _ _ _ _ _ _ _ _); [|discriminate]. cbn [bind] in ES. injection ES as <-. cbn [mpart mds].
    exists ds1. splits; auto; [apply placed_all; auto|]. exists us. auto. }
  destruct HX as (d1 & HA & Hs & ->). clear HK K KM HT HS0 HA0 k d0 M0 ES.
  assert (HW : attempts ex N E (N * list_sum factors) (abs (mpart s0)) (mds s0) (abs (mpart st)) (mds st)).
  { clear Hs HA. fold N in EQ. revert s0 I EQ. induction factors as [|f fs IH]; intros s0 I EQ.
    - cbn [foldM] in EQ. injection EQ as ->. cbn [list_sum]. rewrite Nat.mul_0_r. constructor.
    - cbn [foldM] in EQ. pose proof (MbStep.step_ok ex sq ln lnchoose lnfact lcsize lfsize linC kd g U hl Hhl (fol ds) (fol_move ds) f s0 I) as HS. fold N in HS.
      destruct (LSMCStepMB _ _ _ _ _ _ _ _ _ _ _ _ _ s0) as [s1|e] eqn:E1; [|discriminate]. cbn [bind ends] in *. change (list_sum (f :: fs)) with (f + list_sum fs). rewrite Nat.mul_add_distr_l.
      assert (T : forall n m M d M1 d1 M2 d2, attempts ex N E n M d M1 d1 -> attempts ex N E m M1 d1 M2 d2 -> attempts ex N E (n + m) M d M2 d2).
      { intros n m M d M1 d1 M2 d2 H1 H2. induction H2; [now rewrite Nat.add_0_r|]. rewrite Nat.add_succ_r. econstructor; eauto. }
      eapply T; [eapply mb_step_attempts; [apply fol_move|exact I|exact E1]|]. now apply IH. }
  exists (abs (mpart s0)), (mds s0). splits; auto.
  assert (HE' : forall M, assigned N M -> E M = menergy M) by (intros; symmetry; now apply energy_mb).
  intros M' d' H'. apply (attempts_ext ex g E menergy HE') in H' as [H' _]; auto. apply (attempts_ext ex g E menergy HE') in HW as [HW _]; auto.
  destruct (attempts_det ex logf lnch lnfd linC g _ _ _ _ _ HA HW M' d' H') as [<- <-]. auto.
Qed.

(** The energy and the table of every state reached. *)
Theorem mb_reached_energy ds factors st : Forall good_draw ds -> mb_reached ds factors = Ok st ->
  assigned N (abs (mpart st)) /\ mH st = E (abs (mpart st)) /\ table_exact g (abs (mpart st)) (mG2G st) /\
  (forall H, PartitionHMB ln lnchoose lnfact linC kd hl (mnet st) (mpart st) = Ok H -> H = mH st).
Proof.
  intros HD EQ. pose proof (mb_reached_ok ds factors HD) as I. rewrite EQ in I. cbn [ends] in I.
  pose proof (pi_as _ _ _ (bi_p _ _ _ _ _ _ _ I)) as HA. destruct (bi_J _ _ _ _ _ _ _ I) as [HJ _]. rewrite (energy_mb _ HA) in HJ. splits; auto; [apply I|].
  intros H EH. pose proof (PartitionHMB_energy _ _ (bi_p _ _ _ _ _ _ _ I)) as HP. match type of HP with ends _ ?a _ => assert (EP : a = Ok H) by exact EH; rewrite EP in HP end. cbn [ends] in HP. congruence.
Qed.
(** The change predicted for every move of every state reached. *)
Theorem mb_reached_change ds factors st v o w : Forall good_draw ds -> mb_reached ds factors = Ok st ->
  o < N -> w < N -> o <> w -> In v (nth_members (abs (mpart st)) o) ->
  exists r g' P', MoveNode (mnet st, mpart st) v o w = Ok (r, (g', P')) /\
    ends mb_err (PartitionHMB ln lnchoose lnfact linC kd hl g' P') (fun after =>
      ends mb_err (mb_change ln lnchoose lnfact lcsize lfsize linC kd N tfact hl st v o w) (fun '(dH, _, _) => dH = (after - mH st)%Qc)).
Proof.
  intros HD EQ Ho Hw How Hv. pose proof (mb_reached_ok ds factors HD) as I. rewrite EQ in I. cbn [ends] in I.
  pose proof (bi_p _ _ _ _ _ _ _ I) as PI. destruct (pi_move g _ _ PI v o w Ho Hw How Hv) as (r & g' & P' & EM & PI' & EA).
  exists r, g', P'. splits; auto. eapply ends_impl; [apply (PartitionHMB_energy g' P' PI')|]. intros after ->.
  eapply ends_impl; [apply (change_ok ex sq ln lnchoose lnfact lcsize lfsize linC kd g U hl Hhl (fol ds) st v o w I Ho Hw How Hv)|]. intros [[dH tab] n2g] (-> & _).
  pose proof (pi_as _ _ _ PI) as HA. rewrite EA, <- energy_mb by (apply moved_assigned; auto). rewrite (move_E (abs (mpart st)) (seq 0 N) v o w HA (all_listed g _) Ho Hw How Hv).
  rewrite (proj1 (bi_J _ _ _ _ _ _ _ I)). match goal with |- ?x = (?y + ?z - ?y)%Qc => change z with x; ring end.
Qed.
Theorem mb_reached_errors ds factors e : Forall good_draw ds -> mb_reached ds factors = Err e -> e = RngOut \/ e = Diverge \/ (e = UB_oob /\ kd <> OD /\ length hl < choose2 N + 3).
Proof. intros HD EQ. pose proof (mb_reached_ok ds factors HD) as I. rewrite EQ in I. exact I. Qed.

(** * The scores *)
Notation score := (mb_score kd g).
Lemma mb_score_between M i j : assigned N M -> i < N -> j < N -> (0 < score M i j)%Qc /\ (score M i j < 1)%Qc.
Proof.
  intros HA Hi Hj. destruct (hm_spec N M i HA Hi) as (_ & Ei & _). destruct (hm_spec N M j HA Hj) as (_ & Ej & Bj). unfold mb_score. rewrite Ei, Ej.
  destruct (mem j _); apply share_between; [|apply across_le]. apply links_in_le; auto; [apply HA|]. intros x. apply (as_range N M HA).
Qed.
Lemma mb_score_sym M i j : assigned N M -> i < N -> j < N -> score M i j = score M j i.
Proof.
  intros HA Hi Hj. destruct (hm_spec N M i HA Hi) as (_ & Ei & Bi). destruct (hm_spec N M j HA Hj) as (_ & Ej & Bj). unfold mb_score. rewrite Ei, Ej, Bi, Bj, (Nat.eqb_sym (hm M j)).
  destruct (Nat.eqb_spec (hm M i) (hm M j)) as [->|]; auto. now rewrite across_sym, Nat.mul_comm.
Qed.
(** The energy from a new origin, and the attempts since then. *)
Definition since (c : Qc) (M : groups) (H : Qc) (ds : list Qc) : Prop := (H + c)%Qc = menergy M.
Lemma since_move c : attempt_ok logf lnch lnfd linC g (since c).
Proof.
  intros M slg u o w H ds ds2 acc ds3 v HA HL Ho Hw How Hv ER EC HJ. unfold since in *. destruct acc; auto. rewrite (move_E M slg v o w HA HL Ho Hw How Hv), <- HJ. change (@nadd Qc rops) with Qcplus.
  match goal with |- (_ + ?a + _ = _ + _ + ?b)%Qc => change b with a; ring end.
Qed.
End Exact.

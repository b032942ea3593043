(** GibbsExact.v -- what the Gibbs samplers of src/missing.c, src/multiblock.c and src/only_deg.c compute. *)
From Coq Require Import List Arith ZArith Bool QArith Qcanon Lia.
From Verif Require Import Base Num ListLib NatSum QcSum GraphModel GraphSpec GraphProof GroupModel GroupSpec PairSum GroupProof GroupExact MatLib
  ToolsModel ToolsProof ModulesModel SAProof MissModel MissSpec MissSets MissStep MissRun MissScore MissExact MbModel MbSpec MbStep MbRun MbExact MbScore GibbsModel GibbsSpec GibbsSets GibbsStep GibbsRun.
From Verif Require RecSpec RecGibbs RolesBounds.
Import ListNotations.
Local Open Scope nat_scope.

(** * Two energies that agree on partitions of the nodes *)
Section Ext.
Variable ex : Qc -> Qc.
Variable N : nat.
Variables E E' : groups -> Qc.
Hypothesis HE : forall M, assigned N M -> E M = E' M.
Lemma gweight_ext M v w : assigned N M -> v < N -> w < N -> gweight ex E M v w = gweight ex E' M v w.
Proof. intros. unfold gweight. rewrite !HE; auto. now apply put_assigned. Qed.
Lemma wsum_ext M v l : assigned N M -> v < N -> (forall k, In k l -> k < N) -> Qsum (gweight ex E M v) l = Qsum (gweight ex E' M v) l.
Proof. intros. apply Qsum_ext. intros. apply gweight_ext; auto. Qed.
Lemma gtotal_ext M v : assigned N M -> v < N -> gtotal ex E M v = gtotal ex E' M v.
Proof. intros. unfold gtotal. apply wsum_ext; auto. rewrite (as_length N M) by auto. intros k Hk. apply in_seq in Hk. lia. Qed.
Lemma gheats_ext M v ks u w : assigned N M -> v < N -> (forall k, In k ks -> k < N) -> gheats ex E M v ks u w -> gheats ex E' M v ks u w /\ w < N.
Proof.
  intros HA Hv Hk H. destruct H as [pre w post u H1 H2|ks u w H1 H2 H3 H4].
  - assert (Hw : w < N) by (apply Hk, in_or_app; simpl; auto). assert (Hp : forall k, In k pre -> k < N) by (intros; apply Hk, in_or_app; auto). split; auto.
    rewrite (wsum_ext M v pre), (gtotal_ext M v) in * by auto. rewrite (gweight_ext M v w) in H2 by auto. now apply gh_known.
  - rewrite (wsum_ext M v ks), (gtotal_ext M v) in * by auto. split; [now apply gh_new|]. now rewrite <- (as_length N M).
Qed.
Lemma chain_ext l : forall s t, (forall v, In v l -> v < N) -> assigned N (fst (fst s)) -> (forall k, In k (snd (fst s)) -> k < N) ->
  RecSpec.chain (gregroup ex E) l s t -> RecSpec.chain (gregroup ex E') l s t /\ assigned N (fst (fst t)).
Proof.
  induction l as [|v l IH]; intros s t Hl HA Hk H; inversion H as [|? ? ? s1 ? R C]; subst; [split; auto; constructor|].
  destruct R as [M ks u ds w HH]. cbn [fst snd] in *. assert (Hv : v < N) by (apply Hl; simpl; auto). destruct (gheats_ext M v ks u w HA Hv Hk HH) as [H1 Hw].
  destruct (IH (put M v w, RecSpec.known ks w, ds) t ltac:(intros; apply Hl; simpl; auto) (put_assigned N M v w HA Hv Hw) ltac:(cbn [fst snd]; intros k K; apply RecGibbs.known_In in K as [K| ->]; auto) C) as [C' A']. split; auto. econstructor; eauto. now constructor.
Qed.
Lemma occupied_lt M k : assigned N M -> In k (occupied M) -> k < N.
Proof. intros HA H. unfold occupied in H. apply filter_In in H as [H _]. apply in_seq in H. rewrite (as_length N M HA) in H. lia. Qed.
Lemma gsweep_ext s t : assigned N (fst s) -> gsweep ex E s t -> gsweep ex E' s t /\ assigned N (fst t).
Proof.
  intros HA [ks H]. rewrite (as_length N _ HA) in H. apply chain_ext in H as [H HA']; auto; cbn [fst snd] in *; [|intros v Hv; apply in_seq in Hv; lia|intros k; now apply occupied_lt].
  split; auto. exists ks. now rewrite (as_length N _ HA).
Qed.
Lemma power_ext n s t : RecSpec.power (gsweep ex E) n s t -> assigned N (fst s) -> RecSpec.power (gsweep ex E') n s t /\ assigned N (fst t).
Proof. induction 1 as [s|n s t u _ IH H]; intros HA; [split; auto; constructor|]. destruct (IH HA) as [H1 A1]. destruct (gsweep_ext _ _ A1 H) as [H2 A2]. split; auto. econstructor; eauto. Qed.
Lemma visits_ext s l t : RecSpec.visits (gsweep ex E) s l t -> assigned N (fst s) -> RecSpec.visits (gsweep ex E') s l t /\ assigned N (fst t).
Proof. induction 1 as [s|s l t u _ IH H]; intros HA; [split; auto; constructor|]. destruct (IH HA) as [H1 A1]. destruct (gsweep_ext _ _ A1 H) as [H2 A2]. split; auto. econstructor; eauto. Qed.
End Ext.

(** * The rule determines the partition *)
Section Det.
Variable ex : Qc -> Qc.
Hypothesis ex_pos : forall x, (0 < ex x)%Qc.
Variable E : groups -> Qc.
Lemma wsum_nonneg M v l : (0 <= Qsum (gweight ex E M v) l)%Qc.
Proof. apply Qsum_nonneg. intros x _. apply Qclt_le_weak, ex_pos. Qed.
Lemma walk_det M v x : forall pre1 w1 post1 pre2 w2 post2, pre1 ++ w1 :: post1 = pre2 ++ w2 :: post2 ->
  (Qsum (gweight ex E M v) pre1 < x)%Qc -> (x <= Qsum (gweight ex E M v) pre1 + gweight ex E M v w1)%Qc ->
  (Qsum (gweight ex E M v) pre2 < x)%Qc -> (x <= Qsum (gweight ex E M v) pre2 + gweight ex E M v w2)%Qc -> w1 = w2.
Proof.
  intros pre1 w1 post1 pre2 w2 post2 EQ A1 A2 B1 B2.
  destruct (Nat.lt_trichotomy (length pre1) (length pre2)) as [L|[L|L]].
  - exfalso. assert (EP : exists r, pre2 = pre1 ++ w1 :: r).
    { exists (skipn (length pre1 + 1) pre2). rewrite <- (firstn_skipn (length pre1 + 1) pre2) at 1. change (w1 :: ?r) with ([w1] ++ r). rewrite app_assoc. f_equal.
      assert (F : firstn (length pre1 + 1) (pre1 ++ w1 :: post1) = firstn (length pre1 + 1) (pre2 ++ w2 :: post2)) by now rewrite EQ.
      rewrite firstn_app_2 in F. cbn [firstn] in F. rewrite F. rewrite firstn_app. replace (length pre1 + 1 - length pre2) with 0 by lia. cbn [firstn]. now rewrite app_nil_r. }
    destruct EP as [r ->]. rewrite Qsum_app in B1. cbn [Qsum] in B1. apply (Qclt_not_le _ _ B1). eapply Qcle_trans; [exact A2|]. rewrite Qcplus_assoc. rewrite <- (Qcplus_0_r (_ + _)) at 1. apply Qcplus_le_compat; [apply Qcle_refl|apply wsum_nonneg].
  - assert (F : nth_error (pre1 ++ w1 :: post1) (length pre1) = nth_error (pre2 ++ w2 :: post2) (length pre1)) by now rewrite EQ.
    rewrite nth_error_app2, Nat.sub_diag in F by lia. rewrite L, nth_error_app2, Nat.sub_diag in F by lia. cbn in F. congruence.
  - exfalso. assert (EP : exists r, pre1 = pre2 ++ w2 :: r).
    { exists (skipn (length pre2 + 1) pre1). rewrite <- (firstn_skipn (length pre2 + 1) pre1) at 1. change (w2 :: ?r) with ([w2] ++ r). rewrite app_assoc. f_equal.
      assert (F : firstn (length pre2 + 1) (pre1 ++ w1 :: post1) = firstn (length pre2 + 1) (pre2 ++ w2 :: post2)) by now rewrite EQ.
      rewrite firstn_app_2 in F. cbn [firstn] in F. rewrite <- F. rewrite firstn_app. replace (length pre2 + 1 - length pre1) with 0 by lia. cbn [firstn]. now rewrite app_nil_r. }
    destruct EP as [r ->]. rewrite Qsum_app in A1. cbn [Qsum] in A1. apply (Qclt_not_le _ _ A1). eapply Qcle_trans; [exact B2|]. rewrite Qcplus_assoc. rewrite <- (Qcplus_0_r (_ + _)) at 1. apply Qcplus_le_compat; [apply Qcle_refl|apply wsum_nonneg].
Qed.
Lemma gheats_det M v ks u w w' : gheats ex E M v ks u w -> gheats ex E M v ks u w' -> w = w'.
Proof.
  assert (X : forall pre k post x, (x <= Qsum (gweight ex E M v) pre + gweight ex E M v k)%Qc -> (Qsum (gweight ex E M v) (pre ++ k :: post) < x)%Qc -> False).
  { intros pre k post x A B. rewrite Qsum_app in B. cbn [Qsum] in B. apply (Qclt_not_le _ _ B). eapply Qcle_trans; [exact A|]. rewrite Qcplus_assoc. rewrite <- (Qcplus_0_r (_ + _)) at 1. apply Qcplus_le_compat; [apply Qcle_refl|apply wsum_nonneg]. }
  intros H1 H2. destruct H1 as [pre w post u A1 A2|ks u w A1 A2 A3 A4].
  - inversion H2 as [pre2 w2 post2 u2 B1 B2 EQ|ks2 u2 w2 B1 B2 B3 B4 EQ]; subst.
    + symmetry in EQ. eapply walk_det; eauto.
    + exfalso. eapply X; eauto.
  - inversion H2 as [pre2 w2 post2 u2 B1 B2 EQ|ks2 u2 w2 B1 B2 B3 B4 EQ]; subst.
    + exfalso. eapply X; eauto.
    + destruct (Nat.lt_trichotomy w w') as [L|[L|L]]; auto; exfalso; [apply (B4 w)|apply (A4 w')]; auto.
Qed.
Lemma chain_det l : forall s t t', RecSpec.chain (gregroup ex E) l s t -> RecSpec.chain (gregroup ex E) l s t' -> t = t'.
Proof.
  induction l as [|v l IH]; intros s t t' H1 H2; inversion H1 as [|? ? ? a ? R1 C1]; inversion H2 as [|? ? ? b ? R2 C2]; subst; auto.
  inversion R1 as [M ks u ds w HH]; subst. inversion R2 as [M' ks' u' ds' w' HH']; subst. assert (w = w') by (eapply gheats_det; eauto). subst. eapply IH; eauto.
Qed.
Lemma gsweep_det s t t' : gsweep ex E s t -> gsweep ex E s t' -> t = t'.
Proof. intros [k1 H1] [k2 H2]. pose proof (chain_det _ _ _ _ H1 H2) as H. destruct t, t'. cbn [fst snd] in H. congruence. Qed.
Lemma power_det n s t : RecSpec.power (gsweep ex E) n s t -> forall t', RecSpec.power (gsweep ex E) n s t' -> t = t'.
Proof. induction 1 as [s|n s t u _ IH H]; intros t' H'; inversion H' as [|? ? x ? P Q]; subst; auto. rewrite <- (IH _ P) in Q. eapply gsweep_det; eauto. Qed.
End Det.
(** With positive weights, a number from (0, 1) and all groups with nodes known, the rule always names one group. *)
Lemma Qsum_incl_le (f : nat -> Qc) l : NoDup l -> forall l', (forall x, In x l -> In x l') -> (forall x, (0 <= f x)%Qc) -> (Qsum f l <= Qsum f l')%Qc.
Proof.
  induction 1 as [|x l Hx ND IH]; intros l' Hi Hf; [apply Qsum_nonneg; auto|].
  destruct (in_split x l' (Hi x (or_introl eq_refl))) as (a & b & ->). rewrite Qsum_app. cbn [Qsum].
  replace (Qsum f a + (f x + Qsum f b))%Qc with (f x + Qsum f (a ++ b))%Qc by (rewrite Qsum_app; ring). apply Qcplus_le_compat; [apply Qcle_refl|].
  apply IH; auto. intros y Hy. assert (y <> x) by (intros ->; auto). specialize (Hi y (or_intror Hy)). apply in_app_or in Hi. apply in_or_app. cbn in Hi. destruct Hi as [K|[K|K]]; auto; congruence.
Qed.
Lemma gheats_total ex (ex_pos : forall x, (0 < ex x)%Qc) E M v ks u : 0 < length M -> (forall k, In k (occupied M) -> In k ks) -> (forall k, In k ks -> k < length M) -> (0 < u)%Qc -> (u <= 1)%Qc ->
  exists w, w < length M /\ gheats ex E M v ks u w /\ forall w', gheats ex E M v ks u w' -> w' = w.
Proof.
  intros HM Ho Hk H0 H1. set (f := gweight ex E M v). set (T := gtotal ex E M v).
  assert (fp : forall k, (0 < f k)%Qc) by (intros; apply ex_pos).
  assert (fn : forall k, (0 <= f k)%Qc) by (intros; apply Qclt_le_weak; auto).
  assert (TP : (0 < T)%Qc).
  { unfold T, gtotal. fold f. destruct (length M) as [|q]; [lia|]. cbn [seq Qsum]. eapply Qclt_le_trans; [apply (fp 0)|]. rewrite <- (Qcplus_0_r (f 0)) at 1. apply Qcplus_le_compat; [apply Qcle_refl|apply Qsum_nonneg; auto]. }
  assert (uT : (0 < u * T)%Qc) by (apply RolesBounds.Qc_mul_pos; auto).
  assert (uT1 : (u * T <= T)%Qc) by (rewrite <- (Qcmult_1_l T) at 2; apply Qcmult_le_compat_r; auto; now apply Qclt_le_weak).
  assert (X : exists w, w < length M /\ gheats ex E M v ks u w).
  { destruct (Qclt_le_dec (Qsum f ks) (u * T)) as [L|L].
    - assert (Y : exists k, k < length M /\ nth_members M k = []).
      { destruct (Exists_dec (fun k => nth_members M k = []) (seq 0 (length M))) as [D|D]; [intros; destruct (nth_members M x); [left; auto|right; discriminate]| |].
        - apply Exists_exists in D as (k & K1 & K2). apply in_seq in K1. exists k. split; auto; lia.
        - exfalso. apply (Qclt_not_le _ _ L). eapply Qcle_trans; [exact uT1|]. apply Qsum_incl_le; auto; [apply seq_NoDup|]. intros k K. apply Ho. unfold occupied. apply filter_In. split; auto.
          destruct (nth_members M k) eqn:EK; auto. destruct D. apply Exists_exists. eauto. }
      destruct Y as (k & K1 & K2). revert K1 K2. induction k as [k IH] using lt_wf_ind. intros K1 K2.
      destruct (Exists_dec (fun k => nth_members M k = []) (seq 0 k)) as [D|D]; [intros; destruct (nth_members M x); [left; auto|right; discriminate]| |].
      + apply Exists_exists in D as (j & J1 & J2). apply in_seq in J1. apply (IH j); auto; lia.
      + exists k. split; auto. apply gh_new; auto. intros j J1 J2. apply D, Exists_exists. exists j. split; auto. apply in_seq. lia.
    - assert (Y : forall post pre, ks = pre ++ post -> (Qsum f pre < u * T)%Qc -> exists w, w < length M /\ gheats ex E M v ks u w).
      { induction post as [|w post IH]; intros pre EK LP.
        - rewrite app_nil_r in EK. subst. destruct (Qclt_not_le _ _ LP L).
        - destruct (Qclt_le_dec (Qsum f pre + f w) (u * T)) as [L'|L'].
          + apply (IH (pre ++ [w])); [now rewrite <- app_assoc|]. rewrite Qsum_app. cbn [Qsum]. now rewrite Qcplus_0_r.
          + exists w. split; [apply Hk; rewrite EK; apply in_or_app; simpl; auto|]. rewrite EK. now apply gh_known. }
      apply (Y ks []); auto. }
  destruct X as (w & W1 & W2). exists w. splits; auto. intros w' W. eapply gheats_det; eauto.
Qed.

Section Exact.
Variables ex sq : Qc -> Qc.
Hypothesis ex_pos : forall x, (0 < ex x)%Qc.
Local Instance rops : NumOps Qc := Qc_ops ex sq.
Variable ln : Qc -> Qc.
Variable lnchoose : nat -> nat -> Qc.
Variable lnfact : nat -> Qc.
Variables lcsize lfsize : nat.
Variable linC : Qc.
Variable kd : kind.
Variable deg : bool.
Hypothesis plain : deg = false -> kd = OD.
Hypothesis ln1 : ln 1%Qc = 0%Qc.
Hypothesis choose00 : lnchoose 0 0 = 0%Qc.
Variable g0 : net Qc.
Hypothesis U0 : undirected g0.
Let N := length g0.
Notation logf := (logf ln).
Notation lnch := (lnch ln lnchoose kd).
Notation lnfg := (lnfg ln lnfact kd deg g0).
Notation E := (MissSpec.energy logf lnch lnfg linC g0).
Notation HE := (heat_energy ln lnchoose lnfact linC kd deg g0).
(** The kind of the energy that the set-up computes. *)
Definition start_kind : kind := match kd with OR => OR | _ => AND end.
Notation SE := (heat_energy ln lnchoose lnfact linC start_kind deg g0).
Notation pinv := (pinv g0).
Notation ident := (ident g0).
Notation tfact := (InitializeTable lnfact lfsize).

Lemma heat_ok M : assigned N M -> E M = HE M.
Proof.
  intros HA. unfold heat_energy. destruct deg eqn:ED.
  - rewrite <- (energy_mb ln lnchoose lnfact linC kd g0 M HA). unfold MissSpec.energy, GibbsStep.lnfg. reflexivity.
  - unfold MissSpec.energy, GibbsStep.lnfg. assert (EC : forall r l, MissSpec.cost logf lnch r l = MissSpec.cost (fun n => ln (Qc_of_nat n)) lnchoose r l) by (intros; unfold MissSpec.cost, MbStep.logf, MbStep.lnch; rewrite (plain eq_refl); ring).
    rewrite (Qsum_ext _ (fun k => let S := nth_members M k in if nonempty S then MissSpec.cost (fun n => ln (Qc_of_nat n)) lnchoose (choose2 (length S)) (links_in g0 S) else 0%Qc) (seq 0 (length M))).
    2: { intros k _. cbv zeta. destruct (nonempty _); auto. }
    rewrite (pair_sum_ext (length M) _ (fun k l => let S := nth_members M k in let T := nth_members M l in if nonempty S && nonempty T then MissSpec.cost (fun n => ln (Qc_of_nat n)) lnchoose (length S * length T) (across g0 S T) else 0%Qc)).
    2: { intros k l _ _. cbv zeta. destruct (_ && _); auto. }
    reflexivity.
Qed.

(** * The set-up *)
Definition half (i : nat) : groups := map (fun k => (k, if k <? i then [k] else [])) (seq 0 N).
Lemma half_nth i k : nth_members (half i) k = if (k <? i) && (k <? N) then [k] else [].
Proof.
  destruct (Nat.ltb_spec k N) as [H|H].
  - rewrite andb_true_r. unfold nth_members, half. rewrite nth_error_map, nth_error_seq by auto. reflexivity.
  - rewrite andb_false_r. apply nth_members_out. unfold half. now rewrite map_length, seq_length.
Qed.
Record gpl (i : nat) (gp : net Qc * gpart Qc) : Prop := { gl_un : undirected (fst gp); gl_sbg : same_but_group g0 (fst gp); gl_map : mapped (fst gp) (snd gp); gl_abs : abs (snd gp) = half i }.
Lemma gb_place_ok i g P u ds : i < N -> gpl i (g, P) -> exists g' P', gb_place ident ((g, P), u :: ds) i = Ok ((g', P'), ds) /\ gpl (i + 1) (g', P').
Proof.
  intros Hi [U S M EA0]. cbn [fst snd] in *. unfold gb_place. cbn [draw bind fst].
  assert (LG : length g = N) by (apply (sbg_length g0 g S)). destruct (nth_error g i) as [n|] eqn:En; [|apply nth_error_None in En; lia].
  rewrite (get_ok _ _ _ En). cbn [bind]. rewrite (wf_num _ (un_wf _ U) i n En), (ident_get g0 i Hi). cbn [bind deref].
  assert (LA : length (abs P) = N) by (rewrite EA0; unfold half; now rewrite map_length, seq_length).
  destruct (groups_run g P [GAdd i i] U M) as (g' & P' & EQ & U' & M' & S' & EA).
  { cbn [grops_ok grop_ok]. splits; auto; [lia|lia|]. intros m K. rewrite EA0, half_nth in K. destruct (Nat.ltb_spec m i); cbn [andb] in K; [|destruct K]. destruct (m <? N); cbn [In] in K; [|tauto]. destruct K as [->|[]]. lia. }
  cbn [foldM run_grop] in EQ. destruct (AddNodeToGroup (g, P) i i) as [gp|e]; [|discriminate]. cbn [bind] in EQ. injection EQ as ->. cbn [bind].
  cbn [fold_left grop_do] in EA. exists g', P'. splits; auto. split; cbn [fst snd]; auto; [eapply sbg_trans; eauto|]. rewrite EA, EA0. apply groups_ext.
  - rewrite labels_set_members. unfold half. rewrite !map_map. reflexivity.
  - intros k. rewrite nth_set_members by (rewrite <- EA0; lia). rewrite !half_nth. destruct (Nat.eqb_spec k i) as [->|Hne].
    + rewrite Nat.ltb_irrefl, (proj2 (Nat.ltb_lt i (i + 1))), (proj2 (Nat.ltb_lt i N)) by lia. reflexivity.
    + replace (k <? i + 1) with (k <? i) by (destruct (Nat.ltb_spec k i), (Nat.ltb_spec k (i + 1)); auto; lia). reflexivity.
Qed.

Variable hl : list Qc.
Hypothesis Hhl : forall i, i < length hl -> nth_error hl i = Some (Qsum (fun j => 1 / Qc_of_nat j) (seq 1 i))%Qc.
Definition setup_err (e : err) : Prop := e = RngOut \/ e = Diverge \/ (e = UB_oob /\ deg = true /\ length hl < choose2 N + 3).
Lemma gb_energy_ok g P : pinv g P -> ends setup_err (gb_energy ln lnchoose lnfact linC kd deg hl g P) (fun H => H = SE (abs P)).
Proof.
  intros I. unfold gb_energy, heat_energy, start_kind, setup_err. destruct deg.
  - eapply ends_weaken; [apply (PartitionHMB_energy ex sq ln lnchoose lnfact (fun _ _ => 0%Qc) (fun _ _ _ _ _ => 0%Qc) 0 linC (match kd with OR => OR | _ => AND end) ln1 choose00 g0 U0 hl Hhl g P I)|].
    intros e [->|[->|(-> & _ & K)]]; auto 6.
  - pose proof (PartitionH_energy ex sq (fun n => ln (Qc_of_nat n)) lnchoose lnfact linC) as PE.
    match goal with |- ends _ ?a _ => assert (EP : a = Ok (MissSpec.energy (fun n => ln (Qc_of_nat n)) lnchoose lnfact linC g0 (abs P))) end.
    { apply PE; auto. }
    rewrite EP. reflexivity.
Qed.
Definition offset : Qc := (SE (alone N) - HE (alone N))%Qc.
Lemma offset_0 : deg = false \/ kd <> OD -> offset = 0%Qc.
Proof. intros H. unfold offset, heat_energy, start_kind. destruct deg; [|ring]. destruct kd; try ring. destruct H; congruence. Qed.
Section Draws.
Variable ds : list Qc.
Let d0 := skipn N ds.
Notation pos := (Forall (fun u => (0 < u)%Qc) d0).
Notation ginv := (ginv ex sq ln lnchoose lnfact lcsize linC kd deg g0 pos offset).
Theorem gb_setup_ok : Forall unit_draw ds -> ends setup_err (gb_setup ln lnchoose lnfact lcsize linC kd deg g0 hl ds)
  (fun '(nl, gl, st) => nl = ident /\ gl = ident /\ ginv st /\ abs (mpart st) = alone N /\ mds st = d0).
Proof.
  intros HD. unfold gb_setup. fold N. pose proof (map_nodes_ok g0 U0) as EM. fold N in EM. match goal with |- ends _ (bind ?a _) _ => assert (EM' : a = Ok (ident, ident, fresh_groups N)) by exact EM; rewrite EM' end. cbn [bind].
  apply (ends_bind setup_err _ _ (fun s => gpl N (fst s) /\ snd s = d0)).
  - apply (ends_from setup_err (fun i s => gpl i (fst s) /\ snd s = skipn i ds) (gb_place ident) N 0).
    + cbn [fst snd]. split; auto. split; cbn [fst snd]; [apply (un_reset g0 U0)|apply sbg_reset|apply fresh_mapped|]. rewrite fresh_abs. reflexivity.
    + intros i [[g P] d] _ Hi [H1 H2]. cbn [fst snd Nat.add] in *. destruct d as [|u d]; [left; reflexivity|]. destruct (gb_place_ok i g P u d Hi H1) as (g' & P' & EQ & H1'). rewrite EQ. cbn [ends fst snd]. split; auto.
      clear - H2. revert ds H2. induction i as [|i IH]; intros [|x ds] H2; cbn [skipn Nat.add] in *; try discriminate; [now injection H2|]. now apply IH.
  - intros [[g P] d] [[U S M EA] Ed]. cbn [fst snd] in *. subst d. assert (EA' : abs P = alone N).
    { rewrite EA. apply groups_ext; [unfold half, alone; now rewrite !map_map|]. intros k. rewrite half_nth, alone_members. now destruct (k <? N). }
    assert (PI : pinv g P) by (split; auto; rewrite EA'; apply alone_assigned).
    destruct (g2g_rows_ok g0 U0 g P (repeat (repeat 0%Z N) N) PI) as (m & EQ & Hm); [eexists; apply mat_repeat|]. fold N in EQ. rewrite EQ. cbn [bind].
    eapply ends_bind; [apply (gb_energy_ok g P PI)|]. intros H ->. cbn [ends mpart mds]. splits; auto. split; cbn [mnet mpart mH mG2G mn2g mtab mds]; auto.
    + apply repeat_length.
    + apply lc_init.
    + unfold d0. rewrite <- (firstn_skipn N ds) in HD. apply Forall_app in HD. tauto.
    + rewrite EA', heat_ok by apply alone_assigned. unfold offset. ring.
Qed.

(** The set-up, then a number of steps. *)
Notation gstep := (GibbsLinkScoreStep ln lnchoose lnfact lcsize lfsize linC kd deg N ident ident tfact hl).
Notation sweeps := (RecSpec.power (gsweep ex HE)).
Definition gb_reached (n : nat) : res (mc Qc) :=
  do (nlist, glist, st) <- gb_setup ln lnchoose lnfact lcsize linC kd deg g0 hl ds;
  foldM (fun st _ => GibbsLinkScoreStep ln lnchoose lnfact lcsize lfsize linC kd deg (length g0) nlist glist tfact hl st) st (seq 0 n).
Definition all_err (e : err) : Prop := e = RngOut \/ e = Diverge \/ (e = UB_oob /\ (~ pos \/ (deg = true /\ length hl < choose2 N + 3))) \/
  (e = UB_uninit /\ 0 < N /\ exists n t, sweeps n (alone N, d0) t /\ filled (fst t) = 1).
Lemma setup_all e : setup_err e -> all_err e.
Proof. unfold all_err. intros [->|[->|(-> & K)]]; auto 6. Qed.
Lemma run_all e : run_err ex ln lnchoose lnfact linC kd deg g0 hl pos (alone N, d0) e -> all_err e.
Proof.
  unfold all_err. intros [[[->|[->|(-> & K1 & K2)]]|(-> & K)]|(-> & HN & n & t & HP & HF)]; auto 6.
  - right; right; left. split; auto. right. split; auto. destruct (Bool.bool_dec deg true) as [Ed|Ed]; [exact Ed|]. apply Bool.not_true_is_false in Ed. destruct (K1 (plain Ed)).
  - right; right; right. splits; auto. exists n, t. split; auto. apply (power_ext ex N E HE heat_ok); auto. cbn [fst]. apply alone_assigned.
Qed.
Lemma to_power n t : RecSpec.power (gsweep ex E) n (alone N, d0) t -> sweeps n (alone N, d0) t.
Proof. intros H. apply (power_ext ex N E HE heat_ok); auto. cbn [fst]. apply alone_assigned. Qed.
Theorem gb_reached_ok n : Forall unit_draw ds -> ends all_err (gb_reached n) (fun st => ginv st /\ sweeps n (alone N, d0) (abs (mpart st), mds st)).
Proof.
  intros HD. unfold gb_reached. fold N. eapply ends_bind; [eapply ends_weaken; [apply (gb_setup_ok HD)|apply setup_all]|]. intros [[nl gl] st] (-> & -> & I & EA & ED).
  eapply ends_weaken; [|apply run_all].
  eapply ends_impl.
  - apply (ends_from _ (fun i st => ginv st /\ RecSpec.power (gsweep ex E) i (alone N, d0) (abs (mpart st), mds st)) (fun st _ => gstep st) n 0).
    + split; auto. rewrite EA, ED. constructor.
    + intros i s _ _ [I1 P1]. eapply ends_impl; [apply (gb_step_run ex sq ex_pos ln lnchoose lnfact lcsize lfsize linC kd deg ln1 choose00 g0 U0 hl Hhl pos offset (alone N, d0) s I1)|].
      * exists i. exact P1.
      * intros s' (I' & _ & SW). split; auto. rewrite Nat.add_1_r. econstructor; eauto.
  - intros st' [I' P']. split; auto. now apply to_power.
Qed.

Theorem gb_reached_energy n st : Forall unit_draw ds -> gb_reached n = Ok st ->
  assigned N (abs (mpart st)) /\ mH st = (HE (abs (mpart st)) + offset)%Qc /\ table_exact g0 (abs (mpart st)) (mG2G st) /\
  (deg = true -> forall H, PartitionHMB ln lnchoose lnfact linC kd hl (mnet st) (mpart st) = Ok H -> mH st = (H + offset)%Qc) /\
  (deg = false -> PartitionH (fun n => ln (Qc_of_nat n)) lnchoose lnfact linC (mnet st) (mpart st) = Ok (mH st)).
Proof.
  intros HD EQ. pose proof (gb_reached_ok n HD) as H. rewrite EQ in H. cbn [ends] in H. destruct H as [I _]. pose proof (gn_p _ _ _ _ _ _ _ _ _ _ _ _ _ I) as PI. pose proof (pi_as _ _ _ PI) as HA. fold N in HA.
  assert (EH : mH st = (HE (abs (mpart st)) + offset)%Qc) by (rewrite (gn_H _ _ _ _ _ _ _ _ _ _ _ _ _ I); now rewrite heat_ok by auto). splits; auto.
  - apply I.
  - intros Ed H EP. pose proof (PartitionHMB_energy ex sq ln lnchoose lnfact (fun _ _ => 0%Qc) (fun _ _ _ _ _ => 0%Qc) 0 linC kd ln1 choose00 g0 U0 hl Hhl _ _ PI) as HP.
    match type of HP with ends _ ?a _ => assert (EP' : a = Ok H) by exact EP; rewrite EP' in HP end. cbn [ends] in HP. rewrite EH. unfold heat_energy. rewrite Ed. now rewrite HP.
  - intros Ed. rewrite EH, offset_0 by auto. unfold heat_energy. rewrite Ed, Qcplus_0_r. apply (PartitionH_energy ex sq (fun n => ln (Qc_of_nat n)) lnchoose lnfact linC); auto.
Qed.
Theorem gb_reached_sweeps n st : Forall unit_draw ds -> gb_reached n = Ok st ->
  sweeps n (alone N, d0) (abs (mpart st), mds st) /\ forall t, sweeps n (alone N, d0) t -> t = (abs (mpart st), mds st).
Proof.
  intros HD EQ. pose proof (gb_reached_ok n HD) as H. rewrite EQ in H. cbn [ends] in H. destruct H as [_ P]. split; auto. intros t Pt. symmetry. eapply power_det; eauto.
Qed.
Theorem gb_reached_errors n e : Forall unit_draw ds -> gb_reached n = Err e -> all_err e.
Proof. intros HD EQ. pose proof (gb_reached_ok n HD) as H. rewrite EQ in H. exact H. Qed.
(** When the variables never set are read. *)
Theorem gb_reached_uninit n : Forall unit_draw ds -> gb_reached n = Err UB_uninit <-> 0 < N /\ exists k st, k < n /\ gb_reached k = Ok st /\ filled (abs (mpart st)) = 1.
Proof.
  intros HD. pose proof (fun k => gb_reached_ok k HD) as HR. pose proof (gb_setup_ok HD) as HS. unfold gb_reached in HR |- *. fold N in HR, HS |- *.
  destruct (gb_setup ln lnchoose lnfact lcsize linC kd deg g0 hl ds) as [[[nl gl] s0]|e]; cbn [bind ends] in *.
  2: { split; [intros K; injection K as ->; destruct HS as [K|[K|(K & _)]]; discriminate|intros (_ & k & st & _ & K & _); discriminate]. }
  destruct HS as (-> & -> & I0 & EA & ED).
  set (f := fun (st : mc Qc) (_ : nat) => gstep st) in *.
  assert (SN : forall k, foldM f s0 (seq 0 (k + 1)) = bind (foldM f s0 (seq 0 k)) gstep).
  { intros k. rewrite seq_app, foldM_app. destruct (foldM f s0 (seq 0 k)) as [s|e]; auto. cbn [bind seq Nat.add foldM]. unfold f. now destruct (gstep s). }
  assert (IV : forall k s, foldM f s0 (seq 0 k) = Ok s -> ginv s) by (intros k s EQ; specialize (HR k); rewrite EQ in HR; apply HR).
  induction n as [|n IH].
  - split; [discriminate|]. intros (_ & k & st & K & _). lia.
  - rewrite <- Nat.add_1_r, SN. destruct (foldM f s0 (seq 0 n)) as [s|e] eqn:EF; cbn [bind].
    + pose proof (IV n s EF) as I. destruct (Nat.eq_dec N 0) as [E0|HN]; [|destruct (Nat.eq_dec (filled (abs (mpart s))) 1) as [H1|H1]].
      * split; [|intros (K & _); lia]. intros EQ. pose proof (gb_step_ok ex sq ex_pos ln lnchoose lnfact lcsize lfsize linC kd deg ln1 choose00 g0 U0 hl Hhl pos offset s I) as HO. fold N in HO.
        match type of HO with ends _ ?a _ => assert (EQ' : a = Err UB_uninit) by exact EQ; rewrite EQ' in HO end. cbn [ends] in HO. destruct HO as [[[K|[K|[K _]]]|[K _]]|(_ & K & _)]; try discriminate. lia.
      * pose proof (gb_step_single ex sq ln lnchoose lnfact lcsize lfsize linC kd deg g0 hl pos offset s) as HO. fold N in HO.
        match type of HO with _ -> _ -> _ -> ?a = _ => assert (EQ' : a = Err UB_uninit) by (apply HO; auto; lia) end.
        split; [|intros _; exact EQ']. intros _. split; [lia|]. exists n, s. splits; auto. lia.
      * split.
        -- intros EQ. pose proof (gb_step_ok ex sq ex_pos ln lnchoose lnfact lcsize lfsize linC kd deg ln1 choose00 g0 U0 hl Hhl pos offset s I) as HO. fold N in HO.
           match type of HO with ends _ ?a _ => assert (EQ' : a = Err UB_uninit) by exact EQ; rewrite EQ' in HO end. cbn [ends] in HO. destruct HO as [[[K|[K|[K _]]]|[K _]]|(_ & _ & K)]; try discriminate. contradiction.
        -- intros (K0 & k & st & Kk & Ek & Fk). destruct (Nat.eq_dec k n) as [->|]; [rewrite EF in Ek; injection Ek as <-; contradiction|]. exfalso. assert (Ok s = Err UB_uninit) by (apply IH; split; auto; exists k, st; splits; auto; lia). discriminate.
    + rewrite IH. split.
      * intros (K0 & k & st & Kk & Ek). split; auto. exists k, st. split; auto. lia.
      * intros (K0 & k & st & Kk & Ek & Fk). split; auto. exists k, st. splits; auto. destruct (Nat.eq_dec k n) as [->|]; [rewrite EF in Ek; discriminate|lia].
Qed.

(** * The scores *)
Lemma gb_rest_ok nIter s0 : ginv s0 -> abs (mpart s0) = alone N -> mds s0 = d0 ->
  ends all_err (do st <- GibbsThermalizeLinkScore ln lnchoose lnfact lcsize lfsize linC kd deg N ident ident tfact hl s0;
    foldM (gb_sample ln lnchoose lnfact lcsize lfsize linC kd deg N ident ident tfact hl) (st, repeat (repeat n0 N) N) (seq 0 nIter))
  (fun '(st, m) => ginv st /\ exists rounds s1 ss, 5 <= rounds /\ sweeps (20 * rounds) (alone N, d0) s1 /\ RecSpec.visits (gsweep ex HE) s1 ss (abs (mpart st), mds st) /\ length ss = nIter /\
     Forall (fun s => assigned N (fst s)) ss /\ mat N N m (mb_summed kd g0 (map fst ss))).
Proof.
  intros I EA ED. eapply ends_weaken; [|apply run_all].
  eapply ends_bind; [apply (gb_therm_loop_ok ex sq ex_pos ln lnchoose lnfact lcsize lfsize linC kd deg ln1 choose00 g0 U0 hl Hhl pos offset (alone N, d0)) with (n := 0); [exact I|unfold gone_n; rewrite EA, ED; constructor]|].
  intros s1 (I1 & rounds & R5 & R1). cbn [Nat.add] in R1.
  eapply ends_impl; [apply (gb_samples_ok ex sq ex_pos ln lnchoose lnfact lcsize lfsize linC kd deg ln1 choose00 g0 U0 hl Hhl pos offset (alone N, d0) nIter s1 I1 (ex_intro _ (20 * rounds) R1))|].
  intros [st m] (I2 & _ & ss & LS & HV & HF & Hm). cbn [fst snd] in *. split; auto. exists rounds, (abs (mpart s1), mds s1), ss. splits; auto; [now apply to_power|].
  apply (visits_ext ex N E HE heat_ok _ _ _ HV). cbn [fst]. apply (pi_as _ _ _ (gn_p _ _ _ _ _ _ _ _ _ _ _ _ _ I1)).
Qed.
End Draws.
End Exact.

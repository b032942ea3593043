(** ScoreProof.v -- the error of the block model, the network of the scores, and the partitions sampled (src/missing.c). *)
From Coq Require Import List Arith ZArith Bool QArith Qcanon Lia.
From Verif Require Import Base Num ListLib NatSum QcSum IoModel GraphModel GraphSpec GraphProof GraphRand NetModel NetSpec NetCopy GenModel GenSpec GenProof GroupModel GroupSpec PairSum GroupProof GroupExact MatLib
  ToolsModel ToolsProof ModulesModel ModulesSpec ModulesMap ModulesCopy CommCopy SAProof RolesBounds MissModel MissSpec MissSets MissStep MissRun MissScore MissExact ScoreModel ScoreSpec.
Import ListNotations.
Local Open Scope nat_scope.

Lemma over_pairs_upper {S} n (f : S -> nat -> nat -> res S) s : over_pairs n f s = foldM (fun s ij => f s (fst ij) (snd ij)) s (upper n).
Proof. unfold over_pairs, upper. apply foldM_pairs. Qed.
Lemma upper_In n i j : In (i, j) (upper n) <-> i < j /\ j < n.
Proof.
  unfold upper. rewrite in_flat_map. split.
  - intros (x & Hx & H). apply in_map_iff in H as (y & E & Hy). injection E as <- <-. apply in_seq in Hx, Hy. lia.
  - intros [H1 H2]. exists i. split; [apply in_seq; lia|]. apply in_map. apply in_seq. lia.
Qed.
Lemma foldM_sum {X} (f : Qc -> X -> res Qc) (F : X -> Qc) l : (forall s x, In x l -> f s x = Ok (s + F x)%Qc) -> forall s, foldM f s l = Ok (s + Qsum F l)%Qc.
Proof.
  induction l as [|a l IH]; intros H s; cbn [foldM Qsum]; [f_equal; ring|]. rewrite H by (simpl; auto). cbn [bind]. rewrite IH by (intros; apply H; simpl; auto). f_equal. ring.
Qed.
Lemma pair_sum_upper n (F : nat -> nat -> Qc) : Qsum (fun ij => F (fst ij) (snd ij)) (upper n) = pair_sum n F.
Proof.
  unfold upper, pair_sum. rewrite Qsum_flat. apply Qsum_ext. intros i Hi. rewrite Qsum_map. cbn [fst snd]. apply in_seq in Hi.
  transitivity (Qsum (fun j => if i <? j then F i j else 0%Qc) (seq 0 (i + 1) ++ seq (0 + (i + 1)) (n - (i + 1)))).
  - rewrite Qsum_app, (Qsum_0 _ (seq 0 (i + 1))), Qcplus_0_l.
    + rewrite Nat.add_0_l. apply Qsum_ext. intros j Hj. apply in_seq in Hj. now rewrite (proj2 (Nat.ltb_lt i j)) by lia.
    + intros j Hj. apply in_seq in Hj. now rewrite (proj2 (Nat.ltb_ge i j)) by lia.
  - rewrite <- seq_app. do 2 f_equal. lia.
Qed.

(** The randomisation of a network leaves good random numbers (the rest is C26). *)
Section Draws.
Context {A : Type} {ops : NumOps A}.
Implicit Types g : net A.
Lemma Randomize_draws g times ds : undirected g -> Forall good_draw ds -> (exists i j, In j (nbrs g i)) ->
  safe (RandomizeSymmetricNetwork g times ds) (fun '(g', ds') => undirected g' /\ same_nodes g g' /\ (forall i, degree g' i = degree g i) /\ Forall good_draw ds').
Proof.
  intros U Hd (i0 & j0 & Hex). pose proof U as [W Lp Sy]. unfold RandomizeSymmetricNetwork.
  destruct (TotalNLinks_spec g true W) as (g1 & -> & Hs). cbn [bind]. rewrite (handshake g U), Nat.mul_comm, Nat.div_mul by lia.
  pose proof Hs as (W1 & S1 & N1 & _). pose proof (same_links_undirected g g1 U Hs) as U1.
  destruct ds as [|u ds]; simpl; auto. inversion Hd as [|? ? Du Hds]; subst.
  rewrite (link_list_spec g1 W1). cbn [bind].
  assert (Ee : edges g1 = edges g).
  { unfold edges. rewrite <- (same_nodes_length _ _ S1). apply flat_map_ext. intros i. now rewrite N1. }
  rewrite Ee, Nat.leb_refl. cbn [check bind].
  assert (Hpos : 0 < length (edges g)).
  { destruct (nbrs_lt g i0 j0 W Hex) as [Li Lj]. assert (H : In (i0, j0) (edges g) \/ In (j0, i0) (edges g)).
    { rewrite !In_edges. destruct (Nat.lt_trichotomy i0 j0) as [H|[->|H]]; [right|exfalso; eapply Lp; eauto|left]; splits; auto. eapply undirected_sym; eauto. }
    destruct (edges g); simpl in *; [tauto|lia]. }
  eapply safe_bind with (Q := fun '(g', ls', ds') => switched g (edges g) g' ls' /\ Forall good_draw ds').
  - refine (foldM_seq_safe (fun _ '(g', ls', ds') => switched g (edges g) g' ls' /\ Forall good_draw ds') (fun e => e = RngOut) _ _ (g1, edges g, ds) _ _).
    + split; auto. split; auto.
      * intros i. now apply same_links_degree.
      * rewrite <- Ee. now apply listed_edges.
    + intros _ [[g' ls'] ds'] _ [[H1 H2 H3 H4 H5] H6].
      pose proof (switch_once_spec g' ls' ds' (length (edges g)) H1 H4 (eq_sym H5) Hpos H6) as H.
      destruct (switch_once _ _) as [[[g2 ls2] ds2]|e]; auto. destruct H as [[K1 K2 K3 K4 K5] K6]. split; auto. split; auto.
      * eapply same_nodes_trans; eauto.
      * intros i. now rewrite K3.
      * lia.
  - intros [[g' ls'] ds'] [[H1 H2 H3 _ _] H4]. simpl. auto.
Qed.
End Draws.

Section Exact.
Variables ex sq : Qc -> Qc.
Local Instance sops : NumOps Qc := Qc_ops ex sq.
Variable logf : nat -> Qc.
Variable lnchoose : nat -> nat -> Qc.
Variable lnfact : nat -> Qc.
Variable mutual : gpart Qc -> gpart Qc -> Qc.
Variable decay_of : nat -> nat -> Qc -> nat -> Qc -> Qc.
Variables lcsize lfsize : nat.
Hypothesis log1 : logf 1 = 0%Qc.
Hypothesis choose00 : lnchoose 0 0 = 0%Qc.
Variable x : option Z.
Hypothesis Hx : x = None \/ x = Some 0%Z.
Implicit Types g h : net Qc.
Notation energy := (energy logf lnchoose lnfact).
Notation scores_of := (scores_of logf lnchoose lnfact mutual decay_of lcsize lfsize x).

(** The errors: random numbers run out, a loop that does not end within the bound, or (finding) an entry of n2gList that was
    never written. *)
Definition serr (e : err) : Prop := e = RngOut \/ e = Diverge \/ (e = UB_uninit /\ x = None).
Lemma serr_of e : mc_err (x = Some 0%Z) e -> serr e.
Proof. intros [->|[->|[-> K]]]; unfold serr; auto. destruct Hx; [auto|contradiction]. Qed.
Lemma ends_serr {X} (m : res X) Q : ends (mc_err (x = Some 0%Z)) m Q -> ends serr m Q.
Proof. destruct m; cbn [ends]; auto using serr_of. Qed.
Lemma fresh_zero n : x = Some 0%Z -> forall k, nth_error (repeat x n) k <> Some None.
Proof. intros -> k K. apply nth_error_In, repeat_spec in K. discriminate. Qed.

Record net_after (g g' : net Qc) : Prop := { na_un : undirected g'; na_sbg : same_but_group g g' }.

Section Any.
Variable g : net Qc.
Hypothesis U : undirected g.
Variable linC : Qc.
Let N := length g.
Variable J : groups -> Qc -> list Qc -> Prop.
Hypothesis J_move : attempt_ok logf lnchoose lnfact linC g J.
Variable zeroed : Prop.
Notation minv := (minv lnchoose lcsize g J zeroed).
Notation tfact := (InitializeTable lnfact lfsize).
Notation attempts := (attempts ex N (energy linC g)).
Notation samples := (samples ex N (energy linC g)).
(** A step makes N * factor attempts, whatever is known of the energy kept. *)
Lemma moves_any l : forall s sl s' sl', 0 < N -> minv s -> listed g (abs (mpart s)) sl ->
  foldM (mc_move logf lnchoose lnfact lcsize lfsize linC N (ident g) (ident g) tfact) (s, sl) l = Ok (s', sl') -> attempts (length l) (abs (mpart s)) (mds s) (abs (mpart s')) (mds s').
Proof.
  induction l as [|i l IH]; intros s sl s' sl' HN I HL E.
  - cbn [foldM] in E. injection E as -> ->. constructor.
  - cbn [foldM] in E. pose proof (mc_move_ok logf lnchoose lnfact lcsize lfsize linC (neg_small ex sq) g U J J_move zeroed s sl i HN I HL) as H1. fold N in H1.
    destruct (mc_move _ _ _ _ _ _ _ _ _ _ (s, sl) i) as [[s1 sl1]|e] eqn:E1; [|discriminate]. cbn [bind ends] in *. destruct H1 as [I1 HL1].
    destruct (mc_move_inv logf lnchoose lnfact lcsize lfsize linC (neg_small ex sq) g U J zeroed s sl i s1 sl1 HN I HL E1) as (u & ds & o & w & ds2 & acc & Ed & Hv & Ho & Hw & How & ER & EC & EA).
    change (length (i :: l)) with (1 + length l). eapply attempts_trans; [|eapply IH; eauto]. rewrite Ed, EA. econstructor; [constructor|].
    exact (attempt_of ex sq logf lnchoose lnfact linC log1 choose00 g U (abs (mpart s)) sl u o w ds ds2 acc (mds s1) (pi_as _ _ _ (mi_p _ _ _ _ _ _ I)) HL Ho Hw How Hv ER EC).
Qed.
Lemma step_any factor st st' : minv st ->
  LinkScoreMCStep logf lnchoose lnfact lcsize lfsize linC N (ident g) (ident g) tfact factor st = Ok st' -> attempts (N * factor) (abs (mpart st)) (mds st) (abs (mpart st')) (mds st').
Proof.
  intros I. unfold LinkScoreMCStep. pose proof (shortlist g _ _ (mi_p _ _ _ _ _ _ I)) as HL. set (slg := map plabel _) in *. destruct (check _ _); [|discriminate]. cbn [bind].
  destruct (foldM _ _ _) as [[s sl]|e] eqn:E; [|discriminate]. cbn [bind]. intros K. injection K as ->. destruct (Nat.eq_dec N 0) as [E0|HN].
  - rewrite E0 in *. cbn [Nat.mul seq foldM] in E. injection E as -> _. cbn [Nat.mul]. constructor.
  - pose proof (moves_any _ _ _ _ _ (proj1 (Nat.neq_0_lt_0 N) HN) I HL E) as K. now rewrite seq_length in K.
Qed.
Lemma mc_step_ok factor st : minv st ->
  ends (mc_err zeroed) (mc_step logf lnchoose lnfact lcsize lfsize linC g (ident g) (ident g) factor st) (fun st' => minv st' /\ attempts (N * factor) (abs (mpart st)) (mds st) (abs (mpart st')) (mds st')).
Proof.
  intros I. unfold mc_step. fold N. pose proof (step_ok logf lnchoose lnfact lcsize lfsize linC (neg_small ex sq) g U J J_move zeroed factor st I) as H. fold N in H.
  pose proof (step_any factor st) as H2. destruct (LinkScoreMCStep _ _ _ _ _ _ _ _ _ _ _ st) as [s|e] eqn:E; cbn [ends] in *; auto.
Qed.
Lemma stepped_any decor s0 sts st : stepped logf lnchoose lnfact lcsize lfsize linC g decor s0 sts st -> minv s0 -> Forall minv sts ->
  minv st /\ samples (N * decor) (abs (mpart s0)) (mds s0) (map (fun s => abs (mpart s)) sts) (abs (mpart st)) (mds st).
Proof.
  induction 1 as [s|s sts s1 s2 _ IH E]; intros I HF; [split; auto; constructor|]. apply Forall_app in HF as [HF HF2]. inversion HF2 as [|? ? I2 _]; subst. destruct (IH I HF) as [I1 HS]. split; auto.
  rewrite map_app. cbn [map]. econstructor; eauto. eapply step_any; eauto.
Qed.
End Any.

Theorem scores_of_ok g nIter ds : undirected g -> Forall good_draw ds ->
  ends serr (scores_of g nIter ds) (fun '(m, g', ds') => net_after g g' /\ Forall good_draw ds' /\
    exists Ms, sampled ex sq (length g) (energy 0%Qc g) (fun d => d) nIter ds Ms ds' /\
      mat (length g) (length g) m (fun i j => if i =? j then 0%Qc else mean_score ex sq g Ms i j)).
Proof.
  intros U HD. unfold ScoreModel.scores_of. destruct (fresh_array g x Hx) as [F1 F2].
  eapply ends_bind.
  { apply ends_serr. exact (LinkScore_any logf lnchoose lnfact mutual decay_of lcsize lfsize 0%Qc (neg_small ex sq) g U (follows ex sq logf lnchoose lnfact 0%Qc g ds) (follows_move ex sq logf lnchoose lnfact 0%Qc log1 choose00 g U ds) (x = Some 0%Z)
      (repeat x (length g)) nIter ds (follows_init ex sq logf lnchoose lnfact 0%Qc log1 choose00 g U ds) F1 F2 (fresh_zero (length g)) HD). }
  intros [m st] (s0 & decor & sts & I0 & LM & HM0 & HS & I & Hm). cbn [ends]. splits; try apply I; [split; apply I|].
  destruct (mi_J _ _ _ _ _ _ I0) as [_ (M0 & d0 & k & HA0 & HS0 & HT)].
  destruct (stepped_any g U 0%Qc _ (follows_move ex sq logf lnchoose lnfact 0%Qc log1 choose00 g U ds) _ decor s0 sts st HS I0 HM0) as [_ HSS]. set (Ms := map (fun s => abs (mpart s)) sts) in *.
  exists Ms. assert (LMs : length Ms = nIter) by (unfold Ms; now rewrite map_length). split.
  - exists M0, d0, k, (abs (mpart s0)), (mds s0), decor, (abs (mpart st)). splits; auto. apply Forall_forall. intros M K. unfold Ms in K. apply in_map_iff in K as (s & <- & Hs). rewrite Forall_forall in HM0. apply (mi_p _ _ _ _ _ _ (HM0 s Hs)).
  - eapply mat_ext; [exact Hm|]. intros i j _ _. cbn [ndiv nofnat sops Qc_ops]. unfold mean_score. rewrite LMs. destruct (Nat.eqb_spec i j) as [->|Hij].
    + unfold summed. rewrite Nat.eqb_refl. apply Qcmult_0_l.
    + now rewrite summed_sum.
Qed.
Lemma mean_score_bounds g Ms i j : undirected g -> Forall (assigned (length g)) Ms -> Ms <> [] -> i < length g -> j < length g -> i <> j ->
  (0 < mean_score ex sq g Ms i j /\ mean_score ex sq g Ms i j < 1)%Qc.
Proof.
  intros U HA HN Hi Hj Hij. assert (HL : 0 < length Ms) by (destruct Ms; [congruence|simpl; lia]).
  destruct (Qsum_between (fun M => pair_score g M i j) Ms HN) as [P1 P2].
  { intros M HM. rewrite Forall_forall in HA. apply (score_pos ex sq g U M i j (HA M HM)); auto. }
  unfold mean_score. assert (K : (0 < Qc_of_nat (length Ms))%Qc).
  { apply Qc_of_nat_pos. auto. }
  split; [apply Qc_div_pos; auto|]. apply Qc_div_lt; auto. rewrite Qcmult_1_l. auto.
Qed.

(** ** The error of the block model *)
Lemma node_list_ok g : wf_net g -> node_list g = Ok (map Some (seq 0 (length g))).
Proof.
  intros W. unfold node_list. set (N := length g). set (half := fun i => map Some (seq 0 i) ++ repeat (@None nat) (N - i)).
  destruct (foldM_inv (fun done nl => nl = half (length done)) (fun nlist '(pos, n) => set nlist (gnum n) (Some pos)) (combine (seq 0 N) g) (repeat None N)) as (nl & -> & E1).
  - unfold half. cbn. now rewrite Nat.sub_0_r.
  - intros done [pos n] rest nl Hl ->. set (i := length done) in *.
    assert (Ei : nth_error (combine (seq 0 N) g) i = Some (pos, n)) by (rewrite Hl, nth_error_app2 by (unfold i; lia); unfold i; now rewrite Nat.sub_diag).
    assert (Li : i < N). { apply nth_lt in Ei. rewrite combine_length, seq_length in Ei. fold N in Ei. lia. }
    destruct (nth_ex g i Li) as [n' En]. assert (E : nth_error (combine (seq 0 N) g) i = Some (0 + i, n')) by (apply combine_at; auto; now apply nth_error_seq).
    rewrite Ei in E. change (0 + i) with i in E. injection E as -> ->. rewrite (wf_num g W i n' En).
    assert (Hh : length (half i) = N) by (unfold half; rewrite app_length, map_length, seq_length, repeat_length; lia).
    rewrite set_ok by lia. eexists. split; [reflexivity|]. rewrite app_length. cbn [length]. fold i.
    unfold half. replace (N - i) with (Datatypes.S (N - (i + 1))) by lia. cbn [repeat]. pose proof (upd_app_mid (map Some (seq 0 i)) (repeat None (N - (i + 1))) None (Some i)) as E0. rewrite map_length, seq_length in E0. rewrite E0, seq_app, map_app, <- app_assoc. reflexivity.
  - rewrite combine_length, seq_length in *. fold N in E1. rewrite Nat.min_id in *. unfold half in E1. rewrite Nat.sub_diag in *. cbn [repeat] in *. rewrite app_nil_r in *. congruence.
Qed.
Lemma node_at_ok n i : i < n -> node_at (map Some (seq 0 n)) i = Ok i.
Proof. intros H. unfold node_at, get. rewrite nth_error_map, nth_error_seq by auto. reflexivity. Qed.
Lemma link_there g i j : i < length g -> IsThereLink g i j = Ok (linked g i j).
Proof.
  intros Li. rewrite IsThereLink_spec by auto. f_equal. rewrite linked_nbrs. destruct (in_dec _ _ _) as [H|H]; symmetry; [now apply mem_In|].
  destruct (mem j (nbrs g i)) eqn:E; auto. now apply mem_In in E.
Qed.
Lemma sbg_linked g g' i j : same_but_group g g' -> linked g' i j = linked g i j.
Proof. intros S. now rewrite !linked_nbrs, (sbg_nbrs g g'). Qed.
Theorem SBMError_ok reps g ds : undirected g -> Forall good_draw ds ->
  ends serr (SBMError logf lnchoose lnfact mutual decay_of lcsize lfsize x reps g ds) (fun '(e, g', ds') => net_after g g' /\ Forall good_draw ds' /\
    exists Ms, sampled ex sq (length g) (energy 0%Qc g) (fun d => d) reps ds Ms ds' /\ e = sq (misfit g (mean_score ex sq g Ms))).
Proof.
  intros U HD. unfold SBMError. eapply ends_bind; [apply scores_of_ok; auto|]. intros [[m g'] ds'] (NA & HD' & Ms & HS & Hm). pose proof NA as [U' S'].
  rewrite (node_list_ok g' (un_wf g' U')). cbn [bind]. rewrite over_pairs_upper.
  rewrite (foldM_sum _ (fun ij => (link01 g (fst ij) (snd ij) - mean_score ex sq g Ms (fst ij) (snd ij)) * (link01 g (fst ij) (snd ij) - mean_score ex sq g Ms (fst ij) (snd ij)))%Qc).
  - cbn [bind ends]. splits; auto. exists Ms. split; auto. unfold misfit, choose2. rewrite <- pair_sum_upper. cbn [nsqrt ndiv nofnat n0 sops Qc_ops]. rewrite Qcplus_0_l. reflexivity.
  - intros s [i j] Hij. apply upper_In in Hij as [H1 H2]. cbn [fst snd]. pose proof (sbg_length g g' S') as EL. unfold err_pair. rewrite !node_at_ok by lia. cbn [bind]. rewrite link_there by lia. cbn [bind].
    rewrite (mat_get _ _ m _ i j Hm) by lia. cbn [bind]. rewrite (proj2 (Nat.eqb_neq i j)) by lia. rewrite (sbg_linked g g') by auto. unfold link01.
    destruct (linked g i j); cbn [nadd nmul nsub n1 sops Qc_ops]; f_equal; ring.
Qed.
Lemma Qsum_mono_lt {X} (f : X -> Qc) l : l <> [] -> (forall x, In x l -> 0 < f x /\ f x < 1)%Qc -> (0 < Qsum f l /\ Qsum f l < Qc_of_nat (length l))%Qc.
Proof.
  induction l as [|a l IH]; intros HN H; [congruence|]. destruct (H a (or_introl eq_refl)) as [A1 A2]. cbn [Qsum length]. rewrite Qc_of_nat_S. destruct l as [|b l].
  - cbn [Qsum length]. change (Qc_of_nat 0) with 0%Qc. rewrite !Qcplus_0_r. rewrite ?Qcplus_0_l. auto.
  - destruct IH as [P1 P2]; [congruence|intros; apply H; simpl; auto|]. split.
    + replace 0%Qc with (0 + 0)%Qc by ring. now apply Qc_plus_lt.
    + rewrite Qcplus_comm. first [now apply Qc_plus_lt | rewrite Qcplus_comm; now apply Qc_plus_lt].
Qed.
Lemma square_bounds (a : Qc) : (0 < a -> a < 1 -> 0 < a * a /\ a * a < 1)%Qc.
Proof.
  intros H1 H2. split.
  - rewrite <- (Qcmult_0_l a). now apply Qcmult_lt_compat_r.
  - apply (Qclt_trans _ (1 * a)%Qc); [now apply Qcmult_lt_compat_r|]. now rewrite Qcmult_1_l.
Qed.
Theorem misfit_bounds g Ms : undirected g -> Forall (assigned (length g)) Ms -> Ms <> [] -> 2 <= length g ->
  (0 < misfit g (mean_score ex sq g Ms) /\ misfit g (mean_score ex sq g Ms) < 1)%Qc.
Proof.
  intros U HA HN L. unfold misfit. rewrite <- pair_sum_upper. assert (EL : choose2 (length g) = length (upper (length g))).
  { unfold choose2. rewrite <- upper_length, Nat.mul_comm, Nat.div_mul; lia. }
  assert (HU : upper (length g) <> []). { intros K. assert (H : In (0, 1) (upper (length g))) by (apply upper_In; lia). rewrite K in H. destruct H. }
  destruct (Qsum_mono_lt (fun ij => (link01 g (fst ij) (snd ij) - mean_score ex sq g Ms (fst ij) (snd ij)) * (link01 g (fst ij) (snd ij) - mean_score ex sq g Ms (fst ij) (snd ij)))%Qc (upper (length g)) HU) as [P1 P2].
  { intros [i j] Hij. apply upper_In in Hij as [H1 H2]. cbn [fst snd]. destruct (mean_score_bounds g Ms i j U HA HN) as [B1 B2]; try lia. set (p := mean_score _ _ _ _ _ _) in *. unfold link01. destruct (linked g i j).
    - apply square_bounds; [now apply Qclt_minus_iff in B2|]. apply Qclt_minus_iff. now replace (1 + - (1 - p))%Qc with p by ring.
    - replace ((0 - p) * (0 - p))%Qc with (p * p)%Qc by ring. now apply square_bounds. }
  rewrite EL. assert (K : (0 < Qc_of_nat (length (upper (length g))))%Qc) by (apply Qc_of_nat_pos; destruct (upper (length g)); [congruence|simpl; lia]).
  split; [apply Qc_div_pos; auto|]. apply Qc_div_lt; auto. now rewrite Qcmult_1_l.
Qed.

(** ** The network of the scores *)
Definition unlinked (h : net Qc) : Prop := forall i n, nth_error h i = Some n -> gnum n = i /\ gadj n = [] /\ gdeg n = 0.
Lemma unlinked_un h : unlinked h -> undirected h /\ weightless h /\ forall i, nbrs h i = [].
Proof.
  intros H. assert (HN : forall i, nbrs h i = []). { intros i. unfold nbrs. destruct (nth_error h i) as [n|] eqn:E; auto. destruct (H i n E) as (_ & -> & _). reflexivity. }
  assert (HW : forall i j, weight h i j = None). { intros i j. unfold weight. destruct (nth_error h i) as [n|] eqn:E; auto. destruct (H i n E) as (_ & -> & _). reflexivity. }
  splits; auto.
  - split; [split| |].
    + intros i n E. apply (H i n E).
    + intros i n l E Hl. destruct (H i n E) as (_ & K & _). rewrite K in Hl. destruct Hl.
    + intros i. rewrite HN. constructor.
    + intros i n E. left. apply (H i n E).
    + intros i. rewrite HN. auto.
    + intros i j. now rewrite !HW.
  - intros a b w K. rewrite HW in K. discriminate.
Qed.
Lemma un_unlinked h : undirected h -> (forall i, nbrs h i = []) -> unlinked h.
Proof.
  intros U HN i n E. pose proof (un_wf h U) as W. assert (EA : gadj n = []).
  { destruct (gadj n) as [|l ls] eqn:EA; auto. destruct (wf_link h W i n l E) as (j & m & K & _); [rewrite EA; simpl; auto|]. specialize (HN i). rewrite (nbrs_eq h i n E), EA in HN. unfold targets in HN. cbn [flat_map] in HN. rewrite K in HN. discriminate. }
  splits; auto; [eapply wf_num; eauto|]. destruct (wf_deg h W i n E) as [K|K]; auto. now rewrite EA in K.
Qed.
Lemma rename_ok g h : unlinked h -> length h = length g -> (forall n, In n g -> length (glabel n) < 100) ->
  exists h' nl, foldM (rename_node g) (h, repeat None (length g)) (seq 0 (length h)) = Ok (h', nl) /\ unlinked h' /\ map glabel h' = map glabel g /\ has_nodes nl (length g).
Proof.
  intros HU HL HS. rewrite HL. set (N := length g) in *.
  destruct (foldM_seq (fun i '(h', nl) => unlinked h' /\ length h' = N /\ length nl = N /\ has_nodes nl i /\ forall k n m, k < i -> nth_error g k = Some n -> nth_error h' k = Some m -> glabel m = glabel n)
    (rename_node g) N (h, repeat None N)) as ([h' nl] & -> & K1 & K2 & K3 & K4 & K5).
  - splits; auto; [apply repeat_length| |]; intros i; lia.
  - intros i [h' nl] Hi (K1 & K2 & K3 & K4 & K5). unfold rename_node. destruct (nth_ex g i Hi) as [n En]. rewrite En. cbn [bind]. unfold store_label, max_label.
    rewrite (proj2 (Nat.ltb_lt _ _) (HS n (nth_error_In _ _ En))). cbn [check bind]. destruct (nth_ex h' i) as [m Em]; [lia|]. rewrite (get_ok _ _ _ Em). cbn [bind]. rewrite set_ok by lia. cbn [bind].
    destruct (K1 i m Em) as (Q1 & Q2 & Q3). rewrite Q1, set_ok by lia. cbn [bind]. eexists. split; [reflexivity|]. cbv beta iota. rewrite !length_upd. splits; auto.
    + intros k y Ey. rewrite nth_upd in Ey. destruct (Nat.eqb_spec k i) as [->|Hk]; cbn [andb] in Ey; [|now apply K1]. rewrite (proj2 (Nat.ltb_lt _ _)) in Ey by lia. injection Ey as <-. cbn [gnum gadj gdeg]. auto.
    + apply has_nodes_snoc; auto. lia.
    + intros k y z Hk Ey Ez. rewrite nth_upd in Ez. destruct (Nat.eqb_spec k i) as [->|Hki]; cbn [andb] in Ez.
      * rewrite (proj2 (Nat.ltb_lt _ _)) in Ez by lia. injection Ez as <-. cbn [glabel]. congruence.
      * apply (K5 k); auto. lia.
  - exists h', nl. splits; auto. apply nth_ext. intros k. rewrite !nth_error_map. destruct (nth_error h' k) as [m|] eqn:Em.
    + destruct (nth_ex g k) as [n En]; [apply nth_lt in Em; unfold N in *; lia|]. rewrite En. cbn [option_map]. f_equal. apply (K5 k); auto. apply nth_lt in Em. lia.
    + destruct (nth_error g k) as [n|] eqn:En; auto. apply nth_lt in En. apply nth_error_None in Em. unfold N in *. lia.
Qed.
Lemma chosen_pairs nl k (c : nat -> nat -> bool) (f : net Qc -> nat * nat -> res (net Qc)) : has_nodes nl k ->
  forall ps g, (forall i j, In (i, j) ps -> i < j /\ j < k /\ forall h, f h (i, j) = if c i j then link_both h nl i j else Ok h) -> k <= length g -> undirected g -> weightless g ->
  exists g', foldM f g ps = Ok g' /\ undirected g' /\ same_nodes g g' /\ weightless g' /\
    (forall a b, In b (nbrs g' a) <-> In b (nbrs g a) \/ exists i j, In (i, j) ps /\ c i j = true /\ (a = i /\ b = j \/ a = j /\ b = i)).
Proof.
  intros HN. induction ps as [|[i j] ps IH]; intros g Hf Hk U Z.
  - exists g. splits; auto using same_nodes_refl. intros a b. split; auto. intros [H|(i & j & [] & _)]; auto.
  - destruct (Hf i j (or_introl eq_refl)) as (Hij & Hj & Ef). cbn [foldM]. rewrite Ef.
    assert (ST : exists g1, (if c i j then link_both g nl i j else Ok g) = Ok g1 /\ undirected g1 /\ same_nodes g g1 /\ weightless g1 /\
      forall a b, In b (nbrs g1 a) <-> In b (nbrs g a) \/ (c i j = true /\ (a = i /\ b = j \/ a = j /\ b = i))).
    { destruct (c i j).
      - destruct (link_both_ok g nl i j k U Z HN) as (g1 & -> & U1 & S1 & Z1 & N1); try lia. exists g1. splits; auto. intros a b. rewrite N1. split; [tauto|]. intros [F|[_ F]]; auto. right. split; auto. lia.
      - exists g. splits; auto using same_nodes_refl. intros a b. split; auto. intros [F|[F _]]; auto. discriminate. }
    destruct ST as (g1 & -> & U1 & S1 & Z1 & N1). cbn [bind]. destruct (IH g1) as (g' & E & U' & S' & Z' & N'); auto.
    { intros a b Hab. apply Hf. simpl; auto. } { now rewrite <- (same_nodes_length _ _ S1). }
    exists g'. splits; auto; [eapply same_nodes_trans; eauto|]. intros a b. rewrite N', N1. split.
    + intros [[F|F]|(p & q & F1 & F)]; auto; right; [exists i, j|exists p, q]; simpl; tauto.
    + intros [F|(p & q & [F1|F1] & F)]; auto; [injection F1 as <- <-; auto|]. right. exists p, q. auto.
Qed.
Lemma same_nodes_labels (g h : net Qc) : same_nodes g h -> map glabel h = map glabel g.
Proof. induction 1 as [|n m g h (E & _) _ IH]; auto. cbn [map]. now rewrite IH, E. Qed.

Theorem NetFrom_ok reps g ds : undirected g -> Forall good_draw ds -> writable (length g) -> (forall n, In n g -> length (glabel n) < 100) ->
  ends serr (NetFromSBMScores logf lnchoose lnfact mutual decay_of lcsize lfsize x reps g ds) (fun '(h, g', ds') => net_after g g' /\ Forall good_draw ds' /\
    exists Ms, sampled ex sq (length g) (energy 0%Qc g) (fun d => d) reps ds Ms ds' /\
      drawn g (fun i j => (Q2Qc (1 # 2) < mean_score ex sq g Ms i j)%Qc) h /\ weightless h).
Proof.
  intros U HD HW HS. unfold NetFromSBMScores. eapply ends_bind; [apply scores_of_ok; auto|]. intros [[m g'] ds'] (NA & HD' & Ms & HSa & Hm). pose proof NA as [U' S'].
  destruct (EmptyGraph_spec (length g) HW) as (h0 & -> & U0 & [L0 _] & N0). cbn [bind]. pose proof (sbg_length g g' S') as EL.
  destruct (rename_ok g' h0) as (h1 & nl & E1 & H1 & HLab & HN); [now apply un_unlinked|congruence| |].
  { intros n Hn. apply (in_map glabel) in Hn. rewrite (sbg_labels g g' S') in Hn. apply in_map_iff in Hn as (n' & <- & Hn'). now apply HS. }
  replace (length g) with (length g') at 1 by auto. rewrite E1. cbn [bind]. destruct (unlinked_un h1 H1) as (U1 & Z1 & N1). rewrite (sbg_labels g g' S') in HLab.
  assert (L1 : length h1 = length g) by (rewrite <- (map_length glabel), HLab; apply map_length).
  rewrite over_pairs_upper.
  destruct (chosen_pairs nl (length g') (fun i j => nltb (nofQ (1 # 2)) (mean_score ex sq g Ms i j))
     (fun h ij => do p <- get2 m (fst ij) (snd ij); if nltb (nofQ (1 # 2)) p then link_both h nl (fst ij) (snd ij) else Ok h) HN (upper (length g)) h1) as (h & -> & Uh & Sh & Zh & Nh); auto; [|lia|].
  { intros i j Hij. apply upper_In in Hij as [A1 A2]. splits; auto; [lia|]. intros h. cbn [fst snd]. rewrite (mat_get _ _ m _ i j Hm) by lia. cbn [bind]. now rewrite (proj2 (Nat.eqb_neq i j)) by lia. }
  cbn [bind ends]. splits; auto. exists Ms. splits; auto. split; [auto|split].
  - now rewrite (same_nodes_labels _ _ Sh).
  - intros i j Hij Hj. rewrite Nh, N1. split.
    + intros [[]|(p & q & Hpq & Hc & HE)]. apply upper_In in Hpq. apply Qc_ltb_spec in Hc. destruct HE as [[-> ->]|[-> ->]]; [exact Hc|lia].
    + intros Hc. right. exists i, j. splits; auto; [apply upper_In; lia|]. now apply Qc_ltb_spec.
Qed.

(** ** The normalised error *)
(** [e] is the error of [h] for the samples of some run. *)
Definition error_of reps (h : net Qc) (ds : list Qc) (e : Qc) (ds' : list Qc) : Prop :=
  exists Ms, sampled ex sq (length h) (energy 0%Qc h) (fun d => d) reps ds Ms ds' /\ e = sq (misfit h (mean_score ex sq h Ms)).
Definition deviation (l : list Qc) : Qc := if Qc_eq_dec (variance l) 0 then 0%Qc else sq (variance l).
Lemma rewired_sbg g h h' : rewired g h -> undirected h' -> same_but_group h h' -> rewired g h'.
Proof.
  intros (R1 & R2 & R3) U S. split; [auto|split]; [now rewrite (sbg_labels h h' S)|]. intros i. unfold degree. rewrite (sbg_nbrs h h' i S). apply R3.
Qed.
Lemma rewired_link g h : rewired g h -> (exists i j, In j (nbrs g i)) -> exists i j, In j (nbrs h i).
Proof.
  intros (_ & _ & R) (i & j & H). specialize (R i). unfold degree in R. exists i. destruct (nbrs h i) as [|k l]; [|exists k; simpl; auto]. destruct (nbrs g i); [destruct H|discriminate].
Qed.
Lemma copy_un g : undirected g -> undirected (net_copy g).
Proof.
  intros U. split; [apply net_copy_wf, U| |]; intros i.
  - rewrite net_copy_nbrs. apply (un_loop g U).
  - intros j. rewrite !net_copy_weight. apply (un_sym g U).
Qed.
Theorem Structure_ok reps nrep g ds : undirected g -> Forall good_draw ds -> NoDup (map glabel g) -> (forall n, In n g -> length (glabel n) < 100) -> (exists i j, In j (nbrs g i)) -> 0 < nrep ->
  ends serr (SBMStructureScore logf lnchoose lnfact mutual decay_of lcsize lfsize x reps g nrep ds) (fun '(z, g', ds') => net_after g g' /\ Forall good_draw ds' /\
    exists e0 d1 hs errs, error_of reps g ds e0 d1 /\ length errs = nrep /\ Forall2 (fun h e => rewired g h /\ exists d d', error_of reps h d e d') hs errs /\
      z = ((Qsum (fun e => e) errs / Qc_of_nat nrep - e0) / deviation errs)%Qc).
Proof.
  intros U HD ND HS HE Hn. unfold SBMStructureScore. eapply ends_bind; [apply SBMError_ok; auto|]. intros [[e0 g'] d1] (NA & HD1 & EO). pose proof NA as [U' S'].
  rewrite CopyNetwork_copy; [|apply U'|now rewrite (sbg_labels g g' S')|].
  2:{ intros n Hn'. apply (in_map glabel) in Hn'. rewrite (sbg_labels g g' S') in Hn'. apply in_map_iff in Hn' as (n' & <- & Hn'). now apply HS. }
  cbn [bind]. assert (R0 : rewired g (net_copy g')).
  { split; [now apply copy_un|split]; [now rewrite net_copy_labels, (sbg_labels g g' S')|]. intros i. unfold degree. now rewrite net_copy_nbrs, (sbg_nbrs g g' i S'). }
  pose proof (foldM_seq_safe (fun k '(r, errs, d) => rewired g r /\ Forall good_draw d /\ length errs = k /\ exists hs, Forall2 (fun h e => rewired g h /\ exists d d', error_of reps h d e d') hs errs) serr
    (structure_rep logf lnchoose lnfact mutual decay_of lcsize lfsize x reps) nrep (net_copy g', [], d1)) as G.
  eapply (ends_bind serr _ _ (fun '(r, errs, d) => rewired g r /\ Forall good_draw d /\ length errs = nrep /\ exists hs, Forall2 (fun h e => rewired g h /\ exists d d', error_of reps h d e d') hs errs)).
  - unfold ends. apply G.
    + splits; auto. exists []. constructor.
    + intros k [[r errs] d] Hk (R & Hd & Le & hs & F). unfold structure_rep. pose proof (Randomize_draws r (nofQ (100 # 1)) d (proj1 R) Hd (rewired_link g r R HE)) as HR.
      destruct (RandomizeSymmetricNetwork r _ d) as [[r1 d2]|e]; cbn [bind safe] in *; [|subst; now left]. destruct HR as (Ur & Sr & Dr & Hd2).
      assert (R1 : rewired g r1). { split; [auto|split]; [rewrite (same_nodes_labels r r1 Sr); apply R|]. intros i. rewrite Dr. apply R. }
      pose proof (SBMError_ok reps r1 d2 Ur Hd2) as HB. destruct (SBMError _ _ _ _ _ _ _ _ _ r1 d2) as [[[e r2] d3]|e]; cbn [bind ends] in *; auto. destruct HB as (NA1 & Hd3 & EO1).
      splits; auto; [eapply rewired_sbg; eauto; apply NA1|rewrite app_length; cbn [length]; lia|]. exists (hs ++ [r1]). apply Forall2_app; auto. constructor; [|constructor]. split; auto. exists d2, d3. auto.
  - intros [[r errs] d] (R & Hd & Le & hs & F). rewrite (mean_spec ex sq) by lia. cbn [bind]. rewrite (stddev_spec ex sq) by lia. cbn [bind ends]. splits; auto. exists e0, d1, hs, errs. splits; auto.
    rewrite <- Le, firstn_all. reflexivity.
Qed.
End Exact.

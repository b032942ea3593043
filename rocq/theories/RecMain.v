(** RecMain.v -- the two Metropolis samplers of src/recommend.c from the network of ratings to the scores. *)
From Coq Require Import List Arith ZArith Bool QArith Qcanon Lia.
From Verif Require Import Base Num ListLib NatSum QcSum MatLib GraphModel GraphSpec GraphProof GroupModel GroupSpec GroupProof NetModel NetCopy ToolsModel ToolsProof ModulesModel SAProof RolesBounds
  BipartModel BipartSpec BipartRen BipartCopy MissModel MissSpec MissStep MissExact MissRun RecModel RecSpec RecSets RecMem RecLinks RecStep RecSetup RecRun RecExact RecEnergy RecClean RecScore.
Import ListNotations.
Local Open Scope nat_scope.

(** * Estimates are frequencies *)
Lemma Qc_lt_sum a b : (0 < a)%Qc -> (0 <= b)%Qc -> (0 < a + b)%Qc.
Proof. intros H1 H2. apply Qclt_le_trans with a; auto. rewrite <- (Qcplus_0_r a) at 1. apply Qcplus_le_compat; auto. apply Qcle_refl. Qed.
Lemma nth_lsum l : forall k, k < length l -> nth k l 0 <= lsum (fun c => c) l.
Proof. induction l as [|x l IH]; intros [|k] H; cbn [length nth lsum] in *; try lia. specialize (IH k). lia. Qed.
Lemma estimate_pos cs k : 0 < length cs -> (0 < estimate cs k)%Qc.
Proof. intros H. unfold estimate. apply Qc_div_pos; apply Qc_of_nat_pos; lia. Qed.
Lemma estimate_lt1 cs k : 1 < length cs -> k < length cs -> (estimate cs k < 1)%Qc.
Proof.
  intros H Hk. unfold estimate. apply Qc_div_lt; [apply Qc_of_nat_pos; lia|]. rewrite Qcmult_1_l. apply Qc_of_nat_lt. pose proof (nth_lsum cs k Hk). lia.
Qed.
Lemma estimate_sum cs : 0 < length cs -> Qsum (estimate cs) (seq 0 (length cs)) = 1%Qc.
Proof.
  intros H. unfold estimate, Qcdiv. rewrite Qsum_scal_r.
  assert (E : Qsum (fun k => Qc_of_nat (nth k cs O + 1)) (seq 0 (length cs)) = Qc_of_nat (lsum (fun c => c) cs + length cs)).
  { clear H. transitivity (Qsum (fun c => Qc_of_nat (c + 1)) cs).
    - symmetry. rewrite <- (Qsum_map (fun k => nth k cs O) (fun c => Qc_of_nat (c + 1)) (seq 0 (length cs))). f_equal. apply nth_ext. intros i. rewrite nth_error_map. destruct (Nat.lt_ge_cases i (length cs)) as [Hi|Hi].
      + rewrite nth_error_seq by auto. cbn. now apply nth_error_nth'.
      + rewrite (proj2 (nth_error_None cs i)), (proj2 (nth_error_None (seq _ _) i)); auto. now rewrite seq_length.
    - induction cs as [|c cs IH]; [reflexivity|]. cbn [Qsum lsum length]. rewrite IH, <- Qc_of_nat_add. f_equal. lia. }
  rewrite E. apply Qcmult_inv_r. intros X. pose proof (Qc_of_nat_pos (lsum (fun c => c) cs + length cs) ltac:(lia)) as Y. rewrite X in Y. now apply Qclt_not_eq in Y.
Qed.
Lemma est_sum R K ij s : 0 < K -> Qsum (fun k => est R K ij k s) (seq 0 K) = 1%Qc.
Proof. intros HK. destruct s as [[c1 c2] ds]. unfold est. set (cs := tallies R K c1 c2 _ _). assert (L : length cs = K) by apply tallies_length. rewrite <- L. apply estimate_sum. lia. Qed.
Lemma est_bounds R K ij s k : 1 < K -> k < K -> (0 < est R K ij k s /\ est R K ij k s < 1)%Qc.
Proof. intros HK Hk. destruct s as [[c1 c2] ds]. unfold est. set (cs := tallies R K c1 c2 _ _). assert (L : length cs = K) by apply tallies_length. split; [apply estimate_pos; lia|apply estimate_lt1; lia]. Qed.
Lemma Qsum_inside {X} (f : X -> Qc) l : l <> [] -> (forall x, In x l -> 0 < f x /\ f x < 1)%Qc -> (0 < Qsum f l / Qc_of_nat (length l) /\ Qsum f l / Qc_of_nat (length l) < 1)%Qc.
Proof.
  intros Hn H. assert (HL : 0 < length l) by (destruct l; [congruence|simpl; lia]).
  assert (G : (0 < Qsum f l /\ Qsum f l < Qc_of_nat (length l))%Qc).
  { clear HL. induction l as [|x l IH]; [congruence|]. destruct (H x (or_introl eq_refl)) as [H1 H2]. cbn [Qsum length]. rewrite Qc_of_nat_S. destruct l as [|y l].
    - cbn [Qsum length]. rewrite Qc_of_nat_0, !Qcplus_0_r. auto.
    - destruct IH as [I1 I2]; [discriminate|intros z Hz; apply H; simpl; auto|]. split; [apply Qc_lt_sum; auto; now apply Qclt_le_weak|]. now apply Qc_plus_lt. }
  destruct G as [G1 G2]. split; [apply Qc_div_pos; auto; now apply Qc_of_nat_pos|]. apply Qc_div_lt; [now apply Qc_of_nat_pos|]. now rewrite Qcmult_1_l.
Qed.
Lemma means_bounds R K l ij : 1 < K -> l <> [] -> Forall (fun x => 0 < x /\ x < 1)%Qc (means R K l ij).
Proof. intros HK Hl. unfold means. apply Forall_forall. intros x Hx. apply in_map_iff in Hx as (k & <- & Hk). apply in_seq in Hk. apply Qsum_inside; auto. intros s _. apply est_bounds; lia. Qed.
Lemma means_sum R K l ij : 0 < K -> l <> [] -> Qsum (fun x => x) (means R K l ij) = 1%Qc.
Proof.
  intros HK Hl. unfold means, Qcdiv. rewrite Qsum_map, Qsum_scal_r, Qsum_swap. rewrite (Qsum_ext _ (fun _ => 1%Qc)) by (intros s _; now apply est_sum). rewrite Qsum_const, Qcmult_1_r. apply Qcmult_inv_r.
  intros X. assert (0 < length l) by (destruct l; [congruence|simpl; lia]). pose proof (Qc_of_nat_pos (length l) ltac:(lia)) as Y. rewrite X in Y. now apply Qclt_not_eq in Y.
Qed.
Lemma means_length R K l ij : length (means R K l ij) = K.
Proof. unfold means. now rewrite map_length, seq_length. Qed.

Lemma second_scores (ss : list (list Qc)) : Forall (fun s => length s = 2) ss -> mapM (fun s => get s 1) ss = Ok (map (fun s => nth 1 s 0%Qc) ss).
Proof. induction 1 as [|s ss H _ IH]; [reflexivity|]. cbn [map mapM]. rewrite IH. destruct s as [|a [|b [|? ?]]]; try discriminate H. reflexivity. Qed.

Lemma nth_error_grid {X Y Z} (f : X -> Y -> Z) (s1 : list X) (s2 : list Y) : length (flat_map (fun p => map (f p) s2) s1) = length s1 * length s2 /\
  forall i j p q, nth_error s1 i = Some p -> nth_error s2 j = Some q -> nth_error (flat_map (fun p => map (f p) s2) s1) (i * length s2 + j) = Some (f p q).
Proof.
  induction s1 as [|a s1 [IL IH]]; cbn [flat_map length]; [split; auto; intros [|i]; discriminate|]. split; [rewrite app_length, map_length, IL; reflexivity|].
  intros [|i] j p q Ei Ej; cbn [nth_error] in Ei.
  - injection Ei as ->. cbn [Nat.mul Nat.add]. rewrite nth_error_app1; [rewrite nth_error_map, Ej; reflexivity|]. rewrite map_length. apply nth_error_Some. congruence.
  - rewrite nth_error_app2; rewrite map_length; [|lia]. rewrite <- (IH i j p q Ei Ej). f_equal. lia.
Qed.
Lemma nth_error_combine {X Y} (a : list X) (b : list Y) : forall i x y, nth_error a i = Some x -> nth_error b i = Some y -> nth_error (combine a b) i = Some (x, y).
Proof. revert b. induction a as [|u a IH]; intros [|v b] [|i] x y; cbn; try discriminate; [congruence|]. apply IH. Qed.
Lemma grid_located s1 s2 : Forall2 (located s1 s2) (flat_map (fun p => map (fun q => (p, q)) s2) s1) (flat_map (fun i => map (fun j => (i, j)) (seq 0 (length s2))) (seq 0 (length s1))).
Proof.
  assert (H2 : forall p i l k, nth_error s1 i = Some p -> (forall j q, nth_error l j = Some q -> nth_error s2 (k + j) = Some q) -> Forall2 (located s1 s2) (map (fun q => (p, q)) l) (map (fun j => (i, j)) (seq k (length l)))).
  { intros p i. induction l as [|q l IH]; intros k Hp H; cbn [map length seq]; constructor.
    - split; auto. cbn. rewrite <- (Nat.add_0_r k). now apply H.
    - apply IH; auto. intros j r Hr. replace (S k + j) with (k + S j) by lia. now apply H. }
  assert (H1 : forall l k, (forall i p, nth_error l i = Some p -> nth_error s1 (k + i) = Some p) -> Forall2 (located s1 s2) (flat_map (fun p => map (fun q => (p, q)) s2) l) (flat_map (fun i => map (fun j => (i, j)) (seq 0 (length s2))) (seq k (length l)))).
  { induction l as [|p l IH]; intros k H; cbn [flat_map length seq]; [constructor|]. apply Forall2_app.
    - apply H2; auto. rewrite <- (Nat.add_0_r k). now apply H.
    - apply IH. intros i r Hr. replace (S k + i) with (k + S i) by lia. now apply H. }
  apply H1. auto.
Qed.

Section Main.
Variables ex sq : Qc -> Qc.
Local Instance opsM : NumOps Qc := Qc_ops ex sq.
Variable logf : nat -> Qc.
Variable lnchoose : nat -> nat -> Qc.
Variable lnfact : nat -> Qc.
Variable mutual : gpart Qc -> gpart Qc -> Qc.
Variable decay_of : nat -> nat -> Qc -> nat -> Qc -> Qc.
Variables llsize lcsize lfsize : nat.

(** A network of ratings 0, 1, ..., K-1, with queries at [pos]. *)
Record rating_net (K : nat) (b : binet Qc) : Prop := {
  rn_bi : bipartite b;
  rn_d1 : distinct (bmem b) (bset1 b);
  rn_d2 : distinct (bmem b) (bset2 b);
  rn_fit : labels_fit (bmem b);
  rn_range : in_range K b;
  rn_1 : 0 < length (bset1 b);
  rn_2 : 0 < length (bset2 b) }.
(** The scores come from samples of the Metropolis algorithm: it starts with a group for each node, makes some attempts, and is
    looked at [nIter] times, [(n + m) * d] attempts apart. *)
Definition sampled (K : nat) (cost : list nat -> Qc) (b : binet Qc) (pos : list (nat * nat)) (nIter : nat) (decor : option nat) (ds : list Qc) (l : list (rstate Qc)) : Prop :=
  let R := hide pos (ratings (bmem b) (bset1 b) (bset2 b)) in
  let E := renergy lnfact K cost R in
  let n := length (bset1 b) in let m := length (bset2 b) in
  length l = nIter /\ exists M d sB sE, (forall d', decor = Some d' -> d = d') /\ power (rattempt ex E) M (seq 0 n, seq 0 m, ds) sB /\ visits (power (rattempt ex E) ((n + m) * d)) sB l sE.

(** * Ratings 0 to K-1 *)
Lemma energyK K (HK : 0 < K) : forall g s1 s2 c1 c2 P1 P2, crossed g s1 s2 -> groups_of g s1 P1 c1 -> groups_of g s2 P2 c2 -> ranged g s1 s2 K ->
  HKState lnfact K g P1 P2 = Ok (renergy lnfact K (costK lnfact K) (ratings g s1 s2) c1 c2).
Proof. intros. eapply HKState_exact; eauto. Qed.
Theorem scoresK K b qs pos nIter decor ds : 0 < K -> rating_net K b -> Forall2 (located (bset1 b) (bset2 b)) qs pos -> Forall good_draw ds ->
  ends rng_err (MultiLinkScoreKState logf lnfact mutual decay_of llsize lcsize lfsize K b qs nIter decor ds) (fun scores => exists l, sampled K (costK lnfact K) b pos nIter decor ds l /\
    scores = map (means (hide pos (ratings (bmem b) (bset1 b) (bset2 b))) K l) pos).
Proof.
  intros HK [B D1 D2 Fit HI N1 N2] HQ HD. unfold MultiLinkScoreKState. eapply ends_bind.
  - apply (run_mc_ok ex sq logf lnfact mutual decay_of llsize lcsize lfsize K HK (fun _ => chargeK lnfact lfsize K) (HKState lnfact K) (costK lnfact K) (fun _ => True)); eauto.
    + intros s d tab cs _ L. apply chargeK_ok; auto.
    + exact (energyK K HK).
  - intros [scores st] (M & d & sB & sE & l & H1 & H2 & H3 & H4 & ->). cbn [ends]. exists l. split; auto. split; auto. exists M, d, sB, sE. auto.
Qed.
Definition reachedK (K : nat) (b : binet Qc) (ds : list Qc) (factors : list nat) : res (rec Qc) :=
  do st <- rec_setup K (HKState lnfact K) (InitializeFastLogChoose lcsize) b ds;
  foldM (fun st f => MCStep lnfact lfsize K (InitializeTable lnfact lfsize) (chargeK lnfact lfsize K (InitializeTable lnfact lfsize)) f st) st factors.
(** What is promised of a state. *)
Definition followsK (K : nat) (cost : list nat -> Qc) (energy : net Qc -> gpart Qc -> gpart Qc -> res Qc) (b : binet Qc) (ds : list Qc) (factors : list nat) (st : rec Qc) : Prop :=
  let R := ratings (bmem b) (bset1 b) (bset2 b) in
  energy (rnet st) (sP (r1 st)) (sP (r2 st)) = Ok (rH st) /\ exists c1 c2,
    (forall i p, nth_error (bset1 b) i = Some p -> group_of (rnet st) p = Some (colour c1 i)) /\ (forall j p, nth_error (bset2 b) j = Some p -> group_of (rnet st) p = Some (colour c2 j)) /\
    rH st = renergy lnfact K cost R c1 c2 /\
    power (rattempt ex (renergy lnfact K cost R)) ((length (bset1 b) + length (bset2 b)) * lsum (fun f => f) factors) (seq 0 (length (bset1 b)), seq 0 (length (bset2 b)), ds) (c1, c2, rds st).
Lemma follows_of K cost energy tabok b ds factors st c1 c2 : in_range K b ->
  (forall g s1 s2 c1 c2 P1 P2, crossed g s1 s2 -> groups_of g s1 P1 c1 -> groups_of g s2 P2 c2 -> ranged g s1 s2 K -> energy g P1 P2 = Ok (renergy lnfact K cost (ratings g s1 s2) c1 c2)) ->
  let R := ratings (bmem b) (bset1 b) (bset2 b) in
  sees K tabok (bset1 b) (bset2 b) R (fun c1 c2 H => H = (renergy lnfact K cost R c1 c2 + 0)%Qc) good_draw (bmem b) st c1 c2 ->
  power (rattempt ex (renergy lnfact K cost R)) ((length (bset1 b) + length (bset2 b)) * lsum (fun f => f) factors) (seq 0 (length (bset1 b)), seq 0 (length (bset2 b)), ds) (c1, c2, rds st) ->
  followsK K cost energy b ds factors st.
Proof.
  intros HI HE R (PO & _ & _ & HJ & S) HP. rewrite Qcplus_0_r in HJ. split.
  - rewrite (HE (rnet st) (bset1 b) (bset2 b) c1 c2); [|apply PO|apply PO|apply PO|].
    + rewrite HJ. f_equal. unfold renergy. f_equal. f_equal. apply Qsum_ext. intros a _. apply Qsum_ext. intros e _. f_equal. unfold tallies. apply map_ext. intros k. apply tally_ext. intros. symmetry. apply (po_R _ _ _ _ _ _ _ _ _ PO).
    + intros p q w _ _ Hw. rewrite (sbg_weight _ _ p q S) in Hw. eapply HI; eauto.
  - exists c1, c2. splits; auto.
    + intros i p Ei. apply (go_group _ _ _ _ (so_g _ _ _ _ _ _ _ _ (po_me _ _ _ _ _ _ _ _ _ PO))). auto.
    + intros i p Ei. apply (go_group _ _ _ _ (so_g _ _ _ _ _ _ _ _ (po_oth _ _ _ _ _ _ _ _ _ PO))). auto.
Qed.
Theorem energy_trackedK K b ds factors : 0 < K -> bipartite b -> in_range K b -> 0 < length (bset1 b) -> 0 < length (bset2 b) -> Forall good_draw ds ->
  ends rng_err (reachedK K b ds factors) (followsK K (costK lnfact K) (HKState lnfact K) b ds factors).
Proof.
  intros HK B HI N1 N2 HD. eapply ends_impl.
  - apply (rreached_ok ex sq logf lnfact llsize lcsize lfsize K (fun _ => chargeK lnfact lfsize K) (HKState lnfact K) (costK lnfact K) (fun _ => True)); eauto.
    + intros s d tab cs _ L. apply chargeK_ok; auto.
    + exact (energyK K HK).
  - intros st (c1 & c2 & HS & HP). eapply follows_of; eauto. exact (energyK K HK).
Qed.

(** * Ratings 0 and 1 *)
Hypothesis none : cost2 logf lnchoose [0; 0] = 0%Qc.
Lemma energy2 : forall g s1 s2 c1 c2 P1 P2, crossed g s1 s2 -> groups_of g s1 P1 c1 -> groups_of g s2 P2 c2 -> ranged g s1 s2 2 ->
  H2State logf lnchoose lnfact g P1 P2 = Ok (renergy lnfact 2 (cost2 logf lnchoose) (ratings g s1 s2) c1 c2).
Proof. intros. eapply H2State_exact; eauto. Qed.
Lemma tab_start : lc_table lnchoose lcsize (InitializeFastLogChoose lcsize).
Proof. apply lc_init. Qed.
Theorem scores2 debug b qs pos nIter decor ds : rating_net 2 b -> Forall2 (located (bset1 b) (bset2 b)) qs pos -> Forall good_draw ds ->
  ends rng_err (MultiLinkScore2State logf lnchoose lnfact mutual decay_of llsize lcsize lfsize debug b qs nIter decor ds) (fun scores => exists l, sampled 2 (cost2 logf lnchoose) b pos nIter decor ds l /\
    scores = map (fun ij => nth 1 (means (hide pos (ratings (bmem b) (bset1 b) (bset2 b))) 2 l ij) 0%Qc) pos).
Proof.
  intros [B D1 D2 Fit HI N1 N2] HQ HD. unfold MultiLinkScore2State. eapply ends_bind.
  - apply (run_mc_ok ex sq logf lnfact mutual decay_of llsize lcsize lfsize 2 ltac:(lia) (fun tabl _ => charge2 logf lnchoose llsize lcsize tabl) (H2State logf lnchoose lnfact) (cost2 logf lnchoose) (lc_table lnchoose lcsize)); eauto.
    + intros s d tab cs HT L. apply charge2_ok; auto.
    + apply tab_start.
    + exact energy2.
  - intros [scores st] (M & d & sB & sE & l & H1 & H2 & H3 & H4 & ->). set (R := hide pos _) in *.
    pose proof (second_scores (map (means R 2 l) pos)) as X. rewrite (map_map _ (fun s => nth 1 s 0%Qc)) in X.
    assert (E : mapM (fun s : list Qc => get s 1) (map (means R 2 l) pos) = Ok (map (fun ij => nth 1 (means R 2 l ij) 0%Qc) pos)) by (apply X; apply Forall_forall; intros y Hy; apply in_map_iff in Hy as (ij & <- & _); apply means_length). clear X.
    match goal with |- ends _ ?m _ => replace m with (Ok (map (fun ij => nth 1 (means R 2 l ij) 0%Qc) pos)) by (symmetry; exact E) end. cbn [ends]. exists l. split; auto. split; auto. exists M, d, sB, sE. auto.
Qed.
(** All pairs, with the ratings left in. *)
Definition all_sampled (b : binet Qc) (nIter : nat) (decor : option nat) (ds : list Qc) (l : list (rstate Qc)) : Prop :=
  let E := renergy lnfact 2 (cost2 logf lnchoose) (ratings (bmem b) (bset1 b) (bset2 b)) in
  let n := length (bset1 b) in let m := length (bset2 b) in
  length l = nIter /\ exists M d sB sE, (forall d', decor = Some d' -> d = d') /\ power (rattempt ex E) M (seq 0 n, seq 0 m, ds) sB /\ visits (power (rattempt ex E) ((n + m) * d)) sB l sE.
Theorem all_scores2 debug b nIter decor ds : bipartite b -> in_range 2 b -> 0 < length (bset1 b) -> 0 < length (bset2 b) -> Forall good_draw ds ->
  ends rng_err (AllLinkScore2State logf lnchoose lnfact mutual decay_of llsize lcsize lfsize debug b nIter decor ds) (fun out => exists l, all_sampled b nIter decor ds l /\
    length out = length (bset1 b) * length (bset2 b) /\
    forall i j p q, nth_error (bset1 b) i = Some p -> nth_error (bset2 b) j = Some q ->
      nth_error out (i * length (bset2 b) + j) = Some (p, q, nth 1 (means (ratings (bmem b) (bset1 b) (bset2 b)) 2 l (i, j)) 0%Qc)).
Proof.
  intros B HI N1 N2 HD. unfold AllLinkScore2State. set (R := ratings _ _ _). set (s1 := bset1 b) in *. set (s2 := bset2 b) in *.
  set (pos := flat_map (fun i => map (fun j => (i, j)) (seq 0 (length s2))) (seq 0 (length s1))). eapply ends_bind.
  - apply (run_as_given_ok ex sq logf lnfact mutual decay_of llsize lcsize lfsize 2 (fun tabl _ => charge2 logf lnchoose llsize lcsize tabl) (H2State logf lnchoose lnfact) (cost2 logf lnchoose) (lc_table lnchoose lcsize)) with (pos := pos) (R := R); eauto.
    + intros s d tab cs HT L. apply charge2_ok; auto.
    + apply tab_start.
    + exact energy2.
    + apply grid_located.
  - intros [scores st] (M & d & sB & sE & l & H1 & H2 & H3 & H4 & ->).
    pose proof (second_scores (map (means R 2 l) pos)) as X. rewrite (map_map _ (fun s => nth 1 s 0%Qc)) in X.
    assert (E : mapM (fun s : list Qc => get s 1) (map (means R 2 l) pos) = Ok (map (fun ij => nth 1 (means R 2 l ij) 0%Qc) pos)) by (apply X; apply Forall_forall; intros y Hy; apply in_map_iff in Hy as (ij & <- & _); apply means_length). clear X.
    match goal with |- ends _ (bind ?m _) _ => assert (E' : m = Ok (map (fun ij => nth 1 (means R 2 l ij) 0%Qc) pos)) by exact E; rewrite E' end. cbn [bind ends].
    exists l. split; [split; auto; exists M, d, sB, sE; auto|].
    destruct (nth_error_grid (fun p q => (p, q)) s1 s2) as [L1 G1]. destruct (nth_error_grid (fun i j => (i, j)) (seq 0 (length s1)) (seq 0 (length s2))) as [L2 G2]. fold pos in L2, G2. rewrite !seq_length in L2, G2.
    unfold all_queries. fold s1 s2. split; [rewrite combine_length, L1, map_length, L2, seq_length; apply Nat.min_id|].
    intros i j p q Ei Ej. assert (Hi : i < length s1) by (apply nth_error_Some; congruence). assert (Hj : j < length s2) by (apply nth_error_Some; congruence).
    apply nth_error_combine; [now apply G1|]. rewrite nth_error_map, (G2 i j i j); auto; now rewrite nth_error_seq.
Qed.
Definition reached2 (b : binet Qc) (ds : list Qc) (factors : list nat) : res (rec Qc) :=
  do st <- rec_setup 2 (H2State logf lnchoose lnfact) (InitializeFastLogChoose lcsize) b ds;
  foldM (fun st f => MCStep lnfact lfsize 2 (InitializeTable lnfact lfsize) (charge2 logf lnchoose llsize lcsize (InitializeTable logf llsize)) f st) st factors.
Theorem energy_tracked2 b ds factors : bipartite b -> in_range 2 b -> 0 < length (bset1 b) -> 0 < length (bset2 b) -> Forall good_draw ds ->
  ends rng_err (reached2 b ds factors) (followsK 2 (cost2 logf lnchoose) (H2State logf lnchoose lnfact) b ds factors).
Proof.
  intros B HI N1 N2 HD. eapply ends_impl.
  - unfold reached2.
    refine (rreached_ok ex sq logf lnfact llsize lcsize lfsize 2 (fun tabl _ => charge2 logf lnchoose llsize lcsize tabl) (H2State logf lnchoose lnfact) (cost2 logf lnchoose) (lc_table lnchoose lcsize) _ _ _ b ds factors B HI N1 N2 HD).
    + intros s d tab cs HT L. apply charge2_ok; auto.
    + apply tab_start.
    + exact energy2.
  - intros st (c1 & c2 & HS & HP). eapply follows_of; eauto. exact energy2.
Qed.
End Main.

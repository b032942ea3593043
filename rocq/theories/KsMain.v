(** KsMain.v -- the K-state sampler of src/missing.c from the network to the scores. *)
From Coq Require Import List Arith ZArith Bool QArith Qcanon Lia.
From Verif Require Import Base Num ListLib NatSum QcSum MatLib GraphModel GraphSpec GraphProof GroupModel GroupSpec GroupProof NetModel NetCopy ToolsModel ToolsProof ModulesModel SAProof
  MissModel MissSpec MissStep MissExact MissRun RecModel RecSpec RecSets RecMem RecLinks RecStep RecSetup RecRun RecExact RecEnergy RecScore RecMain KsModel KsSpec KsLinks KsStep KsRun KsExact.
Import ListNotations.
Local Open Scope nat_scope.

Lemma betweens_len R c K a b : length (betweens R c K a b) = K.
Proof. unfold betweens. now rewrite map_length, seq_length. Qed.
Lemma kmean_length R K l ij : length (kmean R K l ij) = K.
Proof. unfold kmean. now rewrite map_length, seq_length. Qed.
Lemma kmean_bounds R K l ij : 1 < K -> l <> [] -> Forall (fun x => 0 < x /\ x < 1)%Qc (kmean R K l ij).
Proof.
  intros HK Hl. unfold kmean. apply Forall_forall. intros x Hx. apply in_map_iff in Hx as (k & <- & Hk). apply in_seq in Hk. apply Qsum_inside; auto. intros s _. unfold kguess.
  split; [apply estimate_pos|apply estimate_lt1]; rewrite betweens_len; lia.
Qed.
Lemma kmean_sum R K l ij : 0 < K -> l <> [] -> Qsum (fun x => x) (kmean R K l ij) = 1%Qc.
Proof.
  intros HK Hl. unfold kmean, Qcdiv. rewrite Qsum_map, Qsum_scal_r, Qsum_swap. rewrite (Qsum_ext _ (fun _ => 1%Qc)).
  - rewrite Qsum_const, Qcmult_1_r. apply Qcmult_inv_r. intros X. assert (0 < length l) by (destruct l; [congruence|simpl; lia]). pose proof (Qc_of_nat_pos (length l) ltac:(lia)) as Y. rewrite X in Y. now apply Qclt_not_eq in Y.
  - intros s _. unfold kguess. set (cs := betweens R (fst s) K _ _). assert (L : length cs = K) by apply betweens_len. rewrite <- L. apply estimate_sum. lia.
Qed.
Lemma all_pairs_in n ij : In ij (all_pairs n) <-> fst ij < snd ij < n.
Proof.
  unfold all_pairs. rewrite in_flat_map. split.
  - intros (p & Hp & H). apply in_map_iff in H as (q & <- & Hq). apply in_seq in Hp, Hq. cbn. lia.
  - intros H. destruct ij as [i j]. cbn in H. exists i. split; [apply in_seq; lia|]. apply in_map_iff. exists j. split; auto. apply in_seq. lia.
Qed.
Lemma all_pairs_nodup n : NoDup (all_pairs n).
Proof.
  unfold all_pairs. assert (G : forall l, NoDup l -> NoDup (flat_map (fun p => map (fun q => (p, q)) (seq (p + 1) (n - (p + 1)))) l)).
  { induction l as [|p l IH]; intros H; cbn [flat_map]; [constructor|]. inversion H; subst. apply NoDup_app_iff. splits; auto.
    - apply FinFun.Injective_map_NoDup; [intros a b X; congruence|apply seq_NoDup].
    - intros x Hx Hy. apply in_map_iff in Hx as (q & <- & _). apply in_flat_map in Hy as (p' & Hp' & Hy). apply in_map_iff in Hy as (q' & X & _). injection X as -> ->. contradiction. }
  apply G, seq_NoDup.
Qed.

Section Main.
Variables ex sq : Qc -> Qc.
Local Instance opsM : NumOps Qc := Qc_ops ex sq.
Variable lnfact : nat -> Qc.
Variable mutual : gpart Qc -> gpart Qc -> Qc.
Variable decay_of : nat -> nat -> Qc -> nat -> Qc -> Qc.
Variable lfsize : nat.
Variable K : nat.
Hypothesis HK : 0 < K.
Variable g : net Qc.
Hypothesis U : undirected g.
Hypothesis HV : values_in K g.
Hypothesis Hn : 0 < length g.
Notation n := (length g).
Notation R := (valued g).
Notation E := (kenergy lnfact K R).
Let R_sym : forall k i j, R k i j = R k j i.
Proof. intros. now apply valued_sym. Qed.
Let R_loop : forall k i, R k i i = false.
Proof. intros. now apply valued_loop. Qed.

Lemma values_sbg g' : same_but_group g g' -> values_in K g'.
Proof. intros S i j w Hw. rewrite (sbg_weight _ _ i j S) in Hw. eapply HV; eauto. Qed.
Lemma kstart (J : list nat -> Qc -> Prop) ds : Forall good_draw ds -> J (seq 0 n) (E (seq 0 n)) ->
  exists st, ks_setup lnfact K g ds = Ok st /\ ksees K R n J g st (seq 0 n) /\ rds st = ds.
Proof.
  intros HD HJ. destruct (ks_setup_ok K lnfact g ds U) as (g' & me & -> & S & KO). pose proof KO as [C HR _ _ _ I _ _ _].
  assert (EH : LSHKState lnfact K g' (sP me) = Ok (E (seq 0 n))) by (apply (LSHKState_exact ex sq lnfact K HK R R_sym R_loop g' n); auto; now apply values_sbg).
  rewrite EH. cbn [bind]. eexists. split; [reflexivity|]. split; [|reflexivity]. unfold ksees. cbn. splits; auto.
Qed.

(** * The running energy *)
Definition ks_reached (ds : list Qc) (factors : list nat) : res (rec Qc) :=
  do st <- ks_setup lnfact K g ds;
  foldM (fun st f => LSMCStepKState lnfact lfsize K (InitializeTable lnfact lfsize) f st) st factors.
(** Groups, tables and energy are those of a colouring that the Metropolis algorithm reaches. *)
Definition ks_follows (ds : list Qc) (factors : list nat) (st : rec Qc) : Prop := exists c,
  power (kattempt ex E) (n * lsum (fun f => f) factors) (seq 0 n, ds) (c, rds st) /\
  length c = n /\ coloured c /\
  (forall i, i < n -> group_of (rnet st) i = Some (colour c i)) /\
  (forall a, a < n -> exists G, nth_error (sP (r1 st)) a = Some G /\ psize G = Z.of_nat (csize c a)) /\
  sng (r1 st) = Z.of_nat (used c) /\
  tab3 K n n (sN (r1 st)) (fun k i b => Z.of_nat (given R c k i b)) /\
  tab3 K n n (sG (r1 st)) (fun k a b => Z.of_nat (between R c k a b)) /\
  rH st = E c /\
  LSHKState lnfact K (rnet st) (sP (r1 st)) = Ok (rH st).
Lemma kfollows (J : list nat -> Qc -> Prop) ds factors st c : (forall c H, J c H -> H = E c) -> ksees K R n J g st c -> power (kattempt ex E) (n * lsum (fun f => f) factors) (seq 0 n, ds) (c, rds st) -> ks_follows ds factors st.
Proof.
  intros HJ (KO & _ & Hj & S) HP. exists c. destruct (ks_len _ _ _ _ _ _ KO) as [Lc Cc]. destruct KO as [C HR _ _ _ I H7 H8 H9]. apply HJ in Hj. splits; auto.
  - intros i Hi. apply (go_group _ _ _ _ I). now rewrite nth_error_seq.
  - intros a Ha. destruct (go_nth _ _ _ _ a I) as (G & EG & _); [now rewrite seq_length|]. exists G. split; auto. eapply go_size; eauto.
  - rewrite Hj. apply (LSHKState_exact ex sq lnfact K HK R R_sym R_loop (rnet st) n); auto. now apply values_sbg.
Qed.
Theorem ks_energy ds factors : Forall good_draw ds -> ends rng_err (ks_reached ds factors) (ks_follows ds factors).
Proof.
  intros HD. unfold ks_reached. set (J := fun c H => H = (E c + 0)%Qc). destruct (kstart J ds HD) as (st & -> & HS & Hds); [unfold J; ring|]. cbn [bind].
  assert (HJ : forall c H v w, length c = n -> coloured c -> v < length c -> w < length c -> colour c v <> w -> J c H -> J (upd c v w) (nadd H (kdH K lnfact R c v w))) by (intros c H v w _ K1 Hv Hw Hne X; exact (kJ ex sq lnfact K HK R R_sym R_loop _ c H v w K1 Hv Hw Hne X)).
  pose proof (fun f => kstep_ok K HK lnfact lfsize R R_sym R_loop n Hn J g HJ f) as HM.
  assert (G : forall fs st c m, ksees K R n J g st c -> power (kattempt ex E) m (seq 0 n, ds) (c, rds st) ->
    ends rng_err (foldM (fun st f => LSMCStepKState lnfact lfsize K (InitializeTable lnfact lfsize) f st) st fs) (fun st => exists c, ksees K R n J g st c /\ power (kattempt ex E) (m + n * lsum (fun f => f) fs) (seq 0 n, ds) (c, rds st))).
  { clear st HS Hds. induction fs as [|f fs IH]; intros st c m HS HP; cbn [foldM lsum].
    - cbn [ends]. exists c. split; auto. rewrite Nat.mul_0_r, Nat.add_0_r. exact HP.
    - eapply ends_bind; [apply (HM f st c HS)|]. intros st2 (d & HS2 & HP2). rewrite Nat.mul_add_distr_l, Nat.add_assoc. apply (IH st2 d); auto. eapply power_app; [exact HP|]. eapply power_impl; [apply (kchosen_kattempt ex sq lnfact K HK R R_sym R_loop)|exact HP2]. }
  eapply ends_impl; [apply (G factors st _ 0 HS); rewrite Hds; constructor|]. intros st' (c & HS' & HP). eapply (kfollows J); eauto. intros c0 H X. unfold J in X. rewrite X. ring.
Qed.

(** * The scores *)
Lemma ktotals_kmean l ij : map (fun x => ndiv x (nofnat (length l))) (ktotals K R l ij) = kmean R K l ij.
Proof.
  unfold ktotals, kmean. rewrite map_map. apply map_ext_in. intros k Hk. apply in_seq in Hk. cbn [ndiv nofnat opsM Qc_ops]. f_equal.
  change (fold_left (fun acc s => (acc + nth k (kterms K R s ij) 0)%Qc) l 0%Qc = Qsum (kguess R K ij k) l).
  rewrite Qsum_fold. rewrite Qcplus_0_l. apply Qsum_ext. intros [c ds] _. unfold kterms, kguess, estimate. cbn [fst snd]. set (ts := betweens R c K _ _). assert (L : length ts = K) by apply betweens_len.
  destruct (nth_ex ts k) as [t Et]; [lia|]. rewrite (nth_error_nth _ _ _ (x := ndiv (nofnat (t + 1)) (nofnat (lsum (fun x => x) ts + K)))) by (now rewrite nth_error_map, Et).
  rewrite (nth_error_nth _ _ _ Et), L. reflexivity.
Qed.
Definition ks_sampled (nIter : nat) (decor : option nat) (ds : list Qc) (l : list kstate) : Prop := exists M d sB sE,
  (forall d', decor = Some d' -> d = d') /\ 100 * (n * d) <= M /\
  power (kattempt ex E) M (seq 0 n, ds) sB /\ visits (power (kattempt ex E) (n * d)) sB l sE /\ length l = nIter.
Theorem ks_scores debug nIter decor ds : Forall good_draw ds ->
  ends rng_err (LSMultiLinkScoreKState lnfact mutual decay_of lfsize K debug g nIter decor ds) (fun '(out, st) => same_but_group g (rnet st) /\ exists l, ks_sampled nIter decor ds l /\ out = map (fun ij => (ij, kmean R K l ij)) (all_pairs n)).
Proof.
  intros HD. unfold LSMultiLinkScoreKState. rewrite ks_queries_ok. cbn [bind]. set (J := fun (_ : list nat) (_ : Qc) => True).
  destruct (kstart J ds HD) as (st & -> & HS & Hds); [exact I|]. cbn [bind].
  assert (HJ : forall c H v w, length c = n -> coloured c -> v < length c -> w < length c -> colour c v <> w -> J c H -> J (upd c v w) (nadd H (kdH K lnfact R c v w))) by (intros; exact I).
  pose proof (fun f => kstep_ok K HK lnfact lfsize R R_sym R_loop n Hn J g HJ f) as HM.
  assert (IM : forall m s t, power (kchosen K lnfact R) m s t -> power (kattempt ex E) m s t) by (intros m s t; apply power_impl; intros; now apply (kchosen_kattempt ex sq lnfact K HK R R_sym R_loop)).
  apply (ends_bind rng_err _ _ (fun '(d, st') => (forall d', decor = Some d' -> d = d') /\ exists c M, ksees K R n J g st' c /\ power (kchosen K lnfact R) M (seq 0 n, ds) (c, rds st'))).
  { destruct decor as [d|].
    - cbn [ends]. split; [intros; congruence|]. exists (seq 0 n), 0. split; [exact HS|]. rewrite Hds. constructor.
    - eapply ends_impl; [exact (kdecor_ok mutual decay_of K HK lnfact lfsize R R_sym R_loop n Hn J g HJ st _ HS)|]. intros [d st'] X. split; [discriminate|]. now rewrite Hds in X. }
  intros [d st1] (Hd & c & M & HS1 & HP1).
  apply (ends_bind rng_err _ _ (fun st' => exists c M, ksees K R n J g st' c /\ power (kchosen K lnfact R) M (seq 0 n, ds) (c, rds st') /\ 100 * (n * d) <= M)).
  { unfold LSThermalizeMCKState, Thermalize. eapply ends_impl; [apply (ktherm_loop K HK R n Hn J g _ _ (HM d) _ _ _ 0 st1 c); auto; lia|]. intros st' (e & M3 & HS2 & HP2 & HM3). exists e, (M + M3 * (n * d)). splits; auto; [|nia].
    eapply power_app; [exact HP1|]. apply power_mul. exact HP2. }
  intros st2 (e & M3 & HS2 & HP2 & HM3).
  assert (HS3 : ksees K R n J g (if debug then st2 else set_H n0 st2) e) by (destruct debug; [exact HS2|]; destruct HS2 as (X1 & X2 & _ & X4); unfold ksees, set_H; cbn; splits; auto; exact I).
  set (st3 := if debug then st2 else set_H n0 st2) in *. assert (Ed : rds st3 = rds st2) by (unfold st3; destruct debug; reflexivity).
  eapply ends_bind.
  - assert (Hqs : Forall (fun q => fst q < n /\ snd q < n) (all_pairs n)) by (apply Forall_forall; intros q Hq; apply all_pairs_in in Hq; lia).
    exact (kscore_all K HK R n Hn J g _ _ (HM d) (all_pairs n) Hqs (fun _ _ _ => I) below nIter st3 e HS3).
  - intros [scores st'] (f & M4 & sB & l & HS4 & HP4 & HVs & HL & ->). cbn [ends]. split; [apply HS4|]. exists l. split.
    + exists (M3 + M4 * (n * d)), d, sB, (f, rds st'). splits; auto; [lia| |].
      * apply IM. eapply power_app; [exact HP2|]. apply power_mul. rewrite <- Ed. exact HP4.
      * eapply visits_impl; [|exact HVs]. intros s t. apply IM.
    + rewrite <- HL. assert (X : forall (qs : list (nat * nat)) (h h' : nat * nat -> list Qc), (forall q, h q = h' q) -> combine qs (map h qs) = map (fun q => (q, h' q)) qs) by (intros qs h h' Hh; induction qs as [|q qs IH]; [reflexivity|]; cbn; now rewrite IH, Hh).
      apply X. intros q. apply ktotals_kmean.
Qed.

(** * One node: there is no other group to move to. *)
Hypothesis one_node : n = 1.
Let J0 := fun (_ : list nat) (_ : Qc) => True.
Let J0_move : forall c H v w, length c = n -> coloured c -> v < length c -> w < length c -> colour c v <> w -> J0 c H -> J0 (upd c v w) (nadd H (kdH K lnfact R c v w)).
Proof. intros; exact I. Qed.
Lemma one_step f st c : ksees K R n J0 g st c -> exists e, LSMCStepKState lnfact lfsize K (InitializeTable lnfact lfsize) (S f) st = Err e.
Proof.
  intros HS. unfold LSMCStepKState. rewrite (ko_n _ _ _ _ _ _ (proj1 HS)). replace (n * S f) with (S f) by (rewrite one_node; lia). cbn [seq foldM].
  pose proof (kmove_ok K HK lnfact lfsize R R_sym R_loop n Hn J0 g J0_move st c 0 HS) as X. destruct (ks_move _ _ _ _ st 0) as [st'|e]; [|now exists e]. exfalso.
  destruct X as (c' & _ & u & ds1 & w & ds2 & acc & X). cbv zeta in X. cbn [fst snd] in X. destruct X as (_ & _ & _ & Hv & Hw & Hne & HC & _). destruct (ks_len _ _ _ _ _ _ (proj1 HS)) as [Lc _].
  pose proof (coloured_lt c _ HC Hv). lia.
Qed.
Theorem ks_single debug nIter decor ds : Forall good_draw ds -> decor <> Some 0 -> exists e, LSMultiLinkScoreKState lnfact mutual decay_of lfsize K debug g nIter decor ds = Err e /\ rng_err e.
Proof.
  intros HD H0. assert (G : exists e, LSMultiLinkScoreKState lnfact mutual decay_of lfsize K debug g nIter decor ds = Err e).
  { unfold LSMultiLinkScoreKState. rewrite ks_queries_ok. cbn [bind]. destruct (kstart J0 ds HD) as (st & -> & HS & Hds); [exact I|]. cbn [bind]. destruct decor as [[|d]|]; [congruence| |].
    - cbn [bind]. destruct (one_step d st _ HS) as [e Ee]. exists e. unfold LSThermalizeMCKState, Thermalize. rewrite Nat.add_comm. change (12 + length (rds st)) with (S (11 + length (rds st))). cbn [therm_loop2].
      change (seq 0 20) with (0 :: seq 1 19). cbn [foldM]. unfold therm_step2 at 1. cbn [fst]. rewrite Ee. reflexivity.
    - unfold LSGetDecorrelationStepKState. rewrite Nat.add_comm. change (11 + length (rds st)) with (S (10 + length (rds st))). cbn [ks_decor_reps]. unfold ks_decor_one at 1.
      pose proof HS as (KO & HDs & HJ & HB).
      destruct (j_CopyPartition_light (rnet st) (seq 0 n) (seq 0 n) (sP (r1 st)) (seq 0 n) (ko_j _ _ _ _ _ _ KO) (ko_g _ _ _ _ _ _ KO)) as (g1 & ref1 & -> & S1 & G1). cbn [bind].
      set (x2 := if _ <? 10 then _ else _). rewrite (Nat.add_comm x2 1). cbn [Nat.add seq foldM]. unfold ks_decor_step at 1.
      assert (HS' : ksees K R n J0 g (mkRec g1 (r1 st) (r2 st) (rH st) (rtab st) (rds st)) (seq 0 n)) by (unfold ksees; cbn; splits; auto; [eapply ks_other; eauto|eapply sbg_trans; eauto]).
      destruct (one_step 0 _ _ HS') as [e Ee]. exists e. rewrite Ee. reflexivity. }
  destruct G as [e Ee]. exists e. split; auto. pose proof (ks_scores debug nIter decor ds HD) as X. rewrite Ee in X. exact X.
Qed.
End Main.

(** SparseMain.v -- the prior and the scores of SparseGibbsLinkScore (src/sparse_missing.c 431-638). *)
From Coq Require Import List Arith ZArith Bool QArith Qcanon Lia.
From Verif Require Import Base Num ListLib NatSum QcSum GraphModel GraphSpec GraphProof GraphRand LinkMain GroupModel GroupSpec MatLib
  ToolsModel ModulesModel MissModel MissSpec MissStep MissExact MbModel MbStep MbRun GibbsModel GibbsSpec GibbsSets GibbsStep GibbsExact SparseModel SparseSpec SparseStep SparseRun.
From Verif Require RecSpec RolesBounds.
Import ListNotations.
Local Open Scope nat_scope.

(** The networks for which the prior has two positive parameters: neither without links nor complete.  Then a = L / (n (n - 1) - 2 L) for L links among n nodes, and b = 1/2. *)
Definition some_links {A} (g : net A) : Prop := 0 < length (edges g) /\ 2 * length (edges g) < length g * (length g - 1).
Definition prior_a {A} (g : net A) : Qc := (Qc_of_nat (length (edges g)) / Qc_of_nat (length g * (length g - 1) - 2 * length (edges g)))%Qc.
Definition prior_b : Qc := Q2Qc (1 # 2).

Section Main.
Variables ex sq : Qc -> Qc.
Hypothesis ex_pos : forall x, (0 < ex x)%Qc.
Local Instance rops : NumOps Qc := Qc_ops ex sq.
Variable lngamma : Qc -> Qc.
Variable lnfact : nat -> Qc.
Variables lgsize lfsize : nat.
Variable g : net Qc.
Hypothesis U : undirected g.
Let n := length g.
Let L := length (edges g).

Lemma nat_pos k : 0 < k -> (0 < Qc_of_nat k)%Qc.
Proof. intros H. rewrite <- Qc_of_nat_0. now apply Qc_of_nat_lt. Qed.
Lemma nat_nz k : 0 < k -> Qc_of_nat k <> 0%Qc.
Proof. intros H E. pose proof (nat_pos k H) as P. rewrite E in P. now apply Qclt_not_eq in P. Qed.
Lemma prior_pos : some_links g -> (0 < prior_a g)%Qc /\ (0 < prior_b)%Qc.
Proof. intros [H1 H2]. split; [|reflexivity]. apply MissExact.Qc_div_pos; apply nat_pos; lia. Qed.
(** The mean of the prior is the density of links. *)
Lemma prior_mean : some_links g -> (prior_a g / (prior_a g + prior_b) = Qc_of_nat (2 * L) / Qc_of_nat (n * (n - 1)))%Qc.
Proof.
  intros [H1 H2]. unfold prior_a, prior_b. fold n L. set (d := n * (n - 1) - 2 * L) in *. assert (Hd : 0 < d) by (unfold d, n, L; lia). assert (E : n * (n - 1) = 2 * L + d) by (unfold d, n, L in *; lia). rewrite E.
  rewrite Qc_of_nat_add. assert (E2 : Qc_of_nat (2 * L) = (Q2Qc 2 * Qc_of_nat L)%Qc) by (replace (2 * L) with (L + L) by lia; rewrite Qc_of_nat_add; change (Q2Qc 2) with (1 + 1)%Qc; ring). rewrite E2.
  pose proof (nat_nz d Hd) as N1. assert (N2 : (Q2Qc 2 * Qc_of_nat L + Qc_of_nat d)%Qc <> 0%Qc) by (rewrite <- E2, <- Qc_of_nat_add; apply nat_nz; lia).
  change (Q2Qc (1 # 2)) with (/ Q2Qc 2)%Qc. field. splits; auto; try discriminate.
Qed.

Lemma half_sum : Nat.div (sum_deg g) 2 = L.
Proof. rewrite (handshake g U), Nat.mul_comm, Nat.div_mul by lia. reflexivity. Qed.
Lemma prior_ok : some_links g -> exists g', sp_prior g = Ok (prior_a g, prior_b, g') /\ same_links g g'.
Proof.
  intros [H1 H2]. unfold sp_prior. destruct (TotalNLinks_spec g true (un_wf g U)) as (g' & E & HS). rewrite E. cbn [bind]. fold n. rewrite half_sum.
  fold n L in H1, H2. destruct (Nat.eqb_spec (n * (n - 1)) 0) as [K|K]; [lia|]. cbn [negb check bind].
  cbn [ndiv nmul nofQ nofnat nsub neqb n0 rops Qc_ops]. set (d := n * (n - 1) - 2 * L). assert (Hd : 0 < d) by (unfold d; lia). assert (EP : n * (n - 1) = 2 * L + d) by (unfold d; lia). rewrite EP.
  assert (E2 : Qc_of_nat (2 * L) = (Q2Qc 2 * Qc_of_nat L)%Qc) by (replace (2 * L) with (L + L) by lia; rewrite Qc_of_nat_add; change (Q2Qc 2) with (1 + 1)%Qc; ring).
  pose proof (nat_nz d Hd) as N1. assert (N2 : (Q2Qc 2 * Qc_of_nat L + Qc_of_nat d)%Qc <> 0%Qc) by (rewrite <- E2, <- Qc_of_nat_add; apply nat_nz; lia).
  assert (R : (Q2Qc (1 # 1) - Q2Qc (2 # 1) * Qc_of_nat L / Qc_of_nat (2 * L + d) = Qc_of_nat d / Qc_of_nat (2 * L + d))%Qc).
  { rewrite Qc_of_nat_add, E2. change (Q2Qc (1 # 1)) with 1%Qc. change (Q2Qc (2 # 1)) with (Q2Qc 2). field. auto. }
  rewrite R. destruct (Qc_eq_dec _ _) as [K0|_].
  { exfalso. assert (X : (0 < Qc_of_nat d / Qc_of_nat (2 * L + d))%Qc) by (apply MissExact.Qc_div_pos; apply nat_pos; lia). rewrite K0 in X. now apply Qclt_not_eq in X. }
  cbn [negb check bind]. exists g'. split; auto. do 3 f_equal. unfold prior_a, prior_b. fold n L d. rewrite Qc_of_nat_add, E2. change (Q2Qc (2 # 1)) with (Q2Qc 2). change (Q2Qc (1 # 2)) with (/ Q2Qc 2)%Qc. field. splits; auto. discriminate.
Qed.
Lemma prior_fails : n * (n - 1) = 2 * L -> sp_prior g = Err DivZero.
Proof.
  intros H. unfold sp_prior. destruct (TotalNLinks_spec g true (un_wf g U)) as (g' & E & HS). rewrite E. cbn [bind]. fold n. rewrite half_sum.
  destruct (Nat.eqb_spec (n * (n - 1)) 0) as [K|K]; [reflexivity|]. cbn [negb check bind].
  cbn [ndiv nmul nofQ nofnat nsub neqb n0 rops Qc_ops]. rewrite H.
  assert (E2 : Qc_of_nat (2 * L) = (Q2Qc 2 * Qc_of_nat L)%Qc) by (replace (2 * L) with (L + L) by lia; rewrite Qc_of_nat_add; change (Q2Qc 2) with (1 + 1)%Qc; ring).
  assert (N2 : (Q2Qc 2 * Qc_of_nat L)%Qc <> 0%Qc) by (rewrite <- E2; apply nat_nz; lia).
  rewrite E2. change (Q2Qc (2 # 1)) with (Q2Qc 2). change (Q2Qc (1 # 1)) with 1%Qc. destruct (Qc_eq_dec _ _) as [_|K0]; [reflexivity|]. destruct K0. unfold Qcdiv. rewrite Qcmult_inv_r by auto. ring.
Qed.
Lemma prior_zero : L = 0 -> 2 <= n -> exists g', sp_prior g = Ok (0%Qc, prior_b, g').
Proof.
  intros H Hn. unfold sp_prior. destruct (TotalNLinks_spec g true (un_wf g U)) as (g' & E & HS). rewrite E. cbn [bind]. fold n. rewrite half_sum. rewrite H.
  destruct (Nat.eqb_spec (n * (n - 1)) 0) as [K|K]; [nia|]. cbn [negb check bind]. cbn [ndiv nmul nofQ nofnat nsub neqb n0 rops Qc_ops].
  replace (Q2Qc (2 # 1) * Qc_of_nat 0 / Qc_of_nat (n * (n - 1)))%Qc with 0%Qc by (rewrite Qc_of_nat_0; unfold Qcdiv; ring).
  destruct (Qc_eq_dec _ _) as [K0|_]; [discriminate|]. cbn [negb check bind]. exists g'. do 3 f_equal.
Qed.

(** The measures depend on the links only. *)
Section Same.
Variable g' : net Qc.
Hypothesis HS : same_links g g'.
Lemma same_len : length g' = length g.
Proof. destruct HS as (_ & S & _). symmetry. now apply same_nodes_length. Qed.
Lemma same_linked i j : linked g' i j = linked g i j.
Proof. destruct HS as (_ & _ & _ & W). unfold linked. now rewrite W. Qed.
Lemma same_in S : links_in g' S = links_in g S.
Proof. unfold links_in, pair_count. rewrite same_len. apply lsum_ext. intros i _. apply count_ext. intros j _. now rewrite same_linked. Qed.
Lemma same_across S T : across g' S T = across g S T.
Proof. unfold across. apply lsum_ext. intros i _. apply count_ext. intros j _. apply same_linked. Qed.
Lemma same_energy a b M : sparse_energy lngamma lnfact a b g' M = sparse_energy lngamma lnfact a b g M.
Proof.
  unfold sparse_energy. rewrite same_len. f_equal. f_equal.
  - apply Qsum_ext. intros k _. cbv zeta. now rewrite same_in.
  - unfold pair_sum. apply Qsum_ext. intros i _. apply Qsum_ext. intros j _. cbv zeta. now rewrite same_across.
Qed.
Lemma same_score a b M i j : sparse_score a b g' M i j = sparse_score a b g M i j.
Proof. unfold sparse_score. cbv zeta. now rewrite same_in, same_across. Qed.
Lemma same_table M m : table_exact g' M m -> table_exact g M m.
Proof. unfold table_exact. rewrite same_len. intros H. eapply mat_ext; [exact H|]. intros i j _ _. cbv beta. now rewrite same_in, same_across. Qed.
End Same.

Notation HE := (sparse_energy lngamma lnfact (prior_a g) prior_b g).
Notation sweeps := (RecSpec.power (gsweep ex HE)).
Definition main_err (d0 : list Qc) (e : err) : Prop :=
  e = RngOut \/ e = Diverge \/ (e = UB_oob /\ ~ Forall (fun u => (0 < u)%Qc) d0) \/
  (e = UB_uninit /\ 0 < n /\ exists k t, sweeps k (alone n, d0) t /\ filled (fst t) = 1).
Theorem Sparse_any nIter ds : some_links g -> Forall unit_draw ds ->
  ends (main_err (skipn n ds)) (SparseGibbsLinkScore lngamma lnfact lgsize lfsize g nIter ds)
    (fun '(m, st) => exists rounds s1 ss, 5 <= rounds /\ sweeps (20 * rounds) (alone n, skipn n ds) s1 /\ RecSpec.visits (gsweep ex HE) s1 ss (abs (mpart st), mds st) /\ length ss = nIter /\
       (forall s, In s ss -> assigned n (fst s)) /\ assigned n (abs (mpart st)) /\ table_exact g (abs (mpart st)) (mG2G st) /\
       mH st = HE (abs (mpart st)) /\ (0 < nIter -> mat n n m (sparse_average (prior_a g) prior_b g (map fst ss)))).
Proof.
  intros HL HD. unfold SparseGibbsLinkScore. destruct (prior_ok HL) as (g' & E & HS). rewrite E. cbn [bind]. destruct (prior_pos HL) as [PA PB].
  pose proof (same_links_undirected g g' U HS) as U'. pose proof (same_len g' HS) as LN. fold n in LN.
  pose proof (sp_run_any ex sq ex_pos lngamma lnfact lgsize lfsize (prior_a g) prior_b g' U' nIter ds PA PB HD) as H. rewrite LN in H.
  assert (HEE : forall M, assigned n M -> sparse_energy lngamma lnfact (prior_a g) prior_b g' M = HE M) by (intros; now apply same_energy).
  eapply ends_weaken; [eapply ends_impl; [exact H|]|].
  - intros [m st] (rounds & s1 & ss & H1 & H2 & H3 & H4 & H5 & H6 & H7 & H8 & H9).
    destruct (power_ext ex n _ HE HEE _ _ _ H2) as [H2' A1]; [cbn [fst]; apply alone_assigned|].
    exists rounds, s1, ss. splits; auto.
    + now apply (visits_ext ex n _ HE HEE _ _ _ H3).
    + now apply (same_table g' HS).
    + rewrite H8. now apply HEE.
    + intros Hn. eapply mat_ext; [exact (H9 Hn)|]. intros i j _ _. unfold sparse_average. destruct (i =? j); auto. f_equal. apply Qsum_ext. intros M _. now apply same_score.
  - intros e [->|[->|[K|(-> & K1 & k & t & K2 & K3)]]]; unfold main_err; auto. rewrite LN in K1, K2. right; right; right. splits; auto. exists k, t. split; auto.
    apply (power_ext ex n _ HE HEE _ _ _ K2). cbn [fst]. apply alone_assigned.
Qed.
(** The other networks. *)
Theorem Sparse_fails nIter ds : 0 < lgsize -> ~ some_links g -> SparseGibbsLinkScore lngamma lnfact lgsize lfsize g nIter ds = Err DivZero.
Proof.
  intros Hs HL. pose proof (edges_bound g U) as HB. fold n L in HB. unfold SparseGibbsLinkScore.
  destruct (Nat.eq_dec (n * (n - 1)) (2 * L)) as [K|K]; [now rewrite prior_fails|].
  assert (L0 : L = 0). { destruct (Nat.eq_dec L 0); auto. destruct HL. split; fold n L; lia. }
  assert (Hn : 2 <= n) by nia. destruct (prior_zero L0 Hn) as (g' & E). rewrite E. cbn [bind]. unfold sp_run, sp_tables, InitializeFastLogGamma.
  destruct (Nat.eqb_spec lgsize 0) as [|_]; [lia|]. reflexivity.
Qed.
End Main.

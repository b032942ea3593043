(** RecScore.v -- the scores of src/recommend.c: averages over the samples of the Metropolis algorithm. *)
From Coq Require Import List Arith ZArith Bool QArith Qcanon Lia.
From Verif Require Import Base Num ListLib NatSum QcSum MatLib GraphModel GraphSpec GraphProof GroupModel GroupSpec GroupProof NetModel ToolsModel ToolsProof ModulesModel SAProof
  BipartModel BipartSpec BipartRen BipartCopy MissModel MissSpec MissStep MissRun RecModel RecSpec RecSets RecMem RecLinks RecStep RecSetup RecRun RecExact RecEnergy RecClean.
Import ListNotations.
Local Open Scope nat_scope.

Lemma power_impl {S} (P Q : S -> S -> Prop) n s t : (forall s t, P s t -> Q s t) -> power P n s t -> power Q n s t.
Proof. intros H. induction 1; econstructor; eauto. Qed.
Lemma visits_impl {S} (P Q : S -> S -> Prop) s l t : (forall s t, P s t -> Q s t) -> visits P s l t -> visits Q s l t.
Proof. intros H. induction 1; econstructor; eauto. Qed.

Section Score.
Variables ex sq : Qc -> Qc.
Local Instance opsS : NumOps Qc := Qc_ops ex sq.
Implicit Types g : net Qc.

Lemma pair_ext K g s1 s2 R R' c1 c2 me oth : (forall k i j, R k i j = R' k i j) -> pair_ok K g s1 s2 R c1 c2 me oth -> pair_ok K g s1 s2 R' c1 c2 me oth.
Proof.
  intros H [C HR M O]. split; auto.
  - intros k i j. now rewrite <- H.
  - destruct M. split; auto; eapply tab3_ext; eauto; intros; cbn beta; f_equal; [apply given_ext|apply tally_ext]; auto.
  - destruct O. split; auto; eapply tab3_ext; eauto; intros; cbn beta; f_equal; [apply given_ext|apply tally_ext]; unfold flip; auto.
Qed.

(** The means. *)
Definition est (R : nat -> nat -> nat -> bool) (K : nat) (ij : nat * nat) (k : nat) (s : rstate Qc) : Qc :=
  let '(c1, c2, _) := s in estimate (tallies R K c1 c2 (colour c1 (fst ij)) (colour c2 (snd ij))) k.
Definition means (R : nat -> nat -> nat -> bool) (K : nat) (samples : list (rstate Qc)) (ij : nat * nat) : list Qc :=
  map (fun k => (Qsum (est R K ij k) samples / Qc_of_nat (length samples))%Qc) (seq 0 K).
Lemma totals_means R K l ij : map (fun x => ndiv x (nofnat (length l))) (totals K R l ij) = means R K l ij.
Proof.
  unfold totals, means. rewrite map_map. apply map_ext_in. intros k Hk. apply in_seq in Hk. cbn [ndiv nofnat opsS Qc_ops]. f_equal.
  change (fold_left (fun acc s => (acc + nth k (gterms K R s ij) 0)%Qc) l 0%Qc = Qsum (est R K ij k) l).
  rewrite Qsum_fold. rewrite Qcplus_0_l. apply Qsum_ext. intros [[c1 c2] ds] _. unfold gterms, est, estimate. set (ts := tallies R K c1 c2 _ _). assert (L : length ts = K) by apply tallies_length.
  destruct (nth_ex ts k) as [t Et]; [lia|]. rewrite (nth_error_nth _ _ _ (x := ndiv (nofnat (t + 1)) (nofnat (lsum (fun x => x) ts + K)))) by (now rewrite nth_error_map, Et).
  rewrite (nth_error_nth _ _ _ Et), L. reflexivity.
Qed.

Variable logf : nat -> Qc.
Variable lnchoose : nat -> nat -> Qc.
Variable lnfact : nat -> Qc.
Variable mutual : gpart Qc -> gpart Qc -> Qc.
Variable decay_of : nat -> nat -> Qc -> nat -> Qc -> Qc.
Variables llsize lcsize lfsize : nat.
Variable K : nat.
Hypothesis HK : 0 < K.

(** * Any sampler *)
Section Any.
Variable charge : list Qc -> list Qc -> bool -> Qc * list (list Qc) -> list Z -> res (Qc * list (list Qc)).
Variable energy : net Qc -> gpart Qc -> gpart Qc -> res Qc.
Variable cost : list nat -> Qc.
Variable tabok : list (list Qc) -> Prop.
Let ch := charge (InitializeTable logf llsize) (InitializeTable lnfact lfsize).
Hypothesis charge_ok : forall s d tab cs, tabok tab -> length cs = K -> exists tab', ch s (d, tab) (map Z.of_nat cs) = Ok (schg cost s d cs, tab') /\ tabok tab'.
Hypothesis tab0 : tabok (InitializeFastLogChoose lcsize).
Hypothesis energy_ok : forall g s1 s2 c1 c2 P1 P2, crossed g s1 s2 -> groups_of g s1 P1 c1 -> groups_of g s2 P2 c2 -> ranged g s1 s2 K -> energy g P1 P2 = Ok (renergy lnfact K cost (ratings g s1 s2) c1 c2).

Notation sees := (sees K tabok).
Notation rel R := (gmoved (ops := opsS) K lnfact (schg cost) R).

Lemma start_ok c tab ds (J : list nat -> list nat -> Qc -> Prop) (gd : Qc -> Prop) R : bipartite c -> in_range K c -> tabok tab -> Forall gd ds -> (forall k i j, ratings (bmem c) (bset1 c) (bset2 c) k i j = R k i j) ->
  let c1 := seq 0 (length (bset1 c)) in let c2 := seq 0 (length (bset2 c)) in
  J c1 c2 (renergy lnfact K cost R c1 c2) ->
  exists st, rec_setup K energy tab c ds = Ok st /\ sees (bset1 c) (bset2 c) R J gd (bmem c) st c1 c2 /\ rds st = ds.
Proof.
  intros B HI HT HG HR c1 c2 HJ. destruct (rec_setup_ok K energy tab c ds B) as (g & a1 & a2 & E & S & PO).
  assert (EH : energy g (sP a1) (sP a2) = Ok (renergy lnfact K cost R c1 c2)).
  { rewrite (energy_ok g (bset1 c) (bset2 c) c1 c2); [|apply PO|apply PO|apply PO|].
    - f_equal. unfold renergy. f_equal. f_equal. apply Qsum_ext. intros a _. apply Qsum_ext. intros b _. f_equal. unfold tallies. apply map_ext. intros k. apply tally_ext. intros k' i j. rewrite <- HR. apply ratings_sbg. exact S.
    - intros p q w _ _ Hw. rewrite (sbg_weight _ _ p q S) in Hw. eapply HI; eauto. }
  rewrite E, EH. cbn [bind]. eexists. split; [reflexivity|]. split; [|reflexivity]. unfold RecRun.sees. cbn. splits; auto. eapply pair_ext; eauto.
Qed.

Lemma run_as_given_ok (zero : bool) c qs' pos R nIter decor ds : bipartite c -> in_range K c -> 0 < length (bset1 c) -> 0 < length (bset2 c) -> Forall2 (located (bset1 c) (bset2 c)) qs' pos -> Forall good_draw ds ->
  (forall k i j, ratings (bmem c) (bset1 c) (bset2 c) k i j = R k i j) ->
  let E := renergy lnfact K cost R in let n := length (bset1 c) in let m := length (bset2 c) in
  ends rng_err (run_as_given logf lnfact mutual decay_of llsize lcsize lfsize K charge energy zero c qs' nIter decor ds) (fun '(scores, _) => exists M d sB sE l,
    (forall d', decor = Some d' -> d = d') /\ power (rattempt ex E) M (seq 0 n, seq 0 m, ds) sB /\ visits (power (rattempt ex E) ((n + m) * d)) sB l sE /\ length l = nIter /\ scores = map (means R K l) pos).
Proof.
  intros Bc HIc M1 M2 HQ' HD HR E n m. unfold run_as_given. fold ch.
  set (J := fun (_ _ : list nat) (_ : Qc) => True). destruct (start_ok c (InitializeFastLogChoose lcsize) ds J good_draw R Bc HIc tab0 HD HR I) as (st & -> & HS & Hds). cbn [bind].
  assert (J1 : forall c1 c2 H v w, length c1 = length (bset1 c) -> length c2 = length (bset2 c) -> coloured c1 -> coloured c2 -> v < length c1 -> w < length c1 -> colour c1 v <> w -> J c1 c2 H -> J (upd c1 v w) c2 (nadd H (dH_of K lnfact (schg cost) R c1 c2 v w))) by (intros; exact I).
  assert (J2 : forall c1 c2 H v w, length c1 = length (bset1 c) -> length c2 = length (bset2 c) -> coloured c1 -> coloured c2 -> v < length c2 -> w < length c2 -> colour c2 v <> w -> J c1 c2 H -> J c1 (upd c2 v w) (nadd H (dH_of K lnfact (schg cost) (flip R) c2 c1 v w))) by (intros; exact I).
  pose proof (fun f => MCStep_ok K lnfact lfsize ch (schg cost) tabok charge_ok (bset1 c) (bset2 c) R M1 M2 J good_draw (bmem c) (fun u H => H) (fun u H => H) J1 J2 f) as HM.
  set (Q := power (rel R)).
  apply (ends_bind rng_err _ _ (fun '(d, st') => (forall d', decor = Some d' -> d = d') /\ exists c1 c2 M, sees (bset1 c) (bset2 c) R J good_draw (bmem c) st' c1 c2 /\ Q M (seq 0 n, seq 0 m, ds) (c1, c2, rds st'))).
  { destruct decor as [d|].
    - cbn [ends]. split; [intros; congruence|]. exists (seq 0 n), (seq 0 m), 0. split; [exact HS|]. rewrite Hds. constructor.
    - eapply ends_impl; [exact (decor_ok mutual decay_of K lnfact lfsize ch (schg cost) tabok charge_ok (bset1 c) (bset2 c) R M1 M2 J good_draw (bmem c) (fun u H => H) (fun u H => H) J1 J2 st _ _ HS)|].
      intros [d st'] X. split; [discriminate|]. now rewrite Hds in X. }
  intros [d st1] (Hd & c1 & c2 & M & HS1 & HP1).
  apply (ends_bind rng_err _ _ (fun st' => exists c1 c2 M, sees (bset1 c) (bset2 c) R J good_draw (bmem c) st' c1 c2 /\ Q M (seq 0 n, seq 0 m, ds) (c1, c2, rds st'))).
  { eapply ends_impl; [apply (thermalize_ok K tabok (bset1 c) (bset2 c) R M1 M2 J good_draw (bmem c) _ _ (HM d) st1 c1 c2 HS1)|]. intros st' (e1 & e2 & M3 & HS2 & HP2). exists e1, e2, (M + M3 * ((length (bset1 c) + length (bset2 c)) * d)). split; auto.
    eapply power_app; [exact HP1|]. apply power_mul. exact HP2. }
  intros st2 (e1 & e2 & M3 & HS2 & HP2).
  assert (HS3 : sees (bset1 c) (bset2 c) R J good_draw (bmem c) (if zero then set_H n0 st2 else st2) e1 e2) by (destruct zero; [|exact HS2]; destruct HS2 as (X1 & X2 & X3 & _ & X5); unfold RecRun.sees, set_H; cbn; splits; auto; exact I).
  set (st3 := if zero then set_H n0 st2 else st2) in *. assert (Ed : rds st3 = rds st2) by (unfold st3; destruct zero; reflexivity).
  eapply ends_impl; [apply (score_all_ok K tabok (bset1 c) (bset2 c) R M1 M2 J good_draw (bmem c) _ _ (HM d) qs' pos HQ' below true (fun _ _ _ _ _ => I) nIter st3 e1 e2 HS3)|].
  intros [scores st'] (f1 & f2 & M4 & sB & l & HS4 & HP4 & HV & HL & ->).
  exists (M3 + M4 * ((n + m) * d)), d, sB, (f1, f2, rds st'), l. splits; auto.
  - apply (power_impl (rel R)); [apply gmoved_rattempt|]. eapply power_app; [exact HP2|]. apply power_mul. rewrite <- Ed. exact HP4.
  - eapply visits_impl; [|exact HV]. intros s t. apply power_impl. apply gmoved_rattempt.
  - rewrite <- HL. apply map_ext. intros ij. apply totals_means.
Qed.

Lemma run_mc_ok (zero : bool) b qs pos nIter decor ds : bipartite b -> distinct (bmem b) (bset1 b) -> distinct (bmem b) (bset2 b) -> labels_fit (bmem b) -> in_range K b ->
  0 < length (bset1 b) -> 0 < length (bset2 b) -> Forall2 (located (bset1 b) (bset2 b)) qs pos -> Forall good_draw ds ->
  let R := hide pos (ratings (bmem b) (bset1 b) (bset2 b)) in let E := renergy lnfact K cost R in let n := length (bset1 b) in let m := length (bset2 b) in
  ends rng_err (run_mc logf lnfact mutual decay_of llsize lcsize lfsize K charge energy zero b qs nIter decor ds) (fun '(scores, _) => exists M d sB sE l,
    (forall d', decor = Some d' -> d = d') /\ power (rattempt ex E) M (seq 0 n, seq 0 m, ds) sB /\ visits (power (rattempt ex E) ((n + m) * d)) sB l sE /\ length l = nIter /\ scores = map (means R K l) pos).
Proof.
  intros B D1 D2 Fit HI N1 N2 HQ HD R E n m. unfold run_mc. destruct (clean_ratings_ok b qs pos B D1 D2 Fit HQ) as (c & qs' & -> & CL & HQ'). cbn [bind].
  assert (HR : forall k i j, ratings (bmem c) (bset1 c) (bset2 c) k i j = R k i j) by (intros; now apply cleaned_ratings).
  assert (HIc : in_range K c).
  { intros x y w Hw. pose proof (cl_bi _ _ _ CL) as Bc. assert (Hn : In y (nbrs (bmem c) x)) by (apply nbrs_weight; congruence).
    assert (X : forall p q, In p (bset1 c) -> In q (bset2 c) -> weight (bmem c) p q = Some w -> exists k, k < K /\ w = Qc_of_nat k).
    { intros p q Hp Hq Hpq. apply In_nth_error in Hp as [i Ei]. apply In_nth_error in Hq as [j Ej].
      destruct (nth_ex (bset1 b) i) as [p' Ep']; [rewrite <- (cl_len1 _ _ _ CL); eapply nth_lt; eauto|]. destruct (nth_ex (bset2 b) j) as [q' Eq']; [rewrite <- (cl_len2 _ _ _ CL); eapply nth_lt; eauto|].
      rewrite (cl_weight _ _ _ CL i j p' q' p q Ep' Ei Eq' Ej) in Hpq. destruct (asked pos i j); [discriminate|]. eapply HI; eauto. }
    destruct (bi_cross c Bc x y Hn) as [[H1 H2]|[H1 H2]]; [eauto|]. rewrite (bi_sym c Bc) in Hw. eauto. }
  assert (L1 : length (bset1 c) = n) by apply CL. assert (L2 : length (bset2 c) = m) by apply CL.
  pose proof (run_as_given_ok zero c qs' pos R nIter decor ds (cl_bi _ _ _ CL) HIc ltac:(lia) ltac:(lia) HQ' HD HR) as X. cbv zeta in X. rewrite L1, L2 in X. exact X.
Qed.

(** The states reached by the set-up and any steps. *)
Definition rreached (b : binet Qc) (ds : list Qc) (factors : list nat) : res (rec Qc) :=
  do st <- rec_setup K energy (InitializeFastLogChoose lcsize) b ds;
  foldM (fun st f => MCStep lnfact lfsize K (InitializeTable lnfact lfsize) ch f st) st factors.
Lemma rreached_ok b ds factors : bipartite b -> in_range K b -> 0 < length (bset1 b) -> 0 < length (bset2 b) -> Forall good_draw ds ->
  let R := ratings (bmem b) (bset1 b) (bset2 b) in
  ends rng_err (rreached b ds factors) (fun st => exists c1 c2, sees (bset1 b) (bset2 b) R (fun c1 c2 H => H = (renergy lnfact K cost R c1 c2 + 0)%Qc) good_draw (bmem b) st c1 c2 /\
    power (rattempt ex (renergy lnfact K cost R)) ((length (bset1 b) + length (bset2 b)) * lsum (fun f => f) factors) (seq 0 (length (bset1 b)), seq 0 (length (bset2 b)), ds) (c1, c2, rds st)).
Proof.
  intros B HI N1 N2 HD R. unfold rreached. set (J := fun c1 c2 H => H = (renergy lnfact K cost R c1 c2 + 0)%Qc).
  destruct (start_ok b (InitializeFastLogChoose lcsize) ds J good_draw R B HI tab0 HD (fun _ _ _ => eq_refl)) as (st & -> & HS & Hds); [unfold J; ring|]. cbn [bind].
  assert (J1 : forall c1 c2 H v w, length c1 = length (bset1 b) -> length c2 = length (bset2 b) -> coloured c1 -> coloured c2 -> v < length c1 -> w < length c1 -> colour c1 v <> w -> J c1 c2 H -> J (upd c1 v w) c2 (nadd H (dH_of K lnfact (schg cost) R c1 c2 v w))).
  { intros c1 c2 H v w _ _ K1 _ Hv Hw Hne HJ. exact (J1 ex sq lnfact K cost R _ c1 c2 H v w K1 Hv Hw Hne HJ). }
  assert (J2 : forall c1 c2 H v w, length c1 = length (bset1 b) -> length c2 = length (bset2 b) -> coloured c1 -> coloured c2 -> v < length c2 -> w < length c2 -> colour c2 v <> w -> J c1 c2 H -> J c1 (upd c2 v w) (nadd H (dH_of K lnfact (schg cost) (flip R) c2 c1 v w))).
  { intros c1 c2 H v w _ _ _ K2 Hv Hw Hne HJ. exact (J2 ex sq lnfact K cost R _ c1 c2 H v w K2 Hv Hw Hne HJ). }
  pose proof (fun f => MCStep_ok K lnfact lfsize ch (schg cost) tabok charge_ok (bset1 b) (bset2 b) R N1 N2 J good_draw (bmem b) (fun u H => H) (fun u H => H) J1 J2 f) as HM.
  set (s0 := (seq 0 (length (bset1 b)), seq 0 (length (bset2 b)), ds)).
  assert (G : forall fs st c1 c2 n, sees (bset1 b) (bset2 b) R J good_draw (bmem b) st c1 c2 -> power (rattempt ex (renergy lnfact K cost R)) n s0 (c1, c2, rds st) ->
    ends rng_err (foldM (fun st f => MCStep lnfact lfsize K (InitializeTable lnfact lfsize) ch f st) st fs) (fun st => exists c1 c2, sees (bset1 b) (bset2 b) R J good_draw (bmem b) st c1 c2 /\
      power (rattempt ex (renergy lnfact K cost R)) (n + (length (bset1 b) + length (bset2 b)) * lsum (fun f => f) fs) s0 (c1, c2, rds st))).
  { induction fs as [|f fs IH]; intros st1 c1 c2 n HS1 HP; cbn [foldM lsum].
    - cbn [ends]. exists c1, c2. split; auto. rewrite Nat.mul_0_r, Nat.add_0_r. exact HP.
    - eapply ends_bind; [apply (HM f st1 c1 c2 HS1)|]. intros st2 (d1 & d2 & HS2 & HP2). rewrite Nat.mul_add_distr_l, Nat.add_assoc. apply (IH st2 d1 d2); auto. eapply power_app; [exact HP|]. eapply power_impl; [apply gmoved_rattempt|exact HP2]. }
  apply (G factors st _ _ 0 HS). rewrite Hds. constructor.
Qed.
End Any.
End Score.

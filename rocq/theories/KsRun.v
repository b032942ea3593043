(** KsRun.v -- set-up, Monte Carlo steps, decorrelation, thermalisation and sampling of the K-state sampler of src/missing.c, in any
    arithmetic. *)
From Coq Require Import List Arith ZArith Bool QArith Lia.
From Verif Require Import Base Num ListLib NatSum MatLib GraphModel GraphSpec GraphProof GroupModel GroupSpec GroupProof NetModel NetCopy ToolsModel ToolsProof ModulesModel SAProof
  MissModel MissSpec MissStep MissRun RecModel RecSpec RecSets RecMem RecLinks RecStep RecSetup RecRun KsModel KsSpec KsLinks KsStep.
Import ListNotations.
Local Open Scope nat_scope.

Section Setup.
Context {A : Type} {ops : NumOps A}.
Implicit Types (g : net A) (P : gpart A).
Lemma undirected_joined g : undirected g -> joined g (seq 0 (length g)) (seq 0 (length g)).
Proof.
  intros [W L S]. assert (H : half g (seq 0 (length g)) (seq 0 (length g))); [|split; exact H]. split.
  - apply seq_NoDup.
  - intros i p E. assert (Hi : i < length g) by (apply nth_lt in E; now rewrite seq_length in E). rewrite nth_error_seq in E by auto. injection E as <-. cbn [Nat.add]. destruct (nth_ex g i Hi) as [n En]. exists n. split; auto. eapply wf_num; eauto.
  - intros p n l _ En Hl. destruct (wf_link _ W p n l En Hl) as (q & m & Eq & Hq & _). exists q. split; auto. apply in_seq. apply nth_lt in Hq. lia.
  - intros p _. apply (wf_nodup _ W).
Qed.
Lemma weight_out g i j : length g <= i -> weight g i j = None.
Proof. intros H. unfold weight. now rewrite (proj2 (nth_error_None g i) H). Qed.
Lemma valued_ratings g k i j : undirected g -> ratings g (seq 0 (length g)) (seq 0 (length g)) k i j = valued g k i j.
Proof.
  intros U. unfold ratings, valued. destruct (Nat.lt_ge_cases i (length g)) as [Hi|Hi].
  - rewrite nth_error_seq by auto. destruct (Nat.lt_ge_cases j (length g)) as [Hj|Hj]; [rewrite nth_error_seq by auto; reflexivity|].
    rewrite (proj2 (nth_error_None _ j)) by (now rewrite seq_length). rewrite (un_sym _ U i j), weight_out by auto. reflexivity.
  - rewrite (proj2 (nth_error_None _ i)) by (now rewrite seq_length). now rewrite weight_out.
Qed.
Lemma valued_sym g k i j : undirected g -> valued g k i j = valued g k j i.
Proof. intros U. unfold valued. now rewrite (un_sym _ U i j). Qed.
Lemma valued_loop g k i : undirected g -> valued g k i i = false.
Proof. intros U. unfold valued. destruct (weight g i i) as [w|] eqn:E; auto. exfalso. apply (un_loop _ U i). apply nbrs_weight. congruence. Qed.

(** The tables. *)
Lemma ks_fill_ok K n (f : nat -> nat -> nat -> res nat) F : (forall k i j, k < K -> i < n -> j < n -> f k i j = Ok (F k i j)) -> (forall k i j, F k i j = F k j i) ->
  exists T, ks_fill K n f = Ok T /\ tab3 K n n T (fun k i j => Z.of_nat (F k i j)).
Proof.
  intros H HS. unfold ks_fill.
  set (body := fun k => foldM (fun M i => foldM (fun M j => do x <- f k i j; do M <- set2 M j i (Z.of_nat x); set2 M i j (Z.of_nat x)) M (seq 0 n)) (repeat (repeat 0%Z n) n) (seq 0 n)).
  assert (Hk : forall k, k < K -> exists M, body k = Ok M /\ mat n n M (fun i j => Z.of_nat (F k i j))).
  { intros k Hk. unfold body.
    destruct (foldM_seq (fun q M => mat n n M (fun a b => if (a <? q) || (b <? q) then Z.of_nat (F k a b) else 0%Z)) (fun M i => foldM (fun M j => do x <- f k i j; do M <- set2 M j i (Z.of_nat x); set2 M i j (Z.of_nat x)) M (seq 0 n)) n (repeat (repeat 0%Z n) n)) as (M & E & HM).
    - apply (mat_ext _ _ _ (fun _ _ => 0%Z)); [apply mat_repeat|]. intros a b _ _. reflexivity.
    - intros i M Hi HM.
      destruct (foldM_seq (fun r M => mat n n M (fun a b => if ((a <? i) || (b <? i)) || (((a =? i) && (b <? r)) || ((b =? i) && (a <? r))) then Z.of_nat (F k a b) else 0%Z)) (fun M j => do x <- f k i j; do M <- set2 M j i (Z.of_nat x); set2 M i j (Z.of_nat x)) n M) as (M' & E' & HM').
      + eapply mat_ext; [exact HM|]. intros a b _ _. cbv beta. cbn [Nat.ltb Nat.leb]. rewrite !andb_false_r. cbn [orb]. now rewrite orb_false_r.
      + intros j M1 Hj HM1. rewrite H by auto. cbn [bind]. destruct (mat_set _ _ _ _ j i (Z.of_nat (F k i j)) HM1 Hj Hi) as (M2 & -> & HM2). cbn [bind]. destruct (mat_set _ _ _ _ i j (Z.of_nat (F k i j)) HM2 Hi Hj) as (M3 & -> & HM3).
        exists M3. split; auto. eapply mat_ext; [exact HM3|]. intros a b _ _. unfold fupd2. pose proof (HS k i j) as Q.
        destruct (Nat.eqb_spec a i) as [Ea|Ea], (Nat.eqb_spec b j) as [Eb|Eb], (Nat.eqb_spec a j) as [Ea'|Ea'], (Nat.eqb_spec b i) as [Eb'|Eb'], (Nat.ltb_spec a i), (Nat.ltb_spec b i), (Nat.ltb_spec a j), (Nat.ltb_spec b j), (Nat.ltb_spec b (j + 1)), (Nat.ltb_spec a (j + 1)); cbn [andb orb]; try reflexivity; try (exfalso; lia); subst; congruence.
      + exists M'. split; auto. eapply mat_ext; [exact HM'|]. intros a b Ha Hb. cbv beta. rewrite (proj2 (Nat.ltb_lt a n) Ha), (proj2 (Nat.ltb_lt b n) Hb), !andb_true_r.
        destruct (Nat.eqb_spec a i), (Nat.eqb_spec b i), (Nat.ltb_spec a i), (Nat.ltb_spec b i), (Nat.ltb_spec a (i + 1)), (Nat.ltb_spec b (i + 1)); cbn [orb]; auto; lia.
    - exists M. split; auto. eapply mat_ext; [exact HM|]. intros a b Ha Hb. cbv beta. now rewrite (proj2 (Nat.ltb_lt a n) Ha). }
  assert (E : forall l, (forall k, In k l -> k < K) -> exists T, mapM body l = Ok T /\ Forall2 (fun k M => mat n n M (fun i j => Z.of_nat (F k i j))) l T).
  { induction l as [|k l IH]; intros Hl; [exists []; split; [reflexivity|constructor]|]. destruct (Hk k) as (M & EM & HM); [simpl in Hl; auto|]. destruct IH as (T & ET & HT); [simpl in Hl; auto|].
    exists (M :: T). split; [|constructor; auto]. cbn [mapM]. rewrite EM. cbn [bind]. rewrite ET. reflexivity. }
  destruct (E (seq 0 K)) as (T & ET & HT); [intros k Hin; apply in_seq in Hin; lia|]. exists T. split; [exact ET|]. split; [rewrite <- (F2_length _ _ _ HT); apply seq_length|].
  intros k Hk'. destruct (nth_ex T k) as [M EM]; [rewrite <- (F2_length _ _ _ HT), seq_length; auto|]. exists M. split; auto.
  assert (Ek : nth_error (seq 0 K) k = Some k) by (now rewrite nth_error_seq). exact (F2_at _ _ _ HT k k M Ek EM).
Qed.
Lemma NWeight_halved g n P c R a b k : joined g (seq 0 n) (seq 0 n) -> groups_of g (seq 0 n) P c -> (forall k i j, R k i j = ratings g (seq 0 n) (seq 0 n) k i j) -> (forall k i j, R k i j = R k j i) -> (forall k i, R k i i = false) -> a < n -> b < n ->
  NWeightG2G g P a b (nofnat k) = Ok (between R c k a b).
Proof.
  intros J I HR Rs Rl Ha Hb. unfold NWeightG2G. destruct (go_nth _ _ _ _ a I) as (Ga & EGa & _); [now rewrite seq_length|]. destruct (go_nth _ _ _ _ b I) as (Gb & EGb & _); [now rewrite seq_length|].
  rewrite (get_ok _ _ _ EGa), (get_ok _ _ _ EGb). cbn [bind]. rewrite (j_NWeightG2G_ok g (seq 0 n) (seq 0 n) P c P c a b Ga Gb k J I I EGa EGb). cbn [bind]. f_equal. rewrite <- (halved R Rs Rl). rewrite (tally_ext R (ratings g (seq 0 n) (seq 0 n))) by auto. reflexivity.
Qed.
Theorem ks_setup_ok K lnfact g ds : undirected g -> let n := length g in let R := valued g in exists g' me,
  ks_setup lnfact K g ds = (do H <- LSHKState lnfact K g' (sP me); Ok (mkRec g' me (mkSide 0 [] [] [] 0%Z [] []) H [] ds)) /\ same_but_group g g' /\ ks_ok K R n g' (seq 0 n) me.
Proof.
  intros U n R. pose proof (undirected_joined g U) as J. fold n in J. unfold ks_setup. fold n.
  rewrite (map_side_ok g (seq 0 n) (seq 0 n) (jn_l _ _ _ J)). cbn [bind]. rewrite seq_length.
  assert (HL : forall p, In p (seq 0 n) -> p < length g) by (intros p Hp; apply in_seq in Hp; unfold n in Hp; lia).
  destruct (reset_side_ok (seq 0 n) g HL) as (g1 & -> & S1 & _). cbn [bind]. assert (J1 : joined g1 (seq 0 n) (seq 0 n)) by (eapply joined_sbg; eauto).
  pose proof (j_place_side_ok g1 (seq 0 n) (seq 0 n) J1) as X. rewrite seq_length in X. destruct X as (g2 & P & E & I & S2 & _).
  match goal with |- context [place_side ?x ?y ?z] => replace (place_side x y z) with (Ok (g2, P)) by (symmetry; exact E) end. cbn [bind].
  assert (J2 : joined g2 (seq 0 n) (seq 0 n)) by (eapply joined_sbg; eauto). assert (S : same_but_group g g2) by (eapply sbg_trans; eauto).
  assert (HR : forall k i j, R k i j = ratings g2 (seq 0 n) (seq 0 n) k i j) by (intros k i j; unfold R; rewrite <- (valued_ratings g k i j U); symmetry; apply ratings_sbg; exact S).
  assert (Rs : forall k i j, R k i j = R k j i) by (intros; now apply valued_sym). assert (Rl : forall k i, R k i i = false) by (intros; now apply valued_loop).
  destruct (ks_fill_ok K n (fun k i j => do a <- get (map Some (seq 0 n)) i; do b <- get (map Some (seq 0 n)) j; do a <- deref a; do b <- deref b; NWeightG2G g2 P a b (nofnat k)) (between R (seq 0 n))) as (T & -> & HT).
  { intros k i j _ Hi Hj. rewrite (get_some (seq 0 n) i i), (get_some (seq 0 n) j j) by (now rewrite nth_error_seq). cbn [bind deref]. now apply (NWeight_halved g2 n P (seq 0 n) R). }
  { intros; apply between_sym. }
  cbn [bind].
  destruct (fill_tables_ok K n n (fun k i j => do p <- ptr_node (map Some (seq 0 n)) i; do G <- ptr_group (map Some (seq 0 n)) P j; NWeightLinksToGroup g2 p (plabel G) (nofnat k)) (fun k i j => given R (seq 0 n) k i j)) as (N & -> & HN).
  { intros k i j _ Hi Hj. unfold ptr_node. rewrite (get_some (seq 0 n) i i) by (now rewrite nth_error_seq). cbn [deref bind]. destruct (go_nth _ _ _ _ j I) as (Gj & EGj & Lj); [now rewrite seq_length|].
    pose proof (ptr_group_ok _ _ _ _ _ _ I EGj) as EP. rewrite seq_length in EP. rewrite EP. cbn [bind]. rewrite Lj. rewrite (j_NWeight_ok g2 (seq 0 n) (seq 0 n) P (seq 0 n) j i i k J2 I) by (now rewrite nth_error_seq). f_equal. apply given_ext. intros; symmetry; apply HR. }
  cbn [bind]. exists g2, (mkSide n (map Some (seq 0 n)) (map Some (seq 0 n)) P (Z.of_nat (NNonEmptyGroups P)) N T). cbn [sP]. split; [reflexivity|]. split; [exact S|].
  split; cbn [sn snl sgl sP sng sN sG]; auto. now rewrite (nonempty_used _ _ _ _ I).
Qed.
(** The queries. *)
Definition all_pairs (n : nat) : list (nat * nat) := flat_map (fun p => map (fun q => (p, q)) (seq (p + 1) (n - (p + 1)))) (seq 0 n).
Lemma ks_queries_ok n : ks_queries n = Ok (all_pairs n).
Proof.
  unfold ks_queries. fold (all_pairs n).
  assert (L : length (all_pairs n) * 2 = n * (n - 1)).
  { assert (G : forall m, m <= n -> length (flat_map (fun p => map (fun q => (p, q)) (seq (p + 1) (n - (p + 1)))) (seq 0 m)) * 2 + (n - m) * (n - m) = n * n - m + (if m =? 0 then 0 else 0)).
    { induction m as [|m IH]; intros Hm; [simpl; rewrite !Nat.sub_0_r; lia|]. rewrite seq_S, flat_map_app, app_length. cbn [flat_map Nat.add]. rewrite app_nil_r, map_length, seq_length. specialize (IH ltac:(lia)).
      destruct (m =? 0); cbn [Nat.eqb]; assert (X : n - m = S (n - S m)) by lia; rewrite X in IH; replace (m + 1) with (S m) by lia; nia. }
    specialize (G n (le_n _)). rewrite Nat.sub_diag in G. unfold all_pairs. destruct (n =? 0); nia. }
  rewrite (proj2 (Nat.leb_le _ _)); [reflexivity|]. rewrite <- L, Nat.div_mul; lia.
Qed.
End Setup.

Section Run.
Context {A : Type} {ops : NumOps A}.
Variable mutual : gpart A -> gpart A -> A.
Variable decay_of : nat -> nat -> A -> nat -> A -> A.
Variable K : nat.
Hypothesis HK : 0 < K.
Variable lnfact : nat -> A.
Variable lfsize : nat.
Let tabf := InitializeTable lnfact lfsize.
Variable R : nat -> nat -> nat -> bool.
Hypothesis R_sym : forall k i j, R k i j = R k j i.
Hypothesis R_loop : forall k i, R k i i = false.
Variable n : nat.
Hypothesis Hn : 0 < n.
Notation s := (seq 0 n).
Notation kdH := (kdH K lnfact R).
(** What else is known about the colouring and the energy. *)
Variable J : list nat -> A -> Prop.
Variable g0 : net A.
Definition gst : Type := (list nat * list A)%type.
Definition ksees (st : rec A) (c : list nat) : Prop :=
  ks_ok K R n (rnet st) c (r1 st) /\ Forall good_draw (rds st) /\ J c (rH st) /\ same_but_group g0 (rnet st).

(** * Any step *)
Section Walk.
Variable Q : gst -> gst -> Prop.
Variable step : rec A -> res (rec A).
Definition kfine : Prop := forall st c, ksees st c -> ends rng_err (step st) (fun st' => exists c', ksees st' c' /\ Q (c, rds st) (c', rds st')).
Hypothesis step_ok : kfine.
Lemma ktherm_loop fuel : forall m0 s0 eq st c, eq < 5 -> ksees st c ->
  ends rng_err (therm_loop2 fuel step m0 s0 eq st) (fun st' => exists c' M, ksees st' c' /\ power Q M (c, rds st) (c', rds st') /\ 20 * (5 - eq) <= M).
Proof.
  induction fuel as [|f IH]; intros m0 s0 eq st c Heq HS; [right; reflexivity|]. cbn [therm_loop2].
  apply (ends_bind rng_err _ _ (fun '(st', hs) => length hs = 20 /\ exists c', ksees st' c' /\ power Q 20 (c, rds st) (c', rds st'))).
  - pose proof (foldM_seq_safe (fun i '(st', hs) => length hs = i /\ exists c', ksees st' c' /\ power Q i (c, rds st) (c', rds st')) rng_err (therm_step2 step) 20 (st, [])) as G.
    unfold ends. destruct (foldM _ (st, []) (seq 0 20)) as [[s1 hs]|e]; (apply G; [split; auto; exists c; split; auto; constructor|]; clear G; intros i [st1 h1] _ (L1 & d1 & HS1 & P1); unfold therm_step2; cbn [fst snd];
      pose proof (step_ok st1 d1 HS1) as X; destruct (step st1) as [st2|e2]; cbn [bind ends] in *; [|auto]; destruct X as (e1 & HS2 & HQ); split; [rewrite app_length; cbn; lia|];
      exists e1; split; auto; rewrite Nat.add_1_r; econstructor; eauto).
  - intros [st' hs] (L & d1 & HS' & PW). eapply ends_bind; [apply mean_ends; auto|]. intros m _. eapply ends_bind; [apply stddev_ends; auto|]. intros sd _. cbv zeta.
    assert (IH' : forall m0 s0 eq', eq' < 5 -> 5 - eq <= 1 + (5 - eq') -> ends rng_err (therm_loop2 f step m0 s0 eq' st') (fun st'' => exists c' M, ksees st'' c' /\ power Q M (c, rds st) (c', rds st'') /\ 20 * (5 - eq) <= M)).
    { intros m' s' eq' H1 H2. eapply ends_impl; [apply (IH m' s' eq' st' d1 H1 HS')|]. intros st'' (e1 & M & HS2 & P2 & HM). exists e1, (20 + M). splits; auto; [eapply power_app; eauto|lia]. }
    match goal with |- ends _ (if ?b then _ else _) _ => destruct b end; [destruct (Nat.ltb_spec (eq + 1) 5)|]; [apply IH'; lia| |apply IH'; lia]. cbn [ends]. exists d1, 20. splits; auto. lia.
Qed.

(** * Scores *)
Definition kterms (x : gst) (ij : nat * nat) : list A :=
  let ts := betweens R (fst x) K (colour (fst x) (fst ij)) (colour (fst x) (snd ij)) in
  map (fun t => ndiv (nofnat (t + 1)) (nofnat (lsum (fun x => x) ts + K))) ts.
Lemma betweens_length c a b : length (betweens R c K a b) = K.
Proof. unfold betweens. now rewrite map_length, seq_length. Qed.
Lemma kquery_ok st c q : ksees st c -> fst q < n -> snd q < n -> query_terms K st q = Ok (kterms (c, rds st) q).
Proof.
  intros (KO & _) H1 H2. destruct (ks_len _ _ _ _ _ _ KO) as [Lc Cc]. destruct KO as [Jn HR E1 E2 E3 I E4 HN HG]. unfold query_terms, query_counts.
  assert (X1 : nth_error s (fst q) = Some (fst q)) by (now rewrite nth_error_seq). assert (X2 : nth_error s (snd q) = Some (snd q)) by (now rewrite nth_error_seq).
  destruct (hf_num _ _ _ (jn_l _ _ _ Jn) _ _ X1) as (a & Ea & _). destruct (hf_num _ _ _ (jn_l _ _ _ Jn) _ _ X2) as (b & Eb & _). rewrite (get_ok _ _ _ Ea), (get_ok _ _ _ Eb). cbn [bind].
  pose proof (go_group _ _ _ _ I _ _ X1) as G1. pose proof (go_group _ _ _ _ I _ _ X2) as G2. unfold group_of in G1, G2. rewrite Ea in G1. rewrite Eb in G2. rewrite G1, G2.
  assert (B1 : colour c (fst q) < n) by (rewrite <- Lc; apply coloured_lt; auto; lia). assert (B2 : colour c (snd q) < n) by (rewrite <- Lc; apply coloured_lt; auto; lia).
  rewrite (counts_ok _ _ _ _ _ _ _ HG B1 B2). cbn [bind]. unfold kterms. cbn [fst]. fold (betweens R c K (colour c (fst q)) (colour c (snd q))). set (ts := betweens R c K _ _).
  rewrite fold_Z. cbn [Z.add]. set (S := lsum (fun x => x) ts). clearbody S. clear. replace (Z.of_nat S + Z.of_nat K)%Z with (Z.of_nat (S + K)) by lia. induction ts as [|t ts IH]; [reflexivity|]. cbn [map mapM].
  replace (Z.of_nat t + 1)%Z with (Z.of_nat (t + 1)) by lia. rewrite IH, !nat_of_nat. reflexivity.
Qed.
Definition ktotals (samples : list gst) (ij : nat * nat) : list A :=
  map (fun k => fold_left (fun acc x => nadd acc (nth k (kterms x ij) n0)) samples n0) (seq 0 K).
Lemma ktotals_nil ij : ktotals [] ij = repeat n0 K.
Proof. unfold ktotals. cbn [fold_left]. assert (X : forall m a, map (fun _ : nat => (n0 : A)) (seq a m) = repeat n0 m) by (induction m as [|m IH]; intros a; cbn; auto; now rewrite IH). apply X. Qed.
Lemma ktotals_snoc l x ij : map (fun '(x, y) => nadd x y) (combine (ktotals l ij) (kterms x ij)) = ktotals (l ++ [x]) ij.
Proof.
  assert (L : length (kterms x ij) = K) by (unfold kterms; rewrite map_length; apply betweens_length).
  apply nth_ext. intros k. rewrite nth_error_map. unfold ktotals. destruct (Nat.lt_ge_cases k K) as [Hk|Hk].
  - destruct (nth_ex (kterms x ij) k) as [y Ey]; [lia|]. rewrite (combine_at _ _ k (fold_left (fun acc s => nadd acc (nth k (kterms s ij) n0)) l n0) y); auto.
    + cbn. rewrite nth_error_map, nth_error_seq by auto. cbn. rewrite fold_left_app. cbn. now rewrite (nth_error_nth _ _ n0 Ey).
    + rewrite nth_error_map, nth_error_seq by auto. reflexivity.
  - rewrite (proj2 (nth_error_None (combine _ _) k)) by (rewrite combine_length, map_length, seq_length; lia). symmetry. apply nth_error_None. rewrite map_length, seq_length. auto.
Qed.
Variable qs : list (nat * nat).
Hypothesis Hqs : Forall (fun q => fst q < n /\ snd q < n) qs.
Lemma kadd_ok st c l : ksees st c -> add_scores K st qs (map (ktotals l) qs) = Ok (map (ktotals (l ++ [(c, rds st)])) qs).
Proof.
  intros HS. unfold add_scores. induction Hqs as [|q qs' [H1 H2] HF IH]; [reflexivity|]. cbn [map combine mapM]. rewrite (kquery_ok st c q HS H1 H2). cbn [bind]. rewrite ktotals_snoc.
  specialize (IH HF). rewrite IH. reflexivity.
Qed.
Lemma kzero_ok : zero_scores K qs = map (ktotals []) qs.
Proof. unfold zero_scores. apply map_ext. intros q. now rewrite ktotals_nil. Qed.
Hypothesis J_zero : forall c H, J c H -> J c n0.
Lemma ksees_zero st c : ksees st c -> ksees (set_H n0 st) c.
Proof. intros (H1 & H2 & H3 & H4). unfold ksees, set_H. cbn. splits; auto. eapply J_zero; eauto. Qed.
Lemma ksample_loop low nIter s0 fuel : forall iter H0 st c M sB l, ksees st c -> power Q M s0 sB -> visits Q sB l (c, rds st) -> length l = iter -> iter <= nIter ->
  ends rng_err (sample_loop K fuel step low true qs nIter iter iter H0 (map (ktotals l) qs) st) (fun '(scores, norm, st') => exists c' M' sB' l',
    ksees st' c' /\ power Q M' s0 sB' /\ visits Q sB' l' (c', rds st') /\ length l' = nIter /\ norm = nIter /\ scores = map (ktotals l') qs /\ M <= M').
Proof.
  induction fuel as [|f IH]; intros iter H0 st c M sB l HS HP HV HL Hle; cbn [sample_loop].
  - destruct (Nat.ltb_spec iter nIter); [right; reflexivity|]. cbn [ends]. exists c, M, sB, l. splits; auto; lia.
  - destruct (Nat.ltb_spec iter nIter) as [Hlt|Hge]; [|cbn [ends]; exists c, M, sB, l; splits; auto; lia].
    eapply ends_bind; [apply (step_ok st c HS)|]. intros st1 (d1 & HS1 & HQ). cbv zeta. destruct (low H0 (rH st1)) eqn:Elow; cbn [andb].
    + pose proof (ksees_zero _ _ HS1) as HS2. set (st2 := set_H n0 st1) in *. rewrite kzero_ok. rewrite (kadd_ok st2 d1 [] HS2). cbn [bind app].
      assert (HP1 : exists M1, power Q M1 s0 (c, rds st) /\ M <= M1).
      { clear - HP HV. remember (c, rds st) as e eqn:Ee. clear Ee. revert M HP. induction HV as [x|x l t u HV IH HQ]; intros M HP; [eauto|]. destruct (IH M HP) as (M1 & H1 & H2). exists (S M1). split; [econstructor; eauto|lia]. }
      destruct HP1 as (M1 & HP1 & HM1). eapply ends_impl; [apply (IH 1 (rH st1) st2 d1 M1 (c, rds st) [(d1, rds st2)]); auto; try lia; [change [(d1, rds st2)] with ([] ++ [(d1, rds st2)]); econstructor; [constructor|exact HQ]]|].
      intros [[scores norm] st'] (c' & M' & sB' & l' & X1 & X2 & X3 & X4 & X5 & X6 & X7). exists c', M', sB', l'. splits; auto. lia.
    + rewrite (kadd_ok st1 d1 l HS1). cbn [bind]. apply (IH (iter + 1) H0 st1 d1 M sB); auto; [econstructor; eauto|rewrite app_length; cbn; lia|lia].
Qed.
Lemma kscore_all low nIter st c : ksees st c -> ends rng_err (score_all K step low true qs nIter st) (fun '(scores, st') => exists c' M sB l,
  ksees st' c' /\ power Q M (c, rds st) sB /\ visits Q sB l (c', rds st') /\ length l = nIter /\ scores = map (fun ij => map (fun x => ndiv x (nofnat nIter)) (ktotals l ij)) qs).
Proof.
  intros HS. unfold score_all. rewrite kzero_ok. eapply ends_bind; [apply (ksample_loop low nIter (c, rds st) _ 0 (rH st) st c 0 (c, rds st) []); auto; try constructor; lia|].
  intros [[scores norm] st'] (d1 & M & sB & l & HS' & HP & HV & HL & -> & -> & _). cbn [ends]. exists d1, M, sB, l. splits; auto. now rewrite map_map.
Qed.
End Walk.

(** * The Monte Carlo step *)
Definition kchosen (x y : gst) : Prop :=
  exists u ds1 w ds2 acc, let c := fst x in let v := nfloor (nmul u (nofnat (length c))) in
    snd x = u :: ds1 /\ redraw (length c) (colour c v) ds1 = Ok (w, ds2) /\ accepts (kdH c v w) ds2 = Ok (acc, snd y) /\ v < length c /\ w < length c /\ colour c v <> w /\
    coloured c /\ fst y = if acc : bool then upd c v w else c.
Hypothesis J_move : forall c H v w, length c = n -> coloured c -> v < length c -> w < length c -> colour c v <> w -> J c H -> J (upd c v w) (nadd H (kdH c v w)).
Lemma kmove_ok st c i : ksees st c -> ends rng_err (ks_move lnfact lfsize K tabf st i) (fun st' => exists c', ksees st' c' /\ kchosen (c, rds st) (c', rds st')).
Proof.
  intros (KO & HD & HJ & HB). destruct (ks_len _ _ _ _ _ _ KO) as [Lc Cc]. eapply ends_impl; [apply (ks_move_ok K HK lnfact lfsize R R_sym R_loop n st c i KO Hn HD)|].
  intros st' (u & ds1 & w & ds2 & acc & X). cbv zeta in X. destruct X as (E1 & E2 & E3 & Hv & Hw & Hne & EH & KO' & HB' & HD'). set (v := nfloor (nmul u (nofnat n))) in *.
  exists (if acc then upd c v w else c). split.
  - unfold ksees. splits; auto; [|eapply sbg_trans; eauto]. rewrite EH. destruct acc; auto. apply J_move; auto; lia.
  - exists u, ds1, w, ds2, acc. cbn [fst snd]. cbv zeta. rewrite Lc. fold v. splits; auto.
Qed.
Lemma kstep_ok factor : kfine (power kchosen (n * factor)) (LSMCStepKState lnfact lfsize K tabf factor).
Proof.
  intros st c HS. unfold LSMCStepKState. rewrite (ko_n _ _ _ _ _ _ (proj1 HS)).
  pose proof (foldM_seq_safe (fun i st' => exists c', ksees st' c' /\ power kchosen i (c, rds st) (c', rds st')) rng_err (ks_move lnfact lfsize K tabf) (n * factor) st) as G.
  unfold ends. apply G; [exists c; split; auto; constructor|]. intros i st1 _ (d1 & HS1 & HP). pose proof (kmove_ok st1 d1 i HS1) as X. destruct (ks_move lnfact lfsize K tabf st1 i); [|exact X].
  destruct X as (e1 & HS2 & HQ). exists e1. split; auto. rewrite Nat.add_1_r. econstructor; eauto.
Qed.

(** * Decorrelation *)
Lemma ks_other g g' c me : ks_ok K R n g c me -> same_but_group g g' -> (forall j, group_of g' j = group_of g j) -> ks_ok K R n g' c me.
Proof.
  intros [H1 H2 H3 H4 H5 H6 H7 H8 H9] S G. split; auto.
  - eapply joined_sbg; eauto.
  - intros. rewrite (ratings_sbg g g'); auto.
  - eapply groups_of_other; [exact H6|]. auto.
Qed.
Lemma kdecor_one st c : ksees st c -> ends rng_err (ks_decor_one lnfact mutual decay_of lfsize K tabf st) (fun '(_, st') => exists c' M, ksees st' c' /\ power kchosen M (c, rds st) (c', rds st')).
Proof.
  intros (KO & HD & HJ & HB). unfold ks_decor_one. cbv zeta.
  destruct (j_CopyPartition_light (rnet st) s s (sP (r1 st)) c (ko_j _ _ _ _ _ _ KO) (ko_g _ _ _ _ _ _ KO)) as (g1 & ref1 & -> & S1 & G1). cbn [bind]. pose proof (ks_other _ g1 _ _ KO S1 G1) as KO1.
  set (x2 := if _ <? _ then _ else _). generalize (seq 0 (x2 + 1)). generalize x2 at 1 2. intros x1 l.
  apply (ends_bind rng_err _ _ (fun '(st', _) => exists c' M, ksees st' c' /\ power kchosen M (c, rds st) (c', rds st'))).
  - apply (ends_foldM rng_err (fun '(st', _) => exists c' M, ksees st' c' /\ power kchosen M (c, rds st) (c', rds st'))).
    + intros [x y1] z _ (d1 & M & HS1 & HP). unfold ks_decor_step. eapply ends_bind; [apply (kstep_ok 1 x d1 HS1)|]. intros s' (e1 & HS2 & HP2).
      assert (X : exists c' M0, ksees s' c' /\ power kchosen M0 (c, rds st) (c', rds s')) by (exists e1, (M + n * 1); split; auto; eapply power_app; eauto). destruct (z =? x1 / 4); exact X.
    + exists c, 0. split; [|constructor]. unfold ksees. cbn. splits; auto. eapply sbg_trans; eauto.
  - intros [x y1] X. exact X.
Qed.
Lemma kdecor_reps fuel : forall left d1 st c, length d1 + left = 10 -> ksees st c ->
  ends rng_err (ks_decor_reps lnfact mutual decay_of lfsize K tabf fuel left d1 st) (fun '(e1, st') => length e1 = 10 /\ exists c' M, ksees st' c' /\ power kchosen M (c, rds st) (c', rds st')).
Proof.
  induction fuel as [|f IH]; intros left d1 st c L1 HS; destruct left as [|left]; cbn [ks_decor_reps].
  - cbn [ends]. split; try lia. exists c, 0. split; auto. constructor.
  - right. reflexivity.
  - cbn [ends]. split; try lia. exists c, 0. split; auto. constructor.
  - eapply ends_bind; [apply (kdecor_one st c HS)|]. intros [x st'] (e1 & M & HS1 & HP).
    assert (X : forall left d1, length d1 + left = 10 -> ends rng_err (ks_decor_reps lnfact mutual decay_of lfsize K tabf f left d1 st')
       (fun '(e1, st') => length e1 = 10 /\ exists c' M, ksees st' c' /\ power kchosen M (c, rds st) (c', rds st'))).
    { intros l' a1 A1. eapply ends_impl; [apply (IH l' a1 st' e1 A1 HS1)|]. intros [b1 st''] (B1 & f1 & M2 & HS2 & HP2). split; auto. exists f1, (M + M2). split; auto. eapply power_app; eauto. }
    destruct (nltb x n0); apply X; rewrite ?app_length; cbn [length]; lia.
Qed.
Lemma kdecor_ok st c : ksees st c -> ends rng_err (LSGetDecorrelationStepKState lnfact mutual decay_of lfsize K tabf st) (fun '(_, st') => exists c' M, ksees st' c' /\ power kchosen M (c, rds st) (c', rds st')).
Proof.
  intros HS. unfold LSGetDecorrelationStepKState. eapply ends_bind; [apply (kdecor_reps _ 10 [] st c); auto|]. intros [d1 st'] (L1 & X).
  eapply ends_bind; [apply mean_ends; auto|]. intros m1 _. eapply ends_bind; [apply stddev_ends; auto|]. intros sd _. destruct (fold_left _ _ _) as [r norm]. exact X.
Qed.
End Run.

(** RecRun.v -- Monte Carlo steps, decorrelation, thermalisation and sampling of src/recommend.c, in any arithmetic. *)
From Coq Require Import List Arith ZArith Bool QArith Lia.
From Verif Require Import Base Num ListLib NatSum MatLib GraphModel GraphSpec GraphProof GroupModel GroupSpec GroupProof NetModel NetCopy ToolsModel ToolsProof ModulesModel SAProof
  BipartModel BipartSpec MissModel MissSpec MissStep MissRun RecModel RecSpec RecSets RecMem RecLinks RecStep RecSetup.
Import ListNotations.
Local Open Scope nat_scope.

Lemma power_app {S} (Q : S -> S -> Prop) n m s t u : power Q n s t -> power Q m t u -> power Q (n + m) s u.
Proof. intros H1 H2. revert H1. induction H2 as [s'|m s' t' u' H2 IH HQ]; intros H1; [now rewrite Nat.add_0_r|]. rewrite Nat.add_succ_r. econstructor; eauto. Qed.
Lemma power_mul {S} (Q : S -> S -> Prop) n m s t : power (power Q n) m s t -> power Q (m * n) s t.
Proof. induction 1 as [s|m s t u H IH HQ]; [constructor|]. cbn. rewrite Nat.add_comm. eapply power_app; eauto. Qed.

Lemma fold_Z ts z : fold_left Z.add (map Z.of_nat ts) z = (z + Z.of_nat (lsum (fun x => x) ts))%Z.
Proof. revert z. induction ts as [|t ts IH]; intros z; cbn [map fold_left lsum]; [simpl; lia|]. rewrite IH. simpl. lia. Qed.

(** * Copies of groups *)
Section Copy.
Context {A : Type} {ops : NumOps A}.
Implicit Types (g : net A) (P : gpart A).
Lemma CopyPartition_light g sA sB P c : crossed g sA sB -> groups_of g sA P c -> exists g' Q, CopyPartition g P = Ok (g', Q) /\ same_but_group g g' /\ (forall j, group_of g' j = group_of g j).
Proof.
  intros C I. unfold CopyPartition.
  assert (Hin : forall k G cells h Q, nth_error P k = Some G -> incl cells (pnodes G) -> same_but_group g h -> (forall j, group_of h j = group_of g j) -> (exists G', nth_error Q (length Q - 1) = Some G' /\ plabel G' = k) ->
     exists h' Q', foldM (fun st l => do i <- deref (lref l); AddNodeToGroup st (length Q - 1) i) ((h : net A), (Q : gpart A)) cells = Ok (h', Q') /\ same_but_group g h' /\ (forall j, group_of h' j = group_of g j)).
  { intros k G cells. induction cells as [|l cells IH]; intros h Q EG Hc S HG (G' & EG' & LG'); [exists h, Q; auto|]. cbn [foldM].
    assert (Hl : In l (pnodes G)) by (apply Hc; simpl; auto). destruct (lref l) as [p|] eqn:El; [|exfalso; eapply (go_cells _ _ _ _ I); eauto; eapply nth_error_In; eauto]. cbn [deref bind].
    assert (Hp : In p (members G)) by (unfold members; apply targets_In; eauto). apply (go_mem _ _ _ _ I k G p EG) in Hp as (i & Ei & Ci).
    assert (Ch : crossed h sA sB) by (eapply crossed_sbg; eauto). destruct (hf_num _ _ _ (cr_l _ _ _ Ch) i p Ei) as (n & En & _).
    destruct (Add_light h Q (length Q - 1) p n G' En EG' (half_linksok h sA sB p n Ch (nth_error_In _ _ Ei) En)) as (h' & G2 & E & L2 & _ & _ & S2 & GO). rewrite E. cbn [bind].
    pose proof (IH h' (upd Q (length Q - 1) G2)) as X. rewrite !length_upd in X. apply X; auto.
    - intros x Hx. apply Hc. simpl; auto.
    - eapply sbg_trans; eauto.
    - intros j. rewrite GO. destruct (Nat.eqb_spec j p) as [->|]; auto. rewrite LG'. symmetry. rewrite <- Ci. apply (go_group _ _ _ _ I). auto.
    - exists G2. split; [|congruence]. apply nth_upd_eq. eapply nth_lt; eauto. }
  assert (E : forall Ps h Q, incl Ps P -> same_but_group g h -> (forall j, group_of h j = group_of g j) ->
     exists h' Q', foldM (fun '(g, Q) G => CopyGroup g Q G) ((h : net A), (Q : gpart A)) Ps = Ok (h', Q') /\ same_but_group g h' /\ (forall j, group_of h' j = group_of g j)).
  { induction Ps as [|G Ps IH]; intros h Q Hi S HG; [exists h, Q; auto|]. cbn [foldM]. unfold CopyGroup at 2. cbn [CreateGroup].
    assert (HGP : In G P) by (apply Hi; simpl; auto). apply In_nth_error in HGP as [k EG].
    assert (Lk : plabel G = k) by (destruct (go_nth _ _ _ _ k I) as (G' & EG' & LG'); [rewrite <- (go_length _ _ _ _ I); eapply nth_lt; eauto|]; congruence).
    destruct (Hin k G (pnodes G) h (Q ++ [mkGroup (plabel G) 0 0 0 0 n0 n0 n0 []])) as (h' & Q' & E & S' & HG'); auto using incl_refl.
    { eexists. rewrite app_length. cbn [length]. rewrite Nat.add_sub. rewrite nth_error_app2, Nat.sub_diag by lia. split; [reflexivity|exact Lk]. }
    rewrite app_length in E. cbn [length] in E. rewrite Nat.add_sub in E.
    match goal with |- exists h' Q', bind ?m ?f = _ /\ _ => replace m with (Ok (h', Q')) by (symmetry; exact E) end. cbn [bind]. apply IH; auto. intros x Hx. apply Hi. simpl; auto. }
  destruct (E P g [] (incl_refl _) (sbg_refl g)) as (g' & Q & E' & H1 & H2); auto. exists g', Q. auto.
Qed.
End Copy.

Section Run.
Context {A : Type} {ops : NumOps A}.
Variable mutual : gpart A -> gpart A -> A.
Variable decay_of : nat -> nat -> A -> nat -> A -> A.
Variable K : nat.
Variable lnfact : nat -> A.
Variable lfsize : nat.
Variable charge : bool -> A * list (list A) -> list Z -> res (A * list (list A)).
Variable chg : bool -> A -> list nat -> A.
Variable tabok : list (list A) -> Prop.
Hypothesis charge_ok : forall s d tab cs, tabok tab -> length cs = K -> exists tab', charge s (d, tab) (map Z.of_nat cs) = Ok (chg s d cs, tab') /\ tabok tab'.
Let tabf := InitializeTable lnfact lfsize.
Notation dH_of := (dH_of K lnfact chg).
Variables s1 s2 : list nat.
Variable R : nat -> nat -> nat -> bool.
Hypothesis N1 : 0 < length s1.
Hypothesis N2 : 0 < length s2.
(** What else is known about the colourings and the energy; what is known about the random numbers. *)
Variable J : list nat -> list nat -> A -> Prop.
Variable gd : A -> Prop.
Variable g0 : net A.

Definition sees (st : rec A) (c1 c2 : list nat) : Prop :=
  pair_ok K (rnet st) s1 s2 R c1 c2 (r1 st) (r2 st) /\ tabok (rtab st) /\ Forall gd (rds st) /\ J c1 c2 (rH st) /\ same_but_group g0 (rnet st).
Definition at_state (st : rec A) (c1 c2 : list nat) : rstate A := (c1, c2, rds st).

(** * Any step *)
Section Walk.
Variable Q : rstate A -> rstate A -> Prop.
Variable step : rec A -> res (rec A).
Definition step_fine : Prop := forall st c1 c2, sees st c1 c2 ->
  ends rng_err (step st) (fun st' => exists c1' c2', sees st' c1' c2' /\ Q (c1, c2, rds st) (c1', c2', rds st')).
Hypothesis step_ok : step_fine.
Lemma therm_loop_ok fuel : forall m0 s0 eq st c1 c2, sees st c1 c2 ->
  ends rng_err (therm_loop2 fuel step m0 s0 eq st) (fun st' => exists c1' c2' M, sees st' c1' c2' /\ power Q M (c1, c2, rds st) (c1', c2', rds st')).
Proof.
  induction fuel as [|f IH]; intros m0 s0 eq st c1 c2 HS; [right; reflexivity|]. cbn [therm_loop2].
  apply (ends_bind rng_err _ _ (fun '(st', hs) => length hs = 20 /\ exists c1' c2', sees st' c1' c2' /\ power Q 20 (c1, c2, rds st) (c1', c2', rds st'))).
  - pose proof (foldM_seq_safe (fun i '(st', hs) => length hs = i /\ exists c1' c2', sees st' c1' c2' /\ power Q i (c1, c2, rds st) (c1', c2', rds st')) rng_err (therm_step2 step) 20 (st, [])) as G.
    unfold ends. destruct (foldM _ (st, []) (seq 0 20)) as [[s hs]|e]; (apply G; [split; auto; exists c1, c2; split; auto; constructor|]; clear G; intros i [st1 h1] _ (L1 & d1 & d2 & HS1 & P1); unfold therm_step2; cbn [fst snd];
      pose proof (step_ok st1 d1 d2 HS1) as X; destruct (step st1) as [st2|e2]; cbn [bind ends] in *; [|auto]; destruct X as (e1 & e2 & HS2 & HQ); split; [rewrite app_length; cbn; lia|];
      exists e1, e2; split; auto; rewrite Nat.add_1_r; econstructor; eauto).
  - intros [st' hs] (L & d1 & d2 & HS' & PW). eapply ends_bind; [apply mean_ends; auto|]. intros m _. eapply ends_bind; [apply stddev_ends; auto|]. intros sd _. cbv zeta.
    assert (IH' : forall m0 s0 eq, ends rng_err (therm_loop2 f step m0 s0 eq st') (fun st'' => exists c1' c2' M, sees st'' c1' c2' /\ power Q M (c1, c2, rds st) (c1', c2', rds st''))).
    { intros m' s' eq'. eapply ends_impl; [apply (IH m' s' eq' st' d1 d2 HS')|]. intros st'' (e1 & e2 & M & HS2 & P2). exists e1, e2, (20 + M). split; auto. eapply power_app; eauto. }
    match goal with |- ends _ (if ?c then _ else _) _ => destruct c end; [destruct (eq + 1 <? 5)|]; auto. cbn [ends]. exists d1, d2, 20. auto.
Qed.
Lemma thermalize_ok st c1 c2 : sees st c1 c2 -> ends rng_err (Thermalize step st) (fun st' => exists c1' c2' M, sees st' c1' c2' /\ power Q M (c1, c2, rds st) (c1', c2', rds st')).
Proof. apply therm_loop_ok. Qed.

(** * Scores *)
(** What a sample adds to the scores of a query of person [i] and item [j]. *)
Definition gterms (s : rstate A) (ij : nat * nat) : list A :=
  let '(c1, c2, _) := s in
  let ts := tallies R K c1 c2 (colour c1 (fst ij)) (colour c2 (snd ij)) in
  map (fun t => ndiv (nofnat (t + 1)) (nofnat (lsum (fun x => x) ts + K))) ts.
Notation located := (located s1 s2).
Lemma query_terms_ok st c1 c2 q ij : sees st c1 c2 -> located q ij -> query_terms K st q = Ok (gterms (c1, c2, rds st) ij).
Proof.
  intros (PO & _) [E1 E2]. destruct PO as [C HR M O]. unfold query_terms, query_counts.
  destruct (hf_num _ _ _ (cr_l _ _ _ C) _ _ E1) as (a & Ea & _). destruct (hf_num _ _ _ (cr_r _ _ _ C) _ _ E2) as (b & Eb & _). rewrite (get_ok _ _ _ Ea), (get_ok _ _ _ Eb). cbn [bind].
  pose proof (go_group _ _ _ _ (so_g _ _ _ _ _ _ _ _ M) _ _ E1) as G1. pose proof (go_group _ _ _ _ (so_g _ _ _ _ _ _ _ _ O) _ _ E2) as G2. unfold group_of in G1, G2. rewrite Ea in G1. rewrite Eb in G2. rewrite G1, G2.
  assert (L1 : length c1 = length s1) by apply M. assert (L2 : length c2 = length s2) by apply O.
  assert (B1 : colour c1 (fst ij) < length s1) by (rewrite <- L1; apply coloured_lt; [apply M|rewrite L1; eapply nth_lt; eauto]).
  assert (B2 : colour c2 (snd ij) < length s2) by (rewrite <- L2; apply coloured_lt; [apply O|rewrite L2; eapply nth_lt; eauto]).
  rewrite (counts_ok _ _ _ _ _ _ _ (so_G _ _ _ _ _ _ _ _ M) B1 B2). cbn [bind]. unfold gterms. fold (tallies R K c1 c2 (colour c1 (fst ij)) (colour c2 (snd ij))). set (ts := tallies R K c1 c2 _ _).
  rewrite fold_Z. cbn [Z.add]. set (S := lsum (fun x => x) ts). clearbody S. clear. replace (Z.of_nat S + Z.of_nat K)%Z with (Z.of_nat (S + K)) by lia. induction ts as [|t ts IH]; [reflexivity|]. cbn [map mapM].
  replace (Z.of_nat t + 1)%Z with (Z.of_nat (t + 1)) by lia. rewrite IH, !nat_of_nat. reflexivity.
Qed.
(** The sums of the samples. *)
Definition totals (samples : list (rstate A)) (ij : nat * nat) : list A :=
  map (fun k => fold_left (fun acc s => nadd acc (nth k (gterms s ij) n0)) samples n0) (seq 0 K).
Lemma totals_nil ij : totals [] ij = repeat n0 K.
Proof. unfold totals. cbn [fold_left]. assert (X : forall n a, map (fun _ : nat => (n0 : A)) (seq a n) = repeat n0 n) by (induction n as [|n IH]; intros a; cbn; auto; now rewrite IH). apply X. Qed.
Lemma totals_snoc l s ij : map (fun '(x, y) => nadd x y) (combine (totals l ij) (gterms s ij)) = totals (l ++ [s]) ij.
Proof.
  assert (L : length (gterms s ij) = K) by (unfold gterms; destruct s as [[c1 c2] ds]; rewrite map_length; apply tallies_length).
  apply nth_ext. intros k. rewrite nth_error_map. unfold totals. destruct (Nat.lt_ge_cases k K) as [Hk|Hk].
  - destruct (nth_ex (gterms s ij) k) as [y Ey]; [lia|]. rewrite (combine_at _ _ k (fold_left (fun acc s => nadd acc (nth k (gterms s ij) n0)) l n0) y); auto.
    + cbn. rewrite nth_error_map, nth_error_seq by auto. cbn. rewrite fold_left_app. cbn. now rewrite (nth_error_nth _ _ n0 Ey).
    + rewrite nth_error_map, nth_error_seq by auto. reflexivity.
  - rewrite (proj2 (nth_error_None (combine _ _) k)) by (rewrite combine_length, map_length, seq_length; lia). symmetry. apply nth_error_None. rewrite map_length, seq_length. auto.
Qed.
Variable qs pos : list (nat * nat).
Hypothesis Hqs : Forall2 located qs pos.
Lemma add_scores_ok st c1 c2 l : sees st c1 c2 -> add_scores K st qs (map (totals l) pos) = Ok (map (totals (l ++ [(c1, c2, rds st)])) pos).
Proof.
  intros HS. unfold add_scores. induction Hqs as [|q ij qs' pos' Hq HF IH]; [reflexivity|]. cbn [map combine mapM]. rewrite (query_terms_ok st c1 c2 q ij HS Hq). cbn [bind]. rewrite totals_snoc.
  specialize (IH HF). rewrite IH. reflexivity.
Qed.
Lemma zero_scores_ok : zero_scores K qs = map (totals []) pos.
Proof. unfold zero_scores. induction Hqs as [|q ij qs' pos' Hq HF IH]; [reflexivity|]. cbn [map]. rewrite totals_nil. f_equal. auto. Qed.
Variable low : A -> A -> bool.
Variable reset : bool.
Hypothesis J_reset : reset = true -> forall c1 c2 H, J c1 c2 H -> J c1 c2 n0.
Lemma sees_reset st c1 c2 : sees st c1 c2 -> sees (if reset then set_H n0 st else st) c1 c2.
Proof. intros HS. destruct reset; auto. destruct HS as (H1 & H2 & H3 & H4 & H5). unfold sees, set_H. cbn. splits; auto. eapply J_reset; eauto. Qed.
Lemma sample_loop_ok nIter s0 fuel : forall iter H0 st c1 c2 M sB l, sees st c1 c2 -> power Q M s0 sB -> visits Q sB l (c1, c2, rds st) -> length l = iter -> iter <= nIter ->
  ends rng_err (sample_loop K fuel step low reset qs nIter iter iter H0 (map (totals l) pos) st) (fun '(scores, norm, st') => exists c1' c2' M' sB' l',
    sees st' c1' c2' /\ power Q M' s0 sB' /\ visits Q sB' l' (c1', c2', rds st') /\ length l' = nIter /\ norm = nIter /\ scores = map (totals l') pos).
Proof.
  induction fuel as [|f IH]; intros iter H0 st c1 c2 M sB l HS HP HV HL Hle; cbn [sample_loop].
  - destruct (Nat.ltb_spec iter nIter); [right; reflexivity|]. cbn [ends]. exists c1, c2, M, sB, l. splits; auto; lia.
  - destruct (Nat.ltb_spec iter nIter) as [Hlt|Hge]; [|cbn [ends]; exists c1, c2, M, sB, l; splits; auto; lia].
    eapply ends_bind; [apply (step_ok st c1 c2 HS)|]. intros st1 (d1 & d2 & HS1 & HQ). cbv zeta. destruct (low H0 (rH st1)) eqn:Elow; cbn [andb].
    + assert (HS2 : sees (if reset then set_H n0 st1 else st1) d1 d2) by (now apply sees_reset). set (st2 := if reset then set_H n0 st1 else st1) in *.
      assert (Ed : rds st2 = rds st1) by (unfold st2; destruct reset; reflexivity). rewrite zero_scores_ok. rewrite (add_scores_ok st2 d1 d2 [] HS2). cbn [bind app].
      assert (HP1 : exists M1, power Q M1 s0 (c1, c2, rds st)).
      { clear - HP HV. remember (c1, c2, rds st) as e eqn:Ee. clear Ee. revert M HP. induction HV as [s|s l t u HV IH HQ]; intros M HP; [eauto|]. destruct (IH M HP) as (M1 & H1). exists (S M1). econstructor; eauto. }
      destruct HP1 as (M1 & HP1). rewrite <- Ed in HQ. apply (IH 1 (rH st1) st2 d1 d2 M1 (c1, c2, rds st)); auto; [|lia]. change [(d1, d2, rds st2)] with ([] ++ [(d1, d2, rds st2)]). econstructor; [constructor|exact HQ].
    + rewrite (add_scores_ok st1 d1 d2 l HS1). cbn [bind]. apply (IH (iter + 1) H0 st1 d1 d2 M sB); auto; [econstructor; eauto|rewrite app_length; cbn; lia|lia].
Qed.
Lemma score_all_ok nIter st c1 c2 : sees st c1 c2 -> ends rng_err (score_all K step low reset qs nIter st) (fun '(scores, st') => exists c1' c2' M sB l,
  sees st' c1' c2' /\ power Q M (c1, c2, rds st) sB /\ visits Q sB l (c1', c2', rds st') /\ length l = nIter /\
  scores = map (fun ij => map (fun x => ndiv x (nofnat nIter)) (totals l ij)) pos).
Proof.
  intros HS. unfold score_all. rewrite zero_scores_ok. eapply ends_bind; [apply (sample_loop_ok nIter (c1, c2, rds st) _ 0 (rH st) st c1 c2 0 (c1, c2, rds st) []); auto; try constructor; lia|].
  intros [[scores norm] st'] (d1 & d2 & M & sB & l & HS' & HP & HV & HL & -> & ->). cbn [ends]. exists d1, d2, M, sB, l. splits; auto. now rewrite map_map.
Qed.
End Walk.

(** * The Monte Carlo step *)
Definition chosen R (cA cB : list nat) (ds : list A) (cA' : list nat) (ds' : list A) : Prop :=
  exists u ds1 w ds2 acc, let v := nfloor (nmul u (nofnat (length cA))) in
    ds = u :: ds1 /\ redraw (length cA) (colour cA v) ds1 = Ok (w, ds2) /\ accepts (dH_of R cA cB v w) ds2 = Ok (acc, ds') /\ v < length cA /\ w < length cA /\ colour cA v <> w /\
    coloured cA /\ length cA' = length cA /\ cA' = if acc : bool then upd cA v w else cA.
Inductive gmoved : rstate A -> rstate A -> Prop :=
| gm_1 u ds c1 c2 c1' ds' : nltb u (set_ratio (length c1) (length c2)) = true -> chosen R c1 c2 ds c1' ds' -> gmoved (c1, c2, u :: ds) (c1', c2, ds')
| gm_2 u ds c1 c2 c2' ds' : nltb u (set_ratio (length c1) (length c2)) = false -> chosen (flip R) c2 c1 ds c2' ds' -> gmoved (c1, c2, u :: ds) (c1, c2', ds').
Hypothesis gd_good : forall u, gd u -> good_draw u.
Hypothesis gd_suffix : forall u, good_draw u -> gd u.
Hypothesis J_1 : forall c1 c2 H v w, length c1 = length s1 -> length c2 = length s2 -> coloured c1 -> coloured c2 -> v < length c1 -> w < length c1 -> colour c1 v <> w ->
  J c1 c2 H -> J (upd c1 v w) c2 (nadd H (dH_of R c1 c2 v w)).
Hypothesis J_2 : forall c1 c2 H v w, length c1 = length s1 -> length c2 = length s2 -> coloured c1 -> coloured c2 -> v < length c2 -> w < length c2 -> colour c2 v <> w ->
  J c1 c2 H -> J c1 (upd c2 v w) (nadd H (dH_of (flip R) c2 c1 v w)).
Lemma sees_len st c1 c2 : sees st c1 c2 -> length c1 = length s1 /\ length c2 = length s2 /\ coloured c1 /\ coloured c2 /\ sn (r1 st) = length s1 /\ sn (r2 st) = length s2.
Proof. intros ([C HR M O] & _). splits; try apply M; try apply O. Qed.
Lemma move_ok st c1 c2 i : sees st c1 c2 -> ends rng_err (rec_move lnfact lfsize K tabf charge st i) (fun st' => exists c1' c2', sees st' c1' c2' /\ gmoved (c1, c2, rds st) (c1', c2', rds st')).
Proof.
  intros HS. destruct (sees_len st c1 c2 HS) as (L1 & L2 & K1 & K2 & Z1 & Z2). destruct HS as (PO & HT & HG & HJ & HB). unfold rec_move. destruct (rds st) as [|u ds] eqn:Eds; [left; reflexivity|]. cbn [draw bind].
  assert (HD : Forall good_draw ds) by (inversion HG; subst; eapply Forall_impl; [exact gd_good|assumption]).
  destruct (nltb u (set_ratio (sn (r1 st)) (sn (r2 st)))) eqn:Eu.
  - eapply ends_bind; [apply (attempt_ok K lnfact lfsize charge chg tabok charge_ok _ _ _ _ _ _ _ _ (rH st) _ _ PO N1 HT HD)|]. intros [[[[[g a1] a2] H'] tab'] ds'] X. unfold attempted in X.
    destruct X as (u' & ds1 & w & ds2 & acc & E1 & E2 & E3 & Hv & Hw & Hne & EH & PO' & HT' & HB' & HD'). cbn [ends]. set (v := nfloor (nmul u' (nofnat (length c1)))) in *.
    exists (if acc then upd c1 v w else c1), c2. split.
    + unfold sees. cbn. splits; auto; [eapply Forall_impl; [exact gd_suffix|exact HD']| |eapply sbg_trans; eauto]. rewrite EH. destruct acc; auto.
    + cbn [rds]. apply gm_1; [now rewrite L1, L2, <- Z1, <- Z2|]. exists u', ds1, w, ds2, acc. cbv zeta. fold v. splits; auto. destruct acc; auto using length_upd.
  - eapply ends_bind; [apply (attempt_ok K lnfact lfsize charge chg tabok charge_ok _ _ _ _ _ _ _ _ (rH st) _ _ (pair_swap _ _ _ _ _ _ _ _ _ PO) N2 HT HD)|]. intros [[[[[g a1] a2] H'] tab'] ds'] X. unfold attempted in X.
    destruct X as (u' & ds1 & w & ds2 & acc & E1 & E2 & E3 & Hv & Hw & Hne & EH & PO' & HT' & HB' & HD'). cbn [ends]. set (v := nfloor (nmul u' (nofnat (length c2)))) in *.
    exists c1, (if acc then upd c2 v w else c2). split.
    + unfold sees. cbn. split; [exact (pair_swap _ _ _ _ _ _ _ _ _ PO')|]. splits; auto; [eapply Forall_impl; [exact gd_suffix|exact HD']| |eapply sbg_trans; eauto]. rewrite EH. destruct acc; auto.
    + cbn [rds]. apply gm_2; [now rewrite L1, L2, <- Z1, <- Z2|]. exists u', ds1, w, ds2, acc. cbv zeta. fold v. splits; auto. destruct acc; auto using length_upd.
Qed.
Lemma MCStep_ok factor : step_fine (power gmoved ((length s1 + length s2) * factor)) (MCStep lnfact lfsize K tabf charge factor).
Proof.
  intros st c1 c2 HS. unfold MCStep. destruct (sees_len st c1 c2 HS) as (_ & _ & _ & _ & Z1 & Z2). rewrite Z1, Z2. set (n := (length s1 + length s2) * factor).
  pose proof (foldM_seq_safe (fun i st' => exists c1' c2', sees st' c1' c2' /\ power gmoved i (c1, c2, rds st) (c1', c2', rds st')) rng_err (rec_move lnfact lfsize K tabf charge) n st) as G.
  unfold ends. apply G; [exists c1, c2; split; auto; constructor|]. intros i st1 _ (d1 & d2 & HS1 & HP). pose proof (move_ok st1 d1 d2 i HS1) as X. destruct (rec_move lnfact lfsize K tabf charge st1 i); [|exact X].
  destruct X as (e1 & e2 & HS2 & HQ). exists e1, e2. split; auto. rewrite Nat.add_1_r. econstructor; eauto.
Qed.

(** * Decorrelation *)
Lemma pair_other g g' c1 c2 a1 a2 : pair_ok K g s1 s2 R c1 c2 a1 a2 -> same_but_group g g' -> (forall j, group_of g' j = group_of g j) -> pair_ok K g' s1 s2 R c1 c2 a1 a2.
Proof.
  intros [C HR M O] S G. split.
  - eapply crossed_sbg; eauto.
  - intros. rewrite (ratings_sbg g g'); auto.
  - split; try apply M. eapply groups_of_other; [apply M|]. auto.
  - split; try apply O. eapply groups_of_other; [apply O|]. auto.
Qed.
Notation n12 := (length s1 + length s2).
Lemma decor_one_ok st c1 c2 : sees st c1 c2 -> ends rng_err (decor_one2 lnfact mutual decay_of lfsize K tabf charge st) (fun '(_, _, st') => exists c1' c2' M, sees st' c1' c2' /\ power gmoved M (c1, c2, rds st) (c1', c2', rds st')).
Proof.
  intros HS. unfold decor_one2. cbv zeta. destruct HS as (PO & HT & HG & HJ & HB).
  destruct (CopyPartition_light (rnet st) s1 s2 (sP (r1 st)) c1 (po_cross _ _ _ _ _ _ _ _ _ PO) (so_g _ _ _ _ _ _ _ _ (po_me _ _ _ _ _ _ _ _ _ PO))) as (g1 & ref1 & -> & S1 & G1). cbn [bind].
  pose proof (pair_other _ g1 _ _ _ _ PO S1 G1) as PO1.
  destruct (CopyPartition_light g1 s2 s1 (sP (r2 st)) c2 (crossed_sym _ _ _ (po_cross _ _ _ _ _ _ _ _ _ PO1)) (so_g _ _ _ _ _ _ _ _ (po_oth _ _ _ _ _ _ _ _ _ PO1))) as (g2 & ref2 & -> & S2 & G2). cbn [bind].
  pose proof (pair_other _ g2 _ _ _ _ PO1 S2 G2) as PO2.
  set (x2 := if _ <? _ then _ else _). generalize (seq 0 (x2 + 1)). generalize x2 at 1 2 3 4. intros x1 l.
  apply (ends_bind rng_err _ _ (fun '(st', _, _) => exists c1' c2' M, sees st' c1' c2' /\ power gmoved M (c1, c2, rds st) (c1', c2', rds st'))).
  - apply (ends_foldM rng_err (fun '(st', _, _) => exists c1' c2' M, sees st' c1' c2' /\ power gmoved M (c1, c2, rds st) (c1', c2', rds st'))).
    + intros [[s y1] y2] x _ (d1 & d2 & M & HS1 & HP). unfold decor_step2. eapply ends_bind; [apply (MCStep_ok 1 s d1 d2 HS1)|]. intros s' (e1 & e2 & HS2 & HP2).
      assert (X : exists c1' c2' M0, sees s' c1' c2' /\ power gmoved M0 (c1, c2, rds st) (c1', c2', rds s')) by (exists e1, e2, (M + n12 * 1); split; auto; eapply power_app; eauto). destruct (x =? x1 / 4); exact X.
    + exists c1, c2, 0. split; [|constructor]. unfold sees. cbn. splits; auto. eapply sbg_trans; [|eapply sbg_trans]; eauto.
  - intros [[s y1] y2] X. exact X.
Qed.
Lemma decor_reps_ok fuel : forall left d1 d2 st c1 c2, length d1 + left = 10 -> length d2 + left = 10 -> sees st c1 c2 ->
  ends rng_err (decor_reps2 lnfact mutual decay_of lfsize K tabf charge fuel left d1 d2 st) (fun '(e1, e2, st') => length e1 = 10 /\ length e2 = 10 /\ exists c1' c2' M, sees st' c1' c2' /\ power gmoved M (c1, c2, rds st) (c1', c2', rds st')).
Proof.
  induction fuel as [|f IH]; intros left d1 d2 st c1 c2 L1 L2 HS; destruct left as [|left]; cbn [decor_reps2].
  - cbn [ends]. splits; try lia. exists c1, c2, 0. split; auto. constructor.
  - right. reflexivity.
  - cbn [ends]. splits; try lia. exists c1, c2, 0. split; auto. constructor.
  - eapply ends_bind; [apply (decor_one_ok st c1 c2 HS)|]. intros [[x y] st'] (e1 & e2 & M & HS1 & HP).
    assert (X : forall left d1 d2, length d1 + left = 10 -> length d2 + left = 10 -> ends rng_err (decor_reps2 lnfact mutual decay_of lfsize K tabf charge f left d1 d2 st')
       (fun '(e1, e2, st') => length e1 = 10 /\ length e2 = 10 /\ exists c1' c2' M, sees st' c1' c2' /\ power gmoved M (c1, c2, rds st) (c1', c2', rds st'))).
    { intros l' a1 a2 A1 A2. eapply ends_impl; [apply (IH l' a1 a2 st' e1 e2 A1 A2 HS1)|]. intros [[b1 b2] st''] (B1 & B2 & f1 & f2 & M2 & HS2 & HP2). splits; auto. exists f1, f2, (M + M2). split; auto. eapply power_app; eauto. }
    destruct (_ || _); apply X; rewrite ?app_length; cbn [length]; lia.
Qed.
Lemma decor_ok st c1 c2 : sees st c1 c2 -> ends rng_err (GetDecorrelationStep2 lnfact mutual decay_of lfsize K tabf charge st) (fun '(_, st') => exists c1' c2' M, sees st' c1' c2' /\ power gmoved M (c1, c2, rds st) (c1', c2', rds st')).
Proof.
  intros HS. unfold GetDecorrelationStep2. eapply ends_bind; [apply (decor_reps_ok _ 10 [] [] st c1 c2); auto|]. intros [[d1 d2] st'] (L1 & L2 & X).
  eapply ends_bind; [apply mean_ends; auto|]. intros m1 _. eapply ends_bind; [apply mean_ends; auto|]. intros m2 _.
  destruct (nltb m2 m1); (eapply ends_bind; [apply stddev_ends; auto|]; intros sd _; destruct (fold_left _ _ _) as [r norm]; exact X).
Qed.
End Run.

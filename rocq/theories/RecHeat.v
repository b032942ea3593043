(** RecHeat.v -- sweeps of the Gibbs sampler of src/recommend.c, and its scores. *)
From Coq Require Import List Arith ZArith Bool QArith Qcanon Lia.
From Verif Require Import Base Num ListLib NatSum QcSum MatLib GraphModel GraphSpec GraphProof GroupModel GroupSpec GroupProof NetModel NetCopy ToolsModel ToolsProof ModulesModel SAProof RolesBounds
  BipartModel BipartSpec BipartRen BipartCopy MissModel MissSpec MissStep MissExact MissRun RecModel RecSpec RecSets RecMem RecLinks RecStep RecSetup RecRun RecExact RecEnergy RecClean RecScore RecMain RecGibbs.
Import ListNotations.
Local Open Scope nat_scope.

Lemma cleaned_range K b pos c : in_range K b -> cleaned b pos c -> in_range K c.
Proof.
  intros HI CL x y w Hw. pose proof (cl_bi _ _ _ CL) as Bc. assert (Hn : In y (nbrs (bmem c) x)) by (apply nbrs_weight; congruence).
  assert (X : forall p q, In p (bset1 c) -> In q (bset2 c) -> weight (bmem c) p q = Some w -> exists k, k < K /\ w = Qc_of_nat k).
  { intros p q Hp Hq Hpq. apply In_nth_error in Hp as [i Ei]. apply In_nth_error in Hq as [j Ej].
    destruct (nth_ex (bset1 b) i) as [p' Ep']; [rewrite <- (cl_len1 _ _ _ CL); eapply nth_lt; eauto|]. destruct (nth_ex (bset2 b) j) as [q' Eq']; [rewrite <- (cl_len2 _ _ _ CL); eapply nth_lt; eauto|].
    rewrite (cl_weight _ _ _ CL i j p' q' p q Ep' Ei Eq' Ej) in Hpq. destruct (asked pos i j); [discriminate|]. eapply HI; eauto. }
  destruct (bi_cross c Bc x y Hn) as [[H1 H2]|[H1 H2]]; [eauto|]. rewrite (bi_sym c Bc) in Hw. eauto.
Qed.
Lemma chain_snoc {S} (Q : nat -> S -> S -> Prop) l v s t u : chain Q l s t -> Q v t u -> chain Q (l ++ [v]) s u.
Proof. intros H HQ. induction H as [s|x l s t' t H1 H2 IH]; cbn [app]; econstructor; eauto. constructor. Qed.
Lemma chain_impl {S} (Q Q' : nat -> S -> S -> Prop) : (forall v s t, Q v s t -> Q' v s t) -> forall l s t, chain Q l s t -> chain Q' l s t.
Proof. intros H l s t HC. induction HC; econstructor; eauto. Qed.
Lemma heats_ext ex E E' c v ks u w : (forall c, E c = E' c) -> heats ex E c v ks u w -> heats ex E' c v ks u w.
Proof.
  intros H HH. assert (Eb : forall x, boltz ex E c v x = boltz ex E' c v x) by (intros x; unfold boltz; now rewrite !H). assert (Es : forall l, Qsum (boltz ex E c v) l = Qsum (boltz ex E' c v) l) by (intros; now apply Qsum_ext).
  inversion HH; subst; unfold boltz_all in *; rewrite ?Es, ?Eb in *; [apply he_known|apply he_new]; unfold boltz_all; auto.
Qed.

Section Heat.
Variables ex sq : Qc -> Qc.
Hypothesis ex_pos : forall x, (0 < ex x)%Qc.
Local Instance opsH : NumOps Qc := Qc_ops ex sq.
Variable lnfact : nat -> Qc.
Hypothesis lnfact_0 : lnfact 0 = 0%Qc.
Variable lfsize : nat.
Variable K : nat.
Hypothesis HK : 0 < K.
Let cost := costK lnfact K.
Notation renergy := (renergy lnfact K cost).
Let tabf := InitializeTable lnfact lfsize.
Let charge := chargeK lnfact lfsize K tabf.

Lemma shortlist_ok (g : net Qc) s (P : gpart Qc) c : groups_of g s P c -> shortlist P (length s) = Ok (listed c).
Proof.
  intros I. unfold shortlist. assert (E : map plabel (filter (fun G => (0 <? psize G)%Z) P) = listed c).
  { unfold listed. rewrite (go_len _ _ _ _ I), <- (go_length _ _ _ _ I). pose proof (go_lab _ _ _ _ I) as HL. rewrite <- (go_length _ _ _ _ I) in HL. pose proof (go_size _ _ _ _ I) as HZ. clear I.
    assert (X : forall (Q : gpart Qc) a, map plabel Q = seq a (length Q) -> (forall k G, nth_error Q k = Some G -> psize G = Z.of_nat (csize c (a + k))) -> map plabel (filter (fun G => (0 <? psize G)%Z) Q) = filter (fun k => 0 <? csize c k) (seq a (length Q))).
    { induction Q as [|G Q IH]; intros a H1 H2; [reflexivity|]. cbn [map length seq filter] in *. injection H1 as Ha H1. rewrite (H2 0 G eq_refl), Nat.add_0_r. assert (Zp : (0 <? Z.of_nat (csize c a))%Z = (0 <? csize c a)) by (destruct (Z.ltb_spec 0 (Z.of_nat (csize c a))), (Nat.ltb_spec 0 (csize c a)); auto; lia). rewrite Zp. specialize (IH (S a) H1). rewrite <- IH by (intros k G' Ek; rewrite (H2 (S k) G' Ek); f_equal; f_equal; lia).
      destruct (0 <? csize c a); cbn [map]; congruence. }
    apply (X P 0 HL). exact HZ. }
  rewrite E. destruct (Nat.leb_spec (length (listed c)) (length s)) as [|Hgt]; [reflexivity|]. exfalso. pose proof (short_length _ _ (listed_short c)) as HL. rewrite (go_len _ _ _ _ I) in HL. lia.
Qed.

Section Sweep.
Variables s1 s2 : list nat.
Variable R : nat -> nat -> nat -> bool.
Variable g0 : net Qc.
Let J (c1 c2 : list nat) (H : Qc) : Prop := H = renergy R c1 c2.
Notation sees := (sees K (fun _ => True) s1 s2 R J mid g0).
Notation gmove := (gibbs_move lnfact lfsize K tabf charge).
Lemma move1 st c1 c2 ks1 ks2 v : sees st c1 c2 -> short c1 ks1 -> short c2 ks2 -> v < length s1 -> ends rng_err (gmove (st, ks1, ks2) v) (fun '(st', ks1', ks2') => ks2' = ks2 /\ exists c1',
  sees st' c1' c2 /\ short c1' ks1' /\ regroup ex (fun c => renergy R c c2) v (c1, ks1, rds st) (c1', ks1', rds st')).
Proof.
  intros (PO & _ & HD & HJ & S) S1 S2 Hv. unfold gibbs_move. pose proof (po_me _ _ _ _ _ _ _ _ _ PO) as M. pose proof (po_oth _ _ _ _ _ _ _ _ _ PO) as O. pose proof (so_g _ _ _ _ _ _ _ _ M) as I.
  rewrite (so_n _ _ _ _ _ _ _ _ M), (so_n _ _ _ _ _ _ _ _ O), (so_nl _ _ _ _ _ _ _ _ M), (proj2 (Nat.ltb_lt _ _) Hv). destruct (nth_ex s1 v Hv) as [p Ep]. rewrite (get_some _ _ _ Ep). cbn [bind].
  destruct (hf_num _ _ _ (cr_l _ _ _ (po_cross _ _ _ _ _ _ _ _ _ PO)) v p Ep) as (n & En & _). assert (LA : length c1 = length s1) by apply I.
  assert (Ho : colour c1 v < length s1) by (rewrite <- LA; apply coloured_lt; [apply I|lia]). destruct (go_nth _ _ _ _ _ I Ho) as (Go & EGo & _).
  eapply ends_bind; [apply (gibbs_in_ok ex sq ex_pos lnfact lnfact_0 lfsize K HK _ _ _ _ _ _ _ _ PO v p n Ep En ks1 ks2 S1 S2 Go EGo (Nat.max (length s1) (length s2)) (rH st) (rds st)); [lia|exact HD]|].
  intros [[[[[g' me'] oth'] ks'] H'] ds'] (u & w & Eds & HH & Hw & Eks & EH & PO' & S'). cbn [ends]. split; auto. exists (upd c1 v w). assert (Hc : coloured c1) by apply I. split; [|split].
  - unfold RecRun.sees. cbn [rnet r1 r2 rH rtab rds]. split; [exact PO'|]. split; auto. split; [rewrite Eds in HD; now apply Forall_inv_tail in HD|]. split; [|eapply sbg_trans; eauto]. unfold J in *. rewrite EH, HJ. unfold shift. fold cost. ring.
  - rewrite Eks. apply short_upd; auto. lia.
  - cbn [rds]. rewrite Eds, Eks. constructor. exact HH.
Qed.
Lemma move2 st c1 c2 ks1 ks2 v : sees st c1 c2 -> short c1 ks1 -> short c2 ks2 -> v < length s2 -> ends rng_err (gmove (st, ks1, ks2) (length s1 + v)) (fun '(st', ks1', ks2') => ks1' = ks1 /\ exists c2',
  sees st' c1 c2' /\ short c2' ks2' /\ regroup ex (fun c => renergy R c1 c) v (c2, ks2, rds st) (c2', ks2', rds st')).
Proof.
  intros (PO1 & _ & HD & HJ & S) S1 S2 Hv. pose proof (pair_swap _ _ _ _ _ _ _ _ _ PO1) as PO. unfold gibbs_move. pose proof (po_me _ _ _ _ _ _ _ _ _ PO) as M. pose proof (po_oth _ _ _ _ _ _ _ _ _ PO) as O. pose proof (so_g _ _ _ _ _ _ _ _ M) as I.
  rewrite (so_n _ _ _ _ _ _ _ _ M), (so_n _ _ _ _ _ _ _ _ O), (so_nl _ _ _ _ _ _ _ _ M). destruct (Nat.ltb_spec (length s1 + v) (length s1)); [lia|]. replace (length s1 + v - length s1) with v by lia. destruct (nth_ex s2 v Hv) as [p Ep]. rewrite (get_some _ _ _ Ep). cbn [bind].
  destruct (hf_num _ _ _ (cr_l _ _ _ (po_cross _ _ _ _ _ _ _ _ _ PO)) v p Ep) as (n & En & _). assert (LA : length c2 = length s2) by apply I.
  assert (Ho : colour c2 v < length s2) by (rewrite <- LA; apply coloured_lt; [apply I|lia]). destruct (go_nth _ _ _ _ _ I Ho) as (Go & EGo & _).
  eapply ends_bind; [apply (gibbs_in_ok ex sq ex_pos lnfact lnfact_0 lfsize K HK _ _ _ _ _ _ _ _ PO v p n Ep En ks2 ks1 S2 S1 Go EGo (Nat.max (length s1) (length s2)) (rH st) (rds st)); [lia|exact HD]|].
  intros [[[[[g' me'] oth'] ks'] H'] ds'] (u & w & Eds & HH & Hw & Eks & EH & PO' & S'). cbn [ends]. split; auto. exists (upd c2 v w). assert (Hc : coloured c2) by apply I.
  assert (EF : forall c, renergy (flip R) c c1 = renergy R c1 c) by (intros c; apply renergy_flip; auto). split; [|split].
  - unfold RecRun.sees. cbn [rnet r1 r2 rH rtab rds]. split; [exact (pair_swap _ _ _ _ _ _ _ _ _ PO')|]. split; auto. split; [rewrite Eds in HD; now apply Forall_inv_tail in HD|]. split; [|eapply sbg_trans; eauto]. unfold J in *. rewrite EH, HJ. unfold shift. fold cost. rewrite !EF. ring.
  - rewrite Eks. apply short_upd; auto. lia.
  - cbn [rds]. rewrite Eds, Eks. constructor. eapply heats_ext; [exact EF|exact HH].
Qed.
Lemma moves1 c2 ks2 (S2 : short c2 ks2) l : forall st c1 ks1, sees st c1 c2 -> short c1 ks1 -> (forall v, In v l -> v < length s1) -> ends rng_err (foldM gmove (st, ks1, ks2) l) (fun '(st', ks1', ks2') => ks2' = ks2 /\ exists c1',
  sees st' c1' c2 /\ short c1' ks1' /\ chain (regroup ex (fun c => renergy R c c2)) l (c1, ks1, rds st) (c1', ks1', rds st')).
Proof.
  induction l as [|v l IH]; intros st c1 ks1 HS S1 Hl; cbn [foldM].
  - cbn [ends]. split; auto. exists c1. splits; auto. constructor.
  - eapply ends_bind; [apply (move1 st c1 c2 ks1 ks2 v HS S1 S2); apply Hl; simpl; auto|]. intros [[st1 ks1'] ks2'] (-> & c1' & HS' & S1' & HR). eapply ends_impl; [apply (IH st1 c1' ks1' HS' S1'); intros; apply Hl; simpl; auto|].
    intros [[st2 k1] k2] (-> & c1'' & HS'' & S1'' & HC). split; auto. exists c1''. splits; auto. econstructor; eauto.
Qed.
Lemma moves2 c1 ks1 (S1 : short c1 ks1) l : forall st c2 ks2, sees st c1 c2 -> short c2 ks2 -> (forall v, In v l -> v < length s2) -> ends rng_err (foldM gmove (st, ks1, ks2) (map (fun v => length s1 + v) l)) (fun '(st', ks1', ks2') => ks1' = ks1 /\ exists c2',
  sees st' c1 c2' /\ short c2' ks2' /\ chain (regroup ex (fun c => renergy R c1 c)) l (c2, ks2, rds st) (c2', ks2', rds st')).
Proof.
  induction l as [|v l IH]; intros st c2 ks2 HS S2 Hl; cbn [foldM map].
  - cbn [ends]. split; auto. exists c2. splits; auto. constructor.
  - eapply ends_bind; [apply (move2 st c1 c2 ks1 ks2 v HS S1 S2); apply Hl; simpl; auto|]. intros [[st1 ks1'] ks2'] (-> & c2' & HS' & S2' & HR). eapply ends_impl; [apply (IH st1 c2' ks2' HS' S2'); intros; apply Hl; simpl; auto|].
    intros [[st2 k1] k2] (-> & c2'' & HS'' & S2'' & HC). split; auto. exists c2''. splits; auto. econstructor; eauto.
Qed.
Lemma foldM_app_ends {X Y} (f : X -> Y -> res X) l l' s (P Q : X -> Prop) : ends rng_err (foldM f s l) P -> (forall t, P t -> ends rng_err (foldM f t l') Q) -> ends rng_err (foldM f s (l ++ l')) Q.
Proof. intros H1 H2. rewrite foldM_app. eapply ends_bind; eauto. Qed.
Lemma GibbsStep_ok : step_fine K (fun _ => True) s1 s2 R J mid g0 (sweep ex (renergy R)) (GibbsStep lnfact lfsize K tabf charge).
Proof.
  intros st c1 c2 HS. pose proof HS as (PO & _). unfold GibbsStep. pose proof (po_me _ _ _ _ _ _ _ _ _ PO) as M. pose proof (po_oth _ _ _ _ _ _ _ _ _ PO) as O.
  rewrite (so_n _ _ _ _ _ _ _ _ M), (so_n _ _ _ _ _ _ _ _ O). rewrite (shortlist_ok _ _ _ _ (so_g _ _ _ _ _ _ _ _ M)), (shortlist_ok _ _ _ _ (so_g _ _ _ _ _ _ _ _ O)). cbn [bind].
  assert (L1 : length c1 = length s1) by apply M. assert (L2 : length c2 = length s2) by apply O.
  rewrite seq_app. assert (Esq : seq (0 + length s1) (length s2) = map (fun v => length s1 + v) (seq 0 (length s2))). { apply nth_ext. intros i. rewrite nth_error_map. destruct (Nat.lt_ge_cases i (length s2)) as [Hi|Hi]; [rewrite !nth_error_seq by auto; reflexivity|]. rewrite !(proj2 (nth_error_None _ _)); auto; now rewrite seq_length. }
  rewrite Esq. eapply ends_bind.
  - eapply foldM_app_ends; [apply (moves1 c2 (listed c2) (listed_short c2) (seq 0 (length s1)) st c1 (listed c1) HS (listed_short c1)); intros v Hv; apply in_seq in Hv; lia|].
    intros [[st1 ks1] ks2] (-> & c1' & HS1 & S1 & HC1). eapply ends_impl; [apply (moves2 c1' ks1 S1 (seq 0 (length s2)) st1 c2 (listed c2) HS1 (listed_short c2)); intros v Hv; apply in_seq in Hv; lia|].
    intros [[st2 k1] ks2] (-> & c2' & HS2 & S2 & HC2). instantiate (1 := fun '(st', _, _) => exists c1' c2', sees st' c1' c2' /\ sweep ex (renergy R) (c1, c2, rds st) (c1', c2', rds st')). cbv beta iota. exists c1', c2'. split; auto.
    unfold sweep. exists (rds st1), ks1, ks2. rewrite L1, L2. auto.
  - intros [[st' k1] k2] H. exact H.
Qed.
End Sweep.

Variable b : binet Qc.
(** The scores come from samples one sweep apart. *)
Definition gsampled (pos : list (nat * nat)) (nIter : nat) (ds : list Qc) (l : list (rstate Qc)) : Prop :=
  let R := hide pos (ratings (bmem b) (bset1 b) (bset2 b)) in
  let E := renergy R in
  length l = nIter /\ exists M sB sE, power (sweep ex E) M (seq 0 (length (bset1 b)), seq 0 (length (bset2 b)), ds) sB /\ visits (sweep ex E) sB l sE.
Theorem gibbs_scores qs pos nIter ds : rating_net K b -> Forall2 (located (bset1 b) (bset2 b)) qs pos -> Forall mid ds ->
  ends rng_err (GibbsMultiLinkScoreKState lnfact lfsize K b qs nIter ds) (fun scores => exists l, gsampled pos nIter ds l /\
    scores = map (means (hide pos (ratings (bmem b) (bset1 b) (bset2 b))) K l) pos).
Proof.
  intros [B D1 D2 Fit HI N1 N2] HQ HD. unfold GibbsMultiLinkScoreKState. destruct (clean_ratings_ok b qs pos B D1 D2 Fit HQ) as (c & qs' & Ecl & CL & HQ').
  match goal with |- ends _ (bind ?m _) _ => replace m with (Ok (c, qs')) by (symmetry; exact Ecl) end. cbn [bind]. set (R := hide pos (ratings (bmem b) (bset1 b) (bset2 b))).
  assert (HR : forall k i j, ratings (bmem c) (bset1 c) (bset2 c) k i j = R k i j) by (intros; now apply cleaned_ratings).
  set (J := fun c1 c2 H => H = renergy R c1 c2).
  destruct (start_ok ex sq lnfact K (HKState lnfact K) cost (fun _ => True) (energyK ex sq lnfact K HK) c [] ds J mid R (cl_bi _ _ _ CL) (cleaned_range K b pos c HI CL) I HD HR eq_refl) as (st & Est & HS & Hds).
  match goal with |- ends _ (bind ?m _) _ => replace m with (Ok st) by (symmetry; exact Est) end. cbn [bind].
  assert (L1 : length (bset1 c) = length (bset1 b)) by apply CL. assert (L2 : length (bset2 c) = length (bset2 b)) by apply CL.
  assert (M1 : 0 < length (bset1 c)) by lia. assert (M2 : 0 < length (bset2 c)) by lia. pose proof (GibbsStep_ok (bset1 c) (bset2 c) R (bmem c)) as GS.
  eapply ends_bind; [apply (thermalize_ok K (fun _ => True) (bset1 c) (bset2 c) R M1 M2 J mid (bmem c) _ _ GS st _ _ HS)|]. intros st1 (c1 & c2 & M & HS1 & HP1).
  eapply ends_bind; [apply (score_all_ok K (fun _ => True) (bset1 c) (bset2 c) R M1 M2 J mid (bmem c) _ _ GS qs' pos HQ' dropped false ltac:(discriminate) nIter st1 c1 c2 HS1)|].
  intros [scores st2] (f1 & f2 & M4 & sB & l & HS4 & HP4 & HV & HL & ->). cbn [ends]. exists l. split.
  - split; auto. exists (M + M4), sB, (f1, f2, rds st2). rewrite <- L1, <- L2, <- Hds. split; auto. eapply power_app; eauto.
  - rewrite <- HL. apply map_ext. intros ij. apply (totals_means ex sq).
Qed.
(** The energy along the way. *)
Definition greached (ds : list Qc) (times : nat) : res (rec Qc) :=
  do st <- rec_setup K (HKState lnfact K) [] b ds;
  foldM (fun st _ => GibbsStep lnfact lfsize K tabf charge st) st (seq 0 times).
Theorem gibbs_energy ds times : bipartite b -> in_range K b -> 0 < length (bset1 b) -> 0 < length (bset2 b) -> Forall mid ds ->
  let E := renergy (ratings (bmem b) (bset1 b) (bset2 b)) in
  ends rng_err (greached ds times) (fun st => HKState lnfact K (rnet st) (sP (r1 st)) (sP (r2 st)) = Ok (rH st) /\ exists c1 c2,
    (forall i p, nth_error (bset1 b) i = Some p -> group_of (rnet st) p = Some (colour c1 i)) /\ (forall j p, nth_error (bset2 b) j = Some p -> group_of (rnet st) p = Some (colour c2 j)) /\
    rH st = E c1 c2 /\ power (sweep ex E) times (seq 0 (length (bset1 b)), seq 0 (length (bset2 b)), ds) (c1, c2, rds st)).
Proof.
  intros B HI N1 N2 HD E. unfold greached. set (R := ratings (bmem b) (bset1 b) (bset2 b)) in *. set (J := fun c1 c2 H => H = renergy R c1 c2).
  destruct (start_ok ex sq lnfact K (HKState lnfact K) cost (fun _ => True) (energyK ex sq lnfact K HK) b [] ds J mid R B HI I HD (fun _ _ _ => eq_refl) eq_refl) as (st & Est & HS & Hds).
  match goal with |- ends _ (bind ?m _) _ => replace m with (Ok st) by (symmetry; exact Est) end. cbn [bind]. pose proof (GibbsStep_ok (bset1 b) (bset2 b) R (bmem b)) as GS.
  apply (ends_impl rng_err _ (fun st' => exists c1 c2, sees K (fun _ => True) (bset1 b) (bset2 b) R J mid (bmem b) st' c1 c2 /\ power (sweep ex E) times (seq 0 (length (bset1 b)), seq 0 (length (bset2 b)), ds) (c1, c2, rds st'))).
  - pose proof (foldM_seq_safe (fun i st' => exists c1 c2, sees K (fun _ => True) (bset1 b) (bset2 b) R J mid (bmem b) st' c1 c2 /\ power (sweep ex E) i (seq 0 (length (bset1 b)), seq 0 (length (bset2 b)), ds) (c1, c2, rds st')) rng_err
      (fun st _ => GibbsStep lnfact lfsize K tabf charge st) times st) as G.
    unfold ends. apply G; [eexists; eexists; split; [exact HS|rewrite Hds; constructor]|]. intros i st1 _ (c1 & c2 & HS1 & HP). pose proof (GS st1 c1 c2 HS1) as X.
    destruct (GibbsStep lnfact lfsize K tabf charge st1) as [st2|e]; [|exact X]. destruct X as (d1 & d2 & HS2 & HW). exists d1, d2. split; auto. rewrite Nat.add_1_r. econstructor; eauto.
  - intros st' (c1 & c2 & (PO & _ & _ & HJ & S) & HP). split.
    + rewrite (HKState_exact ex sq lnfact (rnet st') (bset1 b) (bset2 b) c1 c2); auto; [|apply PO|apply PO|apply PO|].
      * rewrite HJ. f_equal. unfold RecSpec.renergy. f_equal. f_equal. apply Qsum_ext. intros a _. apply Qsum_ext. intros e _. fold cost. f_equal. unfold tallies. apply map_ext. intros k. apply tally_ext. intros. symmetry. apply (po_R _ _ _ _ _ _ _ _ _ PO).
      * intros p q w _ _ Hw. rewrite (sbg_weight _ _ p q S) in Hw. eapply HI; eauto.
    + exists c1, c2. splits; auto.
      * intros i p Ei. apply (go_group _ _ _ _ (so_g _ _ _ _ _ _ _ _ (po_me _ _ _ _ _ _ _ _ _ PO))). auto.
      * intros i p Ei. apply (go_group _ _ _ _ (so_g _ _ _ _ _ _ _ _ (po_oth _ _ _ _ _ _ _ _ _ PO))). auto.
Qed.
End Heat.

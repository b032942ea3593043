(** RecExact.v -- the recommender's energy and its Metropolis rule, in exact arithmetic. *)
From Coq Require Import List Arith ZArith Bool QArith Qcanon Lia.
From Verif Require Import Base Num ListLib NatSum QcSum MatLib GraphModel GraphSpec GraphProof GroupModel GroupSpec GroupProof NetModel ToolsModel ToolsProof ModulesModel SAProof
  BipartModel BipartSpec MissModel MissSpec MissStep MissExact RecModel RecSpec RecSets RecMem RecLinks RecStep RecSetup RecRun.
Import ListNotations.
Local Open Scope nat_scope.

Section Exact.
Variables ex sq : Qc -> Qc.
Local Instance opsR : NumOps Qc := Qc_ops ex sq.
Variable logf : nat -> Qc.
Variable lnchoose : nat -> nat -> Qc.
Variable lnfact : nat -> Qc.
Variables llsize lcsize lfsize : nat.

Definition schg (cost : list nat -> Qc) (s : bool) (d : Qc) (cs : list nat) : Qc := (if s then d + cost cs else d - cost cs)%Qc.

(** * The two kinds of terms *)
Lemma charge2_ok s d tab cs : lc_table lnchoose lcsize tab -> length cs = 2 ->
  exists tab', charge2 logf lnchoose llsize lcsize (InitializeTable logf llsize) s (d, tab) (map Z.of_nat cs) = Ok (schg (cost2 logf lnchoose) s d cs, tab') /\ lc_table lnchoose lcsize tab'.
Proof.
  intros HT L. destruct cs as [|c0 [|c1 [|? ?]]]; try discriminate L. cbn [map charge2]. rewrite <- Nat2Z.inj_add, !nat_of_nat. cbn [bind]. rewrite (table_value logf llsize (c0 + c1 + 1)). cbn [bind].
  destruct (lc_query (ops := opsR) lnchoose lcsize tab (c0 + c1) c1 eq_refl HT (Nat.le_add_l c1 c0)) as (tab' & E & HT'). rewrite E. cbn [bind]. exists tab'. split; auto.
Qed.
Lemma chargeK_ok K s d tab cs : 0 < K -> length cs = K ->
  exists tab', chargeK lnfact lfsize K (InitializeTable lnfact lfsize) s (d, tab) (map Z.of_nat cs) = Ok (schg (costK lnfact K) s d cs, tab') /\ True.
Proof.
  intros HK L. exists tab. split; auto. unfold chargeK. rewrite fold_Z. replace (0 + Z.of_nat (lsum (fun x => x) cs) + Z.of_nat K - 1)%Z with (Z.of_nat (lsum (fun x => x) cs + K - 1)) by lia. rewrite nat_of_nat. cbn [bind].
  rewrite (table_value lnfact lfsize _). cbn [bind]. set (x := lnfact _).
  assert (E : forall cs d, foldM (fun d c => do c <- nat_of c; do x <- FastTable lnfact c (InitializeTable lnfact lfsize) lfsize; Ok (signed s d (nopp x))) d (map Z.of_nat cs) = Ok (if s then d - Qsum lnfact cs else d + Qsum lnfact cs)%Qc).
  { induction cs0 as [|c cs' IH]; intros e; cbn [map foldM Qsum]; [f_equal; destruct s; ring|]. rewrite nat_of_nat. cbn [bind]. rewrite (table_value lnfact lfsize c). cbn [bind]. rewrite IH. f_equal. unfold signed. cbn. destruct s; ring. }
  rewrite E. cbn [bind]. f_equal. f_equal. unfold schg, costK, signed. fold x. cbn. destruct s; ring.
Qed.

(** * Differences of energies *)
Section Diff.
Variable K : nat.
Variable cost : list nat -> Qc.
Notation chg := (schg cost).
Notation renergy := (renergy lnfact K cost).
Notation T R := (tallies R K).
Lemma chargeA_sum s R o w c c' d : chargeA K chg s R o w c c' d =
  (let S := Qsum (fun b => if 0 <? csize c' b then cost (T R c c' o b) + cost (T R c c' w b) else 0) (seq 0 (length c')) in if s then d + S else d - S)%Qc.
Proof.
  unfold chargeA. cbv zeta. generalize (seq 0 (length c')) as l. intros l. revert d. induction l as [|b l IH]; intros d; cbn [fold_left Qsum]; [destruct s; ring|]. rewrite IH. unfold schg. destruct (0 <? csize c' b), s; ring.
Qed.
Lemma Qsum_two (f : nat -> Qc) N o w : o < N -> w < N -> o <> w -> (forall k, k < N -> k <> o -> k <> w -> f k = 0%Qc) -> Qsum f (seq 0 N) = (f o + f w)%Qc.
Proof.
  intros Ho Hw Hne H. rewrite (Qsum_ext _ (fun k => ((if k =? o then f k else 0) + (if k =? w then f k else 0))%Qc)).
  - rewrite Qsum_add, !Qsum_single; auto using seq_NoDup; apply in_seq; lia.
  - intros k Hk. apply in_seq in Hk. destruct (Nat.eqb_spec k o) as [E1|E1], (Nat.eqb_spec k w) as [E2|E2]; subst; try congruence; try ring. rewrite H by (auto; lia). ring.
Qed.
Lemma dH_exact R c c' v w : coloured c -> v < length c -> w < length c -> colour c v <> w ->
  dH_of K lnfact chg R c c' v w = (renergy R (upd c v w) c' - renergy R c c')%Qc.
Proof.
  intros HC Hv Hw Hne. set (o := colour c v) in *. assert (Ho : o < length c) by (apply coloured_lt; auto). unfold dH_of. fold o. cbv zeta. rewrite !chargeA_sum. cbv zeta.
  pose proof (used_upd c v w HC Hv Hw Hne) as HU. fold o in HU.
  set (l := seq 0 (length c')). set (F := fun c a b => cost (T R c c' a b)).
  assert (ES : forall c0, Qsum (fun b => if 0 <? csize c' b then cost (T R c0 c' o b) + cost (T R c0 c' w b) else 0)%Qc l =
    (Qsum (F c0 o) l + Qsum (F c0 w) l - Qsum (fun b => if 0 <? csize c' b then 0 else (cost (map (fun _ => O) (seq 0 K)) + cost (map (fun _ => O) (seq 0 K)))%Qc) l)%Qc).
  { intros c0. rewrite <- Qsum_add, <- Qsum_sub. apply Qsum_ext. intros b _. destruct (Nat.ltb_spec 0 (csize c' b)) as [|Hz]; unfold F; [ring|].
    assert (ET : forall a, T R c0 c' a b = map (fun _ => O) (seq 0 K)) by (intros a; unfold tallies; apply map_ext; intros k; apply tally_empty_r; lia). rewrite !ET. ring. }
  assert (EL : forall a, a <> o -> a <> w -> forall b, T R (upd c v w) c' a b = T R c c' a b).
  { intros a H1 H2 b. unfold tallies. apply map_ext. intros k. pose proof (tally_upd R c c' v w k a b Hv) as X. fold o in X. destruct (Nat.eqb_spec o a); [congruence|]. destruct (Nat.eqb_spec w a); [congruence|]. lia. }
  unfold RecSpec.renergy. rewrite length_upd. fold l.
  assert (ED : (Qsum (fun a => Qsum (fun b => cost (T R (upd c v w) c' a b)) l) (seq 0 (length c)) - Qsum (fun a => Qsum (fun b => cost (T R c c' a b)) l) (seq 0 (length c)) =
     (Qsum (F (upd c v w) o) l - Qsum (F c o) l) + (Qsum (F (upd c v w) w) l - Qsum (F c w) l))%Qc).
  { rewrite <- Qsum_sub. rewrite (Qsum_two _ (length c) o w Ho Hw Hne); [reflexivity|]. intros k _ H1 H2. rewrite (Qsum_ext _ (fun b => cost (T R c c' k b))); [ring|]. intros b _. now rewrite EL. }
  match goal with |- ?lhs = _ => transitivity ((Qsum (F (upd c v w) o) l - Qsum (F c o) l) + (Qsum (F (upd c v w) w) l - Qsum (F c w) l) - lnfact (length c - used (upd c v w)) + lnfact (length c - used c))%Qc end.
  - rewrite !ES. destruct ((csize c o =? 1) || (csize c w =? 0)) eqn:Eb; cbn; [ring|]. apply orb_false_iff in Eb as [E1 E2]. rewrite E1, E2 in HU. cbn [one] in HU. replace (used (upd c v w)) with (used c) by lia. ring.
  - rewrite <- ED. ring.
Qed.
Lemma renergy_flip R c1 c2 : renergy (flip R) c2 c1 = renergy R c1 c2.
Proof.
  unfold RecSpec.renergy. rewrite Qsum_swap. rewrite (Qsum_ext _ (fun a => Qsum (fun b => cost (T R c1 c2 a b)) (seq 0 (length c2)))); [ring|]. intros a _. apply Qsum_ext. intros b _. f_equal. unfold tallies. apply map_ext. intros k. symmetry. apply tally_flip.
Qed.
Lemma J1 R off c1 c2 H v w : coloured c1 -> v < length c1 -> w < length c1 -> colour c1 v <> w -> H = (renergy R c1 c2 + off)%Qc -> nadd H (dH_of K lnfact chg R c1 c2 v w) = (renergy R (upd c1 v w) c2 + off)%Qc.
Proof. intros HC Hv Hw Hne ->. rewrite dH_exact by auto. cbn. ring. Qed.
Lemma J2 R off c1 c2 H v w : coloured c2 -> v < length c2 -> w < length c2 -> colour c2 v <> w -> H = (renergy R c1 c2 + off)%Qc -> nadd H (dH_of K lnfact chg (flip R) c2 c1 v w) = (renergy R c1 (upd c2 v w) + off)%Qc.
Proof. intros HC Hv Hw Hne ->. rewrite dH_exact by auto. rewrite !renergy_flip. cbn. ring. Qed.

(** * The Metropolis rule *)
Lemma redraw_picks n o ds : forall w ds2, redraw n o ds = Ok (w, ds2) -> picks n o ds w ds2.
Proof.
  induction ds as [|u ds IH]; intros w ds2 H; [discriminate|]. cbn [redraw] in H. change (nfloor (nmul u (nofnat n))) with (selects n u) in H. destruct (Nat.eqb_spec (selects n u) o) as [E|E].
  - apply picks_next; auto.
  - injection H as <- <-. now apply picks_now.
Qed.
Lemma chosen_changes R cA cB ds cA' ds' : chosen K lnfact chg R cA cB ds cA' ds' -> changes ex (fun c => renergy R c cB) cA ds cA' ds'.
Proof.
  intros (u & ds1 & w & ds2 & acc & H). cbv zeta in H. destruct H as (-> & E1 & E2 & Hv & Hw & Hne & HC & _ & ->). set (v := nfloor (nmul u (nofnat (length cA)))) in *.
  assert (EP : picks (length cA) (colour cA v) ds1 w ds2) by (now apply redraw_picks). assert (Ev : selects (length cA) u = v) by reflexivity.
  assert (ED : dH_of K lnfact chg R cA cB v w = (renergy R (upd cA v w) cB - renergy R cA cB)%Qc) by (apply dH_exact; auto). rewrite ED in E2. unfold accepts in E2. cbn [nleb opsR Qc_ops n0] in E2.
  destruct (Qc_leb _ 0) eqn:Eb.
  - injection E2 as <- <-. apply Qc_leb_spec in Eb. apply (proj1 (Qc_sub_neg _ _)) in Eb. pose proof (ch_down ex (fun c => renergy R c cB) cA u ds1 w ds2) as X. cbv zeta in X. rewrite Ev in X. auto.
  - apply Qc_leb_no in Eb. assert (Hup : (renergy R cA cB < renergy R (upd cA v w) cB)%Qc) by (apply Qcnot_le_lt; intros X; apply (proj2 (Qc_sub_neg _ _)) in X; apply Qcle_not_lt in X; contradiction).
    destruct ds2 as [|u' ds2]; [discriminate|]. cbn [draw bind] in E2. injection E2 as E3 E4. subst ds2. cbn [nltb nexp nopp opsR Qc_ops] in E3. replace (- (renergy R (upd cA v w) cB - renergy R cA cB))%Qc with (renergy R cA cB - renergy R (upd cA v w) cB)%Qc in E3 by ring.
    destruct acc.
    + pose proof (ch_up ex (fun c => renergy R c cB) cA u ds1 w u' ds') as X. cbv zeta in X. rewrite Ev in X. apply X; auto. now apply Qc_ltb_true.
    + pose proof (ch_stay ex (fun c => renergy R c cB) cA u ds1 w u' ds') as X. cbv zeta in X. rewrite Ev in X. apply X; auto. now apply Qc_ltb_false.
Qed.
Lemma gmoved_rattempt R s t : gmoved K lnfact chg R s t -> rattempt ex (renergy R) s t.
Proof.
  assert (ER : forall n m, set_ratio n m = share n m). { intros n m. unfold set_ratio, share. cbn [ndiv nofQ opsR Qc_ops]. f_equal; apply Qc_is_canon; unfold Qc_of_nat, Qcminus, Qcplus, Qcopp; cbn [this Q2Qc]; rewrite !Qred_correct; unfold inject_Z, Qeq; cbn [Qplus Qopp Qnum Qden]; rewrite ?Nat2Z.inj_mul; cbn; lia. }
  intros H. destruct H as [u ds c1 c2 c1' ds' Hu HC|u ds c1 c2 c2' ds' Hu HC]; rewrite ER in Hu; cbn [nltb opsR Qc_ops] in Hu; [apply Qc_ltb_true in Hu|apply Qc_ltb_false in Hu].
  - apply ra_person; auto. now apply chosen_changes.
  - apply ra_item; auto. apply chosen_changes in HC. assert (X : forall c, renergy R c1 c = renergy (flip R) c c1) by (intros c; symmetry; apply renergy_flip).
    clear - HC X. inversion HC; subst; subst v; rewrite <- ?X in *; [eapply ch_down|eapply ch_up|eapply ch_stay]; eauto.
Qed.
End Diff.
End Exact.

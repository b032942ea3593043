(** MbStep.v -- the Monte Carlo step of src/multiblock.c and src/only_deg.c: what it adds to the energy, the table of links
    between groups, and the harmonic numbers that it reads. *)
From Coq Require Import List Arith ZArith Bool QArith Qcanon Lia.
From Verif Require Import Base Num ListLib NatSum QcSum GraphModel GraphSpec GraphProof GroupModel GroupSpec PairSum GroupProof GroupExact MatLib
  ToolsModel ToolsProof ModulesModel SAProof MissModel MissSpec MissSets MissStep MbModel MbSpec.
Import ListNotations.
Local Open Scope nat_scope.

Lemma ends_weaken {X} (E E' : err -> Prop) (m : res X) (Q : X -> Prop) : ends E m Q -> (forall e, E e -> E' e) -> ends E' m Q.
Proof. destruct m; simpl; auto. Qed.
Lemma choose2_mono a b : a <= b -> choose2 a <= choose2 b.
Proof. induction 1 as [|b _ IH]; auto. pose proof (choose2_S b). rewrite Nat.add_1_r in H. lia. Qed.
Lemma mul_choose2 a : forall b, a * b <= choose2 (a + b).
Proof.
  induction b as [|b IH]; [lia|]. replace (a + S b) with (a + b + 1) by lia. rewrite choose2_S. lia.
Qed.
Lemma some_sizes N M ks : assigned N M -> NoDup ks -> (forall k, In k ks -> k < N) -> lsum (fun k => length (nth_members M k)) ks <= N.
Proof.
  intros HA ND HK. rewrite (lsum_members _ ks N ND HK). rewrite <- (sizes_sum N M HA) at 2. apply lsum_le. intros k _. destruct (mem k ks); lia.
Qed.
Lemma hsum_diff a b : a <= b -> hsum a b = (Qsum (fun j => 1 / Qc_of_nat j) (seq 1 b) - Qsum (fun j => 1 / Qc_of_nat j) (seq 1 a))%Qc.
Proof.
  intros H. unfold hsum. replace b with (a + (b - a)) at 2 by lia. rewrite seq_app, Qsum_app. rewrite (Nat.add_comm 1 a). ring.
Qed.

Section Step.
Variables ex sq : Qc -> Qc.
Local Instance rops : NumOps Qc := Qc_ops ex sq.
Variable ln : Qc -> Qc.
Variable lnchoose : nat -> nat -> Qc.
Variable lnfact : nat -> Qc.
Variables lcsize lfsize : nat.
Variable linC : Qc.
Variable kd : kind.
Variable g0 : net Qc.
Hypothesis U0 : undirected g0.
Let N := length g0.

(** The terms of this sampler as those of src/missing.c with other functions. *)
Definition logf (n : nat) : Qc := ln (Qc_of_nat n).
Definition lnch (r l : nat) : Qc := (lnchoose r l - match kd with AND => ln (hsum l (r + 1)) | OR => ln (hsum (r - l) (r + 1)) | OD => 0 end)%Qc.
Definition lnfd (d : nat) : Qc := (lnfact d + degeneracy ln kd (length g0 - d))%Qc.

Variable hl : list Qc.
Hypothesis Hhl : forall i, i < length hl -> nth_error hl i = Some (Qsum (fun j => 1 / Qc_of_nat j) (seq 1 i))%Qc.
Definition mb_err (e : err) : Prop := e = RngOut \/ e = Diverge \/ (e = UB_oob /\ kd <> OD /\ length hl < choose2 N + 3).
Variable J : groups -> Qc -> list Qc -> Prop.
Hypothesis J_move : attempt_ok logf lnch lnfd linC g0 J.
Notation pinv := (pinv g0).
Notation ident := (ident g0).
Notation tfact := (InitializeTable lnfact lfsize).

Record binv (st : mc Qc) : Prop := {
  bi_p : pinv (mnet st) (mpart st);
  bi_g2g : table_exact g0 (abs (mpart st)) (mG2G st);
  bi_len : length (mn2g st) = N;
  bi_tab : lc_table lnchoose lcsize (mtab st);
  bi_ds : Forall good_draw (mds st);
  bi_J : J (abs (mpart st)) (mH st) (mds st)
}.

Lemma hl_get i : kd <> OD -> i <= choose2 N + 2 -> ends mb_err (get hl i) (fun x => x = Qsum (fun j => 1 / Qc_of_nat j) (seq 1 i))%Qc.
Proof.
  intros Hk Hi. unfold get. destruct (Nat.lt_ge_cases i (length hl)) as [L|L]; [now rewrite (Hhl i L)|].
  rewrite (proj2 (nth_error_None _ _) L). right; right. splits; auto. lia.
Qed.
Definition hterm (r l : nat) : option Qc := match kd with AND => Some (ln (hsum l (r + 1))) | OR => Some (ln (hsum (r - l) (r + 1))) | OD => None end.
Lemma harm_ok r l : l <= r -> r <= choose2 N -> ends mb_err (harm ln kd hl r l) (fun h => h = hterm r l).
Proof.
  intros Hl Hr. unfold harm, hterm.
  assert (HH : forall i, kd <> OD -> i <= r -> ends mb_err (do a <- get hl (r + 1); do b <- get hl i; Ok (Some (ln (nsub a b)))) (fun h => h = Some (ln (hsum i (r + 1))))).
  { intros i Hk Hi. eapply ends_bind; [apply hl_get; auto; lia|]. intros a ->. eapply ends_bind; [apply hl_get; auto; lia|]. intros b ->. cbn [ends]. do 2 f_equal. rewrite hsum_diff by lia. reflexivity. }
  destruct kd; [apply HH; [discriminate|lia]| |reflexivity].
  replace (Z.of_nat r - Z.of_nat l)%Z with (Z.of_nat (r - l)) by lia. rewrite nat_of_nat. cbn [bind]. apply HH; [discriminate|lia].
Qed.
Lemma deg_ok n : LogDegeneracy ln kd n = Ok (degeneracy ln kd n).
Proof.
  unfold LogDegeneracy, degeneracy. destruct (Nat.ltb_spec n 150) as [H|H]; [|reflexivity].
  assert (G : forall t : list Q, length t = 150 -> (do x <- get t n; Ok (nofQ x)) = Ok (Q2Qc (nth n t 0%Q))).
  { intros t L. unfold get. rewrite (nth_error_nth' t 0%Q) by lia. reflexivity. }
  destruct kd; apply G; reflexivity.
Qed.
Lemma neg_small : nltb (nofQ (-1 # 1)) n0 = true.
Proof. reflexivity. Qed.
Lemma term_ok s d tab r l zr zl : lc_table lnchoose lcsize tab -> zr = Z.of_nat r -> zl = Z.of_nat l -> l <= r -> r <= choose2 N ->
  ends mb_err (mb_term ln lnchoose lcsize kd s hl (d, tab) zr zl) (fun '(d', tab') => d' = apply1 logf lnch d (s, r, l) /\ lc_table lnchoose lcsize tab').
Proof.
  intros HT -> -> Hl Hr. unfold mb_term. rewrite !nat_of_nat. cbn [bind fst snd]. destruct (lc_query lnchoose lcsize tab r l neg_small HT Hl) as (tab' & -> & HT'). cbn [bind].
  eapply ends_bind; [apply harm_ok; auto|]. intros h ->. cbn [ends]. split; auto. unfold hterm, apply1, tcost, logf, lnch. cbn [nadd nsub nopp nofnat rops Qc_ops]. destruct kd, s; ring.
Qed.

Lemma group_ok g P M G2G v o w Go Gw n2o n2w w2o d tab n2g eff lab : pinv g P -> M = abs P -> table_exact g0 M G2G ->
  o < N -> w < N -> o <> w -> In v (nth_members M o) -> nth_error P o = Some Go -> nth_error P w = Some Gw ->
  n2o = Z.of_nat (to_set g0 v (nth_members M o)) -> n2w = Z.of_nat (to_set g0 v (nth_members M w)) -> w2o = Z.of_nat (across g0 (nth_members M w) (nth_members M o)) ->
  lab < N -> length n2g = N -> lc_table lnchoose lcsize tab ->
  ends mb_err (mb_group ln lnchoose lcsize kd g P hl G2G v Go Gw n2o n2w w2o ((d, tab), n2g, eff) lab)
    (fun '((d', tab'), n2g', eff') => d' = fold_left (apply1 logf lnch) (dterms g0 M v o w lab) d /\ lc_table lnchoose lcsize tab' /\
       n2g' = upd n2g lab (Some (Z.of_nat (to_set g0 v (nth_members M lab)))) /\ eff' = eff + (if nonempty (nth_members M lab) then 1 else 0)).
Proof.
  intros I EM HG Ho Hw Hne Hv EGo EGw -> -> -> Hlab Ln HT. pose proof (pi_as _ _ _ I) as AS. rewrite <- EM in AS. fold N in AS.
  assert (Hvn : v < N) by (eapply as_range; eauto). assert (Hvw : ~ In v (nth_members M w)) by (intros K; apply Hne; eapply as_apart; eauto).
  destruct (pi_group g0 g P I o Ho) as (G & E & Elo & Emo & Eso & Eio). rewrite EGo in E. injection E as <-.
  destruct (pi_group g0 g P I w Hw) as (G & E & Elw & Emw & Esw & Eiw). rewrite EGw in E. injection E as <-.
  destruct (pi_group g0 g P I lab Hlab) as (G & EG & El & Em & Es & Ei).
  assert (S2 : length (nth_members M o) + length (nth_members M w) <= N).
  { pose proof (some_sizes N M [o; w] AS) as H. cbn [lsum] in H. rewrite Nat.add_0_r in H. apply H; [repeat constructor; simpl; intuition|]. intros k [<-|[<-|[]]]; auto. }
  assert (S3 : lab <> o -> lab <> w -> length (nth_members M o) + length (nth_members M w) + length (nth_members M lab) <= N).
  { intros K1 K2. pose proof (some_sizes N M [o; w; lab] AS) as H. cbn [lsum] in H. rewrite Nat.add_0_r, Nat.add_assoc in H. apply H; [repeat constructor; simpl; intuition|]. intros k [<-|[<-|[<-|[]]]]; auto. }
  unfold mb_group. rewrite (get_ok _ _ _ EG). cbn [bind]. rewrite El, Elo, Elw, Es, Eso, Esw, Eio, Eiw, nonempty_len. rewrite <- EM.
  unfold dterms. set (So := nth_members M o) in *. set (Sw := nth_members M w) in *. set (S := nth_members M lab) in *.
  assert (NDo : NoDup So) by apply AS. assert (NDw : NoDup Sw) by apply AS. assert (NDS : NoDup S) by apply AS.
  assert (RO : forall i, In i So -> i < N) by (intros i; apply (as_range _ _ AS o)). assert (RW : forall i, In i Sw -> i < N) by (intros i; apply (as_range _ _ AS w)).
  set (So' := remove1 v So). set (Sw' := Sw ++ [v]).
  assert (Lo : length So = length So' + 1) by (apply length_remove1; auto).
  assert (Lw : length Sw' = length Sw + 1) by (unfold Sw'; rewrite app_length; reflexivity).
  assert (NDo' : NoDup So') by (apply remove1_nodup; auto).
  assert (RO' : forall i, In i So' -> i < N) by (intros i Hi; apply remove1_In in Hi; apply RO; tauto).
  assert (Io : links_in g0 So = links_in g0 So' + to_set g0 v So) by (apply links_in_remove; auto).
  assert (Iw : links_in g0 Sw' = links_in g0 Sw + to_set g0 v Sw) by (apply links_in_snoc; auto).
  pose proof (links_in_le g0 So U0 NDo RO) as Bo. pose proof (links_in_le g0 So' U0 NDo' RO') as Bo'. pose proof (links_in_le g0 Sw U0 NDw RW) as Bw.
  assert (Bw' : links_in g0 Sw' <= choose2 (length Sw')).
  { apply links_in_le; auto.
    - unfold Sw'. rewrite <- (rev_involutive (Sw ++ [v])), rev_unit. apply NoDup_rev. constructor; [now rewrite <- in_rev|now apply NoDup_rev].
    - intros i Hi. apply in_app_iff in Hi as [Hi|[<-|[]]]; auto. }
  assert (C1 : forall n, n <= N -> choose2 n <= choose2 N) by (intros; now apply choose2_mono).
  assert (C2 : forall a b, a + b <= N -> a * b <= choose2 N) by (intros a b K; etransitivity; [apply mul_choose2|now apply C1]).
  destruct (nonempty S) eqn:NE.
  2: { rewrite set_ok by lia. cbn [bind ends fold_left]. splits; auto. destruct S; [reflexivity|discriminate]. }
  rewrite (pi_nlinks g0 U0 g P I v lab Hvn Hlab). rewrite <- EM. fold S. cbn [bind]. rewrite set_ok by lia. cbn [bind].
  destruct (Nat.eqb_spec lab o) as [Elab|Nlo].
  - assert (Xwo : across g0 Sw So = across g0 Sw So' + to_set g0 v Sw).
    { rewrite (across_sym g0 Sw So U0), (across_remove g0 So Sw v NDo Hv). fold So'. rewrite (across_sym g0 Sw So' U0). reflexivity. }
    assert (Xwo' : across g0 Sw' So' = across g0 Sw So' + to_set g0 v So) by (unfold Sw'; rewrite across_snoc; unfold So'; now rewrite to_set_remove_self).
    eapply ends_bind; [apply (term_ok false d tab (choose2 (length So)) (links_in g0 So)); auto; [apply choose2_Z|apply C1; lia]|]. intros [d1 t1] [E1 T1].
    eapply ends_bind; [apply (term_ok true d1 t1 (choose2 (length So')) (links_in g0 So')); auto; [rewrite <- choose2_Z; do 2 f_equal; lia|lia|apply C1; lia]|]. intros [d2 t2] [E2 T2].
    eapply ends_bind; [apply (term_ok false d2 t2 (length Sw * length So) (across g0 Sw So)); auto; [lia|apply across_le|apply C2; lia]|]. intros [d3 t3] [E3 T3].
    eapply ends_bind; [apply (term_ok true d3 t3 (length Sw' * length So') (across g0 Sw' So')); auto; [rewrite Lw; nia|lia|apply across_le|apply C2; lia]|]. intros [d4 t4] [E4 T4].
    cbn [ends fold_left]. splits; auto. now rewrite E4, E3, E2, E1.
  - destruct (Nat.eqb_spec lab w) as [Elab|Nlw].
    + eapply ends_bind; [apply (term_ok false d tab (choose2 (length Sw)) (links_in g0 Sw)); auto; [apply choose2_Z|apply C1; lia]|]. intros [d1 t1] [E1 T1].
      eapply ends_bind; [apply (term_ok true d1 t1 (choose2 (length Sw')) (links_in g0 Sw')); auto; [rewrite <- choose2_Z; do 2 f_equal; lia|lia|apply C1; lia]|]. intros [d2 t2] [E2 T2].
      cbn [ends fold_left]. splits; auto. now rewrite E2, E1.
    + specialize (S3 Nlo Nlw). fold So Sw S in S3. rewrite upd_get_same by lia. cbn [bind written].
      assert (Eo : get2 G2G o lab = Ok (Z.of_nat (across g0 So S))) by (rewrite (mat_get _ _ _ _ o lab HG) by auto; rewrite (proj2 (Nat.eqb_neq o lab)) by auto; reflexivity).
      assert (Ew : get2 G2G w lab = Ok (Z.of_nat (across g0 Sw S))) by (rewrite (mat_get _ _ _ _ w lab HG) by auto; rewrite (proj2 (Nat.eqb_neq w lab)) by auto; reflexivity).
      rewrite Eo, Ew. cbn [bind].
      pose proof (across_remove g0 So S v NDo Hv) as Xo. fold So' in Xo. assert (Xw : across g0 Sw' S = across g0 Sw S + to_set g0 v S) by (apply across_snoc).
      eapply ends_bind; [apply (term_ok false d tab (length So * length S) (across g0 So S)); auto; [lia|apply across_le|apply C2; lia]|]. intros [d1 t1] [E1 T1].
      eapply ends_bind; [apply (term_ok true d1 t1 (length So' * length S) (across g0 So' S)); auto; [nia|lia|apply across_le|apply C2; lia]|]. intros [d2 t2] [E2 T2].
      eapply ends_bind; [apply (term_ok false d2 t2 (length Sw * length S) (across g0 Sw S)); auto; [lia|apply across_le|apply C2; lia]|]. intros [d3 t3] [E3 T3].
      eapply ends_bind; [apply (term_ok true d3 t3 (length Sw' * length S) (across g0 Sw' S)); auto; [rewrite Lw; nia|lia|apply across_le|apply C2; lia]|]. intros [d4 t4] [E4 T4].
      cbn [ends fold_left]. splits; auto. now rewrite E4, E3, E2, E1.
Qed.

Lemma groups_ok g P M G2G v o w Go Gw n2o n2w w2o : pinv g P -> M = abs P -> table_exact g0 M G2G ->
  o < N -> w < N -> o <> w -> In v (nth_members M o) -> nth_error P o = Some Go -> nth_error P w = Some Gw ->
  n2o = Z.of_nat (to_set g0 v (nth_members M o)) -> n2w = Z.of_nat (to_set g0 v (nth_members M w)) -> w2o = Z.of_nat (across g0 (nth_members M w) (nth_members M o)) ->
  forall slg d tab n2g eff, (forall k, In k slg -> k < N) -> length n2g = N -> lc_table lnchoose lcsize tab ->
  ends mb_err (foldM (mb_group ln lnchoose lcsize kd g P hl G2G v Go Gw n2o n2w w2o) ((d, tab), n2g, eff) slg)
    (fun '((d', tab'), n2g', eff') => d' = fold_left (apply1 logf lnch) (flat_map (dterms g0 M v o w) slg) d /\ lc_table lnchoose lcsize tab' /\
      eff' = eff + count (fun k => nonempty (nth_members M k)) slg /\ length n2g' = N /\
      forall k, nth_error n2g' k = if mem k slg then Some (Some (Z.of_nat (to_set g0 v (nth_members M k)))) else nth_error n2g k).
Proof.
  intros I EM HG Ho Hw Hne Hv EGo EGw E1 E2 E3. induction slg as [|lab slg IH]; intros d tab n2g eff Hs Ln HT.
  - cbn [foldM flat_map fold_left ends]. splits; auto.
  - cbn [foldM]. eapply ends_bind; [apply (group_ok g P M G2G v o w Go Gw n2o n2w w2o d tab n2g eff lab); auto; apply Hs; simpl; auto|]. intros [[[d1 t1] n1] e1] (-> & T1 & -> & ->).
    eapply ends_impl; [apply IH; auto; [intros; apply Hs; simpl; auto|now rewrite length_upd]|]. intros [[[d2 t2] n2] e2] (-> & T2 & -> & L2 & Hn). splits; auto.
    + cbn [flat_map]. now rewrite fold_left_app.
    + rewrite count_cons. lia.
    + intros k. rewrite Hn, nth_upd. unfold mem. cbn [existsb]. change (existsb (Nat.eqb k) slg) with (mem k slg). destruct (mem k slg); [now rewrite orb_true_r|]. rewrite orb_false_r.
      destruct (Nat.eqb_spec k lab) as [->|]; simpl; auto. rewrite (proj2 (Nat.ltb_lt _ _)); auto. rewrite Ln. apply Hs. simpl; auto.
Qed.

Lemma labels_ok no nw eff d : eff <= N -> 1 <= eff -> (no <> 1 -> nw = 0 -> eff < N) ->
  mb_labels ln lnfact lfsize kd N tfact (Z.of_nat no) (Z.of_nat nw) eff d = Ok (dlabels lnfd g0 no nw eff d).
Proof.
  intros H1 H2 H3. unfold mb_labels, dlabels. fold N. cbv zeta.
  replace (Z.of_nat no =? 1)%Z with (no =? 1) by (destruct (Nat.eqb_spec no 1), (Z.eqb_spec (Z.of_nat no) 1); auto; lia).
  replace (Z.of_nat nw =? 0)%Z with (nw =? 0) by (destruct (Nat.eqb_spec nw 0), (Z.eqb_spec (Z.of_nat nw) 0); auto; lia).
  destruct (Nat.eqb_spec no 1) as [->|Hno], (Nat.eqb_spec nw 0) as [->|Hnw]; cbn [andb negb]; auto.
  - replace (Z.of_nat N - Z.of_nat eff)%Z with (Z.of_nat (N - eff)) by lia. replace (Z.of_nat N - (Z.of_nat eff - 1))%Z with (Z.of_nat (N - (eff - 1))) by lia.
    replace (Z.of_nat eff - 1)%Z with (Z.of_nat (eff - 1)) by lia. rewrite !nat_of_nat. cbn [bind]. rewrite !table_ok. cbn [bind]. rewrite !deg_ok. cbn [bind]. f_equal.
    unfold lnfd. fold N. replace (N - (N - eff)) with eff by lia. replace (N - (N - (eff - 1))) with (eff - 1) by lia. cbn [nadd nsub nopp rops Qc_ops]. ring.
  - specialize (H3 Hno eq_refl).
    replace (Z.of_nat N - Z.of_nat eff)%Z with (Z.of_nat (N - eff)) by lia. replace (Z.of_nat N - (Z.of_nat eff + 1))%Z with (Z.of_nat (N - (eff + 1))) by lia.
    replace (Z.of_nat eff + 1)%Z with (Z.of_nat (eff + 1)) by lia. rewrite !nat_of_nat. cbn [bind]. rewrite !table_ok. cbn [bind]. rewrite !deg_ok. cbn [bind]. f_equal.
    unfold lnfd. fold N. replace (N - (N - eff)) with eff by lia. replace (N - (N - (eff + 1))) with (eff + 1) by lia. cbn [nadd nsub nopp rops Qc_ops]. ring.
Qed.

(** All the groups are on the list. *)
Lemma all_listed M : listed g0 M (seq 0 N).
Proof. split; [apply seq_NoDup| |]; intros k; rewrite in_seq; fold N; lia. Qed.

Lemma change_ok st v o w : binv st -> o < N -> w < N -> o <> w -> In v (nth_members (abs (mpart st)) o) ->
  ends mb_err (mb_change ln lnchoose lnfact lcsize lfsize linC kd N tfact hl st v o w)
    (fun '(dH, tab', n2g') => dH = dH_of logf lnch lnfd linC g0 (abs (mpart st)) (seq 0 N) v o w /\ lc_table lnchoose lcsize tab' /\ length n2g' = N /\
      forall k, k < N -> nth_error n2g' k = Some (Some (Z.of_nat (to_set g0 v (nth_members (abs (mpart st)) k))))).
Proof.
  intros I Ho Hw Hne Hv. pose proof (bi_p _ I) as PI. set (M := abs (mpart st)) in *. pose proof (pi_as _ _ _ PI) as AS. fold M N in AS.
  destruct (pi_group g0 _ _ PI o Ho) as (Go & EGo & Elo & _ & Eso & _). destruct (pi_group g0 _ _ PI w Hw) as (Gw & EGw & Elw & _ & Esw & _). fold M in Eso, Esw.
  assert (Hvn : v < N) by (eapply as_range; eauto). pose proof (all_listed M) as HL.
  unfold mb_change. rewrite (get_ok _ _ _ EGo), (get_ok _ _ _ EGw). cbn [bind]. rewrite Elo, Elw.
  rewrite (pi_nlinks g0 U0 _ _ PI v o Hvn Ho), (pi_nlinks g0 U0 _ _ PI v w Hvn Hw). cbn [bind]. rewrite (pi_ng2g g0 U0 _ _ PI w o Hw Ho) by auto. cbn [bind]. fold M.
  rewrite Eso, Esw, (pi_plen g0 _ _ PI). fold N.
  match goal with |- context [foldM _ ((?d, _), _, _) (seq 0 N)] => set (d0 := d) end.
  assert (Ed : d0 = dbase linC (length (nth_members M o)) (length (nth_members M w))).
  { unfold d0, dbase. generalize (length (nth_members M o)) as no, (length (nth_members M w)) as nw. intros no nw.
    replace (Z.of_nat no =? 1)%Z with (no =? 1) by (destruct (Nat.eqb_spec no 1), (Z.eqb_spec (Z.of_nat no) 1); auto; lia).
    replace (Z.of_nat nw =? 0)%Z with (nw =? 0) by (destruct (Nat.eqb_spec nw 0), (Z.eqb_spec (Z.of_nat nw) 0); auto; lia). reflexivity. }
  eapply ends_bind.
  { apply (groups_ok (mnet st) (mpart st) M (mG2G st) v o w Go Gw _ _ _ PI eq_refl (bi_g2g _ I) Ho Hw Hne Hv EGo EGw eq_refl eq_refl eq_refl (seq 0 N) d0 (mtab st) (mn2g st) 0
     (fun k K => proj2 (proj1 (in_seq _ _ _) K)) (bi_len _ I) (bi_tab _ I)). }
  intros [[[d' tab'] n2g'] eff'] (E1 & HT' & E2 & L' & Hn). cbn [fst snd]. rewrite Nat.add_0_l in E2.
  assert (Hv1 : 1 <= length (nth_members M o)) by (destruct (nth_members M o); [destruct Hv|simpl; lia]).
  rewrite labels_ok.
  - cbn [bind ends]. splits; auto.
    + unfold dH_of. now rewrite E1, E2, Ed.
    + intros k Hk. rewrite Hn. now rewrite (proj2 (mem_In k (seq 0 N))) by (apply in_seq; lia).
  - rewrite E2, (listed_filled g0 M _ AS HL). apply (filled_le N M AS).
  - rewrite E2. apply (count_pos (fun k => nonempty (nth_members M k)) (seq 0 N) o).
    + apply in_seq. lia.
    + destruct (nth_members M o); [destruct Hv|auto].
  - intros H1 _. rewrite E2, (listed_filled g0 M _ AS HL). apply (filled_lt g0 M o AS). lia.
Qed.

Lemma mc_mb e : mc_err True e -> mb_err e.
Proof. intros [->|[->|[_ K]]]; [now left|right; now left|]. exfalso. now apply K. Qed.

(** One attempt: the invariant, and what it does to the partition and to the draws. *)
Lemma move_ok st i : 0 < N -> binv st ->
  ends mb_err (mb_move ln lnchoose lnfact lcsize lfsize linC kd N ident ident tfact hl st i)
    (fun st' => binv st' /\ exists u ds o w ds2 acc, let v := nfloor (nmul u (nofnat N)) in let M := abs (mpart st) in
       mds st = u :: ds /\ In v (nth_members M o) /\ o < N /\ w < N /\ o <> w /\ redraw N o ds = Ok (w, ds2) /\
       accepts (dH_of logf lnch lnfd linC g0 M (seq 0 N) v o w) ds2 = Ok (acc, mds st') /\ abs (mpart st') = if acc : bool then moved M v o w else M).
Proof.
  intros HN I. pose proof (bi_p _ I) as PI. set (M := abs (mpart st)) in *. pose proof (pi_as _ _ _ PI) as AS. fold M N in AS. unfold mb_move.
  pose proof (bi_ds _ I) as HD. destruct (mds st) as [|u ds] eqn:Eds; [now left|]. inversion HD as [|? ? Hu HD']; subst. cbn [draw bind].
  set (v := nfloor (nmul u (nofnat N))). assert (Hv : v < N) by (apply Hu; auto).
  rewrite (ident_get g0 v Hv). cbn [bind deref].
  destruct (pi_home g0 _ _ PI v Hv) as (n & o & En & Eg & Ho & Hvo). fold M in Hvo. rewrite (get_ok _ _ _ En). cbn [bind]. rewrite Eg. cbn [bind].
  pose proof (redraw_ok g0 True o ds HN HD') as HR. fold N in HR. destruct (redraw N o ds) as [[w ds2]|e] eqn:ER; [|now apply mc_mb]. destruct HR as (Hw & Hwo & HD2). cbn [bind]. rewrite !ident_get by auto. cbn [bind deref].
  assert (Hne : o <> w) by auto.
  eapply ends_bind; [apply (change_ok st v o w I Ho Hw Hne Hvo)|]. intros [[dH tab'] n2g'] (-> & HT' & L' & Hn). fold M in Hn. fold M.
  pose proof (accepts_ok True (dH_of logf lnch lnfd linC g0 M (seq 0 N) v o w) ds2 HD2) as HC. destruct (accepts _ ds2) as [[acc ds3]|e] eqn:EC; [|now apply mc_mb]. cbn [ends] in HC. rename HC into HD3. cbn [bind].
  assert (HJ : if acc : bool then J (moved M v o w) (nadd (mH st) (dH_of logf lnch lnfd linC g0 M (seq 0 N) v o w)) ds3 else J M (mH st) ds3).
  { refine (J_move M (seq 0 N) u o w (mH st) ds ds2 acc ds3 AS (all_listed M) Ho Hw Hne Hvo ER EC _). rewrite <- Eds. apply (bi_J _ I). }
  destruct acc.
  - destruct (pi_move g0 _ _ PI v o w Ho Hw Hne Hvo) as (r & g' & P' & -> & PI' & EA). fold M in EA. cbn [bind fst snd].
    eapply ends_bind.
    { eapply ends_weaken; [|apply mc_mb]. apply (g2g_loop g0 U0 True n2g' M v o w (mG2G st)); auto; [|apply (bi_g2g _ I)].
      intros _ k K. destruct (Nat.lt_ge_cases k N) as [Lk|Lk]; [rewrite Hn in K by auto; discriminate|]. rewrite (proj2 (nth_error_None _ _)) in K by lia. discriminate. }
    intros m' [Hm' _]. cbn [ends]. split.
    + split; cbn [mnet mpart mH mG2G mn2g mtab mds]; auto; rewrite EA; [exact Hm'|exact HJ].
    + exists u, ds, o, w, ds2, true. cbv zeta. fold v. cbn [mds mpart]. splits; auto.
  - cbn [ends]. split.
    + split; cbn [mnet mpart mH mG2G mn2g mtab mds]; auto; apply I.
    + exists u, ds, o, w, ds2, false. cbv zeta. fold v. cbn [mds mpart]. splits; auto.
Qed.

Theorem step_ok factor st : binv st -> ends mb_err (LSMCStepMB ln lnchoose lnfact lcsize lfsize linC kd N ident ident tfact hl factor st) binv.
Proof.
  intros I. unfold LSMCStepMB. destruct (Nat.eq_dec N 0) as [E0|HN]; [rewrite E0; exact I|].
  apply ends_foldM; auto. intros s x _ Is. eapply ends_impl; [apply move_ok; auto; lia|]. now intros s' [H _].
Qed.
End Step.

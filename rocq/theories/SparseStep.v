(** SparseStep.v -- one step of the Gibbs sampler for sparse networks (src/sparse_missing.c 75-336): every node in turn is moved by the
    heat bath rule, the energy and the table of links stay exact. *)
From Coq Require Import List Arith ZArith Bool QArith Qcanon Lia.
From Verif Require Import Base Num ListLib NatSum QcSum GraphModel GraphSpec GraphProof GroupModel GroupSpec PairSum GroupProof GroupExact MatLib
  ToolsModel ToolsProof ModulesModel SAProof MissModel MissSpec MissSets MissStep MissRun MissExact MbModel MbSpec MbStep GibbsModel GibbsSpec GibbsSets GibbsStep SparseModel SparseSpec.
From Verif Require RecSpec RecGibbs RolesBounds.
Import ListNotations.
Local Open Scope nat_scope.

Section Step.
Variables ex sq : Qc -> Qc.
Hypothesis ex_pos : forall x, (0 < ex x)%Qc.
Local Instance rops : NumOps Qc := Qc_ops ex sq.
Variable lngamma : Qc -> Qc.
Variable lnfact : nat -> Qc.
Variables lgsize lfsize : nat.
Variables a b : Qc.
Variable g0 : net Qc.
Hypothesis U0 : undirected g0.
Let N := length g0.
(** The term of a pair of groups; for two groups without nodes it is [T 0 0], which the differences of the energy never see. *)
Notation T := (beta_cost lngamma a b).
Definition logf (n : nat) : Qc := 0%Qc.
Definition lnch (r l : nat) : Qc := (T r l - T 0 0)%Qc.
(** The terms of all groups and pairs, were all of them empty. *)
Definition ground : Qc := (Qsum (fun _ => T 0 0) (seq 0 N) + pair_sum N (fun _ _ => T 0 0))%Qc.
Definition lnfg (d : nat) : Qc := (lnfact d - ground)%Qc.
Notation linC := (0%Qc).
Notation apply1 := (apply1 logf lnch).
Notation E := (MissSpec.energy logf lnch lnfg linC g0).
Notation dH := (dH_of logf lnch lnfg linC g0).
Notation chg := (change ex sq logf lnch lnfg linC g0).
Notation pinv := (pinv g0).
Notation ident := (ident g0).
Notation tfact := (InitializeTable lnfact lfsize).
Definition tabs : @sp_tabs Qc := (InitializeTable (lg_at lngamma a) lgsize, InitializeTable (lg_at lngamma b) lgsize, InitializeTable (lg_at lngamma (a + b)%Qc) lgsize).
Definition none (e : err) : Prop := False.
Definition sp_err (e : err) : Prop := e = RngOut \/ e = Diverge.
Lemma none_sp e : none e -> sp_err e. Proof. intros []. Qed.

Lemma logf1 : logf 1 = 0%Qc. Proof. reflexivity. Qed.
Lemma lnch00 : lnch 0 0 = 0%Qc. Proof. unfold lnch. ring. Qed.

Lemma sp_labels_ok no nw eff d : eff <= N -> 1 <= eff -> (no <> 1 -> nw = 0 -> eff < N) ->
  mc_labels lnfact lfsize N tfact (Z.of_nat no) (Z.of_nat nw) eff d = Ok (dlabels lnfg g0 no nw eff d).
Proof.
  intros H1 H2 H3. pose proof (mc_labels_ok lnfact lfsize g0 no nw eff d H1 H2 H3) as H. etransitivity; [exact H|]. f_equal. unfold dlabels, lnfg. cbn [nadd nsub nopp rops Qc_ops].
  destruct (_ && _); [ring|]. destruct (_ && _); [ring|reflexivity].
Qed.

(** A term added to or taken from the change of energy. *)
Definition applyT (d : Qc) (t : bool * nat * nat) : Qc := let '(s, r, l) := t in if s then (d + T r l)%Qc else (d - T r l)%Qc.
Lemma fast_ok x r : FastTable (lg_at lngamma x) r (InitializeTable (lg_at lngamma x) lgsize) lgsize = Ok (lngamma (Qc_of_nat r + x)%Qc).
Proof.
  unfold FastTable, InitializeTable. destruct (Nat.ltb_spec r lgsize) as [H|H]; [|reflexivity]. unfold get. rewrite nth_error_map, nth_error_seq by auto. reflexivity.
Qed.
Lemma term_ok s d r l zr zl : zr = Z.of_nat r -> zl = Z.of_nat l -> l <= r -> ends none (sp_term lngamma lgsize a b s tabs d zr zl) (fun d' => d' = applyT d (s, r, l)).
Proof.
  intros -> -> Hl. unfold sp_term, tabs. rewrite !nat_of_nat. cbn [bind]. replace (Z.of_nat r - Z.of_nat l)%Z with (Z.of_nat (r - l)) by lia. rewrite nat_of_nat. cbn [bind].
  pose proof (fast_ok (a + b)%Qc r) as F1. pose proof (fast_ok a l) as F2. pose proof (fast_ok b (r - l)) as F3.
  match goal with |- ends _ (bind ?x _) _ => assert (F1' : x = Ok (lngamma (Qc_of_nat r + (a + b))%Qc)) by exact F1; rewrite F1' end. cbn [bind].
  match goal with |- ends _ (bind ?x _) _ => assert (F2' : x = Ok (lngamma (Qc_of_nat l + a)%Qc)) by exact F2; rewrite F2' end. cbn [bind].
  match goal with |- ends _ (bind ?x _) _ => assert (F3' : x = Ok (lngamma (Qc_of_nat (r - l) + b)%Qc)) by exact F3; rewrite F3' end. cbn [bind ends]. reflexivity.
Qed.
Lemma two r1 l1 r2 l2 d : applyT (applyT d (false, r1, l1)) (true, r2, l2) = apply1 (apply1 d (false, r1, l1)) (true, r2, l2).
Proof. unfold applyT, MissStep.apply1, tcost, logf, lnch. cbn [nadd nsub rops Qc_ops]. ring. Qed.
Lemma two0 d : applyT (applyT d (false, 0, 0)) (true, 0, 0) = d.
Proof. unfold applyT. ring. Qed.

Lemma group_ok g P M G2G v o w Go Gw n2o n2w w2o d n2g eff lab : pinv g P -> M = abs P -> table_exact g0 M G2G ->
  o < N -> w < N -> o <> w -> In v (nth_members M o) -> nth_error P o = Some Go -> nth_error P w = Some Gw ->
  n2o = Z.of_nat (to_set g0 v (nth_members M o)) -> n2w = Z.of_nat (to_set g0 v (nth_members M w)) -> w2o = Z.of_nat (across g0 (nth_members M w) (nth_members M o)) ->
  lab < N -> length n2g = N ->
  ends none (sp_group lngamma lgsize a b tabs g P G2G v Go Gw n2o n2w w2o (d, n2g, eff) lab)
    (fun '(d', n2g', eff') => d' = fold_left apply1 (dterms g0 M v o w lab) d /\
       n2g' = upd n2g lab (Some (Z.of_nat (to_set g0 v (nth_members M lab)))) /\ eff' = eff + (if nonempty (nth_members M lab) then 1 else 0)).
Proof.
  intros I EM HG Ho Hw Hne Hv EGo EGw -> -> -> Hlab Ln. pose proof (pi_as _ _ _ I) as AS. rewrite <- EM in AS. fold N in AS.
  assert (Hvn : v < N) by (eapply as_range; eauto). assert (Hvw : ~ In v (nth_members M w)) by (intros K; apply Hne; eapply as_apart; eauto).
  destruct (pi_group g0 g P I o Ho) as (G & E & Elo & Emo & Eso & Eio). rewrite EGo in E. injection E as <-.
  destruct (pi_group g0 g P I w Hw) as (G & E & Elw & Emw & Esw & Eiw). rewrite EGw in E. injection E as <-.
  destruct (pi_group g0 g P I lab Hlab) as (G & EG & El & Em & Es & Ei).
  unfold sp_group. rewrite (get_ok _ _ _ EG). cbn [bind]. rewrite El, Elo, Elw, Es, Eso, Esw, Eio, Eiw, nonempty_len. rewrite <- EM.
  unfold dterms. set (So := nth_members M o) in *. set (Sw := nth_members M w) in *. set (S := nth_members M lab) in *.
  assert (NDo : NoDup So) by apply AS. assert (NDw : NoDup Sw) by apply AS. assert (NDS : NoDup S) by apply AS.
  assert (RO : forall i, In i So -> i < N) by (intros i; apply (as_range _ _ AS o)). assert (RW : forall i, In i Sw -> i < N) by (intros i; apply (as_range _ _ AS w)).
  set (So' := remove1 v So). set (Sw' := Sw ++ [v]).
  assert (Lo : length So = length So' + 1) by (apply length_remove1; auto).
  assert (Lw : length Sw' = length Sw + 1) by (unfold Sw'; rewrite app_length; reflexivity).
  assert (NDo' : NoDup So') by (apply remove1_nodup; auto).
  assert (RO' : forall i, In i So' -> i < N) by (intros i Hi; apply remove1_In in Hi; apply RO; tauto).
  assert (Io : links_in g0 So = links_in g0 So' + to_set g0 v So) by (apply links_in_remove; auto).
  assert (Iw : links_in g0 Sw' = links_in g0 Sw + to_set g0 v Sw) by (apply links_in_snoc; auto).
  pose proof (links_in_le g0 So U0 NDo RO) as Bo. pose proof (links_in_le g0 So' U0 NDo' RO') as Bo'. pose proof (links_in_le g0 Sw U0 NDw RW) as Bw.
  assert (Bw' : links_in g0 Sw' <= choose2 (length Sw')).
  { apply links_in_le; auto.
    - unfold Sw'. rewrite <- (rev_involutive (Sw ++ [v])), rev_unit. apply NoDup_rev. constructor; [now rewrite <- in_rev|now apply NoDup_rev].
    - intros i Hi. apply in_app_iff in Hi as [Hi|[<-|[]]]; auto. }
  rewrite (pi_nlinks g0 U0 g P I v lab Hvn Hlab). rewrite <- EM. fold S. cbn [bind]. rewrite set_ok by lia. cbn [bind].
  assert (EE : (if nonempty S then eff + 1 else eff) = eff + (if nonempty S then 1 else 0)) by (destruct (nonempty S); lia). rewrite EE. clear EE.
  destruct (Nat.eqb_spec lab o) as [Elab|Nlo].
  - assert (NE : nonempty S = true) by (unfold S; rewrite Elab; fold So; destruct So; [destruct Hv|reflexivity]). rewrite NE.
    assert (Xwo : across g0 Sw So = across g0 Sw So' + to_set g0 v Sw).
    { rewrite (across_sym g0 Sw So U0), (across_remove g0 So Sw v NDo Hv). fold So'. rewrite (across_sym g0 Sw So' U0). reflexivity. }
    assert (Xwo' : across g0 Sw' So' = across g0 Sw So' + to_set g0 v So) by (unfold Sw'; rewrite across_snoc; unfold So'; now rewrite to_set_remove_self).
    eapply ends_bind; [apply (term_ok false d (choose2 (length So)) (links_in g0 So)); auto; apply choose2_Z|]. intros d1 E1.
    eapply ends_bind; [apply (term_ok true d1 (choose2 (length So')) (links_in g0 So')); auto; [rewrite <- choose2_Z; do 2 f_equal; lia|lia]|]. intros d2 E2.
    eapply ends_bind; [apply (term_ok false d2 (length Sw * length So) (across g0 Sw So)); auto; [lia|apply across_le]|]. intros d3 E3.
    eapply ends_bind; [apply (term_ok true d3 (length Sw' * length So') (across g0 Sw' So')); auto; [rewrite Lw; nia|lia|apply across_le]|]. intros d4 E4.
    cbn [ends fold_left]. splits; auto. now rewrite E4, E3, E2, E1, !two.
  - destruct (Nat.eqb_spec lab w) as [Elab|Nlw].
    + eapply ends_bind; [apply (term_ok false d (choose2 (length Sw)) (links_in g0 Sw)); auto; apply choose2_Z|]. intros d1 E1.
      eapply ends_bind; [apply (term_ok true d1 (choose2 (length Sw')) (links_in g0 Sw')); auto; [rewrite <- choose2_Z; do 2 f_equal; lia|lia]|]. intros d2 E2.
      cbn [ends]. splits; auto. rewrite E2, E1. destruct (nonempty S) eqn:NE; [cbn [fold_left]; apply two|].
      assert (Sn : Sw = []) by (unfold S in NE; rewrite Elab in NE; fold Sw in NE; destruct Sw; [reflexivity|discriminate]). unfold Sw'. rewrite Sn. cbn [app length fold_left].
      assert (X1 : links_in g0 [] = 0) by (clear - Bw Sn; rewrite Sn in Bw; change (choose2 (length [])) with 0 in Bw; lia).
      assert (X2 : to_set g0 v [] = 0) by (pose proof (across_le g0 [v] []) as K; unfold across in K; cbn [lsum length] in K; unfold to_set in *; lia).
      assert (X0 : links_in g0 [v] = 0) by (clear - Iw Sn X1 X2; unfold Sw' in Iw; rewrite Sn in Iw; cbn [app] in Iw; lia).
      rewrite X0, X1. change (choose2 1) with 0. change (choose2 0) with 0. apply two0.
    + rewrite upd_get_same by lia. cbn [bind written].
      assert (Eo : get2 G2G o lab = Ok (Z.of_nat (across g0 So S))) by (rewrite (mat_get _ _ _ _ o lab HG) by auto; rewrite (proj2 (Nat.eqb_neq o lab)) by auto; reflexivity).
      assert (Ew : get2 G2G w lab = Ok (Z.of_nat (across g0 Sw S))) by (rewrite (mat_get _ _ _ _ w lab HG) by auto; rewrite (proj2 (Nat.eqb_neq w lab)) by auto; reflexivity).
      rewrite Eo, Ew. cbn [bind].
      pose proof (across_remove g0 So S v NDo Hv) as Xo. fold So' in Xo. assert (Xw : across g0 Sw' S = across g0 Sw S + to_set g0 v S) by (apply across_snoc).
      eapply ends_bind; [apply (term_ok false d (length So * length S) (across g0 So S)); auto; [lia|apply across_le]|]. intros d1 E1.
      eapply ends_bind; [apply (term_ok true d1 (length So' * length S) (across g0 So' S)); auto; [nia|lia|apply across_le]|]. intros d2 E2.
      eapply ends_bind; [apply (term_ok false d2 (length Sw * length S) (across g0 Sw S)); auto; [lia|apply across_le]|]. intros d3 E3.
      eapply ends_bind; [apply (term_ok true d3 (length Sw' * length S) (across g0 Sw' S)); auto; [rewrite Lw; nia|lia|apply across_le]|]. intros d4 E4.
      cbn [ends]. splits; auto. rewrite E4, E3, E2, E1. destruct (nonempty S) eqn:NE; [cbn [fold_left]; now rewrite !two|].
      assert (Sn : S = []) by (destruct S; [reflexivity|discriminate]). clear - Sn. rewrite Sn. cbn [length fold_left].
      assert (Z0 : forall X, across g0 X [] = 0) by (intros X; pose proof (across_le g0 X []) as K; cbn [length] in K; lia). rewrite !Z0, !Nat.mul_0_r. now rewrite !two0.
Qed.
Lemma groups_ok g P M G2G v o w Go Gw n2o n2w w2o : pinv g P -> M = abs P -> table_exact g0 M G2G ->
  o < N -> w < N -> o <> w -> In v (nth_members M o) -> nth_error P o = Some Go -> nth_error P w = Some Gw ->
  n2o = Z.of_nat (to_set g0 v (nth_members M o)) -> n2w = Z.of_nat (to_set g0 v (nth_members M w)) -> w2o = Z.of_nat (across g0 (nth_members M w) (nth_members M o)) ->
  forall slg d n2g eff, (forall k, In k slg -> k < N) -> length n2g = N ->
  ends none (foldM (sp_group lngamma lgsize a b tabs g P G2G v Go Gw n2o n2w w2o) (d, n2g, eff) slg)
    (fun '(d', n2g', eff') => d' = fold_left apply1 (flat_map (dterms g0 M v o w) slg) d /\
      eff' = eff + count (fun k => nonempty (nth_members M k)) slg /\ length n2g' = N /\
      forall k, nth_error n2g' k = if mem k slg then Some (Some (Z.of_nat (to_set g0 v (nth_members M k)))) else nth_error n2g k).
Proof.
  intros I EM HG Ho Hw Hne Hv EGo EGw E1 E2 E3. induction slg as [|lab slg IH]; intros d n2g eff Hs Ln.
  - cbn [foldM flat_map fold_left ends]. splits; auto.
  - cbn [foldM]. eapply ends_bind; [apply (group_ok g P M G2G v o w Go Gw n2o n2w w2o d n2g eff lab); auto; apply Hs; simpl; auto|]. intros [[d1 n1] e1] (-> & -> & ->).
    eapply ends_impl; [apply IH; auto; [intros; apply Hs; simpl; auto|now rewrite length_upd]|]. intros [[d2 n2] e2] (-> & -> & L2 & Hn). splits; auto.
    + cbn [flat_map]. now rewrite fold_left_app.
    + rewrite count_cons. lia.
    + intros k. rewrite Hn, nth_upd. unfold mem. cbn [existsb]. change (existsb (Nat.eqb k) slg) with (mem k slg). destruct (mem k slg); [now rewrite orb_true_r|]. rewrite orb_false_r.
      destruct (Nat.eqb_spec k lab) as [->|]; simpl; auto. rewrite (proj2 (Nat.ltb_lt _ _)); auto. rewrite Ln. apply Hs. simpl; auto.
Qed.

(** * One node of a state *)
Section Node.
Variables (g : net Qc) (P : gpart Qc) (G2G : list (list Z)) (slg : list nat) (v o : nat).
Hypothesis PI : pinv g P.
Let M := abs P.
Hypothesis HG : table_exact g0 M G2G.
Hypothesis HL : listed g0 M slg.
Hypothesis Ho : o < N.
Hypothesis Hv : In v (nth_members M o).
Let AS : assigned N M := pi_as _ _ _ PI.
Lemma v_lt : v < N.
Proof. eapply as_range; eauto. Qed.
Lemma o_in : In o slg.
Proof. apply (li_all _ _ _ HL); auto. destruct (nth_members M o); [destruct Hv|auto]. Qed.
Lemma eff_ok : count (fun k => nonempty (nth_members M k)) slg <= N /\ 1 <= count (fun k => nonempty (nth_members M k)) slg /\
  (length (nth_members M o) <> 1 -> count (fun k => nonempty (nth_members M k)) slg < N).
Proof.
  assert (Hv1 : 1 <= length (nth_members M o)) by (destruct (nth_members M o); [destruct Hv|simpl; lia]). splits.
  - rewrite (listed_filled g0 M slg AS HL). apply (filled_le N M AS).
  - apply (count_pos (fun k => nonempty (nth_members M k)) slg o); [apply o_in|]. destruct (nth_members M o); [destruct Hv|auto].
  - intros H1. rewrite (listed_filled g0 M slg AS HL). apply (filled_lt g0 M o AS). lia.
Qed.
(** What the loop over destinations leaves behind. *)
Definition loc_ok : gb_loc :=
  (Z.of_nat (length (nth_members M o)), Z.of_nat (to_set g0 v (nth_members M o)), Z.of_nat (links_in g0 (nth_members M o)), count (fun k => nonempty (nth_members M k)) slg).
Definition n2g_ok (n2g : list (option Z)) : Prop := forall k, In k slg -> nth_error n2g k = Some (Some (Z.of_nat (to_set g0 v (nth_members M k)))).

Lemma sp_change_ok w n2g : w < N -> w <> o -> length n2g = N ->
  ends none (sp_change lngamma lnfact lgsize lfsize a b N tabs tfact g P G2G slg n2g v o w)
    (fun '(d, n2g', l) => d = dH M slg v o w /\ length n2g' = N /\ n2g_ok n2g' /\ l = loc_ok).
Proof.
  intros Hw Hne' Ln. assert (Hne : o <> w) by auto. pose proof v_lt as Hvn.
  destruct (pi_group g0 _ _ PI o Ho) as (Go & EGo & Elo & _ & Eso & Eio). destruct (pi_group g0 _ _ PI w Hw) as (Gw & EGw & Elw & _ & Esw & _). fold M in Eso, Esw, Eio.
  unfold sp_change. rewrite (get_ok _ _ _ EGo), (get_ok _ _ _ EGw). cbn [bind]. rewrite Elo, Elw.
  rewrite (pi_nlinks g0 U0 _ _ PI v o Hvn Ho), (pi_nlinks g0 U0 _ _ PI v w Hvn Hw). cbn [bind]. rewrite (pi_ng2g g0 U0 _ _ PI w o Hw Ho) by auto. cbn [bind]. fold M.
  rewrite Eso, Esw, Eio.
  eapply ends_bind.
  { apply (groups_ok g P M G2G v o w Go Gw _ _ _ PI eq_refl HG Ho Hw Hne Hv EGo EGw eq_refl eq_refl eq_refl slg n0 n2g 0 (li_lt _ _ _ HL) Ln). }
  intros [[d' n2g'] eff'] (E1 & E2 & L' & Hn). rewrite Nat.add_0_l in E2. destruct eff_ok as (F1 & F2 & F3). rewrite <- E2 in F1, F2, F3.
  pose proof (sp_labels_ok (length (nth_members M o)) (length (nth_members M w)) eff' d' F1 F2 (fun K _ => F3 K)) as GL.
  match goal with |- ends _ (bind ?x _) _ => assert (GL' : x = Ok (dlabels lnfg g0 (length (nth_members M o)) (length (nth_members M w)) eff' d')) by exact GL; rewrite GL' end. cbn [bind ends]. splits; auto.
  - unfold dH_of. rewrite E1, E2. f_equal. f_equal. unfold dbase. cbn [nadd nsub n0 rops Qc_ops]. destruct (_ =? 1), (_ =? 0); ring.
  - intros k Hk. rewrite Hn. now rewrite (proj2 (mem_In k slg) Hk).
  - unfold loc_ok. now rewrite E2.
Qed.
Lemma sp_dests_ok : forall l norm dHs n2g loc (b0 : Prop), (forall k, In k l -> k < N) -> length dHs = N -> length n2g = N -> (b0 -> n2g_ok n2g /\ loc = Some loc_ok) ->
  ends none (foldM (sp_dest lngamma lnfact lgsize lfsize a b N ident tabs tfact g P G2G slg v o o) (norm, dHs, n2g, loc) l)
    (fun '(norm', dHs', n2g', loc') => norm' = (norm + Qsum (fun w => ex (- chg M slg v o w)) l)%Qc /\ length dHs' = N /\ length n2g' = N /\
      (forall k, nth_error dHs' k = if mem k l then Some (Some (chg M slg v o k)) else nth_error dHs k) /\
      (b0 \/ (exists w, In w l /\ w <> o) -> n2g_ok n2g' /\ loc' = Some loc_ok)).
Proof.
  induction l as [|w l IH]; intros norm dHs n2g loc b0 Hl Ld Ln Hb.
  - cbn [foldM ends Qsum]. splits; auto; [now rewrite Qcplus_0_r|]. intros [H|(w & [] & _)]. auto.
  - cbn [foldM]. assert (Hw : w < N) by (apply Hl; simpl; auto).
    set (Q := fun '(norm', dHs', n2g', loc') => norm' = (norm + ex (- chg M slg v o w))%Qc /\ dHs' = upd dHs w (Some (chg M slg v o w)) /\ length n2g' = N /\ (b0 \/ w <> o -> n2g_ok n2g' /\ loc' = Some loc_ok)).
    apply (ends_bind none _ _ Q).
    + unfold sp_dest. rewrite (ident_get g0 w Hw). cbn [bind deref]. destruct (Nat.eqb_spec w o) as [Ew|Hne].
      * rewrite set_ok by lia. cbn [bind ends]. unfold Q. splits; auto.
        -- unfold change. rewrite (proj2 (Nat.eqb_eq w o) Ew). reflexivity.
        -- unfold change. rewrite (proj2 (Nat.eqb_eq w o) Ew). reflexivity.
        -- intros [K|K]; auto. contradiction.
      * eapply ends_bind; [apply (sp_change_ok w n2g); auto|]. intros [[d n2g'] loc'] (-> & L' & Hn & ->). rewrite set_ok by lia. cbn [bind ends]. unfold Q, change. rewrite (proj2 (Nat.eqb_neq w o) Hne). splits; auto.
    + intros [[[norm1 dHs1] n2g1] loc1] (-> & -> & L1 & Hb1).
      eapply ends_impl; [apply (IH _ _ _ _ (b0 \/ w <> o)); auto; [intros; apply Hl; simpl; auto|now rewrite length_upd]|].
      intros [[[norm2 dHs2] n2g2] loc2] (-> & Ld2 & L2 & Hd2 & Hb2). splits; auto.
      * cbn [Qsum]. now rewrite Qcplus_assoc.
      * intros k. rewrite Hd2, nth_upd. unfold mem. cbn [existsb]. change (existsb (Nat.eqb k) l) with (mem k l). destruct (mem k l); [now rewrite orb_true_r|]. rewrite orb_false_r.
        destruct (Nat.eqb_spec k w) as [->|]; simpl; auto. rewrite (proj2 (Nat.ltb_lt _ _)); auto. now rewrite Ld.
      * intros [K|(x & [<-|K] & Kn)]; apply Hb2; auto. right. eauto.
Qed.

(** * The change for an empty group *)
Lemma sp_empty_group_ok n2g d lab Go : In lab slg -> n2g_ok n2g -> nth_error P o = Some Go ->
  ends none (sp_empty_group lngamma lgsize a b tabs P G2G n2g Go (Z.of_nat (length (nth_members M o))) (Z.of_nat (to_set g0 v (nth_members M o))) (Z.of_nat (links_in g0 (nth_members M o))) d lab)
    (fun d' => d' = fold_left apply1 (dterms g0 M v o N lab) d).
Proof.
  intros Hin Hn EGo. pose proof (li_lt _ _ _ HL lab Hin) as Hlab. fold N in Hlab. pose proof v_lt as Hvn.
  destruct (pi_group g0 _ _ PI o Ho) as (G & EG' & Elo & _). rewrite EGo in EG'. injection EG' as <-.
  destruct (pi_group g0 _ _ PI lab Hlab) as (G & EG & El & Em & Es & Ei). fold M in Es.
  unfold sp_empty_group. rewrite (get_ok _ _ _ EG). cbn [bind]. rewrite El, Elo, Es. unfold dterms. rewrite (nth_members_out M N) by (rewrite (as_length N M AS); lia).
  set (So := nth_members M o) in *. set (S := nth_members M lab) in *. cbn [app length].
  assert (NDo : NoDup So) by apply AS. assert (RO : forall i, In i So -> i < N) by (intros i; apply (as_range _ _ AS o)).
  set (So' := remove1 v So).
  assert (Lo : length So = length So' + 1) by (apply length_remove1; auto).
  assert (NDo' : NoDup So') by (apply remove1_nodup; auto).
  assert (RO' : forall i, In i So' -> i < N) by (intros i Hi; apply remove1_In in Hi; apply RO; tauto).
  assert (Io : links_in g0 So = links_in g0 So' + to_set g0 v So) by (apply links_in_remove; auto).
  pose proof (links_in_le g0 So U0 NDo RO) as Bo. pose proof (links_in_le g0 So' U0 NDo' RO') as Bo'.
  assert (XV : forall X, across g0 [v] X = to_set g0 v X) by (intros X; unfold across; cbn [lsum]; unfold to_set; lia).
  destruct (Nat.eqb_spec lab o) as [Elab|Nlo].
  - assert (NE : nonempty S = true) by (unfold S; rewrite Elab; fold So; destruct So; [destruct Hv|reflexivity]). rewrite NE.
    assert (Xo' : across g0 [v] So' = to_set g0 v So) by (rewrite XV; unfold So'; now rewrite to_set_remove_self).
    assert (Bx : to_set g0 v So <= length So') by (rewrite <- Xo'; pose proof (across_le g0 [v] So') as K; cbn [length] in K; lia).
    eapply ends_bind; [apply (term_ok false d (choose2 (length So)) (links_in g0 So)); first [assumption|reflexivity|apply choose2_Z]|]. intros d1 E1.
    eapply ends_bind; [apply (term_ok true d1 (choose2 (length So')) (links_in g0 So')); first [assumption|rewrite <- choose2_Z; do 2 f_equal; lia|lia]|]. intros d2 E2.
    eapply ends_bind; [apply (term_ok false d2 (0 * length So) (across g0 [] So)); first [reflexivity|rewrite ?across_nil_l; lia]|]. intros d3 E3.
    eapply ends_impl; [apply (term_ok true d3 (1 * length So') (across g0 [v] So')); first [lia|rewrite ?XV; lia|apply (across_le g0 [v])]|]. intros d4 E4.
    cbn [fold_left]. now rewrite E4, E3, E2, E1, !two.
  - destruct (Nat.eqb_spec lab N) as [|_]; [lia|]. rewrite (get_ok _ _ _ (Hn lab Hin)). cbn [bind written]. fold S.
    assert (Eo : get2 G2G o lab = Ok (Z.of_nat (across g0 So S))) by (rewrite (mat_get _ _ _ _ o lab HG) by auto; rewrite (proj2 (Nat.eqb_neq o lab)) by auto; reflexivity).
    rewrite Eo. cbn [bind]. pose proof (across_remove g0 So S v NDo Hv) as Xo. fold So' in Xo.
    eapply ends_bind; [apply (term_ok false d (length So * length S) (across g0 So S)); first [reflexivity|apply across_le|lia|nia]|]. intros d1 E1.
    eapply ends_bind; [apply (term_ok true d1 (length So' * length S) (across g0 So' S)); first [apply across_le|lia|nia]|]. intros d2 E2.
    eapply ends_bind; [apply (term_ok false d2 (0 * length S) (across g0 [] S)); first [reflexivity|rewrite ?across_nil_l; lia]|]. intros d3 E3.
    eapply ends_impl; [apply (term_ok true d3 (1 * length S) (across g0 [v] S)); first [apply (across_le g0 [v])|rewrite ?XV; lia|nia]|]. intros d4 E4.
    rewrite E4, E3, E2, E1. destruct (nonempty S) eqn:NE; [cbn [fold_left]; now rewrite !two|].
    assert (Sn : S = []) by (destruct S; [reflexivity|discriminate]). clear - Sn. rewrite Sn. cbn [length fold_left].
    assert (Z0 : forall X, across g0 X [] = 0) by (intros X; pose proof (across_le g0 X []) as K; cbn [length] in K; lia). rewrite !Z0, !Nat.mul_0_r. now rewrite !two0.
Qed.
Lemma sp_empty_ok n2g : n2g_ok n2g -> ends none (sp_empty lngamma lnfact lgsize lfsize a b N tabs tfact P G2G slg n2g o (Some loc_ok)) (fun d => d = dH M slg v o N).
Proof.
  intros Hn. destruct (pi_group g0 _ _ PI o Ho) as (Go & EGo & _). unfold sp_empty, loc_ok. rewrite (get_ok _ _ _ EGo). cbn [bind].
  assert (HF : forall l d, (forall k, In k l -> In k slg) ->
    ends none (foldM (sp_empty_group lngamma lgsize a b tabs P G2G n2g Go (Z.of_nat (length (nth_members M o))) (Z.of_nat (to_set g0 v (nth_members M o))) (Z.of_nat (links_in g0 (nth_members M o)))) d l)
      (fun d' => d' = fold_left apply1 (flat_map (dterms g0 M v o N) l) d)).
  { induction l as [|k l IH]; intros d Hl; [cbn; auto|]. cbn [foldM]. eapply ends_bind; [apply (sp_empty_group_ok n2g d k Go); auto; apply Hl; simpl; auto|]. intros d1 ->.
    eapply ends_impl; [apply IH; auto; intros; apply Hl; simpl; auto|]. intros d2 ->. cbn [flat_map]. now rewrite fold_left_app. }
  eapply ends_bind; [apply (HF slg n0); auto|]. intros d1 E1. destruct eff_ok as (F1 & F2 & F3).
  pose proof (sp_labels_ok (length (nth_members M o)) 0 _ d1 F1 F2 (fun K _ => F3 K)) as GL. change (Z.of_nat 0) with 0%Z in GL.
  match goal with |- ends _ ?x _ => match type of GL with _ = ?y => assert (GL' : x = y) by exact GL; rewrite GL' end end. cbn [ends].
  unfold dH_of. rewrite E1, (nth_members_out M N) by (rewrite (as_length N M AS); lia). cbn [length]. f_equal. f_equal. unfold dbase. cbn [nadd nsub n0 rops Qc_ops]. destruct (_ =? 1), (0 =? 0); ring.
Qed.

(** * The choice *)
Let bz (w : nat) : Qc := ex (- chg M slg v o w).
Lemma bz_weight w : w < N -> gweight ex E M v w = bz w.
Proof.
  intros Hw. unfold gweight, bz. f_equal. rewrite (put_energy ex sq logf lnch lnfg linC logf1 lnch00 g0 U0 M slg v o w AS HL Ho Hw Hv). ring.
Qed.
Lemma bz_empty w : w < N -> nth_members M w = [] -> chg M slg v o w = dH M slg v o N.
Proof.
  intros Hw E0. unfold change. destruct (Nat.eqb_spec w o) as [->|_]; [rewrite E0 in Hv; destruct Hv|]. exact (dH_empty ex sq logf lnch lnfg linC g0 M slg v o w E0 (li_lt _ _ _ HL) (as_length N M AS)).
Qed.
Lemma out_empty k : k < N -> ~ In k slg -> nth_members M k = [].
Proof. intros Hk Hn. destruct (nth_members M k) eqn:Ek; auto. exfalso. apply Hn, (li_all _ _ _ HL); auto. now rewrite Ek. Qed.
Lemma weight_sum l : (forall k, In k l -> k < N) -> Qsum (gweight ex E M v) l = Qsum bz l.
Proof. intros H. apply Qsum_ext. intros k Hk. apply bz_weight. auto. Qed.
Lemma total_sum : gtotal ex E M v = (Qsum bz slg + Qc_of_nat (N - length slg) * ex (- dH M slg v o N))%Qc.
Proof.
  unfold gtotal. rewrite (as_length N M AS). rewrite weight_sum by (intros k Hk; apply in_seq in Hk; lia). apply Qsum_rest; [apply HL|apply (li_lt _ _ _ HL)|].
  intros k Hk Hn. unfold bz. now rewrite bz_empty by (auto using out_empty).
Qed.
Lemma slg_pos : (0 < Qsum bz slg)%Qc.
Proof.
  pose proof o_in as Hi. apply in_split in Hi as (l1 & l2 & ->). rewrite Qsum_app. cbn [Qsum].
  assert (P0 : forall l, (0 <= Qsum bz l)%Qc) by (intros l; apply Qsum_nonneg; intros x _; apply Qclt_le_weak; apply ex_pos).
  rewrite Qcplus_comm. apply RolesBounds.Qc_lt_add; auto. apply RolesBounds.Qc_lt_add; auto. apply ex_pos.
Qed.
Lemma gb_walk_ok dHs dice : forall l cum last, (forall w, In w l -> nth_error dHs w = Some (Some (chg M slg v o w))) -> (cum < dice)%Qc -> (dice <= cum + Qsum bz l)%Qc ->
  exists pre w post, l = pre ++ w :: post /\ gb_walk dHs dice cum last l = Ok w /\ (cum + Qsum bz pre < dice)%Qc /\ (dice <= cum + (Qsum bz pre + bz w))%Qc.
Proof.
  induction l as [|x l IH]; intros cum last Hl H1 H2.
  - exfalso. cbn [Qsum] in H2. rewrite Qcplus_0_r in H2. apply Qcle_not_lt in H2. contradiction.
  - cbn [gb_walk]. cbn [nltb rops Qc_ops]. rewrite (proj2 (Num.Qc_ltb_true _ _) H1). rewrite (get_ok _ _ _ (Hl x (or_introl eq_refl))). cbn [bind]. cbn [nadd nexp nopp rops Qc_ops]. fold (bz x). cbn [Qsum] in H2.
    destruct (Qclt_le_dec (cum + bz x) dice) as [Hlt|Hle].
    + destruct (IH (cum + bz x)%Qc (Some x)) as (pre & w & post & -> & Ew & P1 & P2); auto; [intros; apply Hl; simpl; auto|now rewrite <- Qcplus_assoc|].
      exists (x :: pre), w, post. split; auto. split; [exact Ew|]. cbn [Qsum]. rewrite !Qcplus_assoc in *. auto.
    + exists [], x, l. split; auto. split.
      * destruct l; cbn [gb_walk]; cbn [nltb rops Qc_ops]; rewrite (proj2 (Num.Qc_ltb_false _ _) Hle); reflexivity.
      * cbn [Qsum]. rewrite Qcplus_0_l, Qcplus_0_r. auto.
Qed.
Lemma gb_room : length slg < N -> exists w, w < N /\ nth_members M w = [] /\ (forall k, k < w -> nth_members M k <> []).
Proof.
  intros HR. pose proof (as_length N M AS) as LM. destruct (existsb (fun k => negb (mem k slg)) (seq 0 N)) eqn:Ex.
  - apply existsb_exists in Ex as (k & Hk & Ek). apply in_seq in Hk. destruct (mem_spec k slg) as [|Hn]; [discriminate|]. rewrite <- LM. apply (first_empty M k); [lia|]. apply out_empty; auto. lia.
  - exfalso. assert (N <= length slg); [|lia]. rewrite <- (seq_length N 0) at 1. apply NoDup_incl_length; [apply seq_NoDup|]. intros k Hk. destruct (mem_spec k slg) as [|Hn]; auto.
    exfalso. enough (existsb (fun k => negb (mem k slg)) (seq 0 N) = true) by congruence. apply existsb_exists. exists k. split; auto. destruct (mem_spec k slg); [contradiction|reflexivity].
Qed.
End Node.

(** * A state of the sampler *)
(** [pos] says that no number drawn is 0; [c] is the difference between the energy kept and that of the partition. *)
Variable pos : Prop.
Variable c : Qc.
Record sinv (st : mc Qc) : Prop := {
  sn_p : pinv (mnet st) (mpart st);
  sn_g2g : table_exact g0 (abs (mpart st)) (mG2G st);
  sn_len : length (mn2g st) = N;
  sn_ds : Forall unit_draw (mds st);
  sn_pos : pos -> Forall (fun u => (0 < u)%Qc) (mds st);
  sn_H : mH st = (E (abs (mpart st)) + c)%Qc
}.
Definition sg_err (e : err) : Prop := sp_err e \/ (e = UB_oob /\ ~ pos).
Lemma none_sg e : none e -> sg_err e. Proof. intros []. Qed.
Notation gmove := (sp_move lngamma lnfact lgsize lfsize a b N ident ident tabs tfact).

Lemma pi_put g P v o w : pinv g P -> o < N -> w < N -> In v (nth_members (abs P) o) ->
  exists r g' P', MoveNode (g, P) v o w = Ok (r, (g', P')) /\ pinv g' P' /\ abs P' = put (abs P) v w.
Proof. exact (GibbsStep.pi_put ex sq g0 g P v o w). Qed.
Theorem sp_move_ok st slg dHs loc v : v < N -> sinv st -> listed g0 (abs (mpart st)) slg -> 2 <= length slg -> length dHs = N ->
  ends sg_err (gmove (st, slg, dHs, loc) v)
    (fun '(st', slg', dHs', _) => sinv st' /\ listed g0 (abs (mpart st')) slg' /\ 2 <= length slg' /\ length dHs' = N /\
       gregroup ex E v (abs (mpart st), slg, mds st) (abs (mpart st'), slg', mds st')).
Proof.
  intros Hv I HL H2 Ld. pose proof (sn_p _ I) as PI. set (M := abs (mpart st)) in *. pose proof (pi_as _ _ _ PI) as AS. fold M N in AS. unfold sp_move.
  rewrite (ident_get g0 v Hv). cbn [bind deref]. destruct (pi_home g0 _ _ PI v Hv) as (n & o & En & Eg & Ho & Hvo). fold M in Hvo. rewrite (get_ok _ _ _ En). cbn [bind]. rewrite Eg. cbn [bind].
  rewrite (ident_get g0 o Ho). cbn [bind deref].
  assert (Hoth : exists w, In w slg /\ w <> o).
  { destruct slg as [|x1 [|x2 slg']]; cbn [length] in H2; try lia. destruct (Nat.eq_dec x1 o) as [->|]; [|exists x1; simpl; auto]. exists x2. split; [simpl; auto|]. pose proof (li_nd _ _ _ HL) as ND. inversion ND; subst. simpl in *. intros ->. tauto. }
  eapply ends_bind.
  { eapply ends_weaken; [|exact none_sg]. apply (sp_dests_ok (mnet st) (mpart st) (mG2G st) slg v o PI (sn_g2g _ I) HL Ho Hvo slg n0 dHs (mn2g st) loc False (li_lt _ _ _ HL) Ld (sn_len _ I)). intros []. }
  intros [[[norm dHs1] n2g1] loc1] (Enorm & Ld1 & L1 & Hd1 & Hb1). destruct (Hb1 (or_intror Hoth)) as [Hn1 ->]. clear Hb1. fold M in Enorm, Hd1, Hn1.
  eapply ends_bind.
  { eapply ends_weaken; [|exact none_sg]. apply (sp_empty_ok (mnet st) (mpart st) (mG2G st) slg v o PI (sn_g2g _ I) HL Ho Hvo n2g1 Hn1). }
  intros dE EdE. fold M N in EdE.
  pose proof (sn_ds _ I) as HD. pose proof (sn_pos _ I) as HP. destruct (mds st) as [|u ds] eqn:Eds; [now left; left|]. cbn [draw bind]. inversion HD as [|? ? Hu HD']; subst x l.
  cbn [nadd nsub nmul nopp nexp nofnat nltb rops Qc_ops].
  set (rest := (Qc_of_nat (N - length slg) * ex (- dE))%Qc).
  assert (ET : gtotal ex E M v = (norm + rest)%Qc).
  { pose proof (total_sum (mnet st) (mpart st) slg v o PI HL Ho Hvo) as TS. fold M N in TS. rewrite TS. unfold rest. rewrite EdE, Enorm. cbn [n0 rops Qc_ops]. ring. }
  assert (EN : (norm + ex (- dE) * Qc_of_nat (N - length slg))%Qc = gtotal ex E M v) by (rewrite ET; unfold rest; ring). rewrite EN.
  assert (ES : (gtotal ex E M v - rest)%Qc = norm) by (rewrite ET; ring). rewrite ES.
  assert (EQ : norm = Qsum (gweight ex E M v) slg) by (rewrite (weight_sum (mnet st) (mpart st) slg v o PI HL Ho Hvo) by (apply HL); rewrite Enorm; cbn [n0 rops Qc_ops]; fold M; ring).
  pose proof (slg_pos (mpart st) slg v o HL Ho Hvo) as HSP. assert (Hpos : (0 < norm)%Qc) by (rewrite Enorm; cbn [n0 rops Qc_ops]; rewrite Qcplus_0_l; exact HSP). clear HSP.
  assert (Hrest : (0 <= rest)%Qc) by (unfold rest; apply RolesBounds.Qcmult_le_0_compat; [apply Qc_of_nat_nonneg|apply Qclt_le_weak, ex_pos]).
  set (ZZ := gtotal ex E M v) in *. assert (HZ : (0 < ZZ)%Qc) by (rewrite ET; apply RolesBounds.Qc_lt_add; auto).
  (* the choice *)
  match goal with |- ends _ (bind ?m _) _ => apply (ends_bind sg_err m _ (fun '(w, k, dHs') => k = w /\ w < N /\ gheats ex E M v slg u w /\ length dHs' = N /\ nth_error dHs' w = Some (Some (chg M slg v o w)))) end.
  { destruct (Qc_ltb norm (ZZ * u)) eqn:Eb.
    - apply Num.Qc_ltb_true in Eb. assert (Hroom : length slg < N).
      { destruct (Nat.lt_ge_cases (length slg) N) as [|Hge]; auto. exfalso. assert (Er : rest = 0%Qc) by (unfold rest; replace (N - length slg) with 0 by lia; change (Qc_of_nat 0) with 0%Qc; ring).
        rewrite Er, Qcplus_0_r in ET. rewrite ET in Eb, HZ. apply (Qclt_not_le _ _ Eb). rewrite <- (Qcmult_1_r norm) at 2. apply Qclt_le_weak. rewrite !(Qcmult_comm norm). apply Qcmult_lt_compat_r; auto. apply Hu. }
      destruct (gb_room (mnet st) (mpart st) slg o PI HL Ho Hroom) as (w & Hw & H0 & Hfirst). fold M in H0, Hfirst.
      unfold GetEmptyGroup. rewrite (find_empty_at (mpart st) (nth_members M) 0 w).
      2: { rewrite (pi_plen g0 _ _ PI). exact Hw. }
      2: { intros k G EG. assert (Hk : k < N) by (unfold N; rewrite <- (pi_plen g0 _ _ PI); eapply nth_lt; eauto). destruct (pi_group g0 _ _ PI k Hk) as (G' & EG' & _ & _ & Es & _). rewrite EG in EG'. injection EG' as <-. exact Es. }
      2: { exact H0. }
      2: { exact Hfirst. }
      cbn [deref bind Nat.add]. destruct (pi_group g0 _ _ PI w Hw) as (Gw & EGw & LGw & _). rewrite (get_ok _ _ _ EGw). cbn [bind]. rewrite LGw, set_ok by lia. cbn [bind ends]. splits; auto.
      + apply gh_new; auto; [rewrite <- EQ, Qcmult_comm; exact Eb|now rewrite (as_length N M AS)].
      + now rewrite length_upd.
      + rewrite nth_upd, Nat.eqb_refl, (proj2 (Nat.ltb_lt _ _)) by lia. pose proof (bz_empty (mnet st) (mpart st) slg v o PI HL Hvo w Hw H0) as BE. fold M in BE. now rewrite EdE, BE.
    - apply Num.Qc_ltb_false in Eb. destruct Hu as [Hu0 Hu1]. destruct (Qclt_le_dec 0 u) as [Hup|Hun].
      + destruct (gb_walk_ok (mpart st) slg v o dHs1 (ZZ * u)%Qc slg 0%Qc None) as (pre & w & post & Esl & EWK & P1 & P2).
        * intros w Hw. rewrite Hd1. now rewrite (proj2 (mem_In w slg) Hw).
        * apply RolesBounds.Qc_mul_pos; auto.
        * rewrite Qcplus_0_l. rewrite Enorm in Eb. cbn [n0 rops Qc_ops] in Eb. rewrite Qcplus_0_l in Eb. exact Eb.
        * rewrite !Qcplus_0_l in P1, P2. assert (Hi : In w slg) by (rewrite Esl; apply in_or_app; simpl; auto). pose proof (li_lt _ _ _ HL w Hi) as Hw. fold N in Hw.
          change (@n0 Qc rops) with 0%Qc. rewrite EWK. cbn [bind]. rewrite (ident_get g0 w Hw). cbn [bind deref ends]. splits; auto.
          -- assert (Hpre : forall k, In k pre -> k < N) by (intros k Hk; apply (li_lt _ _ _ HL); rewrite Esl; apply in_or_app; auto).
             rewrite Esl. apply gh_known; fold ZZ; rewrite (Qcmult_comm u).
             ++ pose proof (weight_sum (mnet st) (mpart st) slg v o PI HL Ho Hvo pre Hpre) as WS. fold M in WS. rewrite WS. exact P1.
             ++ pose proof (weight_sum (mnet st) (mpart st) slg v o PI HL Ho Hvo pre Hpre) as WS. fold M in WS. rewrite WS. pose proof (bz_weight (mnet st) (mpart st) slg v o PI HL Ho Hvo w Hw) as BW. fold M in BW. rewrite BW. exact P2.
          -- rewrite Hd1. now rewrite (proj2 (mem_In w slg) Hi).
      + assert (Eu : u = 0%Qc) by (apply Qcle_antisym; auto). subst u.
        assert (EW : gb_walk dHs1 (ZZ * 0)%Qc n0 None slg = Err UB_oob).
        { assert (Eb0 : Qc_ltb 0 (ZZ * 0) = false) by (apply Num.Qc_ltb_false; rewrite Qcmult_0_r; apply Qcle_refl). destruct slg as [|x0 slg0]; cbn [gb_walk]; change (nltb n0 (ZZ * 0)%Qc) with (Qc_ltb 0 (ZZ * 0)); now rewrite Eb0. }
        change (Q2Qc 0) with 0%Qc in EW. rewrite EW. cbn [bind ends]. right. split; auto. intros K. apply HP in K. inversion K as [|? ? K1 _]; subst. now apply (Qclt_not_eq _ _ K1). }
  intros [[w k] dHs2] (-> & Hw & HH & Ld2 & Ew). 
  destruct (pi_put _ _ v o w PI Ho Hw Hvo) as (r & g' & P' & EM & PI' & EA). fold M in EA. rewrite EM. cbn [bind]. rewrite (get_ok _ _ _ Ew). cbn [bind].
  destruct (g2g_list g0 U0 n2g1 M slg v o w (mG2G st) AS HL Ho Hw Hvo Hn1 (sn_g2g _ I)) as (m' & EG & Hm'). rewrite EG. cbn [bind].
  match goal with |- ends _ (bind ?m _) _ => assert (EK : m = Ok (RecSpec.known slg w)) end.
  { unfold RecSpec.known. destruct (existsb (Nat.eqb w) slg) eqn:Ex; auto. apply RecGibbs.existsb_not in Ex. rewrite (proj2 (Nat.ltb_lt (length slg) N) (listed_more g0 _ _ w HL Hw Ex)). reflexivity. }
  rewrite EK. cbn [bind ends fst snd mpart mds]. rewrite EA. splits; auto.
  - split; cbn [mnet mpart mH mG2G mn2g mtab mds]; auto.
    + now rewrite EA.
    + intros K. apply HP in K. now inversion K.
    + rewrite EA, (sn_H _ I). fold M. rewrite (put_energy ex sq logf lnch lnfg linC logf1 lnch00 g0 U0 M slg v o w AS HL Ho Hw Hvo). ring.
  - apply (GibbsStep.put_listed g0 M slg v o w AS HL Ho Hw Hvo).
  - unfold RecSpec.known. destruct (existsb _ slg); auto. rewrite app_length. lia.
  - now constructor.
Qed.
End Step.

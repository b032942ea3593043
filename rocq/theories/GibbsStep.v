(** GibbsStep.v -- one step of the Gibbs samplers of src/missing.c, src/multiblock.c and src/only_deg.c: every node in turn is moved by
    the heat bath rule, the energy and the table of links stay exact. *)
From Coq Require Import List Arith ZArith Bool QArith Qcanon Lia.
From Verif Require Import Base Num ListLib NatSum QcSum GraphModel GraphSpec GraphProof GroupModel GroupSpec PairSum GroupProof GroupExact MatLib
  ToolsModel ToolsProof ModulesModel SAProof MissModel MissSpec MissSets MissStep MissRun MissExact MbModel MbSpec MbStep GibbsModel GibbsSpec GibbsSets.
From Verif Require RecSpec RecGibbs RolesBounds.
Import ListNotations.
Local Open Scope nat_scope.

Lemma Qsum_rest n ks (f : nat -> Qc) x : NoDup ks -> (forall k, In k ks -> k < n) -> (forall k, k < n -> ~ In k ks -> f k = x) ->
  Qsum f (seq 0 n) = (Qsum f ks + Qc_of_nat (n - length ks) * x)%Qc.
Proof.
  intros H1 H2 H.
  assert (E : Qsum (fun k => f k - x)%Qc ks = Qsum (fun k => f k - x)%Qc (seq 0 n)).
  { rewrite (Qsum_members (fun k => f k - x)%Qc ks n) by auto. apply Qsum_ext. intros k Hk. apply in_seq in Hk. destruct (mem k ks) eqn:Em; auto. rewrite H; [ring|lia|]. intros K. apply (proj2 (mem_In _ _)) in K. congruence. }
  assert (HL : length ks <= n). { rewrite <- (seq_length n 0). apply NoDup_incl_length; auto. intros k Hk. apply in_seq. specialize (H2 k Hk). lia. }
  rewrite !Qsum_sub, !Qsum_const, seq_length in E. assert (EN : Qc_of_nat n = (Qc_of_nat (n - length ks) + Qc_of_nat (length ks))%Qc) by (rewrite <- Qc_of_nat_add; f_equal; lia). rewrite EN in E.
  transitivity (Qsum f ks - Qc_of_nat (length ks) * x + (Qc_of_nat (n - length ks) + Qc_of_nat (length ks)) * x)%Qc; [rewrite E; ring|ring].
Qed.
(** The first empty group. *)
Lemma first_empty (M : groups) : forall k, k < length M -> nth_members M k = [] -> exists w, w < length M /\ nth_members M w = [] /\ (forall j, j < w -> nth_members M j <> []).
Proof.
  induction k as [k IH] using lt_wf_ind. intros Hk Ek. destruct (existsb (fun j => negb (nonempty (nth_members M j))) (seq 0 k)) eqn:E.
  - apply existsb_exists in E as (j & Hj & Ej). apply in_seq in Hj. apply (IH j); try lia. destruct (nth_members M j); [auto|discriminate].
  - exists k. splits; auto. intros j Hj E0. enough (existsb (fun j => negb (nonempty (nth_members M j))) (seq 0 k) = true) by congruence. apply existsb_exists. exists j. split; [apply in_seq; lia|]. now rewrite E0.
Qed.
Lemma find_empty_at {A} (P : gpart A) (S : nat -> list nat) : forall pos w, w < length P -> (forall k G, nth_error P k = Some G -> psize G = Z.of_nat (length (S (pos + k)))) -> S (pos + w) = [] -> (forall k, k < w -> S (pos + k) <> []) ->
  find_empty pos P = Some (pos + w).
Proof.
  induction P as [|G P IH]; intros pos w Hw HP H0 H1; [simpl in Hw; lia|]. cbn [find_empty]. rewrite (HP 0 G eq_refl), Nat.add_0_r. destruct w as [|w].
  - rewrite Nat.add_0_r in H0. rewrite H0, Nat.add_0_r. reflexivity.
  - specialize (H1 0 ltac:(lia)) as H2. rewrite Nat.add_0_r in H2. destruct (Z.eqb_spec (Z.of_nat (length (S pos))) 0) as [E|E]; [destruct (S pos); [congruence|cbn in E; lia]|]. rewrite (IH (pos + 1) w).
    + f_equal. lia.
    + simpl in Hw. lia.
    + intros k G' E'. rewrite <- Nat.add_assoc. apply (HP (Datatypes.S k)). exact E'.
    + rewrite <- H0. f_equal. lia.
    + intros k Hk. rewrite <- Nat.add_assoc. apply (H1 (Datatypes.S k)). lia.
Qed.

Section Step.
Variables ex sq : Qc -> Qc.
Hypothesis ex_pos : forall x, (0 < ex x)%Qc.
Local Instance rops : NumOps Qc := Qc_ops ex sq.
Variable ln : Qc -> Qc.
Variable lnchoose : nat -> nat -> Qc.
Variable lnfact : nat -> Qc.
Variables lcsize lfsize : nat.
Variable linC : Qc.
Variable kd : kind.
Variable deg : bool.
Hypothesis ln1 : ln 1%Qc = 0%Qc.
Hypothesis choose00 : lnchoose 0 0 = 0%Qc.
Variable g0 : net Qc.
Hypothesis U0 : undirected g0.
Let N := length g0.
Notation logf := (logf ln).
Notation lnch := (lnch ln lnchoose kd).
Definition lnfg (d : nat) : Qc := if deg then lnfd ln lnfact kd g0 d else lnfact d.
Notation apply1 := (apply1 logf lnch).
Notation E := (MissSpec.energy logf lnch lnfg linC g0).
Notation dH := (dH_of logf lnch lnfg linC g0).
Notation chg := (change ex sq logf lnch lnfg linC g0).
Variable hl : list Qc.
Hypothesis Hhl : forall i, i < length hl -> nth_error hl i = Some (Qsum (fun j => 1 / Qc_of_nat j) (seq 1 i))%Qc.
Notation mb_err := (mb_err kd g0 hl).
Notation pinv := (pinv g0).
Notation ident := (ident g0).
Notation tfact := (InitializeTable lnfact lfsize).

Lemma logf1 : logf 1 = 0%Qc.
Proof. unfold MbStep.logf. replace (Qc_of_nat 1) with 1%Qc; auto. Qed.
Lemma lnch00 : lnch 0 0 = 0%Qc.
Proof.
  unfold MbStep.lnch. rewrite choose00. assert (H1 : hsum 0 (0 + 1) = 1%Qc) by (unfold hsum; cbn; apply Qc_is_canon; reflexivity).
  destruct kd; rewrite ?Nat.sub_0_r, ?H1, ?ln1; ring.
Qed.

Lemma gb_labels_ok no nw eff d : eff <= N -> 1 <= eff -> (no <> 1 -> nw = 0 -> eff < N) ->
  gb_labels ln lnfact lfsize kd deg N tfact (Z.of_nat no) (Z.of_nat nw) eff d = Ok (dlabels lnfg g0 no nw eff d).
Proof.
  intros H1 H2 H3. unfold gb_labels, lnfg. destruct deg.
  - exact (labels_ok ex sq ln lnfact lfsize kd g0 no nw eff d H1 H2 H3).
  - exact (mc_labels_ok lnfact lfsize g0 no nw eff d H1 H2 H3).
Qed.

(** * One node of a state *)
Section Node.
Variables (g : net Qc) (P : gpart Qc) (G2G : list (list Z)) (slg : list nat) (v o : nat).
Hypothesis PI : pinv g P.
Let M := abs P.
Hypothesis HG : table_exact g0 M G2G.
Hypothesis HL : listed g0 M slg.
Hypothesis Ho : o < N.
Hypothesis Hv : In v (nth_members M o).
Let AS : assigned N M := pi_as _ _ _ PI.
Lemma v_lt : v < N.
Proof. eapply as_range; eauto. Qed.
Lemma o_in : In o slg.
Proof. apply (li_all _ _ _ HL); auto. destruct (nth_members M o); [destruct Hv|auto]. Qed.
Lemma eff_ok : count (fun k => nonempty (nth_members M k)) slg <= N /\ 1 <= count (fun k => nonempty (nth_members M k)) slg /\
  (length (nth_members M o) <> 1 -> count (fun k => nonempty (nth_members M k)) slg < N).
Proof.
  assert (Hv1 : 1 <= length (nth_members M o)) by (destruct (nth_members M o); [destruct Hv|simpl; lia]). splits.
  - rewrite (listed_filled g0 M slg AS HL). apply (filled_le N M AS).
  - apply (count_pos (fun k => nonempty (nth_members M k)) slg o); [apply o_in|]. destruct (nth_members M o); [destruct Hv|auto].
  - intros H1. rewrite (listed_filled g0 M slg AS HL). apply (filled_lt g0 M o AS). lia.
Qed.
(** What the loop over destinations leaves behind. *)
Definition loc_ok : gb_loc :=
  (Z.of_nat (length (nth_members M o)), Z.of_nat (to_set g0 v (nth_members M o)), Z.of_nat (links_in g0 (nth_members M o)), count (fun k => nonempty (nth_members M k)) slg).
Definition n2g_ok (n2g : list (option Z)) : Prop := forall k, In k slg -> nth_error n2g k = Some (Some (Z.of_nat (to_set g0 v (nth_members M k)))).

Lemma gb_change_ok w tab n2g : w < N -> w <> o -> length n2g = N -> lc_table lnchoose lcsize tab ->
  ends mb_err (gb_change ln lnchoose lnfact lcsize lfsize linC kd deg N tfact hl g P G2G slg tab n2g v o w)
    (fun '(d, tab', n2g', l) => d = dH M slg v o w /\ lc_table lnchoose lcsize tab' /\ length n2g' = N /\ n2g_ok n2g' /\ l = loc_ok).
Proof.
  intros Hw Hne' Ln HT. assert (Hne : o <> w) by auto. pose proof v_lt as Hvn.
  destruct (pi_group g0 _ _ PI o Ho) as (Go & EGo & Elo & _ & Eso & Eio). destruct (pi_group g0 _ _ PI w Hw) as (Gw & EGw & Elw & _ & Esw & _). fold M in Eso, Esw, Eio.
  unfold gb_change. rewrite (get_ok _ _ _ EGo), (get_ok _ _ _ EGw). cbn [bind]. rewrite Elo, Elw.
  rewrite (pi_nlinks g0 U0 _ _ PI v o Hvn Ho), (pi_nlinks g0 U0 _ _ PI v w Hvn Hw). cbn [bind]. rewrite (pi_ng2g g0 U0 _ _ PI w o Hw Ho) by auto. cbn [bind]. fold M.
  rewrite Eso, Esw, Eio.
  match goal with |- context [foldM _ ((?d, _), _, _) slg] => set (d0 := d) end.
  assert (Ed : d0 = dbase linC (length (nth_members M o)) (length (nth_members M w))).
  { unfold d0, dbase. generalize (length (nth_members M o)) as no, (length (nth_members M w)) as nw. intros no nw.
    replace (Z.of_nat no =? 1)%Z with (no =? 1) by (destruct (Nat.eqb_spec no 1), (Z.eqb_spec (Z.of_nat no) 1); auto; lia).
    replace (Z.of_nat nw =? 0)%Z with (nw =? 0) by (destruct (Nat.eqb_spec nw 0), (Z.eqb_spec (Z.of_nat nw) 0); auto; lia). reflexivity. }
  eapply ends_bind.
  { apply (groups_ok ex sq ln lnchoose lcsize kd g0 U0 hl Hhl g P M G2G v o w Go Gw _ _ _ PI eq_refl HG Ho Hw Hne Hv EGo EGw eq_refl eq_refl eq_refl slg d0 tab n2g 0
     (li_lt _ _ _ HL) Ln HT). }
  intros [[[d' tab'] n2g'] eff'] (E1 & HT' & E2 & L' & Hn). cbn [fst snd]. rewrite Nat.add_0_l in E2. destruct eff_ok as (F1 & F2 & F3). rewrite <- E2 in F1, F2, F3.
  rewrite gb_labels_ok by auto. cbn [bind ends]. splits; auto.
  - unfold dH_of. now rewrite E1, E2, Ed.
  - intros k Hk. rewrite Hn. now rewrite (proj2 (mem_In k slg) Hk).
  - unfold loc_ok. now rewrite E2.
Qed.

Lemma gb_dests_ok : forall l norm dHs tab n2g loc (b : Prop), (forall k, In k l -> k < N) -> length dHs = N -> length n2g = N -> lc_table lnchoose lcsize tab -> (b -> n2g_ok n2g /\ loc = Some loc_ok) ->
  ends mb_err (foldM (gb_dest ln lnchoose lnfact lcsize lfsize linC kd deg N ident tfact hl g P G2G slg v o o) (norm, dHs, tab, n2g, loc) l)
    (fun '(norm', dHs', tab', n2g', loc') => norm' = (norm + Qsum (fun w => ex (- chg M slg v o w)) l)%Qc /\ length dHs' = N /\ lc_table lnchoose lcsize tab' /\ length n2g' = N /\
      (forall k, nth_error dHs' k = if mem k l then Some (Some (chg M slg v o k)) else nth_error dHs k) /\
      (b \/ (exists w, In w l /\ w <> o) -> n2g_ok n2g' /\ loc' = Some loc_ok)).
Proof.
  induction l as [|w l IH]; intros norm dHs tab n2g loc b Hl Ld Ln HT Hb.
  - cbn [foldM ends Qsum]. splits; auto; [now rewrite Qcplus_0_r|]. intros [H|(w & [] & _)]. auto.
  - cbn [foldM]. assert (Hw : w < N) by (apply Hl; simpl; auto).
    set (Q := fun '(norm', dHs', tab', n2g', loc') => norm' = (norm + ex (- chg M slg v o w))%Qc /\ dHs' = upd dHs w (Some (chg M slg v o w)) /\ lc_table lnchoose lcsize tab' /\ length n2g' = N /\ (b \/ w <> o -> n2g_ok n2g' /\ loc' = Some loc_ok)).
    apply (ends_bind mb_err _ _ Q).
    + unfold gb_dest. rewrite (ident_get g0 w Hw). cbn [bind deref]. destruct (Nat.eqb_spec w o) as [Ew|Hne].
      * rewrite set_ok by lia. cbn [bind ends]. unfold Q. splits; auto.
        -- unfold change. rewrite (proj2 (Nat.eqb_eq w o) Ew). reflexivity.
        -- unfold change. rewrite (proj2 (Nat.eqb_eq w o) Ew). reflexivity.
        -- intros [K|K]; auto. contradiction.
      * eapply ends_bind; [apply (gb_change_ok w tab n2g); auto|]. intros [[[d tab'] n2g'] loc'] (-> & HT' & L' & Hn & ->). rewrite set_ok by lia. cbn [bind ends]. unfold Q, change. rewrite (proj2 (Nat.eqb_neq w o) Hne). splits; auto.
    + intros [[[[norm1 dHs1] tab1] n2g1] loc1] (-> & -> & HT1 & L1 & Hb1).
      eapply ends_impl; [apply (IH _ _ _ _ _ (b \/ w <> o)); auto; [intros; apply Hl; simpl; auto|now rewrite length_upd]|].
      intros [[[[norm2 dHs2] tab2] n2g2] loc2] (-> & Ld2 & HT2 & L2 & Hd2 & Hb2). splits; auto.
      * cbn [Qsum]. now rewrite Qcplus_assoc.
      * intros k. rewrite Hd2, nth_upd. unfold mem. cbn [existsb]. change (existsb (Nat.eqb k) l) with (mem k l). destruct (mem k l); [now rewrite orb_true_r|]. rewrite orb_false_r.
        destruct (Nat.eqb_spec k w) as [->|]; simpl; auto. rewrite (proj2 (Nat.ltb_lt _ _)); auto. now rewrite Ld.
      * intros [K|(x & [<-|K] & Kn)]; apply Hb2; auto. right. eauto.
Qed.

(** * The change for an empty group *)
Lemma gb_empty_group_ok n2g d tab lab Go : In lab slg -> n2g_ok n2g -> lc_table lnchoose lcsize tab -> nth_error P o = Some Go ->
  ends mb_err (gb_empty_group ln lnchoose lcsize kd P hl G2G n2g Go (Z.of_nat (length (nth_members M o))) (Z.of_nat (to_set g0 v (nth_members M o))) (Z.of_nat (links_in g0 (nth_members M o))) (d, tab) lab)
    (fun '(d', tab') => d' = fold_left apply1 (dterms g0 M v o N lab) d /\ lc_table lnchoose lcsize tab').
Proof.
  intros Hin Hn HT EGo. pose proof (li_lt _ _ _ HL lab Hin) as Hlab. fold N in Hlab. pose proof v_lt as Hvn.
  destruct (pi_group g0 _ _ PI o Ho) as (G & EG' & Elo & _). rewrite EGo in EG'. injection EG' as <-.
  destruct (pi_group g0 _ _ PI lab Hlab) as (G & EG & El & Em & Es & Ei). fold M in Es.
  assert (S1 : length (nth_members M o) <= N).
  { pose proof (some_sizes N M [o] AS) as H. cbn [lsum] in H. rewrite Nat.add_0_r in H. apply H; [repeat constructor; simpl; intuition|]. intros k [<-|[]]; auto. }
  assert (S2 : lab <> o -> length (nth_members M o) + length (nth_members M lab) <= N).
  { intros K1. pose proof (some_sizes N M [o; lab] AS) as H. cbn [lsum] in H. rewrite Nat.add_0_r in H. apply H; [repeat constructor; simpl; intuition|]. intros k [<-|[<-|[]]]; auto. }
  unfold gb_empty_group. rewrite (get_ok _ _ _ EG). cbn [bind]. rewrite El, Elo, Es, nonempty_len. unfold dterms. rewrite (nth_members_out M N) by (rewrite (as_length N M AS); lia).
  set (So := nth_members M o) in *. set (S := nth_members M lab) in *. cbn [app length].
  assert (NDo : NoDup So) by apply AS. assert (RO : forall i, In i So -> i < N) by (intros i; apply (as_range _ _ AS o)).
  set (So' := remove1 v So).
  assert (Lo : length So = length So' + 1) by (apply length_remove1; auto).
  assert (NDo' : NoDup So') by (apply remove1_nodup; auto).
  assert (RO' : forall i, In i So' -> i < N) by (intros i Hi; apply remove1_In in Hi; apply RO; tauto).
  assert (Io : links_in g0 So = links_in g0 So' + to_set g0 v So) by (apply links_in_remove; auto).
  pose proof (links_in_le g0 So U0 NDo RO) as Bo. pose proof (links_in_le g0 So' U0 NDo' RO') as Bo'.
  assert (C1 : forall n, n <= N -> choose2 n <= choose2 N) by (intros; now apply choose2_mono).
  assert (C2 : forall a b, a + b <= N -> a * b <= choose2 N) by (intros a b K; etransitivity; [apply mul_choose2|now apply C1]).
  assert (XV : forall T, across g0 [v] T = to_set g0 v T) by (intros T; unfold across; cbn [lsum]; unfold to_set; lia).
  pose proof (term_ok ex sq ln lnchoose lcsize kd g0 hl Hhl) as TOK.
  destruct (nonempty S) eqn:NE; [|cbn [ends fold_left]; auto].
  destruct (Nat.eqb_spec lab o) as [Elab|Nlo].
  - assert (Xo' : across g0 [v] So' = to_set g0 v So) by (rewrite XV; unfold So'; now rewrite to_set_remove_self).
    assert (Bx : to_set g0 v So <= length So') by (rewrite <- Xo'; pose proof (across_le g0 [v] So') as K; cbn [length] in K; lia).
    eapply ends_bind; [apply (TOK false d tab (choose2 (length So)) (links_in g0 So)); first [assumption|reflexivity|apply choose2_Z|apply across_le|rewrite <- choose2_Z; do 2 f_equal; lia|apply C1; lia|apply C2; lia|rewrite ?across_nil_l, ?XV; lia|apply (across_le g0 [v])|nia]|]. intros [d1 t1] [E1 T1].
    eapply ends_bind; [apply (TOK true d1 t1 (choose2 (length So')) (links_in g0 So')); first [assumption|reflexivity|apply choose2_Z|apply across_le|rewrite <- choose2_Z; do 2 f_equal; lia|apply C1; lia|apply C2; lia|rewrite ?across_nil_l, ?XV; lia|apply (across_le g0 [v])|nia]|]. intros [d2 t2] [E2 T2].
    eapply ends_bind; [apply (TOK false d2 t2 (0 * length So) (across g0 [] So)); first [assumption|reflexivity|apply choose2_Z|apply across_le|rewrite <- choose2_Z; do 2 f_equal; lia|apply C1; lia|apply C2; lia|rewrite ?across_nil_l, ?XV; lia|apply (across_le g0 [v])|nia]|]. intros [d3 t3] [E3 T3].
    eapply ends_impl; [apply (TOK true d3 t3 (1 * length So') (across g0 [v] So')); first [assumption|reflexivity|apply choose2_Z|apply across_le|rewrite <- choose2_Z; do 2 f_equal; lia|apply C1; lia|apply C2; lia|rewrite ?across_nil_l, ?XV; lia|apply (across_le g0 [v])|nia]|]. intros [d4 t4] [E4 T4].
    cbn [fold_left]. split; auto. now rewrite E4, E3, E2, E1.
  - destruct (Nat.eqb_spec lab N) as [|_]; [lia|]. specialize (S2 Nlo). rewrite (get_ok _ _ _ (Hn lab Hin)). cbn [bind written]. fold S.
    assert (Eo : get2 G2G o lab = Ok (Z.of_nat (across g0 So S))) by (rewrite (mat_get _ _ _ _ o lab HG) by auto; rewrite (proj2 (Nat.eqb_neq o lab)) by auto; reflexivity).
    rewrite Eo. cbn [bind]. pose proof (across_remove g0 So S v NDo Hv) as Xo. fold So' in Xo.
    eapply ends_bind; [apply (TOK false d tab (length So * length S) (across g0 So S)); first [assumption|reflexivity|apply choose2_Z|apply across_le|rewrite <- choose2_Z; do 2 f_equal; lia|apply C1; lia|apply C2; lia|rewrite ?across_nil_l, ?XV; lia|apply (across_le g0 [v])|nia]|]. intros [d1 t1] [E1 T1].
    eapply ends_bind; [apply (TOK true d1 t1 (length So' * length S) (across g0 So' S)); first [assumption|reflexivity|apply choose2_Z|apply across_le|rewrite <- choose2_Z; do 2 f_equal; lia|apply C1; lia|apply C2; lia|rewrite ?across_nil_l, ?XV; lia|apply (across_le g0 [v])|nia]|]. intros [d2 t2] [E2 T2].
    eapply ends_bind; [apply (TOK false d2 t2 (0 * length S) (across g0 [] S)); first [assumption|reflexivity|apply choose2_Z|apply across_le|rewrite <- choose2_Z; do 2 f_equal; lia|apply C1; lia|apply C2; lia|rewrite ?across_nil_l, ?XV; lia|apply (across_le g0 [v])|nia]|]. intros [d3 t3] [E3 T3].
    eapply ends_impl; [apply (TOK true d3 t3 (1 * length S) (across g0 [v] S)); first [assumption|reflexivity|apply choose2_Z|apply across_le|rewrite <- choose2_Z; do 2 f_equal; lia|apply C1; lia|apply C2; lia|rewrite ?across_nil_l, ?XV; lia|apply (across_le g0 [v])|nia]|]. intros [d4 t4] [E4 T4].
    cbn [fold_left]. split; auto. now rewrite E4, E3, E2, E1.
Qed.
Lemma gb_empty_ok n2g tab : n2g_ok n2g -> lc_table lnchoose lcsize tab ->
  ends mb_err (gb_empty ln lnchoose lnfact lcsize lfsize linC kd deg N tfact hl P G2G slg tab n2g o (Some loc_ok)) (fun '(d, tab') => d = dH M slg v o N /\ lc_table lnchoose lcsize tab').
Proof.
  intros Hn HT. destruct (pi_group g0 _ _ PI o Ho) as (Go & EGo & _). unfold gb_empty, loc_ok. rewrite (get_ok _ _ _ EGo). cbn [bind].
  match goal with |- context [foldM _ (?d, tab) slg] => set (d0 := d) end.
  assert (Ed : d0 = dbase linC (length (nth_members M o)) (length (nth_members M N))).
  { rewrite (nth_members_out M N) by (rewrite (as_length N M AS); lia). unfold d0, dbase. cbn [length]. generalize (length (nth_members M o)) as no. intros no.
    replace (Z.of_nat no =? 1)%Z with (no =? 1) by (destruct (Nat.eqb_spec no 1), (Z.eqb_spec (Z.of_nat no) 1); auto; lia). reflexivity. }
  assert (HF : forall l d tab, (forall k, In k l -> In k slg) -> lc_table lnchoose lcsize tab ->
    ends mb_err (foldM (gb_empty_group ln lnchoose lcsize kd P hl G2G n2g Go (Z.of_nat (length (nth_members M o))) (Z.of_nat (to_set g0 v (nth_members M o))) (Z.of_nat (links_in g0 (nth_members M o)))) (d, tab) l)
      (fun '(d', tab') => d' = fold_left apply1 (flat_map (dterms g0 M v o N) l) d /\ lc_table lnchoose lcsize tab')).
  { induction l as [|k l IH]; intros d t Hl HTt; [cbn; auto|]. cbn [foldM]. eapply ends_bind; [apply (gb_empty_group_ok n2g d t k Go); auto; apply Hl; simpl; auto|]. intros [d1 t1] [-> T1].
    eapply ends_impl; [apply IH; auto; intros; apply Hl; simpl; auto|]. intros [d2 t2] [-> T2]. split; auto. cbn [flat_map]. now rewrite fold_left_app. }
  eapply ends_bind; [apply (HF slg d0 tab); auto|]. intros [d1 t1] [E1 T1]. destruct eff_ok as (F1 & F2 & F3).
  pose proof (gb_labels_ok (length (nth_members M o)) 0 _ d1 F1 F2 (fun K _ => F3 K)) as GL. change (Z.of_nat 0) with 0%Z in GL. rewrite GL. cbn [bind ends]. split; auto.
  unfold dH_of. rewrite E1, Ed, (nth_members_out M N) by (rewrite (as_length N M AS); lia). reflexivity.
Qed.

(** * The choice *)
Let bz (w : nat) : Qc := ex (- chg M slg v o w).
Lemma bz_weight w : w < N -> gweight ex E M v w = bz w.
Proof.
  intros Hw. unfold gweight, bz. f_equal. rewrite (put_energy ex sq logf lnch lnfg linC logf1 lnch00 g0 U0 M slg v o w AS HL Ho Hw Hv). ring.
Qed.
Lemma bz_empty w : w < N -> nth_members M w = [] -> chg M slg v o w = dH M slg v o N.
Proof.
  intros Hw E0. unfold change. destruct (Nat.eqb_spec w o) as [->|_]; [rewrite E0 in Hv; destruct Hv|]. exact (dH_empty ex sq logf lnch lnfg linC g0 M slg v o w E0 (li_lt _ _ _ HL) (as_length N M AS)).
Qed.
Lemma out_empty k : k < N -> ~ In k slg -> nth_members M k = [].
Proof. intros Hk Hn. destruct (nth_members M k) eqn:Ek; auto. exfalso. apply Hn, (li_all _ _ _ HL); auto. now rewrite Ek. Qed.
Lemma weight_sum l : (forall k, In k l -> k < N) -> Qsum (gweight ex E M v) l = Qsum bz l.
Proof. intros H. apply Qsum_ext. intros k Hk. apply bz_weight. auto. Qed.
Lemma total_sum : gtotal ex E M v = (Qsum bz slg + Qc_of_nat (N - length slg) * ex (- dH M slg v o N))%Qc.
Proof.
  unfold gtotal. rewrite (as_length N M AS). rewrite weight_sum by (intros k Hk; apply in_seq in Hk; lia). apply Qsum_rest; [apply HL|apply (li_lt _ _ _ HL)|].
  intros k Hk Hn. unfold bz. now rewrite bz_empty by (auto using out_empty).
Qed.
Lemma slg_pos : (0 < Qsum bz slg)%Qc.
Proof.
  pose proof o_in as Hi. apply in_split in Hi as (l1 & l2 & ->). rewrite Qsum_app. cbn [Qsum].
  assert (P0 : forall l, (0 <= Qsum bz l)%Qc) by (intros l; apply Qsum_nonneg; intros x _; apply Qclt_le_weak; apply ex_pos).
  rewrite Qcplus_comm. apply RolesBounds.Qc_lt_add; auto. apply RolesBounds.Qc_lt_add; auto. apply ex_pos.
Qed.
Lemma gb_walk_ok dHs dice : forall l cum last, (forall w, In w l -> nth_error dHs w = Some (Some (chg M slg v o w))) -> (cum < dice)%Qc -> (dice <= cum + Qsum bz l)%Qc ->
  exists pre w post, l = pre ++ w :: post /\ gb_walk dHs dice cum last l = Ok w /\ (cum + Qsum bz pre < dice)%Qc /\ (dice <= cum + (Qsum bz pre + bz w))%Qc.
Proof.
  induction l as [|x l IH]; intros cum last Hl H1 H2.
  - exfalso. cbn [Qsum] in H2. rewrite Qcplus_0_r in H2. apply Qcle_not_lt in H2. contradiction.
  - cbn [gb_walk]. cbn [nltb rops Qc_ops]. rewrite (proj2 (Num.Qc_ltb_true _ _) H1). rewrite (get_ok _ _ _ (Hl x (or_introl eq_refl))). cbn [bind]. cbn [nadd nexp nopp rops Qc_ops]. fold (bz x). cbn [Qsum] in H2.
    destruct (Qclt_le_dec (cum + bz x) dice) as [Hlt|Hle].
    + destruct (IH (cum + bz x)%Qc (Some x)) as (pre & w & post & -> & Ew & P1 & P2); auto; [intros; apply Hl; simpl; auto|now rewrite <- Qcplus_assoc|].
      exists (x :: pre), w, post. split; auto. split; [exact Ew|]. cbn [Qsum]. rewrite !Qcplus_assoc in *. auto.
    + exists [], x, l. split; auto. split.
      * destruct l; cbn [gb_walk]; cbn [nltb rops Qc_ops]; rewrite (proj2 (Num.Qc_ltb_false _ _) Hle); reflexivity.
      * cbn [Qsum]. rewrite Qcplus_0_l, Qcplus_0_r. auto.
Qed.
Lemma gb_room : length slg < N -> exists w, w < N /\ nth_members M w = [] /\ (forall k, k < w -> nth_members M k <> []).
Proof.
  intros HR. pose proof (as_length N M AS) as LM. destruct (existsb (fun k => negb (mem k slg)) (seq 0 N)) eqn:Ex.
  - apply existsb_exists in Ex as (k & Hk & Ek). apply in_seq in Hk. destruct (mem_spec k slg) as [|Hn]; [discriminate|]. rewrite <- LM. apply (first_empty M k); [lia|]. apply out_empty; auto. lia.
  - exfalso. assert (N <= length slg); [|lia]. rewrite <- (seq_length N 0) at 1. apply NoDup_incl_length; [apply seq_NoDup|]. intros k Hk. destruct (mem_spec k slg) as [|Hn]; auto.
    exfalso. enough (existsb (fun k => negb (mem k slg)) (seq 0 N) = true) by congruence. apply existsb_exists. exists k. split; auto. destruct (mem_spec k slg); [contradiction|reflexivity].
Qed.
End Node.

(** * A state of the sampler *)
(** [pos] says that no number drawn is 0; [c] is the difference between the energy kept and that of the partition. *)
Variable pos : Prop.
Variable c : Qc.
Definition unit_draw (u : Qc) : Prop := (0 <= u)%Qc /\ (u < 1)%Qc.
Record ginv (st : mc Qc) : Prop := {
  gn_p : pinv (mnet st) (mpart st);
  gn_g2g : table_exact g0 (abs (mpart st)) (mG2G st);
  gn_len : length (mn2g st) = N;
  gn_tab : lc_table lnchoose lcsize (mtab st);
  gn_ds : Forall unit_draw (mds st);
  gn_pos : pos -> Forall (fun u => (0 < u)%Qc) (mds st);
  gn_H : mH st = (E (abs (mpart st)) + c)%Qc
}.
Definition gb_err (e : err) : Prop := mb_err e \/ (e = UB_oob /\ ~ pos).
Lemma mb_gb e : mb_err e -> gb_err e. Proof. now left. Qed.
Notation gmove := (gb_move ln lnchoose lnfact lcsize lfsize linC kd deg N ident ident tfact hl).

Lemma pi_put g P v o w : pinv g P -> o < N -> w < N -> In v (nth_members (abs P) o) ->
  exists r g' P', MoveNode (g, P) v o w = Ok (r, (g', P')) /\ pinv g' P' /\ abs P' = put (abs P) v w.
Proof.
  intros I Ho Hw Hv. pose proof (pi_as _ _ _ I) as AS.
  destruct (move_step noX noXG) with (g := g) (P := P) (i := v) (a := o) (b := w) as (r & g' & P' & Em & I' & S' & EA & _); auto using (pi_ginv g0 g P I); try (intros; exact Logic.I); try (rewrite (pi_plen g0 g P I); auto).
  apply ginv_mapped in I' as (U' & M' & _). change (abs P' = moved (abs P) v o w) in EA. rewrite (moved_put N (abs P) v o w AS Ho Hw Hv) in EA. exists r, g', P'. splits; auto. split; auto; [eapply sbg_trans; eauto; apply I|]. rewrite EA.
  apply put_assigned; auto. eapply as_range; eauto.
Qed.
Lemma put_listed M slg v o w : assigned N M -> listed g0 M slg -> o < N -> w < N -> In v (nth_members M o) -> listed g0 (put M v w) (RecSpec.known slg w).
Proof.
  intros AS HL Ho Hw Hv. split.
  - unfold RecSpec.known. destruct (existsb (Nat.eqb w) slg) eqn:Ex; [apply HL|]. apply RecGibbs.existsb_not in Ex. rewrite <- (rev_involutive (slg ++ [w])), rev_unit. apply NoDup_rev. constructor; [now rewrite <- in_rev|apply NoDup_rev, HL].
  - intros k Hk. apply RecGibbs.known_In in Hk as [Hk| ->]; auto. now apply (li_lt _ _ _ HL).
  - intros k Hk NE. apply RecGibbs.known_In. destruct (nth_members (put M v w) k) as [|i l] eqn:Ek; [discriminate|]. assert (Hi : In i (nth_members (put M v w) k)) by (rewrite Ek; simpl; auto).
    apply (put_In N) in Hi as [[_ ->]|[_ Hi]]; auto. left. apply (li_all _ _ _ HL); auto. destruct (nth_members M k); [destruct Hi|reflexivity].
Qed.

Theorem gb_move_ok st slg dHs loc v : v < N -> ginv st -> listed g0 (abs (mpart st)) slg -> 2 <= length slg -> length dHs = N ->
  ends gb_err (gmove (st, slg, dHs, loc) v)
    (fun '(st', slg', dHs', _) => ginv st' /\ listed g0 (abs (mpart st')) slg' /\ 2 <= length slg' /\ length dHs' = N /\
       gregroup ex E v (abs (mpart st), slg, mds st) (abs (mpart st'), slg', mds st')).
Proof.
  intros Hv I HL H2 Ld. pose proof (gn_p _ I) as PI. set (M := abs (mpart st)) in *. pose proof (pi_as _ _ _ PI) as AS. fold M N in AS. unfold gb_move.
  rewrite (ident_get g0 v Hv). cbn [bind deref]. destruct (pi_home g0 _ _ PI v Hv) as (n & o & En & Eg & Ho & Hvo). fold M in Hvo. rewrite (get_ok _ _ _ En). cbn [bind]. rewrite Eg. cbn [bind].
  rewrite (ident_get g0 o Ho). cbn [bind deref].
  assert (Hoth : exists w, In w slg /\ w <> o).
  { destruct slg as [|a [|b slg']]; cbn [length] in H2; try lia. destruct (Nat.eq_dec a o) as [->|]; [|exists a; simpl; auto]. exists b. split; [simpl; auto|]. pose proof (li_nd _ _ _ HL) as ND. inversion ND; subst. simpl in *. intros ->. tauto. }
  eapply ends_bind.
  { eapply ends_weaken; [|exact mb_gb]. apply (gb_dests_ok (mnet st) (mpart st) (mG2G st) slg v o PI (gn_g2g _ I) HL Ho Hvo slg n0 dHs (mtab st) (mn2g st) loc False (li_lt _ _ _ HL) Ld (gn_len _ I) (gn_tab _ I)). intros []. }
  intros [[[[norm dHs1] tab1] n2g1] loc1] (Enorm & Ld1 & HT1 & L1 & Hd1 & Hb1). destruct (Hb1 (or_intror Hoth)) as [Hn1 ->]. clear Hb1. fold M in Enorm, Hd1, Hn1.
  eapply ends_bind.
  { eapply ends_weaken; [|exact mb_gb]. apply (gb_empty_ok (mnet st) (mpart st) (mG2G st) slg v o PI (gn_g2g _ I) HL Ho Hvo n2g1 tab1 Hn1 HT1). }
  intros [dE tab2] [EdE HT2]. fold M N in EdE.
  pose proof (gn_ds _ I) as HD. pose proof (gn_pos _ I) as HP. destruct (mds st) as [|u ds] eqn:Eds; [now left; left|]. cbn [draw bind]. inversion HD as [|? ? Hu HD']; subst x l.
  cbn [nadd nsub nmul nopp nexp nofnat nltb rops Qc_ops].
  set (rest := (Qc_of_nat (N - length slg) * ex (- dE))%Qc).
  assert (ET : gtotal ex E M v = (norm + rest)%Qc).
  { pose proof (total_sum (mnet st) (mpart st) slg v o PI HL Ho Hvo) as TS. fold M N in TS. rewrite TS. unfold rest. rewrite EdE, Enorm. cbn [n0 rops Qc_ops]. ring. }
  assert (EN : (norm + ex (- dE) * Qc_of_nat (N - length slg))%Qc = gtotal ex E M v) by (rewrite ET; unfold rest; ring). rewrite EN.
  assert (ES : (gtotal ex E M v - rest)%Qc = norm) by (rewrite ET; ring). rewrite ES.
  assert (EQ : norm = Qsum (gweight ex E M v) slg) by (rewrite (weight_sum (mnet st) (mpart st) slg v o PI HL Ho Hvo) by (apply HL); rewrite Enorm; cbn [n0 rops Qc_ops]; fold M; ring).
  pose proof (slg_pos (mpart st) slg v o HL Ho Hvo) as HSP. assert (Hpos : (0 < norm)%Qc) by (rewrite Enorm; cbn [n0 rops Qc_ops]; rewrite Qcplus_0_l; exact HSP). clear HSP.
  assert (Hrest : (0 <= rest)%Qc) by (unfold rest; apply RolesBounds.Qcmult_le_0_compat; [apply Qc_of_nat_nonneg|apply Qclt_le_weak, ex_pos]).
  set (ZZ := gtotal ex E M v) in *. assert (HZ : (0 < ZZ)%Qc) by (rewrite ET; apply RolesBounds.Qc_lt_add; auto).
  (* the choice *)
  match goal with |- ends _ (bind ?m _) _ => apply (ends_bind gb_err m _ (fun '(w, k, dHs') => k = w /\ w < N /\ gheats ex E M v slg u w /\ length dHs' = N /\ nth_error dHs' w = Some (Some (chg M slg v o w)))) end.
  { destruct (Qc_ltb norm (ZZ * u)) eqn:Eb.
    - apply Num.Qc_ltb_true in Eb. assert (Hroom : length slg < N).
      { destruct (Nat.lt_ge_cases (length slg) N) as [|Hge]; auto. exfalso. assert (Er : rest = 0%Qc) by (unfold rest; replace (N - length slg) with 0 by lia; change (Qc_of_nat 0) with 0%Qc; ring).
        rewrite Er, Qcplus_0_r in ET. rewrite ET in Eb, HZ. apply (Qclt_not_le _ _ Eb). rewrite <- (Qcmult_1_r norm) at 2. apply Qclt_le_weak. rewrite !(Qcmult_comm norm). apply Qcmult_lt_compat_r; auto. apply Hu. }
      destruct (gb_room (mnet st) (mpart st) slg o PI HL Ho Hroom) as (w & Hw & H0 & Hfirst). fold M in H0, Hfirst.
      unfold GetEmptyGroup. rewrite (find_empty_at (mpart st) (nth_members M) 0 w).
      2: { rewrite (pi_plen g0 _ _ PI). exact Hw. }
      2: { intros k G EG. assert (Hk : k < N) by (unfold N; rewrite <- (pi_plen g0 _ _ PI); eapply nth_lt; eauto). destruct (pi_group g0 _ _ PI k Hk) as (G' & EG' & _ & _ & Es & _). rewrite EG in EG'. injection EG' as <-. exact Es. }
      2: { exact H0. }
      2: { exact Hfirst. }
      cbn [deref bind Nat.add]. destruct (pi_group g0 _ _ PI w Hw) as (Gw & EGw & LGw & _). rewrite (get_ok _ _ _ EGw). cbn [bind]. rewrite LGw, set_ok by lia. cbn [bind ends]. splits; auto.
      + apply gh_new; auto; [rewrite <- EQ, Qcmult_comm; exact Eb|now rewrite (as_length N M AS)].
      + now rewrite length_upd.
      + rewrite nth_upd, Nat.eqb_refl, (proj2 (Nat.ltb_lt _ _)) by lia. pose proof (bz_empty (mnet st) (mpart st) slg v o PI HL Hvo w Hw H0) as BE. fold M in BE. now rewrite EdE, BE.
    - apply Num.Qc_ltb_false in Eb. destruct Hu as [Hu0 Hu1]. destruct (Qclt_le_dec 0 u) as [Hup|Hun].
      + destruct (gb_walk_ok (mpart st) slg v o dHs1 (ZZ * u)%Qc slg 0%Qc None) as (pre & w & post & Esl & EWK & P1 & P2).
        * intros w Hw. rewrite Hd1. now rewrite (proj2 (mem_In w slg) Hw).
        * apply RolesBounds.Qc_mul_pos; auto.
        * rewrite Qcplus_0_l. rewrite Enorm in Eb. cbn [n0 rops Qc_ops] in Eb. rewrite Qcplus_0_l in Eb. exact Eb.
        * rewrite !Qcplus_0_l in P1, P2. assert (Hi : In w slg) by (rewrite Esl; apply in_or_app; simpl; auto). pose proof (li_lt _ _ _ HL w Hi) as Hw. fold N in Hw.
          change (@n0 Qc rops) with 0%Qc. rewrite EWK. cbn [bind]. rewrite (ident_get g0 w Hw). cbn [bind deref ends]. splits; auto.
          -- assert (Hpre : forall k, In k pre -> k < N) by (intros k Hk; apply (li_lt _ _ _ HL); rewrite Esl; apply in_or_app; auto).
             rewrite Esl. apply gh_known; fold ZZ; rewrite (Qcmult_comm u).
             ++ pose proof (weight_sum (mnet st) (mpart st) slg v o PI HL Ho Hvo pre Hpre) as WS. fold M in WS. rewrite WS. exact P1.
             ++ pose proof (weight_sum (mnet st) (mpart st) slg v o PI HL Ho Hvo pre Hpre) as WS. fold M in WS. rewrite WS. pose proof (bz_weight (mnet st) (mpart st) slg v o PI HL Ho Hvo w Hw) as BW. fold M in BW. rewrite BW. exact P2.
          -- rewrite Hd1. now rewrite (proj2 (mem_In w slg) Hi).
      + assert (Eu : u = 0%Qc) by (apply Qcle_antisym; auto). subst u.
        assert (EW : gb_walk dHs1 (ZZ * 0)%Qc n0 None slg = Err UB_oob).
        { assert (Eb0 : Qc_ltb 0 (ZZ * 0) = false) by (apply Num.Qc_ltb_false; rewrite Qcmult_0_r; apply Qcle_refl). destruct slg as [|x0 slg0]; cbn [gb_walk]; change (nltb n0 (ZZ * 0)%Qc) with (Qc_ltb 0 (ZZ * 0)); now rewrite Eb0. }
        change (Q2Qc 0) with 0%Qc in EW. rewrite EW. cbn [bind ends]. right. split; auto. intros K. apply HP in K. inversion K as [|? ? K1 _]; subst. now apply (Qclt_not_eq _ _ K1). }
  intros [[w k] dHs2] (-> & Hw & HH & Ld2 & Ew). 
  destruct (pi_put _ _ v o w PI Ho Hw Hvo) as (r & g' & P' & EM & PI' & EA). fold M in EA. rewrite EM. cbn [bind]. rewrite (get_ok _ _ _ Ew). cbn [bind].
  destruct (g2g_list g0 U0 n2g1 M slg v o w (mG2G st) AS HL Ho Hw Hvo Hn1 (gn_g2g _ I)) as (m' & EG & Hm'). rewrite EG. cbn [bind].
  match goal with |- ends _ (bind ?m _) _ => assert (EK : m = Ok (RecSpec.known slg w)) end.
  { unfold RecSpec.known. destruct (existsb (Nat.eqb w) slg) eqn:Ex; auto. apply RecGibbs.existsb_not in Ex. rewrite (proj2 (Nat.ltb_lt (length slg) N) (listed_more g0 _ _ w HL Hw Ex)). reflexivity. }
  rewrite EK. cbn [bind ends fst snd mpart mds]. rewrite EA. splits; auto.
  - split; cbn [mnet mpart mH mG2G mn2g mtab mds]; auto.
    + now rewrite EA.
    + intros K. apply HP in K. now inversion K.
    + rewrite EA, (gn_H _ I). fold M. rewrite (put_energy ex sq logf lnch lnfg linC logf1 lnch00 g0 U0 M slg v o w AS HL Ho Hw Hvo). ring.
  - apply (put_listed M slg v o w AS HL Ho Hw Hvo).
  - unfold RecSpec.known. destruct (existsb _ slg); auto. rewrite app_length. lia.
  - now constructor.
Qed.
End Step.

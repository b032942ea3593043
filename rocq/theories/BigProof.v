(** BigProof.v -- the link of largest betweenness. *)
From Coq Require Import List Arith Lia Bool Permutation QArith Qcanon.
From Verif Require Import Base Num ListLib NatSum QcSum IoModel GraphModel GraphSpec GraphProof GraphSim BfsModel BfsProof RolesBounds PathLen SplitProof StatModel BtwSearch StatProof LbtwModel LbtwProof BigModel.
Import ListNotations.
Local Open Scope nat_scope.

Section Exact.
Variables ex sq : Qc -> Qc.
#[local] Instance opsBig : NumOps Qc := Qc_ops ex sq.

Lemma btw_value_ok g i k v : btw_at g i k = Some v -> btw_value g i k = Ok v.
Proof. unfold btw_at, btw_value, btw_in. destruct (nth_error g i) as [n|] eqn:E; [|discriminate]. rewrite (get_ok _ _ _ E). cbn [bind]. destruct (find _ (gadj n)); [|discriminate]. cbn. congruence. Qed.
Lemma btw_some g i j : wf_net g -> In j (nbrs g i) -> exists y, btw_at g i j = Some y.
Proof.
  intros W Hj. unfold nbrs in Hj. unfold btw_at, btw_in. destruct (nth_error g i) as [n|] eqn:En; [|destruct Hj]. apply targets_In in Hj as (l & Hl & El). destruct (wf_link g W i n l En Hl) as (j' & m & E1 & _ & E3 & _).
  destruct (find (fun l => lnode l =? j) (gadj n)) as [l'|] eqn:F; [cbn; eauto|]. exfalso. pose proof (find_none _ _ F l Hl) as X. cbn in X. apply Nat.eqb_neq in X. congruence.
Qed.
Lemma Qlt_plus y x : (0 < x)%Qc -> (y < y + x)%Qc.
Proof. intros H. rewrite <- (Qcplus_0_r y) at 1. apply Qclt_minus_iff. replace (y + x + - (y + 0))%Qc with x by ring. exact H. Qed.

(** [big] points to a largest link; the numbers are its ends, or nothing has a value yet. *)
Record J (h : net Qc) (big out : option (nat * nat)) : Prop := {
  j_mirror : mirror h;
  j_big : match big with Some (i, k) => exists v, btw_at h i k = Some v /\ forall a b y, btw_at h a b = Some y -> (y <= v)%Qc | None => out = None end;
  j_out : match out with Some (n1, n2) => big = Some (n2, n1) | None => forall a b y, btw_at h a b = Some y -> y = 0%Qc end }.

Section Source.
Variables (g : net Qc) (s : nat) (q : list bent).
Hypothesis U : undirected g.
Hypothesis C : complete g s q.
Notation N := (length g).
Definition positive (bet : list Qc) : Prop := length bet = N /\ forall i, i < N -> (0 < nth i bet 0%Qc)%Qc.
Definition free (big out : option (nat * nat)) (i : nat) : Prop := out = None -> match big with Some (j, _) => j <> i | None => True end.
Lemma big_pred_ok h bet big out e k pe n : alike g h -> positive bet -> In e q -> nth_error q k = Some pe -> In (bref pe) (nbrs g (bref e)) -> In (bref e) (nbrs g (bref pe)) ->
  0 < n -> J h big out -> free big out (bref e) ->
  exists h' bet' big' out', big_pred q e n (h, bet, big, out) (Some k) = Ok (h', bet', big', out') /\ lb_pred q e n (h, bet) (Some k) = Ok (h', bet') /\ alike g h' /\ positive bet' /\ J h' big' out' /\ out' <> None.
Proof.
  intros Ha [L Pos] He Ek L1 L2 Hn Hj Hfree. assert (Hp : In pe q) by (eapply nth_error_In; eauto). assert (Hne : bref e <> bref pe). { intros X. rewrite X in L1. exact (un_loop g U _ L1). }
  pose proof (bref_lt g s q U C e He) as Ie. pose proof (bref_lt g s q U C pe Hp) as Ip.
  pose proof (alike_undirected g h Ha U) as Uh. unfold big_pred, lb_pred. cbn [deref bind]. rewrite (get_ok _ _ _ Ek). cbn [bind].
  destruct (nth_ex h (bref pe)) as [pn Epn]; [rewrite (alike_length g h Ha); auto|]. destruct (nth_ex h (bref e)) as [ln Eln]; [rewrite (alike_length g h Ha); auto|].
  rewrite (get_ok _ _ _ Epn), (get_ok _ _ _ Eln). cbn [bind]. rewrite (wf_num h (un_wf h Uh) _ _ Epn), (wf_num h (un_wf h Uh) _ _ Eln).
  assert (Ge : nth_error bet (bref e) = Some (load bet e)) by (unfold load; apply nth_error_nth'; rewrite L; auto).
  assert (Gp : nth_error bet (bref pe) = Some (load bet pe)) by (unfold load; apply nth_error_nth'; rewrite L; auto).
  rewrite (get_ok _ _ _ Ge), (get_ok _ _ _ Gp). cbn [bind]. rewrite set_ok by (rewrite L; auto). cbn [bind].
  assert (Ge2 : forall x, nth_error (upd bet (bref pe) x) (bref e) = Some (load bet e)) by (intros x; rewrite nth_upd_neq; auto). rewrite (get_ok _ _ _ (Ge2 _)). cbn [bind].
  set (x := (load bet e / Qc_of_nat n)%Qc). assert (Hx : (0 < x)%Qc). { apply Qcnot_le_lt. intros K. apply (Qcmult_le_compat_r _ _ (Qc_of_nat n)) in K; [|apply Qclt_le_weak, Qc_of_nat_pos; auto]. unfold x in K. rewrite Qcmult_comm, Qcmult_div_r, Qcmult_0_l in K by (apply Qc_neq_pos, Qc_of_nat_pos; auto). apply (Qcle_not_lt _ _ K). apply Pos. auto. }
  destruct (add_btw_ok ex sq h (bref e) (bref pe) x (un_wf h Uh)) as (h1 & E1 & A1 & _ & B1); [now rewrite (alike_nbrs g h _ Ha)|].
  pose proof (alike_trans _ _ _ Ha A1) as Ha1. pose proof (alike_undirected g h1 Ha1 U) as Uh1.
  destruct (add_btw_ok ex sq h1 (bref pe) (bref e) x (un_wf h1 Uh1)) as (h2 & E2 & A2 & _ & B2); [now rewrite (alike_nbrs g h1 _ Ha1)|].
  match goal with |- context [add_btw h ?a ?b ?c] => replace (add_btw h a b c) with (@Ok (net Qc) h1) by (symmetry; exact E1) end. cbn [bind].
  match goal with |- context [add_btw h1 ?a ?b ?c] => replace (add_btw h1 a b c) with (@Ok (net Qc) h2) by (symmetry; exact E2) end. cbn [bind].
  destruct (btw_some h (bref e) (bref pe) (un_wf h Uh)) as [y0 Y0]; [now rewrite (alike_nbrs g h _ Ha)|].
  destruct Hj as [M JB JO]. assert (Y1 : btw_at h (bref pe) (bref e) = Some y0) by (rewrite M; exact Y0).
  assert (V1 : btw_at h1 (bref e) (bref pe) = Some (y0 + x)%Qc) by (rewrite B1, !Nat.eqb_refl, Y0; reflexivity).
  assert (V2 : btw_at h2 (bref e) (bref pe) = Some (y0 + x)%Qc) by (rewrite B2, (proj2 (Nat.eqb_neq _ _) Hne); exact V1).
  rewrite (btw_value_ok _ _ _ _ V1). cbn [bind].
  assert (M2 : mirror h2). { intros i j. rewrite !B2, !B1, (M i j). destruct (Nat.eqb_spec i (bref pe)), (Nat.eqb_spec j (bref e)), (Nat.eqb_spec j (bref pe)), (Nat.eqb_spec i (bref e)); cbn [andb]; auto; subst; congruence. }
  assert (New : forall a b y, btw_at h2 a b = Some y -> btw_at h a b = Some y \/ y = (y0 + x)%Qc).
  { intros a b y. rewrite B2. destruct ((a =? bref pe) && (b =? bref e)) eqn:F.
    - apply andb_true_iff in F as [F1 F2]. apply Nat.eqb_eq in F1, F2. subst a b. rewrite B1, (proj2 (Nat.eqb_neq (bref pe) (bref e))) by congruence. cbn [andb]. rewrite Y1. cbn. intros [= <-]. auto.
    - rewrite B1. destruct ((a =? bref e) && (b =? bref pe)) eqn:F'; auto. apply andb_true_iff in F' as [F1 F2]. apply Nat.eqb_eq in F1, F2. subst a b. rewrite Y0. cbn. intros [= <-]. auto. }
  assert (Pb : positive (upd bet (bref pe) (load bet pe + x)%Qc)).
  { split; [now rewrite length_upd|]. intros i Hi. destruct (Nat.eq_dec i (bref pe)) as [->|Hi'].
    - rewrite (nth_error_nth _ _ _ (nth_upd_eq bet (bref pe) _ ltac:(rewrite L; auto))). apply Qclt_trans with (load bet pe); [apply Pos; auto|now apply Qlt_plus].
    - destruct (nth_ex bet i) as [z Ez]; [rewrite L; auto|]. rewrite (nth_error_nth (upd bet (bref pe) (load bet pe + x)%Qc) i 0%Qc (x := z)); [|rewrite nth_upd_neq; auto]. rewrite <- (nth_error_nth bet i 0%Qc Ez). apply Pos. auto. }
  assert (JT : forall v, (v < y0 + x)%Qc -> (forall a b y, btw_at h a b = Some y -> (y <= v)%Qc) -> J h2 (Some (bref e, bref pe)) (Some (bref pe, bref e))).
  { intros v Hv Ha'. split; auto. exists (y0 + x)%Qc. split; auto. intros a b y Hy. destruct (New a b y Hy) as [X| ->]; [|apply Qcle_refl]. apply Qcle_trans with v; eauto. now apply Qclt_le_weak. }
  destruct big as [[i k']|].
  - destruct JB as (vb & Vb & Mb). destruct ((i =? bref e) && (k' =? bref pe)) eqn:F.
    + apply andb_true_iff in F as [F1 F2]. apply Nat.eqb_eq in F1, F2. subst i k'. assert (vb = y0) by congruence. subst vb. rewrite (btw_value_ok _ _ _ _ V1). cbn [bind].
      change (nltb (y0 + x)%Qc (y0 + x)%Qc) with (Qc_ltb (y0 + x) (y0 + x)). rewrite (proj2 (Num.Qc_ltb_false (y0 + x)%Qc (y0 + x)%Qc) (Qcle_refl _)). try (match goal with |- context [add_btw h1 ?a ?b ?c] => replace (add_btw h1 a b c) with (@Ok (net Qc) h2) by (symmetry; exact E2) end); cbn [bind].
      assert (On : out <> None) by (intros X; exact (Hfree X eq_refl)).
      do 4 eexists. split; [reflexivity|]. split; [reflexivity|]. split; [eapply alike_trans; eauto|]. split; [exact Pb|]. split; [|exact On]. split; auto.
      * exists (y0 + x)%Qc. split; auto. intros a b y Hy. destruct (New a b y Hy) as [X| ->]; [|apply Qcle_refl]. apply Qcle_trans with y0; eauto. apply Qclt_le_weak. now apply Qlt_plus.
      * destruct out as [[n1 n2]|]; [exact JO|contradiction].
    + assert (W1 : btw_at h1 i k' = Some vb) by (rewrite B1, F; exact Vb). rewrite (btw_value_ok _ _ _ _ W1). cbn [bind]. change (nltb vb (y0 + x)%Qc) with (Qc_ltb vb (y0 + x)). destruct (Qc_ltb vb (y0 + x)) eqn:Lt.
      * try (match goal with |- context [add_btw h1 ?a ?b ?c] => replace (add_btw h1 a b c) with (@Ok (net Qc) h2) by (symmetry; exact E2) end); cbn [bind]. apply Num.Qc_ltb_true in Lt. do 4 eexists. split; [reflexivity|]. split; [reflexivity|]. split; [eapply alike_trans; eauto|]. split; [exact Pb|]. split; [eapply JT; eauto|discriminate].
      * try (match goal with |- context [add_btw h1 ?a ?b ?c] => replace (add_btw h1 a b c) with (@Ok (net Qc) h2) by (symmetry; exact E2) end); cbn [bind]. apply Num.Qc_ltb_false in Lt. assert (On : out <> None).
        { intros ->. rewrite (JO _ _ _ Vb), (JO _ _ _ Y0) in Lt. apply (Qcle_not_lt _ _ Lt). now apply Qlt_plus. }
        do 4 eexists. split; [reflexivity|]. split; [reflexivity|]. split; [eapply alike_trans; eauto|]. split; [exact Pb|]. split; [|exact On]. split; auto; [|destruct out as [[n1 n2]|]; [exact JO|contradiction]]. exists vb. split.
        -- rewrite B2. destruct ((i =? bref pe) && (k' =? bref e)) eqn:F'; [|exact W1]. exfalso. apply andb_true_iff in F' as [F1 F2]. apply Nat.eqb_eq in F1, F2. subst i k'. assert (vb = y0) by congruence. subst vb.
           apply (Qcle_not_lt _ _ Lt). now apply Qlt_plus.
        -- intros a b y Hy. destruct (New a b y Hy) as [X| ->]; eauto.
  - cbn [bind]. try (match goal with |- context [add_btw h1 ?a ?b ?c] => replace (add_btw h1 a b c) with (@Ok (net Qc) h2) by (symmetry; exact E2) end); cbn [bind]. rewrite JB in JO. do 4 eexists. split; [reflexivity|]. split; [reflexivity|]. split; [eapply alike_trans; eauto|]. split; [exact Pb|]. split; [|discriminate].
    apply (JT 0%Qc); [|intros a b y Hy; rewrite (JO a b y Hy); apply Qcle_refl]. rewrite (JO _ _ _ Y0). now apply Qlt_plus.
Qed.
(** All predecessors of an entry. *)
Lemma big_preds_ok e n ps : In e q -> 0 < n -> (forall k, In k ps -> exists pe, nth_error q k = Some pe /\ In (bref pe) (nbrs g (bref e)) /\ In (bref e) (nbrs g (bref pe))) ->
  forall h bet big out, alike g h -> positive bet -> J h big out -> free big out (bref e) ->
  exists h' bet' big' out', foldM (big_pred q e n) (h, bet, big, out) (map Some ps) = Ok (h', bet', big', out') /\ foldM (lb_pred q e n) (h, bet) (map Some ps) = Ok (h', bet') /\
    alike g h' /\ positive bet' /\ J h' big' out' /\ (ps <> [] \/ out <> None -> out' <> None).
Proof.
  intros He Hn. induction ps as [|k ps IH]; intros Hps h bet big out Ha Pb Hj Hf.
  - exists h, bet, big, out. cbn. splits; auto. intros [X|X]; auto.
  - destruct (Hps k (or_introl eq_refl)) as (pe & Ek & L1 & L2). destruct (big_pred_ok h bet big out e k pe n Ha Pb He Ek L1 L2 Hn Hj Hf) as (h1 & b1 & g1 & o1 & E1 & E1' & A1 & P1 & J1 & O1).
    cbn [map foldM]. rewrite E1, E1'. cbn [bind]. destruct (IH (fun k' H => Hps k' (or_intror H)) h1 b1 g1 o1 A1 P1 J1) as (h2 & b2 & g2 & o2 & E2 & E2' & A2 & P2 & J2 & O2); [intros X; contradiction|].
    exists h2, b2, g2, o2. splits; auto.
Qed.
Lemma big_back_ok : forall p h bet big out, 0 < p <= length q -> alike g h -> positive bet -> J h big out -> (out = None -> match big with Some (j, _) => j = s | None => True end) ->
  exists h' bet' big' out', big_back q (rev (firstn p q)) (h, bet, big, out) = Ok (h', bet', big', out') /\ lb_back q (rev (firstn p q)) (h, bet) = Ok (h', bet') /\ alike g h' /\ J h' big' out' /\
    (out <> None -> out' <> None) /\ (1 < p -> out' <> None) /\ (p = 1 -> big' = big /\ out' = out).
Proof.
  induction p as [|p IH]; intros h bet big out Hp Ha Pb Hj Hf; [lia|]. destruct (nth_ex q p) as [e Ee]; [lia|]. assert (He : In e q) by (eapply nth_error_In; eauto).
  assert (Ef : firstn (S p) q = firstn p q ++ [e]) by (rewrite <- Nat.add_1_r; apply firstn_S_nth; auto). rewrite Ef, rev_app_distr. cbn [rev app big_back lb_back].
  pose proof (c_pred _ _ _ C e He) as Pe. unfold preds_of in Pe. pose proof (c_dist _ _ _ C e He) as De.
  destruct (bd e) as [|d] eqn:Hd.
  - unfold CountPredecessors. rewrite Pe. cbn [Nat.eqb]. exists h, bet, big, out. splits; auto. intros H1. exfalso.
    (* an entry at distance 0 is the first one *)
    destruct q as [|e0 q'] eqn:Eq; [destruct He|]. assert (D0 : bd e0 = 0). { pose proof (c_sorted _ _ _ C 0 p e0 e eq_refl Ee ltac:(lia)). lia. }
    assert (X0 : bref e0 = s). { pose proof (c_dist _ _ _ C e0 (or_introl eq_refl)) as [P0 _]. rewrite D0 in P0. inversion P0; subst; auto. }
    assert (X1 : bref e = s). { destruct De as [P0 _]. inversion P0; subst; auto. }
    assert (0 = p); [|lia]. eapply refs_nodup_inj; [apply (c_nodup _ _ _ C)|reflexivity|exact Ee|congruence].
  - set (ps := filter (fun p => match nth_error q p with Some e' => (bd e' =? d) && mem (bref e) (nbrs g (bref e')) | None => false end) (seq 0 (length q))) in *.
    assert (Hps : forall k, In k ps -> exists pe, nth_error q k = Some pe /\ In (bref pe) (nbrs g (bref e)) /\ In (bref e) (nbrs g (bref pe)) /\ k < p).
    { intros k Hk. apply filter_In in Hk as [_ Hk]. destruct (nth_error q k) as [pe|] eqn:Ek; [|discriminate]. apply andb_true_iff in Hk as [K1 K2]. apply Nat.eqb_eq in K1. apply mem_In in K2.
      exists pe. splits; auto; [apply nbrs_weight; rewrite (un_sym g U); now apply nbrs_weight|]. destruct (Nat.lt_ge_cases k p); auto. pose proof (c_sorted _ _ _ C p k e pe Ee Ek H). lia. }
    assert (Hne : ps <> []).
    { destruct De as [P M]. inversion P as [|? ? u ? P' Hu]; subst. assert (R : In u (refs q)) by (apply (c_reach _ _ _ C); now exists d). apply in_map_iff in R as (pe & Eu & Hpe).
      assert (Dp : bd pe = d). { destruct (c_dist _ _ _ C pe Hpe) as [P2 M2]. rewrite Eu in *. specialize (M2 d P'). assert (S d <= S (bd pe)); [|lia]. apply M. econstructor; eauto. }
      apply In_nth_error in Hpe as [k Ek]. intros X. assert (Y : In k ps). { apply filter_In. split; [apply in_seq; apply nth_lt in Ek; lia|]. rewrite Ek, Dp, Nat.eqb_refl. cbn [andb]. apply mem_In. now rewrite Eu. } rewrite X in Y. destruct Y. }
    assert (CP : CountPredecessors e = length ps) by (unfold CountPredecessors; rewrite Pe; destruct ps; [contradiction|cbn; now rewrite map_length]).
    assert (Ln : 0 < length ps) by (destruct ps; [contradiction|cbn; lia]). rewrite CP, (proj2 (Nat.eqb_neq (length ps) 0)) by lia.
    assert (Hp0 : 0 < p). { destruct ps as [|k0 ps0]; [contradiction|]. destruct (Hps k0 (or_introl eq_refl)) as (? & _ & _ & _ & X). lia. }
    assert (Hs : bref e <> s). { intros X. destruct De as [_ M]. rewrite X in M. assert (S d <= 0); [|lia]. apply M. constructor. rewrite <- X. eapply bref_lt; eauto. }
    destruct (big_preds_ok e (length ps) ps He Ln) with (h := h) (bet := bet) (big := big) (out := out) as (h1 & b1 & g1 & o1 & E1 & E1' & A1 & P1 & J1 & O1); auto.
    { intros k Hk. destruct (Hps k Hk) as (pe & X1 & X2 & X3 & _). eauto. } { intros X. specialize (Hf X). destruct big as [[j k]|]; auto. congruence. }
    specialize (O1 (or_introl Hne)). rewrite Pe, E1, E1'. cbn [bind]. destruct (IH h1 b1 g1 o1 ltac:(lia) A1 P1 J1) as (h2 & b2 & g2 & o2 & E2 & E2' & A2 & J2 & K1 & K2 & K3); [intros X; contradiction|].
    exists h2, b2, g2, o2. splits; auto. intros X. lia.
Qed.
End Source.

Lemma J_sbs g h big out : same_but_state g h -> J g big out -> J h big out.
Proof.
  intros S [M B O]. assert (X : forall i j, btw_at h i j = btw_at g i j) by (intros; now apply btw_sbs). split.
  - intros i j. now rewrite !X.
  - destruct big as [[i k]|]; auto. destruct B as (v & V & Mx). exists v. rewrite X. split; auto. intros a b y. rewrite X. apply Mx.
  - destruct out as [[n1 n2]|]; auto. intros a b y. rewrite X. apply O.
Qed.
Theorem big_source_ok g s big out : undirected g -> s < length g -> J g big out -> (out = None -> match big with Some (j, _) => j = s | None => True end) ->
  exists g' big' out', big_source (repeat 1%Qc (length g)) (g, CreateHeaderList, big, out) s = Ok (g', CreateHeaderList, big', out') /\
    lb_source (repeat 1%Qc (length g)) (g, CreateHeaderList) s = Ok (g', CreateHeaderList) /\ alike g g' /\ J g' big' out' /\
    (out <> None -> out' <> None) /\ (nbrs g s <> [] -> out' <> None) /\ (nbrs g s = [] -> big' = big /\ out' = out).
Proof.
  intros U Hs Hj Hf. pose proof (un_wf g U) as W. unfold big_source, lb_source, CountNodes. rewrite reset_length. destruct (start g s Hs g eq_refl) as (g1 & q1 & -> & O). cbn [bind].
  destruct (layers_spec g W s (fun (x : unit) _ _ => Ok x) (length g + 1) tt 0 0 g1 q1 O) as (D & g2 & q2 & E & S2 & Sz & C & (new & Eq & _) & _); [lia|]. rewrite E.
  assert (F : forall l, foldM (fun (x : unit) (i : nat) => Ok x) tt l = Ok tt) by (induction l; auto). rewrite F. cbn [bind].
  assert (Hl : 0 < length (bq q2)). { rewrite Eq, app_length. destruct (oi_first _ _ _ _ _ _ O) as (e0 & E0 & _). apply nth_lt in E0. lia. }
  destruct (big_back_ok g s (bq q2) U C (length (bq q2)) g2 (repeat 1%Qc (length g)) big out) as (g3 & b3 & big3 & out3 & E3 & E3' & A3 & J3 & K1 & K2 & K3); auto; [now apply sbs_alike| |eapply J_sbs; eauto|].
  { split; [apply repeat_length|]. intros i Hi. rewrite (nth_indep _ 0%Qc 1%Qc) by now rewrite repeat_length. rewrite nth_repeat. reflexivity. }
  rewrite firstn_all in *. rewrite E3, E3'. cbn [bind]. rewrite (ClearList_ok q2 Sz). cbn [bind]. exists g3, big3, out3. splits; auto.
  - intros X. apply K2. destruct (nbrs g s) as [|u l] eqn:Nb; [contradiction|]. assert (Ru : In u (refs (bq q2))). { apply (c_reach _ _ _ C). exists 1. econstructor; [constructor; auto|rewrite Nb; left; auto]. }
    assert (Rs : In s (refs (bq q2))) by (apply (c_reach _ _ _ C); exists 0; constructor; auto). assert (Hus : u <> s) by (intros ->; apply (un_loop g U s); rewrite Nb; left; auto).
    unfold refs in *. destruct (bq q2) as [|a [|b l']]; cbn in *; [tauto| |lia]. intuition congruence.
  - intros X. apply K3. destruct (bq q2) as [|a [|b l']] eqn:Qe; cbn in *; [lia|auto|]. exfalso. pose proof (c_nodup _ _ _ C) as ND. cbn in ND.
    assert (Rall : forall v d, path g d s v -> v = s). { intros v d P. remember s as s0 eqn:Es in P. induction P as [i Hi|m i j w P IH Hw]; [auto|]. rewrite (IH Es), X in Hw. destruct Hw. }
    destruct (c_dist _ _ _ C a (or_introl eq_refl)) as [Pa _]. destruct (c_dist _ _ _ C b (or_intror (or_introl eq_refl))) as [Pb _]. apply Rall in Pa, Pb. inversion ND as [|? ? Hn _]; subst. apply Hn. left. congruence.
Qed.
Theorem Biggest_spec g : undirected g -> g <> [] -> exists g' out, CalculateBiggestLinkBetweenness g = Ok (g', out) /\ CalculateLinkBetweenness g = Ok g' /\ alike g g' /\
  match out with
  | Some (n1, n2) => exists v, btw_at g' n2 n1 = Some v /\ forall a b y, btw_at g' a b = Some y -> (y <= v)%Qc
  | None => forall i, nbrs g i = []
  end.
Proof.
  intros U Hne. unfold CalculateBiggestLinkBetweenness, CalculateLinkBetweenness, CountNodes. match goal with |- context [foldM ?f (repeat ?z (length g)) g] => replace (foldM f (repeat z (length g)) g) with (@Ok (list Qc) (repeat 1%Qc (length g))) by (symmetry; exact (repeat_fold ex sq g (un_wf g U))) end. cbn [bind].
  assert (Lc : length (clear_btw g) = length g) by apply map_length. rewrite Lc.
  destruct g as [|n g0] eqn:Eg; [contradiction|]. rewrite <- Eg in *. assert (Hh : hd_error (clear_btw g) = Some (set_gadj (map clr_link (gadj n)) n)) by (rewrite Eg; reflexivity). rewrite Hh. cbn [deref bind].
  set (big0 := match gadj (set_gadj (map clr_link (gadj n)) n) with [] => None | l :: _ => Some (0, lnode l) end).
  assert (Nb0 : nbrs g 0 = targets (gadj n)) by (rewrite Eg; reflexivity). pose proof (alike_undirected _ _ (clear_alike g) U) as Uc.
  assert (Zero : forall a b y, btw_at (clear_btw g) a b = Some y -> y = 0%Qc).
  { intros a b y. unfold btw_at, clear_btw, btw_in. rewrite nth_error_map. destruct (nth_error g a) as [m|]; [|discriminate]. cbn. destruct (find _ _) as [l|] eqn:F; [|discriminate]. apply find_some in F as [F _]. apply in_map_iff in F as (l' & <- & _). cbn. intros [= <-]. reflexivity. }
  assert (J0 : J (clear_btw g) big0 None).
  { split; auto; [now apply (mirror_clear ex sq)|]. unfold big0. cbn [gadj set_gadj]. destruct (gadj n) as [|l ls] eqn:En; cbn [map]; auto. cbn [lnode clr_link].
    destruct (btw_some (clear_btw g) 0 (lnode l) (un_wf _ Uc)) as [y Y].
    { rewrite (alike_nbrs g _ 0 (clear_alike g)), Nb0. apply targets_In. exists l. split; [left; auto|]. destruct (wf_link g (un_wf g U) 0 n l) as (j & m & X1 & _ & X3 & _); [rewrite Eg; reflexivity|rewrite En; left; auto|]. congruence. }
    exists y. split; auto. intros a b z Hz. rewrite (Zero _ _ _ Y), (Zero _ _ _ Hz). apply Qcle_refl. }
  assert (B0 : nbrs g 0 = [] -> big0 = None).
  { intros X. unfold big0. cbn [gadj set_gadj]. destruct (gadj n) as [|l ls] eqn:En; auto. exfalso. rewrite Nb0 in X. destruct (wf_link g (un_wf g U) 0 n l) as (j & m & X1 & _); [rewrite Eg; reflexivity|rewrite En; left; auto|].
    assert (Y : In j (targets (l :: ls))) by (apply targets_In; exists l; split; [left; auto|auto]). rewrite X in Y. destruct Y. }
  assert (B1 : match big0 with Some (j, _) => j = 0 | None => True end) by (unfold big0; cbn [gadj set_gadj]; destruct (map clr_link (gadj n)); [exact I|reflexivity]).
  (* the sources after the first one *)
  assert (X : forall l, (forall s, In s l -> s < length g) -> forall h big out, alike g h -> J h big out -> (out = None -> big = None) ->
    exists h' big' out', foldM (big_source (repeat 1%Qc (length g))) (h, CreateHeaderList, big, out) l = Ok (h', CreateHeaderList, big', out') /\
      foldM (lb_source (repeat 1%Qc (length g))) (h, CreateHeaderList) l = Ok (h', CreateHeaderList) /\ alike g h' /\ J h' big' out' /\
      (out <> None -> out' <> None) /\ (forall s, In s l -> nbrs g s <> [] -> out' <> None)).
  { induction l as [|s l IH]; intros Hl h big out Ha Hj Hf; [exists h, big, out; cbn; splits; auto; intros s []|]. cbn [foldM].
    destruct (big_source_ok h s big out) as (h1 & big1 & out1 & E1 & E1' & A1 & J1 & K1 & K2 & K3); auto; [eapply alike_undirected; eauto|rewrite (alike_length g h Ha); apply Hl; left; auto|intros X; now rewrite (Hf X)|].
    rewrite (alike_length g h Ha) in E1, E1'. rewrite E1, E1'. cbn [bind]. rewrite (alike_nbrs g h s Ha) in K2, K3.
    destruct (IH (fun s' H => Hl s' (or_intror H)) h1 big1 out1 (alike_trans _ _ _ Ha A1) J1) as (h2 & big2 & out2 & E2 & E2' & A2 & J2 & M1 & M2).
    { intros X. destruct (nbrs g s) eqn:Nb; [destruct (K3 eq_refl) as [-> Eo]; apply Hf; congruence|]. exfalso. apply K2; [discriminate|exact X]. }
    exists h2, big2, out2. splits; auto. intros s' [<-|Hs'] Hn; [apply M1, K2; auto|eapply M2; eauto]. }
  assert (Lg : length g = S (length g0)) by (rewrite Eg; reflexivity). replace (seq 0 (length g)) with (0 :: seq 1 (length g0)) by (rewrite Lg; reflexivity). cbn [foldM].
  destruct (big_source_ok (clear_btw g) 0 big0 None) as (h1 & big1 & out1 & E1 & E1' & A1 & J1 & K1 & K2 & K3); auto; [rewrite Lc, Lg; lia|].
  rewrite Lc in E1, E1'. rewrite E1, E1'. cbn [bind]. rewrite (alike_nbrs g _ 0 (clear_alike g)) in K2, K3.
  destruct (X (seq 1 (length g0))) with (h := h1) (big := big1) (out := out1) as (h2 & big2 & out2 & E2 & E2' & A2 & J2 & M1 & M2); auto.
  { intros s Hs. apply in_seq in Hs. lia. } { eapply alike_trans; [apply clear_alike|exact A1]. }
  { intros Y. destruct (nbrs g 0) eqn:Nb; [destruct (K3 eq_refl) as [-> _]; auto|]. exfalso. apply K2; [discriminate|exact Y]. }
  rewrite E2, E2'. cbn [bind]. exists h2, out2. splits; auto. destruct J2 as [_ JB JO]. destruct out2 as [[n1 n2]|].
  - rewrite JO in JB. exact JB.
  - intros i. destruct (Nat.lt_ge_cases i (length g)) as [Hi|Hi].
    + destruct (nbrs g i) as [|u l] eqn:Nb; auto. exfalso. destruct i as [|i]; [apply M1; auto; apply K2; rewrite Nb; discriminate|]. apply (M2 (S i)); auto; [apply in_seq; lia|rewrite Nb; discriminate].
    + unfold nbrs. now rewrite (proj2 (nth_error_None g i) Hi).
Qed.
End Exact.

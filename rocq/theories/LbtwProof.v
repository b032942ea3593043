(** LbtwProof.v -- the betweenness of the links adds up to the distances; the modularity from a table. *)
From Coq Require Import List Arith Lia Bool Permutation QArith Qcanon.
From Verif Require Import Base Num ListLib NatSum QcSum IoModel GraphModel GraphSpec GraphProof GraphSim BfsModel BfsProof RolesBounds PathLen SplitProof StatModel BtwSearch StatProof GroupModel GroupSpec ModulesSpec MatLib BipartModel BipartSpec BipartExact LbtwModel.
Import ListNotations.
Local Open Scope nat_scope.

(** ** Networks without the marks and the betweenness *)
Section Skel.
Context {A : Type} {ops : NumOps A}.
Definition clr_link (l : link A) : link A := mkLink (lnode l) (llabel l) (lstatus l) (lref l) n0 (lweight l).
Definition clr (n : gnode A) : gnode A := set_gstate 0 (set_gadj (map clr_link (gadj n)) n).
Definition skel (g : net A) : net A := map clr g.
Lemma targets_clr (ls : list (link A)) : targets (map clr_link ls) = targets ls.
Proof. unfold targets. rewrite flat_map_concat_map, map_map, <- flat_map_concat_map. reflexivity. Qed.
Lemma skel_nth g i : nth_error (skel g) i = option_map clr (nth_error g i).
Proof. unfold skel. now rewrite nth_error_map. Qed.
Lemma skel_nbrs g i : nbrs (skel g) i = nbrs g i.
Proof. unfold nbrs. rewrite skel_nth. destruct (nth_error g i) as [n|]; auto. cbn. apply targets_clr. Qed.
Lemma skel_weight g i j : weight (skel g) i j = weight g i j.
Proof.
  unfold weight. rewrite skel_nth. destruct (nth_error g i) as [n|]; auto. cbn. unfold weight_in. induction (gadj n) as [|l ls IH]; auto. cbn. destruct (match lref l with Some k => k =? j | None => false end); auto.
Qed.
Lemma skel_length g : length (skel g) = length g.
Proof. apply map_length. Qed.
Lemma skel_wf g : wf_net g -> wf_net (skel g).
Proof.
  intros W. split.
  - intros i n E. rewrite skel_nth in E. destruct (nth_error g i) as [m|] eqn:Em; [|discriminate]. injection E as <-. cbn. apply (wf_num g W i m Em).
  - intros i n l E Hl. rewrite skel_nth in E. destruct (nth_error g i) as [m|] eqn:Em; [|discriminate]. injection E as <-. cbn in Hl. apply in_map_iff in Hl as (k & <- & Hk).
    destruct (wf_link g W i m k Em Hk) as (j & o & E1 & E2 & E3 & E4). exists j, (clr o). rewrite skel_nth, E2. splits; auto.
  - intros i. rewrite skel_nbrs. apply (wf_nodup g W).
  - intros i n E. rewrite skel_nth in E. destruct (nth_error g i) as [m|] eqn:Em; [|discriminate]. injection E as <-. cbn. rewrite map_length. apply (wf_deg g W i m Em).
Qed.
Lemma wf_skel g : wf_net (skel g) -> wf_net g.
Proof.
  intros W. split.
  - intros i n E. apply (wf_num _ W i (clr n)). now rewrite skel_nth, E.
  - intros i n l E Hl. destruct (wf_link _ W i (clr n) (clr_link l)) as (j & o & E1 & E2 & E3 & E4); [now rewrite skel_nth, E|now apply in_map|].
    rewrite skel_nth in E2. destruct (nth_error g j) as [m|] eqn:Em; [|discriminate]. injection E2 as <-. exists j, m. splits; auto.
  - intros i. rewrite <- skel_nbrs. apply (wf_nodup _ W).
  - intros i n E. pose proof (wf_deg _ W i (clr n)) as H. rewrite skel_nth, E in H. cbn in H. rewrite map_length in H. auto.
Qed.
Definition alike (g g' : net A) : Prop := skel g' = skel g.
Lemma alike_trans g h k : alike g h -> alike h k -> alike g k.
Proof. unfold alike. congruence. Qed.
Lemma alike_nbrs g h i : alike g h -> nbrs h i = nbrs g i.
Proof. intros H. rewrite <- (skel_nbrs h), H. apply skel_nbrs. Qed.
Lemma alike_length g h : alike g h -> length h = length g.
Proof. intros H. rewrite <- (skel_length h), H. apply skel_length. Qed.
Lemma alike_undirected g h : alike g h -> undirected g -> undirected h.
Proof.
  intros H U. split.
  - apply wf_skel. rewrite H. apply skel_wf, U.
  - intros i. rewrite (alike_nbrs g h i H). apply U.
  - intros i j. rewrite <- !(skel_weight h), H, !skel_weight. apply U.
Qed.
Lemma clr_state k n : clr (set_gstate k n) = clr n.
Proof. destruct n. reflexivity. Qed.
Lemma sbs_alike g h : same_but_state g h -> alike g h.
Proof.
  unfold same_but_state, alike, ResetNodesState, skel. intros H. apply (f_equal (map clr)) in H. rewrite !map_map in H.
  rewrite !(map_ext (fun x => clr (set_gstate 0 x)) clr) in H by (intros; apply clr_state). now symmetry.
Qed.
Lemma path_alike g h d i j : alike g h -> path g d i j -> path h d i j.
Proof. intros H P. induction P as [i Hi|m i j w P IH Hw]; [constructor; now rewrite (alike_length g h H)|econstructor; [exact IH|now rewrite (alike_nbrs g h j H)]]. Qed.
Lemma distance_alike g h i j d : alike g h -> distance g i j d -> distance h i j d.
Proof. intros H [P M]. split; [eapply path_alike; eauto|]. intros d' P'. apply M. eapply path_alike; [|exact P']. now symmetry. Qed.
Lemma alike_upd g i n m : nth_error g i = Some n -> clr m = clr n -> alike g (upd g i m).
Proof.
  intros E H. unfold alike, skel. apply ListLib.nth_ext. intros k. rewrite !nth_error_map, nth_upd. destruct (Nat.eqb_spec k i) as [->|]; cbn [andb]; auto.
  rewrite (proj2 (Nat.ltb_lt _ _)) by (eapply nth_lt; eauto). rewrite E. cbn. now rewrite H.
Qed.
Lemma clear_alike g : alike g (clear_btw g).
Proof. unfold alike, skel, clear_btw. rewrite map_map. apply map_ext. intros n. destruct n. cbn. unfold clr. cbn. rewrite map_map. reflexivity. Qed.
End Skel.

Lemma nth_firstn {X} (l : list X) p k : k < p -> nth_error (firstn p l) k = nth_error l k.
Proof. revert p l. induction k as [|k IH]; intros [|p] [|x l] H; cbn; auto; try lia. apply IH. lia. Qed.
Section Exact.
Variables ex sq : Qc -> Qc.
#[local] Instance opsL : NumOps Qc := Qc_ops ex sq.
(** The sum over all links, in both directions. *)
Definition total (g : net Qc) : Qc := Qsum (fun n => Qsum lbtw (gadj n)) g.
Lemma total_upd g i n m : nth_error g i = Some n -> total (upd g i m) = (total g + (Qsum lbtw (gadj m) - Qsum lbtw (gadj n)))%Qc.
Proof.
  unfold total. revert i. induction g as [|a g IH]; intros [|i] E; try discriminate; cbn in E; cbn [upd Qsum].
  - injection E as ->. ring.
  - rewrite (IH i E). ring.
Qed.
Lemma total_state g k : total (map (set_gstate k) g) = total g.
Proof. unfold total. rewrite Qsum_map. apply Qsum_ext. intros n _. reflexivity. Qed.
Lemma total_sbs g h : same_but_state g h -> total h = total g.
Proof. intros H. rewrite <- (total_state h 0), <- (total_state g 0). unfold same_but_state, ResetNodesState in H. now rewrite H. Qed.
Lemma total_clear g : total (clear_btw g) = 0%Qc.
Proof. unfold total, clear_btw. rewrite Qsum_map. apply Qsum_0. intros n _. cbn. rewrite Qsum_map. apply Qsum_0. reflexivity. Qed.

(** The betweenness kept in the link from [i] to [j]; equal in both directions. *)
Definition btw_in (ls : list (link Qc)) (j : nat) : option Qc := option_map lbtw (find (fun l => lnode l =? j) ls).
Definition btw_at (g : net Qc) (i j : nat) : option Qc := match nth_error g i with Some n => btw_in (gadj n) j | None => None end.
Definition mirror (g : net Qc) : Prop := forall i j, btw_at g i j = btw_at g j i.
Lemma btw_sbs g h i j : same_but_state g h -> btw_at h i j = btw_at g i j.
Proof.
  intros H. unfold btw_at. destruct (nth_error h i) as [n|] eqn:E.
  - destruct (sbs_nth g h i n H E) as (m & E1 & E2). rewrite E1. assert (gadj n = gadj m) as -> by (unfold set_gstate in E2; congruence). reflexivity.
  - assert (nth_error g i = None) as ->; auto. apply nth_error_None in E. apply nth_error_None. now rewrite <- (sbs_length g h H).
Qed.
Lemma mirror_clear g : undirected g -> mirror (clear_btw g).
Proof.
  intros U. assert (X : forall i j, btw_at (clear_btw g) i j = option_map (fun _ => 0%Qc) (weight g i j)).
  { intros i j. unfold btw_at, weight, clear_btw. rewrite nth_error_map. destruct (nth_error g i) as [n|] eqn:En; auto. cbn. unfold btw_in, weight_in. assert (Hl : forall l, In l (gadj n) -> lref l = Some (lnode l)).
    { intros l Hl. destruct (wf_link g (un_wf g U) i n l En Hl) as (k & m & E1 & _ & E3 & _). congruence. }
    induction (gadj n) as [|l ls IH]; auto. cbn. rewrite (Hl l (or_introl eq_refl)). destruct (lnode l =? j); auto. apply IH. intros; apply Hl; right; auto. }
  intros i j. now rewrite !X, (un_sym g U).
Qed.
Lemma add_to_link_ok k x (ls : list (link Qc)) : (exists l, In l ls /\ lnode l = k) ->
  exists ls', add_to_link k x ls = Ok ls' /\ map clr_link ls' = map clr_link ls /\ Qsum lbtw ls' = (Qsum lbtw ls + x)%Qc /\
    forall j, btw_in ls' j = if j =? k then option_map (fun y => y + x)%Qc (btw_in ls j) else btw_in ls j.
Proof.
  induction ls as [|l ls IH]; intros (y & Hy & E); [destruct Hy|]. cbn [add_to_link]. destruct (Nat.eqb_spec (lnode l) k) as [H|H].
  - eexists. splits; [reflexivity|reflexivity|cbn [Qsum lbtw]; change (nadd (lbtw l) x) with (lbtw l + x)%Qc; ring|].
    intros j. unfold btw_in. cbn. rewrite H. rewrite (Nat.eqb_sym k j). destruct (j =? k); reflexivity.
  - destruct Hy as [->|Hy]; [contradiction|]. destruct IH as (ls' & -> & E1 & E2 & E3); [eauto|]. cbn [bind]. eexists. splits; [reflexivity|cbn; now rewrite E1|cbn [Qsum]; rewrite E2; ring|].
    intros j. specialize (E3 j). unfold btw_in in *. cbn [find]. destruct (Nat.eqb_spec (lnode l) j) as [<-|]; [|exact E3]. rewrite (proj2 (Nat.eqb_neq _ _) H). reflexivity.
Qed.
Lemma add_btw_ok g i j x : wf_net g -> In j (nbrs g i) -> exists g', add_btw g i j x = Ok g' /\ alike g g' /\ total g' = (total g + x)%Qc /\
  forall a b, btw_at g' a b = if (a =? i) && (b =? j) then option_map (fun y => y + x)%Qc (btw_at g a b) else btw_at g a b.
Proof.
  intros W Hj. unfold add_btw. unfold nbrs in Hj. destruct (nth_error g i) as [n|] eqn:En; [|destruct Hj]. rewrite (get_ok _ _ _ En). cbn [bind].
  apply targets_In in Hj as (l & Hl & El). destruct (wf_link g W i n l En Hl) as (j' & m & E1 & E2 & E3 & _). assert (j' = j) by congruence. subst j'.
  destruct (add_to_link_ok j x (gadj n)) as (ls' & -> & C & T & B); [eauto|]. cbn [bind]. rewrite set_ok by (eapply nth_lt; eauto). eexists. splits; [reflexivity| | |].
  - eapply alike_upd; eauto. destruct n. unfold clr. cbn in *. now rewrite C.
  - rewrite (total_upd g i n _ En). cbn. rewrite T. ring.
  - intros a b. unfold btw_at. rewrite nth_upd, (proj2 (Nat.ltb_lt _ _)) by (eapply nth_lt; eauto). destruct (Nat.eqb_spec a i) as [->|]; cbn [andb]; auto. rewrite En. cbn. apply B.
Qed.

(** ** One search *)
Section Source.
Variables (g : net Qc) (s : nat) (q : list bent).
Hypothesis U : undirected g.
Hypothesis C : complete g s q.
Notation N := (length g).
Definition load (bet : list Qc) (e : bent) : Qc := nth (bref e) bet 0%Qc.
(** What is still to be carried: the loads of the entries times their distances. *)
Definition burden (bet : list Qc) (es : list bent) : Qc := Qsum (fun e => load bet e * Qc_of_nat (bd e))%Qc es.
Lemma bref_lt e : In e q -> bref e < N.
Proof. intros He. eapply distance_lt; [apply U|]. eapply (c_dist _ _ _ C); eauto. Qed.
Lemma load_upd bet e pe x : In e q -> In pe q -> length bet = N -> load (upd bet (bref pe) x) e = if bref e =? bref pe then x else load bet e.
Proof.
  intros He Hp L. unfold load. destruct (Nat.eqb_spec (bref e) (bref pe)) as [E|E].
  - rewrite E. apply nth_error_nth. apply nth_upd_eq. rewrite L. now apply bref_lt.
  - destruct (nth_ex bet (bref e)) as [y Ey]; [rewrite L; now apply bref_lt|]. rewrite (nth_error_nth bet _ _ Ey). apply nth_error_nth. rewrite nth_upd_neq; auto.
Qed.
Lemma burden_upd bet es pe x : NoDup (refs es) -> (forall e, In e es -> In e q) -> In pe es -> length bet = N ->
  burden (upd bet (bref pe) x) es = (burden bet es + (x - load bet pe) * Qc_of_nat (bd pe))%Qc.
Proof.
  intros ND Hq Hp L. assert (Hpq : In pe q) by auto. induction es as [|e es IH]; [destruct Hp|]. inversion ND as [|? ? Hn ND']; subst. cbn [burden Qsum]. fold (burden bet es).
  change (Qsum (fun e0 => (load (upd bet (bref pe) x) e0 * Qc_of_nat (bd e0))%Qc) es) with (burden (upd bet (bref pe) x) es). unfold burden at 2. cbn [Qsum]. fold (burden bet es). destruct Hp as [->|Hp].
  - rewrite load_upd by auto. rewrite Nat.eqb_refl. assert (X : burden (upd bet (bref pe) x) es = burden bet es).
    { apply Qsum_ext. intros e He. rewrite load_upd by (auto; apply Hq; right; auto). destruct (Nat.eqb_spec (bref e) (bref pe)) as [E|]; auto. exfalso. apply Hn. rewrite <- E. now apply in_map. }
    rewrite X. ring.
  - rewrite IH by (auto; intros; apply Hq; right; auto). rewrite load_upd by (auto; apply Hq; left; auto). destruct (Nat.eqb_spec (bref e) (bref pe)) as [E|]; [|ring].
    exfalso. apply Hn. rewrite E. now apply in_map.
Qed.
Lemma lb_pred_ok h bet e k pe n : alike g h -> length bet = N -> In e q -> nth_error q k = Some pe -> In (bref pe) (nbrs g (bref e)) -> In (bref e) (nbrs g (bref pe)) ->
  exists h', lb_pred q e n (h, bet) (Some k) = Ok (h', upd bet (bref pe) (load bet pe + load bet e / Qc_of_nat n)%Qc) /\ alike g h' /\
    total h' = (total h + (load bet e / Qc_of_nat n + load bet e / Qc_of_nat n))%Qc /\ (mirror h -> mirror h').
Proof.
  intros Ha L He Ek L1 L2. assert (Hp : In pe q) by (eapply nth_error_In; eauto). assert (Hne : bref e <> bref pe). { intros X. rewrite X in L1. exact (un_loop g U _ L1). }
  pose proof (alike_undirected g h Ha U) as Uh. unfold lb_pred. cbn [deref bind]. rewrite (get_ok _ _ _ Ek). cbn [bind].
  destruct (nth_ex h (bref pe)) as [pn Epn]; [rewrite (alike_length g h Ha); now apply bref_lt|]. destruct (nth_ex h (bref e)) as [ln Eln]; [rewrite (alike_length g h Ha); now apply bref_lt|].
  rewrite (get_ok _ _ _ Epn), (get_ok _ _ _ Eln). cbn [bind]. rewrite (wf_num h (un_wf h Uh) _ _ Epn), (wf_num h (un_wf h Uh) _ _ Eln).
  assert (Ge : nth_error bet (bref e) = Some (load bet e)) by (unfold load; apply nth_error_nth'; rewrite L; now apply bref_lt).
  assert (Gp : nth_error bet (bref pe) = Some (load bet pe)) by (unfold load; apply nth_error_nth'; rewrite L; now apply bref_lt).
  rewrite (get_ok _ _ _ Ge), (get_ok _ _ _ Gp). cbn [bind]. rewrite set_ok by (rewrite L; now apply bref_lt). cbn [bind].
  assert (Ge2 : forall x, nth_error (upd bet (bref pe) x) (bref e) = Some (load bet e)) by (intros x; rewrite nth_upd_neq; auto). rewrite (get_ok _ _ _ (Ge2 _)). cbn [bind].
  destruct (add_btw_ok h (bref e) (bref pe) (load bet e / Qc_of_nat n)%Qc (un_wf h Uh)) as (h1 & E1 & A1 & T1 & B1); [now rewrite (alike_nbrs g h _ Ha)|].
  pose proof (alike_trans _ _ _ Ha A1) as Ha1. pose proof (alike_undirected g h1 Ha1 U) as Uh1.
  destruct (add_btw_ok h1 (bref pe) (bref e) (load bet e / Qc_of_nat n)%Qc (un_wf h1 Uh1)) as (h2 & E2 & A2 & T2 & B2); [now rewrite (alike_nbrs g h1 _ Ha1)|].
  match goal with |- context [add_btw h ?a ?b ?c] => replace (add_btw h a b c) with (@Ok (net Qc) h1) by (symmetry; exact E1) end. cbn [bind].
  match goal with |- context [add_btw h1 ?a ?b ?c] => replace (add_btw h1 a b c) with (@Ok (net Qc) h2) by (symmetry; exact E2) end. cbn [bind].
  exists h2. split; [reflexivity|]. split; [eapply alike_trans; eauto|]. split; [rewrite T2, T1; ring|].
  intros M i j. rewrite !B2, !B1, (M i j). destruct (Nat.eqb_spec i (bref pe)), (Nat.eqb_spec j (bref e)), (Nat.eqb_spec j (bref pe)), (Nat.eqb_spec i (bref e)); cbn [andb]; auto; subst; congruence.
Qed.
(** All predecessors of an entry: the rest of the list takes the load over. *)
Lemma lb_preds_ok e es n d ps : In e q -> bd e = S d -> NoDup (refs es) -> (forall x, In x es -> In x q) -> ~ In (bref e) (refs es) ->
  (forall k, In k ps -> exists pe, nth_error q k = Some pe /\ In pe es /\ bd pe = d /\ In (bref pe) (nbrs g (bref e)) /\ In (bref e) (nbrs g (bref pe))) ->
  forall h bet, alike g h -> length bet = N ->
  exists h' bet', foldM (lb_pred q e n) (h, bet) (map Some ps) = Ok (h', bet') /\ alike g h' /\ length bet' = N /\
    load bet' e = load bet e /\
    total h' = (total h + Qc_of_nat (length ps) * (load bet e / Qc_of_nat n + load bet e / Qc_of_nat n))%Qc /\
    burden bet' es = (burden bet es + Qc_of_nat (length ps) * (load bet e / Qc_of_nat n) * Qc_of_nat d)%Qc /\ (mirror h -> mirror h').
Proof.
  intros He Hd ND Hq Hn. induction ps as [|k ps IH]; intros Hps h bet Ha L.
  - exists h, bet. cbn [map foldM length]. change (Qc_of_nat 0) with 0%Qc. splits; auto; ring.
  - destruct (Hps k (or_introl eq_refl)) as (pe & Ek & Hpe & Hdp & L1 & L2). cbn [map foldM].
    destruct (lb_pred_ok h bet e k pe n Ha L He Ek L1 L2) as (h1 & E1 & A1 & T1 & M1). rewrite E1. cbn [bind].
    assert (Hpq : In pe q) by auto. assert (Hne : bref e =? bref pe = false) by (apply Nat.eqb_neq; intros X; apply Hn; rewrite X; now apply in_map).
    set (bet1 := upd bet (bref pe) (load bet pe + load bet e / Qc_of_nat n)%Qc) in *. assert (L' : length bet1 = N) by (unfold bet1; now rewrite length_upd).
    assert (Le : load bet1 e = load bet e) by (unfold bet1; rewrite load_upd, Hne; auto).
    destruct (IH (fun k' H => Hps k' (or_intror H)) h1 bet1 A1 L') as (h2 & bet2 & E2 & A2 & L2' & Le2 & T2 & B2 & M2). exists h2, bet2. rewrite E2. splits; auto; [congruence| |].
    + rewrite T2, T1, Le. cbn [length]. rewrite Qc_of_nat_S. ring.
    + rewrite B2, Le. unfold bet1. rewrite burden_upd by auto. rewrite Hdp. cbn [length]. rewrite Qc_of_nat_S. ring.
Qed.
(** The way back: the load that is left goes to the links. *)
Lemma lb_back_ok : forall p h bet, 0 < p <= length q -> alike g h -> length bet = N ->
  exists h' bet', lb_back q (rev (firstn p q)) (h, bet) = Ok (h', bet') /\ alike g h' /\ total h' = (total h + (burden bet (firstn p q) + burden bet (firstn p q)))%Qc /\ (mirror h -> mirror h').
Proof.
  induction p as [|p IH]; intros h bet Hp Ha L; [lia|]. destruct (nth_ex q p) as [e Ee]; [lia|]. assert (He : In e q) by (eapply nth_error_In; eauto).
  assert (Ef : firstn (S p) q = firstn p q ++ [e]) by (rewrite <- Nat.add_1_r; apply firstn_S_nth; auto). rewrite Ef, rev_app_distr. cbn [rev app lb_back].
  assert (ND : NoDup (refs (firstn p q)) /\ ~ In (bref e) (refs (firstn p q))).
  { pose proof (c_nodup _ _ _ C) as X. rewrite <- (firstn_skipn (S p) q), Ef in X. unfold refs in *. rewrite !map_app in X. apply BtwSearch.NoDup_app_l in X. cbn [map] in X. apply NoDup_remove in X. rewrite app_nil_r in X. exact X. } destruct ND as [ND Hn].
  pose proof (c_pred _ _ _ C e He) as Pe. unfold preds_of in Pe.
  assert (BS : burden bet (firstn p q ++ [e]) = (burden bet (firstn p q) + load bet e * Qc_of_nat (bd e))%Qc) by (unfold burden; rewrite Qsum_app; cbn [Qsum]; ring).
  destruct (bd e) as [|d] eqn:Hd.
  - (* the source: the first entry *)
    unfold CountPredecessors. rewrite Pe. cbn [Nat.eqb]. exists h, bet. split; auto. split; auto. split; auto. rewrite BS. assert (Z : burden bet (firstn p q) = 0%Qc).
    { apply Qsum_0. intros x Hx. assert (bd x = 0) as ->. { apply In_nth_error in Hx as [k Hk]. assert (k < p) by (apply nth_lt in Hk; rewrite firstn_length in Hk; lia). rewrite nth_firstn in Hk by auto.
        pose proof (c_sorted _ _ _ C k p x e Hk Ee ltac:(lia)). lia. } change (Qc_of_nat 0) with 0%Qc. ring. }
    rewrite Z. change (Qc_of_nat 0) with 0%Qc. ring.
  - set (ps := filter (fun p => match nth_error q p with Some e' => (bd e' =? d) && mem (bref e) (nbrs g (bref e')) | None => false end) (seq 0 (length q))) in *.
    assert (Hps : forall k, In k ps -> exists pe, nth_error q k = Some pe /\ In pe (firstn p q) /\ bd pe = d /\ In (bref pe) (nbrs g (bref e)) /\ In (bref e) (nbrs g (bref pe))).
    { intros k Hk. apply filter_In in Hk as [_ Hk]. destruct (nth_error q k) as [pe|] eqn:Ek; [|discriminate]. apply andb_true_iff in Hk as [K1 K2]. apply Nat.eqb_eq in K1. apply mem_In in K2.
      exists pe. splits; auto.
      - assert (k < p). { destruct (Nat.lt_ge_cases k p); auto. pose proof (c_sorted _ _ _ C p k e pe Ee Ek H). lia. } apply nth_error_In with k. rewrite nth_firstn by auto. exact Ek.
      - apply nbrs_weight. rewrite (un_sym g U). now apply nbrs_weight. }
    assert (Hne : ps <> []).
    { destruct (c_dist _ _ _ C e He) as [P M]. rewrite Hd in P. inversion P as [|? ? u ? P' Hu]; subst. assert (R : In u (refs q)) by (apply (c_reach _ _ _ C); now exists d). apply in_map_iff in R as (pe & Eu & Hpe).
      assert (Dp : bd pe = d). { destruct (c_dist _ _ _ C pe Hpe) as [P2 M2]. rewrite Eu in *. specialize (M2 d P'). assert (S d <= S (bd pe)); [|lia]. rewrite Hd in M. apply M. econstructor; eauto. }
      apply In_nth_error in Hpe as [k Ek]. intros X. assert (Y : In k ps). { apply filter_In. split; [apply in_seq; apply nth_lt in Ek; lia|]. rewrite Ek, Dp, Nat.eqb_refl. cbn [andb]. apply mem_In. now rewrite Eu. } rewrite X in Y. destruct Y. }
    assert (CP : CountPredecessors e = length ps) by (unfold CountPredecessors; rewrite Pe; destruct ps; [contradiction|cbn; now rewrite map_length]).
    rewrite CP. destruct ps as [|k0 ps0] eqn:Eps; [contradiction|]. cbn [length Nat.eqb]. rewrite <- Eps in *. replace (S (length ps0)) with (length ps) by (rewrite Eps; reflexivity).
    assert (Hp0 : 0 < p). { destruct p; [|lia]. destruct (Hps k0) as (pe & _ & X & _); [rewrite Eps; left; auto|]. destruct X. }
    destruct (lb_preds_ok e (firstn p q) (length ps) d ps He Hd ND) with (h := h) (bet := bet) as (h1 & b1 & E1 & A1 & L1 & Le & T1 & B1 & M1); auto. { intros x Hx. rewrite <- (firstn_skipn p q). apply in_or_app. auto. }
    rewrite Pe, E1. cbn [bind]. destruct (IH h1 b1 ltac:(lia) A1 L1) as (h2 & b2 & E2 & A2 & T2 & M2). exists h2, b2. split; auto. split; auto. split; auto. rewrite T2, T1, B1, BS, ?Hd, Qc_of_nat_S.
    assert (NZ : Qc_of_nat (length ps) <> 0%Qc) by (apply Qc_neq_pos, Qc_of_nat_pos; rewrite Eps; cbn; lia). field. exact NZ.
Qed.
End Source.

Lemma repeat_fold (g : net Qc) : wf_net g -> foldM (fun o n => set o (gnum n) n1) (repeat n0 (length g)) g = Ok (repeat 1%Qc (length g)).
Proof.
  intros W. assert (X : forall l2 l1, g = l1 ++ l2 -> foldM (fun o n => set o (gnum n) n1) (repeat 1%Qc (length l1) ++ repeat 0%Qc (length l2)) l2 = Ok (repeat 1%Qc (length g))).
  { induction l2 as [|n l2 IH]; intros l1 E; [rewrite app_nil_r in E; subst; cbn; now rewrite app_nil_r|]. cbn [foldM length repeat]. assert (gnum n = length l1) as ->. { apply (wf_num g W). rewrite E, nth_error_app2, Nat.sub_diag by lia. reflexivity. }
    rewrite set_ok by (rewrite app_length, repeat_length; cbn; lia). cbn [bind]. replace (length l1) with (length (repeat 1%Qc (length l1))) at 2 by apply repeat_length. rewrite upd_app_mid.
    specialize (IH (l1 ++ [n])). rewrite <- IH by (rewrite <- app_assoc; exact E). f_equal. rewrite app_length, repeat_app, <- app_assoc. reflexivity. }
  exact (X g [] eq_refl).
Qed.
Theorem lb_source_ok g s dist : undirected g -> (forall s v d, dist s v = Some d <-> distance g s v d) -> s < length g ->
  exists g', lb_source (repeat 1%Qc (length g)) (g, CreateHeaderList) s = Ok (g', CreateHeaderList) /\ alike g g' /\
    total g' = (total g + (Qc_of_nat 2) * Qsum (fun v => match dist s v with Some d => Qc_of_nat d | None => 0%Qc end) (seq 0 (length g)))%Qc /\ (mirror g -> mirror g').
Proof.
  intros U Hd Hs. pose proof (un_wf g U) as W. unfold lb_source, CountNodes. rewrite reset_length. destruct (start g s Hs g eq_refl) as (g1 & q1 & -> & O). cbn [bind].
  destruct (layers_spec g W s (fun (x : unit) _ _ => Ok x) (length g + 1) tt 0 0 g1 q1 O) as (D & g2 & q2 & E & S2 & Sz & C & (new & Eq & _) & _); [lia|]. rewrite E.
  assert (F : forall l, foldM (fun (x : unit) (i : nat) => Ok x) tt l = Ok tt) by (induction l; auto). rewrite F. cbn [bind].
  assert (Hl : 0 < length (bq q2)). { rewrite Eq, app_length. destruct (oi_first _ _ _ _ _ _ O) as (e0 & E0 & _). apply nth_lt in E0. lia. }
  destruct (lb_back_ok g s (bq q2) U C (length (bq q2)) g2 (repeat 1%Qc (length g))) as (g3 & b3 & E3 & A3 & T3 & M3); [lia|now apply sbs_alike|apply repeat_length|].
  rewrite firstn_all in *. rewrite E3. cbn [bind]. rewrite (ClearList_ok q2 Sz). cbn [bind]. exists g3. split; [reflexivity|]. split; [exact A3|]. split; [|intros M; apply M3; intros i j; rewrite !(btw_sbs g g2) by auto; apply M]. rewrite T3, (total_sbs g g2 S2).
  assert (B : burden (repeat 1%Qc (length g)) (bq q2) = Qsum (fun v => match dist s v with Some d => Qc_of_nat d | None => 0%Qc end) (seq 0 (length g))).
  { unfold burden. rewrite (Qsum_ext _ (fun e => Qc_of_nat (bd e))).
    - etransitivity; [exact (Qsum_nats bd (bq q2))|]. etransitivity; [exact (f_equal Qc_of_nat (complete_sum g W dist Hd s (bq q2) (fun d => d) C))|]. rewrite <- Qsum_nats. apply Qsum_ext. intros v _. destruct (dist s v); reflexivity.
    - intros e He. unfold load. rewrite (nth_indep _ 0%Qc 1%Qc) by (rewrite repeat_length; eapply bref_lt; eauto). rewrite nth_repeat. ring. }
  rewrite B. change (Qc_of_nat 2) with (Qc_of_nat (1 + 1)). rewrite Qc_of_nat_add. change (Qc_of_nat 1) with 1%Qc. ring.
Qed.
Theorem LinkBetweenness_total g dist : undirected g -> (forall s v d, dist s v = Some d <-> distance g s v d) ->
  exists g', CalculateLinkBetweenness g = Ok g' /\ alike g g' /\
    total g' = (Qc_of_nat 2 * Qsum (fun s => Qsum (fun v => match dist s v with Some d => Qc_of_nat d | None => 0%Qc end) (seq 0 (length g))) (seq 0 (length g)))%Qc /\ mirror g'.
Proof.
  intros U Hd. unfold CalculateLinkBetweenness, CountNodes. rewrite (repeat_fold g (un_wf g U)). cbn [bind].
  assert (X : forall l, (forall s, In s l -> s < length g) -> forall h, alike g h -> exists h', foldM (lb_source (repeat 1%Qc (length g))) (h, CreateHeaderList) l = Ok (h', CreateHeaderList) /\ alike g h' /\
    total h' = (total h + Qc_of_nat 2 * Qsum (fun s => Qsum (fun v => match dist s v with Some d => Qc_of_nat d | None => 0%Qc end) (seq 0 (length g))) l)%Qc /\ (mirror h -> mirror h')).
  { induction l as [|s l IH]; intros Hl h Ha; [exists h; cbn; splits; auto; ring|]. cbn [foldM].
    destruct (lb_source_ok h s dist) as (h1 & E1 & A1 & T1 & M1); [eapply alike_undirected; eauto| |rewrite (alike_length g h Ha); apply Hl; left; auto|].
    { intros s' v d. rewrite Hd. split; apply distance_alike; [exact Ha|now symmetry]. }
    rewrite (alike_length g h Ha) in E1, T1. rewrite E1. cbn [bind]. destruct (IH (fun s' H => Hl s' (or_intror H)) h1 (alike_trans _ _ _ Ha A1)) as (h2 & E2 & A2 & T2 & M2). exists h2. splits; auto. rewrite T2, T1. cbn [Qsum]. ring. }
  destruct (X (seq 0 (length g)) (fun s H => proj2 (proj1 (in_seq _ _ _) H)) (clear_btw g) (clear_alike g)) as (g' & E & Ha & T & M). rewrite E. cbn [bind]. exists g'. splits; auto; [|now apply M, mirror_clear]. rewrite T, total_clear. ring.
Qed.

(** ** The modularity from a table *)
Section Fast.
Variables (s : list nat) (num : nat -> nat) (mat : list (list Qc)) (D : nat -> nat -> Qc).
Hypothesis HD : forall i j, In i s -> In j s -> get2 mat (num i) (num j) = Ok (D i j).
Definition numbered (ls : list (link Qc)) : Prop := forall l, In l ls -> exists i, lref l = Some i /\ In i s /\ lnode l = num i.
Lemma fast_pairs_ok (ls : list (link Qc)) : numbered ls -> forall x, fast_pairs mat x ls = Ok (x + tri D (targets ls))%Qc.
Proof.
  induction ls as [|l ls IH]; intros Hl x; cbn [fast_pairs]; [cbn; f_equal; ring|]. destruct (Hl l (or_introl eq_refl)) as (i & Ei & Ii & Ni).
  assert (R : forall (xs : list (link Qc)) x, numbered xs -> foldM (fun q l' => do x <- get2 mat (lnode l) (lnode l'); Ok (nadd q x)) x xs = Ok (x + Qsum (D i) (targets xs))%Qc).
  { induction xs as [|y xs IHx]; intros z Hx; cbn [foldM]; [cbn; f_equal; ring|]. destruct (Hx y (or_introl eq_refl)) as (j & Ej & Ij & Nj). rewrite Ni, Nj, (HD i j Ii Ij). cbn [bind]. rewrite <- Ni, IHx by (intros k Hk; apply Hx; right; auto).
    f_equal. unfold targets. cbn [flat_map]. rewrite Ej. cbn [app Qsum]. change (nadd z (D i j)) with (z + D i j)%Qc. ring. }
  rewrite R by (intros k Hk; apply Hl; right; auto). cbn [bind]. rewrite IH by (intros k Hk; apply Hl; right; auto). f_equal. unfold targets. cbn [flat_map]. rewrite Ei. cbn [app tri]. ring.
Qed.
Theorem Fast_spec P : NoDup s -> groups_of s P -> (forall G, In G P -> numbered (pnodes G)) -> (forall i j, D i j = D j i) ->
  exists x, ModularityBipartWeightedFast P mat = Ok x /\ (x * Q2Qc (2 # 1))%Qc = Qsum (fun i => Qsum (fun j => if same_home (abs P) i j && negb (i =? j) then D i j else 0%Qc) s) s.
Proof.
  intros NS GP HP Hs. exists (Qsum (fun G => tri D (members G)) P). split; [|now apply groups_pairs]. unfold ModularityBipartWeightedFast. clear GP.
  assert (X : forall x, foldM (fun q G => fast_pairs mat q (pnodes G)) x P = Ok (x + Qsum (fun G => tri D (members G)) P)%Qc).
  { induction P as [|G P IH]; intros x; cbn [foldM Qsum]; [f_equal; ring|]. rewrite fast_pairs_ok by (apply HP; left; auto). cbn [bind]. rewrite IH by (intros; apply HP; right; auto). f_equal. unfold members. ring. }
  rewrite X. f_equal. change (@n0 Qc opsL) with 0%Qc. ring.
Qed.
End Fast.
End Exact.

(** ConnMain.v -- the weakly connected sets of undirected networks, and GetAllConnectedSets. *)
From Coq Require Import List Arith Lia Bool Permutation ZArith.
From Verif Require Import Base ListLib NatSum IoModel IoSpec IoProof GraphModel GraphSpec GraphProof GraphSim BipartModel BipartSpec BipartRen BipartCopy BipartMem BipartFile BfsModel BfsProof NetModel NetSpec NetBuild NetPrint NetCopy ConnModel ConnSpec ConnProof ConnSearch ConnSets.
Import ListNotations.
Local Open Scope nat_scope.

Section Main.
Context {A : Type} {ops : NumOps A}.
Variables (g : net A).

(** ** Ways back in undirected networks *)
Lemma un_step i j : undirected g -> In j (nbrs g i) -> In i (nbrs g j).
Proof. intros U. rewrite !nbrs_weight, (un_sym g U i j). auto. Qed.
Lemma un_reach a b : undirected g -> reachable g a b -> reachable g b a.
Proof.
  intros U [d P]. induction P as [i Hi|d i j k P IH H]; [apply reach_refl; auto|]. apply reach_trans with j; auto. eapply reach_step; [apply reach_refl; eapply nbrs_lt; [apply U|eauto]|apply un_step; auto].
Qed.
Lemma un_mutual a b : undirected g -> mutual g a b <-> reachable g a b.
Proof. intros U. split; [intros [H _]; auto|]. intros H. split; auto. apply un_reach; auto. Qed.

Variable (W : wf_net g).
Hypothesis Dl : NoDup (map glabel g).
Hypothesis Ll : forall n, In n g -> length (glabel n) < 100.
Let c0 := net_copy g.
Let Wc : wf_net c0 := net_copy_wf g W.
Let Lc : length c0 = length g := net_copy_length g.
Let Nc : forall i, nbrs c0 i = nbrs g i := net_copy_nbrs g.

(** ** GetLargestWeaklyConnectedSet *)
Lemma back_ok (TI : list nat -> net A -> Prop) S0 a0 Q x lp d p pos : undirected g -> same_but_state g (sg _ x) -> SS g c0 TI S0 a0 Q x -> (forall v, In v Q <-> reachable g p v) ->
  exists c, back_set (length g) x lp d pos = Ok (mkScan (net A) (sg _ x) c (sq _ x) (this_net _ x) (selected _ x) (anod _ x) (set_of _ x)) /\ same_but_state c0 c.
Proof.
  intros U G S HQ. unfold back_set. pose proof (sbs_length _ _ G) as Lg. pose proof (sbs_wf _ _ G W) as Wg.
  assert (H : forall l c, same_but_state c0 c -> (forall v, In v l -> v < length g) -> exists c', foldM (fun '(x, lp, d) p3 => do n <- get (sg _ x) p3; do v <- GetNode (gnum n) (sc _ x); do (r, c) <- AreConnectedList (sc _ x) v (this_net _ x);
    let x := mkScan (net A) (sg _ x) c (sq _ x) (this_net _ x) (selected _ x) (anod _ x) (set_of _ x) in do b <- get (selected _ x) (gnum n);
    if r && negb b then do x <- join put_node x p3; do (g1, q) <- Enqueue (sg _ x, sq _ x) p3 None d; grow put_node false (length g + 1) (mkScan (net A) g1 (sc _ x) q (this_net _ x) (selected _ x) (anod _ x) (set_of _ x)) lp d
    else Ok (x, lp, d)) (mkScan (net A) (sg _ x) c (sq _ x) (this_net _ x) (selected _ x) (anod _ x) (set_of _ x), lp, d) l = Ok (mkScan (net A) (sg _ x) c' (sq _ x) (this_net _ x) (selected _ x) (anod _ x) (set_of _ x), lp, d) /\ same_but_state c0 c').
  { induction l as [|v l IH]; intros c C Hl; cbn [foldM]; [exists c; auto|]. cbn [sg sc this_net selected]. assert (Lv : v < length g) by (apply Hl; left; auto). destruct (nth_ex (sg _ x) v) as [n En]; [lia|]. rewrite (get_ok _ _ _ En). cbn [bind]. rewrite (wf_num _ Wg _ _ En).
    rewrite GetNode_spec; [|eapply sbs_wf; eauto|rewrite (sbs_length _ _ C); lia]. cbn [bind].
    destruct (are_connected_list c0 c v (this_net _ x) Wc C) as (b & c1 & Eb & Cs & Hb); [lia|pose proof (ss_ltn _ _ _ _ _ _ _ S); lia|]. rewrite Eb. cbn [bind].
    destruct (nth_ex (selected _ x) v) as [se Ese]; [pose proof (ss_lse _ _ _ _ _ _ _ S); lia|]. rewrite (get_ok _ _ _ Ese). cbn [bind].
    assert (E : b && negb se = false).
    { destruct b; auto. cbn. apply negb_false_iff. rewrite <- (nth_error_nth _ _ false Ese). apply (ss_se _ _ _ _ _ _ _ S). right. destruct (proj1 Hb eq_refl) as (u & _ & Ru & Hu). apply (ss_tn _ _ _ _ _ _ _ S) in Hu. apply HQ. apply HQ in Hu. apply reach_trans with u; auto. apply un_reach; auto. apply (reach_sim g c0); auto. }
    rewrite E. apply IH; auto. intros u Hu. apply Hl. right. auto. }
  destruct (H (seq (pos + 1) (length (sg _ x) - (pos + 1))) (sc _ x)) as (c' & E & C'); [apply (ss_c _ _ _ _ _ _ _ S)|intros v Hv; apply in_seq in Hv; lia|].
  assert (Eta : mkScan (net A) (sg _ x) (sc _ x) (sq _ x) (this_net _ x) (selected _ x) (anod _ x) (set_of _ x) = x) by (destruct x; auto). rewrite Eta in E. exists c'. split; auto. apply (f_equal (fun r => do (x, _, _) <- r; Ok x)) in E. exact E.
Qed.
Lemma weak_ok thres : undirected g -> forall fuel Ms x maxS giant, so_far g Ms -> after g Ms x -> best g Ms maxS giant -> length (concat Ms) < length g -> length g - length (concat Ms) < fuel ->
  exists M loc g', weak_sets fuel (length g) thres x maxS giant = Ok (Some loc, g') /\ same_but_state g g' /\ induced g M loc /\ largest g thres M.
Proof.
  intros U. induction fuel as [|f IH]; intros Ms x maxS giant SF B Bs L Hf; [lia|]. cbn [weak_sets]. destruct (so_far_left g Ms SF L) as (k & Lk & Hk).
  destruct (round_ok g W c0 Wc Lc Nc put_node (TN g) [] (TN_act g W Dl Ll) (TN_empty g) false (fun v => In v (concat Ms)) (length (concat Ms)) x k (length g + 1)) as (p & x1 & x0 & lp & d & Q & E1 & E2 & Lp & Hp & _ & ND & HQ & G & CL & SS0); auto; [lia|].
  rewrite E1. cbn [bind]. rewrite E2. cbn [bind]. destruct (back_ok (TN g) _ _ Q x0 lp d p p U G SS0 HQ) as (c & Eb & Cb). rewrite Eb. cbn [bind set_of sq].
  assert (HQ' : forall v, In v Q <-> mutual g p v) by (intros v; rewrite HQ; cbn; rewrite un_mutual by auto; tauto).
  set (x' := mkScan (net A) (sg _ x0) c (sq _ x0) (this_net _ x0) (selected _ x0) (anod _ x0) (set_of _ x0)).
  assert (SS' : SS g c0 (TN g) (fun v => In v (concat Ms)) (length (concat Ms)) Q x') by (destruct SS0; constructor; auto).
  destruct (so_far_snoc g Ms p Q SF Lp Hp ND HQ') as [SF' EC].
  destruct (finish_induced g W Dl Q (set_of _ x0) (ss_ti _ _ _ _ _ _ _ SS0) ND) as (loc & E3 & I & LL'); [intros v Hv; apply HQ in Hv; eapply reach_lt; eauto|]. rewrite E3. cbn [bind]. rewrite CL. cbn [bind].
  destruct (round_best g W Ms maxS giant Q loc thres SF SF' Bs I LL') as (maxS' & giant' & stop & E4 & Bs' & Hst). rewrite E4. unfold x'. cbn [sg anod sc sq this_net selected].
  assert (An : anod _ x0 = length (concat (Ms ++ [Q]))) by (rewrite EC, app_length; apply (ss_an _ _ _ _ _ _ _ SS0)). pose proof (so_far_len g W _ SF') as LL. destruct stop.
  - destruct (Hst eq_refl) as (M & loc' & -> & I' & Lg). exists M, loc', (sg _ x0). auto.
  - rewrite An. destruct (Nat.ltb_spec (length (concat (Ms ++ [Q]))) (length g)) as [H|H].
    + rewrite <- An. eapply IH; eauto; [apply (SS_after g (TN g) Ms Q x'); auto|]. assert (length Q <> 0) by (destruct Q; [exfalso; apply (proj2 (HQ p)); apply reach_refl; auto|discriminate]). rewrite EC, app_length in *. lia.
    + destruct (best_end g W thres (Ms ++ [Q]) maxS' giant' SF') as (M & loc' & -> & I' & Lg); auto; [destruct Ms; discriminate|lia|]. exists M, loc', (sg _ x0). auto.
Qed.
Theorem largest_weak thres : undirected g -> g <> [] -> exists M loc g', GetLargestWeaklyConnectedSet g thres = Ok (Some loc, g') /\ same_but_state g g' /\ induced g M loc /\ largest g thres M.
Proof.
  intros U Hg. unfold GetLargestWeaklyConnectedSet, CountNodes. rewrite CopyNetwork_copy by auto. cbn [bind]. assert (0 < length g) by (destruct g; [congruence|cbn; lia]).
  apply (weak_ok thres U (length g + 1) []); [split; constructor|apply start_after; auto| |cbn; lia|cbn; lia]. split; [intros M []|left; auto].
Qed.

(** ** GetAllConnectedSets *)
Lemma TS_act Q s g' v : TN g Q s -> same_but_state g g' -> v < length g -> ~ In v Q -> (forall n, nth_error g' v = Some n -> gstate n = 1) -> exists s', put_state g' s v = Ok s' /\ TN g (Q ++ [v]) s'.
Proof. intros T S L _ _. apply (put_ok g W Dl Ll (fun m t => set_gstate (gstate m) (set_gnum (gnum m) t))); auto. Qed.
Lemma clear_soft (b0 : bool) tn : nth_error tn 0 = Some b0 -> forall ls acc, foldM (fun ls l => do b <- get tn (lnode l); Ok (if b then ls ++ [l] else ls)) acc (map soft ls) = Ok (acc ++ if b0 then map soft ls else []).
Proof.
  intros E0. induction ls as [|l ls IH]; intros acc; cbn [map foldM]; [destruct b0; rewrite app_nil_r; auto|]. cbn [soft lnode]. rewrite (get_ok _ _ _ E0). cbn [bind]. rewrite IH. destruct b0; [rewrite <- app_assoc; auto|auto].
Qed.
Lemma clear_ok Q s tn b0 : TN g Q s -> (forall v, In v Q -> v < length g) -> nth_error tn 0 = Some b0 -> ClearAdjacencies s tn = Ok (map (fun n => set_gadj (if b0 then gadj n else []) n) s).
Proof.
  intros [LT T] HQ E0. unfold ClearAdjacencies. apply mapM_ok. intros n Hn. apply In_nth_error in Hn as [x Ex]. destruct (nth_ex Q x) as [v Ev]; [rewrite <- LT; eapply nth_lt; eauto|]. destruct (nth_ex g v) as [m Em]; [apply HQ; eapply nth_error_In; eauto|].
  destruct (T x v m Ev Em) as (n' & En & _ & _ & Ea & _). assert (n' = n) by congruence. subst n'. rewrite Ea, (clear_soft b0 tn E0). cbn [bind app]. auto.
Qed.
Lemma sub_labels Q s i n l (j : nat) m : TN g Q s -> (forall v, In v Q -> v < length g) -> nth_error g j = Some m -> In j Q -> nth_error g i = Some n -> In l (gadj n) -> llabel l = glabel m -> In (llabel l) (map glabel s).
Proof. intros T HQ Ej Hj En Hl E. rewrite (TN_labels g Q s T HQ), E, <- (label_of_nth _ _ _ Ej). apply in_map. auto. Qed.
Lemma part_ok Q s (b0 : bool) : TN g Q s -> NoDup Q -> (forall v, In v Q -> v < length g) -> (b0 = true -> forall a b, In a Q -> In b (nbrs g a) -> In b Q) ->
  exists loc, RewireAdjacencyByLabel (map (fun n => set_gadj (if b0 then gadj n else []) n) s) = Ok loc /\ part_of g Q b0 loc.
Proof.
  intros T ND HQ HC. pose proof (TN_labels g Q s T HQ) as EL. pose proof (TN_dict g Dl Q s T ND HQ) as Fd. set (c1 := map _ s).
  assert (L1 : map glabel c1 = map glabel s) by (unfold c1; rewrite map_map; reflexivity). assert (N1 : forall x, nth_error c1 x = option_map (fun n => set_gadj (if b0 then gadj n else []) n) (nth_error s x)) by (intros x; apply nth_error_map).
  assert (M1 : MakeLabelDict c1 = MakeLabelDict s) by (unfold MakeLabelDict; rewrite L1; unfold c1; now rewrite map_length).
  assert (At : forall x t, nth_error s x = Some t -> exists v n, nth_error Q x = Some v /\ nth_error g v = Some n /\ glabel t = glabel n /\ gnum t = v /\ gadj t = map soft (gadj n)).
  { intros x t Et. destruct T as [LT T]. destruct (nth_ex Q x) as [v Ev]; [rewrite <- LT; eapply nth_lt; eauto|]. destruct (nth_ex g v) as [n En]; [apply HQ; eapply nth_error_In; eauto|]. destruct (T x v n Ev En) as (t' & Et' & R1 & R2 & R3 & _). exists v, n. rewrite Et in Et'. injection Et' as <-. auto. }
  assert (HD : NoDup (map glabel c1)) by (rewrite L1, EL; apply labels_nodup; auto).
  assert (HI : forall n l, In n c1 -> In l (gadj n) -> In (llabel l) (map glabel c1)).
  { intros n l Hn Hl. rewrite L1. unfold c1 in Hn. apply in_map_iff in Hn as (t & <- & Ht). cbn in Hl. destruct b0; [|destruct Hl]. apply In_nth_error in Ht as [x Ex]. destruct (At x t Ex) as (v & n & Ev & En & _ & _ & Ea). rewrite Ea in Hl. apply in_map_iff in Hl as (l0 & <- & Hl). cbn [soft llabel].
       destruct (wf_link _ W v n l0 En Hl) as (j & k & U1 & U2 & U3 & U4). apply (sub_labels Q s v n l0 j k); auto. apply (HC eq_refl v); [eapply nth_error_In; eauto|]. unfold nbrs. rewrite En. unfold targets. apply in_flat_map. exists l0. split; auto. rewrite U1. left. auto. }
  eexists. split; [apply rewire_any; auto|]. set (loc := map _ c1).
  assert (N2 : forall x, nth_error loc x = option_map (fun n => reset_cache (set_gadj (map (put_link c1 (num_of c1)) (gadj n)) n)) (nth_error c1 x)) by (intros x; apply nth_error_map).
  assert (Ll2 : length loc = length Q) by (unfold loc, c1; rewrite !map_length; apply T).
  constructor.
  - unfold loc. rewrite map_map. cbn [glabel reset_cache set_gadj]. change (map (fun n => glabel n) c1) with (map glabel c1). rewrite L1, EL. apply map_ext. auto.
  - apply nth_ext_eq. intros x. rewrite nth_error_map, N2, N1. destruct (nth_error s x) as [t|] eqn:Et; cbn.
    + destruct (At x t Et) as (v & n & Ev & _ & _ & Eg & _). rewrite Ev, Eg. auto.
    + symmetry. apply nth_error_None. destruct T as [LT _]. rewrite <- LT. now apply nth_error_None.
  - intros x y. unfold nbrs. rewrite N2, N1. destruct (nth_error s x) as [t|] eqn:Et; cbn; [|intros []]. intros Hy. destruct (At x t Et) as (v & n & Ev & En & _ & _ & Ea). destruct b0; [|destruct Hy]. rewrite Ea in Hy. unfold targets in Hy. apply in_flat_map in Hy as (l & Hl & Hy). rewrite map_map in Hl. apply in_map_iff in Hl as (l0 & <- & Hl).
    unfold put_link in Hy. cbn in Hy. destruct Hy as [Hy|[]]. destruct (wf_link _ W v n l0 En Hl) as (j & k & U1 & U2 & U3 & U4). rewrite M1, U4, (Fd _ _ U2) in Hy. rewrite Ll2.
    assert (Hj : In j Q) by (apply (HC eq_refl v); [eapply nth_error_In; eauto|]; unfold nbrs; rewrite En; unfold targets; apply in_flat_map; exists l0; split; auto; rewrite U1; left; auto).
    destruct (shift Q j) as [z|] eqn:Es; [|apply shift_none in Es; tauto]. apply shift_spec in Es; auto. subst y. eapply nth_lt; eauto.
  - intros x y i j Ei Ej. destruct T as [LT T]. destruct (nth_ex g i) as [n En]; [apply HQ; eapply nth_error_In; eauto|]. destruct (T x i n Ei En) as (t & Et & _ & _ & Ea & _). unfold weight. rewrite N2, N1, Et, En. cbn. destruct b0; [|auto]. rewrite Ea.
    assert (Hw : forall l, In l (gadj n) -> exists q z, lref l = Some q /\ dict_find (MakeLabelDict c1) (llabel l) = Some z /\ nth_error Q z = Some q).
    { intros l Hl. destruct (wf_link _ W i n l En Hl) as (q & k & U1 & U2 & U3 & U4). exists q. assert (Hq : In q Q) by (apply (HC eq_refl i); [eapply nth_error_In; eauto|]; unfold nbrs; rewrite En; unfold targets; apply in_flat_map; exists l; split; auto; rewrite U1; left; auto).
      destruct (shift Q q) as [z|] eqn:Es; [|apply shift_none in Es; tauto]. exists z. split; auto. rewrite M1, U4, (Fd _ _ U2), Es. split; auto. apply shift_spec in Es; auto. }
    clear Ea. induction (gadj n) as [|l ls IH]; auto. cbn [map]. rewrite !weight_in_cons. destruct (Hw l) as (q & z & Q1 & Q2 & Q3); [left; auto|]. rewrite IH by (intros; apply Hw; right; auto). unfold put_link at 1 2. cbn. rewrite Q2, Q1. cbn.
    replace (z =? y) with (q =? j); auto. apply eq_true_iff_eq. rewrite !Nat.eqb_eq. split; intros Hq; [|rewrite Hq, Ej in Q3; injection Q3; auto]. rewrite NoDup_nth_error in ND. apply ND; [eapply nth_lt; eauto|]. rewrite Q3, Ej, Hq. auto.
Qed.
Definition listed (out out' : list (option (net A))) (Ms : list (list nat)) : Prop := length out' = length out /\
  (forall i M, nth_error Ms i = Some M -> exists loc, nth_error out' i = Some (Some loc) /\ part_of g M (mem 0 M) loc) /\ (forall i, length Ms <= i -> nth_error out' i = nth_error out i).
Lemma sets_le Ms : Forall (strong_set g) Ms -> length Ms <= length (concat Ms).
Proof. induction 1 as [|M Ms HM F IH]; cbn; auto. rewrite app_length. destruct HM as (N & _). destruct M; [congruence|cbn]. lia. Qed.
Lemma all_ok out0 : undirected g -> length g <= length out0 -> forall fuel Ms x out, so_far g Ms -> after g Ms x -> listed out0 out Ms -> length (concat Ms) < length g -> length g - length (concat Ms) < fuel ->
  exists Ms' out' g', all_sets fuel (length g) x out (length Ms) = Ok (length Ms', out', g') /\ same_but_state g g' /\ strong_sets_of g Ms' /\ listed out0 out' Ms'.
Proof.
  intros U Lo. induction fuel as [|f IH]; intros Ms x out SF B LI L Hf; [lia|]. cbn [all_sets]. destruct (so_far_left g Ms SF L) as (k & Lk & Hk).
  destruct (round_ok g W c0 Wc Lc Nc put_state (TN g) [] TS_act (TN_empty g) true (fun v => In v (concat Ms)) (length (concat Ms)) x k (length g + 1)) as (p & x1 & x' & lp & d & Q & E1 & E2 & Lp & Hp & _ & ND & HQ & G & CL & SS'); auto; [lia|].
  rewrite E1. cbn [bind]. rewrite E2. cbn [bind]. destruct (so_far_snoc g Ms p Q SF Lp Hp ND HQ) as [SF' EC].
  assert (HL : forall v, In v Q -> v < length g) by (intros v Hv; apply HQ in Hv as [Hv _]; eapply reach_lt; eauto).
  destruct (nth_ex (this_net _ x') 0) as [b0 Eb]; [pose proof (ss_ltn _ _ _ _ _ _ _ SS'); lia|]. assert (Hb : b0 = mem 0 Q) by (apply eq_true_iff_eq; rewrite mem_In, <- (ss_tn _ _ _ _ _ _ _ SS' 0), (nth_error_nth _ _ false Eb); tauto).
  rewrite (clear_ok Q _ _ b0 (ss_ti _ _ _ _ _ _ _ SS') HL Eb). cbn [bind].
  destruct (part_ok Q (set_of _ x') b0 (ss_ti _ _ _ _ _ _ _ SS') ND HL) as (loc & E3 & Po).
  { intros _ a b Ha Hab. apply HQ. apply HQ in Ha as [Ra _]. apply un_mutual; auto. eapply reach_step; eauto. }
  rewrite E3. cbn [bind]. pose proof (so_far_len g W _ SF') as LL. pose proof (sets_le _ (proj1 SF')) as LM. rewrite app_length in LM. cbn [length] in LM. destruct LI as (I1 & I2 & I3).
  rewrite set_ok by lia. cbn [bind]. rewrite CL. cbn [bind anod sg].
  assert (LI' : listed out0 (upd out (length Ms) (Some loc)) (Ms ++ [Q])).
  { split; [rewrite length_upd; auto|]. split.
    - intros i M Ei. apply nth_snoc in Ei as [Ei|[-> ->]]; [|exists loc; split; [apply nth_upd_eq; lia|rewrite <- Hb; auto]]. destruct (I2 i M Ei) as (l & El & Pl). exists l. split; auto. rewrite nth_upd_neq; auto. apply nth_lt in Ei. lia.
    - intros i Hi. rewrite app_length in Hi. cbn in Hi. rewrite nth_upd_neq by lia. apply I3. lia. }
  assert (An : anod _ x' = length (concat (Ms ++ [Q]))) by (rewrite EC, app_length; apply (ss_an _ _ _ _ _ _ _ SS')). rewrite An. replace (length Ms + 1) with (length (Ms ++ [Q])) by (rewrite app_length; auto).
  destruct (Nat.ltb_spec (length (concat (Ms ++ [Q]))) (length g)) as [H|H].
  - rewrite <- An. apply IH; auto; [eapply SS_after; eauto|]. assert (length Q <> 0) by (destruct Q; [exfalso; apply (proj2 (HQ p)); split; apply reach_refl; auto|discriminate]). rewrite EC, app_length in *. lia.
  - exists (Ms ++ [Q]), (upd out (length Ms) (Some loc)), (sg _ x'). split; auto. split; auto. split; auto. apply so_far_full; auto. lia.
Qed.
Theorem all_connected out : undirected g -> g <> [] -> length g <= 100 * 100 + 1 -> length g <= length out ->
  exists n out' g' Ms, GetAllConnectedSets g out = Ok (n, out', g') /\ same_but_state g g' /\ strong_sets_of g Ms /\ n = length Ms /\ listed out out' Ms.
Proof.
  intros U Hg LM LO. unfold GetAllConnectedSets, CountNodes. rewrite CopyNetwork_copy by auto. cbn [bind]. assert (0 < length g) by (destruct g; [congruence|cbn; lia]).
  destruct (all_ok out U LO (length g + 1) [] (mkScan (net A) g c0 CreateHeaderList (repeat false MAX_SIZE_NET) (repeat false MAX_SIZE_NET) 0 []) out) as (Ms & out' & g' & E & S & H1 & H2);
    [split; constructor|apply start_after; auto| |cbn; lia|cbn; lia|].
  - split; auto. split; auto. intros [|i] M E; discriminate.
  - exists (length Ms), out', g', Ms. auto.
Qed.
(** A link out of the first set. *)
Theorem all_crash out a b : length g <= 100 * 100 + 1 -> 0 < length g -> mutual g 0 a -> In b (nbrs g a) -> ~ mutual g 0 b -> GetAllConnectedSets g out = Err UB_null.
Proof.
  intros LM L0 Ha Hb Hn. unfold GetAllConnectedSets, CountNodes. rewrite CopyNetwork_copy by auto. cbn [bind]. rewrite Nat.add_1_r. cbn [all_sets].
  destruct (round_ok g W c0 Wc Lc Nc put_state (TN g) [] TS_act (TN_empty g) true (fun v => In v (concat [])) 0 (mkScan (net A) g c0 CreateHeaderList (repeat false MAX_SIZE_NET) (repeat false MAX_SIZE_NET) 0 []) 0 (length g + 1)) as (p & x1 & x' & lp & d & Q & E1 & E2 & Lp & Hp & Hm & ND & HQ & G & CL & SS'); auto; [apply (start_after g); auto|lia|].
  assert (p = 0) by (destruct p as [|p]; auto; destruct (Hm 0 ltac:(lia))). subst p. match goal with |- context [begin_set put_state ?x ?y] => replace (begin_set put_state x y) with (Ok (0, x1)) by (symmetry; exact E1) end. cbn [bind]. rewrite E2. cbn [bind].
  assert (HL : forall v, In v Q -> v < length g) by (intros v Hv; apply HQ in Hv as [Hv _]; eapply reach_lt; eauto).
  destruct (nth_ex (this_net _ x') 0) as [b0 Eb]; [pose proof (ss_ltn _ _ _ _ _ _ _ SS'); lia|]. assert (Hz : b0 = true) by (rewrite <- (nth_error_nth _ _ false Eb); apply (ss_tn _ _ _ _ _ _ _ SS' 0); apply HQ; split; apply reach_refl; auto).
  pose proof (ss_ti _ _ _ _ _ _ _ SS') as T. rewrite (clear_ok Q _ _ b0 T HL Eb). cbn [bind]. subst b0.
  assert (Es : map (fun n : gnode A => set_gadj (gadj n) n) (set_of _ x') = set_of _ x') by (rewrite <- (map_id (set_of _ x')) at 2; apply map_ext; intros []; auto). rewrite Es. set (s := set_of _ x') in *.
  enough (E : RewireAdjacencyByLabel s = Err UB_null) by (rewrite E; auto).
  pose proof (TN_labels g Q s T HL) as EL. pose proof (TN_dict g Dl Q s T ND HL) as Fd. assert (D' : NoDup (map glabel (renum s))) by (rewrite renum_labels, EL; apply labels_nodup; auto).
  assert (Hin : forall n, In n s -> (forall l, In l (gadj n) -> (exists y, (do j <- deref (dict_find (MakeLabelDict s) (llabel l)); do m <- get s j; Ok (mkLink (gnum m) (llabel l) (lstatus l) (Some j) (lbtw l) (lweight l))) = Ok y) \/ (do j <- deref (dict_find (MakeLabelDict s) (llabel l)); do m <- get s j; Ok (mkLink (gnum m) (llabel l) (lstatus l) (Some j) (lbtw l) (lweight l))) = Err UB_null)).
  { intros n _ l _. destruct (dict_find (MakeLabelDict s) (llabel l)) as [j|] eqn:Ej; [|right; auto]. rewrite <- (renum_dict g s) in Ej. destruct (dict_some _ _ _ (renum_places s) D' Ej) as (m & Em & _). rewrite renum_nth in Em. destruct (nth_error s j) as [m'|] eqn:Em'; [|discriminate]. cbn [deref bind]. rewrite (get_ok _ _ _ Em'). left. eexists. reflexivity. }
  unfold RewireAdjacencyByLabel. apply mapM_err.
  - intros n Hn'. match goal with |- context [mapM ?f (gadj n)] => destruct (mapM f (gadj n)) as [ls|e] eqn:Em end; [left; eexists; reflexivity|right]. cbn [bind].
    assert (He : forall ls0, incl ls0 (gadj n) -> forall e, mapM (fun l => do j <- deref (dict_find (MakeLabelDict s) (llabel l)); do m <- get s j; Ok (mkLink (gnum m) (llabel l) (lstatus l) (Some j) (lbtw l) (lweight l))) ls0 = Err e -> e = UB_null).
    { induction ls0 as [|l ls0 IH]; intros Hi e0 H0; [discriminate|]. cbn [mapM] in H0. destruct (Hin n Hn' l) as [[y Ey]|Ey]; [apply Hi; left; auto| |].
      - rewrite Ey in H0. cbn [bind] in H0. destruct (mapM _ ls0) as [|e1] eqn:E3; [discriminate|]. cbn [bind] in H0. injection H0 as <-. eapply IH; eauto. intros z Hz. apply Hi. right. auto.
      - rewrite Ey in H0. cbn [bind] in H0. congruence. }
    rewrite (He (gadj n) (incl_refl _) e Em). auto.
  - assert (HaQ : In a Q) by (apply HQ; auto). apply In_nth_error in HaQ as [x Ex]. destruct (nth_ex g a) as [n En]; [apply HL; eapply nth_error_In; eauto|]. destruct T as [LT T]. destruct (T x a n Ex En) as (t & Et & _ & _ & Ea & _). exists t. split; [eapply nth_error_In; eauto|].
    rewrite (mapM_err _ UB_null); [auto|apply Hin; eapply nth_error_In; eauto|]. unfold nbrs in Hb. rewrite En in Hb. unfold targets in Hb. apply in_flat_map in Hb as (l & Hl & Hb). destruct (wf_link _ W a n l En Hl) as (j & k & U1 & U2 & U3 & U4). rewrite U1 in Hb. destruct Hb as [->|[]].
    exists (soft l). split; [rewrite Ea; apply in_map; auto|]. cbn [soft llabel]. rewrite U4, (Fd _ _ U2). replace (shift Q b) with (@None nat); auto. symmetry. apply shift_none; auto. intros H. apply HQ in H. auto.
Qed.
End Main.

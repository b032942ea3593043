(** CommMain.v -- SACommunityIdent of src/modules.c: the start, the temperatures, and the partition that is returned. *)
From Coq Require Import List Arith ZArith Bool QArith Qcanon Qround Lia.
From Verif Require Import Base Num ListLib NatSum QcSum IoModel IoSpec GraphModel GraphSpec GraphProof BipartSpec GroupModel GroupSpec PairSum GroupProof GroupExact NetModel NetSpec NetCopy
  ModulesModel ModulesSpec ModulesMod ModulesMap ModulesCopy ModulesClusters SAProof Refute MissModel MissSpec MissSets MissStep MissRun RecSpec RecSetup MissExact CommModel CommSpec CommSums CommStep CommFlip CommSplit
  CommCopy CommRun.
Import ListNotations.
Local Open Scope nat_scope.

Lemma sbg_sym {A} (g g' : net A) : same_but_group g g' -> same_but_group g' g.
Proof. intros S. induction S as [|a b l l' (H1 & H2 & H3 & H4 & H5) _ IH]; constructor; auto 10. Qed.
Lemma fill_next {X} (f : nat -> X) d n i : i < n -> set (map f (seq 0 i) ++ repeat d (n - i)) i (f i) = Ok (map f (seq 0 (i + 1)) ++ repeat d (n - (i + 1))).
Proof.
  intros Hi. rewrite set_ok by (rewrite app_length, map_length, seq_length, repeat_length; lia). f_equal. rewrite Nat.add_1_r, seq_S, map_app. replace (n - i) with (S (n - S i)) by lia. cbn [repeat map Nat.add].
  rewrite <- app_assoc. cbn [app]. assert (H : forall l (y : X) r, upd (l ++ d :: r) (length l) y = l ++ y :: r) by (intros l y r; induction l as [|x l IH]; [reflexivity|]; cbn [length app upd]; now rewrite IH).
  rewrite <- (H (map f (seq 0 i)) (f i)). f_equal. now rewrite map_length, seq_length.
Qed.

Section Exact.
Variables ex sq : Qc -> Qc.
#[local] Instance opsM : NumOps Qc := Qc_ops ex sq.
Notation q := Qc_of_nat.
Variable g0 : net Qc.
Hypothesis U0 : undirected g0.
Hypothesis ND : NoDup (map glabel g0).
Hypothesis Fit : forall n, In n g0 -> length (glabel n) < 100.
Let N := length g0.
Hypothesis HN : 0 < N.
Notation L := (Z.of_nat (total g0)).

(** * Modularity is not below -1 *)
Lemma node_nonneg i : (0 <= node_sum N (unit_weight g0) i)%Qc.
Proof. apply Qsum_nonneg. intros j _. unfold unit_weight. destruct (linked g0 i j); discriminate. Qed.
Lemma div_mul_pos a b : (0 < b)%Qc -> (0 <= a)%Qc -> (0 <= a / b)%Qc.
Proof. intros Hb Ha. destruct (Qcle_lt_or_eq _ _ Ha) as [H|<-]; [apply Qclt_le_weak; now apply MissExact.Qc_div_pos|]. unfold Qcdiv. rewrite Qcmult_0_l. apply Qcle_refl. Qed.
Lemma mul_nonneg a b : (0 <= a)%Qc -> (0 <= b)%Qc -> (0 <= a * b)%Qc.
Proof. intros Ha Hb. replace 0%Qc with (0 * b)%Qc by ring. now apply Qcmult_le_compat_r. Qed.
Lemma mul_pos a b : (0 < a)%Qc -> (0 < b)%Qc -> (0 < a * b)%Qc.
Proof. intros Ha Hb. replace 0%Qc with (0 * b)%Qc by ring. now apply Qcmult_lt_compat_r. Qed.
Lemma quality_low c : 0 < total g0 -> (- (1) <= quality g0 c)%Qc.
Proof.
  intros HT. set (T := all_sum N (unit_weight g0)). assert (PT : (0 < T)%Qc) by (unfold T, N; rewrite <- (total_Qc g0 U0); apply Qc_of_nat_pos; auto).
  assert (E : Qsum (fun i => Qsum (fun j => (- (node_sum N (unit_weight g0) i * node_sum N (unit_weight g0) j / (T * T)))%Qc) (seq 0 N)) (seq 0 N) = (- (1))%Qc).
  { transitivity (Qsum (fun i => (node_sum N (unit_weight g0) i * (- (T / (T * T))))%Qc) (seq 0 N)).
    - apply Qsum_ext. intros i _. transitivity (Qsum (fun j => (node_sum N (unit_weight g0) j * (- (node_sum N (unit_weight g0) i / (T * T))))%Qc) (seq 0 N)).
      + apply Qsum_ext. intros j _. unfold Qcdiv. ring.
      + rewrite Qsum_scal_r. fold (all_sum N (unit_weight g0)). fold T. unfold Qcdiv. ring.
    - rewrite Qsum_scal_r. fold (all_sum N (unit_weight g0)). fold T. field. intros X. rewrite X in PT. discriminate. }
  rewrite <- E. unfold quality, pair_modularity. fold N. fold T. apply Qsum_le. intros i _. apply Qsum_le. intros j _.
  assert (Hk : (0 <= node_sum N (unit_weight g0) i * node_sum N (unit_weight g0) j / (T * T))%Qc).
  { apply div_mul_pos; [now apply mul_pos|]. apply mul_nonneg; apply node_nonneg. }
  destruct (among c i j).
  - assert (Hw : (0 <= unit_weight g0 i j / T)%Qc) by (apply div_mul_pos; auto; unfold unit_weight; destruct (linked g0 i j); discriminate).
    apply Qcle_minus_iff. apply Qcle_minus_iff in Hw. match goal with |- (0 <= ?x)%Qc => replace x with (unit_weight g0 i j / T + - 0)%Qc by ring end. exact Hw.
  - apply Qcle_minus_iff. match goal with |- (0 <= ?x)%Qc => match type of Hk with (0 <= ?y)%Qc => replace x with y by ring end end. exact Hk.
Qed.

Section Run.
Variable K : nat.
Hypothesis HK : 0 < K.
Hypothesis HT : 0 < total g0.
(** * The best partition *)
Definition kept (B : option (gpart Qc)) (b : option (list nat)) : Prop :=
  match B, b with
  | None, None => True
  | Some B, Some c => cells_right g0 B /\ sized B /\ cshows N K (abs B) c
  | _, _ => False
  end.
Lemma sa_best_ok s B b c : at_state g0 K s c -> kept B b ->
  exists s' B' b', sa_best s B (best_quality g0 b) = Ok (s', B', best_quality g0 b') /\ better g0 b (fst c) b' /\ kept B' b' /\ at_state g0 K s' c.
Proof.
  intros I HB. unfold sa_best. rewrite (as_E _ _ _ _ I). cbn [nltb opsM Qc_ops]. destruct (Qc_ltb (best_quality g0 b) (quality g0 (fst c))) eqn:E.
  - apply Qc_ltb_true in E. pose proof (as_shows _ _ _ _ I) as SH. pose proof (sw_map _ _ _ _ _ SH) as M. pose proof (sw_col _ _ _ _ _ SH) as C.
    destruct (copy_any (snet s) (spart s) (sw_un _ _ _ _ _ SH) (mp_cells _ _ M)) as (g1 & Q & -> & U1 & S1 & EA & HC & HS). cbn [bind].
    destruct (map_any g1 (spart s) U1) as (g2 & P2 & -> & U2 & S2 & M2 & EA2).
    { rewrite (sbg_labels (snet s) g1 S1), (sbg_labels g0 (snet s) (sw_same _ _ _ _ _ SH)). exact ND. }
    { apply (cells_same (snet s)); auto. exact (mp_cells _ _ M). }
    { eapply ch_good; eauto. }
    { eapply sized_mapped; eauto. }
    cbn [bind]. exists (mkSA g2 P2 (CommModel.sgl s) (quality g0 (fst c)) (sds s)), (Some Q), (Some (fst c)). cbn [best_quality]. split; auto. split; [now apply be_new|].
    assert (S01 : same_but_group g0 g1) by (eapply sbg_trans; [apply SH|exact S1]).
    split; [|split; cbn [snet spart CommModel.sgl sE sds]; auto; try apply I].
    + cbn [kept]. split; [apply (cells_same g1); [now apply sbg_sym|exact HC]|]. split; auto. now rewrite EA.
    + split; auto; [eapply sbg_trans; eauto|]. now rewrite EA2.
  - apply Qc_ltb_false in E. exists s, B, b. split; auto. split; auto. now apply be_old.
Qed.
Lemma remap_ok (P : gpart Qc) : map plabel P = seq 0 K -> remap (map Some (seq 0 K)) P = Ok (map Some (seq 0 K)).
Proof.
  intros E. unfold remap. assert (LP : length P = K) by (apply (f_equal (@length nat)) in E; now rewrite map_length, seq_length in E).
  assert (H : forall l, (forall k, In k l -> k < K) -> foldM (fun gl k => do G <- get P k; set gl (plabel G) (Some k)) (map Some (seq 0 K)) l = Ok (map Some (seq 0 K))).
  { induction l as [|k l IH]; intros Hl; auto. cbn [foldM]. destruct (nth_ex P k) as [G EG]; [rewrite LP; apply Hl; simpl; auto|]. rewrite (get_ok _ _ _ EG). cbn [bind].
    assert (Hk : k < K) by (apply Hl; simpl; auto). apply (f_equal (fun l => nth_error l k)) in E. rewrite nth_error_map, EG, nth_error_seq in E by auto. cbn in E. injection E as ->.
    rewrite set_ok by (now rewrite map_length, seq_length). cbn [bind]. rewrite (upd_same _ k (Some k)) by (rewrite nth_error_map, nth_error_seq by auto; reflexivity). apply IH. intros; apply Hl; simpl; auto. }
  rewrite LP. apply H. intros k Hk. apply in_seq in Hk. lia.
Qed.
Lemma sa_count_ok s B b c last count : at_state g0 K s c -> kept B b ->
  exists s' count' c', sa_count s B (best_quality g0 b) (last_quality g0 last) count = Ok (s', count') /\ settle g0 last count b (fst c) c' count' /\ at_state g0 K s' (c', snd c).
Proof.
  intros I HB. unfold sa_count. rewrite (as_E _ _ _ _ I). cbn [nltb ndiv nabs nsub nadd opsM Qc_ops]. change (@eps Qc opsM) with tiny.
  assert (HS : (Qc_ltb (Qc_abs (quality g0 (fst c) - last_quality g0 last) / Qc_abs (last_quality g0 last)) tiny || Qc_ltb (Qc_abs (last_quality g0 last)) tiny) = true <-> still g0 last (fst c)).
  { unfold still. rewrite orb_true_iff, !Qc_ltb_true. reflexivity. }
  destruct (_ || _) eqn:E1.
  - assert (St : still g0 last (fst c)) by (now apply HS). destruct (Nat.eqb_spec (count + 1) 25) as [E2|E2]; cbn [andb].
    + destruct (Qc_ltb (quality g0 (fst c) + tiny) (best_quality g0 b)) eqn:E3.
      * apply Qc_ltb_true in E3. destruct b as [cb|].
        2: { exfalso. cbn [best_quality] in E3. pose proof (quality_low (fst c) HT) as HL. apply (Qclt_not_le _ _ E3). eapply Qcle_trans; [|apply Qcplus_le_compat; [exact HL|apply Qcle_refl]]. discriminate. }
        destruct B as [B|]; [|destruct HB]. destruct HB as (HC & HZ & C). cbn [deref bind]. pose proof (as_shows _ _ _ _ I) as SH. pose proof (sw_same _ _ _ _ _ SH) as S0.
        destruct (copy_any (snet s) B (sw_un _ _ _ _ _ SH) (cells_same g0 (snet s) B S0 HC)) as (g1 & Q & -> & U1 & S1 & EA & HC1 & HS1). cbn [bind].
        assert (EL : map plabel Q = seq 0 K) by (rewrite <- (ch_labels _ _ _ _ C), <- EA; unfold abs; rewrite map_map; reflexivity).
        rewrite (as_gl _ _ _ _ I). match goal with |- exists _ _ _, bind ?m _ = _ /\ _ => replace m with (Ok (map Some (seq 0 K))) by (symmetry; exact (remap_ok Q EL)) end. cbn [bind].
        destruct (map_any g1 Q U1) as (g2 & P2 & -> & U2 & S2 & M2 & EA2); auto.
        { rewrite (sbg_labels (snet s) g1 S1), (sbg_labels g0 (snet s) S0). exact ND. }
        { rewrite EA. eapply ch_good; eauto. }
        cbn [bind]. exists (mkSA g2 P2 (map Some (seq 0 K)) (quality g0 cb) (sds s)), 0, cb. cbn [best_quality] in *. split; auto. split; [now apply se_back|].
        split; cbn [snet spart CommModel.sgl sE sds fst snd]; auto; try apply I. split; auto; [eapply sbg_trans; [exact S0|]; eapply sbg_trans; eauto|]. now rewrite EA2, EA.
      * apply Qc_ltb_false in E3. exists s, (count + 1), (fst c). split; auto. split; [|destruct c; exact I]. apply se_count; auto. intros [_ X]. now apply (Qclt_not_le _ _ X).
    + exists s, (count + 1), (fst c). split; auto. split; [|destruct c; exact I]. apply se_count; auto. intros [X _]; auto.
  - exists s, 0, (fst c). split; auto. split; [|destruct c; exact I]. apply se_change. rewrite <- HS. discriminate.
Qed.

(** * The temperatures *)
Lemma sa_loop_ok Ti Tf Ts coll n1 n2 : 0 < n1 -> forall fuel T last count B b s c, at_state g0 K s c -> kept B b -> length (snd c) < fuel ->
  ends only_rng (sa_loop fuel N K (nodes g0) L Ti Tf Ts coll n1 n2 T (last_quality g0 last) count B (best_quality g0 b) s)
    (fun '(s', count', B', _) => exists c' b', cools ex g0 K Ti Tf Ts coll n1 n2 T last count b c c' count' b' /\ at_state g0 K s' c' /\ kept B' b').
Proof.
  intros Hn. induction fuel as [|f IH]; intros T last count B b s c I HB Hf; [lia|]. cbn [sa_loop]. cbn [nltb opsM Qc_ops]. destruct (Qc_ltb Tf T) eqn:E1; cbn [andb].
  - apply Qc_ltb_true in E1. destruct (Nat.ltb_spec count 25) as [E2|E2].
    + eapply ends_bind; [apply (sa_round_ok ex sq g0 U0 ND Fit HN K HK Ti T coll n1 n2 s c I)|]. intros s1 ([c1 ds1] & HR & I1). pose proof (turn_len ex g0 K Ti coll n1 n2 T c (c1, ds1) Hn HR) as HL. cbn [snd] in HL.
      destruct (sa_count_ok s1 B b (c1, ds1) last count I1 HB) as (s2 & count2 & c2 & -> & HS & I2). cbn [bind fst snd] in *.
      destruct (sa_best_ok s2 B b (c2, ds1) I2 HB) as (s3 & B3 & b3 & EB & HBt & HB3 & I3). cbn [fst] in HBt. rewrite EB. cbn [bind].
      replace (sE s2) with (last_quality g0 (Some c2)) by (symmetry; apply (as_E _ _ _ _ I2)).
      eapply ends_impl; [apply (IH (T * Ts)%Qc (Some c2) count2 B3 b3 s3 (c2, ds1) I3 HB3); cbn [snd]; lia|]. intros [[[s4 count4] B4] E4] (c4 & b4 & HC & I4 & HB4). exists c4, b4. split; [|auto].
      eapply co_go; eauto.
    + cbn [ends]. exists c, b. split; [|auto]. apply co_stop. now right.
  - apply Qc_ltb_false in E1. cbn [ends]. exists c, b. split; [|auto]. apply co_stop. now left.
Qed.
End Run.

(** * The start *)
Definition filled_to (i : nat) : list (option nat) := map Some (seq 0 i) ++ repeat None (N - i).
Lemma filled_all : filled_to N = nodes g0.
Proof. unfold filled_to. rewrite Nat.sub_diag. apply app_nil_r. Qed.
Definition own_at (i : nat) (s : net Qc * gpart Qc * list (option nat) * list (option nat) * nat) (_ : unit) : Prop :=
  let '(g, P, gl, nl, total) := s in undirected g /\ same_but_group g0 g /\ mapped g P /\ cshows i i (abs P) (seq 0 i) /\ gl = filled_to i /\ nl = filled_to i /\ total = lsum (degree g0) (seq 0 i).
Lemma put_ok g P i k : undirected g -> mapped g P -> i < length g -> k < length P -> (forall m, ~ In i (nth_members (abs P) m)) ->
  exists g1 P1, AddNodeToGroup (g, P) k i = Ok (g1, P1) /\ undirected g1 /\ mapped g1 P1 /\ same_but_group g g1 /\ abs P1 = grop_do (abs P) (GAdd k i).
Proof.
  intros U M Hi Hk Hn. destruct (groups_run g P [GAdd k i] U M) as (g3 & P3 & E3 & U3 & M3 & S3 & EA).
  { cbn. unfold abs at 1. rewrite map_length. auto. }
  cbn [foldM run_grop] in E3. match type of E3 with bind ?m _ = _ => destruct m as [st|] eqn:EX; [|discriminate E3] end. cbn [bind] in E3. injection E3 as ->. exists g3, P3. auto.
Qed.
Lemma new_ok g P lab : undirected g -> mapped g P -> ~ In lab (map fst (abs P)) -> mapped g (snd (CreateGroup P lab)) /\ abs (snd (CreateGroup P lab)) = grop_do (abs P) (GNew lab).
Proof. intros U M Hn. destruct (groups_run g P [GNew lab] U M) as (g3 & P3 & E3 & U3 & M3 & S3 & EA); [cbn; auto|]. cbn [foldM run_grop bind fst snd] in E3. injection E3 as <- <-. split; auto. Qed.
Lemma start_own_ok E i s u : i < N -> own_at i s u -> ends E (start_own s i) (fun s' => exists u', own_at (i + 1) s' u').
Proof.
  intros Hi. destruct s as [[[[g P] gl] nl] tot]. intros (U & S & M & C & -> & -> & ->). unfold start_own. pose proof (sbg_length _ _ S) as Lg. destruct (nth_ex g i) as [n En]; [unfold N in Hi; lia|]. rewrite (get_ok _ _ _ En). cbn [bind].
  pose proof (wf_num g (un_wf g U) i n En) as En'. rewrite En'. pose proof (ch_size _ _ _ _ C) as HP. unfold abs in HP. rewrite map_length in HP.
  destruct (new_ok g P i U M) as [M1 EA1]; [rewrite (ch_labels _ _ _ _ C); intros X; apply in_seq in X; lia|].
  destruct (CreateGroup P i) as [k P1] eqn:EC. cbn [snd] in *. assert (Ek : k = i /\ length P1 = i + 1) by (unfold CreateGroup in EC; injection EC as <- <-; split; auto; rewrite app_length; simpl; lia). destruct Ek as [-> LP1].
  unfold filled_to at 1 2. rewrite (fill_next Some None N i Hi). cbn [bind].
  destruct (put_ok g P1 i i U M1) as (g2 & P2 & -> & U2 & M2 & S2 & EA2); [unfold N in Hi; lia|lia| |].
  { intros m X. rewrite EA1 in X. apply (ch_in _ _ _ _ (ch_new _ _ _ _ C)) in X. lia. }
  cbn [bind]. destruct (NodeDegree_cache g2 i U2) as (g3 & -> & S3 & U3 & _); [rewrite (sbg_length _ _ S2); unfold N in Hi; lia|]. cbn [bind ends]. exists u.
  assert (S4 : same_but_group g0 g2) by (eapply sbg_trans; eauto).
  split; auto. split; [eapply sbg_trans; [exact S4|apply sc_sbg; exact S3]|]. split; [eapply mapped_cache; eauto|]. split; [|split; [reflexivity|split; [reflexivity|]]].
  - rewrite EA2, EA1. rewrite (Nat.add_1_r i) at 3. rewrite seq_S. apply ch_add; [apply ch_new; exact C|lia].
  - rewrite Nat.add_1_r, seq_S, lsum_app. cbn [lsum Nat.add]. replace (degree g2 i) with (degree g0 i) by (unfold degree; now rewrite (sbg_nbrs g0 g2 _ S4)). lia.
Qed.
Definition random_at (K : nat) (ds : list Qc) (i : nat) (s : net Qc * gpart Qc * list (option nat) * list (option nat) * nat * list Qc) (us : list Qc) : Prop :=
  let '(g, P, gl, nl, total, ds') := s in ds = us ++ ds' /\ length us = i /\ Forall inner ds' /\
    undirected g /\ same_but_group g0 g /\ mapped g P /\ cshows i K (abs P) (map (selects K) us) /\ gl = map Some (seq 0 K) /\ nl = filled_to i /\ total = lsum (degree g0) (seq 0 i).
Lemma start_random_ok (Er : err -> Prop) K ds i s us : 0 < K -> (i < length ds \/ Er RngOut) -> i < N -> random_at K ds i s us -> ends Er (start_random K s i) (fun s' => exists us', random_at K ds (i + 1) s' us').
Proof.
  intros HK HE Hi. destruct s as [[[[[g P] gl] nl] tot] ds']. intros (E & Eu & HD & U & S & M & C & -> & -> & ->). unfold start_random. pose proof (sbg_length _ _ S) as Lg. destruct (nth_ex g i) as [n En]; [unfold N in Hi; lia|]. rewrite (get_ok _ _ _ En). cbn [bind].
  pose proof (wf_num g (un_wf g U) i n En) as En'. rewrite En'. pose proof (ch_size _ _ _ _ C) as HP. unfold abs in HP. rewrite map_length in HP.
  unfold filled_to at 1. rewrite (fill_next Some None N i Hi). cbn [bind]. destruct ds' as [|u ds']; [destruct HE as [HE|HE]; [exfalso; rewrite E, app_nil_r in HE; lia|exact HE]|]. cbn [draw bind]. inversion HD as [|? ? Hu HD']; subst x l.
  change (nfloor (nmul u (nofnat K))) with (selects K u). assert (Hk : selects K u < K) by (now apply selects_lt). set (k := selects K u) in *.
  rewrite (get_ok _ k (Some k)) by (rewrite nth_error_map, nth_error_seq by auto; reflexivity). cbn [bind deref].
  destruct (put_ok g P i k U M) as (g2 & P2 & -> & U2 & M2 & S2 & EA2); [unfold N in Hi; lia|lia| |].
  { intros m X. apply (ch_in _ _ _ _ C) in X. lia. }
  cbn [bind]. destruct (NodeDegree_cache g2 i U2) as (g3 & -> & S3 & U3 & _); [rewrite (sbg_length _ _ S2); unfold N in Hi; lia|]. cbn [bind ends]. exists (us ++ [u]).
  assert (S4 : same_but_group g0 g2) by (eapply sbg_trans; eauto).
  split; [now rewrite E, <- app_assoc|]. split; [rewrite app_length; simpl; lia|]. split; auto. split; auto. split; [eapply sbg_trans; [exact S4|apply sc_sbg; exact S3]|]. split; [eapply mapped_cache; eauto|]. split; [|split; [reflexivity|split; [reflexivity|]]].
  - rewrite EA2, map_app. cbn [map]. apply ch_add; auto.
  - rewrite Nat.add_1_r, seq_S, lsum_app. cbn [lsum Nat.add]. replace (degree g2 i) with (degree g0 i) by (unfold degree; now rewrite (sbg_nbrs g0 g2 _ S4)). lia.
Qed.
Definition groups_at (g : net Qc) (K i : nat) (s : list (option nat) * gpart Qc) (_ : unit) : Prop :=
  let '(gl, P) := s in gl = map Some (seq 0 i) ++ repeat None (K - i) /\ mapped g P /\ cshows 0 i (abs P) [].
Definition set_groups (K : nat) : res (list (option nat) * gpart Qc) :=
  foldM (fun '(gl, P) i => let '(k, P) := CreateGroup P i in do gl <- set gl i (Some k); Ok (gl, P)) (repeat None K, []) (seq 0 K).
Lemma reset_start : undirected (ResetNetGroup g0) /\ same_but_group g0 (ResetNetGroup g0) /\ mapped (ResetNetGroup g0) ([] : gpart Qc).
Proof.
  pose proof (sbg_reset g0) as S. split; [|split; auto].
  - apply (sbg_undirected g0 _ U0 S). intros i m E. unfold ResetNetGroup in E. rewrite nth_error_map in E. destruct (nth_error g0 i) as [m0|] eqn:E0; [|discriminate]. injection E as <-. exact (wf_deg g0 (un_wf g0 U0) i m0 E0).
  - split; try (intros; contradiction); [constructor|]. intros i m E. unfold ResetNetGroup in E. rewrite nth_error_map in E. destruct (nth_error g0 i) as [m0|] eqn:E0; [|discriminate]. injection E as <-. reflexivity.
Qed.
Lemma set_groups_ok K : exists P, set_groups K = Ok (map Some (seq 0 K), P) /\ mapped (ResetNetGroup g0) P /\ cshows 0 K (abs P) [].
Proof.
  destruct reset_start as (U & S & M). set (g := ResetNetGroup g0) in *.
  pose proof (sim_seq (fun _ => False) (groups_at g K) (fun '(gl, P) i => let '(k, P) := CreateGroup P i in do gl <- set gl i (Some k); Ok (gl, P)) K) as H.
  specialize (fun H' => H H' (repeat None K, []) tt). cbv beta in H.
  assert (X : ends (fun _ => False) (set_groups K) (fun s' => exists c, groups_at g K K s' c)).
  { apply H.
    - intros i [gl P] u Hi (-> & MP & C). pose proof (ch_size _ _ _ _ C) as HP. unfold abs in HP. rewrite map_length in HP.
      destruct (new_ok g P i U MP) as [M1 EA1]; [rewrite (ch_labels _ _ _ _ C); intros X; apply in_seq in X; lia|].
      destruct (CreateGroup P i) as [k P1] eqn:EC. cbn [snd] in *. assert (Ek : k = i) by (unfold CreateGroup in EC; injection EC as <- <-; auto). subst k.
      rewrite (fill_next Some None K i Hi). cbn [bind ends]. exists u. split; auto. split; auto. rewrite EA1. now apply ch_new.
    - split; [now rewrite Nat.sub_0_r|]. split; auto. apply ch_nil; [reflexivity|]. intros [|k]; reflexivity. }
  destruct (set_groups K) as [[gl P]|e]; [|destruct X]. destruct X as (_ & -> & MP & C). exists P. rewrite Nat.sub_diag, app_nil_r. auto.
Qed.
Lemma sa_start_ok own ngroup ds : Forall inner ds -> (own = false -> 0 < ngroup) ->
  ends only_rng (sa_start g0 own ngroup ds) (fun '(g, P, gl, nl, K, tot, rest) => exists c0, sets_out N ngroup own ds K c0 rest /\ tot = total g0 /\ nl = nodes g0 /\ gl = map Some (seq 0 K) /\
    shows g0 K g P c0 /\ 0 < K /\ Forall inner rest).
Proof.
  intros HD Hg. unfold sa_start, CountNodes. destruct reset_start as (U & S & M). set (g := ResetNetGroup g0) in *. rewrite (sbg_length _ _ S). fold N. destruct own.
  - eapply ends_bind; [apply (sim_seq only_rng own_at start_own N (start_own_ok only_rng)) with (c := tt)|].
    + split; auto. split; auto. split; auto. split; [|unfold filled_to; rewrite Nat.sub_0_r; auto]. apply ch_nil; [reflexivity|]. intros [|k]; reflexivity.
    + intros [[[[g1 P1] gl] nl] tot] (_ & U1 & S1 & M1 & C1 & -> & -> & ->). cbn [ends]. exists (seq 0 N). split; [apply so_own|]. split; auto. split; [apply filled_all|]. split; [apply filled_all|]. split; [|auto]. split; auto.
  - specialize (Hg eq_refl). destruct (set_groups_ok ngroup) as (P & ES & MP & CP). unfold set_groups in ES.
    match goal with |- ends _ (bind ?m _) _ => replace m with (Ok (map Some (seq 0 ngroup), P)) by (symmetry; exact ES) end. cbn [bind].
    eapply ends_bind; [apply (sim_seq only_rng (random_at ngroup ds) (start_random ngroup) N (fun i s us => start_random_ok only_rng ngroup ds i s us Hg (or_intror eq_refl))) with (c := [])|].
    + split; auto. split; auto. split; auto. split; auto. split; auto. split; auto. split; auto. unfold filled_to. rewrite Nat.sub_0_r. auto.
    + intros [[[[[g1 P1] gl] nl] tot] rest] (us & -> & Lu & HD' & U1 & S1 & M1 & C1 & -> & -> & ->). cbn [ends]. exists (map (selects ngroup) us). split; [apply so_random; auto|]. split; auto. split; [apply filled_all|]. split; auto. split; [|auto]. split; auto.
Qed.

(** * The whole *)
Lemma cycles_times fac k least : cycles fac k least = times fac k least.
Proof.
  unfold cycles, times. change (nmul fac (nofnat k)) with (fac * q k)%Qc. set (x := (fac * q k)%Qc). cbn [nltb nofnat nfloor opsM Qc_ops].
  assert (EQ : (this (q least) == inject_Z (Z.of_nat least))%Q) by apply Qred_correct. destruct (Qc_ltb x (q least)) eqn:E.
  - apply Qc_ltb_true in E. symmetry. apply Nat.max_l. assert (X : (Qfloor (this x) < Z.of_nat least)%Z); [|lia]. rewrite Zlt_Qlt. eapply Qle_lt_trans; [apply Qfloor_le|]. rewrite <- EQ. exact E.
  - apply Qc_ltb_false in E. symmetry. apply Nat.max_r. assert (X : (Z.of_nat least <= Qfloor (this x))%Z); [|lia]. rewrite <- (Qfloor_Z (Z.of_nat least)). apply Qfloor_resp_le. rewrite <- EQ. exact E.
Qed.
Lemma start_quality K g P c : shows g0 K g P c -> Modularity P = quality g0 c.
Proof.
  intros I. pose proof (sw_col _ _ _ _ _ I) as C. pose proof (sw_len g0 K g P c I) as LG.
  transitivity (pair_modularity (length g) (unit_weight g) (same_home (abs P))); [apply (Modularity_pairs ex sq g P); [apply I|apply I|]; rewrite LG; eapply ch_covering; eauto|].
  rewrite LG. unfold quality, pair_modularity. assert (EW : forall i j, unit_weight g i j = unit_weight g0 i j) by (intros; unfold unit_weight; now rewrite (sw_linked g0 K g P c I)).
  assert (EN : forall i, node_sum (length g0) (unit_weight g) i = node_sum (length g0) (unit_weight g0) i) by (intros; apply Qsum_ext; intros; apply EW).
  assert (ET : all_sum (length g0) (unit_weight g) = all_sum (length g0) (unit_weight g0)) by (apply Qsum_ext; intros; apply EN). rewrite ET.
  apply Qsum_ext. intros i Hi. apply Qsum_ext. intros j Hj. apply in_seq in Hi. apply in_seq in Hj. rewrite (ch_same _ _ _ _ i j C) by lia. now rewrite EW, !EN.
Qed.
Lemma shows_depicts K g P c : shows g0 K g P c -> depicts g0 g (CompressPart P) c.
Proof.
  intros I. pose proof (sw_col _ _ _ _ _ I) as C. pose proof (sw_map _ _ _ _ _ I) as M. destruct (groups_run g P [GCompress] (sw_un _ _ _ _ _ I) M) as (g3 & P3 & E3 & U3 & M3 & S3 & EA); [cbn; auto|].
  cbn [foldM run_grop bind fst snd] in E3. injection E3 as <- <-. cbn [fold_left] in EA.
  assert (GD : good (abs (CompressPart P))) by (apply good_map; split; [|split]; apply M3).
  split; auto; try apply I.
  - intros i Hi. apply home_iff; auto. exists (nth_members (abs P) (colour c i)). pose proof (ch_lt _ _ _ _ i C Hi) as Hk. pose proof (ch_nth _ _ _ _ (colour c i) C Hk) as En.
    assert (X : In i (nth_members (abs P) (colour c i))) by (apply (ch_in _ _ _ _ C); auto). split; auto. rewrite EA. cbn [grop_do]. apply filter_In. split; [eapply nth_error_In; eauto|]. cbn [snd]. destruct (nth_members (abs P) (colour c i)); [destruct X|auto].
  - intros G HG X. assert (Y : In (plabel G, members G) (abs (CompressPart P))) by (apply (in_map (fun G => (plabel G, members G))); exact HG). rewrite EA in Y. cbn [grop_do] in Y. apply filter_In in Y as [_ Y]. cbn [snd] in Y. rewrite X in Y. discriminate.
Qed.
Lemma cools_best K Ti Tf Ts coll n1 n2 T last count b s s' count' b' : cools ex g0 K Ti Tf Ts coll n1 n2 T last count b s s' count' b' -> b <> None -> b' <> None.
Proof. intros H. induction H as [|T last count best s c1 ds1 c2 count2 best2 s' count' best' H1 H2 H3 H4 H5 H6 IH]; auto. intros Hb. apply IH. inversion H5; subst; auto. discriminate. Qed.
Theorem SACommunityIdent_ok Ti Tf Ts fac ngroup own coll ds : 0 < total g0 -> (Tf < Ti)%Qc -> Forall inner ds -> (own = false -> 0 < ngroup) ->
  ends only_rng (SACommunityIdent g0 Ti Tf Ts fac ngroup own coll ds)
    (fun '(g', P, rest) => exists c count best, anneals ex g0 Ti Tf Ts fac ngroup own coll ds c rest count best /\ depicts g0 g' P c).
Proof.
  intros HT Hlt HD Hg. unfold SACommunityIdent, CountNodes. fold N. eapply ends_bind; [apply (sa_start_ok own ngroup ds HD Hg)|].
  intros [[[[[[g P] gl] nl] K] tot] rest] (c0 & HS & -> & -> & -> & I & HK & HDr). rewrite !cycles_times.
  assert (I0 : at_state g0 K (mkSA g P (map Some (seq 0 K)) (Modularity P) rest) (c0, rest)) by (split; cbn [snet spart CommModel.sgl sE sds fst snd]; auto; eapply start_quality; eauto).
  assert (Hn : 0 < times fac (N * N) 10) by (unfold times; lia).
  eapply ends_bind; [apply (sa_loop_ok K HK HT Ti Tf Ts coll (times fac (N * N) 10) (times fac N 2) Hn (length rest + 1) Ti None 0 None None _ (c0, rest) I0 Logic.I); cbn [snd]; lia|].
  intros [[[s count] B] E] ([c rest'] & b & HC & I1 & HB). assert (NB : b <> None).
  { inversion HC as [? ? ? ? ? [X|X]|T last count1 best s1 c1 ds1 c2 count2 best2 s' count' best' H1 H2 H3 H4 H5 H6]; subst; [exfalso; apply (Qclt_not_le _ _ Hlt X)|lia|]. apply (cools_best _ _ _ _ _ _ _ _ _ _ _ _ _ _ _ H6). inversion H5 as [|X]; subst; [discriminate|].
    exfalso. cbn [best_quality] in X. pose proof (quality_low c2 HT) as HL. pose proof (Qcle_trans _ _ _ HL X) as Y. discriminate Y || (apply Y; reflexivity). }
  destruct B as [B|]; [|destruct b; [destruct HB|congruence]]. cbn [deref bind ends]. exists c, count, b. rewrite (as_ds _ _ _ _ I1). cbn [snd]. split.
  - econstructor; eauto.
  - apply (shows_depicts K). apply (as_shows _ _ _ _ I1).
Qed.
End Exact.

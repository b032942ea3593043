(** NodeStat.v -- the statistics of the participation coefficients of a two-sided network. *)
From Coq Require Import List Arith Lia Bool Permutation QArith Qcanon.
From Verif Require Import Base Num ListLib NatSum QcSum IoModel GraphModel GraphSpec GraphProof GroupModel GroupSpec GroupProof NetModel ToolsModel ToolsProof BipartModel BipartSpec BipartRen BipartRand BipartMem BipartProj BipartExact BipartPart NodeModel NodeSpec.
Import ListNotations.
Local Open Scope nat_scope.


Section Stat.
Variables ex sq : Qc -> Qc.
#[local] Instance opsNS : NumOps Qc := Qc_ops ex sq.

(** ** A node that shares a team with one without a group *)
Section One.
Variables (m : net Qc) (i N : nat).
Hypothesis Sm : simple m.
Notation mstep := (mstep m i).
Lemma group_dec j : {has_group m N j} + {~ has_group m N j}.
Proof.
  unfold has_group. destruct (nth_error m j) as [n|]; [|right; intros (n & x & H & _); discriminate]. destruct (ggroup n) as [x|] eqn:E; [|right; intros (n' & x & [= <-] & H & _); congruence].
  destruct (lt_dec x N) as [H|H]; [left; eauto|right; intros (n' & x' & [= <-] & H' & H''); congruence].
Qed.
Lemma members_any (ls : list (link Qc)) : (forall l, In l ls -> exists j n, lref l = Some j /\ nth_error m j = Some n) -> forall norm cnt, length cnt = N ->
  match foldM mstep (norm, cnt) ls with Ok (_, c) => length c = N /\ forall j, In j (others i (targets ls)) -> has_group m N j | Err e => e = UB_oob /\ exists j, In j (others i (targets ls)) /\ ~ has_group m N j end.
Proof.
  induction ls as [|l ls IH]; intros Hr norm cnt L; cbn [foldM]; [split; auto; intros j []|]. destruct (Hr l (or_introl eq_refl)) as (j & n & Ej & En).
  assert (Et : targets (l :: ls) = j :: targets ls) by (unfold targets; cbn [flat_map]; now rewrite Ej). rewrite Et. unfold BipartPart.mstep at 1. rewrite Ej. cbn [deref bind]. unfold others. cbn [filter]. destruct (j =? i) eqn:Eji; cbn [negb].
  - cbn [bind]. apply IH; auto. intros; apply Hr; simpl; auto.
  - rewrite (get_ok _ _ _ En). cbn [bind]. destruct (group_dec j) as [H|H].
    + pose proof H as (n' & x & En' & Eg & Hx). assert (n' = n) by congruence. subst n'. rewrite Eg. destruct (nth_ex cnt x) as [c Ec]; [lia|]. rewrite (get_ok _ _ _ Ec). cbn [bind]. rewrite set_ok by lia. cbn [bind].
      specialize (IH ltac:(intros; apply Hr; simpl; auto) (norm + 1) (upd cnt x (c + 1)) ltac:(now rewrite length_upd)). destruct (foldM _ _ ls) as [[a c']|e].
      * destruct IH as [H1 H2]. split; auto. intros k [<-|Hk]; auto.
      * destruct IH as (-> & k & H1 & H2). split; auto. exists k. simpl. auto.
    + assert (X : (match ggroup n with None => Err UB_oob | Some x => do c <- get cnt x; do cnt <- set cnt x (c + 1); Ok (norm + 1, cnt) end) = Err UB_oob).
      { destruct (ggroup n) as [x|] eqn:Eg; auto. unfold get. rewrite (proj2 (nth_error_None cnt x)); auto. destruct (le_lt_dec (length cnt) x); auto. exfalso. apply H. exists n, x. splits; auto. lia. }
      rewrite X. cbn [bind]. split; auto. exists j. simpl. auto.
Qed.
Lemma teams_any (ts : list (link Qc)) : (forall t, In t ts -> exists s n, lref t = Some s /\ nth_error m s = Some n) -> forall st, length (snd st) = N ->
  match foldM (fun st t => do s <- deref (lref t); do n <- get m s; foldM mstep st (gadj n)) st ts with
  | Ok (_, c) => length c = N /\ forall j, In j (others i (flat_map (nbrs m) (targets ts))) -> has_group m N j
  | Err e => e = UB_oob /\ exists j, In j (others i (flat_map (nbrs m) (targets ts))) /\ ~ has_group m N j
  end.
Proof.
  induction ts as [|t ts IH]; intros Hr [norm cnt] L; cbn [foldM]; [split; auto; intros j []|]. destruct (Hr t (or_introl eq_refl)) as (s & n & Es & En).
  assert (Et : targets (t :: ts) = s :: targets ts) by (unfold targets; cbn [flat_map]; now rewrite Es). rewrite Et. cbn [flat_map]. rewrite Es. cbn [deref bind]. rewrite (get_ok _ _ _ En). cbn [bind].
  assert (Eo : forall y, others i (nbrs m s ++ y) = others i (nbrs m s) ++ others i y) by (intros; unfold others; apply filter_app). rewrite Eo.
  pose proof (members_any (gadj n)) as M. rewrite <- (nbrs_eq _ _ _ En) in M. specialize (M ltac:(intros l Hl; destruct (si_refs m Sm s n l En Hl) as (j & k & H1 & H2 & _); eauto) norm cnt L). destruct (foldM mstep (norm, cnt) (gadj n)) as [[a c]|e]; cbn [bind].
  - destruct M as [L' H1]. specialize (IH ltac:(intros; apply Hr; simpl; auto) (a, c) L'). destruct (foldM _ (a, c) ts) as [[a' c']|e].
    + destruct IH as [L2 H2]. split; auto. intros j Hj. apply in_app_iff in Hj as [Hj|Hj]; auto.
    + destruct IH as (-> & j & H2 & H3). split; auto. exists j. split; auto. apply in_app_iff; auto.
  - destruct M as (-> & j & H2 & H3). split; auto. exists j. split; auto. apply in_app_iff; auto.
Qed.
End One.
Lemma coefficient_any (b : binet Qc) i : bipartite b -> In i (bset1 b) ->
  match ParticipationCoefficientBipart (bmem b) (bset1 b) i with Ok _ => grouped (bmem b) (length (bset1 b)) i | Err e => e = UB_oob /\ ~ grouped (bmem b) (length (bset1 b)) i end.
Proof.
  intros B Hi. set (m := bmem b) in *. assert (Sm : simple m) by now apply bi_simple. unfold ParticipationCoefficientBipart.
  assert (Hl : exists k, nth_error (bset1 b) (length (bset1 b) - 1) = Some k /\ hd_error (rev (bset1 b)) = Some k).
  { destruct (bset1 b) as [|x l] using rev_ind; [destruct Hi|]. exists x. rewrite rev_app_distr. simpl. split; auto. rewrite app_length. simpl. rewrite Nat.add_sub. now rewrite nth_error_app2, Nat.sub_diag by lia. }
  destruct Hl as (k & Ek & ->). cbn [deref bind]. destruct (nth_ex m k) as [nk Enk]; [apply bi_sets; auto; left; eapply nth_error_In; eauto|].
  rewrite (get_ok _ _ _ Enk). cbn [bind]. rewrite (bi_num1 b B _ _ _ Ek Enk). destruct (nth_ex m i) as [n En]; [apply bi_sets; auto|]. rewrite (get_ok _ _ _ En). cbn [bind].
  replace (length (bset1 b) - 1 + 1) with (length (bset1 b)) by (destruct (bset1 b); [destruct Hi|simpl; lia]). set (N := length (bset1 b)) in *.
  pose proof (teams_any m i N Sm (gadj n)) as T. rewrite <- (nbrs_eq _ _ _ En) in T. specialize (T ltac:(intros t Ht; destruct (si_refs m Sm i n t En Ht) as (s & k' & E1 & E2 & _); eauto) (0, repeat 0 N) ltac:(apply repeat_length)).
  unfold mstep in T. change (others i (flat_map (nbrs m) (nbrs m i))) with (peers m i) in T. destruct (foldM _ _ (gadj n)) as [[a c]|e]; cbn [bind].
  - exact (proj2 T).
  - destruct T as (-> & j & H1 & H2). split; auto. intros G. exact (H2 (G j H1)).
Qed.

(** ** The table *)
Lemma table_ok (b : binet Qc) : bipartite b -> let N := length (bset1 b) in
  match foldM (fun ps i => do n <- get (bmem b) i; do P <- ParticipationCoefficientBipart (bmem b) (bset1 b) i; set ps (gnum n) (Some P)) (repeat None N) (bset1 b) with
  | Ok ps => (forall i, In i (bset1 b) -> grouped (bmem b) N i) /\ exists qs, ps = map Some qs /\ length qs = N /\ forall k i, nth_error (bset1 b) k = Some i -> exists q, nth_error qs k = Some q /\ ParticipationCoefficientBipart (bmem b) (bset1 b) i = Ok q
  | Err e => e = UB_oob /\ exists i, In i (bset1 b) /\ ~ grouped (bmem b) N i
  end.
Proof.
  intros B N. set (step := fun ps i => _).
  assert (G : forall l2 l1 qs, bset1 b = l1 ++ l2 -> length qs = length l1 -> (forall i, In i l1 -> grouped (bmem b) N i) -> (forall k i, nth_error l1 k = Some i -> exists q, nth_error qs k = Some q /\ ParticipationCoefficientBipart (bmem b) (bset1 b) i = Ok q) ->
    match foldM step (map Some qs ++ repeat None (length l2)) l2 with
    | Ok ps => (forall i, In i (bset1 b) -> grouped (bmem b) N i) /\ exists qs, ps = map Some qs /\ length qs = N /\ forall k i, nth_error (bset1 b) k = Some i -> exists q, nth_error qs k = Some q /\ ParticipationCoefficientBipart (bmem b) (bset1 b) i = Ok q
    | Err e => e = UB_oob /\ exists i, In i (bset1 b) /\ ~ grouped (bmem b) N i
    end).
  { induction l2 as [|i l2 IH]; intros l1 qs E L H1 H2; cbn [foldM].
    - rewrite app_nil_r in *. subst l1. split; auto. exists qs. splits; auto.
    - assert (Hk : nth_error (bset1 b) (length l1) = Some i) by (rewrite E, nth_error_app2, Nat.sub_diag by lia; reflexivity). assert (Hi : In i (bset1 b)) by (eapply nth_error_In; eauto). destruct (nth_ex (bmem b) i) as [n En]; [apply bi_sets; auto|].
      unfold step at 1. rewrite (get_ok _ _ _ En). cbn [bind]. pose proof (coefficient_any b i B Hi) as C. destruct (ParticipationCoefficientBipart (bmem b) (bset1 b) i) as [q|e] eqn:Eq; cbn [bind].
      + rewrite (bi_num1 b B _ _ _ Hk En). rewrite set_ok by (rewrite app_length, map_length, repeat_length; cbn; lia). cbn [bind].
        replace (upd (map Some qs ++ repeat None (length (i :: l2))) (length l1) (Some q)) with (map Some (qs ++ [q]) ++ repeat None (length l2)).
        * apply (IH (l1 ++ [i])); [now rewrite <- app_assoc|rewrite !app_length; cbn; lia| |].
          -- intros j Hj. apply in_app_iff in Hj as [Hj|[<-|[]]]; auto.
          -- intros k j Ej. destruct (Nat.lt_ge_cases k (length l1)) as [Hl|Hl].
             ++ rewrite nth_error_app1 in Ej by auto. destruct (H2 k j Ej) as (q' & Q1 & Q2). exists q'. rewrite nth_error_app1 by lia. auto.
             ++ assert (k = length l1). { pose proof (nth_lt _ _ _ Ej) as X. rewrite app_length in X. cbn in X. lia. } subst k. rewrite nth_error_app2, Nat.sub_diag in Ej by lia. injection Ej as <-. exists q. split; auto. rewrite nth_error_app2 by lia. rewrite L, Nat.sub_diag. reflexivity.
        * rewrite <- L. clear. cbn [length repeat]. rewrite map_app. cbn [map]. induction qs as [|x qs IH]; cbn; auto. now rewrite IH.
      + destruct C as [-> C]. split; auto. exists i. auto. }
  exact (G (bset1 b) [] [] eq_refl eq_refl ltac:(intros i []) ltac:(intros [|k]; discriminate)).
Qed.
Lemma all_set (qs : list Qc) : mapM set_yet (map Some qs) = Ok qs.
Proof. induction qs as [|q qs IH]; auto. cbn [map mapM set_yet bind]. now rewrite IH. Qed.

Theorem Statistics_spec (b : binet Qc) : bipartite b -> let N := length (bset1 b) in
  match StatisticsParticipationCoefficientBipart (bmem b) (bset1 b) with
  | Ok (m, s, lo, hi) => bset1 b <> [] /\ (forall i, In i (bset1 b) -> grouped (bmem b) N i) /\
      ((forall i, In i (bset1 b) -> peers (bmem b) i <> []) -> let ps := map (participation (bmem b) N) (bset1 b) in
        m = (Qsum (fun x => x) ps / Qc_of_nat N)%Qc /\ s = (if Qc_eq_dec (variance ps) 0 then 0%Qc else sq (variance ps)) /\ In lo ps /\ In hi ps /\ (forall x, In x ps -> (lo <= x)%Qc /\ (x <= hi)%Qc) /\ (0 <= lo)%Qc /\ (hi <= 1 - / Qc_of_nat N)%Qc)
  | Err e => e = UB_oob /\ (bset1 b = [] \/ exists i, In i (bset1 b) /\ ~ grouped (bmem b) N i)
  end.
Proof.
  intros B N. unfold StatisticsParticipationCoefficientBipart. pose proof (table_ok b B) as T. cbv zeta in T. fold N in T |- *. destruct (foldM _ _ _) as [ps0|e]; cbn [bind]; [|destruct T as [-> T]; auto].
  destruct T as (HG & qs & -> & L & HQ). match goal with |- context [mapM ?f ?l] => replace (mapM f l) with (Ok qs) by (symmetry; exact (all_set qs)) end. cbn [bind].
  assert (F : firstn N qs = qs) by (rewrite <- L; apply firstn_all).
  destruct (list_eq_dec Nat.eq_dec (bset1 b) []) as [E0|E0].
  - assert (N = 0) as X by (unfold N; now rewrite E0). rewrite X in *. destruct qs; [|discriminate L]. cbn. auto.
  - assert (Hp : 0 < N) by (unfold N; destruct (bset1 b); [congruence|cbn; lia]).
    assert (E1 := mean_spec ex sq qs N ltac:(lia)). assert (E2 := stddev_spec ex sq qs N Hp ltac:(lia)). destruct (min_spec ex sq qs N Hp ltac:(lia)) as (lo & E3 & I1 & H1). destruct (max_spec ex sq qs N Hp ltac:(lia)) as (hi & E4 & I2 & H2). rewrite F in *.
    match goal with |- context [bind (mean ?x ?y) _] => replace (mean x y) with (Ok (Qsum (fun x => x) qs / Qc_of_nat N)%Qc) end. cbn [bind].
    match goal with |- context [bind (stddev ?x ?y) _] => replace (stddev x y) with (Ok (if Qc_eq_dec (variance qs) 0 then 0%Qc else sq (variance qs))) end. cbn [bind].
    match goal with |- context [bind (min_d ?x ?y) _] => replace (min_d x y) with (Ok lo) end. cbn [bind].
    match goal with |- context [bind (max_d ?x ?y) _] => replace (max_d x y) with (Ok hi) end. cbn [bind]. splits; auto.
    intros HP. set (ps := map (participation (bmem b) N) (bset1 b)). assert (EQ : ps = qs).
    { apply nth_ext_eq. intros k. unfold ps. rewrite nth_error_map. destruct (nth_error (bset1 b) k) as [i|] eqn:Ei.
      - destruct (HQ k i Ei) as (q & Q1 & Q2). cbn. rewrite Q1. f_equal. assert (Hi : In i (bset1 b)) by (eapply nth_error_In; eauto). pose proof (ParticipationCoefficientBipart_spec ex sq b i B Hi (HP i Hi) (HG i Hi)) as X.
        assert (Y : Ok (participation (bmem b) N i) = Ok q) by (rewrite <- Q2; symmetry; exact X). now injection Y.
      - cbn. symmetry. apply nth_error_None. apply nth_error_None in Ei. unfold N in L. lia. }
    assert (HB : forall x, In x qs -> (0 <= x)%Qc /\ (x <= 1 - / Qc_of_nat N)%Qc). { rewrite <- EQ. unfold ps. intros x Hx. apply in_map_iff in Hx as (i & <- & Hi). exact (participation_bounds (bmem b) N i (HP i Hi) (HG i Hi)). }
    rewrite EQ. splits; auto; now apply HB.
Qed.
End Stat.

(** HistProof.v -- the printed histograms of distances in exact arithmetic. *)
From Coq Require Import List Arith Lia Bool Permutation QArith Qcanon.
From Verif Require Import Base Num ListLib NatSum QcSum IoModel GraphModel GraphSpec GraphProof GraphSim BfsModel BfsProof RolesBounds PathLen StatProof BtwCount HistModel.
Import ListNotations.
Local Open Scope nat_scope.
Local Opaque HIST.

Lemma filter_cut (f : nat -> bool) a b : (forall x, f x = true -> x <= b) -> filter f (seq 1 a) = filter f (seq 1 (Nat.min a b)).
Proof.
  intros H. destruct (Nat.le_ge_cases a b) as [L|L]; [now rewrite Nat.min_l by auto|]. rewrite Nat.min_r by auto. replace a with (b + (a - b)) by lia. rewrite seq_app, filter_app. rewrite (filter_none f (seq (1 + b) _)); [now rewrite app_nil_r|].
  intros x Hx. apply in_seq in Hx. destruct (f x) eqn:E; auto. apply H in E. lia.
Qed.

Section Exact.
Variables ex sq : Qc -> Qc.
#[local] Instance opsH : NumOps Qc := Qc_ops ex sq.

(** The loop over the histogram. *)
Lemma rows_loop (nodes : nat) (h : list Qc) : length h = HIST -> forall n a rows av norm, a + n <= HIST ->
  foldM (hist_row nodes h) (rows, av, norm) (seq a n) = Ok (rows ++ map (fun i => (i, hval h i / Qc_of_nat (nodes - 1))%Qc) (filter (fun i => if Qc_eq_dec (hval h i) 0 then false else true) (seq a n)),
    (av + Qsum (fun i => Qc_of_nat i * hval h i / Qc_of_nat (nodes - 1)) (seq a n))%Qc, (norm + Qsum (fun i => hval h i / Qc_of_nat (nodes - 1)) (seq a n))%Qc).
Proof.
  intros L. induction n as [|n IH]; intros a rows av norm Ha; cbn [seq foldM filter map Qsum]; [rewrite app_nil_r, !Qcplus_0_r; auto|].
  assert (E1 : hist_row nodes h (rows, av, norm) a = Ok (rows ++ (if Qc_eq_dec (hval h a) 0 then [] else [(a, hval h a / Qc_of_nat (nodes - 1))%Qc]), (av + Qc_of_nat a * hval h a / Qc_of_nat (nodes - 1))%Qc, (norm + hval h a / Qc_of_nat (nodes - 1))%Qc)).
  { unfold hist_row. rewrite (get_ok _ _ _ (hval_nth h a ltac:(lia))). cbn [bind]. change (neqb (hval h a) n0) with (if Qc_eq_dec (hval h a) 0 then true else false). destruct (Qc_eq_dec (hval h a) 0) as [E|E]; [|reflexivity].
    rewrite app_nil_r, E. unfold Qcdiv. rewrite Qcmult_0_r, !Qcmult_0_l, !Qcplus_0_r. reflexivity. }
  rewrite E1. cbn [bind]. rewrite IH by lia. destruct (Qc_eq_dec (hval h a) 0); cbn [map]; rewrite <- ?app_assoc, ?app_nil_r, !Qcplus_assoc; reflexivity.
Qed.

Section Graph.
Variables (g : net Qc) (W : wf_net g).
Variable dist : nat -> nat -> option nat.
Hypothesis Hdist : forall s v d, dist s v = Some d <-> distance g s v d.
Notation N := (length g).
Notation at_dist := (at_dist g dist).

Definition is_at (d : nat) (o : option nat) : bool := match o with Some x => x =? d | None => false end.
(** The ordered pairs of nodes at distance d. *)
Definition pairs_at (d : nat) : nat := length (filter (fun '(s, v) => is_at d (dist s v)) (list_prod (seq 0 N) (seq 0 N))).
Lemma pairs_sum d : pairs_at d = lsum (fun s => at_dist s d) (seq 0 N).
Proof. unfold pairs_at. rewrite (prod_count (fun s v => is_at d (dist s v))). reflexivity. Qed.
Lemma pairs_bound d : 0 < pairs_at d -> d < N.
Proof.
  unfold pairs_at. intros H. destruct (filter _ _) as [|[s v] l] eqn:E; [cbn in H; lia|]. assert (In (s, v) ((s, v) :: l)) as X by (simpl; auto). rewrite <- E in X. apply filter_In in X as [_ X]. unfold is_at in X. destruct (dist s v) as [d'|] eqn:Ed; [|discriminate].
  apply Nat.eqb_eq in X. subst d'. apply Hdist in Ed. exact (distance_bound g W d s v Ed).
Qed.
Lemma pairs_fits d : fits dist -> 0 < pairs_at d -> d < HIST.
Proof.
  intros F. unfold pairs_at. intros H. destruct (filter _ _) as [|[s v] l] eqn:E; [cbn in H; lia|]. assert (In (s, v) ((s, v) :: l)) as X by (simpl; auto). rewrite <- E in X. apply filter_In in X as [_ X]. unfold is_at in X. destruct (dist s v) as [d'|] eqn:Ed; [|discriminate].
  apply Nat.eqb_eq in X. subst d'. exact (F _ _ _ Ed).
Qed.
Definition total_dist : Qc := Qsum (fun s => Qsum (fun v => match dist s v with Some d => Qc_of_nat d | None => 0%Qc end) (seq 0 N)) (seq 0 N).
Definition joined : Qc := Qsum (fun s => Qsum (fun v => match dist s v with Some d => if d =? 0 then 0%Qc else 1%Qc | None => 0%Qc end) (seq 0 N)) (seq 0 N).

Theorem Histogram_spec : fits dist -> 2 <= N -> exists g', same_but_state g g' /\
  FPrintDistanceHistogram g = Ok (map (fun d => (d, Qc_of_nat (pairs_at d) / (Qc_of_nat N * Qc_of_nat (N - 1)))%Qc) (filter (fun d => 0 <? pairs_at d) (seq 1 (N - 1))),
    (total_dist / (Qc_of_nat N * Qc_of_nat (N - 1)))%Qc, (joined / (Qc_of_nat N * Qc_of_nat (N - 1)))%Qc, (Qc_of_nat (pairs_at 1) / Qc_of_nat N)%Qc, g').
Proof.
  intros F H2. unfold FPrintDistanceHistogram, CountNodes. destruct (histograms_spec ex sq g W dist Hdist false F) as (oh & g' & E & S' & H). cbn [andb] in H. destruct H as (h & -> & Lh & Hh). exists g'. split; auto.
  match goal with |- context [bind (histograms false g) _] => replace (histograms false g) with (@Ok (option (list Qc) * net Qc) (Some h, g')) by (symmetry; exact E) end. cbn [bind].
  assert (P1 : Qc_of_nat N <> 0%Qc) by (apply Qc_neq_pos, Qc_of_nat_pos; lia). assert (P2 : Qc_of_nat (N - 1) <> 0%Qc) by (apply Qc_neq_pos, Qc_of_nat_pos; lia).
  assert (HV : forall i, 0 < i -> hval h i = (Qc_of_nat (pairs_at i) / Qc_of_nat N)%Qc).
  { intros i Hi. rewrite Hh, pairs_sum, <- Qsum_nats. unfold Qcdiv. rewrite <- Qsum_scal_r. apply Qsum_ext. intros s _. rewrite (proj2 (Nat.eqb_neq i 0)) by lia. reflexivity. }
  assert (H0 : hval h 0 = 0%Qc) by (rewrite Hh; now apply Qsum_0).
  rewrite (rows_loop N h Lh HIST 0) by lia. cbn [bind app]. rewrite !Qcplus_0_l. pose proof HIST_pos as HP.
  assert (H1H : 1 < HIST) by (apply Nat.ltb_lt; vm_compute; reflexivity). rewrite (get_ok _ _ _ (hval_nth h 1 ltac:(lia))). cbn [bind]. rewrite (HV 1) by lia. do 5 f_equal. 
  - replace HIST with (S (HIST - 1)) by lia. cbn [seq filter]. destruct (Qc_eq_dec (hval h 0) 0) as [_|X]; [|contradiction].
    rewrite (filter_ext_in _ (fun d => 0 <? pairs_at d)).
    + rewrite (filter_cut _ (HIST - 1) (N - 1)) by (intros x Hx; apply Nat.ltb_lt, pairs_bound in Hx; lia). rewrite (filter_cut _ (N - 1) (HIST - 1)) by (intros x Hx; apply Nat.ltb_lt, (pairs_fits x F) in Hx; lia). rewrite Nat.min_comm.
      apply map_ext_in. intros d Hd. apply filter_In in Hd as [Hd _]. apply in_seq in Hd. rewrite HV by lia. f_equal. field. auto.
    + intros d Hd. apply in_seq in Hd. rewrite HV by lia. destruct (Nat.ltb_spec 0 (pairs_at d)) as [X|X].
      * destruct (Qc_eq_dec _ 0) as [Y|]; auto. exfalso. assert (Z : Qc_of_nat (pairs_at d) = 0%Qc) by (rewrite <- (Qcmult_0_l (Qc_of_nat N)), <- Y; field; auto). change 0%Qc with (Qc_of_nat 0) in Z. apply Qc_of_nat_inj in Z. lia.
      * assert (pairs_at d = 0) as -> by lia. change (Qc_of_nat 0) with 0%Qc. destruct (Qc_eq_dec _ 0) as [|Y]; auto. exfalso. apply Y. unfold Qcdiv. ring.
  - rewrite (Qsum_ext _ (fun i => (Qc_of_nat i / Qc_of_nat (N - 1)) * hval h i)%Qc) by (intros; unfold Qcdiv; ring). rewrite (hist_sum g dist _ h F Hh). unfold total_dist.
    rewrite (Qsum_ext _ (fun s => Qsum (fun v => match dist s v with Some d => Qc_of_nat d | None => 0%Qc end) (seq 0 N) * / Qc_of_nat (N - 1))%Qc).
    + rewrite Qsum_scal_r. field. auto.
    + intros s _. rewrite <- Qsum_scal_r. apply Qsum_ext. intros v _. destruct (dist s v) as [d|]; [|ring]. destruct (Nat.eqb_spec d 0) as [->|]; [|reflexivity]. change (Qc_of_nat 0) with 0%Qc. ring.
  - rewrite (Qsum_ext _ (fun i => (1 / Qc_of_nat (N - 1)) * hval h i)%Qc) by (intros; unfold Qcdiv; ring). rewrite (hist_sum g dist _ h F Hh). unfold joined.
    rewrite (Qsum_ext _ (fun s => Qsum (fun v => match dist s v with Some d => if d =? 0 then 0%Qc else 1%Qc | None => 0%Qc end) (seq 0 N) * / Qc_of_nat (N - 1))%Qc).
    + rewrite Qsum_scal_r. field. auto.
    + intros s _. rewrite <- Qsum_scal_r. apply Qsum_ext. intros v _. destruct (dist s v) as [d|]; [|ring]. destruct (d =? 0); unfold Qcdiv; ring.
Qed.

(** ** The parts of what is printed *)
Lemma joined_all : 2 <= N -> (forall s v, s < N -> v < N -> reachable g s v) -> joined = (Qc_of_nat N * Qc_of_nat (N - 1))%Qc.
Proof.
  intros H2 HR. unfold joined. rewrite (Qsum_ext _ (fun s => Qc_of_nat (N - 1))).
  - rewrite (Qsum_ext _ (fun s => Qc_of_nat (N - 1) * 1)%Qc) by (intros; ring). rewrite Qsum_scal. rewrite (Qsum_ext (fun _ => 1%Qc) (fun _ => Qc_of_nat 1)) by reflexivity. rewrite Qsum_nats, <- length_lsum, seq_length. ring.
  - intros s Hs. apply in_seq in Hs. rewrite (Qsum_ext _ (fun v => Qc_of_nat (if v =? s then 0 else 1))).
    + rewrite Qsum_nats. f_equal. assert (X : forall a n, lsum (fun v => if v =? s then 0 else 1) (seq a n) = n - (if (a <=? s) && (s <? a + n) then 1 else 0)).
      { intros a n. revert a. induction n as [|n IH]; intros a; [reflexivity|]. cbn [seq]. change (lsum ?f (?x :: ?l)) with (f x + lsum f l). rewrite IH. destruct (Nat.eqb_spec a s) as [->|]; destruct (Nat.leb_spec s s), (Nat.leb_spec (S s) s) || idtac.
        all: repeat match goal with |- context [?x <=? ?y] => destruct (Nat.leb_spec x y) | |- context [?x <? ?y] => destruct (Nat.ltb_spec x y) end; cbn [andb]; lia. }
      rewrite X. destruct (Nat.leb_spec 0 s), (Nat.ltb_spec s (0 + N)); cbn; lia.
    + intros v Hv. apply in_seq in Hv. destruct (proj2 (dist_reach g W dist Hdist s v ltac:(lia)) (HR s v ltac:(lia) ltac:(lia))) as [d Ed]. rewrite Ed. destruct (Nat.eqb_spec v s) as [->|Hne].
      * assert (distance g s s 0) as D0 by (split; [constructor; lia|intros; lia]). apply Hdist in D0. assert (d = 0) as -> by congruence. reflexivity.
      * destruct d as [|d]; [|reflexivity]. exfalso. apply Hdist in Ed as [P _]. inversion P; subst; congruence.
Qed.

(** ** One node *)
Lemma hist_plus_eq (h : list Qc) d k : hist_plus h d k = hist_add 1 h d k.
Proof. unfold hist_plus, hist_add. destruct (get h d) as [x|e]; auto. cbn [bind]. f_equal. change (nadd x (nofnat k)) with (x + Qc_of_nat k)%Qc. change (nadd x (ndiv (nofnat k) (nofnat 1))) with (x + Qc_of_nat k / Qc_of_nat 1)%Qc. f_equal. change (Qc_of_nat 1) with 1%Qc. symmetry. unfold Qcdiv. change (/ 1)%Qc with 1%Qc. apply Qcmult_1_r. Qed.
Lemma one_plus h s : s < N -> exists D g2 q2, (do st <- Enqueue (ResetNodesState g, CreateHeaderList) s None 0; layers hist_plus (N + 1) h st 0 0) =
     (do h <- foldM (fun h i => hist_add 1 h i (at_dist s i)) h (seq 1 D); Ok (h, (g2, q2), bsize q2)) /\
     same_but_state g g2 /\ bsize q2 = length (bq q2) /\ (forall i, D < i -> at_dist s i = 0) /\ (forall i, 0 < i <= D -> 0 < at_dist s i).
Proof.
  intros Hs. destruct (start g s Hs g eq_refl) as (g1 & q1 & -> & O). cbn [bind].
  destruct (layers_spec g W s hist_plus (N + 1) h 0 0 g1 q1 O) as (D & g2 & q2 & E & H1 & H2 & H3 & _ & H5 & H6); [lia|].
  exists D, g2, q2. rewrite E. splits; auto.
  - f_equal. apply foldM_ext. intros x i _. rewrite (complete_layer g W dist Hdist s _ i H3). apply hist_plus_eq.
  - intros i Hi. rewrite <- (complete_layer g W dist Hdist s _ i H3). unfold layer. rewrite (count_ext _ (fun _ => false)).
    + clear. induction (bq q2); auto.
    + intros e He. specialize (H5 e He). apply Nat.eqb_neq. lia.
  - intros i Hi. rewrite <- (complete_layer g W dist Hdist s _ i H3). apply H6. lia.
Qed.
Definition from_step (s : nat) : list Qc * net Qc * bfs -> nat -> res (list Qc * net Qc * bfs) := fun '(h, g', q) i =>
  do n <- get g' i;
  if gnum n =? s then
    let g0 := ResetNodesState g' in
    do st <- Enqueue (g0, q) i None 0;
    do (h, st, _) <- layers hist_plus (N + 1) h st 0 0;
    do q <- ClearList (snd st);
    Ok (h, fst st, q)
  else Ok (h, g', q).
Lemma from_skip s l : forall h g' q, same_but_state g g' -> (forall i, In i l -> i < N /\ i <> s) -> foldM (from_step s) (h, g', q) l = Ok (h, g', q).
Proof.
  induction l as [|i l IH]; intros h g' q S Hl; [reflexivity|]. cbn [foldM]. destruct (Hl i (or_introl eq_refl)) as [Hi Hn]. destruct (nth_ex g' i) as [n En]; [rewrite (sbs_length g g' S); auto|].
  unfold from_step at 1. rewrite (get_ok _ _ _ En). cbn [bind]. rewrite (wf_num g' (sbs_wf g g' S W) i n En), (proj2 (Nat.eqb_neq i s) Hn). cbn [bind]. apply IH; auto. intros; apply Hl; simpl; auto.
Qed.
Theorem FromNode_spec s : fits dist -> 2 <= N -> exists g', same_but_state g g' /\
  FPrintDistanceHistogramFromNode g s = Ok (if s <? N then (Qsum (fun v => match dist s v with Some d => Qc_of_nat d | None => 0%Qc end) (seq 0 N) / Qc_of_nat (N - 1))%Qc else 0%Qc, if s <? N then Qc_of_nat (at_dist s 1) else 0%Qc, g').
Proof.
  intros F H2. unfold FPrintDistanceHistogramFromNode, CountNodes. assert (H1H : 1 < HIST) by (apply Nat.ltb_lt; vm_compute; reflexivity). assert (P2 : Qc_of_nat (N - 1) <> 0%Qc) by (apply Qc_neq_pos, Qc_of_nat_pos; lia).
  change (fun '(h, g0, q) i => do n <- get g0 i; if gnum n =? s then _ else _) with (from_step s).
  match goal with |- context [foldM ?f (repeat n0 HIST, g, CreateHeaderList) (seq 0 N)] => change (foldM f (repeat n0 HIST, g, CreateHeaderList) (seq 0 N)) with (foldM (from_step s) (repeat 0%Qc HIST, g, CreateHeaderList) (seq 0 N)) end.
  assert (FIN : forall h, length h = HIST -> exists rows norm, foldM (hist_row N h) ([], n0, n0) (seq 0 HIST) = Ok (rows, Qsum (fun i => Qc_of_nat i * hval h i / Qc_of_nat (N - 1))%Qc (seq 0 HIST), norm)).
  { intros h Lh. do 2 eexists. rewrite (rows_loop N h Lh HIST 0) by lia. cbn [app]. change (@n0 Qc opsH) with 0%Qc. rewrite !Qcplus_0_l. reflexivity. }
  destruct (Nat.ltb_spec s N) as [Hs|Hs].
  - assert (SP : seq 0 N = seq 0 s ++ s :: seq (s + 1) (N - s - 1)) by (replace N with (s + (1 + (N - s - 1))) at 1 by lia; rewrite seq_app; cbn [seq Nat.add]; now rewrite Nat.add_1_r).
    match goal with |- context [foldM (from_step s) ?a (seq 0 N)] => replace (foldM (from_step s) a (seq 0 N)) with (foldM (from_step s) a (seq 0 s ++ s :: seq (s + 1) (N - s - 1))) by now rewrite <- SP end.
    rewrite foldM_app, from_skip by first [reflexivity|intros i Hi; apply in_seq in Hi; lia]. cbn [bind foldM]. destruct (nth_ex g s Hs) as [n En]. unfold from_step at 1. rewrite (get_ok _ _ _ En). cbn [bind]. rewrite (wf_num g W s n En), Nat.eqb_refl.
    destruct (one_plus (repeat 0%Qc HIST) s Hs) as (D & g2 & q2 & E & K1 & K2 & K4 & K5).
    destruct (hist_add_fold ex sq 1 (at_dist s) D 1 (repeat 0%Qc HIST)) as (h' & Ef & Lh' & Hh'). { rewrite repeat_length. eapply fits_at; eauto. }
    rewrite repeat_length in Lh'. match type of E with _ = bind ?x _ => replace x with (@Ok (list Qc) h') in E by (symmetry; exact Ef) end. cbn [bind] in E.
    destruct (Enqueue (ResetNodesState g, CreateHeaderList) s None 0) as [st|] eqn:Es; [|discriminate]. cbn [bind] in *. rewrite E. cbn [bind snd fst]. rewrite (ClearList_ok q2 K2). cbn [bind]. rewrite from_skip by first [assumption|intros i Hi; apply in_seq in Hi; lia]. cbn [bind].
    exists g2. split; auto. destruct (FIN h' Lh') as (rows & norm & ->). cbn [bind]. rewrite (get_ok _ _ _ (hval_nth h' 1 ltac:(lia))). cbn [bind].
    assert (HV : forall i, hval h' i = if (i =? 0) then 0%Qc else Qc_of_nat (at_dist s i)).
    { intros i. rewrite Hh'. unfold hval at 1. rewrite nth_repeat. destruct i as [|i]; cbn [Nat.leb andb Nat.eqb]; [ring|]. destruct (Nat.ltb_spec (S i) (1 + D)) as [Hi|Hi]; [transitivity (0 + Qc_of_nat (at_dist s (S i)) * 1)%Qc; [reflexivity|ring]|]. rewrite (K4 (S i)) by lia. change (Qc_of_nat 0) with 0%Qc. ring. }
    do 3 f_equal; [f_equal|].
    + rewrite (Qsum_ext _ (fun i => (Qc_of_nat i / Qc_of_nat (N - 1)) * (if (i =? 0)%nat then 0%Qc else Qc_of_nat (at_dist s i)))%Qc) by (intros i _; rewrite HV; unfold Qcdiv; ring). rewrite (sum_dist g dist _ s HIST (F s)).
      unfold Qcdiv. rewrite <- Qsum_scal_r. apply Qsum_ext. intros v _. destruct (dist s v) as [d|]; [|ring]. destruct (Nat.eqb_spec d 0) as [->|]; [|reflexivity]. change (Qc_of_nat 0) with 0%Qc. ring.
    + rewrite HV. reflexivity.
  - rewrite from_skip by first [reflexivity|intros i Hi; apply in_seq in Hi; lia]. cbn [bind]. exists g. split; [reflexivity|]. destruct (FIN (repeat 0%Qc HIST) (repeat_length _ _)) as (rows & norm & ->). cbn [bind].
    rewrite (get_ok _ _ _ (hval_nth (repeat 0%Qc HIST) 1 ltac:(rewrite repeat_length; lia))). cbn [bind]. assert (Z : forall i, hval (repeat 0%Qc HIST) i = 0%Qc) by (intros i; unfold hval; apply nth_repeat). rewrite Z, Qsum_0 by (intros i _; rewrite Z; unfold Qcdiv; ring). reflexivity.
Qed.

(** ** Too long a distance *)
Theorem Histogram_oob v d : dist 0 v = Some d -> HIST <= d -> FPrintDistanceHistogram g = Err UB_oob.
Proof.
  intros E Hd. assert (Hv : v < N) by (apply Hdist in E; eapply distance_lt; eauto). assert (H0 : 0 < N) by lia.
  assert (H : histograms false g = Err UB_oob).
  { unfold histograms, CountNodes. destruct N as [|M] eqn:EN; [lia|]. cbn [seq foldM]. rewrite <- EN in *.
    destruct (one_source ex sq g W dist Hdist g (repeat 0%Qc HIST) 0 eq_refl H0) as (D & g2 & q2 & E1 & K1 & K2 & K3 & K4 & K5).
    assert (HD : d <= D). { destruct (Nat.le_gt_cases d D); auto. specialize (K4 d ltac:(lia)). exfalso.
      assert (0 < at_dist 0 d); [|lia]. eapply count_pos; [apply in_seq; split; [apply Nat.le_0_l|]; exact Hv|]. rewrite E. apply Nat.eqb_refl. }
    rewrite (hist_add_fold_oob ex sq N (at_dist 0) D 1 (repeat 0%Qc HIST)) in E1; [|pose proof HIST_pos; rewrite repeat_length; lia|rewrite repeat_length; lia]. cbn [bind] in E1.
    change (@repeat Qc n0 HIST) with (repeat (Q2Qc 0) HIST).
    destruct (Enqueue (ResetNodesState g, CreateHeaderList) 0 None 0) as [st|e] eqn:Es; cbn [bind] in *; [|injection E1 as ->; reflexivity].
    match goal with |- context [layers ?a ?b ?c ?d ?e ?f] => replace (layers a b c d e f) with (@Err (list Qc * (net Qc * bfs) * nat) UB_oob) by (symmetry; exact E1) end. reflexivity. }
  unfold FPrintDistanceHistogram. rewrite H. reflexivity.
Qed.
End Graph.
End Exact.

(** PathLen.v -- the average path length and the average inverse distance in exact arithmetic (C44). *)
From Coq Require Import List Arith Lia Bool Permutation QArith Qcanon.
From Verif Require Import Base Num ListLib NatSum QcSum IoModel GraphModel GraphSpec GraphProof GraphSim BfsModel BfsProof RolesBounds.
Import ListNotations.
Local Open Scope nat_scope.

Lemma HIST_pos : 0 < HIST. Proof. apply Nat.ltb_lt. vm_compute. reflexivity. Qed.
Local Opaque HIST.

(** A fold of additions. *)
Lemma foldM_pure {S X} (f : S -> X -> S) l : forall s, foldM (fun s x => Ok (f s x)) s l = Ok (fold_left f l s).
Proof. induction l; simpl; auto. Qed.

Section Exact.
Variables ex sq : Qc -> Qc.
#[local] Instance opsX : NumOps Qc := Qc_ops ex sq.
Implicit Types g : net Qc.

Definition hval (h : list Qc) (i : nat) : Qc := nth i h 0%Qc.
Lemma hval_nth h i : i < length h -> nth_error h i = Some (hval h i).
Proof. intros H. unfold hval. now apply nth_error_nth'. Qed.

Lemma hist_add_ok N h d k : d < length h -> exists h', hist_add N h d k = Ok h' /\ length h' = length h /\
  forall i, hval h' i = (hval h i + if (i =? d)%nat then Qc_of_nat k / Qc_of_nat N else 0)%Qc.
Proof.
  intros H. unfold hist_add. rewrite (get_ok _ _ _ (hval_nth h d H)). cbn [bind]. rewrite set_ok by auto. eexists. split; [reflexivity|]. rewrite length_upd. split; auto.
  intros i. unfold hval. destruct (Nat.eqb_spec i d) as [->|Hi].
  - rewrite (nth_error_nth _ _ _ (nth_upd_eq h d _ H)). reflexivity.
  - destruct (Nat.lt_ge_cases i (length h)) as [Hl|Hl].
    + pose proof (hval_nth h i Hl) as E. erewrite nth_error_nth; [|rewrite nth_upd_neq; eauto]. unfold hval. ring.
    + rewrite !nth_overflow by (rewrite ?length_upd; auto). ring.
Qed.
Lemma hist_add_fold N (cnt : nat -> nat) : forall D a h, a + D <= length h ->
  exists h', foldM (fun h i => hist_add N h i (cnt i)) h (seq a D) = Ok h' /\ length h' = length h /\
  forall i, hval h' i = (hval h i + if (a <=? i)%nat && (i <? a + D)%nat then Qc_of_nat (cnt i) / Qc_of_nat N else 0)%Qc.
Proof.
  induction D as [|D IH]; intros a h H; simpl.
  - exists h. splits; auto. intros i. destruct (Nat.leb_spec a i), (Nat.ltb_spec i (a + 0)); simpl; try lia; ring.
  - destruct (hist_add_ok N h a (cnt a)) as (h1 & -> & L1 & H1); [lia|]. cbn [bind]. destruct (IH (S a) h1) as (h2 & E2 & L2 & H2); [lia|]. exists h2. splits; auto; [lia|].
    intros i. rewrite H2, H1. destruct (Nat.eqb_spec i a) as [Hi|Hi], (Nat.leb_spec (S a) i), (Nat.ltb_spec i (S a + D)), (Nat.leb_spec a i), (Nat.ltb_spec i (a + S D));
      cbn [andb]; try lia; subst; ring.
Qed.
(** Too long a distance writes outside the array. *)
Lemma hist_add_fold_oob N (cnt : nat -> nat) : forall D a h, a <= length h -> length h < a + D ->
  foldM (fun h i => hist_add N h i (cnt i)) h (seq a D) = Err UB_oob.
Proof.
  induction D as [|D IH]; intros a h H1 H2; [lia|]. cbn [seq foldM]. destruct (Nat.eq_dec a (length h)) as [->|Hne].
  - unfold hist_add, get. rewrite (proj2 (nth_error_None _ _)) by auto. reflexivity.
  - destruct (hist_add_ok N h a (cnt a)) as (h1 & -> & L1 & _); [lia|]. cbn [bind]. apply IH; lia.
Qed.

Section Graph.
Variables (g : net Qc) (W : wf_net g).
Variable dist : nat -> nat -> option nat.
Hypothesis Hdist : forall s v d, dist s v = Some d <-> distance g s v d.

(** Number of nodes at distance [i] from [s]. *)
Definition at_dist (s i : nat) : nat := count (fun v => match dist s v with Some d => d =? i | None => false end) (seq 0 (length g)).

Lemma distance_lt s v d : distance g s v d -> v < length g.
Proof. intros [P _]. destruct P as [i Hi|m i j w P Hw]; auto. now destruct (nbrs_lt g j w W Hw). Qed.

Lemma complete_sum s l (F : nat -> nat) : complete g s l ->
  lsum (fun e => F (bd e)) l = lsum (fun v => match dist s v with Some d => F d | None => 0 end) (seq 0 (length g)).
Proof.
  intros [C1 C2 C3 _ _]. set (Fv := fun v => match dist s v with Some d => F d | None => 0 end).
  rewrite (lsum_ext (fun e => F (bd e)) (fun e => Fv (bref e))).
  - rewrite <- (lsum_map bref Fv). rewrite (lsum_members _ (map bref l) (length g) C1).
    + apply lsum_ext. intros v _. destruct (mem_spec v (map bref l)) as [Hi|Hi]; auto. unfold Fv. destruct (dist s v) as [d|] eqn:E; auto.
      exfalso. apply Hi, C2. apply Hdist in E as [P _]. now exists d.
    + intros x Hx. apply in_map_iff in Hx as (e & <- & He). eapply distance_lt; eauto.
  - intros e He. unfold Fv. assert (dist s (bref e) = Some (bd e)) as -> by (apply Hdist; auto). auto.
Qed.
Lemma complete_layer s l i : complete g s l -> layer l i = at_dist s i.
Proof.
  intros C. unfold layer, at_dist. rewrite !count_lsum. rewrite (complete_sum s l (fun d => if d =? i then 1 else 0) C). apply lsum_ext. intros v _. destruct (dist s v); auto.
Qed.
Lemma complete_length s l : complete g s l -> length l = count (fun v => match dist s v with Some _ => true | None => false end) (seq 0 (length g)).
Proof.
  intros C. rewrite length_lsum, count_lsum. rewrite (complete_sum s l (fun _ => 1) C). apply lsum_ext. intros v _. destruct (dist s v); auto.
Qed.
Lemma count_all {X} (f : X -> bool) l : count f l = length l <-> forall x, In x l -> f x = true.
Proof.
  induction l as [|x l IH]; simpl; [tauto|]. rewrite count_cons. pose proof (count_le f l) as Hl. destruct (f x) eqn:E; split.
  - intros H y [<-|Hy]; auto. apply IH; auto.
  - intros H. simpl. f_equal. apply IH. auto.
  - intros H. lia.
  - intros H. rewrite H in E; auto. discriminate.
Qed.

Lemma dist_reach s v : s < length g -> (exists d, dist s v = Some d) <-> reachable g s v.
Proof.
  intros Hs. split.
  - intros [d E]. apply Hdist in E as [P _]. now exists d.
  - intros R. destruct (start g s Hs g eq_refl) as (g1 & q1 & _ & O).
    destruct (layers_spec g W s (fun (x : unit) _ _ => Ok x) (length g + 1) tt 0 0 g1 q1 O) as (D & g2 & q2 & _ & _ & _ & [C1 C2 C3 _ _] & _); [lia|].
    apply C2 in R. apply in_map_iff in R as (e & <- & He). exists (bd e). apply Hdist. auto.
Qed.

(** All nodes can be reached from [s]. *)
Definition full_from (s : nat) : bool := forallb (fun v => match dist s v with Some _ => true | None => false end) (seq 0 (length g)).
Lemma full_count s l : complete g s l -> (length l =? length g) = full_from s.
Proof.
  intros C. rewrite (complete_length s l C). apply eq_true_iff_eq. unfold full_from. rewrite Nat.eqb_eq, forallb_forall. rewrite <- (seq_length (length g) 0) at 2. apply count_all.
Qed.

(** One source. *)
Lemma one_source g0 h s : same_but_state g g0 -> s < length g ->
  (exists D g2 q2, (do st <- Enqueue (ResetNodesState g0, CreateHeaderList) s None 0; layers (hist_add (length g)) (length g + 1) h st 0 0) =
     (do h <- foldM (fun h i => hist_add (length g) h i (at_dist s i)) h (seq 1 D); Ok (h, (g2, q2), bsize q2)) /\
     same_but_state g g2 /\ bsize q2 = length (bq q2) /\ complete g s (bq q2) /\ (forall i, D < i -> at_dist s i = 0) /\ (forall i, 0 < i <= D -> 0 < at_dist s i)).
Proof.
  intros S0 Hs. destruct (start g s Hs g0 S0) as (g1 & q1 & -> & O). cbn [bind].
  destruct (layers_spec g W s (hist_add (length g)) (length g + 1) h 0 0 g1 q1 O) as (D & g2 & q2 & E & H1 & H2 & H3 & _ & H5 & H6); [lia|].
  exists D, g2, q2. rewrite E. splits; auto.
  - f_equal. apply foldM_ext. intros x i _. now rewrite (complete_layer s _ i H3).
  - intros i Hi. rewrite <- (complete_layer s _ i H3). unfold layer. rewrite (count_ext _ (fun _ => false)).
    + clear. induction (bq q2); auto.
    + intros e He. specialize (H5 e He). apply Nat.eqb_neq. lia.
  - intros i Hi. rewrite <- (complete_layer s _ i H3). apply H6. lia.
Qed.

(** Distances fit the histogram. *)
Definition fits : Prop := forall s v d, dist s v = Some d -> d < HIST.

Lemma fits_at s D : fits -> (forall i, 0 < i <= D -> 0 < at_dist s i) -> 1 + D <= HIST.
Proof.
  intros F H. destruct D as [|D]; [pose proof HIST_pos; lia|]. specialize (H (S D)). destruct (count_pos_ex _ _ (H ltac:(lia))) as (v & _ & Hv).
  destruct (dist s v) as [d|] eqn:E; [|discriminate]. apply Nat.eqb_eq in Hv. specialize (F s v d E). lia.
Qed.

Theorem histograms_spec all : fits ->
  exists oh g', histograms all g = Ok (oh, g') /\ same_but_state g g' /\
    if all && negb (forallb full_from (seq 0 (length g))) then oh = None
    else exists h, oh = Some h /\ length h = HIST /\
      forall i, hval h i = Qsum (fun s => if (i =? 0)%nat then 0%Qc else Qc_of_nat (at_dist s i) / Qc_of_nat (length g))%Qc (seq 0 (length g)).
Proof.
  intros F. unfold histograms, CountNodes. set (N := length g).
  match goal with |- context [foldM ?f ?a ?b] => set (body := f) end.
  destruct (foldM_inv (fun done '(oh, g', q) => same_but_state g g' /\ q = CreateHeaderList /\
    if all && negb (forallb full_from done) then oh = None else exists h, oh = Some h /\ length h = HIST /\
      forall i, hval h i = Qsum (fun s => if (i =? 0)%nat then 0%Qc else Qc_of_nat (at_dist s i) / Qc_of_nat N)%Qc done) body (seq 0 N) (Some (repeat 0%Qc HIST), g, CreateHeaderList))
    as ([[oh g'] q] & E & H1 & -> & H2).
  - splits; auto; [reflexivity|]. simpl. rewrite andb_false_r. exists (repeat 0%Qc HIST). rewrite repeat_length. splits; auto.
    intros i. simpl. unfold hval. apply nth_repeat.
  - intros done s rest [[oh g0] q] El (S0 & -> & H). assert (Hs : s < length g). { assert (In s (seq 0 N)) as Hi by (rewrite El; apply in_app_iff; simpl; auto). apply in_seq in Hi. unfold N in Hi. lia. }
    rewrite forallb_app. simpl forallb. rewrite andb_true_r. destruct (all && negb (forallb full_from done)) eqn:Ea.
    + subst oh. exists (None, g0, CreateHeaderList). split; auto. splits; auto. apply andb_true_iff in Ea as [-> Ea]. apply negb_true_iff in Ea. rewrite Ea. reflexivity.
    + destruct H as (h & -> & Lh & Hh). unfold body. destruct (one_source g0 h s S0 Hs) as (D & g2 & q2 & E & K1 & K2 & K3 & K4 & K5).
      destruct (hist_add_fold N (at_dist s) D 1 h) as (h' & Ef & Lh' & Hh'). { rewrite Lh. eapply fits_at; eauto. }
      fold N in E. rewrite Ef in E. cbn [bind] in E. destruct (Enqueue (ResetNodesState g0, CreateHeaderList) s None 0) as [st|] eqn:Es; [|discriminate]. cbn [bind] in *.
      rewrite E. cbn [bind snd fst]. rewrite K2, (ClearList_ok q2 K2). cbn [bind]. unfold N. rewrite (full_count s _ K3).
      assert (Hval : forall i, hval h' i = Qsum (fun s => if (i =? 0)%nat then 0%Qc else Qc_of_nat (at_dist s i) / Qc_of_nat N)%Qc (done ++ [s])).
      { intros i. rewrite Hh', Hh, Qsum_app. simpl. destruct i as [|i]; simpl; [ring|]. destruct (Nat.ltb_spec (S i) (S D)) as [Hi|Hi]; [ring|].
        rewrite (K4 (S i)) by lia. change (Qc_of_nat 0) with 0%Qc. unfold Qcdiv. ring. }
      destruct all; simpl.
      * simpl in Ea. apply negb_false_iff in Ea. rewrite Ea. simpl. destruct (full_from s); simpl; eexists; (split; [reflexivity|]); cbv beta iota; splits; auto; exists h'; splits; auto; congruence.
      * eexists; (split; [reflexivity|]); cbv beta iota; splits; auto; exists h'; splits; auto; congruence.
  - change (@n0 Qc opsX) with 0%Qc. rewrite E. cbn [bind]. exists oh, g'. splits; auto.
Qed.

(** Sums over distances are sums over pairs of nodes. *)
Lemma sum_dist (c : nat -> Qc) s n : (forall v d, dist s v = Some d -> d < n) ->
  Qsum (fun i => c i * (if (i =? 0)%nat then 0%Qc else Qc_of_nat (at_dist s i)))%Qc (seq 0 n) =
  Qsum (fun v => match dist s v with Some d => if (d =? 0)%nat then 0%Qc else c d | None => 0%Qc end) (seq 0 (length g)).
Proof.
  intros Hn.
  assert (H : forall l i, Qc_of_nat (count (fun v => match dist s v with Some d => d =? i | None => false end) l) =
    Qsum (fun v => match dist s v with Some d => if (i =? d)%nat then 1%Qc else 0%Qc | None => 0%Qc end) l).
  { induction l as [|v l IH]; intros i; auto. rewrite count_cons, Qc_of_nat_add, IH. simpl. f_equal. destruct (dist s v) as [d|]; auto. rewrite (Nat.eqb_sym d i). destruct (i =? d)%nat; auto. }
  rewrite (Qsum_ext _ (fun i => Qsum (fun v => match dist s v with Some d => if (i =? d)%nat then if (d =? 0)%nat then 0%Qc else c i else 0%Qc | None => 0%Qc end) (seq 0 (length g)))).
  - rewrite Qsum_swap. apply Qsum_ext. intros v _. destruct (dist s v) as [d|] eqn:E.
    + rewrite (Qsum_single (fun i => if (d =? 0)%nat then 0%Qc else c i)); auto using seq_NoDup. apply in_seq. specialize (Hn v d E). lia.
    + now apply Qsum_0.
  - intros i _. unfold at_dist. destruct (Nat.eqb_spec i 0) as [->|Hi].
    + rewrite Qsum_0; [ring|]. intros v _. destruct (dist s v) as [[|d]|]; auto.
    + rewrite H, <- Qsum_scal. apply Qsum_ext. intros v _. destruct (dist s v) as [d|]; [|ring]. destruct (Nat.eqb_spec i d) as [<-|]; [|ring].
      rewrite (proj2 (Nat.eqb_neq _ _) Hi). ring.
Qed.

Lemma hist_sum (c : nat -> Qc) h : fits ->
  (forall i, hval h i = Qsum (fun s => if (i =? 0)%nat then 0%Qc else Qc_of_nat (at_dist s i) / Qc_of_nat (length g))%Qc (seq 0 (length g))) ->
  Qsum (fun i => c i * hval h i)%Qc (seq 0 HIST) =
  (Qsum (fun s => Qsum (fun v => match dist s v with Some d => if (d =? 0)%nat then 0%Qc else c d | None => 0%Qc end) (seq 0 (length g))) (seq 0 (length g)) / Qc_of_nat (length g))%Qc.
Proof.
  intros F Hh. unfold Qcdiv. rewrite <- Qsum_scal_r.
  rewrite (Qsum_ext _ (fun i => Qsum (fun s => c i * (if (i =? 0)%nat then 0%Qc else Qc_of_nat (at_dist s i)) * / Qc_of_nat (length g))%Qc (seq 0 (length g)))).
  - rewrite Qsum_swap. apply Qsum_ext. intros s _. rewrite Qsum_scal_r. f_equal. apply sum_dist. intros v d. apply F.
  - intros i _. rewrite Hh, <- Qsum_scal. apply Qsum_ext. intros s _. destruct (i =? 0)%nat; unfold Qcdiv; ring.
Qed.

Lemma average_loop (T : nat -> Qc -> Qc) (c : nat -> Qc) h : length h = HIST -> (forall i x, T i x = (c i * x)%Qc) ->
  foldM (fun av i => do x <- get h i; if neqb x n0 then Ok av else Ok (nadd av (T i x))) n0 (seq 0 HIST) = Ok (Qsum (fun i => c i * hval h i)%Qc (seq 0 HIST)).
Proof.
  intros Lh HT.
  destruct (foldM_inv (fun done av => av = Qsum (fun i => c i * hval h i)%Qc done) (fun av i => do x <- get h i; if neqb x n0 then Ok av else Ok (nadd av (T i x))) (seq 0 HIST) n0) as (av & E & H).
  - reflexivity.
  - intros done i rest av El ->. assert (Hi : i < length h). { assert (In i (seq 0 HIST)) as Hi by (rewrite El; apply in_app_iff; simpl; auto). apply in_seq in Hi. rewrite Lh. lia. }
    rewrite (get_ok _ _ _ (hval_nth h i Hi)). cbn [bind]. rewrite Qsum_app. cbn [Qsum]. unfold neqb, n0, nadd. simpl.
    destruct (Qc_eq_dec (hval h i) 0) as [E0|E0].
    + eexists. split; [reflexivity|]. rewrite E0. ring.
    + eexists. split; [reflexivity|]. rewrite HT. ring.
  - rewrite E, H. reflexivity.
Qed.

(** C44 (1): the average path length. *)
Theorem AveragePathLength_spec : fits -> 2 <= length g ->
  exists x g', AveragePathLength g = Ok (x, g') /\ same_but_state g g' /\
    ((forall s v, s < length g -> v < length g -> reachable g s v) ->
       x = (Qsum (fun s => Qsum (fun v => match dist s v with Some d => Qc_of_nat d | None => 0%Qc end) (seq 0 (length g))) (seq 0 (length g))
            / (Qc_of_nat (length g) * Qc_of_nat (length g - 1)))%Qc) /\
    (~ (forall s v, s < length g -> v < length g -> reachable g s v) -> x = Q2Qc (-1 # 1)).
Proof.
  intros F H2. unfold AveragePathLength, CountNodes. destruct (histograms_spec true F) as (oh & g' & -> & S' & H). cbn [bind andb] in *.
  assert (Hall : forallb full_from (seq 0 (length g)) = true <-> forall s v, s < length g -> v < length g -> reachable g s v).
  { rewrite forallb_forall. split.
    - intros Hf s v Hs Hv. apply dist_reach; auto. specialize (Hf s). rewrite in_seq in Hf. unfold full_from in Hf. rewrite forallb_forall in Hf.
      specialize (Hf ltac:(lia) v). rewrite in_seq in Hf. specialize (Hf ltac:(lia)). destruct (dist s v); eauto. discriminate.
    - intros Hr s Hs. apply in_seq in Hs. unfold full_from. apply forallb_forall. intros v Hv. apply in_seq in Hv.
      destruct (proj2 (dist_reach s v ltac:(lia)) (Hr s v ltac:(lia) ltac:(lia))) as [d ->]. reflexivity. }
  destruct (forallb full_from (seq 0 (length g))) eqn:Ef; simpl in H.
  - destruct H as (h & -> & Lh & Hh).
    rewrite (average_loop (fun i x => ndiv (nmul (nofnat i) x) (nofnat (length g - 1))) (fun i => Qc_of_nat i / Qc_of_nat (length g - 1))%Qc h Lh).
    + cbn [bind]. eexists. exists g'. split; [reflexivity|]. splits; auto; [|intros Hn; exfalso; apply Hn, Hall; auto].
      intros _. rewrite (hist_sum _ h F Hh).
      rewrite (Qsum_ext _ (fun s => Qsum (fun v => match dist s v with Some d => Qc_of_nat d | None => 0%Qc end) (seq 0 (length g)) * / Qc_of_nat (length g - 1))%Qc).
      * rewrite Qsum_scal_r. field. split; apply Qc_neq_pos, Qc_of_nat_pos; lia.
      * intros s _. rewrite <- Qsum_scal_r. apply Qsum_ext. intros v _. destruct (dist s v) as [d|]; [|ring]. destruct (Nat.eqb_spec d 0) as [->|]; [|reflexivity]. change (Qc_of_nat 0) with 0%Qc. ring.
    + intros i x. simpl. unfold Qcdiv. ring.
  - subst oh. eexists. exists g'. split; [reflexivity|]. splits; auto. intros Hr; apply Hall in Hr; discriminate.
Qed.

(** C44 (2): the average inverse distance (unreachable pairs count 0). *)
Theorem AverageInverseDistance_spec : fits -> 2 <= length g ->
  exists x g', AverageInverseDistance g = Ok (x, g') /\ same_but_state g g' /\
    x = (Qsum (fun s => Qsum (fun v => match dist s v with Some d => if (d =? 0)%nat then 0%Qc else 1 / Qc_of_nat d | None => 0%Qc end) (seq 0 (length g))) (seq 0 (length g))
            / (Qc_of_nat (length g) * Qc_of_nat (length g - 1)))%Qc.
Proof.
  intros F H2. unfold AverageInverseDistance, CountNodes. destruct (histograms_spec false F) as (oh & g' & -> & S' & H). cbn [bind andb] in *.
  destruct H as (h & -> & Lh & Hh).
  rewrite (average_loop (fun i x => ndiv x (nofnat (i * (length g - 1)))) (fun i => 1 / Qc_of_nat (i * (length g - 1)))%Qc h Lh).
  - cbn [bind]. eexists. exists g'. split; [reflexivity|]. splits; auto. rewrite (hist_sum _ h F Hh).
    rewrite (Qsum_ext _ (fun s => Qsum (fun v => match dist s v with Some d => if (d =? 0)%nat then 0%Qc else 1 / Qc_of_nat d | None => 0%Qc end) (seq 0 (length g)) * / Qc_of_nat (length g - 1))%Qc).
    + rewrite Qsum_scal_r. field. split; apply Qc_neq_pos, Qc_of_nat_pos; lia.
    + intros s _. rewrite <- Qsum_scal_r. apply Qsum_ext. intros v _. destruct (dist s v) as [d|]; [|ring]. destruct (Nat.eqb_spec d 0) as [->|Hd]; [ring|].
      rewrite Qc_of_nat_mul. field. split; apply Qc_neq_pos, Qc_of_nat_pos; lia.
  - intros i x. simpl. unfold Qcdiv. ring.
Qed.

(** A distance of 10000 or more writes outside the histogram. *)
Theorem AveragePathLength_oob v d : dist 0 v = Some d -> HIST <= d -> AveragePathLength g = Err UB_oob /\ AverageInverseDistance g = Err UB_oob.
Proof.
  intros E Hd. assert (Hv : v < length g) by (apply Hdist in E; eapply distance_lt; eauto). assert (H0 : 0 < length g) by lia.
  assert (H : forall all, histograms all g = Err UB_oob).
  { intros all. unfold histograms, CountNodes. destruct (length g) as [|N] eqn:EN; [lia|]. cbn [seq foldM]. rewrite <- EN in *.
    destruct (one_source g (repeat 0%Qc HIST) 0 eq_refl H0) as (D & g2 & q2 & E1 & K1 & K2 & K3 & K4 & K5).
    assert (HD : d <= D). { destruct (Nat.le_gt_cases d D); auto. specialize (K4 d ltac:(lia)). exfalso.
      assert (0 < at_dist 0 d); [|lia]. eapply count_pos; [apply in_seq; split; [apply Nat.le_0_l|]; exact Hv|]. rewrite E. apply Nat.eqb_refl. }
    rewrite (hist_add_fold_oob (length g) (at_dist 0) D 1 (repeat 0%Qc HIST)) in E1; [|pose proof HIST_pos; rewrite repeat_length; lia|rewrite repeat_length; lia]. cbn [bind] in E1.
    change (@repeat Qc n0 HIST) with (repeat (Q2Qc 0) HIST).
    destruct (Enqueue (ResetNodesState g, CreateHeaderList) 0 None 0) as [st|e] eqn:Es; cbn [bind] in *; [rewrite E1|injection E1 as ->]; reflexivity. }
  unfold AveragePathLength, AverageInverseDistance, CountNodes. rewrite !H. auto.
Qed.
End Graph.
End Exact.

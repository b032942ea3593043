(** StatAssort.v -- degrees and assortativity. *)
From Coq Require Import List Arith Lia ZArith Bool QArith Qcanon Permutation.
From Verif Require Import Base Num ListLib NatSum QcSum IoModel GraphModel GraphSpec GraphProof GraphRand RolesBounds BtwSearch StatModel StatSpec.
Import ListNotations.
Local Open Scope nat_scope.

Section Any.
Context {A : Type} {ops : NumOps A}.
Variable g : net A.
Hypothesis W : wf_net g.
Notation N := (length g).

Lemma degree_step i g0 : i < N -> same_links g g0 -> exists g1, NodeDegree g0 i = Ok (degree g i, g1) /\ same_links g g1.
Proof.
  intros Hi S0. pose proof S0 as (W0 & N0 & _). destruct (NodeDegree_spec g0 i W0) as (g1 & E & S1); [now rewrite <- (same_nodes_length _ _ N0)|].
  exists g1. rewrite E, (same_links_degree _ _ _ S0). split; auto. eapply same_links_trans; eauto.
Qed.
Lemma sl_length g0 : same_links g g0 -> length g0 = N.
Proof. intros (_ & S0 & _). symmetry. now apply same_nodes_length. Qed.
Lemma nbrs_below i j : In j (nbrs g i) -> j < N.
Proof. intros H. eapply nbrs_lt; eauto. Qed.

Theorem squared_spec : 0 < N -> exists g', AverageSquaredDegree g = Ok (nofnat (Nat.div (lsum (fun i => degree g i * degree g i) (seq 0 N)) N), g') /\ same_links g g'.
Proof.
  intros HN. unfold AverageSquaredDegree.
  set (I := fun k (st : nat * net A) => same_links g (snd st) /\ fst st = lsum (fun i => degree g i * degree g i) (seq 0 k)).
  match goal with |- context [foldM ?f ?s ?l] => destruct (foldM_seq I f N s) as ((t & g1) & E & S1 & T) end.
  - split; [now apply same_links_refl|reflexivity].
  - intros i (t & g0) Hi (S0 & T). cbn [fst snd] in *. destruct (degree_step i g0 Hi S0) as (g1 & E & S1). rewrite E. cbn [bind]. eexists. split; [reflexivity|]. split; auto. cbn [fst]. rewrite seq_app, lsum_app. cbn. lia.
  - cbn [fst snd] in *. rewrite E. cbn [bind]. rewrite (sl_length _ S1). destruct (Nat.eqb_spec N 0); [lia|]. cbn [negb check bind]. exists g1. cbn [fst snd] in *. now rewrite T.
Qed.

Theorem knn_raw i : i < N -> exists g', CalculateKnn g i = Ok (ndiv (nofnat (lsum (degree g) (nbrs g i))) (nofnat (degree g i)), g') /\ same_links g g'.
Proof.
  intros Hi. unfold CalculateKnn. destruct (nth_ex g i Hi) as [n En]. rewrite (get_ok _ _ _ En). cbn [bind].
  assert (Eb : nbrs g i = targets (gadj n)) by (unfold nbrs; now rewrite En).
  assert (LK : forall l, In l (gadj n) -> exists j, lref l = Some j /\ j < N). { intros l H. destruct (wf_link g W _ _ _ En H) as (j & m & H1 & H2 & _). exists j. split; auto. eapply nth_lt; eauto. }
  assert (G : forall (ls : list (link A)) t k g0, (forall l, In l ls -> exists j, lref l = Some j /\ j < N) -> same_links g g0 ->
    exists g1, foldM (fun '(tot, k, g) l => do j <- deref (lref l); do (d, g) <- NodeDegree g j; Ok (tot + d, k + 1, g)) (t, k, g0) ls = Ok (t + lsum (degree g) (targets ls), k + length (targets ls), g1) /\ same_links g g1).
  { induction ls as [|x ls IH]; intros t k g0 H S0; cbn [foldM].
    - exists g0. split; auto. cbn. now rewrite !Nat.add_0_r.
    - destruct (H x) as (j & Ex & Hj); [left; auto|]. rewrite Ex. cbn [deref bind]. destruct (degree_step j g0 Hj S0) as (g1 & E1 & S1). rewrite E1. cbn [bind].
      destruct (IH (t + degree g j) (k + 1) g1) as (g2 & E2 & S2); auto; [intros; apply H; right; auto|]. exists g2. split; auto. rewrite E2. cbn [targets flat_map]. rewrite Ex. cbn [app lsum length]. unfold targets. rewrite <- !Nat.add_assoc. reflexivity. }
  destruct (G (gadj n) 0 0 g LK (same_links_refl g W)) as (g1 & E1 & S1). rewrite E1. cbn [bind Nat.add]. exists g1. split; auto. assert (Ed : degree g i = length (targets (gadj n))) by (unfold degree; now rewrite Eb). now rewrite Ed, Eb.
Qed.

(** The three sums over links. *)
Definition link_sum (f : nat -> nat -> nat) (k : nat) : nat := lsum (fun i => lsum (fun j => f (degree g i) (degree g j)) (nbrs g i)) (seq 0 k).
Theorem assort_raw : exists g', Assortativity g = Ok (
    let M := lsum (degree g) (seq 0 N) in
    let mu := ndiv (nofnat (link_sum (fun x y => x + y) N)) (nofnat (2 * M)) in
    ndiv (nsub (ndiv (nofnat (link_sum (fun x y => x * y) N)) (nofnat M)) (nmul mu mu)) (nsub (ndiv (nofnat (link_sum (fun x y => x * x + y * y) N)) (nofnat (2 * M))) (nmul mu mu)), g') /\ same_links g g'.
Proof.
  unfold Assortativity, CountNodes.
  set (I := fun k (st : list nat * nat * net A) => let '(deg, M, g1) := st in same_links g g1 /\ deg = tab N (fun x => if x <? k then degree g x else 0) /\ M = lsum (degree g) (seq 0 k)).
  match goal with |- context [foldM ?f ?s (seq 0 N)] => destruct (foldM_seq I f N s) as (((deg & M) & g1) & E & S1 & -> & ->) end.
  - split; [now apply same_links_refl|]. split; [apply tab_repeat|reflexivity].
  - intros i ((deg & M) & g0) Hi (S0 & -> & ->). pose proof S0 as (W0 & _). destruct (nth_ex g0 i) as [n En]; [now rewrite (sl_length _ S0)|]. rewrite (get_ok _ _ _ En). cbn [bind].
    destruct (degree_step i g0 Hi S0) as (g1 & E1 & S1). rewrite E1. cbn [bind]. rewrite (wf_num g0 W0 _ _ En), tab_set by auto. cbn [bind]. eexists. split; [reflexivity|]. split; auto. split.
    + apply tab_ext. intros x Hx. destruct (Nat.eqb_spec x i) as [->|]; [now rewrite (proj2 (Nat.ltb_lt i (i + 1))) by lia|]. destruct (Nat.ltb_spec x i), (Nat.ltb_spec x (i + 1)); auto; lia.
    + rewrite seq_app, lsum_app. cbn. lia.
  - match goal with |- context [foldM ?f ?s (seq 0 N)] => replace (foldM f s (seq 0 N)) with (Ok (tab N (fun x => if x <? N then degree g x else 0), lsum (degree g) (seq 0 N), g1)) by (symmetry; exact E) end. cbn [bind]. pose proof S1 as (W1 & _ & Nb & _). pose proof (sl_length _ S1) as L1.
    assert (ET : tab N (fun x => if x <? N then degree g x else 0) = tab N (degree g)) by (apply tab_ext; intros x Hx; now rewrite (proj2 (Nat.ltb_lt _ _) Hx)). rewrite ET.
    set (J := fun (done : list (gnode A)) (st : nat * nat * nat) => st = (link_sum (fun x y => x * y) (length done), link_sum (fun x y => x + y) (length done), link_sum (fun x y => x * x + y * y) (length done))).
    match goal with |- context [foldM ?f ?s g1] => destruct (foldM_inv J f g1 s) as (st & EJ & HJ) end.
    + reflexivity.
    + intros done x rest st Hg ->. set (i := length done). assert (Hx : nth_error g1 i = Some x) by (rewrite Hg, nth_error_app2 by (unfold i; lia); unfold i; now rewrite Nat.sub_diag).
      assert (Hi : i < N) by (rewrite <- L1; eapply nth_lt; eauto). assert (Eb : nbrs g i = targets (gadj x)) by (rewrite <- Nb; unfold nbrs; now rewrite Hx).
      assert (LK : forall l, In l (gadj x) -> exists j m, lref l = Some j /\ nth_error g1 j = Some m /\ gnum m = j). { intros l H. destruct (wf_link g1 W1 _ _ _ Hx H) as (j & m & H1 & H2 & _). exists j, m. splits; auto. eapply wf_num; eauto. }
      assert (G : forall (ls : list (link A)) a b c, (forall l, In l ls -> exists j m, lref l = Some j /\ nth_error g1 j = Some m /\ gnum m = j) ->
        foldM (fun '(jk, jpk, j2pk2) l => do j <- deref (lref l); do m <- get g1 j; do y <- get (tab N (degree g)) (gnum m); Ok (jk + degree g i * y, jpk + (degree g i + y), j2pk2 + (degree g i * degree g i + y * y))) (a, b, c) ls =
        Ok (a + lsum (fun j => degree g i * degree g j) (targets ls), b + lsum (fun j => degree g i + degree g j) (targets ls), c + lsum (fun j => degree g i * degree g i + degree g j * degree g j) (targets ls))).
      { induction ls as [|y ls IH]; intros a b c H; cbn [foldM]; [f_equal; cbn; f_equal; [f_equal|]; lia|]. destruct (H y) as (j & m & Ey & Em & Nm); [left; auto|]. rewrite Ey. cbn [deref bind]. rewrite (get_ok _ _ _ Em). cbn [bind].
        rewrite Nm. rewrite tab_get by (rewrite <- L1; eapply nth_lt; eauto). cbn [bind]. rewrite IH by (intros; apply H; right; auto).
        cbn [targets flat_map]. rewrite Ey. cbn [app lsum]. unfold targets. f_equal. f_equal; [f_equal|]; lia. }
      rewrite (wf_num g1 W1 _ _ Hx), (tab_get N (degree g) i Hi). cbn [bind]. rewrite G by auto. eexists. split; [reflexivity|]. unfold J. rewrite app_length. cbn [length]. fold i. unfold link_sum. rewrite !seq_app, !lsum_app. cbn [seq lsum Nat.add]. rewrite Eb. f_equal; [f_equal|]; lia.
    + rewrite EJ. cbn [bind]. rewrite HJ. cbn [bind]. rewrite L1. exists g1. split; auto.
Qed.
End Any.

Section Exact.
Variables ex sq : Qc -> Qc.
#[local] Instance opsA : NumOps Qc := Qc_ops ex sq.
Variable g : net Qc.
Hypothesis W : wf_net g.
Notation N := (length g).

Theorem average_degree_spec sym : (sym = true -> undirected g) -> exists g', AverageDegree g sym = Ok ((Qsum (fun i => Qc_of_nat (degree g i)) (seq 0 N) / Qc_of_nat N)%Qc, g') /\ same_links g g'.
Proof.
  intros HU. unfold AverageDegree. destruct (TotalNLinks_spec g sym W) as (g' & E & S1). rewrite E. cbn [bind]. exists g'. split; auto. unfold CountNodes. rewrite (sl_length g g' S1).
  assert (T : (if sym then 2 * (if sym then sum_deg g / 2 else sum_deg g) else (if sym then sum_deg g / 2 else sum_deg g)) = lsum (degree g) (seq 0 N)).
  { rewrite <- sum_deg_lsum. destruct sym; auto. rewrite (handshake g (HU eq_refl)), Nat.mul_comm, (Nat.mul_comm 2), Nat.div_mul by lia. lia. }
  rewrite T. f_equal. f_equal. cbn. f_equal. clear. induction (seq 0 N) as [|x l IH]; [reflexivity|]. cbn [lsum Qsum fold_right]. rewrite Qc_of_nat_add, IH. reflexivity.
Qed.
Theorem knn_spec i : i < N -> 0 < degree g i -> exists g', CalculateKnn g i = Ok ((Qsum (fun j => Qc_of_nat (degree g j)) (nbrs g i) / Qc_of_nat (degree g i))%Qc, g') /\ same_links g g'.
Proof.
  intros Hi Hd. destruct (knn_raw g W i Hi) as (g' & E & S1). exists g'. split; auto. rewrite E. f_equal. f_equal. cbn. f_equal.
  clear. induction (nbrs g i) as [|x l IH]; [reflexivity|]. cbn [lsum Qsum fold_right]. rewrite Qc_of_nat_add, IH. reflexivity.
Qed.

(** ** The list of pairs *)
Definition pairs : list (nat * nat) := flat_map (fun i => map (fun j => (degree g i, degree g j)) (nbrs g i)) (seq 0 N).
Lemma end_sum f : Qsum f (end_degrees g) = Qsum (fun p => f (Qc_of_nat (fst p), Qc_of_nat (snd p)) + f (Qc_of_nat (snd p), Qc_of_nat (fst p)))%Qc pairs.
Proof.
  unfold end_degrees, pairs. rewrite !Qsum_flat. apply Qsum_ext. intros i _. rewrite Qsum_flat, Qsum_map. apply Qsum_ext. intros j _. cbn. ring.
Qed.
Lemma end_length : length (end_degrees g) = 2 * lsum (degree g) (seq 0 N).
Proof.
  unfold end_degrees. rewrite length_flat, <- lsum_scal. apply lsum_ext. intros i _. rewrite length_flat. cbn [length]. rewrite lsum_const. unfold degree. lia.
Qed.
Lemma link_sum_Q f : Qc_of_nat (link_sum g f N) = Qsum (fun p => Qc_of_nat (f (fst p) (snd p))) pairs.
Proof.
  unfold link_sum, pairs. rewrite Qsum_flat. induction (seq 0 N) as [|i l IH]; [reflexivity|]. cbn [lsum Qsum fold_right]. rewrite Qc_of_nat_add, IH. f_equal.
  rewrite Qsum_map. induction (nbrs g i) as [|j m IH']; [reflexivity|]. cbn [lsum Qsum fold_right fst snd]. now rewrite Qc_of_nat_add, IH'.
Qed.

Lemma avg_dev (f h : Qc * Qc -> Qc) l : l <> [] -> avg (fun p => (f p - avg f l) * (h p - avg h l))%Qc l = (avg (fun p => f p * h p) l - avg f l * avg h l)%Qc.
Proof.
  intros Hl. assert (Hn : Qc_of_nat (length l) <> 0%Qc) by (apply Qc_neq_pos, Qc_of_nat_pos; destruct l; [congruence|cbn; lia]).
  assert (G : forall a b m, Qsum (fun p => (f p - a) * (h p - b))%Qc m = (Qsum (fun p => f p * h p) m - a * Qsum h m - b * Qsum f m + a * b * Qc_of_nat (length m))%Qc).
  { clear. intros a b. induction m as [|p m IH]; [cbn [Qsum fold_right length]; rewrite Qc_of_nat_0; ring|]. cbn [Qsum fold_right length]. rewrite Qc_of_nat_S. unfold Qsum in *. rewrite IH. ring. }
  unfold avg at 1. rewrite G. unfold avg. field. auto.
Qed.
Hypothesis HL : exists i, i < N /\ 0 < degree g i.
Lemma end_pos : 0 < lsum (degree g) (seq 0 N).
Proof. destruct HL as (i & Hi & Hd). assert (Hin : In i (seq 0 N)) by (apply in_seq; lia). apply in_split in Hin as (a & b & ->). rewrite lsum_app. cbn [lsum]. lia. Qed.
Lemma end_ne : end_degrees g <> [].
Proof. intros E. pose proof end_length as L. rewrite E in L. pose proof end_pos. cbn in L. lia. Qed.
Lemma end_avg : avg snd (end_degrees g) = avg fst (end_degrees g).
Proof. unfold avg. rewrite !end_sum. f_equal. apply Qsum_ext. intros p _. cbn [fst snd]. ring. Qed.
Theorem assort_spec : exists g', Assortativity g = Ok (correlation (end_degrees g), g') /\ same_links g g'.
Proof.
  destruct (assort_raw g W) as (g' & E & S1). exists g'. split; auto. rewrite E. f_equal. f_equal. cbv zeta. unfold correlation, covariance, variance_fst.
  rewrite !avg_dev by apply end_ne. rewrite end_avg. set (M := lsum (degree g) (seq 0 N)).
  assert (Hmu : ndiv (nofnat (link_sum g (fun x y => x + y) N)) (nofnat (2 * M)) = avg fst (end_degrees g)).
  { cbn. unfold avg. rewrite end_length, end_sum. fold M. f_equal. rewrite link_sum_Q. apply Qsum_ext. intros p _. cbn [fst snd]. apply Qc_of_nat_add. }
  assert (Hxy : ndiv (nofnat (link_sum g (fun x y => x * y) N)) (nofnat M) = avg (fun p => fst p * snd p)%Qc (end_degrees g)).
  { cbn. unfold avg. rewrite end_length, end_sum. fold M. rewrite link_sum_Q. cbn [fst snd].
    assert (E2 : Qsum (fun p : nat * nat => Qc_of_nat (fst p) * Qc_of_nat (snd p) + Qc_of_nat (snd p) * Qc_of_nat (fst p))%Qc pairs = (Qc_of_nat 2 * Qsum (fun p => Qc_of_nat (fst p * snd p)) pairs)%Qc).
    { rewrite <- Qsum_scal. apply Qsum_ext. intros p _. rewrite Qc_of_nat_2, Qc_of_nat_mul. ring. }
    rewrite E2, Qc_of_nat_mul. assert (Qc_of_nat M <> 0%Qc) by (apply Qc_neq_pos, Qc_of_nat_pos, end_pos). assert (Qc_of_nat 2 <> 0%Qc) by (apply Qc_neq_pos, Qc_of_nat_pos; lia). field. auto. }
  assert (Hxx : ndiv (nofnat (link_sum g (fun x y => x * x + y * y) N)) (nofnat (2 * M)) = avg (fun p => fst p * fst p)%Qc (end_degrees g)).
  { cbn. unfold avg. rewrite end_length, end_sum. fold M. f_equal. rewrite link_sum_Q. apply Qsum_ext. intros p _. cbn [fst snd]. now rewrite Qc_of_nat_add, !Qc_of_nat_mul. }
  rewrite Hmu, Hxy, Hxx. reflexivity.
Qed.
Lemma dev_sum : let mu := avg fst (end_degrees g) in
  (Qc_of_nat (length (end_degrees g)) * variance_fst (end_degrees g) = Qsum (fun p => (Qc_of_nat (fst p) - mu) * (Qc_of_nat (fst p) - mu) + (Qc_of_nat (snd p) - mu) * (Qc_of_nat (snd p) - mu)) pairs /\
   Qc_of_nat (length (end_degrees g)) * covariance (end_degrees g) = Qsum (fun p => (Qc_of_nat (fst p) - mu) * (Qc_of_nat (snd p) - mu) + (Qc_of_nat (snd p) - mu) * (Qc_of_nat (fst p) - mu)) pairs)%Qc.
Proof.
  intros mu. assert (Hn : Qc_of_nat (length (end_degrees g)) <> 0%Qc) by (apply Qc_neq_pos, Qc_of_nat_pos; rewrite end_length; pose proof end_pos; lia).
  unfold variance_fst, covariance. rewrite end_avg. fold mu. unfold avg at 1 2. rewrite !Qcmult_div_r by auto. split; apply end_sum.
Qed.
Theorem assort_bounds : variance_fst (end_degrees g) <> 0%Qc -> (- (1) <= correlation (end_degrees g) /\ correlation (end_degrees g) <= 1)%Qc.
Proof.
  intros HV. destruct dev_sum as [DV DC]. set (mu := avg fst (end_degrees g)) in *. set (n := Qc_of_nat (length (end_degrees g))) in *.
  assert (Hn : (0 < n)%Qc) by (apply Qc_of_nat_pos; rewrite end_length; pose proof end_pos; lia).
  assert (P0 : (0 <= n * variance_fst (end_degrees g))%Qc). { rewrite DV. apply Qsum_nonneg. intros p _. apply Qc_le_add; apply Qc_sq_nonneg. }
  assert (P1 : (0 <= n * variance_fst (end_degrees g) - n * covariance (end_degrees g))%Qc).
  { rewrite DV, DC, <- Qsum_sub. apply Qsum_nonneg. intros p _. match goal with |- (0 <= ?x)%Qc => replace x with ((Qc_of_nat (fst p) - Qc_of_nat (snd p)) * (Qc_of_nat (fst p) - Qc_of_nat (snd p)))%Qc by ring end. apply Qc_sq_nonneg. }
  assert (P2 : (0 <= n * variance_fst (end_degrees g) + n * covariance (end_degrees g))%Qc).
  { rewrite DV, DC, <- Qsum_add. apply Qsum_nonneg. intros p _. match goal with |- (0 <= ?x)%Qc => replace x with ((Qc_of_nat (fst p) + Qc_of_nat (snd p) - (mu + mu)) * (Qc_of_nat (fst p) + Qc_of_nat (snd p) - (mu + mu)))%Qc by ring end. apply Qc_sq_nonneg. }
  assert (D : forall x, (0 <= n * x -> 0 <= x)%Qc). { intros x Hx. apply (Qcmult_lt_0_le_reg_r _ _ n); auto. now rewrite Qcmult_0_l, Qcmult_comm. }
  assert (V0 : (0 < variance_fst (end_degrees g))%Qc). { destruct (Qcle_lt_or_eq _ _ (D _ P0)); auto. congruence. }
  unfold correlation. split.
  - apply (Qcmult_lt_0_le_reg_r _ _ (variance_fst (end_degrees g))); auto. unfold Qcdiv. rewrite <- Qcmult_assoc, Qcmult_inv_l, Qcmult_1_r by auto. apply Qc_le_sub. apply D.
    match goal with |- (0 <= ?x)%Qc => replace x with (n * variance_fst (end_degrees g) + n * covariance (end_degrees g))%Qc by ring end. exact P2.
  - apply Qc_div_le_1; auto. apply Qc_le_sub. apply D. match goal with |- (0 <= ?x)%Qc => replace x with (n * variance_fst (end_degrees g) - n * covariance (end_degrees g))%Qc by ring end. exact P1.
Qed.
(** The variance vanishes exactly when all linked nodes have the same degree. *)
Theorem variance_zero : variance_fst (end_degrees g) = 0%Qc <-> (forall i j i' j', i < N -> i' < N -> In j (nbrs g i) -> In j' (nbrs g i') -> degree g i = degree g i' /\ degree g i = degree g j').
Proof.
  destruct dev_sum as [DV _]. set (mu := avg fst (end_degrees g)) in *. set (n := Qc_of_nat (length (end_degrees g))) in *.
  assert (Hn : (0 < n)%Qc) by (apply Qc_of_nat_pos; rewrite end_length; pose proof end_pos; lia).
  assert (IP : forall i j, i < N -> In j (nbrs g i) -> In (degree g i, degree g j) pairs). { intros i j Hi Hj. apply in_flat_map. exists i. split; [apply in_seq; lia|]. apply in_map_iff. eauto. }
  split.
  - intros E i j i' j' Hi Hi' Hj Hj'. rewrite E, Qcmult_0_r in DV. symmetry in DV.
    assert (Z : forall x, In x pairs -> Qc_of_nat (fst x) = mu /\ Qc_of_nat (snd x) = mu).
    { intros x Hx. assert (NN : forall y, In y pairs -> (0 <= (Qc_of_nat (fst y) - mu) * (Qc_of_nat (fst y) - mu) + (Qc_of_nat (snd y) - mu) * (Qc_of_nat (snd y) - mu))%Qc) by (intros; apply Qc_le_add; apply Qc_sq_nonneg).
      pose proof (Qsum_zero_inv _ _ NN DV x Hx) as Z. cbv beta in Z.
      assert (S0 : forall a b : Qc, (a * a + b * b = 0 -> a = 0)%Qc). { intros a b H. destruct (Qc_eq_dec a 0) as [|Ha]; auto. exfalso. pose proof (Qc_sq_nonneg a) as A1. pose proof (Qc_sq_nonneg b) as B1. apply Qcle_lt_or_eq in A1 as [A1|A1]; [pose proof (Qc_lt_add _ _ A1 B1) as C; rewrite H in C; apply Qclt_not_eq in C; auto|]. symmetry in A1. apply Qcmult_integral in A1 as [|]; auto. }
      split; [pose proof (S0 _ _ Z) as R|rewrite Qcplus_comm in Z; pose proof (S0 _ _ Z) as R].
      - replace (Qc_of_nat (fst x)) with (Qc_of_nat (fst x) - mu + mu)%Qc by ring. rewrite R. ring.
      - replace (Qc_of_nat (snd x)) with (Qc_of_nat (snd x) - mu + mu)%Qc by ring. rewrite R. ring. }
    destruct (Z _ (IP i j Hi Hj)) as [Z1 _]. destruct (Z _ (IP i' j' Hi' Hj')) as [Z2 Z3]. cbn [fst snd] in *. split; apply Qc_of_nat_inj; congruence.
  - intros H. destruct HL as (i0 & Hi0 & Hd0). unfold degree in Hd0. destruct (nbrs g i0) as [|j0 l0] eqn:E0; [cbn in Hd0; lia|]. assert (Hj0 : In j0 (nbrs g i0)) by (rewrite E0; left; auto).
    set (d := degree g i0). assert (Z : forall x, In x pairs -> fst x = d /\ snd x = d). { intros x Hx. apply in_flat_map in Hx as (i & Hi & Hx). apply in_seq in Hi. apply in_map_iff in Hx as (j & <- & Hj). cbn [fst snd]. destruct (H i0 j0 i j Hi0 ltac:(lia) Hj0 Hj). split; auto. }
    assert (Hmu : mu = Qc_of_nat d).
    { unfold mu, avg. rewrite end_sum. cbn [fst snd]. assert (E : Qsum (fun p : nat * nat => (Qc_of_nat (fst p) + Qc_of_nat (snd p))%Qc) pairs = (Qc_of_nat d * Qc_of_nat (length (end_degrees g)))%Qc).
      - transitivity (Qsum (fun _ => Qc_of_nat 2 * Qc_of_nat d)%Qc pairs). { apply Qsum_ext. intros x Hx. destruct (Z x Hx) as [-> ->]. rewrite Qc_of_nat_2. ring. }
        rewrite Qsum_const. assert (L : length (end_degrees g) = 2 * length pairs). { rewrite end_length. f_equal. unfold pairs. rewrite length_flat. apply lsum_ext. intros i _. now rewrite map_length. } rewrite L, Qc_of_nat_mul. ring.
      - rewrite E. fold n. field. now apply Qc_neq_pos. }
    assert (E : (n * variance_fst (end_degrees g) = 0)%Qc). { rewrite DV. apply Qsum_0. intros x Hx. destruct (Z x Hx) as [-> ->]. rewrite Hmu. ring. }
    apply Qcmult_integral in E as [E|]; auto. exfalso. revert E. now apply Qc_neq_pos.
Qed.
End Exact.

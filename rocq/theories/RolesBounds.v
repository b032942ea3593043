(** RolesBounds.v -- consequences: bounds on participation, z-score sums, role boxes. *)
From Coq Require Import List Arith Lia Bool QArith Qcanon.
From Verif Require Import Base Num ListLib QcSum PartModel PartSpec AdjSpec ModSpec PartInv EnergyForm ExactProof RolesProof.
Import ListNotations.
Local Open Scope nat_scope.
Local Open Scope Qc_scope.

(** ** Order facts *)
Lemma Qcmult_le_0_compat (x y : Qc) : 0 <= x -> 0 <= y -> 0 <= x * y.
Proof. intros H1 H2. replace 0 with (0 * y) by ring. apply Qcmult_le_compat_r; auto. Qed.
Lemma Qc_sq_nonneg (x : Qc) : 0 <= x * x.
Proof.
  destruct (Qclt_le_dec x 0) as [H|H].
  - replace (x * x) with ((0 + - x) * (0 + - x)) by ring.
    apply Qcmult_le_0_compat; apply -> Qcle_minus_iff; apply Qclt_le_weak; auto.
  - apply Qcmult_le_0_compat; auto.
Qed.
Lemma Qc_le_sub x y : 0 <= y - x -> x <= y.
Proof. intros H. apply Qcle_minus_iff. exact H. Qed.
Lemma Qc_sub_le x y : x <= y -> 0 <= y - x.
Proof. intros H. apply Qcle_minus_iff in H. exact H. Qed.
Lemma Qc_le_add a b : 0 <= a -> 0 <= b -> 0 <= a + b.
Proof. intros. replace 0 with (0 + 0) by ring. apply Qcplus_le_compat; auto. Qed.
Lemma Qc_lt_add a b : 0 < a -> 0 <= b -> 0 < a + b.
Proof.
  intros H1 H2. eapply Qclt_le_trans; [exact H1|]. apply Qc_le_sub. replace (a + b - a) with b by ring. auto.
Qed.
Lemma Qc_mul_pos a b : 0 < a -> 0 < b -> 0 < a * b.
Proof. intros H1 H2. replace 0 with (0 * b) by ring. apply Qcmult_lt_compat_r; auto. Qed.
Lemma Qc_div_le_1 t s : 0 < s -> t <= s -> t / s <= 1.
Proof.
  intros Hs H. apply (Qcmult_lt_0_le_reg_r _ _ s); auto. unfold Qcdiv. rewrite <- Qcmult_assoc, (Qcmult_comm (/ s)), Qcmult_inv_r.
  - now rewrite Qcmult_1_r, Qcmult_1_l.
  - intros E. rewrite E in Hs. apply Qclt_not_eq in Hs. congruence.
Qed.
Lemma Qc_neq_pos s : 0 < s -> s <> 0.
Proof. intros H E. rewrite E in H. apply Qclt_not_eq in H. congruence. Qed.
Lemma Qsum_zero_inv {X} (f : X -> Qc) l : (forall x, In x l -> 0 <= f x) -> Qsum f l = 0 -> forall x, In x l -> f x = 0.
Proof.
  induction l as [|y l IH]; intros H E x []; cbn [Qsum] in E.
  - subst y. apply Qcle_antisym; [|apply H; simpl; auto]. rewrite <- E.
    apply Qc_le_sub. replace (f x + Qsum f l - f x) with (Qsum f l) by ring. apply Qsum_nonneg. intros; apply H; simpl; auto.
  - apply IH; auto. intros; apply H; simpl; auto.
    assert (0 <= f y) by (apply H; simpl; auto). assert (0 <= Qsum f l) by (apply Qsum_nonneg; intros; apply H; simpl; auto).
    apply Qcle_antisym; auto. rewrite <- E. apply Qc_le_sub. replace (f y + Qsum f l - Qsum f l) with (f y) by ring. auto.
Qed.
Lemma Qsum_pos_mem {X} (f : X -> Qc) l x : (forall y, In y l -> 0 <= f y) -> In x l -> f x <= Qsum f l.
Proof.
  induction l as [|y l IH]; intros H []; cbn [Qsum].
  - subst. apply Qc_le_sub. replace (f x + Qsum f l - f x) with (Qsum f l) by ring. apply Qsum_nonneg. intros; apply H; simpl; auto.
  - eapply Qcle_trans; [apply IH; auto; intros; apply H; simpl; auto|]. apply Qc_le_sub.
    replace (f y + Qsum f l - Qsum f l) with (f y) by ring. apply H; simpl; auto.
Qed.

(** Sum of squares against square of the sum. *)
Lemma sum_sq_le {X} (f : X -> Qc) l : (forall x, In x l -> 0 <= f x) ->
  Qsum (fun x => f x * f x) l <= Qsum f l * Qsum f l.
Proof.
  intros H. apply Qc_le_sub.
  replace (Qsum f l * Qsum f l - Qsum (fun x => f x * f x) l) with (Qsum (fun x => f x * (Qsum f l - f x)) l).
  - apply Qsum_nonneg. intros x Hx. apply Qcmult_le_0_compat; auto. apply Qc_sub_le. apply Qsum_pos_mem; auto.
  - rewrite (Qsum_ext _ (fun x => f x * Qsum f l - f x * f x)) by (intros; ring). rewrite Qsum_sub, Qsum_scal_r. ring.
Qed.

Lemma cauchy {X} (f : X -> Qc) l : Qsum f l * Qsum f l <= Qc_of_nat (length l) * Qsum (fun x => f x * f x) l.
Proof.
  destruct l as [|y l']; [cbn; apply Qcle_refl|]. set (l := y :: l') in *.
  set (n := Qc_of_nat (length l)). set (S := Qsum f l). set (T := Qsum (fun x => f x * f x) l).
  assert (Hn : 0 < n) by (apply Qc_of_nat_pos; simpl; lia).
  assert (H : 0 <= Qsum (fun x => (n * f x - S) * (n * f x - S)) l).
  { apply Qsum_nonneg. intros; apply Qc_sq_nonneg. }
  replace (Qsum (fun x => (n * f x - S) * (n * f x - S)) l) with (n * (n * T - S * S)) in H.
  - apply Qc_le_sub. apply (Qcmult_lt_0_le_reg_r _ _ n); auto. rewrite Qcmult_0_l, Qcmult_comm. auto.
  - rewrite (Qsum_ext _ (fun x => (n * n) * (f x * f x) - ((1 + 1) * n * S) * f x + S * S)) by (intros; ring).
    rewrite Qsum_add, Qsum_sub, !Qsum_scal, Qsum_const. fold n S T. ring.
Qed.

Section Bounds.
Variables ex sq : Qc -> Qc.
#[local] Instance opsB : NumOps Qc := Qc_ops ex sq.
Implicit Types p : partition Qc.

Definition positive_row (adj : adja Qc) i : Prop := forall j w, In (j, w) (row adj i) -> 0 < w.

Lemma to_module_nonneg p adj i m : positive_row adj i -> 0 <= to_module p adj i m.
Proof.
  intros H. apply Qsum_nonneg. intros [j w] Hin. cbn [fst snd]. destruct (group p j) as [g|]; [|apply Qcle_refl].
  destruct (Nat.eqb g m); [|apply Qcle_refl]. apply Qclt_le_weak. eapply H; eauto.
Qed.

Lemma out_strength_pos adj i : positive_row adj i -> row adj i <> [] -> 0 < out_strength adj i.
Proof.
  unfold out_strength, positive_row. destruct (row adj i) as [|[j w] l]; [congruence|]. intros H _. cbn [Qsum snd].
  apply Qc_lt_add. eapply H; left; auto. apply Qsum_nonneg. intros [j' w'] Hin. apply Qclt_le_weak. eapply H; right; eauto.
Qed.

Theorem participation_bounds p ls adj i : WF p ls -> adj_ok adj (pN p) -> (i < pN p)%nat -> positive_row adj i ->
  0 <= participation_value p adj i 0 /\ participation_value p adj i 0 <= 1 - 1 / Qc_of_nat (pM p).
Proof.
  intros W HA Hi HP. unfold participation_value.
  assert (HM : (0 < pM p)%nat). { destruct (wf_node _ _ _ W Hi) as (nd & En & _). pose proof (wf_range _ _ W _ _ En). lia. }
  assert (HMq : 0 < Qc_of_nat (pM p)) by (apply Qc_of_nat_pos; auto).
  destruct (Nat.eqb_spec (length (row adj i)) 0) as [Hz|Hz].
  - split; [apply Qcle_refl|]. apply Qc_sub_le. apply Qc_div_le_1; auto.
    change 1 with (Qc_of_nat 1). apply Qc_of_nat_le. lia.
  - assert (Hne : row adj i <> []) by (intros E; rewrite E in Hz; auto).
    pose proof (out_strength_pos adj i HP Hne) as HS. set (S := out_strength adj i) in *.
    assert (HSS : 0 < S * S) by (apply Qc_mul_pos; auto).
    pose proof (to_module_total p ls adj i W HA) as ES. fold S in ES.
    pose proof (sum_sq_le (to_module p adj i) (seq 0 (pM p)) (fun m _ => to_module_nonneg p adj i m HP)) as H1.
    pose proof (cauchy (to_module p adj i) (seq 0 (pM p))) as H2. rewrite seq_length in H2. rewrite ES in H1, H2.
    rewrite Qcplus_0_l. set (T := Qsum (fun m => to_module p adj i m * to_module p adj i m) (seq 0 (pM p))) in *. split.
    + apply Qc_sub_le. apply Qc_div_le_1; auto.
    + apply Qc_le_sub. replace (1 - 1 / Qc_of_nat (pM p) - (1 - T / (S * S))) with (T / (S * S) - 1 / Qc_of_nat (pM p)) by ring.
      apply Qc_sub_le. apply (Qcmult_lt_0_le_reg_r _ _ (S * S)); auto.
      apply (Qcmult_lt_0_le_reg_r _ _ (Qc_of_nat (pM p))); auto.
      replace (1 / Qc_of_nat (pM p) * (S * S) * Qc_of_nat (pM p)) with (S * S) by (field; apply Qc_neq_pos; auto).
      replace (T / (S * S) * (S * S) * Qc_of_nat (pM p)) with (Qc_of_nat (pM p) * T); auto.
      field. apply Qc_neq_pos; auto.
Qed.

(** All links of a node end in one module. *)
Definition one_module p (adj : adja Qc) i : Prop := exists m, forall j w, In (j, w) (row adj i) -> group p j = Some m.

Theorem participation_zero p ls adj i : WF p ls -> adj_ok adj (pN p) -> (i < pN p)%nat -> positive_row adj i ->
  participation_value p adj i 0 = 0 <-> one_module p adj i.
Proof.
  intros W HA Hi HP. unfold participation_value.
  destruct (Nat.eqb_spec (length (row adj i)) 0) as [Hz|Hz].
  { apply length_zero_iff_nil in Hz. split; auto. intros _. exists 0%nat. rewrite Hz. intros j w []. }
  assert (Hne : row adj i <> []) by (intros E; rewrite E in Hz; auto).
  pose proof (out_strength_pos adj i HP Hne) as HS. pose proof (to_module_total p ls adj i W HA) as ES.
  set (S := out_strength adj i) in *. set (K := to_module p adj i) in *.
  assert (HSn : S <> 0) by (apply Qc_neq_pos; auto).
  assert (HK : forall m, 0 <= K m) by (intros; apply to_module_nonneg; auto).
  assert (Hg : forall j w, In (j, w) (row adj i) -> group p j = Some (gof p j) /\ (gof p j < pM p)%nat).
  { intros j w Hin. destruct (row_lt _ _ _ _ _ HA Hin) as [Hj _]. split; [apply (group_gof p ls); auto|].
    destruct (wf_node _ _ _ W Hj) as (nj & Enj & _). rewrite (gof_node _ _ _ Enj). apply (wf_range _ _ W _ _ Enj). }
  rewrite Qcplus_0_l. set (T := Qsum (fun m => K m * K m) (seq 0 (pM p))).
  assert (HT : 1 - T / (S * S) = 0 <-> T = S * S).
  { split; intros E.
    - replace T with ((1 - (1 - T / (S * S))) * (S * S)) by (field; auto). rewrite E. ring.
    - rewrite E. field. auto. }
  rewrite HT. split.
  - intros E. assert (E0 : Qsum (fun m => K m * (S - K m)) (seq 0 (pM p)) = 0).
    { rewrite (Qsum_ext _ (fun m => S * K m - K m * K m)) by (intros; ring). rewrite Qsum_sub, Qsum_scal, ES. fold T. rewrite E. ring. }
    assert (Hle : forall m, (m < pM p)%nat -> K m <= S).
    { intros m Hm. rewrite <- ES. apply Qsum_pos_mem; auto. apply in_seq; lia. }
    assert (Hnn : forall m, In m (seq 0 (pM p)) -> 0 <= K m * (S - K m)).
    { intros m Hm. apply in_seq in Hm. apply Qcmult_le_0_compat; auto. apply Qc_sub_le. apply Hle. lia. }
    pose proof (Qsum_zero_inv _ _ Hnn E0) as Hall.
    destruct (row adj i) as [|[j0 w0] l] eqn:Er; [congruence|].
    assert (Hin0 : In (j0, w0) (row adj i)) by (rewrite Er; left; auto).
    rewrite <- Er in *. destruct (Hg j0 w0 Hin0) as [Hg0 Hm0]. set (m0 := gof p j0) in *.
    assert (Hpos0 : 0 < K m0).
    { eapply Qclt_le_trans; [apply (HP j0 w0); auto|]. unfold K. rewrite (to_module_gof p ls adj i m0 W HA).
      replace w0 with ((fun x : nat * Qc => if Nat.eqb (gof p (fst x)) m0 then snd x else 0) (j0, w0)) at 1
        by (cbn [fst snd]; unfold m0; now rewrite Nat.eqb_refl).
      apply (Qsum_pos_mem (fun x : nat * Qc => if Nat.eqb (gof p (fst x)) m0 then snd x else 0)); auto.
      intros [j w] Hin. cbn [fst snd]. destruct (Nat.eqb (gof p j) m0); [|apply Qcle_refl]. apply Qclt_le_weak; eapply HP; eauto. }
    specialize (Hall m0 ltac:(apply in_seq; lia)). cbn beta in Hall. apply Qcmult_integral in Hall as [Hall|Hall].
    { apply Qc_neq_pos in Hpos0. congruence. }
    exists m0. intros j w Hin. destruct (Hg j w Hin) as [Hgj Hmj]. rewrite Hgj. f_equal.
    destruct (Nat.eq_dec (gof p j) m0) as [|Hne']; auto. exfalso.
    (* K m0 = S leaves no weight for other modules *)
    assert (E1 : Qsum (fun x : nat * Qc => if Nat.eqb (gof p (fst x)) m0 then 0 else snd x) (row adj i) = 0).
    { transitivity (S - K m0); auto. unfold S, out_strength, K. rewrite (to_module_gof p ls adj i m0 W HA), <- Qsum_sub.
      apply Qsum_ext. intros [j' w'] _. cbn [fst snd]. destruct (Nat.eqb (gof p j') m0); ring. }
    assert (E2 : forall x, In x (row adj i) -> 0 <= (if Nat.eqb (gof p (fst x)) m0 then 0 else snd x)).
    { intros [j' w'] Hin'. cbn [fst snd]. destruct (Nat.eqb (gof p j') m0); [apply Qcle_refl|]. apply Qclt_le_weak; eapply HP; eauto. }
    specialize (Qsum_zero_inv _ _ E2 E1 (j, w) Hin) as Ew. cbn [fst snd] in Ew.
    rewrite (proj2 (Nat.eqb_neq _ _) Hne') in Ew. apply HP in Hin. apply Qc_neq_pos in Hin. congruence.
  - intros [m0 H]. assert (Hm0 : (m0 < pM p)%nat).
    { destruct (row adj i) as [|[j0 w0] l] eqn:Er; [congruence|]. destruct (Hg j0 w0) as [G1 G2]; [left; auto|].
      rewrite (H j0 w0) in G1 by (left; auto). injection G1 as ->. auto. }
    assert (EK : forall m, K m = if Nat.eqb m m0 then S else 0).
    { intros m. unfold K, to_module, S, out_strength. destruct (Nat.eqb_spec m m0) as [->|Hmm].
      - apply Qsum_ext. intros [j w] Hin. cbn [fst snd]. rewrite (H j w Hin), Nat.eqb_refl. auto.
      - apply Qsum_0. intros [j w] Hin. cbn [fst snd]. rewrite (H j w Hin), (proj2 (Nat.eqb_neq m0 m)) by auto. auto. }
    unfold T. rewrite (Qsum_ext _ (fun m => if Nat.eqb m m0 then S * S else 0)).
    + apply (Qsum_single (fun _ => S * S)). apply seq_NoDup. apply in_seq; lia.
    + intros m _. rewrite EK. destruct (Nat.eqb m m0); ring.
Qed.

(** ** z-scores *)
Lemma module_size_pos p ls m i : WF p ls -> In i (ls m) -> Qc_of_nat (module_size p m) <> 0.
Proof.
  intros W H. rewrite (module_size_ls p ls m W). apply Qc_neq_pos, Qc_of_nat_pos. destruct (ls m); [destruct H|simpl; lia].
Qed.

Lemma zscore_sum p ls adj m : WF p ls -> over_module p m (fun i => zscore sq p adj i m) = 0.
Proof.
  intros W. rewrite (over_module_ls p ls m _ W). unfold zscore. destruct (Qc_eq_dec _ 0) as [E|E].
  - apply Qsum_0; auto.
  - destruct (ls m) as [|i0 l] eqn:El; [reflexivity|].
    assert (Hin : In i0 (ls m)) by (rewrite El; left; auto). pose proof (module_size_pos p ls m i0 W Hin) as Hs. rewrite <- El.
    unfold Qcdiv. rewrite Qsum_scal_r, Qsum_sub, Qsum_const. unfold module_mean at 1.
    rewrite (over_module_ls p ls m _ W), (module_size_ls p ls m W). rewrite (module_size_ls p ls m W) in Hs. field. auto.
Qed.

Lemma zscore_sum_sq p ls adj m : WF p ls ->
  sq (module_var p adj m) * sq (module_var p adj m) = module_var p adj m -> sq (module_var p adj m) <> 0 ->
  over_module p m (fun i => zscore sq p adj i m * zscore sq p adj i m) = Qc_of_nat (module_size p m).
Proof.
  intros W Hsq Hn. rewrite (over_module_ls p ls m _ W). unfold zscore. destruct (Qc_eq_dec _ 0) as [E|_]; [congruence|].
  set (v := module_var p adj m) in *. set (mu := module_mean p adj m).
  rewrite (Qsum_ext _ (fun i => (to_module p adj i m - mu) * (to_module p adj i m - mu) * / (sq v * sq v))).
  2: { intros i _. field. auto. }
  rewrite Qsum_scal_r, Hsq.
  assert (Hv : v <> 0). { intros Ev. rewrite Ev in Hsq. apply Qcmult_integral in Hsq as [H|H]; rewrite Ev in Hn; congruence. }
  destruct (ls m) as [|i0 l] eqn:El.
  { cbn [Qsum]. rewrite (module_size_ls p ls m W), El. cbn [length]. rewrite Qc_of_nat_0. ring. }
  assert (Hin : In i0 (ls m)) by (rewrite El; left; auto). pose proof (module_size_pos p ls m i0 W Hin) as Hs. rewrite <- El.
  unfold v, module_var in *. rewrite (over_module_ls p ls m _ W) in *. fold mu in Hv |- *.
  set (X := Qsum _ (ls m)) in *. assert (X <> 0). { intros EX. apply Hv. rewrite EX. unfold Qcdiv. ring. }
  field. auto.
Qed.

Lemma zscore_equal p ls adj m : WF p ls ->
  (forall i j, group p i = Some m -> group p j = Some m -> to_module p adj i m = to_module p adj j m) ->
  forall i, group p i = Some m -> zscore sq p adj i m = 0.
Proof.
  intros W H i Hi. unfold zscore. destruct (Qc_eq_dec _ 0) as [_|E]; auto.
  apply (wf_mem _ _ W) in Hi as Hin. pose proof (module_size_pos p ls m i W Hin) as Hs.
  replace (module_mean p adj m) with (to_module p adj i m).
  - unfold Qcdiv. ring.
  - unfold module_mean. rewrite (over_module_ls p ls m _ W), (Qsum_ext _ (fun _ => to_module p adj i m)).
    + rewrite Qsum_const. rewrite (module_size_ls p ls m W) in *. field. auto.
    + intros j Hj. apply (wf_mem _ _ W) in Hj. apply H; auto.
Qed.

(** ** Role boxes *)
Lemma Qc_ltb_spec a b : Qc_ltb a b = true <-> a < b.
Proof. unfold Qc_ltb. rewrite Qclt_alt. destruct (a ?= b); split; congruence. Qed.
Lemma Qc_ltb_false a b : Qc_ltb a b = false <-> b <= a.
Proof.
  destruct (Qc_ltb a b) eqn:E.
  - apply Qc_ltb_spec in E. split; [discriminate|]. intros H. exfalso. eapply Qclt_not_le; eauto.
  - split; auto. intros _. destruct (Qclt_le_dec a b) as [H|H]; auto. apply Qc_ltb_spec in H. congruence.
Qed.

Definition cut (q : Q) : Qc := Q2Qc q.
(** The documented boxes: half-open intervals of P in two bands of z. *)
Inductive role_box (P z : Qc) : nat -> Prop :=
| box0 : z < cut (5 # 2) -> P < cut (5 # 100) -> role_box P z 0
| box1 : z < cut (5 # 2) -> cut (5 # 100) <= P -> P < cut (62 # 100) -> role_box P z 1
| box2 : z < cut (5 # 2) -> cut (62 # 100) <= P -> P < cut (8 # 10) -> role_box P z 2
| box3 : z < cut (5 # 2) -> cut (8 # 10) <= P -> role_box P z 3
| box4 : cut (5 # 2) <= z -> P < cut (3 # 10) -> role_box P z 4
| box5 : cut (5 # 2) <= z -> cut (3 # 10) <= P -> P < cut (75 # 100) -> role_box P z 5
| box6 : cut (5 # 2) <= z -> cut (75 # 100) <= P -> role_box P z 6.

Theorem GetRole_box P z : role_box P z (GetRole P z).
Proof.
  unfold GetRole. cbn [nltb nofQ opsB Qc_ops].
  repeat match goal with |- context [Qc_ltb ?a ?b] =>
    let E := fresh in destruct (Qc_ltb a b) eqn:E; [apply Qc_ltb_spec in E|apply Qc_ltb_false in E] end;
  constructor; auto.
Qed.

Lemma role_box_unique P z r r' : role_box P z r -> role_box P z r' -> r = r'.
Proof.
  assert (C : forall q q', (q <= q')%Q -> cut q <= cut q').
  { intros q q' H. unfold Qcle, cut. cbn [this Q2Qc]. now rewrite !Qred_correct. }
  assert (L : forall a b, a < b -> b <= a -> False) by (intros a b H1 H2; eapply Qclt_not_le; eauto).
  assert (L2 : forall a b, P < cut a -> cut b <= P -> (a <= b)%Q -> False).
  { intros a b H1 H2 H3. apply (L P (cut a)); auto. eapply Qcle_trans; [apply (C a b); auto|auto]. }
  intros H H'; destruct H; destruct H'; auto; exfalso; eauto;
   match goal with H1 : P < cut ?a, H2 : cut ?b <= P |- _ => apply (L2 a b H1 H2); unfold Qle; cbn; lia end.
Qed.

Theorem GetRole_spec P z r : GetRole P z = r <-> role_box P z r.
Proof.
  split; intros H.
  - subst. apply GetRole_box.
  - eapply role_box_unique; eauto. apply GetRole_box.
Qed.

Lemma role_range P z : (GetRole P z <= 6)%nat /\ ((4 <= GetRole P z)%nat <-> cut (5 # 2) <= z).
Proof.
  pose proof (GetRole_box P z) as H. destruct H; (split; [lia|]); split; intros; auto; try lia;
   exfalso; match goal with H1 : ?a < ?b, H2 : ?b <= ?a |- _ => exact (Qclt_not_le _ _ H1 H2) end.
Qed.

Lemma role_monotone P P' z : P <= P' -> (GetRole P z <= GetRole P' z)%nat.
Proof.
  intros HP. pose proof (GetRole_box P z) as H. pose proof (GetRole_box P' z) as H'.
  assert (L : forall a b, a < b -> b <= a -> False) by (intros a b H1 H2; eapply Qclt_not_le; eauto).
  assert (C : forall q q', (q <= q')%Q -> cut q <= cut q').
  { intros q q' H0. unfold Qcle, cut. cbn [this Q2Qc]. now rewrite !Qred_correct. }
  assert (L2 : forall a b, P' < cut a -> cut b <= P -> (a <= b)%Q -> False).
  { intros a b H1 H2 H3. apply (L P' (cut a)); auto. eapply Qcle_trans; [apply (C a b); auto|]. eapply Qcle_trans; eauto. }
  destruct H; destruct H'; try lia; exfalso; eauto;
  match goal with H1 : P' < cut ?a, H2 : cut ?b <= P |- _ => apply (L2 a b H1 H2); unfold Qle; cbn; lia end.
Qed.

End Bounds.

(** BipartPart.v -- the participation coefficient in a two-sided network. *)
From Coq Require Import List Arith Lia Bool Permutation QArith Qcanon.
From Verif Require Import Base Num ListLib NatSum QcSum PairSum IoModel IoSpec IoProof GraphModel GraphSpec GraphProof GroupModel GroupSpec GroupProof BipartModel BipartSpec BipartRen BipartRand BipartMem BipartProj BipartExact.
Import ListNotations.
Local Open Scope nat_scope.

Section Part.
Variables ex sq : Qc -> Qc.
#[local] Instance opsP : NumOps Qc := Qc_ops ex sq.
Implicit Types (g m : net Qc).

Section One.
Variables (m : net Qc) (i N : nat).
Hypothesis Sm : simple m.
Definition cnts (xs : list nat) : list nat := map (fun x => count (in_group m x) xs) (seq 0 N).
Definition others (xs : list nat) : list nat := filter (fun j => negb (j =? i)) xs.
Definition has_group (j : nat) : Prop := exists n x, nth_error m j = Some n /\ ggroup n = Some x /\ x < N.
Definition mstep : nat * list nat -> link Qc -> res (nat * list nat) := fun '(norm, cnt) a =>
  do j <- deref (lref a);
  if j =? i then Ok (norm, cnt)
  else do k <- get m j; match ggroup k with None => Err UB_oob | Some x => do c <- get cnt x; do cnt <- set cnt x (c + 1); Ok (norm + 1, cnt) end.
Lemma cnts_snoc xs j n x : nth_error m j = Some n -> ggroup n = Some x -> x < N ->
  get (cnts xs) x = Ok (count (in_group m x) xs) /\ set (cnts xs) x (count (in_group m x) xs + 1) = Ok (cnts (xs ++ [j])).
Proof.
  intros En Eg Hx. assert (L : length (cnts xs) = N) by (unfold cnts; rewrite map_length; apply seq_length). split.
  - apply get_ok. unfold cnts. rewrite nth_error_map, (nth_error_seq 0 N x) by auto. reflexivity.
  - rewrite set_ok by lia. f_equal. apply nth_ext_eq. intros k. rewrite nth_upd, L, (proj2 (Nat.ltb_lt _ _) Hx), andb_true_r. unfold cnts. rewrite !nth_error_map.
    destruct (Nat.lt_ge_cases k N) as [Hk|Hk].
    + rewrite (nth_error_seq 0 N k) by auto. simpl. rewrite count_app, count_cons. assert (Ei : in_group m k j = (k =? x)) by (unfold in_group; rewrite En, Eg; apply Nat.eqb_sym). rewrite Ei. change (count (in_group m k) []) with 0.
      destruct (Nat.eqb_spec k x) as [->|]; f_equal; lia.
    + rewrite (proj2 (Nat.eqb_neq k x)) by lia. rewrite (proj2 (nth_error_None _ _)) by (now rewrite seq_length). reflexivity.
Qed.
Lemma members_step ls : forall xs, (forall l, In l ls -> exists j, lref l = Some j) -> (forall j, In j (others (targets ls)) -> has_group j) ->
  foldM mstep (length xs, cnts xs) ls = Ok (length (xs ++ others (targets ls)), cnts (xs ++ others (targets ls))).
Proof.
  induction ls as [|l ls IH]; intros xs Hr Hg; cbn [foldM].
  - simpl. now rewrite app_nil_r.
  - destruct (Hr l (or_introl eq_refl)) as [j Ej]. assert (Et : targets (l :: ls) = j :: targets ls) by (unfold targets; cbn [flat_map]; now rewrite Ej). rewrite Et in *.
    unfold mstep at 1. rewrite Ej. cbn [deref bind]. unfold others in *. cbn [filter] in *. destruct (j =? i) eqn:Eji; cbn [negb] in *.
    + cbn [bind]. rewrite IH; auto. intros; apply Hr; simpl; auto.
    + destruct (Hg j) as (n & x & En & Eg & Hx); [simpl; auto|]. rewrite (get_ok _ _ _ En). cbn [bind]. rewrite Eg. destruct (cnts_snoc xs j n x En Eg Hx) as [-> E2]. cbn [bind]. rewrite E2. cbn [bind].
      replace (length xs + 1) with (length (xs ++ [j])) by (rewrite app_length; reflexivity). rewrite IH.
      * now rewrite <- !app_assoc.
      * intros; apply Hr; simpl; auto.
      * intros k Hk. apply Hg. simpl; auto.
Qed.
Lemma teams_step (ts : list (link Qc)) : forall xs, (forall t, In t ts -> exists s n, lref t = Some s /\ nth_error m s = Some n) ->
  (forall j, In j (others (flat_map (nbrs m) (targets ts))) -> has_group j) ->
  foldM (fun st t => do s <- deref (lref t); do n <- get m s; foldM mstep st (gadj n)) (length xs, cnts xs) ts =
  Ok (length (xs ++ others (flat_map (nbrs m) (targets ts))), cnts (xs ++ others (flat_map (nbrs m) (targets ts)))).
Proof.
  induction ts as [|t ts IH]; intros xs Hr Hg; cbn [foldM].
  - simpl. now rewrite app_nil_r.
  - destruct (Hr t (or_introl eq_refl)) as (s & n & Es & En). assert (Et : targets (t :: ts) = s :: targets ts) by (unfold targets; cbn [flat_map]; now rewrite Es). rewrite Et in *.
    cbn [flat_map] in *. assert (Eo : others (nbrs m s ++ flat_map (nbrs m) (targets ts)) = others (nbrs m s) ++ others (flat_map (nbrs m) (targets ts))) by (unfold others; apply filter_app).
    rewrite Eo in *. rewrite Es. cbn [deref bind]. rewrite (get_ok _ _ _ En). cbn [bind]. rewrite members_step.
    + cbn [bind]. rewrite <- (nbrs_eq _ _ _ En). rewrite IH; [now rewrite <- !app_assoc|intros; apply Hr; simpl; auto|]. intros j Hj. apply Hg, in_or_app; auto.
    + intros l Hl. exact (refs_targets m s n l (si_refs m Sm) En Hl).
    + rewrite <- (nbrs_eq _ _ _ En). intros j Hj. apply Hg, in_or_app; auto.
Qed.
End One.

Theorem ParticipationCoefficientBipart_spec (b : binet Qc) i : bipartite b -> In i (bset1 b) -> peers (bmem b) i <> [] ->
  (forall j, In j (peers (bmem b) i) -> exists n x, nth_error (bmem b) j = Some n /\ ggroup n = Some x /\ x < length (bset1 b)) ->
  ParticipationCoefficientBipart (bmem b) (bset1 b) i = Ok (participation (bmem b) (length (bset1 b)) i).
Proof.
  intros B Hi Hne Hg. set (m := bmem b) in *. assert (Sm : simple m) by now apply bi_simple. unfold ParticipationCoefficientBipart.
  assert (Hl : exists k, nth_error (bset1 b) (length (bset1 b) - 1) = Some k /\ hd_error (rev (bset1 b)) = Some k).
  { destruct (bset1 b) as [|x l] using rev_ind; [destruct Hi|]. exists x. rewrite rev_app_distr. simpl. split; auto. rewrite app_length. simpl. rewrite Nat.add_sub. now rewrite nth_error_app2, Nat.sub_diag by lia. }
  destruct Hl as (k & Ek & ->). cbn [deref bind]. destruct (nth_ex m k) as [nk Enk]; [apply bi_sets; auto; left; eapply nth_error_In; eauto|].
  rewrite (get_ok _ _ _ Enk). cbn [bind]. rewrite (bi_num1 b B _ _ _ Ek Enk). destruct (nth_ex m i) as [n En]; [apply bi_sets; auto|]. rewrite (get_ok _ _ _ En). cbn [bind].
  replace (length (bset1 b) - 1 + 1) with (length (bset1 b)) by (destruct (bset1 b); [destruct Hi|simpl; lia]). set (N := length (bset1 b)) in *.
  replace (repeat 0 N) with (cnts m N []).
  2: { unfold cnts. clear. clearbody N m. generalize 0 at 1. induction N as [|N IH]; intros a; [reflexivity|]. cbn [seq map repeat]. now rewrite IH. }
  pose proof (teams_step m i N Sm (gadj n) []) as E. unfold mstep in E. cbn [length app] in E. rewrite E; clear E.
  - cbn [bind app]. rewrite <- (nbrs_eq _ _ _ En). fold m. change (others i (flat_map (nbrs m) (nbrs m i))) with (peers m i). f_equal. unfold participation.
    change (nsub ?x ?y) with (x - y)%Qc. change (nofQ (1 # 1)) with (Q2Qc (1 # 1)). f_equal. unfold cnts.
    assert (R : forall xs a, fold_left (fun P c => nadd P (ndiv (nmul (nofnat c) (nofnat c)) (nmul (nofnat (length (peers m i))) (nofnat (length (peers m i)))))) (map (fun x => count (in_group m x) (peers m i)) xs) a =
      (a + Qsum (fun x => let s := Qc_of_nat (length (filter (in_group m x) (peers m i))) / Qc_of_nat (length (peers m i)) in s * s) xs)%Qc).
    { assert (Hp : Qc_of_nat (length (peers m i)) <> 0%Qc).
      { intros H. change 0%Qc with (Qc_of_nat 0) in H. apply Qc_of_nat_inj in H. destruct (peers m i); [congruence|discriminate]. }
      induction xs as [|x xs IH]; intros a; cbn [map fold_left Qsum]; [ring|]. rewrite IH. change nadd with Qcplus. change nmul with Qcmult. change ndiv with Qcdiv. change nofnat with Qc_of_nat. cbv zeta. unfold count. field. auto. }
    rewrite R. simpl. ring.
  - intros t Ht. destruct (si_refs m Sm i n t En Ht) as (s & k' & E1 & E2 & _). eauto.
  - rewrite <- (nbrs_eq _ _ _ En). exact Hg.
Qed.

(** Bounds. *)
Lemma shares_one m N xs : (forall j, In j xs -> exists n x, nth_error m j = Some n /\ ggroup n = Some x /\ x < N) ->
  Qsum (fun x => Qc_of_nat (length (filter (in_group m x) xs))) (seq 0 N) = Qc_of_nat (length xs).
Proof.
  induction xs as [|j xs IH]; intros H; [apply Qsum_0; auto|]. destruct (H j (or_introl eq_refl)) as (n & x & En & Eg & Hx).
  rewrite (Qsum_ext _ (fun y => (if y =? x then 1 else 0) + Qc_of_nat (length (filter (in_group m y) xs)))%Qc).
  - rewrite Qsum_add, IH by (intros; apply H; simpl; auto). rewrite (Qsum_single (fun _ => 1%Qc)); [|apply seq_NoDup|apply in_seq; lia]. simpl. now rewrite Qc_of_nat_S.
  - intros y _. simpl. unfold in_group at 1. rewrite En, Eg, (Nat.eqb_sym x y). destruct (y =? x); simpl; [rewrite Qc_of_nat_S|]; ring.
Qed.
Lemma square_nonneg (x : Qc) : (0 <= x * x)%Qc.
Proof.
  destruct (Qclt_le_dec x 0) as [H|H].
  - assert (K : (0 <= - x)%Qc) by (replace 0%Qc with (- 0)%Qc by ring; apply Qcopp_le_compat; now apply Qclt_le_weak).
    replace (x * x)%Qc with (- x * - x)%Qc by ring. replace 0%Qc with (0 * - x)%Qc by ring. now apply Qcmult_le_compat_r.
  - replace 0%Qc with (0 * x)%Qc by ring. now apply Qcmult_le_compat_r.
Qed.
Theorem participation_bounds m N i : peers m i <> [] ->
  (forall j, In j (peers m i) -> exists n x, nth_error m j = Some n /\ ggroup n = Some x /\ x < N) ->
  (0 <= participation m N i)%Qc /\ (participation m N i <= 1 - / Qc_of_nat N)%Qc.
Proof.
  intros Hne H. set (p := fun x => (Qc_of_nat (length (filter (in_group m x) (peers m i))) / Qc_of_nat (length (peers m i)))%Qc).
  assert (Hp : (0 < Qc_of_nat (length (peers m i)))%Qc) by (apply Qc_of_nat_pos; destruct (peers m i); [congruence|simpl; lia]).
  assert (Hp0 : Qc_of_nat (length (peers m i)) <> 0%Qc) by (intros E; rewrite E in Hp; now apply Qclt_not_eq in Hp).
  assert (S1 : Qsum p (seq 0 N) = 1%Qc). { unfold p, Qcdiv. rewrite Qsum_scal_r, shares_one by auto. now apply Qcmult_inv_r. }
  assert (HN : Qc_of_nat N <> 0%Qc).
  { intros E. change 0%Qc with (Qc_of_nat 0) in E. apply Qc_of_nat_inj in E. subst N. discriminate S1. }
  assert (P01 : forall x, In x (seq 0 N) -> (0 <= p x)%Qc /\ (p x <= 1)%Qc).
  { intros x _. assert (I : (0 <= / Qc_of_nat (length (peers m i)))%Qc).
    { destruct (Qclt_le_dec (/ Qc_of_nat (length (peers m i))) 0) as [K|K]; auto. exfalso. apply Qclt_not_le in Hp. apply Hp.
      assert (K2 : (1 <= 0)%Qc); [|exfalso; apply K2; reflexivity].
      replace 1%Qc with (Qc_of_nat (length (peers m i)) * / Qc_of_nat (length (peers m i)))%Qc by now apply Qcmult_inv_r.
      replace 0%Qc with (Qc_of_nat (length (peers m i)) * 0)%Qc by ring. rewrite !(Qcmult_comm (Qc_of_nat _)). apply Qcmult_le_compat_r; [now apply Qclt_le_weak|apply Qc_of_nat_nonneg]. }
    split.
    - unfold p, Qcdiv. replace 0%Qc with (0 * / Qc_of_nat (length (peers m i)))%Qc by ring. apply Qcmult_le_compat_r; auto. apply Qc_of_nat_nonneg.
    - unfold p, Qcdiv. replace 1%Qc with (Qc_of_nat (length (peers m i)) * / Qc_of_nat (length (peers m i)))%Qc by now apply Qcmult_inv_r.
      apply Qcmult_le_compat_r; auto. apply Qc_of_nat_le. apply (count_le (in_group m x)). }
  assert (E : participation m N i = (1 - Qsum (fun x => p x * p x) (seq 0 N))%Qc) by reflexivity. rewrite E. split.
  - assert (K : (Qsum (fun x => p x * p x) (seq 0 N) <= 1)%Qc).
    { rewrite <- S1. apply Qsum_le. intros x Hx. destruct (P01 x Hx) as [H0 H1]. replace (p x) with (1 * p x)%Qc at 3 by ring. apply Qcmult_le_compat_r; auto. }
    unfold Qcminus. apply (Qcplus_le_compat _ _ (- Qsum (fun x => p x * p x) (seq 0 N))%Qc (- Qsum (fun x => p x * p x) (seq 0 N))%Qc) in K; [|apply Qcle_refl].
    rewrite Qcplus_opp_r in K. exact K.
  - assert (K : (0 <= Qsum (fun x => (p x - / Qc_of_nat N) * (p x - / Qc_of_nat N)) (seq 0 N))%Qc) by (apply Qsum_nonneg; intros; apply square_nonneg).
    rewrite (Qsum_ext _ (fun x => p x * p x - p x * ((1 + 1) * / Qc_of_nat N) + / Qc_of_nat N * / Qc_of_nat N)%Qc) in K by (intros; ring).
    rewrite Qsum_add, Qsum_sub, Qsum_scal_r, S1, Qsum_const, seq_length in K.
    replace (Qsum (fun x => p x * p x) (seq 0 N) - 1 * ((1 + 1) * / Qc_of_nat N) + Qc_of_nat N * (/ Qc_of_nat N * / Qc_of_nat N))%Qc with (Qsum (fun x => p x * p x) (seq 0 N) - / Qc_of_nat N)%Qc in K by (field; auto).
    unfold Qcminus. apply Qcplus_le_compat; [apply Qcle_refl|]. apply Qcopp_le_compat.
    apply (Qcplus_le_compat _ _ (/ Qc_of_nat N) (/ Qc_of_nat N)) in K; [|apply Qcle_refl].
    replace (0 + / Qc_of_nat N)%Qc with (/ Qc_of_nat N)%Qc in K by ring. replace (Qsum (fun x => p x * p x) (seq 0 N) - / Qc_of_nat N + / Qc_of_nat N)%Qc with (Qsum (fun x => p x * p x)%Qc (seq 0 N)) in K by ring. exact K.
Qed.
End Part.

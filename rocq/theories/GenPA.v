(** GenPA.v -- PAGraph of src/models.c. *)
From Coq Require Import List Arith Lia Bool Ascii QArith Qcanon ZArith Qround.
From Verif Require Import Base Num ListLib MatLib QcSum Refute IoModel GraphModel GraphSpec GraphProof BipartModel BipartMem NetModel NetSpec NetBuild GenModel GenSpec GenProof SAProof.
Import ListNotations.
Local Open Scope nat_scope.

Section PA.
Context {A : Type} {ops : NumOps A}.
Implicit Types g : net A.

(** Numbers that the generator may return: in range, and able to select every index. *)
Definition drawable (R : A -> Prop) : Prop :=
  (forall u, R u -> good_pick u) /\ forall k x, x < Nat.max 1 k -> exists u, R u /\ nfloor (nmul u (nofnat k)) = x.

(** ** The list for preferential selection *)
Definition avail (pa : list nat) (norm v : nat) : Prop := exists x, x < Nat.max 1 norm /\ nth_error pa x = Some v.

Lemma push_ok pa norm a b : norm + 2 <= length pa ->
  exists pa', pa_push pa norm a b = Ok (pa', norm + 2) /\ length pa' = length pa /\
    nth_error pa' norm = Some a /\ nth_error pa' (norm + 1) = Some b /\ (forall x, x < norm -> nth_error pa' x = nth_error pa x).
Proof.
  intros L. unfold pa_push. rewrite set_ok by lia. cbn [bind]. rewrite set_ok by (rewrite length_upd; lia). cbn [bind].
  eexists. split; [reflexivity|]. splits.
  - rewrite !length_upd. reflexivity.
  - rewrite nth_upd_neq by lia. apply nth_upd_eq. lia.
  - apply nth_upd_eq. rewrite length_upd. lia.
  - intros x Hx. rewrite !nth_upd_neq by lia. reflexivity.
Qed.

Lemma push_avail pa norm a b pa' : nth_error pa' norm = Some a -> nth_error pa' (norm + 1) = Some b -> (forall x, x < norm -> nth_error pa' x = nth_error pa x) ->
  (forall v, avail pa' (norm + 2) v -> avail pa norm v \/ v = a \/ v = b) /\ avail pa' (norm + 2) a /\ avail pa' (norm + 2) b /\
  (avail pa norm b -> forall v, avail pa norm v -> avail pa' (norm + 2) v).
Proof.
  intros Ea Eb H. splits.
  - intros v (x & Hx & E). destruct (Nat.eq_dec x norm) as [->|N1]; [right; left; congruence|]. destruct (Nat.eq_dec x (norm + 1)) as [->|N2]; [right; right; congruence|].
    left. exists x. split; [lia|]. rewrite <- H by lia. auto.
  - exists norm. split; auto; lia.
  - exists (norm + 1). split; auto; lia.
  - intros (y & Hy & Fy) v (x & Hx & E). destruct (Nat.eq_dec norm 0) as [->|N0].
    + exists 1. split; [lia|]. assert (x = 0) by lia. assert (y = 0) by lia. subst. rewrite Nat.add_0_l in Eb. congruence.
    + exists x. split; [lia|]. rewrite H by lia. auto.
Qed.

(** ** The core *)
Record core_inv N m k g (nl : list (option nat)) (pa : list nat) norm : Prop := {
  co_un : undirected g; co_we : weightless g; co_na : named g k; co_nl : length nl = N; co_ha : has_nodes nl k;
  co_pa : length pa = 2 * N * m; co_norm : norm = k * (k - 1);
  co_zero : norm = 0 -> pa = repeat 0 (2 * N * m);
  co_lt : forall x v, x < norm -> nth_error pa x = Some v -> v < k;
  co_cov : 2 <= k -> forall j, j < k -> exists x, x < norm /\ nth_error pa x = Some j;
  co_all : forall i j, i < k -> j < k -> i <> j -> In j (nbrs g i)
}.

Record core_in N m k n g0 g (pa : list nat) norm : Prop := {
  ci_un : undirected g; ci_we : weightless g; ci_na : named g (k + 1);
  ci_pa : length pa = 2 * N * m; ci_norm : norm = k * (k - 1) + 2 * n;
  ci_zero : norm = 0 -> pa = repeat 0 (2 * N * m);
  ci_lt : forall x v, x < norm -> nth_error pa x = Some v -> v <= k;
  ci_cov : forall j, (j < n \/ 2 <= k /\ j < k \/ 1 <= n /\ j = k) -> exists x, x < norm /\ nth_error pa x = Some j;
  ci_nb : forall a b, In b (nbrs g a) <-> In b (nbrs g0 a) \/ (a = k /\ b < n) \/ (b = k /\ a < n)
}.

Lemma pa_core_ok N m k g nl pa norm : writable N -> k < N -> k < m -> core_inv N m k g nl pa norm ->
  exists g' nl' pa' norm', pa_core (g, nl, (pa, norm)) k = Ok (g', nl', (pa', norm')) /\ core_inv N m (S k) g' nl' pa' norm'.
Proof.
  intros HN HkN Hk [U We Na Ln Ha Lp Hn Ze Lt Cov All]. unfold pa_core. destruct Na as [Lg Hl].
  rewrite new_node_ok; auto using un_wf; try lia. 2:{ eapply sprintf_short; eauto; lia. } cbn [bind].
  set (g0 := g ++ [bare (sprintf_d (k + 1)) k]). set (nl0 := upd nl k (Some k)).
  assert (U0 : undirected g0). { unfold g0. rewrite <- Lg at 2. apply undirected_snoc; auto. }
  assert (N0 : forall a, nbrs g0 a = nbrs g a) by (intros a; apply nbrs_snoc; auto).
  assert (Z0 : weightless g0). { intros a b w. unfold g0. rewrite weight_snoc by auto. apply We. }
  assert (H0 : has_nodes nl0 (k + 1)) by (apply has_nodes_snoc; auto; lia).
  set (f := fun '(g1, (paList, norm1)) (node2 : nat) => do g2 <- link_both g1 nl0 k node2; do pa1 <- pa_push paList norm1 k node2; Ok (g2, pa1)).
  assert (L : forall n, n <= k -> exists g' pa' norm', foldM f (g0, (pa, norm)) (seq 0 n) = Ok (g', (pa', norm')) /\ core_in N m k n g0 g' pa' norm').
  { induction n as [|n IH]; intros Hnk.
    - exists g0, pa, norm. split; auto. split; auto; try lia.
      + apply named_snoc. split; auto.
      + intros x v Hx E. specialize (Lt x v Hx E). lia.
      + intros j [Hj|[[H2 Hj]|[Hj _]]]; try lia. apply Cov; auto.
      + intros a b. split; auto. intros [F|[[_ F]|[_ F]]]; auto; lia.
    - destruct IH as (g1 & pa1 & norm1 & E1 & [U1 W1 Na1 Lp1 Hn1 Ze1 Lt1 Cov1 Nb1]); [lia|].
      rewrite seq_S, foldM_app, E1. cbn [bind foldM]. rewrite Nat.add_0_l. unfold f at 1.
      destruct (link_both_ok g1 nl0 k n (k + 1) U1 W1 H0) as (g2 & E2 & U2 & S2 & W2 & Nb2); try lia. { rewrite (proj1 Na1). lia. }
      rewrite E2. cbn [bind]. destruct (push_ok pa1 norm1 k n) as (pa2 & E3 & L3 & Ek & En & Eo). { nia. }
      rewrite E3. cbn [bind]. exists g2, pa2, (norm1 + 2). split; auto. split; auto; try lia.
      + eapply named_same; eauto.
      + intros x v Hx E. destruct (Nat.eq_dec x norm1) as [->|N1]; [assert (v = k) by congruence; lia|]. destruct (Nat.eq_dec x (norm1 + 1)) as [->|N2]; [assert (v = n) by congruence; lia|].
        rewrite Eo in E by lia. apply (Lt1 x v); auto. lia.
      + intros j Hj. destruct (Nat.eq_dec j n) as [->|Nj]; [exists (norm1 + 1); split; auto; lia|]. destruct (Nat.eq_dec j k) as [->|Nk]; [exists norm1; split; auto; lia|].
        destruct (Cov1 j) as (x & Hx & E); [lia|]. exists x. split; [lia|]. rewrite Eo; auto.
      + intros a b. rewrite Nb2, Nb1. split.
        * intros [[F|[F|F]]|(F & [F'|F'])]; auto; lia.
        * intros [F|[[-> F]|[-> F]]]; auto; [destruct (Nat.eq_dec b n) as [->|]|destruct (Nat.eq_dec a n) as [->|]]; try (left; lia); right; lia.
  }
  destruct (L k (le_n _)) as (g' & pa' & norm' & E & [U1 W1 Na1 Lp1 Hn1 Ze1 Lt1 Cov1 Nb1]).
  change (foldM _ (g0, (pa, norm)) (seq 0 k)) with (foldM f (g0, (pa, norm)) (seq 0 k)). rewrite E. cbn [bind].
  exists g', nl0, pa', norm'. split; auto. split; auto.
  - replace (S k) with (k + 1) by lia. auto.
  - unfold nl0. rewrite length_upd. auto.
  - replace (S k) with (k + 1) by lia. auto.
  - rewrite Hn1. destruct k; simpl; nia.
  - intros x v Hx Ex. specialize (Lt1 x v Hx Ex). lia.
  - intros H2 j Hj. apply Cov1. lia.
  - intros i j Hi Hj Nij. apply Nb1. destruct (Nat.eq_dec i k) as [->|Ni]; [right; left; lia|]. destruct (Nat.eq_dec j k) as [->|Nj]; [right; right; lia|]. left. rewrite N0. apply All; lia.
Qed.

Lemma core_ok N m : writable N -> forall k, k <= N -> k <= m ->
  exists g nl pa norm, foldM (@pa_core A _) ([], repeat None N, (repeat 0 (2 * N * m), 0)) (seq 0 k) = Ok (g, nl, (pa, norm)) /\ core_inv N m k g nl pa norm.
Proof.
  intros HN. induction k as [|k IH]; intros HkN Hk.
  - exists [], (repeat None N), (repeat 0 (2 * N * m)), 0. split; auto. split; auto using repeat_length, named_nil; try (intros; lia).
    + exact (blank_undirected 0).
    + exact (blank_weightless 0).
    + intros i Hi. lia.
  - destruct IH as (g & nl & pa & norm & E & I); [lia|lia|]. rewrite seq_S, foldM_app, E. cbn [bind foldM]. rewrite Nat.add_0_l.
    destruct (pa_core_ok N m k g nl pa norm) as (g' & nl' & pa' & norm' & -> & I'); auto. cbn [bind]. eauto 6.
Qed.

(** ** The nodes after the core *)
Definition back_ok g m i : Prop := exists l, NoDup l /\ 1 <= length l <= m /\ forall j, In j l <-> j < i /\ In j (nbrs g i).

Record pa_inv N m i g (nl : list (option nat)) (pa : list nat) norm : Prop := {
  pv_un : undirected g; pv_we : weightless g; pv_na : named g i; pv_nl : length nl = N; pv_ha : has_nodes nl i;
  pv_pa : length pa = 2 * N * m; pv_norm : norm = m * (m - 1) + 2 * m * (i - m);
  pv_lt : forall v, avail pa norm v -> v < i;
  pv_cov : forall j, j < m -> avail pa norm j;
  pv_core : forall a b, a < m -> b < m -> a <> b -> In b (nbrs g a);
  pv_back : forall i', m <= i' < i -> back_ok g m i'
}.

Record link_inv N m i n g (pa : list nat) norm : Prop := {
  lv_un : undirected g; lv_we : weightless g; lv_na : named g (i + 1);
  lv_pa : length pa = 2 * N * m; lv_norm : norm = m * (m - 1) + 2 * m * (i - m) + 2 * n;
  lv_lt : forall v, avail pa norm v -> v < i \/ 1 <= n /\ v = i;
  lv_cov : forall j, j < m -> avail pa norm j;
  lv_self : 1 <= n -> avail pa norm i;
  lv_core : forall a b, a < m -> b < m -> a <> b -> In b (nbrs g a);
  lv_back : forall i', m <= i' < i -> back_ok g m i';
  lv_own : exists l, NoDup l /\ length l <= n /\ (1 <= n -> 1 <= length l) /\ forall j, In j (nbrs g i) <-> In j l
}.

Lemma link_next N m i n g nl pa norm j : m <= i -> i < N -> n < m -> has_nodes nl (i + 1) -> link_inv N m i n g pa norm ->
  avail pa norm j -> ~ In j (nbrs g i) ->
  exists g' pa' norm', (do g <- link_both g nl i j; do pa <- pa_push pa norm i j; Ok (g, pa)) = Ok (g', (pa', norm')) /\ link_inv N m i (n + 1) g' pa' norm'.
Proof.
  intros Hm Hi Hn Ha [U We Na Lp Hno Lt Cov Self Core Back (l & ND & Ll & Lp1 & Hl)] Av Nj.
  assert (Hj : j <= i) by (destruct (Lt j Av); lia).
  destruct (link_both_ok g nl i j (i + 1) U We Ha) as (g2 & E2 & U2 & S2 & W2 & Nb2); try lia. { rewrite (proj1 Na). lia. }
  rewrite E2. cbn [bind]. destruct (push_ok pa norm i j) as (pa2 & E3 & L3 & Ei & Ej & Eo).
  { rewrite Lp, Hno. assert (i - m + 1 <= N - m) by lia. nia. }
  rewrite E3. cbn [bind]. destruct (push_avail pa norm i j pa2 Ei Ej Eo) as (A1 & A2 & A3 & A4).
  exists g2, pa2, (norm + 2). split; auto. split; auto; try lia.
  - eapply named_same; eauto.
  - intros v Hv. destruct (A1 v Hv) as [F|[->| ->]]; [destruct (Lt v F); lia|lia|lia].
  - intros a b Ha' Hb Nab. apply Nb2. left. apply Core; auto.
  - intros i' Hi'. destruct (Back i' Hi') as (l' & ND' & L' & H'). exists l'. splits; try lia; auto. intros x. rewrite H', Nb2. split; [tauto|].
    intros [Hx [F|(_ & [F|F])]]; auto; lia.
  - destruct (Nat.eq_dec j i) as [->|Nji].
    + exists l. splits; auto; try lia.
      * intros _. destruct (Nat.eq_dec n 0) as [->|]; [|apply Lp1; lia]. destruct (Lt i Av); lia.
      * intros x. rewrite <- Hl, Nb2. split; auto. intros [F|[F _]]; auto. congruence.
    + exists (j :: l). splits; cbn [length]; try lia.
      * constructor; auto. rewrite <- Hl. auto.
      * intros x. rewrite Nb2, Hl. cbn [In]. split; [intros [F|(_ & [[_ ->]|[F _]])]; auto; congruence|]. intros [<-|F]; auto.
Qed.

Lemma pick_value N m i n g nl pa norm u : m <= i -> i < N -> n < m -> has_nodes nl (i + 1) -> link_inv N m i n g pa norm -> good_pick u ->
  exists j, nth_error pa (nfloor (nmul u (nofnat norm))) = Some j /\ avail pa norm j /\
    forall ds, pa_pick g nl pa norm i (u :: ds) = if in_dec Nat.eq_dec j (nbrs g i) then pa_pick g nl pa norm i ds else Ok (j, ds).
Proof.
  intros Hm Hi Hn Ha [U We Na Lp Hno Lt Cov Self Core Back Own] Hu. specialize (Hu norm).
  destruct (nth_ex pa (nfloor (nmul u (nofnat norm)))) as [j Ej].
  { rewrite Lp. eapply Nat.lt_le_trans; [exact Hu|]. assert (i - m + 1 <= N - m) by lia. apply Nat.max_lub; nia. }
  assert (Av : avail pa norm j) by (eexists; split; eauto). assert (Hj : j <= i) by (destruct (Lt j Av); lia).
  exists j. splits; auto. intros ds. cbn [pa_pick]. rewrite (get_ok _ _ _ Ej). cbn [bind]. rewrite (get_ok nl i _ (Ha i ltac:(lia))). cbn [bind deref].
  rewrite (get_ok nl j _ (Ha j ltac:(lia))). cbn [bind deref]. rewrite IsThereLink_spec by (rewrite (proj1 Na); lia). cbn [bind].
  destruct (in_dec Nat.eq_dec j (nbrs g i)); auto.
Qed.

Lemma pick_safe N m i n g nl pa norm : m <= i -> i < N -> n < m -> has_nodes nl (i + 1) -> link_inv N m i n g pa norm -> forall ds, Forall good_pick ds ->
  safe (pa_pick g nl pa norm i ds) (fun '(j, ds') => Forall good_pick ds' /\ avail pa norm j /\ ~ In j (nbrs g i)).
Proof.
  intros Hm Hi Hn Ha I. induction ds as [|u ds IH]; intros F; [reflexivity|]. inversion F as [|? ? Hu F']; subst.
  destruct (pick_value N m i n g nl pa norm u Hm Hi Hn Ha I Hu) as (j & _ & Av & E). rewrite E. destruct (in_dec Nat.eq_dec j (nbrs g i)); [apply IH; auto|]. simpl. auto.
Qed.

(** A node of the core that is not linked yet can be drawn. *)
Lemma pick_live (R : A -> Prop) N m i n g nl pa norm : drawable R ->
  m <= i -> i < N -> n < m -> has_nodes nl (i + 1) -> link_inv N m i n g pa norm ->
  exists u j, R u /\ avail pa norm j /\ ~ In j (nbrs g i) /\ forall ds, pa_pick g nl pa norm i (u :: ds) = Ok (j, ds).
Proof.
  intros HL Hm Hi Hn Ha I. destruct (lv_own _ _ _ _ _ _ _ I) as (l & ND & Ll & _ & Hl).
  assert (Hx : exists j, j < m /\ ~ In j (nbrs g i)).
  { destruct (Exists_dec (fun j => ~ In j (nbrs g i)) (seq 0 m)) as [H|H].
    - intros x. destruct (in_dec Nat.eq_dec x (nbrs g i)); [right|left]; tauto.
    - apply Exists_exists in H as (j & Hj & N'). apply in_seq in Hj. exists j. split; auto; lia.
    - exfalso. assert (I' : incl (seq 0 m) l). { intros x Hx. apply Hl. destruct (in_dec Nat.eq_dec x (nbrs g i)); auto. exfalso. apply H. apply Exists_exists. eauto. }
      apply NoDup_incl_length in I'; [|apply seq_NoDup]. rewrite seq_length in I'. lia. }
  destruct Hx as (j & Hj & Nj). destruct (lv_cov _ _ _ _ _ _ _ I j Hj) as (x & Hx & Ex). destruct (proj2 HL norm x Hx) as (u & Hu & Eu).
  destruct (pick_value N m i n g nl pa norm u Hm Hi Hn Ha I (proj1 HL u Hu)) as (j' & Ej & Av & E). rewrite Eu in Ej. assert (j' = j) by congruence. subst.
  exists u, j. splits; auto. intros ds. rewrite E. destruct (in_dec Nat.eq_dec j (nbrs g i)); auto. contradiction.
Qed.

Lemma links_safe N m i nl : m <= i -> i < N -> has_nodes nl (i + 1) -> forall n g pa norm ds, n <= m -> Forall good_pick ds -> link_inv N m i 0 g pa norm ->
  safe (foldM (pa_link nl i) (g, (pa, norm), ds) (seq 0 n)) (fun '(g', (pa', norm'), ds') => Forall good_pick ds' /\ link_inv N m i n g' pa' norm').
Proof.
  intros Hm Hi Ha. induction n as [|n IH]; intros g pa norm ds Hn F I; [simpl; auto|].
  rewrite seq_S, foldM_app. eapply safe_bind; [apply IH; auto; lia|]. intros [[g1 [pa1 norm1]] ds1] (F1 & I1). cbn [foldM]. rewrite Nat.add_0_l. unfold pa_link at 1.
  pose proof (pick_safe N m i n g1 nl pa1 norm1 Hm Hi ltac:(lia) Ha I1 ds1 F1) as P. destruct (pa_pick g1 nl pa1 norm1 i ds1) as [[j ds2]|e]; cbn [bind]; [|exact P].
  destruct P as (F2 & Av & Nj). destruct (link_next N m i n g1 nl pa1 norm1 j Hm Hi ltac:(lia) Ha I1 Av Nj) as (g2 & pa2 & norm2 & E & I2).
  destruct (link_both g1 nl i j) as [g3|]; cbn [bind] in E |- *; [|discriminate]. destruct (pa_push pa1 norm1 i j) as [p3|]; cbn [bind] in E |- *; [|discriminate].
  inversion E; subst. cbn [safe]. split; auto. replace (S n) with (n + 1) by lia. auto.
Qed.

Lemma links_live (R : A -> Prop) N m i nl : drawable R ->
  m <= i -> i < N -> has_nodes nl (i + 1) -> forall n g pa norm, n <= m -> link_inv N m i 0 g pa norm ->
  exists us g' pa' norm', Forall R us /\ (forall ds, foldM (pa_link nl i) (g, (pa, norm), us ++ ds) (seq 0 n) = Ok (g', (pa', norm'), ds)) /\ link_inv N m i n g' pa' norm'.
Proof.
  intros HL Hm Hi Ha. induction n as [|n IH]; intros g pa norm Hn I; [exists [], g, pa, norm; splits; auto|].
  destruct (IH g pa norm) as (us & g1 & pa1 & norm1 & F1 & E1 & I1); auto; [lia|].
  destruct (pick_live R N m i n g1 nl pa1 norm1 HL Hm Hi ltac:(lia) Ha I1) as (u & j & Hu & Av & Nj & E2).
  destruct (link_next N m i n g1 nl pa1 norm1 j Hm Hi ltac:(lia) Ha I1 Av Nj) as (g2 & pa2 & norm2 & E & I2).
  exists (us ++ [u]), g2, pa2, norm2. splits.
  - apply Forall_app; auto.
  - intros ds. rewrite seq_S, foldM_app, <- app_assoc, E1. cbn [bind foldM app]. rewrite Nat.add_0_l. unfold pa_link at 1. rewrite E2. cbn [bind].
    destruct (link_both g1 nl i j) as [g3|]; cbn [bind] in E |- *; [|discriminate]. destruct (pa_push pa1 norm1 i j) as [p3|]; cbn [bind] in E |- *; [|discriminate].
    inversion E; subst. reflexivity.
  - replace (S n) with (n + 1) by lia. auto.
Qed.

(** A node may choose itself: no link is made, but the choice counts. *)
Lemma self_links (R : A -> Prop) N m i nl : drawable R ->
  m <= i -> i < N -> has_nodes nl (i + 1) -> forall r n g pa norm, 1 <= n -> n + r <= m -> link_inv N m i n g pa norm ->
  exists us pa' norm', Forall R us /\ (forall ds, foldM (pa_link nl i) (g, (pa, norm), us ++ ds) (seq n r) = Ok (g, (pa', norm'), ds)) /\ link_inv N m i (n + r) g pa' norm'.
Proof.
  intros HL Hm Hi Ha. induction r as [|r IH]; intros n g pa norm H1 Hn I.
  - exists [], pa, norm. rewrite Nat.add_0_r. splits; auto.
  - destruct (lv_self _ _ _ _ _ _ _ I H1) as (x & Hx & Ex). destruct (proj2 HL norm x Hx) as (u & Hu & Eu).
    assert (Ni : ~ In i (nbrs g i)) by (apply un_loop, I).
    destruct (pick_value N m i n g nl pa norm u Hm Hi ltac:(lia) Ha I (proj1 HL u Hu)) as (j & Ej & Av & E). rewrite Eu in Ej. assert (j = i) by congruence. subst j.
    destruct (link_next N m i n g nl pa norm i Hm Hi ltac:(lia) Ha I Av Ni) as (g2 & pa2 & norm2 & E2 & I2).
    assert (Es : link_both g nl i i = Ok g). { unfold link_both. rewrite (get_ok nl i _ (Ha i ltac:(lia))). cbn [bind deref]. unfold AddAdjacency. rewrite Nat.eqb_refl. reflexivity. }
    rewrite Es in E2. cbn [bind] in E2. destruct (pa_push pa norm i i) as [p3|] eqn:E3; cbn [bind] in E2; [|discriminate]. inversion E2; subst g2 p3.
    destruct (IH (n + 1) g pa2 norm2) as (us & pa3 & norm3 & F & E4 & I3); auto; try lia.
    exists (u :: us), pa3, norm3. splits; auto.
    + intros ds. cbn [seq foldM app]. unfold pa_link at 1. rewrite E. destruct (in_dec Nat.eq_dec i (nbrs g i)) as [F'|_]; [contradiction|]. cbn [bind]. rewrite Es. cbn [bind]. rewrite E3. cbn [bind].
      rewrite <- (Nat.add_1_r n). apply E4.
    + replace (n + S r) with (n + 1 + r) by lia. auto.
Qed.

Lemma links_lazy (R : A -> Prop) N m i nl g pa norm : drawable R ->
  m <= i -> i < N -> 1 <= m -> has_nodes nl (i + 1) -> link_inv N m i 0 g pa norm ->
  exists us g' pa' norm', Forall R us /\ (forall ds, foldM (pa_link nl i) (g, (pa, norm), us ++ ds) (seq 0 m) = Ok (g', (pa', norm'), ds)) /\ link_inv N m i m g' pa' norm' /\ degree g' i = 1.
Proof.
  intros HL Hm Hi H1 Ha I. destruct (links_live R N m i nl HL Hm Hi Ha 1 g pa norm H1 I) as (us & g1 & pa1 & norm1 & F1 & E1 & I1).
  destruct (self_links R N m i nl HL Hm Hi Ha (m - 1) 1 g1 pa1 norm1) as (us2 & pa2 & norm2 & F2 & E2 & I2); auto; try lia.
  exists (us ++ us2), g1, pa2, norm2. splits.
  - apply Forall_app; auto.
  - intros ds. replace m with (1 + (m - 1)) by lia. rewrite seq_app, foldM_app, <- app_assoc, E1. cbn [bind]. apply E2.
  - replace m with (1 + (m - 1)) at 2 by lia. auto.
  - destruct (lv_own _ _ _ _ _ _ _ I1) as (l & ND & L & L1 & Hl). assert (length l = 1) by lia. unfold degree. rewrite <- H.
    apply Nat.le_antisymm; apply NoDup_incl_length; auto; [apply wf_nodup, un_wf, I1| |]; intros x; apply Hl.
Qed.

(** A new node, before its first link. *)
Lemma open_node N m i g nl pa norm : writable N -> m <= i -> i < N -> pa_inv N m i g nl pa norm ->
  exists g' nl', new_node (g, nl) i = Ok (g', nl') /\ length nl' = N /\ has_nodes nl' (i + 1) /\ link_inv N m i 0 g' pa norm.
Proof.
  intros HN Hm Hi [U We Na Ln Ha Lp Hno Lt Cov Core Back]. exists (g ++ [bare (sprintf_d (i + 1)) i]), (upd nl i (Some i)).
  pose proof (proj1 Na) as Lg. assert (Nb : forall a, nbrs (g ++ [bare (sprintf_d (i + 1)) i]) a = nbrs g a) by (intros a; apply nbrs_snoc; auto). splits.
  - apply new_node_ok; auto using un_wf; try lia. eapply sprintf_short; eauto.
  - rewrite length_upd. auto.
  - apply has_nodes_snoc; auto; lia.
  - split; auto; try lia.
    + rewrite <- Lg at 2. apply undirected_snoc; auto.
    + intros a b w. rewrite weight_snoc by auto. apply We.
    + apply named_snoc; auto.
    + intros a b. rewrite Nb. apply Core.
    + intros i' Hi'. destruct (Back i' Hi') as (l & H). exists l. rewrite Nb. auto.
    + exists []. splits; auto using NoDup_nil; try (simpl; lia). intros j. rewrite Nb. unfold nbrs. rewrite (proj2 (nth_error_None g i)) by lia. tauto.
Qed.

Lemma close_node N m i g nl pa norm : m <= i -> i < N -> 1 <= m -> length nl = N -> has_nodes nl (i + 1) -> link_inv N m i m g pa norm -> pa_inv N m (S i) g nl pa norm.
Proof.
  intros Hm Hi H1 Ln Ha [U We Na Lp Hno Lt Cov Self Core Back (l & ND & Ll & L1 & Hl)]. replace (S i) with (i + 1) by lia. split; auto.
  - nia.
  - intros v Hv. destruct (Lt v Hv); lia.
  - intros i' Hi'. destruct (Nat.eq_dec i' i) as [->|]; [|apply Back; lia]. exists l. splits; auto. intros j. rewrite Hl. split; [|tauto]. intros F. split; auto.
    apply Hl in F. pose proof (nbrs_lt g i j (un_wf _ U) F) as [_ Lj]. rewrite (proj1 Na) in Lj. assert (j <> i) by (intros ->; eapply (un_loop _ U); eauto). lia.
Qed.

Definition PApost N m g : Prop := undirected g /\ weightless g /\ named g N /\ (forall a b, a < m -> b < m -> a <> b -> In b (nbrs g a)) /\ (forall i, m <= i < N -> back_ok g m i).

Lemma core_pa N m g nl pa norm : m <= N -> 1 <= m -> core_inv N m m g nl pa norm -> pa_inv N m m g nl pa norm.
Proof.
  intros Hm H1 [U We Na Ln Ha Lp Hn Ze Lt Cov All]. split; auto.
  - lia.
  - intros v (x & Hx & E). destruct (Nat.eq_dec norm 0) as [E0|N0].
    + rewrite (Ze E0) in E. apply nth_error_In, repeat_spec in E. lia.
    + apply (Lt x v); auto. lia.
  - intros j Hj. destruct (Nat.eq_dec norm 0) as [E0|N0].
    + assert (j = 0) by nia. subst j. exists 0. split; [lia|]. rewrite (Ze E0). apply nth_repeat_lt. nia.
    + destruct (Cov ltac:(nia) j Hj) as (x & Hx & E). exists x. split; auto. lia.
  - intros; lia.
Qed.

Lemma seq_end N m : m <= N -> seq m (N - m) = map (fun k => m + k) (seq 0 (N - m)).
Proof. intros _. rewrite <- (Nat.add_0_r m) at 1. generalize 0. induction (N - m) as [|n IH]; intros k; simpl; auto. rewrite <- (IH (S k)). f_equal. f_equal. lia. Qed.

Theorem PA_safe N m (ds : list A) : writable N -> 1 <= m <= N -> Forall good_pick ds -> safe (PAGraph N m ds) (fun '(g, ds') => PApost N m g).
Proof.
  intros HN [H1 Hm] F. unfold PAGraph. destruct (core_ok N m HN m Hm (le_n _)) as (g & nl & pa & norm & E & I). rewrite E. cbn [bind].
  apply (core_pa _ _ _ _ _ _ Hm H1) in I.
  assert (L : forall n, m + n <= N -> safe (foldM (pa_node m) (g, nl, (pa, norm), ds) (seq m n)) (fun '(g', nl', (pa', norm'), ds') => Forall good_pick ds' /\ pa_inv N m (m + n) g' nl' pa' norm')).
  { induction n as [|n IH]; intros Hn; [cbn [seq foldM safe]; rewrite Nat.add_0_r; auto|]. rewrite seq_S, foldM_app. eapply safe_bind; [apply IH; lia|].
    intros [[[g1 nl1] [pa1 norm1]] ds1] (F1 & I1). cbn [foldM]. unfold pa_node at 1.
    destruct (open_node N m (m + n) g1 nl1 pa1 norm1 HN ltac:(lia) ltac:(lia) I1) as (g2 & nl2 & -> & L2 & H2 & I2). cbn [bind].
    eapply safe_bind with (Q := fun '(g', nl', (pa', norm'), ds') => Forall good_pick ds' /\ pa_inv N m (m + S n) g' nl' pa' norm'); [|intros [[[g' nl'] [pa' norm']] ds']; auto].
    eapply safe_bind; [apply (links_safe N m (m + n) nl2); auto; try lia; eauto|]. intros [[g3 [pa3 norm3]] ds3] (F3 & I3). cbn [safe]. split; auto.
    replace (m + S n) with (S (m + n)) by lia. eapply close_node; eauto; lia. }
  specialize (L (N - m) ltac:(lia)). eapply safe_bind; [exact L|]. intros [[[g' nl'] [pa' norm']] ds'] (_ & [U We Na _ _ _ _ _ _ Core Back]). replace (m + (N - m)) with N in * by lia.
  cbn [safe]. unfold PApost. splits; auto.
Qed.

Lemma nodes_live (R : A -> Prop) N m : drawable R -> writable N -> 1 <= m ->
  forall g nl pa norm, pa_inv N m m g nl pa norm -> forall n, m + n <= N ->
  exists us g' nl' pa' norm', Forall R us /\ (forall ds, foldM (pa_node m) (g, nl, (pa, norm), us ++ ds) (seq m n) = Ok (g', nl', (pa', norm'), ds)) /\ pa_inv N m (m + n) g' nl' pa' norm'.
Proof.
  intros HL HN H1 g nl pa norm I. induction n as [|n IH]; intros Hn; [exists [], g, nl, pa, norm; rewrite Nat.add_0_r; splits; auto|].
  destruct IH as (us & g1 & nl1 & pa1 & norm1 & F1 & E1 & I1); [lia|].
  destruct (open_node N m (m + n) g1 nl1 pa1 norm1 HN ltac:(lia) ltac:(lia) I1) as (g2 & nl2 & E2 & L2 & H2 & I2).
  destruct (links_live R N m (m + n) nl2 HL ltac:(lia) ltac:(lia) H2 m g2 pa1 norm1 (le_n _) I2) as (us3 & g3 & pa3 & norm3 & F3 & E3 & I3).
  exists (us ++ us3), g3, nl2, pa3, norm3. splits.
  - apply Forall_app; auto.
  - intros ds. rewrite seq_S, foldM_app, <- app_assoc, E1. cbn [bind foldM]. unfold pa_node at 1. rewrite E2. cbn [bind]. rewrite E3. reflexivity.
  - replace (m + S n) with (S (m + n)) by lia. eapply close_node; eauto; lia.
Qed.

Theorem PA_live (R : A -> Prop) N m : drawable R -> writable N -> 1 <= m <= N ->
  exists (us : list A) g, Forall R us /\ forall ds, PAGraph N m (us ++ ds) = Ok (g, ds).
Proof.
  intros HL HN [H1 Hm]. unfold PAGraph. destruct (core_ok N m HN m Hm (le_n _)) as (g & nl & pa & norm & E & I). rewrite E. cbn [bind].
  apply (core_pa _ _ _ _ _ _ Hm H1) in I.
  destruct (nodes_live R N m HL HN H1 g nl pa norm I (N - m) ltac:(lia)) as (us & g' & nl' & pa' & norm' & F & E' & _). exists us, g'. split; auto. intros ds. rewrite E'. reflexivity.
Qed.

(** Some sequence of draws leaves the last node with a single link. *)
Theorem PA_lazy (R : A -> Prop) N m : drawable R -> writable N -> 1 <= m < N ->
  exists (us : list A) g, Forall R us /\ (forall ds, PAGraph N m (us ++ ds) = Ok (g, ds)) /\ degree g (N - 1) = 1.
Proof.
  intros HL HN [H1 Hm]. unfold PAGraph. destruct (core_ok N m HN m ltac:(lia) (le_n _)) as (g & nl & pa & norm & E & I). rewrite E. cbn [bind].
  apply (core_pa _ _ _ _ _ _ (Nat.lt_le_incl _ _ Hm) H1) in I.
  destruct (nodes_live R N m HL HN H1 g nl pa norm I (N - m - 1) ltac:(lia)) as (us & g1 & nl1 & pa1 & norm1 & F1 & E1 & I1).
  replace (m + (N - m - 1)) with (N - 1) in I1 by lia.
  destruct (open_node N m (N - 1) g1 nl1 pa1 norm1 HN ltac:(lia) ltac:(lia) I1) as (g2 & nl2 & E2 & L2 & H2 & I2).
  destruct (links_lazy R N m (N - 1) nl2 g2 pa1 norm1 HL ltac:(lia) ltac:(lia) H1 H2 I2) as (us3 & g3 & pa3 & norm3 & F3 & E3 & _ & D).
  exists (us ++ us3), g3. splits; auto; [apply Forall_app; auto|]. intros ds. replace (N - m) with (N - m - 1 + 1) by lia. rewrite seq_app, foldM_app, <- app_assoc, E1. cbn [bind seq foldM].
  replace (m + (N - m - 1)) with (N - 1) by lia. unfold pa_node at 1. rewrite E2. cbn [bind]. rewrite E3. reflexivity.
Qed.

(** No links at all for [m = 0]; a core larger than the network leaves the array of nodes. *)
Theorem PA_zero N (ds : list A) : writable N -> exists g, PAGraph N 0 ds = Ok (g, ds) /\ undirected g /\ named g N /\ forall i, nbrs g i = [].
Proof.
  intros HN. exists (blank N). splits; auto using blank_undirected, blank_named, blank_nbrs. unfold PAGraph. cbn [seq foldM bind]. rewrite Nat.sub_0_r.
  assert (H : forall k, k <= N -> exists nl, foldM (pa_node 0) ([], repeat None N, (repeat 0 (2 * N * 0), 0), ds) (seq 0 k) = Ok (blank k, nl, (repeat 0 (2 * N * 0), 0), ds) /\ length nl = N).
  { induction k as [|k IH]; intros Hk; [exists (repeat None N); split; auto using repeat_length|]. destruct IH as (nl & E & Ln); [lia|].
    rewrite seq_S, foldM_app, E. cbn [bind foldM]. rewrite Nat.add_0_l. unfold pa_node at 1. rewrite new_node_ok; auto using un_wf, blank_undirected, blank_length; try lia.
    2:{ eapply sprintf_short; eauto; lia. } cbn [bind seq foldM]. exists (upd nl k (Some k)). rewrite blank_S, blank_length. split; auto. rewrite length_upd; auto. }
  destruct (H N (le_n _)) as (nl & E & _). eapply eq_trans; [apply (f_equal (fun r => bind r _)); exact E|]. reflexivity.
Qed.

Theorem PA_oob N m (ds : list A) : writable m -> N < m -> PAGraph N m ds = Err UB_oob.
Proof.
  intros HM Hm. assert (HN : writable N) by (destruct HM as (k & Hk & H); exists k; split; auto; lia). unfold PAGraph. destruct (core_ok N m HN N (le_n _) ltac:(lia)) as (g & nl & pa & norm & E & I).
  replace m with (N + S (m - S N)) at 2 by lia. rewrite seq_app, foldM_app, E. cbn [bind seq foldM]. rewrite Nat.add_0_l. unfold pa_core at 1, new_node at 1.
  rewrite Create_ok; [|apply un_wf, I|].
  - cbn [bind]. unfold set. rewrite (proj2 (Nat.ltb_ge N (length nl))); [reflexivity|]. rewrite (co_nl _ _ _ _ _ _ _ I). auto.
  - apply (sprintf_short m); auto.
Qed.

Lemma back_earlier g m i : wf_net g -> back_ok g m i -> 1 <= length (earlier g i) <= m.
Proof.
  intros W (l & ND & L & H). assert (E : length (earlier g i) = length l).
  { apply Nat.le_antisymm; apply NoDup_incl_length; auto.
    - apply NoDup_filter, wf_nodup, W.
    - intros x Hx. apply filter_In in Hx as [Hx Hl]. apply Nat.ltb_lt in Hl. apply H. auto.
    - intros x Hx. apply H in Hx as [Hl Hx]. apply filter_In. split; auto. apply Nat.ltb_lt. auto. }
  lia.
Qed.

Theorem PAGraph_spec N m (ds : list A) : writable N -> 1 <= m <= N -> Forall good_pick ds ->
  safe (PAGraph N m ds) (fun '(g, ds') => undirected g /\ named g N /\ weightless g /\ (forall a b, a < m -> b < m -> a <> b -> In b (nbrs g a)) /\
    forall i, m <= i < N -> 1 <= length (earlier g i) <= m).
Proof.
  intros HN Hm F. eapply safe_impl; [apply PA_safe; eauto|]. intros [g ds'] (U & We & Na & Co & Ba). splits; auto. intros i Hi. apply back_earlier; auto using un_wf.
Qed.

Theorem PAGraph_lazy (R : A -> Prop) N m : drawable R -> writable N -> 1 <= m < N ->
  exists (us : list A) g, Forall R us /\ PAGraph N m us = Ok (g, []) /\ length (earlier g (N - 1)) = 1.
Proof.
  intros HL HN Hm. destruct (PA_lazy R N m HL HN Hm) as (us & g & F & E & D). exists us, g. specialize (E []). rewrite app_nil_r in E. splits; auto.
  pose proof (PAGraph_spec N m us HN ltac:(lia) (Forall_impl _ (proj1 HL) F)) as S. rewrite E in S. destruct S as (U & Na & _ & _ & B). specialize (B (N - 1) ltac:(lia)).
  assert (length (earlier g (N - 1)) <= degree g (N - 1)) by (unfold earlier, degree; generalize (nbrs g (N - 1)); clear; intros l; induction l as [|x l IH]; cbn [filter length]; auto; destruct (x <? N - 1); cbn [length]; lia). lia.
Qed.
End PA.

(** ** Exact arithmetic *)
Lemma good_pick_Qc ex sq (u : Qc) : (0 <= u)%Qc -> (u < 1)%Qc -> @good_pick Qc (Qc_ops ex sq) u.
Proof.
  intros H0 H1 [|n]; [|pose proof (good_draw_Qc ex sq u H0 H1 (S n) ltac:(lia)); lia].
  cbn [nfloor nmul nofnat Qc_ops]. replace (u * Qc_of_nat 0)%Qc with 0%Qc by (rewrite Qc_of_nat_0; ring). vm_compute. lia.
Qed.
Lemma pick_Qc ex sq : @drawable Qc (Qc_ops ex sq) (fun u => 0 <= u /\ u < 1)%Qc.
Proof.
  split; [intros u [H0 H1]; apply good_pick_Qc; auto|].
  intros k x Hx. destruct k as [|k].
  - assert (x = 0) by lia. subst. exists 0%Qc. splits; [apply Qcle_refl|reflexivity|reflexivity].
  - assert (P : (0 < Qc_of_nat (S k))%Qc) by (apply Qc_of_nat_pos; lia). assert (NZ : Qc_of_nat (S k) <> 0%Qc) by (intros E; rewrite E in P; discriminate).
    set (u := (Qc_of_nat x / Qc_of_nat (S k))%Qc). assert (E : (u * Qc_of_nat (S k))%Qc = Qc_of_nat x) by (unfold u; field; auto).
    assert (H0 : (0 <= u)%Qc). { apply Qcnot_lt_le. intros F. assert (G : (u * Qc_of_nat (S k) < 0 * Qc_of_nat (S k))%Qc) by (apply Qcmult_lt_compat_r; auto). rewrite E, Qcmult_0_l in G. pose proof (Qc_of_nat_nonneg x) as H. exact (Qclt_not_le _ _ G H). }
    assert (H1 : (u < 1)%Qc). { apply Qcnot_le_lt. intros F. assert (G : (1 * Qc_of_nat (S k) <= u * Qc_of_nat (S k))%Qc) by (apply Qcmult_le_compat_r; auto using Qclt_le_weak). rewrite E, Qcmult_1_l in G. apply (Qcle_not_lt _ _ G). apply Qc_of_nat_lt. lia. }
    exists u. splits; auto. cbn [nfloor nmul nofnat Qc_ops]. rewrite E. unfold Qc_of_nat. cbn [this Q2Qc]. rewrite (Qfloor_comp _ _ (Qred_correct _)). rewrite Qfloor_Z. apply Nat2Z.id.
Qed.

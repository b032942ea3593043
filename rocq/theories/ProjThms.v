(** ProjThms.v -- ProjectBipartEdgeList as a whole, for any arithmetic. *)
From Coq Require Import List Arith ZArith Lia Bool Sorting.Sorted Sorting.Permutation.
From Verif Require Import Base ListLib PartModel FillModel PartSpec AdjSpec FillProof EdgeListProof ProjModel RunLib ProjProof.
Import ListNotations.
Local Open Scope nat_scope.

Section Proj.
Context {A : Type} {ops : NumOps A}.
Implicit Types (e : Edge A) (ed : list (Edge A)) (p : partition A).

Lemma scale_row (f : A) n : forall a st, a + n <= length st ->
  exists st', foldM (fun st k => do x <- get st k; set st k (nmul x f)) st (seq a n) = Ok st' /\ length st' = length st /\
    forall k, nth_error st' k = if (a <=? k) && (k <? a + n) then option_map (fun x => nmul x f) (nth_error st k) else nth_error st k.
Proof.
  induction n as [|n IH]; intros a st H; cbn [seq foldM].
  - exists st. splits; auto. intros k. destruct (Nat.leb_spec a k), (Nat.ltb_spec k (a + 0)); auto; lia.
  - destruct (nth_ex st a) as [x Ex]; [lia|]. rewrite (get_ok _ _ _ Ex). cbn [bind]. rewrite set_ok by lia. cbn [bind].
    destruct (IH (S a) (upd st a (nmul x f))) as (st' & E & L & G). { rewrite length_upd. lia. }
    rewrite length_upd in L. exists st'. splits; auto. intros k. rewrite G, nth_upd.
    destruct (Nat.eqb_spec k a) as [->|Hne].
    + rewrite (proj2 (Nat.leb_gt (S a) a)) by lia. cbn [andb]. rewrite (proj2 (Nat.ltb_lt a (length st))) by lia.
      rewrite Nat.leb_refl, (proj2 (Nat.ltb_lt a (a + S n))) by lia. cbn [andb]. now rewrite Ex.
    + cbn [andb]. destruct (Nat.leb_spec (S a) k), (Nat.leb_spec a k), (Nat.ltb_spec k (S a + n)), (Nat.ltb_spec k (a + S n)); auto; lia.
Qed.

Lemma pj_scale_spec (C : list (nat * nat * A)) N aidx fac1 fac2 (p0 p : partition A) st0 (g : nat -> A -> A) :
  (forall i, i <= N -> nth_error aidx i = Some (offset C i)) -> offset C N <= length st0 ->
  length (pnodes p0) = N -> pstate g p0 p ->
  exists p' st, foldM (pj_scale aidx fac1 fac2) (p, st0) (seq 0 N) = Ok (p', st) /\ length st = length st0 /\
    pstate (fun i s => nmul (g i s) fac2) p0 p' /\
    (forall k, nth_error st k = if k <? offset C N then option_map (fun x => nmul x fac1) (nth_error st0 k) else nth_error st0 k).
Proof.
  intros HA HL HN (P1 & P2 & P3 & P4 & P5 & P6).
  destruct (foldM_seq (fun m '(q, st) => length st = length st0 /\
     (pN q = pN p0 /\ pM q = pM p0 /\ pnempty q = pnempty p0 /\ pmods q = pmods p0 /\ length (pnodes q) = length (pnodes p0) /\
       (forall i nd, nth_error (pnodes p0) i = Some nd -> nth_error (pnodes q) i = Some (set_nstr (if i <? m then nmul (g i (nstr nd)) fac2 else g i (nstr nd)) nd))) /\
     (forall k, nth_error st k = if k <? offset C m then option_map (fun x => nmul x fac1) (nth_error st0 k) else nth_error st0 k))
    (pj_scale aidx fac1 fac2) N (p, st0)) as ([q st] & E & L & HP & HS).
  - splits; auto.
  - intros m [q st] Hm (L & (Q1 & Q2 & Q3 & Q4 & Q5 & Q6) & HS). unfold pj_scale, upd_node.
    destruct (nth_ex (pnodes p0) m) as [nd End]; [lia|]. specialize (Q6 m nd End) as Eq.
    rewrite (get_ok _ _ _ Eq). cbn [bind]. rewrite (get_ok _ _ _ (HA m ltac:(lia))). cbn [bind].
    rewrite (get_ok _ _ _ (HA (m + 1) ltac:(lia))). cbn [bind].
    assert (O : offset C (m + 1) = offset C m + degree_of C m) by (rewrite Nat.add_1_r; auto).
    assert (O2 : offset C (m + 1) <= offset C N) by (apply offset_mono; lia).
    destruct (scale_row fac1 (offset C (m + 1) - offset C m) (offset C m) st) as (st' & E' & L' & G'); [lia|].
    rewrite E'. cbn [bind]. eexists. split; [reflexivity|]. cbv beta iota. cbn [pN pM pnempty pmods pnodes set_nodes].
    splits; auto; try congruence.
    + now rewrite length_upd.
    + intros i nd' E2. destruct (Nat.eq_dec i m) as [->|Hne].
      * rewrite nth_upd_eq by lia. rewrite End in E2. injection E2 as <-.
        rewrite (proj2 (Nat.ltb_lt m (m + 1))), Nat.ltb_irrefl by lia. reflexivity.
      * rewrite nth_upd_neq by auto. rewrite (Q6 i nd' E2).
        destruct (Nat.ltb_spec i m), (Nat.ltb_spec i (m + 1)); auto; lia.
    + intros k. rewrite G', HS. replace (offset C m + (offset C (m + 1) - offset C m)) with (offset C (m + 1)) by lia.
      destruct (Nat.leb_spec (offset C m) k), (Nat.ltb_spec k (offset C (m + 1))), (Nat.ltb_spec k (offset C m)); cbn [andb]; auto; lia.
  - exists q, st. splits; auto. unfold pstate. destruct HP as (Q1 & Q2 & Q3 & Q4 & Q5 & Q6). splits; auto.
    intros i nd E2. rewrite (Q6 i nd E2). rewrite (proj2 (Nat.ltb_lt i N)); auto. apply nth_lt in E2. lia.
Qed.

Variable qsort : list (Edge A) -> list (Edge A).
Hypothesis qperm : forall l, Permutation l (qsort l).

Definition sorted_edges (es : list (nat * nat * A)) : list (Edge A) := qsort (map toE es).
Definition projected (es : list (nat * nat * A)) : list (Edge A) := qsort (pairs_of (runs teamk (sorted_edges es))).
Definition links (es : list (nat * nat * A)) : list (nat * nat * A) := classes (runs pairk (projected es)).

Theorem Project_ok es z1 z2 : Forall (pr_ok (numN es)) (projected es) ->
  (forall e, In e (projected es) -> pairk e <> pairk z2) ->
  let N := numN es in
  let fac1 := ndiv n1 (fac1_of (runs teamk (sorted_edges es))) in
  let fac2 := ndiv n1 (fac2_of (runs teamk (sorted_edges es))) in
  exists p0 p adj, ProjectBipartEdgeList qsort (Some n0) (Some z1) (Some z2) es = Ok (length (links es), p, adj) /\
    CreatePartition N N = Ok p0 /\ pstate (fun i s => nmul (wsum (sorted_edges es) i s) fac2) p0 p /\
    adj_ok adj N /\ aE adj = length (links es) /\ nth_error (aidx adj) N = Some (2 * length (links es)) /\
    (forall i, i < N -> row adj i = map (fun '(j, w) => (j, nmul w fac1)) (plain (links es) i)).
Proof.
  intros HP Hz N fac1 fac2. unfold ProjectBipartEdgeList. rewrite pj_read_spec. fold N. fold (sorted_edges es). set (ed := sorted_edges es) in *.
  destruct (CreatePartition_fresh N N (le_n N)) as (p0 & E0 & F0 & N0 & M0 & G0). rewrite E0. cbn [bind].
  assert (LN0 : length (pnodes p0) = N) by (rewrite (fr_N _ F0); auto).
  assert (Hed : forall e, In e ed -> enode1 e < length (pnodes p0)).
  { intros e He. rewrite LN0. apply (Permutation_in _ (Permutation_sym (qperm _))) in He.
    apply in_map_iff in He as ([[a b] w] & <- & Hin). cbn. apply (numN_lt es a b w Hin). }
  destruct (pj_count_spec ed z1 p0 Hed) as (p1 & E1 & HP1). rewrite E1. cbn [bind jEmax jpart jfac1 jfac2].
  destruct (pj_team_spec ed z1) as (x & E2). rewrite E2. cbn [bind]. set (P := pairs_of (runs teamk ed)) in *.
  rewrite firstn_all2 by (rewrite map_length; lia). rewrite pj_written_some. cbn [bind].
  rewrite map_length, Nat.eqb_refl. change (qsort P) with (projected es). set (pr := projected es) in *.
  assert (LP : length P = length pr) by (apply Permutation_length, qperm).
  rewrite LP. destruct (pj_degree_spec N pr z2 HP) as (deg & E3 & D1 & D2). rewrite E3. cbn [bind].
  change (length (runs pairk pr)) with (length (runs pairk pr)).
  assert (LC : length (runs pairk pr) = length (links es)) by (unfold links, classes; now rewrite map_length).
  rewrite LC. set (C := links es) in *. change (classes (runs pairk pr)) with C in D2.
  destruct (classes_ok N pr HP) as [NL IR]. change (classes (runs pairk pr)) with C in NL, IR.
  cbn [aidx anb astr CreateAdjaArray].
  destruct (pj_index_spec C N deg (upd (repeat 0 (N + 1)) N (2 * length C))) as (idx & ai & k & E4 & I1 & I2 & I3 & I4 & I5); auto.
  { rewrite length_upd. apply repeat_length. }
  rewrite nth_upd_eq in I5 by (rewrite repeat_length; lia).
  rewrite E4. cbn [bind].
  destruct (pj_fill_spec N pr z2 (repeat 0 (2 * length C + 1)) (repeat n0 (2 * length C + 1)) idx) as (nb & st & idx' & E5 & J1 & J2 & J3); auto.
  { change (classes (runs pairk pr)) with C. rewrite repeat_length. lia. }
  { now rewrite !repeat_length. }
  { intros i Hi. rewrite repeat_length in Hi. apply nth_error_repeat; auto. }
  change (classes (runs pairk pr)) with C in J3. rewrite repeat_length in J1, J2.
  rewrite E5. cbn [bind].
  assert (HO : forall i, i <= N -> nth_error ai i = Some (offset C i)).
  { intros i Hi. destruct (Nat.eq_dec i N) as [->|]; [|apply I4; lia]. rewrite I5, (offset_total N C NL IR). auto. }
  assert (OT : offset C N = 2 * length C) by apply (offset_total N C NL IR).
  destruct (pj_scale_spec C N ai fac1 fac2 p0 p1 st (wsum ed) HO) as (p2 & st' & E6 & K1 & K2 & K3); auto; [lia|].
  fold fac1 fac2. rewrite E6. cbn [bind]. set (adj := mkAdja _ _ _ _ _).
  assert (CELL : forall i k j w, i < N -> nth_error (plain C i) k = Some (j, w) ->
     nth_error nb (offset C i + k) = Some j /\ nth_error st' (offset C i + k) = Some (nmul w fac1)).
  { intros i t j w Hi E. destruct (J3 i t j w Hi E) as [A1 A2]. split; auto. rewrite K3, A2.
    assert (T : t < degree_of C i) by (rewrite <- plain_length; eapply nth_lt; eauto).
    pose proof (offset_mono C (S i) N Hi) as O. cbn [offset] in O. rewrite (proj2 (Nat.ltb_lt _ _)) by lia. auto. }
  assert (Hnth : forall i a b, nth_error (aidx adj) i = Some a -> nth_error (aidx adj) (i + 1) = Some b ->
            i < N /\ a = offset C i /\ b = offset C i + degree_of C i).
  { intros i a b Ea Eb. apply nth_lt in Eb as Hb. cbn [aidx adj] in Hb. rewrite I2 in Hb.
    assert (Hi : i < N) by lia. split; auto. cbn [aidx adj] in Ea, Eb.
    rewrite HO in Ea by lia. rewrite HO in Eb by lia. rewrite Nat.add_1_r in Eb. cbn [offset] in Eb. split; congruence. }
  assert (Hok : adj_ok adj N).
  { constructor; auto.
    - intros i a b Ea Eb. destruct (Hnth i a b Ea Eb) as (_ & -> & ->). lia.
    - intros i a b t Ea Eb H1 H2. destruct (Hnth i a b Ea Eb) as (Hi & -> & ->).
      destruct (nth_ex (plain C i) (t - offset C i)) as [[j w] Ej]; [rewrite plain_length; lia|].
      destruct (CELL i (t - offset C i) j w Hi Ej) as [X _]. exists j. cbn [anb adj]. split.
      + rewrite <- X. f_equal; lia.
      + apply nth_error_In in Ej. unfold plain in Ej. apply in_flat_map in Ej as ([[u y] v] & Hin & Hj).
        unfold in_range in IR. rewrite Forall_forall in IR. specialize (IR _ Hin). cbn in IR.
        destruct (u =? i); [|destruct (y =? i)]; cbn in Hj; try tauto; destruct Hj as [Hj|[]]; injection Hj as <- _; tauto.
    - intros i a b t Ea Eb H1 H2. destruct (Hnth i a b Ea Eb) as (Hi & -> & ->).
      destruct (nth_ex (plain C i) (t - offset C i)) as [[j w] Ej]; [rewrite plain_length; lia|].
      destruct (CELL i (t - offset C i) j w Hi Ej) as [_ X]. exists (nmul w fac1). cbn [astr adj]. rewrite <- X. f_equal; lia. }
  exists p0, p2, adj. splits; auto.
  intros i Hi. apply ListLib.nth_ext. intros t.
  destruct (row_nth adj N i (offset C i) (offset C (i + 1)) Hok) as [L G]; [apply HO; lia|apply HO; lia|].
  assert (Hd : offset C (i + 1) - offset C i = degree_of C i) by (rewrite Nat.add_1_r; cbn [offset]; lia). rewrite Hd in *.
  destruct (lt_dec t (degree_of C i)) as [Ht|Ht].
  - destruct (G t Ht) as (j & w & E & X1 & X2 & _). rewrite E.
    destruct (nth_ex (plain C i) t) as [[j' w'] Ej]; [rewrite plain_length; lia|].
    destruct (CELL i t j' w' Hi Ej) as [Y1 Y2]. cbn [anb astr adj] in X1, X2. rewrite X1 in Y1. rewrite X2 in Y2.
    rewrite nth_error_map, Ej. cbn [option_map]. congruence.
  - rewrite (proj2 (nth_error_None _ _)) by lia. symmetry. apply nth_error_None. rewrite map_length, plain_length. lia.
Qed.

(** Undefined behaviour on every input that has an edge. *)
Theorem Project_uninit es past1 past2 : es <> [] ->
  ProjectBipartEdgeList qsort None past1 past2 es = Err UB_uninit.
Proof.
  intros Hne. unfold ProjectBipartEdgeList. rewrite pj_read_spec.
  destruct (CreatePartition_fresh (numN es) (numN es) (le_n _)) as (p0 & E0 & _). rewrite E0. cbn [bind].
  rewrite pj_count_uninit; auto. intros E. apply Hne.
  pose proof (Permutation_length (qperm (map toE es))) as L. rewrite E, map_length in L. now apply length_zero_iff_nil in L.
Qed.
Theorem Project_past es x past2 : es <> [] ->
  ProjectBipartEdgeList qsort (Some x) None past2 es = Err UB_oob.
Proof.
  intros Hne. unfold ProjectBipartEdgeList. rewrite pj_read_spec.
  destruct (CreatePartition_fresh (numN es) (numN es) (le_n _)) as (p0 & E0 & F0 & N0 & _). rewrite E0. cbn [bind].
  rewrite pj_count_past; auto.
  - intros E. apply Hne. pose proof (Permutation_length (qperm (map toE es))) as L. rewrite E, map_length in L. now apply length_zero_iff_nil in L.
  - intros e He. rewrite (fr_N _ F0), N0. apply (Permutation_in _ (Permutation_sym (qperm _))) in He.
    apply in_map_iff in He as ([[a b] w] & <- & Hin). cbn. apply (numN_lt es a b w Hin).
Qed.

End Proj.

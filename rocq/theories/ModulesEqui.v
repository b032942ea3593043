(** ModulesEqui.v -- groups of equal size in the order of the nodes. *)
From Coq Require Import List Arith ZArith Bool QArith Qcanon Lia Permutation.
From Verif Require Import Base Num ListLib NatSum QcSum IoModel GraphModel GraphSpec GraphProof GroupModel GroupSpec GroupProof GroupExact ModulesModel ModulesSpec.
Import ListNotations.
Local Open Scope nat_scope.

Section Any.
Context {A : Type} {ops : NumOps A}.
Implicit Types (g : net A) (P Q : gpart A).

Lemma upd_last {X} (l : list X) x y : upd (l ++ [x]) (length l) y = l ++ [y].
Proof. induction l as [|z l IH]; [reflexivity|]. cbn [app length upd]. f_equal. exact IH. Qed.
(** Groups of the first nodes: the group [k] takes the nodes from [c0] on, [c] is the next node. *)
Definition filled (M0 M : groups) (k c0 c : nat) : Prop :=
  M = M0 ++ [(k, seq c0 (c - c0))] /\ length M0 = k /\ (forall lab l i, In (lab, l) M0 -> In i l -> i < c0).
Lemma filled_add M0 M k c0 c : filled M0 M k c0 c -> c0 <= c -> grop_do M (GAdd k c) = upd M k (k, seq c0 (c + 1 - c0)) /\ filled M0 (upd M k (k, seq c0 (c + 1 - c0))) k c0 (c + 1) /\
  (forall m, ~ In c (nth_members M m)) /\ k < length M.
Proof.
  intros (-> & L & H) Hc. assert (EN : nth_error (M0 ++ [(k, seq c0 (c - c0))]) k = Some (k, seq c0 (c - c0))).
  { rewrite nth_error_app2 by lia. replace (k - length M0) with 0 by lia. reflexivity. }
  assert (ES : seq c0 (c + 1 - c0) = seq c0 (c - c0) ++ [c]).
  { replace (c + 1 - c0) with ((c - c0) + 1) by lia. rewrite seq_app. simpl. repeat f_equal. lia. }
  cbn [grop_do]. rewrite (nth_members_eq _ _ _ _ EN), (set_members_eq _ _ _ _ _ EN), ES. splits; auto.
  - unfold filled. rewrite ES. splits; auto. rewrite <- L at 2. apply upd_last.
  - intros m Hm. unfold nth_members in Hm. destruct (nth_error (M0 ++ [(k, seq c0 (c - c0))]) m) as [[lab l]|] eqn:E; [|destruct Hm]. apply nth_error_In in E. apply in_app_or in E as [E|[[= <- <-]|[]]].
    + specialize (H _ _ _ E Hm). lia.
    + apply in_seq in Hm. lia.
  - rewrite app_length. simpl. lia.
Qed.
Lemma equi_inner M0 k c0 m : forall g P c, undirected g -> mapped g P -> filled M0 (abs P) k c0 c -> c0 <= c -> c <= length g -> forall j,
  (c + m <= length g -> exists g' P', foldM (equi_step (length g) k) ((g, P), Some c) (seq j m) = Ok ((g', P'), Some (c + m)) /\ undirected g' /\ mapped g' P' /\ same_but_group g g' /\ filled M0 (abs P') k c0 (c + m)) /\
  (c + m = length g + 1 -> exists g' P', foldM (equi_step (length g) k) ((g, P), Some c) (seq j m) = Ok ((g', P'), None) /\ undirected g' /\ mapped g' P' /\ same_but_group g g' /\ filled M0 (abs P') k c0 (length g)) /\
  (length g + 1 < c + m -> foldM (equi_step (length g) k) ((g, P), Some c) (seq j m) = Err UB_null).
Proof.
  induction m as [|m IH]; intros g P c U M F Hc Lc j.
  - cbn [seq foldM]. rewrite Nat.add_0_r. splits; [|lia|lia]. intros _. exists g, P. splits; auto. apply sbg_refl.
  - cbn [seq foldM]. destruct (Nat.ltb_spec c (length g)) as [L|L].
    + destruct (filled_add _ _ _ _ _ F Hc) as (EQ & F' & HI & HK).
      destruct (groups_run g P [GAdd k c] U M) as (g1 & P1 & E1 & U1 & M1 & S1 & A1).
      { cbn [grops_ok grop_ok]. splits; auto. } cbn [foldM run_grop] in E1. cbn [fold_left] in A1.
      assert (EA : AddNodeToGroup (g, P) k c = Ok (g1, P1)) by (destruct (AddNodeToGroup (g, P) k c) as [x|]; cbn [bind] in E1; congruence).
      assert (ES : equi_step (length g) k ((g, P), Some c) j = Ok ((g1, P1), Some (c + 1))) by (unfold equi_step; cbn [deref bind]; rewrite (proj2 (Nat.ltb_lt _ _) L), EA; reflexivity).
      rewrite ES. cbn [bind]. pose proof (sbg_length _ _ S1) as L1. rewrite EQ in A1. rewrite <- A1 in F'.
      destruct (IH g1 P1 (c + 1) U1 M1 F' ltac:(lia) ltac:(lia) (S j)) as (I1 & I2 & I3). rewrite L1 in *. splits; intros K.
      * destruct I1 as (g' & P' & -> & U' & M' & S' & F''); [lia|]. exists g', P'. replace (c + S m) with (c + 1 + m) by lia. splits; auto. eapply sbg_trans; eauto.
      * destruct I2 as (g' & P' & -> & U' & M' & S' & F''); [lia|]. exists g', P'. splits; auto. eapply sbg_trans; eauto.
      * apply I3. lia.
    + assert (c = length g) by lia. subst c.
      assert (ES : equi_step (length g) k ((g, P), Some (length g)) j = Ok ((g, P), None)) by (unfold equi_step; cbn [deref bind]; rewrite Nat.ltb_irrefl; reflexivity).
      rewrite ES. cbn [bind]. splits; intros K; [lia| |].
      * assert (m = 0) by lia. subst m. cbn [seq foldM]. exists g, P. splits; auto. apply sbg_refl.
      * destruct m as [|m]; [lia|]. reflexivity.
Qed.

Definition full (s k : nat) : groups := map (fun i => (i, seq (i * s) s)) (seq 0 k).
Lemma full_S s k : full s (k + 1) = full s k ++ [(k, seq (k * s) s)].
Proof. unfold full. rewrite seq_app, map_app. reflexivity. Qed.
Lemma full_length s k : length (full s k) = k.
Proof. unfold full. now rewrite map_length, seq_length. Qed.
Lemma full_lt s k lab l i : In (lab, l) (full s k) -> In i l -> i < k * s.
Proof.
  intros H Hi. unfold full in H. apply in_map_iff in H as (j & [= <- <-] & Hj). apply in_seq in Hj. apply in_seq in Hi. assert ((j + 1) * s <= k * s) by (apply Nat.mul_le_mono_r; lia). lia.
Qed.
Lemma full_labels s k lab : In lab (map fst (full s k)) -> lab < k.
Proof. intros H. apply in_map_iff in H as ([a l] & <- & H). unfold full in H. apply in_map_iff in H as (j & [= <- <-] & Hj). apply in_seq in Hj. simpl. lia. Qed.

Lemma equi_new g P k gsize : undirected g -> mapped g P -> abs P = full gsize k -> exists Q,
  CreateGroup P k = (k, Q) /\ mapped g Q /\ filled (full gsize k) (abs Q) k (k * gsize) (k * gsize).
Proof.
  intros U M EA. assert (LP : length P = k) by (rewrite <- (full_length gsize k), <- EA; unfold abs; now rewrite map_length).
  destruct (groups_run g P [GNew k] U M) as (g1 & P1 & E1 & U1 & M1 & S1 & A1).
  { cbn [grops_ok grop_ok]. split; auto. rewrite EA. intros K. apply full_labels in K. lia. }
  cbn [foldM run_grop fst snd CreateGroup bind] in E1. injection E1 as <- <-. cbn [fold_left grop_do] in A1. eexists. splits; [unfold CreateGroup; rewrite LP; reflexivity|exact M1|].
  unfold filled. rewrite A1, EA, Nat.sub_diag, full_length. cbn [seq]. splits; auto. intros; eapply full_lt; eauto.
Qed.
Lemma equi_outer g gsize : undirected g -> mapped g [] -> forall k, k * gsize <= length g -> exists g' P',
  foldM (equi_group (length g) gsize) ((g, []), Some 0) (seq 0 k) = Ok ((g', P'), Some (k * gsize)) /\
  undirected g' /\ mapped g' P' /\ same_but_group g g' /\ abs P' = full gsize k.
Proof.
  intros U M. induction k as [|k IH]; intros Hk.
  - exists g, []. cbn [seq foldM]. splits; auto. apply sbg_refl.
  - destruct IH as (g1 & P1 & E1 & U1 & M1 & S1 & A1); [lia|]. destruct (equi_new g1 P1 k gsize U1 M1 A1) as (Q & EQ & MQ & FQ).
    destruct (equi_inner (full gsize k) k (k * gsize) gsize g1 Q (k * gsize) U1 MQ FQ) with (j := 0) as (I1 & _); auto; [rewrite (sbg_length _ _ S1); lia|]. rewrite (sbg_length _ _ S1) in I1.
    destruct I1 as (g2 & P2 & E2 & U2 & M2 & S2 & (F1 & F2 & F3)); [lia|].
    exists g2, P2. replace (S k) with (k + 1) by lia. rewrite seq_app, foldM_app, E1. cbn [bind seq foldM]. rewrite Nat.add_0_l. cbn [equi_group snd fst]. rewrite EQ, E2. cbn [bind].
    replace ((k + 1) * gsize) with (k * gsize + gsize) by lia. splits; auto; [eapply sbg_trans; eauto|].
    rewrite full_S, F1. replace (k * gsize + gsize - k * gsize) with gsize by lia. reflexivity.
Qed.
Lemma last_lt N s : s <> 0 -> Nat.div N s * s <= N /\ N < Nat.div N s * s + s.
Proof. intros H. pose proof (Nat.div_mod N s H). pose proof (Nat.mod_upper_bound N s H). lia. Qed.

(** It works exactly when one more node would fill the last group. *)
Theorem CreateEquiN_spec g gsize : undirected g -> (forall i n, nth_error g i = Some n -> ggroup n = None) -> 0 < gsize ->
  if (Nat.modulo (length g + 1) gsize =? 0) then
    exists g' P', CreateEquiNPartition g gsize = Ok (g', P') /\ undirected g' /\ same_but_group g g' /\ mapped g' P' /\
      (forall i, i < length g -> home (abs P') i = Some (Nat.div i gsize)) /\ (forall G, In G P' -> members G <> [])
  else CreateEquiNPartition g gsize = Err UB_null.
Proof.
  intros U HG Hs. set (N := length g). set (k := Nat.div N gsize). destruct (last_lt N gsize) as [K1 K2]; [lia|]. fold k in K1, K2.
  destruct (equi_outer g gsize U (mapped_nil g HG) k K1) as (g1 & P1 & E1 & U1 & M1 & S1 & A1). fold N in E1.
  destruct (equi_new g1 P1 k gsize U1 M1 A1) as (Q & EQ & MQ & FQ). pose proof (sbg_length _ _ S1) as L1. fold N in L1.
  destruct (equi_inner (full gsize k) k (k * gsize) gsize g1 Q (k * gsize) U1 MQ FQ) with (j := 0) as (_ & I2 & I3); auto; [lia|]. rewrite L1 in I2, I3.
  assert (EC : CreateEquiNPartition g gsize = (do (st, _) <- foldM (equi_step N k) ((g1, Q), Some (k * gsize)) (seq 0 gsize); Ok (fst st, CompressPart (snd st)))).
  { unfold CreateEquiNPartition, CountNodes. destruct (Nat.eqb_spec gsize 0); [lia|]. cbn [negb check bind]. fold N. fold k.
    rewrite seq_app, foldM_app, E1. cbn [bind seq foldM]. rewrite Nat.add_0_l. cbn [equi_group snd fst]. rewrite EQ. destruct (foldM (equi_step N k) _ _); reflexivity. }
  assert (EM : Nat.modulo (N + 1) gsize = 0 <-> k * gsize + gsize = N + 1).
  { split; intros K.
    - apply Nat.mod_divide in K as [q Hq]; [|lia]. assert (q = k + 1) by nia. nia.
    - replace (N + 1) with ((k + 1) * gsize) by lia. apply Nat.mod_mul. lia. }
  rewrite EC. fold N. destruct (Nat.eqb_spec (Nat.modulo (N + 1) gsize) 0) as [K|K].
  - destruct I2 as (g2 & P2 & E2 & U2 & M2 & S2 & (F1 & F2 & _)); [now apply EM|]. rewrite E2. cbn [bind fst snd].
    destruct (groups_run g2 P2 [GCompress] U2 M2 (conj I I)) as (g3 & P3 & E3 & U3 & M3 & S3 & A3). cbn [foldM run_grop bind fst snd] in E3. injection E3 as <- <-.
    cbn [fold_left grop_do] in A3. exists g2, (CompressPart P2). splits; auto; [eapply sbg_trans; eauto| |].
    + intros i Li. apply home_iff; [apply good_map; split; [|split]; apply M3|]. rewrite A3, F1.
      assert (Li' : i < N) by exact Li. pose proof (Nat.div_mod i gsize ltac:(lia)) as D. pose proof (Nat.mod_upper_bound i gsize ltac:(lia)) as B. set (q := Nat.div i gsize) in *.
      destruct (Nat.lt_ge_cases q k) as [Lq|Lq].
      * exists (seq (q * gsize) gsize). assert (Hi : In i (seq (q * gsize) gsize)) by (apply in_seq; nia). split; auto. apply filter_In. split.
        -- apply in_or_app. left. unfold full. apply in_map_iff. exists q. split; auto. apply in_seq. lia.
        -- cbn [snd]. destruct (seq (q * gsize) gsize); [destruct Hi|reflexivity].
      * assert (q = k) by nia. exists (seq (k * gsize) (N - k * gsize)). assert (Hi : In i (seq (k * gsize) (N - k * gsize))) by (apply in_seq; nia). split; auto. apply filter_In. split.
        -- apply in_or_app. right. left. congruence.
        -- cbn [snd]. destruct (seq (k * gsize) (N - k * gsize)); [destruct Hi|reflexivity].
    + intros G HG0 E0. assert (HI : In (plabel G, members G) (abs (CompressPart P2))) by (apply in_abs; eauto). rewrite A3 in HI. apply filter_In in HI as [_ HI]. cbn [snd] in HI. rewrite E0 in HI. discriminate.
  - rewrite I3; [reflexivity|]. assert (k * gsize + gsize <> N + 1) by (intros K'; apply K, EM, K'). lia.
Qed.
End Any.

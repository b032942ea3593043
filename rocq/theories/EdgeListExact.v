(** EdgeListExact.v -- exact arithmetic: what the converted edge list satisfies, and strengths after assignment
    and compression. *)
From Coq Require Import List Arith Lia Bool QArith Qcanon.
From Verif Require Import Base Num ListLib QcSum PartModel FillModel PartSpec AdjSpec ModSpec PartInv FillProof
  CompressProof EnergyForm ExactProof EdgeListProof.
Import ListNotations.
Local Open Scope nat_scope.
Local Open Scope Qc_scope.

Section ELX.
Variables ex sq : Qc -> Qc.
#[local] Instance opsL : NumOps Qc := Qc_ops ex sq.
Implicit Types (es : list (nat * nat * Qc)) (p : partition Qc).

(** Weight between two nodes in the edge list (parallel edges add up). *)
Definition pair_weight es (i j : nat) : Qc :=
  Qsum (fun '(a, b, w) => if (Nat.eqb a i && Nat.eqb b j) || (Nat.eqb a j && Nat.eqb b i) then w else 0) es.
(** Weight of the edges at a node, and total weight. *)
Definition node_weight es (i : nat) : Qc :=
  Qsum (fun '(a, b, w) => if Nat.eqb a i || Nat.eqb b i then w else 0) es.
Definition total_weight es : Qc := Qsum (fun '(_, _, w) => w) es.

Lemma weight_at_sum es i : no_loops es -> forall s, weight_at es i s = s + node_weight es i.
Proof.
  unfold weight_at, node_weight. induction es as [|[[a b] w] es IH]; intros NL s; cbn [fold_left Qsum].
  - ring.
  - apply Forall_cons_iff in NL as [Hne NL]. rewrite IH by auto.
    destruct (Nat.eqb a i); cbn [orb]; cbn [nadd opsL Qc_ops]; [ring|]. destruct (Nat.eqb b i); ring.
Qed.

Lemma weight_all_sum es : weight_all es = total_weight es.
Proof.
  unfold weight_all, total_weight.
  transitivity (fold_left (fun s x => s + (let '(_, _, w) := x in w)) es 0).
  - cbn [n0 opsL Qc_ops]. generalize 0. induction es as [|[[a b] w] es IH]; intros s; cbn [fold_left]; auto.
  - rewrite (Qsum_fold (fun x => let '(_, _, w) := x in w)). ring.
Qed.

Lemma incident_sum d es i : no_loops es -> Qsum snd (incident d es i) = node_weight es i / d.
Proof.
  intros NL. unfold node_weight. induction es as [|[[a b] w] es IH]; cbn [incident flat_map Qsum].
  - unfold Qcdiv. ring.
  - apply Forall_cons_iff in NL as [Hne NL]. rewrite Qsum_app. fold (incident d es i). rewrite IH by auto.
    destruct (Nat.eqb a i); cbn [orb Qsum snd ndiv opsL Qc_ops]; [unfold Qcdiv; ring|].
    destruct (Nat.eqb b i); cbn [Qsum snd ndiv opsL Qc_ops]; unfold Qcdiv; ring.
Qed.

Lemma incident_pair d es i j : no_loops es ->
  Qsum (fun x => if Nat.eqb (fst x) j then snd x else 0) (incident d es i) = pair_weight es i j / d.
Proof.
  intros NL. unfold pair_weight. induction es as [|[[a b] w] es IH]; cbn [incident flat_map Qsum].
  - unfold Qcdiv. ring.
  - apply Forall_cons_iff in NL as [Hne NL]. rewrite Qsum_app. fold (incident d es i). rewrite IH by auto.
    destruct (Nat.eqb_spec a i) as [->|Ha]; cbn [andb orb Qsum fst snd ndiv opsL Qc_ops].
    + destruct (Nat.eqb_spec b j) as [->|Hb]; cbn [andb orb]; [unfold Qcdiv; ring|].
      destruct (Nat.eqb_spec b i) as [->|Hb']; [congruence|]. rewrite andb_false_r. unfold Qcdiv; ring.
    + destruct (Nat.eqb_spec b i) as [->|Hb]; cbn [andb orb Qsum fst snd ndiv opsL Qc_ops]; rewrite ?andb_true_r, ?andb_false_r.
      * destruct (Nat.eqb a j); unfold Qcdiv; ring.
      * unfold Qcdiv; ring.
Qed.

Lemma pair_weight_sym es i j : pair_weight es i j = pair_weight es j i.
Proof. apply Qsum_ext. intros [[a b] w] _. rewrite orb_comm. reflexivity. Qed.

(** Handshake: every edge is met at exactly two nodes. *)
Lemma handshake N es : no_loops es -> in_range N es ->
  Qsum (node_weight es) (seq 0 N) = (1 + 1) * total_weight es.
Proof.
  intros NL IR. unfold node_weight, total_weight. rewrite Qsum_swap.
  rewrite <- Qsum_scal. apply Qsum_ext. intros [[a b] w] Hin.
  unfold no_loops, in_range in *. rewrite Forall_forall in NL, IR. specialize (NL _ Hin). destruct (IR _ Hin) as [Ha Hb]. cbn in NL.
  rewrite (Qsum_ext _ (fun i => (if Nat.eqb i a then w else 0) + (if Nat.eqb i b then w else 0))).
  - rewrite Qsum_add, (Qsum_single (fun _ => w)), (Qsum_single (fun _ => w)); try apply seq_NoDup; try (apply in_seq; lia). ring.
  - intros i _. rewrite (Nat.eqb_sym a i), (Nat.eqb_sym b i).
    destruct (Nat.eqb_spec i a) as [->|Ha']; cbn [orb]; [|ring_simplify].
    + destruct (Nat.eqb_spec a b); [congruence|]. ring.
    + destruct (Nat.eqb i b); ring.
Qed.

(** No pair of nodes is listed twice, in either direction. *)
Definition no_duplicates es : Prop :=
  forall l1 a b w l2 a' b' w', es = l1 ++ (a, b, w) :: l2 -> In (a', b', w') l2 ->
    ~ ((a' = a /\ b' = b) \/ (a' = b /\ b' = a)).

Lemma no_duplicates_tail e es : no_duplicates (e :: es) -> no_duplicates es.
Proof. intros H l1 a b w l2 a' b' w' E. apply (H (e :: l1) a b w l2). now rewrite E. Qed.

Lemma in_incident d es i j w : In (j, w) (incident d es i) ->
  exists a b v, In (a, b, v) es /\ w = v / d /\ ((a = i /\ b = j) \/ (b = i /\ a = j)).
Proof.
  unfold incident. rewrite in_flat_map. intros ([[a b] v] & Hin & H). exists a, b, v. split; auto.
  destruct (Nat.eqb_spec a i); [|destruct (Nat.eqb_spec b i)]; cbn in H; try tauto; destruct H as [[= <- <-]|[]]; auto.
Qed.

Lemma incident_in d es i j a b v : In (a, b, v) es -> a <> b -> ((a = i /\ b = j) \/ (b = i /\ a = j)) ->
  In (j, v / d) (incident d es i).
Proof.
  intros Hin Hne H. unfold incident. rewrite in_flat_map. exists (a, b, v). split; auto.
  destruct H as [[-> ->]|[-> ->]].
  - rewrite Nat.eqb_refl. left; auto.
  - rewrite (proj2 (Nat.eqb_neq j i)), Nat.eqb_refl by auto. left; auto.
Qed.

Lemma incident_nodup d es i : no_loops es -> no_duplicates es -> NoDup (map fst (incident d es i)).
Proof.
  intros NL ND. induction es as [|[[a b] w] es IH]; cbn [incident flat_map map]; [constructor|].
  apply Forall_cons_iff in NL as [Hne NL]. fold (incident d es i). rewrite map_app.
  specialize (IH NL (no_duplicates_tail _ _ ND)).
  assert (K : forall j, ((a = i /\ j = b) \/ (b = i /\ j = a)) -> ~ In j (map fst (incident d es i))).
  { intros j Hj Hin. apply in_map_iff in Hin as ([j' v] & <- & Hin). apply in_incident in Hin as (a' & b' & v' & Hin & _ & Hab).
    apply (ND [] a b w es a' b' v' eq_refl Hin). cbn [fst] in *. intuition congruence. }
  destruct (Nat.eqb_spec a i) as [Ha|Ha].
  - cbn [map app fst]. constructor; auto.
  - destruct (Nat.eqb_spec b i) as [Hb|Hb]; cbn [map app fst]; auto. constructor; auto.
Qed.

(** ** The converted graph *)
Theorem EdgeList_exact es p N M normalize : no_loops es -> in_range N es ->
  CreatePartition N M = Ok p ->
  (normalize = true -> total_weight es <> 0) ->
  exists adj p', EdgeListToAdjaArray es (CreateAdjaArray N (length es)) p normalize = Ok (adj, p') /\
    adj_ok adj N /\ sym_adj adj /\ sym_w adj /\ loop_free adj /\ (no_duplicates es -> simple_rows adj) /\
    fresh p' /\ pN p' = N /\ pM p' = M /\
    (forall i j, (i < N)%nat -> aw adj i j = pair_weight es i j / divisor es normalize) /\
    (forall i, (i < N)%nat -> kk p' i = Qsum snd (row adj i)) /\
    (forall i, (i < N)%nat -> kk p' i = node_weight es i / divisor es normalize) /\
    (normalize = true -> Qsum (kk p') (seq 0 N) = 1).
Proof.
  intros NL IR EC Hd.
  assert (HMN : (M <= N)%nat).
  { destruct (le_lt_dec M N); auto. rewrite (CreatePartition_oob N M) in EC by auto. discriminate. }
  destruct (CreatePartition_fresh N M HMN) as (p0 & E0 & F0 & N0 & M0 & G0). rewrite EC in E0. injection E0 as <-.
  assert (HN : length (pnodes p) = N) by (rewrite (fr_N _ F0); auto).
  destruct (EdgeListToAdjaArray_spec es p N normalize NL IR HN) as
    (adj & p' & E & OK & AE & ROW & P1 & P2 & P3 & P4 & P5 & P6).
  set (d := divisor es normalize) in *.
  assert (ROW0 : forall i, (N <= i)%nat -> row adj i = []).
  { intros i Hi. destruct (row adj i) as [|[j w] l] eqn:Er; auto.
    destruct (row_lt adj N i j w OK); [rewrite Er; left; auto|]. lia. }
  assert (AW : forall i j, (i < N)%nat -> aw adj i j = pair_weight es i j / d).
  { intros i j Hi. unfold aw. rewrite ROW by auto. apply incident_pair; auto. }
  assert (PW0 : forall i j, (N <= i)%nat -> pair_weight es i j = 0).
  { intros i j Hi. apply Qsum_0. intros [[a b] w] Hin. unfold in_range in IR. rewrite Forall_forall in IR.
    destruct (IR _ Hin) as [Ha Hb]. rewrite (proj2 (Nat.eqb_neq a i)), (proj2 (Nat.eqb_neq b i)) by lia.
    rewrite andb_false_r. reflexivity. }
  assert (AW2 : forall i j, aw adj i j = pair_weight es i j / d).
  { intros i j. destruct (lt_dec i N); auto. unfold aw. rewrite ROW0 by lia. rewrite PW0 by lia. unfold Qcdiv. cbn [Qsum]. ring. }
  assert (KK : forall i, (i < N)%nat -> kk p' i = node_weight es i / d).
  { intros i Hi. destruct (nth_ex (pnodes p) i) as [nd End]; [lia|].
    unfold kk, strength. rewrite (P6 i nd End). cbn [option_map nstr set_nstr ndiv opsL Qc_ops].
    rewrite weight_at_sum by auto. destruct (G0 i Hi) as [_ Gs]. unfold strength in Gs. rewrite End in Gs. cbn in Gs. injection Gs as ->.
    f_equal. ring. }
  exists adj, p'. splits; auto; try congruence.
  - (* sym_adj *)
    intros i j Hadj. apply in_map_iff in Hadj as ([j0 w] & Hj0 & H). cbn in Hj0. subst j0. destruct (row_lt adj N i j w OK H) as [Hj Hi].
    rewrite ROW in H by auto. apply in_incident in H as (a & b & v & Hin & _ & Hab).
    pose proof NL as NL'. unfold no_loops in NL'. rewrite Forall_forall in NL'. specialize (NL' _ Hin). cbn in NL'.
    apply in_map_iff. exists (i, v / d). split; auto. rewrite ROW by auto. eapply incident_in; eauto. tauto.
  - intros i j. rewrite !AW2. now rewrite pair_weight_sym.
  - intros i Hadj. apply in_map_iff in Hadj as ([j0 w] & Hj0 & H). cbn in Hj0. subst j0. destruct (row_lt adj N i i w OK H) as [Hi _]. rewrite ROW in H by auto.
    apply in_incident in H as (a & b & v & Hin & _ & Hab).
    unfold no_loops in NL. rewrite Forall_forall in NL. specialize (NL _ Hin). cbn in NL. intuition congruence.
  - intros ND i. destruct (lt_dec i N) as [Hi|Hi].
    + rewrite ROW by auto. apply incident_nodup; auto.
    + rewrite ROW0 by lia. constructor.
  - exact (EdgeList_fresh es p N normalize adj p' NL IR HN F0 E).
  - intros i Hi. rewrite KK, ROW by auto. now rewrite incident_sum.
  - intros ->. rewrite (Qsum_ext _ (fun i => node_weight es i * / d)).
    + rewrite Qsum_scal_r, handshake by auto. unfold d, divisor. rewrite weight_all_sum.
      cbn [nmul nofnat opsL Qc_ops]. rewrite Qc_of_nat_2. specialize (Hd eq_refl). field.
      split; auto. intros X. discriminate X.
    + intros i Hi. apply in_seq in Hi. rewrite KK by lia. reflexivity.
Qed.

(** ** Strengths after assignment *)
Lemma strengths_assign_random p ds p' ds' : fresh p -> pN p <> pM p -> Forall (fun j => (j < pM p)%nat) ds -> (pN p <= length ds)%nat ->
  AssignNodesToModules p ds = Ok (p', ds') -> strengths_ok p'.
Proof.
  intros F Hne Hds Hlen E.
  assert (H0 : forall m md, nth_error (pmods p) m = Some md -> mstr md = 0).
  { intros m md Em. now rewrite (fr_mod _ F m md Em). }
  destruct (AssignNodes_random (fun q ls => forall m md, nth_error (pmods q) m = Some md -> mstr md = Qsum (kk q) (ls m)) p ds)
   as (q & ls & Eq & W & X & _); auto.
  - intros k q ls j nd q' W En Hj W' S' St' X m md Em.
    specialize (St' m). rewrite Em in St'. cbn in St'. unfold appended_str in St'.
    assert (KK : forall i, kk q' i = kk q i) by (intros i; unfold kk; now rewrite S').
    rewrite (Qsum_ext (kk q') (kk q)) by auto.
    destruct (nth_error (pmods q) m) as [md0|] eqn:E0; [|discriminate]. injection St' as ->.
    destruct (Nat.eqb_spec m j) as [->|Hmj].
    + rewrite fupd_eq, Qsum_app. cbn [Qsum]. rewrite (kk_node q k nd En).
      destruct (Nat.eqb_spec (msize md0) 0) as [Hz|Hz].
      * rewrite (pw_size _ _ _ W _ _ E0) in Hz. apply length_zero_iff_nil in Hz. rewrite Hz. cbn [Qsum]. ring.
      * rewrite (X j md0 E0). cbn [nadd opsL Qc_ops]. ring.
    + rewrite fupd_neq by auto. apply X; auto.
  - rewrite E in Eq. injection Eq as <- _. apply (strengths_ls p' ls W). exact X.
Qed.

Lemma strengths_assign_singletons p ds p' ds' : fresh p -> pN p = pM p ->
  AssignNodesToModules p ds = Ok (p', ds') -> strengths_ok p'.
Proof.
  intros F HE E. destruct (AssignNodes_singletons p ds F HE) as (q & Eq & W & N' & M' & G & S & St).
  rewrite E in Eq. injection Eq as <- <-. apply (strengths_ls p' _ W). intros m md Em.
  apply nth_lt in Em as Hm. rewrite (wf_M _ _ W), M', <- HE in Hm. rewrite (proj2 (Nat.ltb_lt _ _) Hm). cbn [Qsum].
  specialize (St m Hm). rewrite Em in St. cbn in St. unfold kk. rewrite S, <- St. ring.
Qed.

(** ** Strengths and modularity after compression *)
Lemma strengths_compress p ls p' : WF p ls -> (0 < pN p)%nat -> strengths_ok p -> CompressPartition p = Ok p' -> strengths_ok p'.
Proof.
  intros W HN S E. destruct (CompressPartition_spec p ls W HN) as (q & lq & f & Eq & Wq & N' & M' & NE' & G & L & NN & St).
  rewrite E in Eq. injection Eq as <-. apply (strengths_ls p' lq Wq). intros m md Em.
  apply nth_lt in Em as Hm. rewrite (wf_M _ _ Wq) in Hm. specialize (NN m Hm).
  destruct (lq m) as [|i l] eqn:El; [congruence|].
  assert (Hi : In i (lq m)) by (rewrite El; left; auto).
  apply (wf_mem _ _ Wq) in Hi as Gi. rewrite G in Gi. destruct (group p i) as [x|] eqn:Ex; [|discriminate].
  cbn in Gi. injection Gi as <-. apply (wf_mem _ _ W) in Ex.
  destruct (L x) as [L1 L2]; [intros X; rewrite X in Ex; destruct Ex|].
  rewrite Em in L2. cbn in L2. destruct (nth_error (pmods p) x) as [mx|] eqn:Emx; [|discriminate]. injection L2 as ->.
  rewrite (proj1 (strengths_ls p ls W) S x mx Emx). rewrite <- El, L1. apply Qsum_ext. intros; unfold kk; now rewrite St.
Qed.

End ELX.

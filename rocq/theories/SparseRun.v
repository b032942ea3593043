(** SparseRun.v -- what the Gibbs sampler for sparse networks (src/sparse_missing.c) computes: energy, set-up, thermalisation, scores. *)
From Coq Require Import List Arith ZArith Bool QArith Qcanon Lia.
From Verif Require Import Base Num ListLib NatSum QcSum GraphModel GraphSpec GraphProof GroupModel GroupSpec PairSum GroupProof GroupExact MatLib
  ToolsModel ToolsProof ModulesModel SAProof MissModel MissSpec MissSets MissStep MissRun MissScore MissExact MbModel MbSpec MbStep MbRun MbExact MbScore GibbsModel GibbsSpec GibbsSets GibbsStep GibbsRun GibbsExact
  SparseModel SparseSpec SparseStep.
From Verif Require RecSpec RecGibbs RolesBounds.
Import ListNotations.
Local Open Scope nat_scope.

Section Run.
Variables ex sq : Qc -> Qc.
Hypothesis ex_pos : forall x, (0 < ex x)%Qc.
Local Instance rops : NumOps Qc := Qc_ops ex sq.
Variable lngamma : Qc -> Qc.
Variable lnfact : nat -> Qc.
Variables lgsize lfsize : nat.
Variables a b : Qc.
Variable g0 : net Qc.
Hypothesis U0 : undirected g0.
Let N := length g0.
Notation logf := SparseStep.logf.
Notation lnch := (SparseStep.lnch lngamma a b).
Notation lnfg := (SparseStep.lnfg lngamma lnfact a b g0).
Notation T := (beta_cost lngamma a b).
Notation E := (MissSpec.energy logf lnch lnfg 0%Qc g0).
Notation HE := (sparse_energy lngamma lnfact a b g0).
Notation pinv := (pinv g0).
Notation ident := (ident g0).
Notation tabs := (SparseStep.tabs ex sq lngamma lgsize a b).
Notation tfact := (InitializeTable lnfact lfsize).

(** * The energy *)
Lemma links_in_nil : links_in g0 [] = 0.
Proof. pose proof (links_in_le g0 [] U0 (NoDup_nil _)) as H. change (choose2 (length [])) with 0 in H. enough (links_in g0 [] <= 0) by lia. apply H. intros i []. Qed.
Lemma heat_ok M : assigned N M -> E M = HE M.
Proof.
  intros HA. unfold MissSpec.energy, sparse_energy, SparseStep.lnfg, ground. fold N. rewrite (as_length N M HA).
  rewrite (Qsum_ext _ (fun k => (T (choose2 (length (nth_members M k))) (links_in g0 (nth_members M k)) - T 0 0)%Qc) (seq 0 N)).
  2: { intros k _. cbv zeta. unfold MissSpec.cost, SparseStep.logf, SparseStep.lnch. destruct (nth_members M k) eqn:EK; cbn [nonempty]; [|ring]. rewrite links_in_nil. change (choose2 (length [])) with 0. ring. }
  rewrite (pair_sum_ext N _ (fun k l => T (length (nth_members M k) * length (nth_members M l)) (across g0 (nth_members M k) (nth_members M l)) + (- T 0 0))%Qc).
  2: { intros k l _ _. cbv zeta. unfold MissSpec.cost, SparseStep.logf, SparseStep.lnch. destruct (nth_members M k) eqn:EK; [cbn [nonempty andb length Nat.mul]; rewrite across_nil_l; ring|].
    destruct (nth_members M l) eqn:EL; cbn [nonempty andb]; [cbn [length]; rewrite Nat.mul_0_r, across_nil_r; ring|ring]. }
  rewrite Qsum_sub, pair_sum_add.
  assert (EN : pair_sum N (fun _ _ => - T 0 0)%Qc = (- pair_sum N (fun _ _ => T 0 0))%Qc).
  { assert (K : (pair_sum N (fun _ _ => T 0 0) + pair_sum N (fun _ _ => - T 0 0))%Qc = 0%Qc) by (rewrite <- pair_sum_add; apply pair_sum_0; intros; ring).
    transitivity (pair_sum N (fun _ _ => T 0 0) + pair_sum N (fun _ _ => - T 0 0) - pair_sum N (fun _ _ => T 0 0))%Qc; [ring|]. rewrite K. ring. }
  rewrite EN. cbv zeta. ring.
Qed.
Lemma gammas_ok r l zr zl : zr = Z.of_nat r -> zl = Z.of_nat l -> l <= r -> sp_gammas lngamma a b zr zl = Ok (T r l).
Proof.
  intros -> -> Hl. unfold sp_gammas. rewrite !nat_of_nat. cbn [bind]. replace (Z.of_nat r - Z.of_nat l)%Z with (Z.of_nat (r - l)) by lia. rewrite nat_of_nat. cbn [bind]. unfold beta_cost.
  cbn [nadd nsub nofnat rops Qc_ops]. now rewrite Qcplus_assoc.
Qed.
Theorem SparsePartitionH_ok g P : pinv g P -> SparsePartitionH lngamma lnfact a b g P = Ok (HE (abs P)).
Proof.
  intros I. pose proof (pi_as _ _ _ I) as AS. pose proof (pi_plen g0 g P I) as LP. fold N in LP, AS. unfold SparsePartitionH. rewrite LP. set (M := abs P) in *.
  set (c1 := fun k => T (choose2 (length (nth_members M k))) (links_in g0 (nth_members M k))). set (c2 := fun k l => T (length (nth_members M k) * length (nth_members M l)) (across g0 (nth_members M k) (nth_members M l))).
  destruct (foldM_seq (fun i '(H, nnod, ng) => H = Qsum (fun k => c1 k + Qsum (c2 k) (seq (k + 1) (N - (k + 1))))%Qc (seq 0 i) /\
     nnod = Z.of_nat (lsum (fun k => length (nth_members M k)) (seq 0 i)) /\ ng = Z.of_nat (count (fun k => nonempty (nth_members M k)) (seq 0 i)))
     (sp_one lngamma a b g P) N (0%Qc, 0%Z, 0%Z)) as (((H & nnod) & ng) & EF & EH & En & Eg).
  - splits; reflexivity.
  - intros i [[H nnod] ng] Hi (EH & En & Eg). unfold sp_one. destruct (pi_group g0 g P I i Hi) as (G & EG & El & Em & Es & Ei). fold M in Es, Ei, Em.
    rewrite (get_ok _ _ _ EG). cbn [bind]. rewrite Es, Ei, nonempty_len. replace (seq 0 (i + 1)) with (seq 0 i ++ [i]) by (rewrite seq_app; reflexivity).
    rewrite Qsum_app, lsum_app, count_app. cbn [Qsum lsum]. rewrite count_cons. change (count (fun k => nonempty (nth_members M k)) []) with 0.
    rewrite (gammas_ok (choose2 (length (nth_members M i))) (links_in g0 (nth_members M i))); [|apply choose2_Z|reflexivity|apply links_in_le; auto; [apply AS|intros x; apply (as_range _ _ AS)]]. cbn [bind]. rewrite LP.
    assert (Hin : forall ls h, (forall k, In k ls -> k < N /\ k <> i) -> foldM (sp_pair lngamma a b g P i G) h ls = Ok (h + Qsum (c2 i) ls)%Qc).
    { induction ls as [|k ls IH]; intros h Hk; [cbn [foldM Qsum]; now rewrite Qcplus_0_r|]. cbn [foldM Qsum]. destruct (Hk k (or_introl eq_refl)) as [Lk Nk]. unfold sp_pair at 1.
      destruct (pi_group g0 g P I k Lk) as (Gk & EGk & _ & _ & Esk & _). fold M in Esk. rewrite (get_ok _ _ _ EGk). cbn [bind]. rewrite (pi_ng2g g0 U0 g P I i k) by auto. cbn [bind]. fold M. rewrite Esk, Es, <- Nat2Z.inj_mul.
      rewrite (gammas_ok _ _ _ _ eq_refl eq_refl (across_le g0 _ _)). cbn [bind]. rewrite IH by (intros; apply Hk; simpl; auto). cbn [nadd rops Qc_ops]. f_equal. unfold c2. ring. }
    rewrite Hin by (intros k Hk; apply in_seq in Hk; lia). cbn [bind]. eexists. split; [reflexivity|]. cbv beta iota. splits.
    + rewrite EH. cbn [nadd rops Qc_ops]. fold (c1 i). ring.
    + lia.
    + destruct (nonempty (nth_members M i)); lia.
  - match goal with |- bind ?x _ = _ => assert (EF' : x = Ok (H, nnod, ng)) by exact EF; rewrite EF' end. cbn [bind]. rewrite (sizes_sum N M AS) in En. rewrite <- (filled_count N M AS) in Eg. rewrite En, Eg. pose proof (filled_le N M AS) as HF.
    replace (Z.of_nat N - Z.of_nat (filled M))%Z with (Z.of_nat (N - filled M)) by lia. rewrite nat_of_nat. cbn [bind]. f_equal. unfold sparse_energy. fold N. rewrite (as_length N M AS). replace (pair_sum N) with (pair_sum (length g0)) by reflexivity. rewrite (pair_sum_seq g0). fold N. cbn [nsub rops Qc_ops].
    rewrite EH, Qsum_add. reflexivity.
Qed.

(** * The scores of one partition *)
Notation score := (sparse_score a b g0).
Notation share := (beta_mean a b).
Notation E0 := SparseStep.none.
Lemma share_ok l r : ends E0 (sp_contrib a b (Z.of_nat l) (Z.of_nat r)) (fun c => c = share r l).
Proof. unfold sp_contrib. rewrite !nat_of_nat. cbn [bind ends]. reflexivity. Qed.
Section Scores.
Variable st : mc Qc.
Hypothesis I : pinv (mnet st) (mpart st).
Let M := abs (mpart st).
Hypothesis HT : table_exact g0 M (mG2G st).
Let HA : assigned N M := pi_as _ _ _ I.
Lemma sp_group_here k : k < N -> exists G, group_at ident (mpart st) k = Ok G /\ map lnode (pnodes G) = nth_members M k /\
  psize G = Z.of_nat (length (nth_members M k)) /\ pin G = Z.of_nat (links_in g0 (nth_members M k)).
Proof. exact (MbRun.mb_group_here g0 st I k). Qed.
Notation donep := (done_pair st).
Definition sp_with (t : nat -> nat -> bool) (f : nat -> nat -> Qc) : nat -> nat -> Qc := fun x y => if t x y then (f x y + score M x y)%Qc else f x y.
Lemma sp_members_lt k x : In x (nth_members M k) -> x < N.
Proof. apply (as_range N M HA). Qed.
Lemma sp_other_ok i j G m f : i < j -> j < N -> group_at ident (mpart st) i = Ok G -> map lnode (pnodes G) = nth_members M i -> psize G = Z.of_nat (length (nth_members M i)) ->
  mat N N m (sp_with (donep i j) f) -> ends E0 (sp_score_other a b N ident st i G m j) (fun m' => mat N N m' (sp_with (donep i (j + 1)) f)).
Proof.
  intros Hij Hj EG Em Es Hm. unfold sp_score_other. destruct (sp_group_here j Hj) as (G2 & -> & Em2 & Es2 & _). cbn [bind]. rewrite Es2.
  destruct (Z.ltb_spec 0 (Z.of_nat (length (nth_members M j)))) as [Hp|Hp].
  - pose proof HT as HT'. unfold table_exact in HT'. fold N M in HT'. rewrite (mat_get _ _ _ _ i j HT') by lia. cbn [bind]. rewrite (proj2 (Nat.eqb_neq i j)) by lia.
    rewrite Es, <- Nat2Z.inj_mul. eapply ends_bind; [apply share_ok|]. intros c Ec.
    destruct (add_between N c (pnodes G2) (pnodes G) m (sp_with (donep i j) f)) as (m' & -> & Hm'); rewrite ?Em, ?Em2.
    + apply HA.
    + apply HA.
    + intros x K1 K2. assert (i = j) by (eapply as_apart; eauto). lia.
    + apply sp_members_lt.
    + apply sp_members_lt.
    + exact Hm.
    + cbn [ends]. eapply mat_ext; [exact Hm'|]. rewrite Em, Em2. intros x y Hx Hy. unfold plus_on, sp_with, done_pair. fold M.
      destruct (hm_spec N M x HA Hx) as (Lx & Mx & Bx). destruct (hm_spec N M y HA Hy) as (Ly & My & By). rewrite !Bx, !By.
      assert (EC : forall x y, x < N -> y < N -> hm M x = i -> hm M y = j -> c = score M x y).
      { clear x y Hx Hy Lx Mx Bx Ly My By. intros x y Hx Hy Ex Ey. destruct (hm_spec N M x HA Hx) as (_ & Mx & _). destruct (hm_spec N M y HA Hy) as (_ & My & By).
        unfold sparse_score. rewrite Mx, My, By, Ex, Ey, (proj2 (Nat.eqb_neq j i)) by lia. exact Ec. }
      assert (EC2 : forall x y, x < N -> y < N -> hm M x = j -> hm M y = i -> c = score M x y).
      { intros x1 y1 Hx1 Hy1 Ex1 Ey1. rewrite (EC y1 x1); auto. destruct (hm_spec N M x1 HA Hx1) as (_ & Mx1 & Bx1). destruct (hm_spec N M y1 HA Hy1) as (_ & My1 & By1).
        unfold sparse_score. rewrite Mx1, My1, By1, Bx1, Ex1, Ey1, (proj2 (Nat.eqb_neq j i)), (proj2 (Nat.eqb_neq i j)) by lia.
        rewrite (across_sym g0 _ _ U0), Nat.mul_comm. reflexivity. }
      specialize (EC x y Hx Hy). specialize (EC2 x y Hx Hy). change (@nadd Qc rops) with Qcplus.
      destruct (Nat.eqb_spec x y) as [Exy|Exy]; cbn [negb andb].
      * subst y. destruct (Nat.eqb_spec (hm M x) i), (Nat.eqb_spec (hm M x) j); cbn [andb orb]; auto; lia.
      * destruct (Nat.eqb_spec (hm M x) i) as [E1|E1], (Nat.eqb_spec (hm M y) j) as [E2|E2], (Nat.eqb_spec (hm M y) i) as [E3|E3], (Nat.eqb_spec (hm M x) j) as [E4|E4]; cbn [andb orb]; try lia;
        repeat match goal with |- context [?a <? ?b] => destruct (Nat.ltb_spec a b); try lia; cbn [andb orb] end; auto.
        -- now rewrite EC.
        -- now rewrite EC2.
  - cbn [ends]. eapply mat_ext; [exact Hm|]. intros x y Hx Hy. unfold sp_with, done_pair. fold M.
    assert (HE : forall x, x < N -> hm M x <> j).
    { intros z Hz E. destruct (hm_spec N M z HA Hz) as (_ & _ & B). specialize (B j). rewrite (proj2 (Nat.eqb_eq _ _) E) in B. apply mem_In in B. destruct (nth_members M j); [destruct B|cbn in Hp; lia]. }
    pose proof (HE x Hx). pose proof (HE y Hy).
    repeat match goal with |- context [?a <? ?b] => destruct (Nat.ltb_spec a b); try lia; cbn [andb orb] end; auto.
Qed.
Lemma sp_group_ok i m f : i < N -> mat N N m (sp_with (donep i 0) f) -> ends E0 (sp_score_group a b N ident st m i) (fun m' => mat N N m' (sp_with (donep (i + 1) 0) f)).
Proof.
  intros Hi Hm. unfold sp_score_group. destruct (sp_group_here i Hi) as (G & EG & Em & Es & Ei). rewrite EG. cbn [bind]. rewrite Es.
  destruct (Z.ltb_spec 0 (Z.of_nat (length (nth_members M i)))) as [Hp|Hp].
  - rewrite Ei, choose2_Z. eapply ends_bind; [apply share_ok|]. intros c Ec.
    destruct (add_in N c (pnodes G) m (sp_with (donep i 0) f)) as (m1 & -> & Hm1); rewrite ?Em; [apply HA|apply sp_members_lt|exact Hm|]. cbn [bind]. rewrite Em in Hm1.
    eapply ends_impl.
    + apply (ends_from E0 (fun j m => mat N N m (sp_with (donep i j) f)) (sp_score_other a b N ident st i G) (N - (i + 1)) (i + 1) m1).
      * eapply mat_ext; [exact Hm1|]. intros x y Hx Hy. unfold plus_on, sp_with, done_pair. fold M.
        destruct (hm_spec N M x HA Hx) as (Lx & Mx & Bx). destruct (hm_spec N M y HA Hy) as (Ly & My & By). rewrite !Bx, !By.
        assert (EC : hm M x = i -> hm M y = i -> c = score M x y).
        { intros E1 E2. unfold sparse_score. rewrite Mx, My, By, E1, E2, Nat.eqb_refl. exact Ec. }
        change (@nadd Qc rops) with Qcplus.
        destruct (Nat.eqb_spec x y) as [Exy|Exy]; cbn [negb andb]; rewrite ?andb_false_r; auto. rewrite andb_true_r.
        destruct (Nat.eqb_spec (hm M x) i) as [E1|E1], (Nat.eqb_spec (hm M y) i) as [E2|E2]; cbn [andb orb]; rewrite ?E1, ?E2;
          repeat match goal with |- context [?a <? ?b] => destruct (Nat.ltb_spec a b); try lia; cbn [andb orb] end; auto.
        now rewrite EC.
      * intros j mj Hj1 Hj2 Hmj. apply sp_other_ok; auto; lia.
    + intros m2 Hm2. eapply mat_ext; [exact Hm2|]. intros x y Hx Hy. unfold sp_with, done_pair. fold M. replace (i + 1 + (N - (i + 1))) with N by lia.
      destruct (hm_spec N M x HA Hx) as (Lx & _). destruct (hm_spec N M y HA Hy) as (Ly & _).
      rewrite (proj2 (Nat.ltb_lt (hm M x) N) Lx), (proj2 (Nat.ltb_lt (hm M y) N) Ly).
      replace (hm M x <? i + 1) with ((hm M x <? i) || (hm M x =? i)) by (destruct (Nat.ltb_spec (hm M x) i), (Nat.eqb_spec (hm M x) i), (Nat.ltb_spec (hm M x) (i + 1)); auto; lia).
      replace (hm M y <? i + 1) with ((hm M y <? i) || (hm M y =? i)) by (destruct (Nat.ltb_spec (hm M y) i), (Nat.eqb_spec (hm M y) i), (Nat.ltb_spec (hm M y) (i + 1)); auto; lia).
      change (hm M x <? 0) with false; change (hm M y <? 0) with false. destruct (x =? y), (hm M x <? i), (hm M y <? i), (hm M x =? i), (hm M y =? i), (hm M x =? i + 1), (hm M y =? i + 1); reflexivity.
  - cbn [ends]. eapply mat_ext; [exact Hm|]. intros x y Hx Hy. unfold sp_with, done_pair. fold M.
    assert (HE : forall x, x < N -> hm M x <> i).
    { intros z Hz E. destruct (hm_spec N M z HA Hz) as (_ & _ & B). specialize (B i). rewrite (proj2 (Nat.eqb_eq _ _) E) in B. apply mem_In in B. destruct (nth_members M i); [destruct B|cbn in Hp; lia]. }
    pose proof (HE x Hx). pose proof (HE y Hy). change (hm M x <? 0) with false; change (hm M y <? 0) with false. rewrite !andb_false_r, !orb_false_r.
    repeat match goal with |- context [?a <? ?b] => destruct (Nat.ltb_spec a b); try lia; cbn [andb orb] end; auto.
Qed.
Lemma sp_scores_ok m f : mat N N m f -> ends E0 (foldM (sp_score_group a b N ident st) m (seq 0 N)) (fun m' => mat N N m' (fun x y => if x =? y then f x y else (f x y + score M x y)%Qc)).
Proof.
  intros Hm. eapply ends_impl.
  - apply (ends_from E0 (fun i m => mat N N m (sp_with (donep i 0) f)) (sp_score_group a b N ident st) N 0 m).
    + eapply mat_ext; [exact Hm|]. intros x y _ _. unfold sp_with, done_pair. fold M. change (hm M x <? 0) with false; change (hm M y <? 0) with false. now rewrite !andb_false_r.
    + intros i mi _ Hi Hmi. now apply sp_group_ok.
  - intros m' Hm'. eapply mat_ext; [exact Hm'|]. intros x y Hx Hy. unfold sp_with, done_pair. fold M. cbn [Nat.add].
    destruct (hm_spec N M x HA Hx) as (Lx & _). rewrite (proj2 (Nat.ltb_lt (hm M x) N) Lx). cbn [orb]. rewrite andb_true_r. now destruct (x =? y).
Qed.
End Scores.

Section State.
Variable pos : Prop.
Notation ginv := (sinv lngamma lnfact a b g0 pos 0%Qc).
Notation gb_err := (SparseStep.sg_err pos).
Notation gstep := (SparseGibbsLinkScoreStep lngamma lnfact lgsize lfsize a b N ident ident tabs tfact).
Notation gmove := (sp_move lngamma lnfact lgsize lfsize a b N ident ident tabs tfact).

(** * One step *)
Notation one_group st := (filled (abs (mpart st)) = 1).
Lemma sp_moves_ok l : forall st slg dHs loc, (forall v, In v l -> v < N) -> ginv st -> listed g0 (abs (mpart st)) slg -> 2 <= length slg -> length dHs = N ->
  ends gb_err (foldM gmove (st, slg, dHs, loc) l) (fun '(st', slg', _, _) => ginv st' /\ RecSpec.chain (gregroup ex E) l (abs (mpart st), slg, mds st) (abs (mpart st'), slg', mds st')).
Proof.
  induction l as [|v l IH]; intros st slg dHs loc Hl I HL H2 Ld; [cbn [foldM ends]; split; auto; constructor|]. cbn [foldM].
  eapply ends_bind; [apply (sp_move_ok ex sq ex_pos lngamma lnfact lgsize lfsize a b g0 U0 pos 0%Qc st slg dHs loc v); auto; apply Hl; simpl; auto|].
  intros [[[st1 slg1] dHs1] loc1] (I1 & HL1 & H21 & Ld1 & R1). eapply ends_impl; [apply (IH st1 slg1 dHs1 loc1); auto; intros; apply Hl; simpl; auto|].
  intros [[[st2 slg2] dHs2] loc2] (I2 & C2). split; auto. econstructor; eauto.
Qed.
(** With all nodes in one group the step reads variables never set. *)
Theorem sp_step_single st : 0 < N -> ginv st -> one_group st -> gstep st = Err UB_uninit.
Proof.
  intros HN I HF. pose proof (sn_p _ _ _ _ _ _ _ _ I) as PI. pose proof (pi_as _ _ _ PI) as AS. fold N in AS.
  destruct (pi_home g0 _ _ PI 0 HN) as (n & o & En & Eg & Ho & Hvo).
  assert (ES : map plabel (filter (fun G => (0 <? psize G)%Z) (mpart st)) = [o]).
  { rewrite (shortlist_occupied g0 _ _ PI). pose proof (occupied_filled N _ AS) as L. rewrite HF in L. destruct (occupied (abs (mpart st))) as [|x1 [|x2 l]] eqn:EO; cbn in L; try lia.
    assert (K : In o (occupied (abs (mpart st)))). { apply (li_all _ _ _ (occupied_listed N Qc g0 _ eq_refl AS)); auto. destruct (nth_members (abs (mpart st)) o); [destruct Hvo|reflexivity]. }
    rewrite EO in K. destruct K as [->|[]]. reflexivity. }
  unfold SparseGibbsLinkScoreStep. rewrite ES. cbn [length]. rewrite (proj2 (Nat.leb_le 1 N)) by lia. cbn [check bind].
  replace (seq 0 N) with (0 :: seq 1 (N - 1)) by (replace N with (Datatypes.S (N - 1)) at 2 by lia; reflexivity). cbn [foldM].
  unfold sp_move at 1. rewrite (ident_get g0 0 HN). cbn [bind deref]. rewrite (get_ok _ _ _ En). cbn [bind]. rewrite Eg. cbn [bind]. rewrite (ident_get g0 o Ho). cbn [bind deref foldM].
  unfold sp_dest. rewrite (ident_get g0 o Ho). cbn [bind deref]. rewrite Nat.eqb_refl, set_ok by (now rewrite repeat_length). cbn [bind].
  destruct (pi_group g0 _ _ PI o Ho) as (G & EG & _). unfold sp_empty. rewrite (get_ok _ _ _ EG). reflexivity.
Qed.
Theorem sp_step_ok st : ginv st -> ends (fun e => gb_err e \/ (e = UB_uninit /\ 0 < N /\ one_group st)) (gstep st) (fun st' => ginv st' /\ gsweep ex E (abs (mpart st), mds st) (abs (mpart st'), mds st')).
Proof.
  intros I. pose proof (sn_p _ _ _ _ _ _ _ _ I) as PI. pose proof (pi_as _ _ _ PI) as AS. fold N in AS.
  destruct (Nat.eq_dec N 0) as [E0|HN].
  { unfold SparseGibbsLinkScoreStep. rewrite (shortlist_occupied g0 _ _ PI). pose proof (as_length N _ AS) as LM. rewrite E0 in LM |- *. unfold occupied. rewrite LM. cbn [seq filter length Nat.leb check bind foldM ends]. split; auto.
    exists []. cbn [fst snd]. unfold occupied. rewrite LM. constructor. }
  destruct (Nat.eq_dec (filled (abs (mpart st))) 1) as [H1|H1].
  { rewrite sp_step_single by (auto; lia). cbn [ends]. right. splits; auto. lia. }
  pose proof (filled_pos g0 _ ltac:(lia) AS) as HF. pose proof (occupied_filled N _ AS) as LO. pose proof (occupied_listed N Qc g0 _ eq_refl AS) as HL.
  unfold SparseGibbsLinkScoreStep. rewrite (shortlist_occupied g0 _ _ PI). rewrite (proj2 (Nat.leb_le _ N)) by (rewrite LO; apply (filled_le N _ AS)). cbn [check bind].
  eapply ends_weaken with (E := gb_err); [|auto].
  eapply ends_bind; [apply (sp_moves_ok (seq 0 N) st (occupied (abs (mpart st))) (repeat None N) None); auto; [intros v Hv; apply in_seq in Hv; lia|lia|apply repeat_length]|].
  intros [[[st' slg'] dHs'] loc'] (I' & C'). cbn [ends]. split; auto. exists slg'. cbn [fst snd]. rewrite (as_length N _ AS). exact C'.
Qed.

(** * Thermalisation and scores *)
Variable s0 : groups * list Qc.
Definition gone (st : mc Qc) : Prop := exists n, RecSpec.power (gsweep ex E) n s0 (abs (mpart st), mds st).
Definition run_err (e : err) : Prop := gb_err e \/ (e = UB_uninit /\ 0 < N /\ exists n t, RecSpec.power (gsweep ex E) n s0 t /\ filled (fst t) = 1).
Lemma sp_step_run st : ginv st -> gone st -> ends run_err (gstep st) (fun st' => ginv st' /\ gone st' /\ gsweep ex E (abs (mpart st), mds st) (abs (mpart st'), mds st')).
Proof.
  intros I [n HP]. eapply ends_weaken; [eapply ends_impl; [apply (sp_step_ok st I)|]|].
  - intros st' [I' S']. splits; auto. exists (Datatypes.S n). econstructor; eauto.
  - intros e [H|(-> & HN & H)]; [now left|]. right. splits; auto. exists n, (abs (mpart st), mds st). auto.
Qed.
(** At least [5 - eq] rounds of 20 sweeps. *)
Definition gone_n (n : nat) (st : mc Qc) : Prop := RecSpec.power (gsweep ex E) n s0 (abs (mpart st), mds st).
Lemma sp_therm_loop_ok fuel : forall m0 s1 eq st n, ginv st -> gone_n n st ->
  ends run_err (sp_therm_loop lngamma lnfact lgsize lfsize a b fuel N ident ident tabs tfact m0 s1 eq st) (fun st' => ginv st' /\ exists r, 5 - eq <= r /\ gone_n (n + 20 * r) st').
Proof.
  induction fuel as [|f IH]; intros m0 s1 eq st n I R; [left; left; now right|]. cbn [sp_therm_loop].
  apply (ends_bind run_err _ _ (fun '(st', hs) => (ginv st' /\ gone_n (n + 20) st') /\ length hs = 20)).
  - apply (ends_from run_err (fun i '(st', hs) => (ginv st' /\ gone_n (n + i) st') /\ length hs = i) (sp_therm_step lngamma lnfact lgsize lfsize a b N ident ident tabs tfact) 20 0); [rewrite Nat.add_0_r; split; auto|].
    intros i [s2 h2] _ _ [[H1 H2] H3]. unfold sp_therm_step. cbn [fst snd]. eapply ends_bind; [apply (sp_step_run s2); auto; now exists (n + i)|]. intros s' (H4 & _ & H5). cbn [ends]. rewrite app_length. cbn [length]. split; [|lia].
    split; auto. unfold gone_n. rewrite Nat.add_1_r, Nat.add_succ_r. econstructor; eauto.
  - intros [s hs] [[H1 H2] H3]. eapply ends_bind; [apply mean_ends; auto|]. intros m _. eapply ends_bind; [apply stddev_ends; auto|]. intros sd _. cbv zeta.
    assert (G : forall m' s' eq', ends run_err (sp_therm_loop lngamma lnfact lgsize lfsize a b f N ident ident tabs tfact m' s' eq' s) (fun st' => ginv st' /\ exists r, 6 - eq' <= r /\ gone_n (n + 20 * r) st')).
    { intros m' s' eq'. eapply ends_impl; [apply (IH m' s' eq' s (n + 20) H1 H2)|]. intros st' (I' & r & Hr & G'). split; auto. exists (r + 1). split; [lia|]. replace (n + 20 * (r + 1)) with (n + 20 + 20 * r) by lia. exact G'. }
    match goal with |- ends _ (if ?c then _ else _) _ => destruct c end; [destruct (eq + 1 <? 5) eqn:Eq|].
    + eapply ends_impl; [apply G|]. intros st' (I' & r & Hr & G'). split; auto. exists r. split; auto. lia.
    + apply Nat.ltb_ge in Eq. cbn [ends]. split; auto. exists 1. split; [lia|exact H2].
    + eapply ends_impl; [apply G|]. intros st' (I' & r & Hr & G'). split; auto. exists r. split; auto. lia.
Qed.
Definition summed (Ms : list groups) (i j : nat) : Qc := if i =? j then 0%Qc else Qsum (fun M => score M i j) Ms.
Definition sampled (nIter : nat) (s1 : mc Qc) (sm : mc Qc * list (list Qc)) : Prop :=
  exists ss, length ss = nIter /\ RecSpec.visits (gsweep ex E) (abs (mpart s1), mds s1) ss (abs (mpart (fst sm)), mds (fst sm)) /\ Forall (fun s => assigned N (fst s)) ss /\
    mat N N (snd sm) (summed (map fst ss)).
Lemma sp_samples_ok nIter s1 : ginv s1 -> gone s1 ->
  ends run_err (foldM (sp_sample lngamma lnfact lgsize lfsize a b N ident ident tabs tfact) (s1, repeat (repeat n0 N) N) (seq 0 nIter)) (fun sm => ginv (fst sm) /\ gone (fst sm) /\ sampled nIter s1 sm).
Proof.
  intros I1 R1. apply (ends_from run_err (fun k sm => ginv (fst sm) /\ gone (fst sm) /\ sampled k s1 sm) _ nIter 0).
  - cbn [fst snd]. splits; auto. exists []. cbn [fst snd]. splits; auto; [constructor|]. eapply mat_ext; [apply mat_repeat|]. intros i j _ _. unfold summed. cbn. now destruct (i =? j).
  - intros k [s m] _ Hk (Is & Rs & ss & LM & HV & HF & Hm). cbn [fst snd] in *. unfold sp_sample. cbn [fst snd].
    eapply ends_bind; [apply (sp_step_run s); auto|]. intros s' (Is' & Rs' & SW).
    eapply ends_bind.
    { eapply (ends_weaken E0); [|intros e K; destruct K]. apply (sp_scores_ok s' (sn_p _ _ _ _ _ _ _ _ Is') (sn_g2g _ _ _ _ _ _ _ _ Is') m _ Hm). }
    intros m' Hm'. cbn [ends fst snd]. splits; auto. exists (ss ++ [(abs (mpart s'), mds s')]). cbn [fst snd]. splits.
    + rewrite app_length. cbn [length]. lia.
    + econstructor; eauto.
    + apply Forall_app. split; auto. constructor; [|constructor]. cbn [fst]. apply (pi_as _ _ _ (sn_p _ _ _ _ _ _ _ _ Is')).
    + eapply mat_ext; [exact Hm'|]. intros i j _ _. unfold summed. rewrite !map_app, Qsum_app. cbn [map Qsum fst]. destruct (i =? j); auto. ring.
Qed.
End State.

Section Draws.
Variable ds : list Qc.
Let d0 := skipn N ds.
Notation pos := (Forall (fun u => (0 < u)%Qc) d0).
Notation ginv := (sinv lngamma lnfact a b g0 pos 0%Qc).
Theorem sp_setup_ok : Forall unit_draw ds -> ends sp_err (sp_setup lngamma lnfact a b g0 ds)
  (fun '(nl, gl, st) => nl = ident /\ gl = ident /\ ginv st /\ abs (mpart st) = alone N /\ mds st = d0).
Proof.
  intros HD. unfold sp_setup. fold N. pose proof (map_nodes_ok g0 U0) as EM. fold N in EM. match goal with |- ends _ (bind ?a _) _ => assert (EM' : a = Ok (ident, ident, fresh_groups N)) by exact EM; rewrite EM' end. cbn [bind].
  apply (ends_bind sp_err _ _ (fun s => gpl g0 N (fst s) /\ snd s = d0)).
  - apply (ends_from sp_err (fun i s => gpl g0 i (fst s) /\ snd s = skipn i ds) (gb_place ident) N 0).
    + cbn [fst snd]. split; auto. split; cbn [fst snd]; [apply (un_reset g0 U0)|apply sbg_reset|apply fresh_mapped|]. rewrite fresh_abs. reflexivity.
    + intros i [[g P] d] _ Hi [H1 H2]. cbn [fst snd Nat.add] in *. destruct d as [|u d]; [left; reflexivity|]. destruct (GibbsExact.gb_place_ok ex sq lnfact 0 0%Qc g0 i g P u d Hi H1) as (g' & P' & EQ & H1'). match goal with |- ends _ ?x _ => assert (EQ' : x = Ok (g', P', d)) by exact EQ; rewrite EQ' end. cbn [ends fst snd]. split; auto.
      clear - H2. revert ds H2. induction i as [|i IH]; intros [|x ds] H2; cbn [skipn Nat.add] in *; try discriminate; [now injection H2|]. now apply IH.
  - intros [[g P] d] [[U S M EA] Ed]. cbn [fst snd] in *. subst d. assert (EA' : abs P = alone N).
    { rewrite EA. apply groups_ext; [unfold half, alone; now rewrite !map_map|]. intros k. rewrite (half_nth g0), alone_members. fold N. now destruct (k <? N). }
    assert (PI : pinv g P) by (split; auto; rewrite EA'; apply alone_assigned).
    destruct (g2g_rows_ok g0 U0 g P (repeat (repeat 0%Z N) N) PI) as (m & EQ & Hm); [eexists; apply mat_repeat|]. fold N in EQ. rewrite EQ. cbn [bind].
    pose proof (SparsePartitionH_ok g P PI) as EP. match goal with |- ends _ (bind ?x _) _ => assert (EP' : x = Ok (HE (abs P))) by exact EP; rewrite EP' end. cbn [bind ends mpart mds]. splits; auto. split; cbn [mnet mpart mH mG2G mn2g mtab mds]; auto.
    + apply repeat_length.
    + unfold d0. rewrite <- (firstn_skipn N ds) in HD. apply Forall_app in HD. tauto.
    + rewrite EA', heat_ok by apply alone_assigned. ring.
Qed.

(** The set-up, then a number of steps. *)
Notation gstep := (SparseGibbsLinkScoreStep lngamma lnfact lgsize lfsize a b N ident ident tabs tfact).
Notation sweeps := (RecSpec.power (gsweep ex HE)).
Definition sp_reached (n : nat) : res (mc Qc) :=
  do (nlist, glist, st) <- sp_setup lngamma lnfact a b g0 ds;
  foldM (fun st _ => SparseGibbsLinkScoreStep lngamma lnfact lgsize lfsize a b (length g0) nlist glist tabs tfact st) st (seq 0 n).
Definition all_err (e : err) : Prop := e = RngOut \/ e = Diverge \/ (e = UB_oob /\ ~ pos) \/
  (e = UB_uninit /\ 0 < N /\ exists n t, sweeps n (alone N, d0) t /\ filled (fst t) = 1).
Lemma setup_all e : sp_err e -> all_err e.
Proof. unfold all_err. intros [->| ->]; auto. Qed.
Lemma run_all e : run_err pos (alone N, d0) e -> all_err e.
Proof.
  unfold all_err. intros [[[->| ->]|(-> & K)]|(-> & HN & n & t & HP & HF)]; auto 6.
  right; right; right. splits; auto. exists n, t. split; auto. apply (power_ext ex N E HE heat_ok); auto. cbn [fst]. apply alone_assigned.
Qed.
Lemma to_power n t : RecSpec.power (gsweep ex E) n (alone N, d0) t -> sweeps n (alone N, d0) t.
Proof. intros H. apply (power_ext ex N E HE heat_ok); auto. cbn [fst]. apply alone_assigned. Qed.
Theorem sp_reached_ok n : Forall unit_draw ds -> ends all_err (sp_reached n) (fun st => ginv st /\ sweeps n (alone N, d0) (abs (mpart st), mds st)).
Proof.
  intros HD. unfold sp_reached. fold N. eapply ends_bind; [eapply ends_weaken; [apply (sp_setup_ok HD)|apply setup_all]|]. intros [[nl gl] st] (-> & -> & I & EA & ED).
  eapply ends_weaken; [|apply run_all].
  eapply ends_impl.
  - apply (ends_from _ (fun i st => ginv st /\ RecSpec.power (gsweep ex E) i (alone N, d0) (abs (mpart st), mds st)) (fun st _ => gstep st) n 0).
    + split; auto. rewrite EA, ED. constructor.
    + intros i s _ _ [I1 P1]. eapply ends_impl; [apply (sp_step_run pos (alone N, d0) s I1)|].
      * exists i. exact P1.
      * intros s' (I' & _ & SW). split; auto. rewrite Nat.add_1_r. econstructor; eauto.
  - intros st' [I' P']. split; auto. now apply to_power.
Qed.

Theorem sp_reached_energy n st : Forall unit_draw ds -> sp_reached n = Ok st ->
  assigned N (abs (mpart st)) /\ mH st = HE (abs (mpart st)) /\ table_exact g0 (abs (mpart st)) (mG2G st) /\ SparsePartitionH lngamma lnfact a b (mnet st) (mpart st) = Ok (mH st).
Proof.
  intros HD EQ. pose proof (sp_reached_ok n HD) as H. rewrite EQ in H. cbn [ends] in H. destruct H as [I _]. pose proof (sn_p _ _ _ _ _ _ _ _ I) as PI. pose proof (pi_as _ _ _ PI) as HA. fold N in HA.
  assert (EH : mH st = HE (abs (mpart st))) by (rewrite (sn_H _ _ _ _ _ _ _ _ I), <- heat_ok by auto; ring). splits; auto.
  - apply I.
  - rewrite EH. now apply SparsePartitionH_ok.
Qed.
Theorem sp_reached_sweeps n st : Forall unit_draw ds -> sp_reached n = Ok st ->
  sweeps n (alone N, d0) (abs (mpart st), mds st) /\ forall t, sweeps n (alone N, d0) t -> t = (abs (mpart st), mds st).
Proof.
  intros HD EQ. pose proof (sp_reached_ok n HD) as H. rewrite EQ in H. cbn [ends] in H. destruct H as [_ P]. split; auto. intros t Pt. symmetry. eapply power_det; eauto.
Qed.
Theorem sp_reached_errors n e : Forall unit_draw ds -> sp_reached n = Err e -> all_err e.
Proof. intros HD EQ. pose proof (sp_reached_ok n HD) as H. rewrite EQ in H. exact H. Qed.
(** When the variables never set are read. *)
Theorem sp_reached_uninit n : Forall unit_draw ds -> sp_reached n = Err UB_uninit <-> 0 < N /\ exists k st, k < n /\ sp_reached k = Ok st /\ filled (abs (mpart st)) = 1.
Proof.
  intros HD. pose proof (fun k => sp_reached_ok k HD) as HR. pose proof (sp_setup_ok HD) as HS. unfold sp_reached in HR |- *. fold N in HR, HS |- *.
  destruct (sp_setup lngamma lnfact a b g0 ds) as [[[nl gl] s0]|e]; cbn [bind ends] in *.
  2: { split; [intros K; injection K as ->; destruct HS as [K|K]; discriminate|intros (_ & k & st & _ & K & _); discriminate]. }
  destruct HS as (-> & -> & I0 & EA & ED).
  set (f := fun (st : mc Qc) (_ : nat) => gstep st) in *.
  assert (SN : forall k, foldM f s0 (seq 0 (k + 1)) = bind (foldM f s0 (seq 0 k)) gstep).
  { intros k. rewrite seq_app, foldM_app. destruct (foldM f s0 (seq 0 k)) as [s|e]; auto. cbn [bind seq Nat.add foldM]. unfold f. now destruct (gstep s). }
  assert (IV : forall k s, foldM f s0 (seq 0 k) = Ok s -> ginv s) by (intros k s EQ; specialize (HR k); rewrite EQ in HR; apply HR).
  induction n as [|n IH].
  - split; [discriminate|]. intros (_ & k & st & K & _). lia.
  - rewrite <- Nat.add_1_r, SN. destruct (foldM f s0 (seq 0 n)) as [s|e] eqn:EF; cbn [bind].
    + pose proof (IV n s EF) as I. destruct (Nat.eq_dec N 0) as [E0|HN]; [|destruct (Nat.eq_dec (filled (abs (mpart s))) 1) as [H1|H1]].
      * split; [|intros (K & _); lia]. intros EQ. pose proof (sp_step_ok pos s I) as HO. fold N in HO.
        match type of HO with ends _ ?a _ => assert (EQ' : a = Err UB_uninit) by exact EQ; rewrite EQ' in HO end. cbn [ends] in HO. destruct HO as [[[K|K]|[K _]]|(_ & K & _)]; try discriminate. lia.
      * pose proof (sp_step_single pos s) as HO. fold N in HO.
        match type of HO with _ -> _ -> _ -> ?a = _ => assert (EQ' : a = Err UB_uninit) by (apply HO; auto; lia) end.
        split; [|intros _; exact EQ']. intros _. split; [lia|]. exists n, s. splits; auto. lia.
      * split.
        -- intros EQ. pose proof (sp_step_ok pos s I) as HO. fold N in HO.
           match type of HO with ends _ ?a _ => assert (EQ' : a = Err UB_uninit) by exact EQ; rewrite EQ' in HO end. cbn [ends] in HO. destruct HO as [[[K|K]|[K _]]|(_ & _ & K)]; try discriminate. contradiction.
        -- intros (K0 & k & st & Kk & Ek & Fk). destruct (Nat.eq_dec k n) as [->|]; [rewrite EF in Ek; injection Ek as <-; contradiction|]. exfalso. assert (Ok s = Err UB_uninit) by (apply IH; split; auto; exists k, st; splits; auto; lia). discriminate.
    + rewrite IH. split.
      * intros (K0 & k & st & Kk & Ek). split; auto. exists k, st. split; auto. lia.
      * intros (K0 & k & st & Kk & Ek & Fk). split; auto. exists k, st. splits; auto. destruct (Nat.eq_dec k n) as [->|]; [rewrite EF in Ek; discriminate|lia].
Qed.

(** * The scores *)
Lemma sp_rest_ok nIter s0 : ginv s0 -> abs (mpart s0) = alone N -> mds s0 = d0 ->
  ends all_err (do st <- SparseGibbsThermalizeLinkScore lngamma lnfact lgsize lfsize a b N ident ident tabs tfact s0;
    foldM (sp_sample lngamma lnfact lgsize lfsize a b N ident ident tabs tfact) (st, repeat (repeat n0 N) N) (seq 0 nIter))
  (fun '(st, m) => ginv st /\ exists rounds s1 ss, 5 <= rounds /\ sweeps (20 * rounds) (alone N, d0) s1 /\ RecSpec.visits (gsweep ex HE) s1 ss (abs (mpart st), mds st) /\ length ss = nIter /\
     Forall (fun s => assigned N (fst s)) ss /\ mat N N m (summed (map fst ss))).
Proof.
  intros I EA ED. eapply ends_weaken; [|apply run_all].
  eapply ends_bind; [apply (sp_therm_loop_ok pos (alone N, d0)) with (n := 0); [exact I|unfold gone_n; rewrite EA, ED; constructor]|].
  intros s1 (I1 & rounds & R5 & R1). cbn [Nat.add] in R1.
  eapply ends_impl; [apply (sp_samples_ok pos (alone N, d0) nIter s1 I1 (ex_intro _ (20 * rounds) R1))|].
  intros [st m] (I2 & _ & ss & LS & HV & HF & Hm). cbn [fst snd] in *. split; auto. exists rounds, (abs (mpart s1), mds s1), ss. splits; auto; [now apply to_power|].
  apply (visits_ext ex N E HE heat_ok _ _ _ HV). cbn [fst]. apply (pi_as _ _ _ (sn_p _ _ _ _ _ _ _ _ I1)).
Qed.
End Draws.


Definition sp_all_err (d0 : list Qc) (e : err) : Prop :=
  e = RngOut \/ e = Diverge \/ (e = UB_oob /\ ~ Forall (fun u => (0 < u)%Qc) d0) \/
  (e = UB_uninit /\ 0 < N /\ exists n t, RecSpec.power (gsweep ex HE) n (alone N, d0) t /\ filled (fst t) = 1).
Theorem sp_run_any nIter ds : (0 < a)%Qc -> (0 < b)%Qc -> Forall unit_draw ds ->
  ends (sp_all_err (skipn N ds)) (sp_run lngamma lnfact lgsize lfsize a b g0 nIter ds)
    (fun '(m, st) => exists rounds s1 ss, 5 <= rounds /\ RecSpec.power (gsweep ex HE) (20 * rounds) (alone N, skipn N ds) s1 /\ RecSpec.visits (gsweep ex HE) s1 ss (abs (mpart st), mds st) /\ length ss = nIter /\
       (forall s, In s ss -> assigned N (fst s)) /\ assigned N (abs (mpart st)) /\ table_exact g0 (abs (mpart st)) (mG2G st) /\
       mH st = HE (abs (mpart st)) /\ (0 < nIter -> mat N N m (sparse_average a b g0 (map fst ss)))).
Proof.
  intros Ha Hb HD. unfold sp_run. fold N.
  assert (HT : forall x, (0 < x)%Qc -> InitializeFastLogGamma lngamma lgsize x = Ok (InitializeTable (lg_at lngamma x) lgsize)).
  { intros x Hx. unfold InitializeFastLogGamma. cbn [nltb n0 rops Qc_ops]. rewrite (proj2 (Num.Qc_ltb_true 0%Qc x) Hx), orb_true_r. reflexivity. }
  assert (ET : sp_tables lngamma lgsize a b = Ok tabs).
  { unfold sp_tables. rewrite (HT a Ha), (HT b Hb). cbn [bind]. cbn [nadd rops Qc_ops]. rewrite (HT (a + b)%Qc); [reflexivity|]. eapply Qclt_le_trans; [exact Ha|]. rewrite <- (Qcplus_0_r a) at 1. apply Qcplus_le_compat; [apply Qcle_refl|now apply Qclt_le_weak]. }
  rewrite ET. cbn [bind].
  eapply ends_bind.
  { eapply ends_weaken; [apply (sp_setup_ok ds HD)|]. apply (setup_all ds). }
  intros [[nl gl] s0] (-> & -> & I0 & EA & ED).
  pose proof (sp_rest_ok ds nIter s0 I0 EA ED) as HR. fold N in HR.
  match type of HR with ends _ (bind ?x _) _ => destruct x as [s1|e] eqn:ES end.
  2: { cbn [bind]. exact HR. }
  cbn [bind] in *.
  eapply ends_bind; [exact HR|]. intros [st m] (I & warm & t1 & ss & P0 & P1 & V1 & LS & HF & Hm).
  pose proof (sn_p _ _ _ _ _ _ _ _ I) as PI. pose proof (pi_as _ _ _ PI) as HA. fold N in HA. rewrite (SparsePartitionH_ok _ _ PI). cbn [bind ends].
  exists warm, t1, ss. splits; auto.
  - intros s K. rewrite Forall_forall in HF. now apply HF.
  - apply I.
  - rewrite (sn_H _ _ _ _ _ _ _ _ I), <- heat_ok by auto. ring.
  - intros Hn. assert (LM : length (map fst ss) = nIter) by (now rewrite map_length).
    eapply mat_ext; [eapply mat_map; exact Hm|]. intros i j _ _. cbn [ndiv nofnat rops Qc_ops]. unfold summed, sparse_average. rewrite LM. destruct (i =? j); auto. unfold Qcdiv. apply Qcmult_0_l.
Qed.

(** * Scores are symmetric and lie between 0 and 1 *)
Lemma mean_between r l : (0 < a)%Qc -> (0 < b)%Qc -> l <= r -> (0 < share r l)%Qc /\ (share r l < 1)%Qc.
Proof.
  intros Ha Hb Hl. unfold beta_mean. assert (H0 : forall n, (0 <= Qc_of_nat n)%Qc) by (intros n; rewrite <- Qc_of_nat_0; apply Qc_of_nat_le; lia).
  assert (P1 : (0 < Qc_of_nat l + a)%Qc) by (eapply Qclt_le_trans; [exact Ha|]; rewrite <- (Qcplus_0_l a) at 1; apply Qcplus_le_compat; [apply H0|apply Qcle_refl]).
  assert (P2 : (Qc_of_nat l + a < Qc_of_nat r + a + b)%Qc).
  { eapply Qcle_lt_trans; [apply (Qcplus_le_compat (Qc_of_nat l) (Qc_of_nat r) a a); [now apply Qc_of_nat_le|apply Qcle_refl]|]. apply Qclt_minus_iff. replace (Qc_of_nat r + a + b + - (Qc_of_nat r + a))%Qc with b by ring. exact Hb. }
  assert (P3 : (0 < Qc_of_nat r + a + b)%Qc) by (eapply Qclt_trans; eauto). split; [now apply MissExact.Qc_div_pos|apply MissExact.Qc_div_lt; auto; now rewrite Qcmult_1_l].
Qed.
Lemma sp_score_between M i j : (0 < a)%Qc -> (0 < b)%Qc -> assigned N M -> i < N -> j < N -> (0 < score M i j)%Qc /\ (score M i j < 1)%Qc.
Proof.
  intros Ha Hb HA Hi Hj. destruct (hm_spec N M i HA Hi) as (_ & Ei & _). destruct (hm_spec N M j HA Hj) as (_ & Ej & Bj). unfold sparse_score. rewrite Ei, Ej.
  destruct (mem j _); apply mean_between; auto; [|apply across_le]. apply links_in_le; auto; [apply HA|]. intros x. apply (as_range N M HA).
Qed.
Lemma sp_score_sym M i j : assigned N M -> i < N -> j < N -> score M i j = score M j i.
Proof.
  intros HA Hi Hj. destruct (hm_spec N M i HA Hi) as (_ & Ei & Bi). destruct (hm_spec N M j HA Hj) as (_ & Ej & Bj). unfold sparse_score. rewrite Ei, Ej, Bi, Bj, (Nat.eqb_sym (hm M j)).
  destruct (Nat.eqb_spec (hm M i) (hm M j)) as [->|]; auto. now rewrite across_sym, Nat.mul_comm.
Qed.
Lemma sp_average_sym Ms i j : (forall M, In M Ms -> assigned N M) -> i < N -> j < N -> sparse_average a b g0 Ms i j = sparse_average a b g0 Ms j i.
Proof.
  intros HM Hi Hj. assert (HS : Qsum (fun M => score M i j) Ms = Qsum (fun M => score M j i) Ms) by (apply Qsum_ext; intros M K; apply sp_score_sym; auto).
  unfold sparse_average. rewrite HS, (Nat.eqb_sym j i). reflexivity.
Qed.
Lemma sp_average_between Ms i j : (0 < a)%Qc -> (0 < b)%Qc -> (forall M, In M Ms -> assigned N M) -> Ms <> [] -> i < N -> j < N -> i <> j -> (0 < sparse_average a b g0 Ms i j)%Qc /\ (sparse_average a b g0 Ms i j < 1)%Qc.
Proof.
  intros Ha Hb HM Hne Hi Hj Hij. unfold sparse_average. rewrite (proj2 (Nat.eqb_neq i j) Hij).
  destruct (Qsum_between (fun M => score M i j) Ms Hne) as [B1 B2]; [intros M K; apply sp_score_between; auto|].
  assert (PN : (0 < Qc_of_nat (length Ms))%Qc) by (rewrite <- Qc_of_nat_0; apply Qc_of_nat_lt; destruct Ms; [congruence|cbn; lia]).
  split; [now apply MissExact.Qc_div_pos|]. apply MissExact.Qc_div_lt; auto. now rewrite Qcmult_1_l.
Qed.
End Run.

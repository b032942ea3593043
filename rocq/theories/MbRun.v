(** MbRun.v -- set-up, decorrelation, thermalisation and scores of src/multiblock.c and src/only_deg.c. *)
From Coq Require Import List Arith ZArith Bool QArith Qcanon Lia.
From Verif Require Import Base Num ListLib NatSum QcSum IoModel GraphModel GraphSpec GraphProof GroupModel GroupSpec PairSum GroupProof GroupExact MatLib
  ToolsModel ToolsProof ModulesModel ModulesCopy SAProof MissModel MissSpec MissSets MissStep MissRun MissScore MbModel MbSpec MbStep.
Import ListNotations.
Local Open Scope nat_scope.

Lemma ends_from {S} E (P : nat -> S -> Prop) (f : S -> nat -> res S) n : forall a s, P a s ->
  (forall i s, a <= i -> i < a + n -> P i s -> ends E (f s i) (P (i + 1))) -> ends E (foldM f s (seq a n)) (P (a + n)).
Proof.
  induction n as [|n IH]; intros a s H0 Hs; [rewrite Nat.add_0_r; exact H0|]. cbn [seq foldM]. eapply ends_bind; [apply (Hs a s); auto; lia|]. intros s1 H1.
  replace (a + Datatypes.S n) with (Datatypes.S a + n) by lia. apply IH; [now rewrite <- Nat.add_1_r|intros; apply Hs; auto; lia].
Qed.
Section Run.
Variables ex sq : Qc -> Qc.
Local Instance rops : NumOps Qc := Qc_ops ex sq.
Variable ln : Qc -> Qc.
Variable lnchoose : nat -> nat -> Qc.
Variable lnfact : nat -> Qc.
Variable mutual : gpart Qc -> gpart Qc -> Qc.
Variable decay_of : nat -> nat -> Qc -> nat -> Qc -> Qc.
Variables lcsize lfsize : nat.
Variable linC : Qc.
Variable kd : kind.
Variable g0 : net Qc.
Hypothesis U0 : undirected g0.
Let N := length g0.
Notation logf := (logf ln).
Notation lnch := (lnch ln lnchoose kd).
Notation lnfd := (lnfd ln lnfact kd g0).
Variable hl : list Qc.
Hypothesis Hhl : forall i, i < length hl -> nth_error hl i = Some (Qsum (fun j => 1 / Qc_of_nat j) (seq 1 i))%Qc.
Notation mb_err := (mb_err kd g0 hl).
Variable J : groups -> Qc -> list Qc -> Prop.
Hypothesis J_move : attempt_ok logf lnch lnfd linC g0 J.
Notation binv := (binv ex sq lnchoose lcsize g0 J).
Notation pinv := (pinv g0).
Notation ident := (ident g0).
Notation apply1 := (apply1 logf lnch).
Notation tfact := (InitializeTable lnfact lfsize).

(** * The energy *)
Lemma add_ok H r l : l <= r -> r <= choose2 N -> ends mb_err (mb_add ln lnchoose kd hl H r l) (fun H' => H' = apply1 H (true, r, l)).
Proof.
  intros Hl Hr. unfold mb_add. eapply ends_bind; [apply (harm_ok ex sq ln kd g0 hl Hhl); auto|]. intros h ->. cbn [ends]. unfold hterm, MissStep.apply1, tcost, MbStep.logf, MbStep.lnch. cbn [nadd nsub nofnat rops Qc_ops]. destruct kd; ring.
Qed.
Theorem PartitionHMB_ok g P : pinv g P -> ends mb_err (PartitionHMB ln lnchoose lnfact linC kd hl g P) (fun H => H = H_of logf lnch lnfd linC g0 (abs P)).
Proof.
  intros I. pose proof (pi_as _ _ _ I) as AS. pose proof (pi_plen g0 g P I) as LP. fold N in LP, AS. unfold PartitionHMB. rewrite (nonempty_groups g0 g P I), LP.
  set (M := abs P) in *. set (h0 := nadd n0 (nmul linC (nofnat (filled M)))).
  assert (C1 : forall n, n <= N -> choose2 n <= choose2 N) by (intros; now apply choose2_mono).
  assert (C2 : forall a b, a + b <= N -> a * b <= choose2 N) by (intros a b K; etransitivity; [apply mul_choose2|now apply C1]).
  apply (ends_bind mb_err _ _ (fun '(H, nnod, ng) => H = fold_left apply1 (flat_map (pterms g0 M) (seq 0 N)) h0 /\
     nnod = Z.of_nat (lsum (fun k => length (nth_members M k)) (seq 0 N)) /\ ng = Z.of_nat (count (fun k => nonempty (nth_members M k)) (seq 0 N)))).
  - apply (ends_from mb_err (fun i '(H, nnod, ng) => H = fold_left apply1 (flat_map (pterms g0 M) (seq 0 i)) h0 /\
     nnod = Z.of_nat (lsum (fun k => length (nth_members M k)) (seq 0 i)) /\ ng = Z.of_nat (count (fun k => nonempty (nth_members M k)) (seq 0 i)))
     (mb_ph_group ln lnchoose kd g P hl) N 0 (h0, 0%Z, 0%Z)); [splits; reflexivity|].
    intros i [[H nnod] ng] _ Hi (EH & En & Eg). cbn [Nat.add] in Hi.
    unfold mb_ph_group. destruct (pi_group g0 g P I i Hi) as (G & EG & El & Em & Es & Ei). fold M in Es, Ei, Em.
    rewrite (get_ok _ _ _ EG). cbn [bind]. rewrite Es, Ei, nonempty_len. replace (seq 0 (i + 1)) with (seq 0 i ++ [i]) by (rewrite seq_app; reflexivity).
    rewrite flat_map_app, fold_left_app, lsum_app, count_app. cbn [flat_map lsum]. rewrite app_nil_r, count_cons. change (count (fun k => nonempty (nth_members M k)) []) with 0.
    destruct (nonempty (nth_members M i)) eqn:NE.
    + assert (EP : pterms g0 M i = (true, choose2 (length (nth_members M i)), links_in g0 (nth_members M i)) :: flat_map (pterms2 g0 M i) (seq (i + 1) (N - (i + 1)))) by (unfold pterms; now rewrite NE).
      rewrite EP. rewrite choose2_Z, !nat_of_nat. cbn [bind]. rewrite LP.
      assert (Si : length (nth_members M i) <= N).
      { pose proof (some_sizes N M [i] AS) as K. cbn [lsum] in K. rewrite Nat.add_0_r in K. apply K; [repeat constructor; simpl; intuition|]. intros k [<-|[]]; auto. }
      eapply ends_bind; [apply add_ok; [apply links_in_le; auto; [apply AS|apply (as_range _ _ AS i)]|now apply C1]|]. intros H1 E1.
      assert (Hin : forall ls h, (forall k, In k ls -> k < N /\ k <> i) -> ends mb_err (foldM (mb_ph_pair ln lnchoose kd g P hl i G) h ls) (fun h' => h' = fold_left apply1 (flat_map (pterms2 g0 M i) ls) h)).
      { induction ls as [|k ls IH]; intros h Hk; [reflexivity|]. cbn [foldM flat_map]. destruct (Hk k (or_introl eq_refl)) as [Lk Nk].
        assert (HP : ends mb_err (mb_ph_pair ln lnchoose kd g P hl i G h k) (fun h' => h' = fold_left apply1 (pterms2 g0 M i k) h)).
        { unfold mb_ph_pair. destruct (pi_group g0 g P I k Lk) as (Gk & EGk & _ & _ & Esk & _). fold M in Esk. rewrite (get_ok _ _ _ EGk). cbn [bind]. rewrite Esk, Es, nonempty_len.
          unfold pterms2. destruct (nonempty (nth_members M k)) eqn:NEk; [|reflexivity].
          rewrite <- Nat2Z.inj_mul, nat_of_nat. cbn [bind]. rewrite (pi_ng2g g0 U0 g P I i k) by auto. cbn [bind fold_left]. fold M. apply add_ok; [apply across_le|]. apply C2.
          pose proof (some_sizes N M [i; k] AS) as K. cbn [lsum] in K. rewrite Nat.add_0_r in K. apply K; [repeat constructor; simpl; intuition|]. intros x [<-|[<-|[]]]; auto. }
        eapply ends_bind; [exact HP|]. intros h' ->. eapply ends_impl; [apply IH; intros; apply Hk; simpl; auto|]. intros h'' ->. now rewrite fold_left_app. }
      eapply ends_bind; [apply Hin; intros k Hk; apply in_seq in Hk; lia|]. intros H2 E2. cbn [ends fold_left]. splits; [|lia|lia]. now rewrite E2, E1, EH.
    + assert (EP : pterms g0 M i = []) by (unfold pterms; now rewrite NE). rewrite EP.
      cbn [ends fold_left]. assert (E0 : nth_members M i = []) by (destruct (nth_members M i); [auto|discriminate]). rewrite E0. cbn [length]. splits; auto; lia.
  - intros [[H nnod] ng] (EH & En & Eg). rewrite (sizes_sum N M AS) in En. rewrite <- (filled_count N M AS) in Eg. rewrite En, Eg. pose proof (filled_le N M AS) as HF.
    replace (Z.of_nat N - Z.of_nat (filled M))%Z with (Z.of_nat (N - filled M)) by lia. rewrite !nat_of_nat. cbn [bind]. rewrite (deg_ok ex sq ln kd g0). cbn [bind ends]. rewrite EH.
    unfold H_of. fold N. unfold MbStep.lnfd. fold N. replace (N - (N - filled M)) with (filled M) by lia. cbn [nsub rops Qc_ops]. fold h0. ring.
Qed.

(** * The set-up *)
Theorem mb_setup_ok ds : (forall M ds', assigned N M -> started N ds M ds' -> J M (H_of logf lnch lnfd linC g0 M) ds') -> Forall good_draw ds ->
  ends mb_err (mb_setup ln lnchoose lnfact lcsize linC kd g0 hl ds) (fun '(nl, gl, st) => nl = ident /\ gl = ident /\ binv st).
Proof.
  intros J_init HD. unfold mb_setup. fold N. pose proof (map_nodes_ok g0 U0) as EM. fold N in EM. rewrite EM. cbn [bind].
  apply (ends_bind mb_err _ _ (fun s => plinv g0 N s /\ used g0 ds N s)).
  - eapply ends_weaken; [|apply (mc_mb kd g0 hl)].
    apply (ends_from (mc_err True) (fun i s => plinv g0 i s /\ used g0 ds i s) (place_node N ident) N 0).
    + split; [split; cbn [fst snd]; auto; [apply (un_reset g0 U0)|apply sbg_reset|apply fresh_mapped|apply fresh_placed]|apply used_0].
    + intros i s _ Hi Hs. apply (place_used mutual decay_of lcsize linC g0 True ds i s Hi Hs).
  - intros [[g P] ds'] [[U S M PL HD'] (us & Lu & Eu & Hu)]. cbn [fst snd] in *. assert (PI : pinv g P) by (split; auto; apply placed_all; auto).
    destruct (g2g_rows_ok g0 U0 g P (repeat (repeat 0%Z N) N) PI) as (m & E & Hm); [eexists; apply mat_repeat|]. fold N in E. rewrite E. cbn [bind].
    eapply ends_bind; [apply (PartitionHMB_ok g P PI)|]. intros H ->. cbn [ends]. splits; auto. split; cbn; auto.
    + apply repeat_length.
    + apply lc_init.
    + apply J_init; [apply placed_all; auto|]. exists us. auto.
Qed.

(** * Decorrelation and thermalisation *)
Notation mstep := (LSMCStepMB ln lnchoose lnfact lcsize lfsize linC kd N ident ident tfact hl).
Lemma mstep_ok factor st : binv st -> ends mb_err (mstep factor st) binv.
Proof. exact (step_ok ex sq ln lnchoose lnfact lcsize lfsize linC kd g0 U0 hl Hhl J J_move factor st). Qed.
Lemma mb_decor_one_ok st : binv st -> ends mb_err (mb_decor_one ln lnchoose lnfact mutual decay_of lcsize lfsize linC kd N ident ident tfact hl st) (fun '(_, st') => binv st').
Proof.
  intros I. unfold mb_decor_one. destruct (CopyPartition_spec (mnet st) (mpart st)) as (g' & Q & E & _); try apply I. rewrite E. cbn [bind].
  apply (ends_bind mb_err _ _ (fun '(st', _) => binv st')).
  - apply (ends_foldM mb_err (fun '(st', _) => binv st')).
    + intros [s y] x _ Hs. unfold mb_decor_step. cbn [fst snd]. eapply ends_bind; [apply mstep_ok; eauto|]. intros s' Hs'. exact Hs'.
    + split; cbn; try apply I. eapply copy_pinv; eauto. apply I.
  - intros [s y] Hs. exact Hs.
Qed.
Lemma mb_decor_reps_ok fuel : forall left decays st, length decays + left = 10 -> binv st ->
  ends mb_err (mb_decor_reps ln lnchoose lnfact mutual decay_of lcsize lfsize linC kd fuel N ident ident tfact hl left decays st) (fun '(ds, st') => length ds = 10 /\ binv st').
Proof.
  induction fuel as [|f IH]; intros left decays st HL I; destruct left as [|left]; cbn [mb_decor_reps].
  - split; auto. lia.
  - right. now left.
  - split; auto. lia.
  - eapply ends_bind; [apply mb_decor_one_ok; eauto|]. intros [d st'] I'. destruct (nltb d n0); [apply IH; auto|]. apply IH; auto. rewrite app_length. cbn [length]. lia.
Qed.
Theorem mb_decor_ok st : binv st -> ends mb_err (GetDecorrelationStepMB ln lnchoose lnfact mutual decay_of lcsize lfsize linC kd N ident ident tfact hl st) (fun '(_, st') => binv st').
Proof.
  intros I. unfold GetDecorrelationStepMB. eapply ends_bind; [apply mb_decor_reps_ok; eauto|]. intros [ds st'] [L I'].
  eapply ends_bind; [apply mean_ends; auto|]. intros m _. eapply ends_bind; [apply stddev_ends; auto|]. intros s _.
  destruct (fold_left _ ds _) as [r norm]. exact I'.
Qed.
Lemma mb_therm_loop_ok decor fuel : forall m0 s0 eq st, binv st -> ends mb_err (mb_therm_loop ln lnchoose lnfact lcsize lfsize linC kd fuel N ident ident tfact hl decor m0 s0 eq st) binv.
Proof.
  induction fuel as [|f IH]; intros m0 s0 eq st I; [right; now left|]. cbn [mb_therm_loop].
  apply (ends_bind mb_err _ _ (fun '(st', hs) => binv st' /\ length hs = 20)).
  - apply (ends_from mb_err (fun i '(st', hs) => binv st' /\ length hs = i) (mb_therm_step ln lnchoose lnfact lcsize lfsize linC kd N ident ident tfact hl decor) 20 0); [split; auto|]. intros i [s1 h1] _ _ [H1 H2].
    unfold mb_therm_step. cbn [fst snd]. eapply ends_bind; [apply mstep_ok; eauto|]. intros s' Hs'. cbn [ends]. rewrite app_length. cbn [length]. split; auto.
  - intros [s hs] [H1 H2]. eapply ends_bind; [apply mean_ends; auto|]. intros m _. eapply ends_bind; [apply stddev_ends; auto|]. intros sd _. cbv zeta.
    match goal with |- ends _ (if ?c then _ else _) _ => destruct c end; [destruct (eq + 1 <? 5)|]; auto.
Qed.
Theorem mb_therm_ok decor st : binv st -> ends mb_err (ThermalizeLSMCMB ln lnchoose lnfact lcsize lfsize linC kd N ident ident tfact hl decor st) binv.
Proof. intros I. now apply mb_therm_loop_ok. Qed.

(** * The scores *)
Notation score := (mb_score kd g0).
Notation share := (mb_share kd).
Lemma ratio_ok a r : kd <> OD -> a <= r -> r <= choose2 N -> ends mb_err (mb_ratio hl a r) (fun c => c = ratio a r).
Proof.
  intros Hk Ha Hr. unfold mb_ratio. do 4 (eapply ends_bind; [apply (hl_get kd g0 hl Hhl); auto; fold N; lia|]; intros ? ->). cbn [ends]. unfold ratio. rewrite !hsum_diff by lia. reflexivity.
Qed.
Lemma share_ok l r : l <= r -> r <= choose2 N -> ends mb_err (mb_contrib kd hl (Z.of_nat l) (Z.of_nat r)) (fun c => c = share r l).
Proof.
  intros Hl Hr. unfold mb_contrib. rewrite !nat_of_nat. cbn [bind]. unfold mb_share. pose proof ratio_ok as HR. destruct kd.
  - apply HR; auto. discriminate.
  - replace (Z.of_nat r - Z.of_nat l)%Z with (Z.of_nat (r - l)) by lia. rewrite nat_of_nat. cbn [bind]. apply HR; auto; [discriminate|lia].
  - reflexivity.
Qed.
Section State.
Variable st : mc Qc.
Hypothesis I : pinv (mnet st) (mpart st).
Let M := abs (mpart st).
Hypothesis HT : table_exact g0 M (mG2G st).
Let HA : assigned N M := pi_as _ _ _ I.
Lemma mb_group_here k : k < N -> exists G, group_at ident (mpart st) k = Ok G /\ map lnode (pnodes G) = nth_members M k /\
  psize G = Z.of_nat (length (nth_members M k)) /\ pin G = Z.of_nat (links_in g0 (nth_members M k)).
Proof.
  intros Hk. destruct (pi_group g0 _ _ I k Hk) as (G & EG & _ & Em & Es & Ei). exists G. unfold group_at. rewrite (ident_get g0 k Hk). cbn [bind deref].
  rewrite (get_ok _ _ _ EG). splits; auto. unfold M. rewrite <- Em. unfold members. pose proof (pi_cells g0 _ _ I G (nth_error_In _ _ EG)) as HC.
  clear - HC. induction (pnodes G) as [|l ls IH]; auto. cbn [map targets flat_map]. destruct (HC l (or_introl eq_refl)) as (i & -> & E & _). rewrite E. cbn [app]. f_equal. apply IH. intros l' K. apply HC. now right.
Qed.
Notation donep := (done_pair st).
Definition mb_with (b : nat -> nat -> bool) (f : nat -> nat -> Qc) : nat -> nat -> Qc := fun x y => if b x y then (f x y + score M x y)%Qc else f x y.
Lemma mb_members_lt k x : In x (nth_members M k) -> x < N.
Proof. apply (as_range N M HA). Qed.
Lemma mb_sizes1 i : i < N -> length (nth_members M i) <= N.
Proof. intros Hi. pose proof (some_sizes N M [i] HA) as K. cbn [lsum] in K. rewrite Nat.add_0_r in K. apply K; [repeat constructor; simpl; intuition|]. intros k [<-|[]]; auto. Qed.
Lemma mb_sizes2 i j : i < N -> j < N -> i <> j -> length (nth_members M i) * length (nth_members M j) <= choose2 N.
Proof.
  intros Hi Hj Hij. etransitivity; [apply mul_choose2|]. apply choose2_mono. pose proof (some_sizes N M [i; j] HA) as K. cbn [lsum] in K. rewrite Nat.add_0_r in K.
  apply K; [repeat constructor; simpl; intuition|]. intros k [<-|[<-|[]]]; auto.
Qed.

Lemma mb_other_ok i j G m f : i < j -> j < N -> group_at ident (mpart st) i = Ok G -> map lnode (pnodes G) = nth_members M i -> psize G = Z.of_nat (length (nth_members M i)) ->
  mat N N m (mb_with (donep i j) f) -> ends mb_err (mb_score_other kd N ident hl st i G m j) (fun m' => mat N N m' (mb_with (donep i (j + 1)) f)).
Proof.
  intros Hij Hj EG Em Es Hm. unfold mb_score_other. destruct (mb_group_here j Hj) as (G2 & -> & Em2 & Es2 & _). cbn [bind]. rewrite Es2.
  destruct (Z.ltb_spec 0 (Z.of_nat (length (nth_members M j)))) as [Hp|Hp].
  - pose proof HT as HT'. unfold table_exact in HT'. fold N M in HT'. rewrite (mat_get _ _ _ _ i j HT') by lia. cbn [bind]. rewrite (proj2 (Nat.eqb_neq i j)) by lia.
    rewrite Es, <- Nat2Z.inj_mul. eapply ends_bind; [apply share_ok; [apply across_le|apply mb_sizes2; lia]|]. intros c Ec.
    destruct (add_between N c (pnodes G2) (pnodes G) m (mb_with (donep i j) f)) as (m' & -> & Hm'); rewrite ?Em, ?Em2.
    + apply HA.
    + apply HA.
    + intros x K1 K2. assert (i = j) by (eapply as_apart; eauto). lia.
    + apply mb_members_lt.
    + apply mb_members_lt.
    + exact Hm.
    + cbn [ends]. eapply mat_ext; [exact Hm'|]. rewrite Em, Em2. intros x y Hx Hy. unfold plus_on, mb_with, done_pair. fold M.
      destruct (hm_spec N M x HA Hx) as (Lx & Mx & Bx). destruct (hm_spec N M y HA Hy) as (Ly & My & By). rewrite !Bx, !By.
      assert (EC : forall x y, x < N -> y < N -> hm M x = i -> hm M y = j -> c = score M x y).
      { clear x y Hx Hy Lx Mx Bx Ly My By. intros x y Hx Hy Ex Ey. destruct (hm_spec N M x HA Hx) as (_ & Mx & _). destruct (hm_spec N M y HA Hy) as (_ & My & By).
        unfold mb_score. rewrite Mx, My, By, Ex, Ey, (proj2 (Nat.eqb_neq j i)) by lia. exact Ec. }
      assert (EC2 : forall x y, x < N -> y < N -> hm M x = j -> hm M y = i -> c = score M x y).
      { intros x1 y1 Hx1 Hy1 Ex1 Ey1. rewrite (EC y1 x1); auto. destruct (hm_spec N M x1 HA Hx1) as (_ & Mx1 & Bx1). destruct (hm_spec N M y1 HA Hy1) as (_ & My1 & By1).
        unfold mb_score. rewrite Mx1, My1, By1, Bx1, Ex1, Ey1, (proj2 (Nat.eqb_neq j i)), (proj2 (Nat.eqb_neq i j)) by lia.
        rewrite (across_sym g0 _ _ U0), Nat.mul_comm. reflexivity. }
      specialize (EC x y Hx Hy). specialize (EC2 x y Hx Hy). change (@nadd Qc rops) with Qcplus.
      destruct (Nat.eqb_spec x y) as [Exy|Exy]; cbn [negb andb].
      * subst y. destruct (Nat.eqb_spec (hm M x) i), (Nat.eqb_spec (hm M x) j); cbn [andb orb]; auto; lia.
      * destruct (Nat.eqb_spec (hm M x) i) as [E1|E1], (Nat.eqb_spec (hm M y) j) as [E2|E2], (Nat.eqb_spec (hm M y) i) as [E3|E3], (Nat.eqb_spec (hm M x) j) as [E4|E4]; cbn [andb orb]; try lia;
        repeat match goal with |- context [?a <? ?b] => destruct (Nat.ltb_spec a b); try lia; cbn [andb orb] end; auto.
        -- now rewrite EC.
        -- now rewrite EC2.
  - cbn [ends]. eapply mat_ext; [exact Hm|]. intros x y Hx Hy. unfold mb_with, done_pair. fold M.
    assert (HE : forall x, x < N -> hm M x <> j).
    { intros z Hz E. destruct (hm_spec N M z HA Hz) as (_ & _ & B). specialize (B j). rewrite (proj2 (Nat.eqb_eq _ _) E) in B. apply mem_In in B. destruct (nth_members M j); [destruct B|cbn in Hp; lia]. }
    pose proof (HE x Hx). pose proof (HE y Hy).
    repeat match goal with |- context [?a <? ?b] => destruct (Nat.ltb_spec a b); try lia; cbn [andb orb] end; auto.
Qed.
Lemma mb_group_ok i m f : i < N -> mat N N m (mb_with (donep i 0) f) -> ends mb_err (mb_score_group kd N ident hl st m i) (fun m' => mat N N m' (mb_with (donep (i + 1) 0) f)).
Proof.
  intros Hi Hm. unfold mb_score_group. destruct (mb_group_here i Hi) as (G & EG & Em & Es & Ei). rewrite EG. cbn [bind]. rewrite Es.
  destruct (Z.ltb_spec 0 (Z.of_nat (length (nth_members M i)))) as [Hp|Hp].
  - rewrite Ei, choose2_Z. eapply ends_bind; [apply share_ok; [apply links_in_le; auto; [apply HA|apply mb_members_lt]|apply choose2_mono; now apply mb_sizes1]|]. intros c Ec.
    destruct (add_in N c (pnodes G) m (mb_with (donep i 0) f)) as (m1 & -> & Hm1); rewrite ?Em; [apply HA|apply mb_members_lt|exact Hm|]. cbn [bind]. rewrite Em in Hm1.
    eapply ends_impl.
    + apply (ends_from mb_err (fun j m => mat N N m (mb_with (donep i j) f)) (mb_score_other kd N ident hl st i G) (N - (i + 1)) (i + 1) m1).
      * eapply mat_ext; [exact Hm1|]. intros x y Hx Hy. unfold plus_on, mb_with, done_pair. fold M.
        destruct (hm_spec N M x HA Hx) as (Lx & Mx & Bx). destruct (hm_spec N M y HA Hy) as (Ly & My & By). rewrite !Bx, !By.
        assert (EC : hm M x = i -> hm M y = i -> c = score M x y).
        { intros E1 E2. unfold mb_score. rewrite Mx, My, By, E1, E2, Nat.eqb_refl. exact Ec. }
        change (@nadd Qc rops) with Qcplus.
        destruct (Nat.eqb_spec x y) as [Exy|Exy]; cbn [negb andb]; rewrite ?andb_false_r; auto. rewrite andb_true_r.
        destruct (Nat.eqb_spec (hm M x) i) as [E1|E1], (Nat.eqb_spec (hm M y) i) as [E2|E2]; cbn [andb orb]; rewrite ?E1, ?E2;
          repeat match goal with |- context [?a <? ?b] => destruct (Nat.ltb_spec a b); try lia; cbn [andb orb] end; auto.
        now rewrite EC.
      * intros j mj Hj1 Hj2 Hmj. apply mb_other_ok; auto; lia.
    + intros m2 Hm2. eapply mat_ext; [exact Hm2|]. intros x y Hx Hy. unfold mb_with, done_pair. fold M. replace (i + 1 + (N - (i + 1))) with N by lia.
      destruct (hm_spec N M x HA Hx) as (Lx & _). destruct (hm_spec N M y HA Hy) as (Ly & _).
      rewrite (proj2 (Nat.ltb_lt (hm M x) N) Lx), (proj2 (Nat.ltb_lt (hm M y) N) Ly).
      replace (hm M x <? i + 1) with ((hm M x <? i) || (hm M x =? i)) by (destruct (Nat.ltb_spec (hm M x) i), (Nat.eqb_spec (hm M x) i), (Nat.ltb_spec (hm M x) (i + 1)); auto; lia).
      replace (hm M y <? i + 1) with ((hm M y <? i) || (hm M y =? i)) by (destruct (Nat.ltb_spec (hm M y) i), (Nat.eqb_spec (hm M y) i), (Nat.ltb_spec (hm M y) (i + 1)); auto; lia).
      change (hm M x <? 0) with false; change (hm M y <? 0) with false. destruct (x =? y), (hm M x <? i), (hm M y <? i), (hm M x =? i), (hm M y =? i), (hm M x =? i + 1), (hm M y =? i + 1); reflexivity.
  - cbn [ends]. eapply mat_ext; [exact Hm|]. intros x y Hx Hy. unfold mb_with, done_pair. fold M.
    assert (HE : forall x, x < N -> hm M x <> i).
    { intros z Hz E. destruct (hm_spec N M z HA Hz) as (_ & _ & B). specialize (B i). rewrite (proj2 (Nat.eqb_eq _ _) E) in B. apply mem_In in B. destruct (nth_members M i); [destruct B|cbn in Hp; lia]. }
    pose proof (HE x Hx). pose proof (HE y Hy). change (hm M x <? 0) with false; change (hm M y <? 0) with false. rewrite !andb_false_r, !orb_false_r.
    repeat match goal with |- context [?a <? ?b] => destruct (Nat.ltb_spec a b); try lia; cbn [andb orb] end; auto.
Qed.
Lemma mb_scores_ok m f : mat N N m f -> ends mb_err (foldM (mb_score_group kd N ident hl st) m (seq 0 N)) (fun m' => mat N N m' (fun x y => if x =? y then f x y else (f x y + score M x y)%Qc)).
Proof.
  intros Hm. eapply ends_impl.
  - apply (ends_from mb_err (fun i m => mat N N m (mb_with (donep i 0) f)) (mb_score_group kd N ident hl st) N 0 m).
    + eapply mat_ext; [exact Hm|]. intros x y _ _. unfold mb_with, done_pair. fold M. change (hm M x <? 0) with false; change (hm M y <? 0) with false. now rewrite !andb_false_r.
    + intros i mi _ Hi Hmi. now apply mb_group_ok.
  - intros m' Hm'. eapply mat_ext; [exact Hm'|]. intros x y Hx Hy. unfold mb_with, done_pair. fold M. cbn [Nat.add].
    destruct (hm_spec N M x HA Hx) as (Lx & _). rewrite (proj2 (Nat.ltb_lt (hm M x) N) Lx). cbn [orb]. rewrite andb_true_r. now destruct (x =? y).
Qed.
End State.

(** The states after each of a number of steps, and the scores they add up to. *)
Inductive mb_stepped (decor : nat) : mc Qc -> list (mc Qc) -> mc Qc -> Prop :=
| ms_nil s : mb_stepped decor s [] s
| ms_snoc s sts s1 s2 : mb_stepped decor s sts s1 -> mstep decor s1 = Ok s2 -> mb_stepped decor s (sts ++ [s2]) s2.
Definition mb_summed (Ms : list groups) (i j : nat) : Qc := if i =? j then 0%Qc else Qsum (fun M => score M i j) Ms.
Variable J2 : groups -> Qc -> list Qc -> Prop.
Hypothesis J2_move : attempt_ok logf lnch lnfd linC g0 J2.
Notation binv2 := (MbStep.binv ex sq lnchoose lcsize g0 J2).
Definition mb_after (nIter : nat) (s0 : mc Qc) (decor : nat) (sm : mc Qc * list (list Qc)) : Prop :=
  exists sts, length sts = nIter /\ Forall binv2 sts /\ mb_stepped decor s0 sts (fst sm) /\ binv2 (fst sm) /\ mat N N (snd sm) (mb_summed (map (fun s => abs (mpart s)) sts)).
Lemma mb_samples_ok decor nIter s0 : binv2 s0 ->
  ends mb_err (foldM (mb_sample ln lnchoose lnfact lcsize lfsize linC kd N ident ident tfact hl decor) (s0, repeat (repeat n0 N) N) (seq 0 nIter)) (mb_after nIter s0 decor).
Proof.
  intros I2. apply (ends_from mb_err (fun k => mb_after k s0 decor) _ nIter 0).
  - exists []. cbn [fst snd]. splits; auto; [constructor|]. eapply mat_ext; [apply mat_repeat|]. intros i j _ _. unfold mb_summed. cbn. now destruct (i =? j).
  - intros k [s m] _ Hk (sts & LM & HM & HS0 & Is & Hm). cbn [fst snd] in *. unfold mb_sample. cbn [fst snd].
    pose proof (step_ok ex sq ln lnchoose lnfact lcsize lfsize linC kd g0 U0 hl Hhl J2 J2_move decor s Is) as HS. fold N in HS.
    destruct (LSMCStepMB _ _ _ _ _ _ _ _ _ _ _ _ _ s) as [s'|e] eqn:ES; cbn [bind ends] in *; auto.
    eapply ends_bind; [apply (mb_scores_ok s' (bi_p _ _ _ _ _ _ _ HS) (bi_g2g _ _ _ _ _ _ _ HS) m _ Hm)|]. intros m' Hm'. cbn [ends]. exists (sts ++ [s']). cbn [fst snd]. splits; auto.
    + rewrite app_length. cbn [length]. lia.
    + apply Forall_app. auto.
    + now apply (ms_snoc decor s0 sts s s').
    + eapply mat_ext; [exact Hm'|]. intros i j _ _. unfold mb_summed. rewrite !map_app, Qsum_app. cbn [map Qsum]. destruct (i =? j); auto. ring.
Qed.
End Run.

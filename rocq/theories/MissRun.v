(** MissRun.v -- set-up, decorrelation and thermalisation of src/missing.c, in any arithmetic. *)
From Coq Require Import List Arith ZArith Bool QArith Qcanon Lia.
From Verif Require Import Base Num ListLib NatSum QcSum IoModel GraphModel GraphSpec GraphProof GroupModel GroupSpec PairSum GroupProof GroupExact MatLib
  ToolsModel ToolsProof ModulesModel ModulesCopy SAProof MissModel MissSpec MissSets MissStep.
Import ListNotations.
Local Open Scope nat_scope.

(** A loop that starts at [a]. *)
Lemma foldM_from {S} (I : nat -> S -> Prop) (f : S -> nat -> res S) n : forall a s, I a s ->
  (forall i s, a <= i -> i < a + n -> I i s -> exists s', f s i = Ok s' /\ I (i + 1) s') -> exists s', foldM f s (seq a n) = Ok s' /\ I (a + n) s'.
Proof.
  induction n as [|n IH]; intros a s H0 Hs; [exists s; rewrite Nat.add_0_r; auto|]. cbn [seq foldM]. destruct (Hs a s) as (s1 & -> & H1); auto; [lia|]. cbn [bind].
  destruct (IH (Datatypes.S a) s1) as (s2 & E2 & H2); [now rewrite <- Nat.add_1_r|intros; apply Hs; auto; lia|]. exists s2. split; auto. now rewrite Nat.add_succ_r, <- Nat.add_succ_l.
Qed.
Lemma mean_ends {A} {ops : NumOps A} E (data : list A) n : length data = n -> ends E (mean data n) (fun _ => True).
Proof.
  intros L. unfold mean. destruct (foldM_seq (fun _ _ => True) (fun m i => do x <- get data i; Ok (nadd m x)) n n0) as (s & -> & _); [exact Logic.I| |exact Logic.I].
  intros i s Hi _. destruct (nth_ex data i) as [x Ex]; [lia|]. rewrite (get_ok _ _ _ Ex). cbn [bind]. eauto.
Qed.
Lemma stddev_ends {A} {ops : NumOps A} E (data : list A) n : length data = n -> ends E (stddev data n) (fun _ => True).
Proof.
  intros L. unfold stddev. destruct (foldM_seq (fun _ _ => True) (fun '(m, m2) i => do x <- get data i; Ok (nadd m x, nadd m2 (nmul x x))) n (n0, n0)) as ((s1 & s2) & -> & _); [exact Logic.I| |].
  - intros i [a b] Hi _. destruct (nth_ex data i) as [x Ex]; [lia|]. rewrite (get_ok _ _ _ Ex). cbn [bind]. eauto.
  - cbn [bind]. destruct (nltb _ _); exact Logic.I.
Qed.

Lemma combine_at {X Y} (l : list X) : forall (l' : list Y) i x y, nth_error l i = Some x -> nth_error l' i = Some y -> nth_error (combine l l') i = Some (x, y).
Proof. induction l as [|a l IH]; intros [|b l'] [|i] x y H1 H2; simpl in *; try discriminate; [congruence|eauto]. Qed.

Section Run.
Context {A : Type} {ops : NumOps A}.
Variable logf : nat -> A.
Variable lnchoose : nat -> nat -> A.
Variable lnfact : nat -> A.
Variable mutual : gpart A -> gpart A -> A.
Variable decay_of : nat -> nat -> A -> nat -> A -> A.
Variables lcsize lfsize : nat.
Variable linC : A.
Hypothesis Hneg : nltb (nofQ (-1 # 1)) n0 = true.
Variable g0 : net A.
Hypothesis U0 : undirected g0.
Let N := length g0.
Variable J : groups -> A -> list A -> Prop.
Hypothesis J_move : attempt_ok logf lnchoose lnfact linC g0 J.
Variable zeroed : Prop.

Notation mc_err := (mc_err zeroed).
Notation minv := (minv lnchoose lcsize g0 J zeroed).
Notation pinv := (pinv g0).
Notation ident := (ident g0).
Notation tcost := (tcost logf lnchoose).
Notation apply1 := (apply1 logf lnchoose).
Notation tfact := (InitializeTable lnfact lfsize).

(** * The energy *)
Definition pterms2 (M : groups) (k l : nat) : list term :=
  if nonempty (nth_members M l) then [(true, length (nth_members M k) * length (nth_members M l), across g0 (nth_members M k) (nth_members M l))] else [].
Definition pterms (M : groups) (k : nat) : list term :=
  if nonempty (nth_members M k) then (true, choose2 (length (nth_members M k)), links_in g0 (nth_members M k)) :: flat_map (pterms2 M k) (seq (k + 1) (N - (k + 1))) else [].
Definition H_of (M : groups) : A :=
  nsub (fold_left apply1 (flat_map (pterms M) (seq 0 N)) (nadd n0 (nmul linC (nofnat (filled M))))) (lnfact (N - filled M)).

Lemma nonempty_groups g P : pinv g P -> NNonEmptyGroups P = filled (abs P).
Proof.
  intros I. unfold NNonEmptyGroups, filled, count, abs. assert (H : forall G, In G P -> (0 <? psize G)%Z = nonempty (members G)).
  { intros G HG. destruct (mp_counts _ _ (pi_map _ _ _ I) G HG) as (-> & _). apply nonempty_len. }
  clear I. induction P as [|G P IH]; auto. cbn [map filter snd]. rewrite (H G (or_introl eq_refl)). unfold nonempty. destruct (members G); cbn [length]; [|f_equal]; apply IH; intros; apply H; simpl; auto.
Qed.
Theorem PartitionH_ok g P : pinv g P -> PartitionH logf lnchoose lnfact linC g P = Ok (H_of (abs P)).
Proof.
  intros I. pose proof (pi_as _ _ _ I) as AS. pose proof (pi_plen g0 g P I) as LP. fold N in LP, AS. unfold PartitionH. rewrite (nonempty_groups g P I), LP.
  set (M := abs P) in *. set (h0 := nadd n0 (nmul linC (nofnat (filled M)))).
  destruct (foldM_seq (fun i '(H, nnod, ng) => H = fold_left apply1 (flat_map (pterms M) (seq 0 i)) h0 /\
     nnod = Z.of_nat (lsum (fun k => length (nth_members M k)) (seq 0 i)) /\ ng = Z.of_nat (count (fun k => nonempty (nth_members M k)) (seq 0 i)))
     (ph_group logf lnchoose g P) N (h0, 0%Z, 0%Z)) as (((H & nnod) & ng) & -> & EH & En & Eg).
  - splits; reflexivity.
  - intros i [[H nnod] ng] Hi (EH & En & Eg). unfold ph_group. destruct (pi_group g0 g P I i Hi) as (G & EG & El & Em & Es & Ei). fold M in Es, Ei, Em.
    rewrite (get_ok _ _ _ EG). cbn [bind]. rewrite Es, Ei, nonempty_len. replace (seq 0 (i + 1)) with (seq 0 i ++ [i]) by (rewrite seq_app; reflexivity).
    rewrite flat_map_app, fold_left_app, lsum_app, count_app. cbn [flat_map lsum]. rewrite app_nil_r, count_cons. change (count (fun k => nonempty (nth_members M k)) []) with 0.
    destruct (nonempty (nth_members M i)) eqn:NE.
    + assert (EP : pterms M i = (true, choose2 (length (nth_members M i)), links_in g0 (nth_members M i)) :: flat_map (pterms2 M i) (seq (i + 1) (N - (i + 1)))) by (unfold pterms; now rewrite NE).
      rewrite EP. rewrite choose2_Z, !nat_of_nat. cbn [bind]. rewrite LP.
      assert (Hin : forall ls h, (forall k, In k ls -> k < N /\ k <> i) -> foldM (ph_pair logf lnchoose g P i G) h ls = Ok (fold_left apply1 (flat_map (pterms2 M i) ls) h)).
      { induction ls as [|k ls IH]; intros h Hk; auto. cbn [foldM flat_map]. destruct (Hk k (or_introl eq_refl)) as [Lk Nk]. unfold ph_pair at 1.
        destruct (pi_group g0 g P I k Lk) as (Gk & EGk & _ & _ & Esk & _). fold M in Esk. rewrite (get_ok _ _ _ EGk). cbn [bind]. rewrite Esk, Es, nonempty_len. rewrite fold_left_app.
        destruct (nonempty (nth_members M k)) eqn:NEk; [assert (EP2 : pterms2 M i k = [(true, length (nth_members M i) * length (nth_members M k), across g0 (nth_members M i) (nth_members M k))])|assert (EP2 : pterms2 M i k = [])]; try (unfold pterms2; now rewrite NEk); rewrite EP2.
        - rewrite <- Nat2Z.inj_mul, nat_of_nat. cbn [bind]. rewrite (pi_ng2g g0 U0 g P I i k) by auto. cbn [bind]. fold M. rewrite IH by (intros; apply Hk; simpl; auto). reflexivity.
        - cbn [bind]. rewrite IH by (intros; apply Hk; simpl; auto). reflexivity. }
      rewrite Hin by (intros k Hk; apply in_seq in Hk; lia). cbn [bind]. eexists. split; [reflexivity|]. cbn [fold_left]. splits; [|lia|lia]. now rewrite EH.
    + assert (EP : pterms M i = []) by (unfold pterms; now rewrite NE). rewrite EP.
      eexists. split; [reflexivity|]. cbn [fold_left]. assert (E0 : nth_members M i = []) by (destruct (nth_members M i); [auto|discriminate]). rewrite E0. cbn [length]. splits; auto; lia.
  - cbn [bind]. rewrite (sizes_sum N M AS) in En. rewrite <- (filled_count N M AS) in Eg. rewrite En, Eg. pose proof (filled_le N M AS) as HF.
    replace (Z.of_nat N - Z.of_nat (filled M))%Z with (Z.of_nat (N - filled M)) by lia. rewrite nat_of_nat. cbn [bind]. now rewrite EH.
Qed.

(** * The set-up *)
Definition fresh_groups (n : nat) : gpart A := map (fun k => mkGroup k 0 0 0 0 n0 n0 n0 []) (seq 0 n).
Lemma map_nodes_ok : foldM map_node (repeat None N, repeat None N, []) (combine (seq 0 N) g0) = Ok (ident, ident, fresh_groups N).
Proof.
  set (half := fun i => map Some (seq 0 i) ++ repeat (@None nat) (N - i)).
  destruct (foldM_inv (fun done '(nl, gl, P) => nl = half (length done) /\ gl = half (length done) /\ P = fresh_groups (length done))
     map_node (combine (seq 0 N) g0) (repeat None N, repeat None N, [])) as (((nl & gl) & P) & -> & E1 & E2 & E3).
  - unfold half. cbn. rewrite Nat.sub_0_r. auto.
  - intros done [pos n] rest [[nl gl] P] Hl (E1 & E2 & E3). set (i := length done) in *.
    assert (Ei : nth_error (combine (seq 0 N) g0) i = Some (pos, n)) by (rewrite Hl; apply nth_snoc || (rewrite nth_error_app2 by (unfold i; lia); unfold i; now rewrite Nat.sub_diag)).
    assert (Li : i < N). { apply nth_lt in Ei. rewrite combine_length, seq_length in Ei. fold N in Ei. lia. }
    destruct (nth_ex g0 i Li) as [n' En]. assert (E : nth_error (combine (seq 0 N) g0) i = Some (0 + i, n')).
    { apply combine_at; auto. now apply nth_error_seq. }
    rewrite Ei in E. change (0 + i) with i in E. injection E as -> ->. pose proof (wf_num g0 (un_wf g0 U0) i n' En) as Hnum. unfold map_node. rewrite Hnum.
    assert (Hh : length (half i) = N) by (unfold half; rewrite app_length, map_length, seq_length, repeat_length; lia).
    assert (Hu : upd (half i) i (Some i) = half (i + 1)).
    { unfold half. replace (N - i) with (Datatypes.S (N - (i + 1))) by lia. cbn [repeat]. pose proof (upd_app_mid (map Some (seq 0 i)) (repeat None (N - (i + 1))) None (Some i)) as E0. rewrite map_length, seq_length in E0. rewrite E0, seq_app, map_app, <- app_assoc. reflexivity. }
    rewrite E1, set_ok by lia. cbn [bind CreateGroup]. rewrite E2, set_ok by lia. cbn [bind]. eexists. split; [reflexivity|].
    rewrite app_length. cbn [length]. fold i. rewrite E3. unfold fresh_groups at 1. rewrite map_length, seq_length.
    splits; auto. unfold fresh_groups. now rewrite seq_app, map_app.
  - rewrite combine_length, seq_length in *. fold N in E1, E2, E3. rewrite Nat.min_id in *. unfold half in E1, E2. rewrite Nat.sub_diag in *. cbn [repeat] in *. rewrite app_nil_r in *. unfold MissStep.ident. fold N. congruence.
Qed.

(** Nodes 0 .. i-1 are in exactly one group, the others in none. *)
Record placed (i : nat) (M : groups) : Prop := {
  pl_labels : map fst M = seq 0 N;
  pl_once : forall k, NoDup (nth_members M k);
  pl_apart : forall k l x, In x (nth_members M k) -> In x (nth_members M l) -> k = l;
  pl_range : forall k x, In x (nth_members M k) -> x < i;
  pl_cover : forall x, x < i -> exists k, In x (nth_members M k)
}.
Lemma placed_all M : placed N M -> assigned N M.
Proof. intros []. split; auto. Qed.

Lemma sbg_reset (g : net A) : same_but_group g (ResetNetGroup g).
Proof. unfold same_but_group, ResetNetGroup. induction g as [|n g IH]; cbn [map]; constructor; auto 10. Qed.
Lemma un_reset : undirected (ResetNetGroup g0).
Proof.
  apply (sbg_undirected g0); auto using sbg_reset. intros i n E. unfold ResetNetGroup in E. rewrite nth_error_map in E. destruct (nth_error g0 i) as [m|] eqn:Em; [|discriminate]. injection E as <-.
  pose proof (wf_deg g0 (un_wf g0 U0) i m Em). destruct m; auto.
Qed.
Lemma fresh_abs n : abs (fresh_groups n) = map (fun k => (k, [])) (seq 0 n).
Proof. unfold abs, fresh_groups. rewrite map_map. reflexivity. Qed.
Lemma fresh_mapped : mapped (ResetNetGroup g0) (fresh_groups N).
Proof.
  assert (HG : forall G, In G (fresh_groups N) -> pnodes G = [] /\ members G = [] /\ psize G = 0%Z /\ pin G = 0%Z /\ ptot G = 0%Z /\ pout G = 0%Z).
  { intros G H. unfold fresh_groups in H. apply in_map_iff in H as (k & <- & _). cbn. splits; reflexivity. }
  split.
  - unfold fresh_groups. rewrite map_map. cbn [plabel]. rewrite map_id. apply seq_NoDup.
  - intros G H. destruct (HG G H) as (_ & -> & _). constructor.
  - intros G H i HG1 _ Hi. destruct (HG G HG1) as (_ & E & _). rewrite E in Hi. destruct Hi.
  - intros G l H Hl. destruct (HG G H) as (E & _). rewrite E in Hl. destruct Hl.
  - intros i n E. rewrite fresh_abs. unfold ResetNetGroup in E. rewrite nth_error_map in E. destruct (nth_error g0 i) as [m|]; [|discriminate]. injection E as <-.
    unfold home. assert (F : forall l : list nat, find (fun x : nat * list nat => mem i (snd x)) (map (fun k => (k, [])) l) = None) by (induction l; auto). rewrite F. destruct m; reflexivity.
  - intros G H. destruct (HG G H) as (_ & E & E1 & E2 & E3 & E4). unfold counts_right. rewrite E, E1, E2, E3, E4. destruct (links_nil (ResetNetGroup g0)) as (-> & -> & ->). splits; reflexivity.
Qed.
Lemma nth_fresh n k : nth_members (abs (fresh_groups n)) k = [].
Proof. rewrite fresh_abs. unfold nth_members. rewrite nth_error_map. destruct (nth_error (seq 0 n) k); reflexivity. Qed.
Lemma fresh_placed : placed 0 (abs (fresh_groups N)).
Proof.
  split.
  - rewrite fresh_abs, map_map. cbn [fst]. apply map_id.
  - intros k. rewrite nth_fresh. constructor.
  - intros k l x. rewrite nth_fresh. intros [].
  - intros k x. rewrite nth_fresh. intros [].
  - intros x Hx. lia.
Qed.

Record plinv (i : nat) (s : (net A * gpart A) * list A) : Prop := {
  pv_un : undirected (fst (fst s));
  pv_sbg : same_but_group g0 (fst (fst s));
  pv_map : mapped (fst (fst s)) (snd (fst s));
  pv_pl : placed i (abs (snd (fst s)));
  pv_ds : Forall good_draw (snd s)
}.
Lemma place_one i g P u ds : i < N -> plinv i ((g, P), u :: ds) ->
  let k := nfloor (nmul u (nofnat N)) in
  k < N /\ exists g' P', place_node N ident ((g, P), u :: ds) i = Ok ((g', P'), ds) /\ abs P' = set_members (abs P) k (nth_members (abs P) k ++ [i]) /\ plinv (i + 1) ((g', P'), ds).
Proof.
  intros Hi [U S M PL HD]. cbn [fst snd] in *. unfold place_node. inversion HD as [|? ? Hu HD']; subst. cbn [draw bind].
  set (k := nfloor (nmul u (nofnat N))). assert (Hk : k < N) by (apply Hu; lia). cbv zeta. split; auto. rewrite (ident_get g0 k Hk). cbn [bind deref].
  assert (LA : length (abs P) = N) by (pose proof (pl_labels _ _ PL) as H; apply (f_equal (@length nat)) in H; rewrite map_length, seq_length in H; auto).
  destruct (groups_run g P [GAdd k i] U M) as (g' & P' & E & U' & M' & S' & EA).
  { cbn [grops_ok grop_ok]. splits; auto; [lia|rewrite (sbg_length g0 g S); auto|]. intros m K. apply (pl_range _ _ PL) in K. lia. }
  cbn [foldM run_grop] in E. destruct (AddNodeToGroup (g, P) k i) as [gp|e]; [|discriminate]. cbn [bind] in E. injection E as ->. cbn [bind].
  cbn [fold_left grop_do] in EA. exists g', P'. splits; auto. split; cbn [fst snd]; auto; [eapply sbg_trans; eauto|]. rewrite EA.
  assert (Hn : forall m x, In x (nth_members (set_members (abs P) k (nth_members (abs P) k ++ [i])) m) <-> In x (nth_members (abs P) m) \/ (x = i /\ m = k)).
  { intros m x. rewrite nth_set_members by lia. destruct (Nat.eqb_spec m k) as [->|].
    - rewrite in_app_iff. simpl. intuition congruence.
    - intuition congruence. }
  split.
  - rewrite labels_set_members. apply PL.
  - intros m. rewrite nth_set_members by lia. destruct (Nat.eqb_spec m k) as [->|]; [|apply PL].
    rewrite <- (rev_involutive (nth_members (abs P) k ++ [i])), rev_unit. apply NoDup_rev. constructor; [|apply NoDup_rev, PL]. rewrite <- in_rev. intros K. apply (pl_range _ _ PL) in K. lia.
  - intros a b x Ha Hb. apply Hn in Ha. apply Hn in Hb. destruct Ha as [Ha|[-> ->]], Hb as [Hb|[Eb ->]]; auto.
    + eapply pl_apart; eauto.
    + subst x. apply (pl_range _ _ PL) in Ha. lia.
    + apply (pl_range _ _ PL) in Hb. lia.
  - intros m x Hx. apply Hn in Hx as [Hx|[-> _]]; [|lia]. apply (pl_range _ _ PL) in Hx. lia.
  - intros x Hx. destruct (Nat.eq_dec x i) as [->|]; [exists k; apply Hn; auto|]. destruct (pl_cover _ _ PL x) as [m Hm]; [lia|]. exists m. apply Hn. auto.
Qed.
Lemma place_ok i s : i < N -> plinv i s -> ends mc_err (place_node N ident s i) (plinv (i + 1)).
Proof.
  destruct s as [[g P] [|u ds]]; intros Hi I; [now left|]. destruct (place_one i g P u ds Hi I) as (_ & g' & P' & -> & _ & I'). exact I'.
Qed.

Definition used (ds0 : list A) (i : nat) (s : (net A * gpart A) * list A) : Prop :=
  exists us, length us = i /\ ds0 = us ++ snd s /\ forall x u, nth_error us x = Some u -> In x (nth_members (abs (snd (fst s))) (nfloor (nmul u (nofnat N)))).
Lemma used_0 g P ds : used ds 0 ((g, P), ds).
Proof. exists []. splits; auto. intros [|x] u E; discriminate. Qed.
Lemma place_used ds0 i s : i < N -> plinv i s /\ used ds0 i s -> ends mc_err (place_node N ident s i) (fun s' => plinv (i + 1) s' /\ used ds0 (i + 1) s').
Proof.
  destruct s as [[g P] [|u ds]]; intros Hi [I (us & Lu & Eu & Hu)]; [now left|]. pose proof (place_one i g P u ds Hi I) as H. cbv zeta in H. destruct H as (Hk & g' & P' & -> & EA & I'). split; auto.
  assert (LA : length (abs P) = N) by (pose proof (pl_labels _ _ (pv_pl _ _ I)) as H; apply (f_equal (@length nat)) in H; rewrite map_length, seq_length in H; auto).
  cbn [fst snd] in *. exists (us ++ [u]). cbn [fst snd]. splits; [rewrite app_length; cbn [length]; lia|rewrite <- app_assoc; exact Eu|].
  intros x y E. rewrite EA, nth_set_members by lia. destruct (Nat.lt_ge_cases x i) as [L|L].
  - rewrite nth_error_app1 in E by lia. specialize (Hu x y E). destruct (Nat.eqb_spec (nfloor (nmul y (nofnat N))) (nfloor (nmul u (nofnat N)))) as [Ey|_]; auto. rewrite <- Ey. apply in_app_iff. now left.
  - rewrite nth_error_app2 in E by lia. pose proof (nth_lt _ _ _ E) as Lx. cbn [length] in Lx. replace (x - length us) with 0 in E by lia. injection E as <-. rewrite Nat.eqb_refl. apply in_app_iff. right. left. lia.
Qed.

Lemma g2g_rows_ok g P m : pinv g P -> (exists f, mat N N m f) -> exists m', foldM (g2g_row g P ident N) m (seq 0 N) = Ok m' /\ table_exact g0 (abs P) m'.
Proof.
  intros I Hm. set (M := abs P). set (T := tabf g0 M).
  assert (TS : forall a b, T a b = T b a).
  { intros a b. unfold T, tabf. rewrite (Nat.eqb_sym b a). destruct (Nat.eqb_spec a b) as [->|]; auto. now rewrite across_sym. }
  destruct (foldM_seq (fun i m => exists f, mat N N m f /\ forall a b, (a < i \/ b < i) -> a < N -> b < N -> f a b = T a b) (g2g_row g P ident N) N m) as (m' & -> & f & Hf & Hr).
  - destruct Hm as [f Hf]. exists f. split; auto. intros; lia.
  - intros i mi Hi (f & Hf & Hr). unfold g2g_row. unfold group_at. rewrite (ident_get g0 i Hi). cbn [bind deref]. destruct (pi_group g0 g P I i Hi) as (G & EG & El & Em & Es & Ei).
    rewrite (get_ok _ _ _ EG). cbn [bind]. destruct (mat_set _ _ _ _ i i (pin G) Hf Hi Hi) as (m1 & -> & Hm1). cbn [bind].
    destruct (foldM_from (fun j m => exists f, mat N N m f /\ forall a b, (a < i \/ b < i \/ (a = i /\ b < j) \/ (b = i /\ a < j)) -> a < N -> b < N -> f a b = T a b)
      (g2g_pair g P ident i) (N - (i + 1)) (i + 1) m1) as (m2 & -> & f2 & Hf2 & Hr2).
    + eexists. split; [exact Hm1|]. intros a b Hab Ha Hb. unfold fupd2. destruct (Nat.eqb_spec a i) as [->|]; cbn [andb].
      * destruct (Nat.eqb_spec b i) as [->|]; [|apply Hr; auto; lia]. unfold T, tabf. rewrite Nat.eqb_refl. exact Ei.
      * apply Hr; auto. lia.
    + intros j mj Hj1 Hj2 (fj & Hfj & Hrj). unfold g2g_pair. rewrite !ident_get by (fold N; lia). cbn [bind deref]. rewrite (pi_ng2g g0 U0 g P I i j) by (fold N; lia). cbn [bind]. fold M.
      destruct (mat_set _ _ _ _ j i (Z.of_nat (across g0 (nth_members M i) (nth_members M j))) Hfj) as (x1 & -> & Hx1); try lia. cbn [bind].
      destruct (mat_set _ _ _ _ i j (Z.of_nat (across g0 (nth_members M i) (nth_members M j))) Hx1) as (x2 & -> & Hx2); try lia. eexists. split; [reflexivity|]. eexists. split; [exact Hx2|].
      assert (ET : Z.of_nat (across g0 (nth_members M i) (nth_members M j)) = T i j) by (unfold T, tabf; rewrite (proj2 (Nat.eqb_neq i j)) by lia; reflexivity). rewrite ET.
      intros a b Hab Ha Hb. unfold fupd2. destruct ((a =? i) && (b =? j)) eqn:E1.
      * apply andb_prop in E1 as [E1 E2]. apply Nat.eqb_eq in E1, E2. now rewrite E1, E2.
      * destruct ((a =? j) && (b =? i)) eqn:E2.
        -- apply andb_prop in E2 as [E2 E3]. apply Nat.eqb_eq in E2, E3. rewrite E2, E3. apply TS.
        -- apply Hrj; auto. apply andb_false_iff in E1, E2. rewrite !Nat.eqb_neq in E1, E2. lia.
    + eexists. split; [reflexivity|]. exists f2. split; auto. intros a b Hab Ha Hb. apply Hr2; auto. lia.
  - exists m'. split; auto. eapply mat_ext; [exact Hf|]. intros a b Ha Hb. rewrite Hr by (auto; lia). reflexivity.
Qed.

Theorem setup_ok n2g ds : (forall M ds', assigned N M -> started N ds M ds' -> J M (H_of M) ds') -> length n2g = N -> (forall k x, nth_error n2g k = Some x -> x = None \/ x = Some 0%Z) -> (zeroed -> forall k, nth_error n2g k <> Some None) -> Forall good_draw ds ->
  ends mc_err (mc_setup logf lnchoose lnfact lcsize linC g0 n2g ds) (fun '(nl, gl, st) => nl = ident /\ gl = ident /\ minv st).
Proof.
  intros J_init L Hn Hz HD. unfold mc_setup. fold N. rewrite map_nodes_ok. cbn [bind].
  apply (ends_bind mc_err _ _ (fun s => plinv N s /\ used ds N s)).
  - pose proof (foldM_seq_safe (fun i s => plinv i s /\ used ds i s) mc_err (place_node N ident) N (ResetNetGroup g0, fresh_groups N, ds)) as G. unfold ends.
    destruct (foldM (place_node N ident) _ (seq 0 N)); (apply G; [split; [split; cbn [fst snd]; auto using un_reset, sbg_reset, fresh_mapped, fresh_placed|apply used_0]|]; intros i s Hi Hs; apply (place_used ds i s Hi Hs)).
  - intros [[g P] ds'] [[U S M PL HD'] (us & Lu & Eu & Hu)]. cbn [fst snd] in *. assert (PI : pinv g P) by (split; auto; apply placed_all; auto).
    destruct (g2g_rows_ok g P (repeat (repeat 0%Z N) N) PI) as (m & -> & Hm); [eexists; apply mat_repeat|]. cbn [bind]. rewrite (PartitionH_ok g P PI). cbn [bind ends].
    splits; auto. split; cbn; auto.
    + intros k x Ex _. eauto.
    + apply lc_init.
    + apply J_init; [apply placed_all; auto|]. exists us. auto.
Qed.

(** * Decorrelation and thermalisation *)
Notation step_ok := (step_ok logf lnchoose lnfact lcsize lfsize linC Hneg g0 U0 J J_move zeroed).
Lemma copy_pinv g P g' Q : pinv g P -> CopyPartition g P = Ok (g', Q) -> pinv g' P.
Proof.
  intros I E. destruct (CopyPartition_spec g P (pi_un _ _ _ I) (pi_map _ _ _ I)) as (g1 & Q1 & E1 & U1 & S1 & HG & _). rewrite E in E1. injection E1 as <- <-.
  split; auto; [eapply sbg_trans; eauto; apply I| |apply I]. pose proof (pi_map _ _ _ I) as MP. split; try apply MP.
  - intros G l HGP Hl. destruct (mp_cells _ _ MP G l HGP Hl) as (j & n & E1 & E2 & E3 & E4). destruct (F2_nth _ _ _ _ _ S1 E2) as (m & Em & Hm). exists j, m. splits; auto. rewrite E4. apply Hm.
  - intros i m Em. destruct (nth_ex g i) as [n En]; [rewrite <- (sbg_length g g' S1); eapply nth_lt; eauto|]. rewrite (HG i n m En Em). apply (mp_group _ _ MP i n En).
  - intros G HGP. apply (sbg_counts g g' G S1). now apply (mp_counts _ _ MP).
Qed.
Lemma decor_one_ok st : minv st -> ends mc_err (decor_one logf lnchoose lnfact mutual decay_of lcsize lfsize linC N ident ident tfact st) (fun '(_, st') => minv st').
Proof.
  intros I. unfold decor_one. destruct (CopyPartition_spec (mnet st) (mpart st)) as (g' & Q & E & _); try apply I. rewrite E. cbn [bind].
  apply (ends_bind mc_err _ _ (fun '(st', _) => minv st')).
  - apply (ends_foldM mc_err (fun '(st', _) => minv st')).
    + intros [s y] x _ Hs. unfold decor_step. cbn [fst snd]. eapply ends_bind; [apply step_ok; eauto|]. intros s' Hs'. exact Hs'.
    + split; cbn; try apply I. eapply copy_pinv; eauto. apply I.
  - intros [s y] Hs. exact Hs.
Qed.
Lemma decor_reps_ok fuel : forall left decays st, length decays + left = 10 -> minv st ->
  ends mc_err (decor_reps logf lnchoose lnfact mutual decay_of lcsize lfsize linC fuel N ident ident tfact left decays st) (fun '(ds, st') => length ds = 10 /\ minv st').
Proof.
  induction fuel as [|f IH]; intros left decays st HL I; destruct left as [|left]; cbn [decor_reps].
  - split; auto. lia.
  - right. now left.
  - split; auto. lia.
  - eapply ends_bind; [apply decor_one_ok; eauto|]. intros [d st'] I'. destruct (nltb d n0); [apply IH; auto|]. apply IH; auto. rewrite app_length. cbn [length]. lia.
Qed.
Theorem decor_ok st : minv st -> ends mc_err (GetDecorrelationStep logf lnchoose lnfact mutual decay_of lcsize lfsize linC N ident ident tfact st) (fun '(_, st') => minv st').
Proof.
  intros I. unfold GetDecorrelationStep. eapply ends_bind; [apply decor_reps_ok; eauto|]. intros [ds st'] [L I'].
  eapply ends_bind; [apply mean_ends; auto|]. intros m _. eapply ends_bind; [apply stddev_ends; auto|]. intros s _.
  destruct (fold_left _ ds _) as [r norm]. exact I'.
Qed.
Lemma therm_loop_ok decor fuel : forall m0 s0 eq st, minv st -> ends mc_err (therm_loop logf lnchoose lnfact lcsize lfsize linC fuel N ident ident tfact decor m0 s0 eq st) minv.
Proof.
  induction fuel as [|f IH]; intros m0 s0 eq st I; [right; now left|]. cbn [therm_loop].
  apply (ends_bind mc_err _ _ (fun '(st', hs) => minv st' /\ length hs = 20)).
  - pose proof (foldM_seq_safe (fun i '(st', hs) => minv st' /\ length hs = i) mc_err (therm_step logf lnchoose lnfact lcsize lfsize linC N ident ident tfact decor) 20 (st, [])) as G.
    unfold ends. destruct (foldM _ (st, []) (seq 0 20)) as [[s hs]|e]; (apply G; [split; auto|]; intros i [s1 h1] _ [H1 H2]; unfold therm_step; cbn [fst snd];
      pose proof (step_ok decor s1 H1) as HS; destruct (LinkScoreMCStep _ _ _ _ _ _ _ _ _ _ _ s1); cbn [bind ends] in *; [rewrite app_length; cbn [length]; split; auto; lia|auto]).
  - intros [s hs] [H1 H2]. eapply ends_bind; [apply mean_ends; auto|]. intros m _. eapply ends_bind; [apply stddev_ends; auto|]. intros sd _. cbv zeta.
    match goal with |- ends _ (if ?c then _ else _) _ => destruct c end; [destruct (eq + 1 <? 5)|]; auto.
Qed.
Theorem therm_ok decor st : minv st -> ends mc_err (ThermalizeLinkScoreMC logf lnchoose lnfact lcsize lfsize linC N ident ident tfact decor st) minv.
Proof. intros I. now apply therm_loop_ok. Qed.
End Run.

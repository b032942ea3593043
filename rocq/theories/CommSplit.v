(** CommSplit.v -- SAGroupSplit of src/modules.c finds two halves of a group. *)
From Coq Require Import List Arith ZArith Bool QArith Qcanon Qround Lia.
From Verif Require Import Base Num ListLib NatSum QcSum IoModel IoSpec GraphModel GraphSpec GraphProof BipartSpec GroupModel GroupSpec PairSum GroupProof GroupExact NetModel NetSpec NetCopy
  ModulesModel ModulesSpec ModulesMod ModulesMap ModulesCopy ModulesClusters SAProof Refute MissModel MissSpec MissSets MissStep MissRun RecSpec RecSetup CommModel CommSpec CommSums CommStep CommFlip.
Import ListNotations.
Local Open Scope nat_scope.

(** The first group of [split] holds the nodes of half 0, by label. *)
Definition half_of (g : net Qc) (ms h : list nat) (split : gpart Qc) : Prop :=
  exists H R zs, split = H :: R /\ map llabel (pnodes H) = map (fun x => BipartSpec.label_of g (nth x ms 0)) zs /\ NoDup zs /\ forall x, In x zs <-> x < length ms /\ colour h x = 0.

Lemma filter_all {X} (p : X -> bool) l : (forall x, In x l -> p x = true) -> filter p l = l.
Proof. induction l as [|x l IH]; intros H; auto. cbn [filter]. rewrite H by (simpl; auto). f_equal. apply IH. intros; apply H; simpl; auto. Qed.
Lemma filter_upd_one {X} (p : X -> bool) x : p x = false -> forall l k, k < length l -> (forall j y, j <> k -> nth_error l j = Some y -> p y = true) -> S (length (filter p (upd l k x))) = length l.
Proof.
  intros Hx. induction l as [|y l IH]; intros k Hk H; [simpl in Hk; lia|]. destruct k as [|k]; cbn [upd filter length].
  - rewrite Hx, filter_all; auto. intros z Hz. apply In_nth_error in Hz as [j Hj]. apply (H (S j)); auto.
  - rewrite (H 0) by auto. cbn [length]. f_equal. apply IH; [simpl in Hk; lia|]. intros j z Hj Ez. apply (H (S j)); auto.
Qed.

Lemma same_labels (g g' : net Qc) : same_net g g' -> map glabel g' = map glabel g.
Proof. intros S. induction S as [|a b l l' (E & _) _ IH]; auto. cbn [map]. now rewrite IH, E. Qed.
Section Exact.
Variables ex sq : Qc -> Qc.
#[local] Instance opsP : NumOps Qc := Qc_ops ex sq.
Notation q := Qc_of_nat.

Lemma ceil_range u n : inner u -> 0 < n -> 1 <= nceil (nmul u (nofnat n)) <= n.
Proof.
  intros Hu Hn. unfold nceil. pose proof (selects_lt ex sq n u Hu Hn) as Hlt. unfold selects in Hlt. cbn [nfloor nmul nofnat neqb opsP Qc_ops]. destruct (Qc_eq_dec _ _) as [E|E]; [|lia].
  split; [|lia]. destruct (Z.to_nat (Qfloor (this (u * q n)%Qc))) as [|k] eqn:Ek; [|lia]. exfalso. assert (X : (0 < u * q n)%Qc).
  { replace 0%Qc with (0 * q n)%Qc by ring. apply Qcmult_lt_compat_r; [now apply Qc_of_nat_pos|apply Hu]. }
  rewrite <- E in X. now apply Qclt_not_eq in X.
Qed.
Lemma redraw_ceil_ok n o : 0 < n -> forall ds, Forall inner ds -> ends only_rng (redraw_ceil n o ds) (fun '(x, ds') => 1 <= x <= n /\ x <> o /\ exists us, ds = us ++ ds').
Proof.
  intros Hn. induction ds as [|u ds IH]; intros HD; [reflexivity|]. cbn [redraw_ceil]. inversion HD; subst. destruct (Nat.eqb_spec (nceil (nmul u (nofnat n))) o) as [E|E].
  - eapply ends_impl; [apply IH; auto|]. intros [x ds'] (H3 & H4 & us & ->). split; auto. split; auto. exists (u :: us). reflexivity.
  - cbn [ends]. split; [apply ceil_range; auto|]. split; auto. exists [u]. reflexivity.
Qed.
Lemma Forall_suffix {X} (p : X -> Prop) l us r : Forall p l -> l = us ++ r -> Forall p r.
Proof. intros H ->. apply Forall_app in H. tauto. Qed.

(** * Merging clusters *)
Section Merge.
Variable g1 : net Qc.
Let n := length g1.
Record clus (g' : net Qc) (P : gpart Qc) : Prop := {
  cu_un : undirected g';
  cu_same : same_but_group g1 g';
  cu_map : mapped g' P;
  cu_cover : covering n (abs P);
  cu_full : forall a S, In (a, S) (abs P) -> S <> [];
  cu_closed : forall a S x y, In (a, S) (abs P) -> In x S -> linked g1 x y = true -> In y S
}.
Lemma merge_pair g' P a b : clus g' P -> a < length P -> b < length P -> a <> b ->
  exists g'' P'', MergeGroups (g', P) a b = Ok (g'', P'') /\ clus g'' (CompressPart P'') /\ S (length (CompressPart P'')) = length P.
Proof.
  intros I Ha Hb Hab. assert (LP : length (abs P) = length P) by apply map_length.
  assert (Hok : grops_ok (length g') (abs P) [GMerge a b; GCompress]) by (cbn; rewrite LP; auto).
  destruct (groups_run g' P [GMerge a b; GCompress] (cu_un _ _ I) (cu_map _ _ I) Hok) as (g3 & P3 & E & U3 & M3 & S3 & EA).
  cbn [foldM run_grop fold_left] in E, EA. destruct (MergeGroups (g', P) a b) as [[g2 P2]|e] eqn:EM; [|discriminate E]. cbn [bind fst snd] in E. injection E as <- <-.
  set (M := abs P) in *. set (Mb := set_members M b (nth_members M b ++ nth_members M a)) in *.
  assert (LMb : length Mb = length M) by apply length_set_members.
  assert (EG : grop_do M (GMerge a b) = set_members Mb a []) by reflexivity. rewrite EG in EA. cbn [grop_do] in EA.
  assert (Hat : forall k lab S, nth_error (set_members Mb a []) k = Some (lab, S) -> S = if k =? a then [] else if k =? b then nth_members M b ++ nth_members M a else nth_members M k).
  { intros k lab S E. apply nth_members_eq in E. rewrite <- E. unfold Mb. rewrite !nth_set_members by (rewrite ?length_set_members; lia). reflexivity. }
  assert (Hmem : forall k lab S, nth_error M k = Some (lab, S) -> nth_members M k = S) by (intros k lab S; apply nth_members_eq).
  assert (Hful : forall k, k < length M -> nth_members M k <> []).
  { intros k Hk. destruct (nth_ex M k Hk) as [[lab S] E]. rewrite (Hmem k lab S E). eapply (cu_full _ _ I). eapply nth_error_In; eauto. }
  assert (Hcl : forall k x y, In x (nth_members M k) -> linked g1 x y = true -> In y (nth_members M k)).
  { intros k x y Hx Hl. unfold nth_members in *. destruct (nth_error M k) as [[lab S]|] eqn:E; [|destruct Hx]. eapply (cu_closed _ _ I lab S); eauto. eapply nth_error_In; eauto. }
  exists g2, P2. split; auto. split.
  - split; auto.
    + eapply sbg_trans; [apply I|exact S3].
    + intros i Hi Hnone. pose proof (cu_cover _ _ I i Hi) as Hc. fold M in Hc. destruct (home M i) as [lab|] eqn:Eh; [|congruence].
      assert (GM : good M) by (apply good_map; split; [|split]; apply (cu_map _ _ I)). assert (GM' : good (abs (CompressPart P2))) by (apply good_map; split; [|split]; apply M3).
      apply home_iff in Eh as (S & HS & Hi'); auto. apply In_nth_error in HS as [k Ek].
      assert (X : exists k' S', k' < length M /\ nth_members (set_members Mb a []) k' = S' /\ In i S').
      { assert (Hk : k < length M) by (eapply nth_lt; eauto). destruct (Nat.eq_dec k a) as [->|Na].
        - exists b, (nth_members M b ++ nth_members M a). splits; try lia; [|apply in_or_app; right; rewrite (Hmem _ _ _ Ek); auto]. unfold Mb. rewrite !nth_set_members by (rewrite ?length_set_members; lia).
          destruct (Nat.eqb_spec b a); [congruence|]. now rewrite Nat.eqb_refl.
        - exists k. eexists. splits; [auto|reflexivity|]. unfold Mb. rewrite !nth_set_members by (rewrite ?length_set_members; lia). rewrite (proj2 (Nat.eqb_neq k a) Na).
          destruct (Nat.eqb_spec k b) as [->|]; [apply in_or_app; left|]; rewrite (Hmem _ _ _ Ek); auto. }
      destruct X as (k' & S' & Hk' & ES' & Hi''). destruct (nth_ex (set_members Mb a []) k') as [[lab' S''] E']; [rewrite length_set_members; lia|]. rewrite (nth_members_eq _ _ _ _ E') in ES'. subst S''.
      assert (Hh : home (abs (CompressPart P2)) i = Some lab'); [|congruence]. apply home_iff; auto. exists S'. split; auto. rewrite EA. apply filter_In. split; [eapply nth_error_In; eauto|]. cbn [snd]. destruct S'; [destruct Hi''|auto].
    + intros lab S HS. rewrite EA in HS. apply filter_In in HS as [_ HS]. cbn [snd] in HS. intros ->. discriminate.
    + intros lab S x y HS Hx Hl. rewrite EA in HS. apply filter_In in HS as [HS _]. apply In_nth_error in HS as [k Ek]. rewrite (Hat _ _ _ Ek) in *. destruct (k =? a); [destruct Hx|]. destruct (k =? b).
      * apply in_or_app. apply in_app_or in Hx as [Hx|Hx]; [left|right]; eapply Hcl; eauto.
      * eapply Hcl; eauto.
  - assert (LC : length (CompressPart P2) = length (abs (CompressPart P2))) by (symmetry; apply map_length). rewrite LC, EA, <- LP. fold M. rewrite <- LMb.
    destruct (nth_ex Mb a) as [[lab S] Ea]; [lia|]. rewrite (set_members_eq _ _ _ _ _ Ea). apply filter_upd_one; [reflexivity|lia|].
    intros j [lb T] Hj Ej0. cbn [snd]. pose proof (nth_members_eq _ _ _ _ Ej0) as Ej. assert (Lj : j < length M) by (rewrite <- LMb; eapply nth_lt; eauto).
    assert (T <> []); [|destruct T; auto; congruence]. rewrite <- Ej. unfold Mb. rewrite nth_set_members by lia. destruct (Nat.eqb_spec j b) as [->|]; [|apply Hful; auto].
    intros X. apply app_eq_nil in X as [X _]. apply (Hful b); auto; lia.
Qed.
Lemma merge_down_ok todo : forall g' P ds, clus g' P -> length P = todo + 2 -> Forall inner ds ->
  ends only_rng (merge_down todo (g', P) (todo + 2) ds) (fun '(g'', P'', ds') => clus g'' P'' /\ length P'' = 2 /\ (exists us, ds = us ++ ds') /\ Forall inner ds').
Proof.
  induction todo as [|todo IH]; intros g' P ds I HL HD; cbn [merge_down].
  - cbn [ends]. split; auto. split; auto. split; auto. exists []. reflexivity.
  - destruct ds as [|u ds]; [reflexivity|]. cbn [draw bind]. inversion HD as [|? ? Hu HD']; subst. pose proof (ceil_range u (S todo + 2) Hu ltac:(lia)) as H1.
    eapply ends_bind; [apply (redraw_ceil_ok (S todo + 2) (nceil (nmul u (nofnat (S todo + 2)))) ltac:(lia) ds HD')|]. intros [k2 ds2] (H2 & Hne & us & Eus).
    set (k1 := nceil (nmul u (nofnat (S todo + 2)))) in *. destruct k1 as [|a]; [lia|]. destruct k2 as [|b]; [lia|]. cbn [pos_of bind].
    destruct (merge_pair g' P a b I) as (g2 & P2 & EM & I2 & L2); try lia. replace (MergeGroups (g', P) a b) with (Ok (g2, P2)) by (symmetry; exact EM). cbn [bind fst snd].
    replace (S todo + 2 - 1) with (todo + 2) by lia. eapply ends_impl; [apply (IH g2 (CompressPart P2) ds2); auto; [lia|eapply Forall_suffix; eauto]|].
    intros [[g3 P3] ds3] (I3 & L3 & (us3 & Eus3) & HD3). split; auto. split; auto. split; auto. exists (u :: us ++ us3). rewrite Eus, Eus3. cbn [app]. now rewrite <- app_assoc.
Qed.
End Merge.

(** * The network of the group *)
Section Split.
Variable g : net Qc.
Hypothesis U : undirected g.
Hypothesis ND : NoDup (map glabel g).
Hypothesis Fit : forall n, In n g -> length (glabel n) < 100.
Variable ms : list nat.
Hypothesis NDm : NoDup ms.
Hypothesis Rng : forall i, In i ms -> i < length g.
Let n := length ms.
Section Sub.
Variable c : net Qc.
Hypothesis Ind : induced g ms c.
Lemma sub_length : length c = n.
Proof. pose proof (in_labels _ _ _ Ind) as E. apply (f_equal (@length _)) in E. now rewrite !map_length in E. Qed.
Lemma ms_nth x : x < n -> nth_error ms x = Some (nth x ms 0).
Proof. intros Hx. now apply nth_error_nth'. Qed.
Lemma sub_weight x y : x < n -> y < n -> weight c x y = weight g (nth x ms 0) (nth y ms 0).
Proof. intros Hx Hy. apply (in_weight _ _ _ Ind); now apply ms_nth. Qed.
Lemma sub_out x y : n <= x \/ n <= y -> weight c x y = None.
Proof.
  intros H. destruct (weight c x y) as [w|] eqn:E; auto. exfalso. assert (X : In y (nbrs c x)) by (apply nbrs_weight; congruence).
  destruct (nbrs_lt c x y (in_wf _ _ _ Ind) X) as [X1 X2]. rewrite sub_length in *. lia.
Qed.
Lemma sub_undirected : undirected c.
Proof.
  split; [apply Ind| |].
  - intros x Hx. apply nbrs_weight in Hx. destruct (Nat.lt_ge_cases x n) as [L|L]; [|apply Hx, sub_out; auto]. rewrite sub_weight in Hx by auto. apply nbrs_weight in Hx. now apply (un_loop g U) in Hx.
  - intros x y. destruct (Nat.lt_ge_cases x n) as [L1|L1]; [destruct (Nat.lt_ge_cases y n) as [L2|L2]|]; [|rewrite !sub_out by auto; auto|rewrite !sub_out by auto; auto].
    rewrite !sub_weight by auto. apply (un_sym g U).
Qed.
Lemma sub_linked x y : x < n -> y < n -> linked c x y = linked g (nth x ms 0) (nth y ms 0).
Proof. intros Hx Hy. unfold linked. now rewrite sub_weight. Qed.
Lemma seq_map_nth : map (fun x => nth x ms 0) (seq 0 n) = ms.
Proof. unfold n. apply (List.nth_ext _ _ 0 0); [now rewrite map_length, seq_length|]. intros x Hx. rewrite map_length, seq_length in Hx. rewrite (nth_indep _ 0 (nth 0 ms 0)) by (now rewrite map_length, seq_length).
  rewrite (map_nth (fun x => nth x ms 0)). now rewrite seq_nth. Qed.
Lemma lsum_nth (f : nat -> nat) : lsum (fun x => f (nth x ms 0)) (seq 0 n) = lsum f ms.
Proof. rewrite <- (f_equal (lsum f) seq_map_nth). generalize (seq 0 n). intros l. induction l as [|x l IH]; auto. cbn [lsum map]. now rewrite IH. Qed.
Lemma count_nth (p : nat -> bool) : count (fun x => p (nth x ms 0)) (seq 0 n) = count p ms.
Proof. rewrite !count_lsum. apply (lsum_nth (fun i => if p i then 1 else 0)). Qed.
Lemma sub_degrees : lsum (degree c) (seq 0 n) = 2 * links_in g ms.
Proof.
  destruct (links_twice g ms U NDm Rng) as [E _]. rewrite <- E, <- lsum_nth. apply lsum_ext. intros x Hx. apply in_seq in Hx. rewrite to_set_nbrs by (auto; apply U). unfold to_set. rewrite <- count_nth.
  transitivity (count (linked c x) (seq 0 n)); [|apply count_ext; intros y Hy; apply in_seq in Hy; apply sub_linked; lia].
  apply Qc_of_nat_inj. rewrite degree_Qc by apply Ind. rewrite sub_length, count_Qc. apply Qsum_ext. intros y _. unfold unit_w. now destruct (linked c x y).
Qed.
(** Clusters. *)
Variable g1 : net Qc.
Variable P1 : gpart Qc.
Hypothesis U1 : undirected g1.
Hypothesis S1 : same_net c g1.
Hypothesis M1 : mapped g1 P1.
Hypothesis C1 : covering (length c) (abs P1).
Hypothesis F1 : forall G, In G P1 -> members G <> [].
Hypothesis R1 : forall i j, i < length c -> j < length c -> (same_home (abs P1) i j = true <-> reachable c i j).
Lemma sub_len1 : length g1 = n.
Proof. rewrite (sn_length _ _ S1). apply sub_length. Qed.
Lemma sub_linked1 x y : linked g1 x y = linked c x y.
Proof. unfold linked. now rewrite (sn_weight _ _ _ _ S1). Qed.
Lemma linked_reach x y : linked c x y = true -> reachable c x y /\ x < n /\ y < n.
Proof.
  intros E. rewrite linked_nbrs in E. apply mem_In in E. destruct (nbrs_lt c x y (in_wf _ _ _ Ind) E) as [X1 X2]. rewrite sub_length in *. splits; auto.
  exists 1. econstructor; eauto. constructor. now rewrite sub_length.
Qed.
Lemma good1 : good (abs P1).
Proof. apply good_map. split; [|split]; apply M1. Qed.
Lemma clusters_clus : clus g1 g1 P1.
Proof.
  split; auto using sbg_refl.
  - rewrite sub_len1, <- sub_length. exact C1.
  - intros a S HS. apply in_abs in HS as (G & HG & _ & <-). auto.
  - intros a S x y HS Hx Hl. rewrite sub_linked1 in Hl. apply linked_reach in Hl as (HR & L1 & L2). apply R1 in HR; try (now rewrite sub_length). unfold same_home in HR.
    assert (Hh : home (abs P1) x = Some a) by (apply home_iff; [apply good1|eauto]). rewrite Hh in HR. destruct (home (abs P1) y) as [b|] eqn:Ey; [|discriminate]. apply Nat.eqb_eq in HR. subst b.
    apply home_iff in Ey as (S' & HS' & Hy); [|apply good1]. now rewrite (lab_unique _ _ _ _ (gd_lab _ good1) HS HS').
Qed.
Lemma apart_iff : 1 < length P1 <-> apart g ms.
Proof.
  pose proof clusters_clus as I. split.
  - intros HL. destruct P1 as [|G0 [|G1 PR]] eqn:EP; [simpl in HL; lia|simpl in HL; lia|].
    assert (H0 : In (plabel G0, members G0) (abs P1)) by (rewrite EP; simpl; auto). assert (H1 : In (plabel G1, members G1) (abs P1)) by (rewrite EP; simpl; auto). rewrite <- EP in *.
    assert (Lt : forall a S x, In (a, S) (abs P1) -> In x S -> x < n).
    { intros a S x HS Hx. apply in_abs in HS as (G & HG & _ & <-). rewrite <- sub_len1. eapply cells_lt; eauto. exact (mp_cells _ _ M1). }
    exists (fun i => existsb (fun x => nth x ms 0 =? i) (members G0)). cj.
    + destruct (members G0) as [|x S] eqn:E0; [exfalso; eapply (F1 G0); [rewrite EP; simpl; auto|exact E0]|]. exists (nth x ms 0). split; [apply nth_In; apply (Lt _ _ _ H0); simpl; auto|]. cbn [existsb]. now rewrite Nat.eqb_refl.
    + destruct (members G1) as [|y S] eqn:E1; [exfalso; eapply (F1 G1); [rewrite EP; simpl; auto|exact E1]|]. assert (Ly : y < n) by (apply (Lt _ _ _ H1); simpl; auto). exists (nth y ms 0). split; [apply nth_In; auto|].
      destruct (existsb _ _) eqn:E; auto. exfalso. apply existsb_exists in E as (x & Hx & Ex). apply Nat.eqb_eq in Ex. assert (x = y) by (apply (proj1 (NoDup_nth ms 0) NDm); auto; apply (Lt _ _ _ H0); auto). subst x.
      assert (EL : plabel G0 = plabel G1) by (apply (mp_disjoint _ _ M1 G0 G1 y); [rewrite EP; simpl; auto|rewrite EP; simpl; auto|auto|rewrite E1; simpl; auto]).
      pose proof (mp_labels _ _ M1) as NL. rewrite EP in NL. cbn [map] in NL. inversion NL; subst. apply H3. rewrite EL. simpl; auto.
    + assert (Sym : forall i j, In i ms -> In j ms -> linked g i j = true -> existsb (fun x => nth x ms 0 =? i) (members G0) = true -> existsb (fun x => nth x ms 0 =? j) (members G0) = true).
      { intros i j Hi Hj Hl E. apply existsb_exists in E as (x & Hx & Ex). apply Nat.eqb_eq in Ex. apply (In_nth ms j 0) in Hj as (y & Ly & Ej). apply existsb_exists. exists y. split; [|now apply Nat.eqb_eq].
        apply (cu_closed _ _ _ I _ _ x y H0 Hx). rewrite sub_linked1, sub_linked by (auto; apply (Lt _ _ _ H0); auto). congruence. }
      intros i j Hi Hj Hl. destruct (existsb (fun x => nth x ms 0 =? i) (members G0)) eqn:E1; [symmetry; apply (Sym i j); auto|].
      destruct (existsb (fun x => nth x ms 0 =? j) (members G0)) eqn:E2; auto. exfalso. rewrite (Sym j i) in E1; auto; [discriminate E1|]. now rewrite linked_sym.
  - intros (p & (i & Hi & Ei) & (j & Hj & Ej) & HP). destruct (Nat.lt_ge_cases 1 (length P1)) as [|HL]; auto. exfalso.
    apply (In_nth ms i 0) in Hi as (x & Lx & Ex). apply (In_nth ms j 0) in Hj as (y & Ly & Ey). fold n in Lx, Ly.
    assert (HR : reachable c x y).
    { apply R1; try (now rewrite sub_length). unfold same_home. pose proof (C1 x) as Cx. pose proof (C1 y) as Cy. rewrite sub_length in Cx, Cy. specialize (Cx Lx). specialize (Cy Ly).
      destruct (home (abs P1) x) as [a|] eqn:Ea; [|congruence]. destruct (home (abs P1) y) as [b|] eqn:Eb; [|congruence]. apply home_iff in Ea as (S & HS & _); [|apply good1]. apply home_iff in Eb as (T & HT & _); [|apply good1].
      destruct P1 as [|G0 [|G1 PR]]; [destruct HS| |simpl in HL; lia]. destruct HS as [HS|[]], HT as [HT|[]]. apply Nat.eqb_eq. congruence. }
    destruct HR as [d HR]. assert (HC : forall d z, path c d x z -> z < n /\ p (nth z ms 0) = p i).
    { clear y Ly Ey HR d. intros d z HR. induction HR as [x Lz|d x y z HR IH Hz].
      - rewrite sub_length in Lz. split; auto.
      - destruct (IH Lx Ex) as [Ly Ep]. destruct (linked_reach y z) as (_ & _ & Lz); [rewrite linked_nbrs; now apply mem_In|]. split; auto. rewrite <- Ep. symmetry. apply HP; try (apply nth_In; auto).
        rewrite <- sub_linked by auto. rewrite linked_nbrs. now apply mem_In. }
    destruct (HC d y HR) as [_ X]. rewrite Ey, Ej, Ei in X. discriminate.
Qed.
Lemma labels_half g' P h : same_but_group g1 g' -> mapped g' P -> P <> [] -> (forall x, In x (members (hd (mkGroup 0 0 0 0 0 n0 n0 n0 []) P)) <-> x < n /\ colour h x = 0) -> half_of g ms h P.
Proof.
  intros S M HP HX. destruct P as [|H R]; [congruence|]. cbn [hd] in HX. exists H, R, (members H). split; auto. split; [|split; [apply (mp_once _ _ M); simpl; auto|exact HX]].
  pose proof (names_abs g' (H :: R) (mp_cells _ _ M)) as E. unfold names, abs in E. cbn [map] in E. injection E as E _. rewrite E. apply map_ext_in. intros x Hx. apply HX in Hx as [Lx _].
  assert (EL : map glabel g' = map (BipartSpec.label_of g) ms).
  { rewrite (sbg_labels g1 g' S), <- (in_labels _ _ _ Ind). apply same_labels; exact S1. }
  unfold ModulesCopy.label_of. apply (f_equal (fun l => nth_error l x)) in EL. rewrite !nth_error_map, (ms_nth x Lx) in EL. destruct (nth_error g' x) as [m|]; [|discriminate]. cbn in EL. now injection EL.
Qed.
End Sub.

Theorem SAGroupSplit_ok cells Ti Tf Ts ds : Forall2 (cell_at g) cells ms -> 0 < n -> Forall inner ds ->
  ends only_rng (SAGroupSplit g cells Ti Tf Ts true ds) (fun '(split, rest) => exists h, halved ex g ms Ti Tf Ts ds h rest /\ half_of g ms h split /\ Forall inner rest).
Proof.
  intros HF Hn HD. unfold SAGroupSplit. destruct (BuildNetFromGroup_induced g cells ms (un_wf g U) ND Fit HF NDm) as (c & -> & Ind & Nc). cbn [bind].
  pose proof (sub_undirected c Ind) as Uc. pose proof (sub_length c Ind) as Lc.
  destruct (ClustersPartition_spec c Uc) as (g1 & P1 & -> & U1 & S1 & M1 & C1 & _ & F1 & R1); [intros ->; simpl in Lc; lia|]. cbn [bind]. unfold NGroups.
  pose proof (apart_iff c Ind g1 P1 U1 S1 M1 C1 F1 R1) as HA. pose proof (clusters_clus c Ind g1 P1 U1 S1 M1 C1 F1 R1) as HI.
  assert (HB : forall ds', Forall inner ds' -> ends only_rng
    (let c := ResetNetGroup g1 in let split := snd (CreateGroup (snd (CreateGroup [] 0)) 1) in
     do (c, split, total, ds) <- foldM place_half (c, split, 0, ds') (seq 0 (length c));
     let L := Nat.div total 2 in
     if 0 <? L then do (_, split, ds) <- split_cool (length ds + 1) (length c) Tf Ts Ti (Z.of_nat L) (c, split, ds); Ok (split, ds) else Ok (split, ds))
    (fun '(split, rest) => exists h, anneals2 ex g ms Ti Tf Ts ds' h rest /\ half_of g ms h split /\ Forall inner rest)).
  { intros ds' HD'. cbv zeta. set (g2 := ResetNetGroup g1). pose proof (sbg_reset g1) as S2. fold g2 in S2.
    assert (U2 : undirected g2). { apply (sbg_undirected g1 g2 U1 S2). intros i m E. unfold g2, ResetNetGroup in E. rewrite nth_error_map in E. destruct (nth_error g1 i) as [m0|] eqn:E0; [|discriminate]. injection E as <-. exact (wf_deg g1 (un_wf g1 U1) i m0 E0). }
    assert (EL : forall x y, linked g2 x y = linked c x y) by (intros; unfold linked; now rewrite (sbg_weight g1 g2 x y S2), (sn_weight _ _ _ _ S1)).
    eapply ends_impl; [apply (annealed_ok ex sq g ms g2 U2); auto|].
    - intros m Hm. unfold g2, ResetNetGroup in Hm. apply in_map_iff in Hm as (m0 & <- & _). reflexivity.
    - rewrite (sbg_length _ _ S2). rewrite (sn_length _ _ S1). exact Lc.
    - intros x y Hx Hy. rewrite EL. now apply sub_linked.
    - rewrite <- (sub_degrees c Ind). apply lsum_ext. intros x _. unfold degree. now rewrite (sbg_nbrs g1 g2 x S2), (sn_nbrs _ _ _ S1).
    - intros [split rest] (h & g' & H1 & H2 & H3). exists h. splits; auto. destruct H2 as [Q1 Q2 Q3 Q4]. pose proof (ch_size _ _ _ _ Q4) as LP. unfold abs in LP. rewrite map_length in LP.
      apply (labels_half c Ind g1 S1 g'); auto; [eapply sbg_trans; eauto|intros ->; discriminate|]. intros x. destruct split as [|H [|H' [|]]]; try discriminate. cbn [hd].
      pose proof (ch_in _ _ _ _ Q4 x 0) as X. unfold nth_members in X. cbn [abs map nth_error] in X. rewrite X. rewrite (sbg_length _ _ S2), (sn_length _ _ S1), Lc. reflexivity. }
  cbv zeta in HB. cbv zeta. destruct (Nat.ltb_spec 1 (length P1)) as [HL|HL]; cbn [andb].
  - destruct ds as [|u ds]; [reflexivity|]. cbn [draw bind]. inversion HD as [|? ? Hu HD']; subst. cbn [nltb nofQ opsP Qc_ops]. destruct (Qc_ltb u (Q2Qc (1 # 2))) eqn:Eu.
    + apply Qc_ltb_true in Eu. replace (length P1) with (length P1 - 2 + 2) at 2 by lia. eapply ends_bind; [apply (merge_down_ok g1 (length P1 - 2) g1 P1 ds HI); auto; lia|].
      intros [[g3 P3] ds3] (I3 & L3 & (us & Eus) & HD3). cbn [ends]. destruct P3 as [|H [|H' [|]]]; try discriminate. pose proof (sub_len1 c Ind g1 S1) as L1.
      set (h := map (fun x => if mem x (members H) then 0 else 1) (seq 0 n)). pose proof (cu_map _ _ _ I3) as M3.
      assert (Hh : forall x, x < n -> colour h x = if mem x (members H) then 0 else 1) by (intros x Hx; apply (colour_map (fun x => if mem x (members H) then 0 else 1) (seq 0 n) x x); rewrite nth_error_seq by auto; reflexivity).
      assert (Lt : forall G x, In G [H; H'] -> In x (members G) -> x < n). { intros G x HG Hx. pose proof (cells_lt g3 [H; H'] G x (mp_cells _ _ M3) HG Hx) as X. rewrite (sbg_length _ _ (cu_same _ _ _ I3)) in X. rewrite L1 in X. exact X. }
      assert (Dis : forall x, In x (members H) -> In x (members H') -> False).
      { intros x X Y. pose proof (mp_disjoint _ _ M3 H H' x) as E. pose proof (mp_labels _ _ M3) as NL. cbn [map] in NL. inversion NL; subst. apply H2. rewrite E by (simpl; auto). simpl; auto. }
      exists h. split; [|split; auto].
      * rewrite Eus. apply hv_parts; auto; [now apply HA|unfold h; now rewrite map_length, seq_length| | | |].
        -- unfold h. apply Forall_forall. intros x Hx. apply in_map_iff in Hx as (y & <- & _). destruct (mem y (members H)); lia.
        -- destruct (members H) as [|x S] eqn:E0; [exfalso; eapply (cu_full _ _ _ I3 (plabel H) []); [cbn; rewrite E0; auto|auto]|]. assert (Lx : x < n) by (apply (Lt H); [simpl; auto|rewrite E0; simpl; auto]).
           replace 0 with (colour h x); [apply colour_In; unfold h; now rewrite map_length, seq_length|]. rewrite Hh by auto. unfold mem. cbn [existsb]. now rewrite Nat.eqb_refl.
        -- destruct (members H') as [|x S] eqn:E0; [exfalso; eapply (cu_full _ _ _ I3 (plabel H') []); [cbn; rewrite E0; auto|auto]|]. assert (Lx : x < n) by (apply (Lt H'); [simpl; auto|rewrite E0; simpl; auto]).
           replace 1 with (colour h x); [apply colour_In; unfold h; now rewrite map_length, seq_length|]. rewrite Hh by auto. destruct (mem_spec x (members H)) as [X|X]; auto. exfalso. apply (Dis x X). simpl; auto.
        -- intros x y Hx Hy Hl. fold n in Hx, Hy. rewrite !Hh by auto. rewrite <- (sub_linked c Ind) in Hl by auto. rewrite <- (sub_linked1 c g1 S1) in Hl.
           assert (Ec : forall x y, linked g1 x y = true -> In x (members H) -> In y (members H)) by (intros a b Hab Ha; eapply (cu_closed _ _ _ I3 (plabel H) _ a b); [simpl; auto|auto|auto]).
           pose proof (Ec x y Hl) as E1. assert (E2 : In y (members H) -> In x (members H)) by (apply Ec; rewrite linked_sym; auto). destruct (mem_spec x (members H)) as [X|X], (mem_spec y (members H)) as [Y|Y]; auto; exfalso; auto.
      * apply (labels_half c Ind g1 S1 g3); auto; [apply I3|discriminate|]. intros x. cbn [hd]. split.
        -- intros Hx. assert (Lx : x < n) by (apply (Lt H); simpl; auto). split; auto. rewrite Hh by auto. apply mem_In in Hx. now rewrite Hx.
        -- intros [Lx Ex]. rewrite Hh in Ex by auto. apply mem_In. now destruct (mem x (members H)).
    + apply Qc_ltb_false in Eu. eapply ends_impl; [apply (HB ds HD')|]. intros [split rest] (h & H1 & H2 & H3). exists h. splits; auto. apply hv_anyway; auto. now apply HA.
  - cbn [bind]. eapply ends_impl; [apply (HB ds HD)|]. intros [split rest] (h & H1 & H2 & H3). exists h. splits; auto. apply hv_whole; auto. rewrite <- HA. lia.
Qed.
End Split.
End Exact.

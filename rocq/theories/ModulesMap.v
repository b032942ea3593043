(** ModulesMap.v -- mapping a partition to a network, and copying one. *)
From Coq Require Import List Arith ZArith Bool QArith Qcanon Lia Permutation.
From Verif Require Import Base Num ListLib NatSum QcSum IoModel IoProof GraphModel GraphSpec GraphProof GroupModel GroupSpec PairSum GroupProof GroupExact ModulesModel ModulesSpec ModulesMod.
Import ListNotations.
Local Open Scope nat_scope.

Section Any.
Context {A : Type} {ops : NumOps A}.
Implicit Types g : net A.

(** * Looking labels up *)
Lemma last_label_none lab g pos : ~ In lab (map glabel g) -> last_label lab pos g = None.
Proof.
  revert pos. induction g as [|n g IH]; intros pos H; auto. cbn [last_label map] in *. rewrite IH by (simpl in H; tauto).
  destruct (label_eqb (glabel n) lab) eqn:E; auto. apply label_eqb_eq in E. simpl in H. tauto.
Qed.
Lemma last_label_some g : NoDup (map glabel g) -> forall pos i n, nth_error g i = Some n -> last_label (glabel n) pos g = Some (pos + i).
Proof.
  induction g as [|m g IH]; intros ND pos [|i] n E; try discriminate; cbn [nth_error last_label map] in *; inversion ND; subst.
  - injection E as ->. rewrite last_label_none by auto. rewrite (proj2 (label_eqb_eq _ _) eq_refl). f_equal. lia.
  - rewrite (IH H2 (pos + 1) i n E). f_equal. lia.
Qed.
Lemma GetNodeDict_found g i n : NoDup (map glabel g) -> nth_error g i = Some n -> GetNodeDict (glabel n) g = Some i.
Proof. intros ND E. exact (last_label_some g ND 0 i n E). Qed.
Lemma sbg_labels g g' : same_but_group g g' -> map glabel g' = map glabel g.
Proof. induction 1 as [|n m g g' H _ IH]; simpl; auto. rewrite IH. f_equal. symmetry. apply H. Qed.

(** * First pass: only groups of nodes change. *)
Definition only_group g g' : Prop :=
  Forall2 (fun n m => m = set_ggroup (ggroup m) n) g g'.
Lemma og_refl g : only_group g g.
Proof. unfold only_group. induction g as [|n g IH]; constructor; auto. destruct n; reflexivity. Qed.
Lemma og_trans g1 g2 g3 : only_group g1 g2 -> only_group g2 g3 -> only_group g1 g3.
Proof. apply F2_trans. intros x y z -> ->. destruct x, z; reflexivity. Qed.
Lemma og_sbg g g' : only_group g g' -> same_but_group g g'.
Proof. unfold only_group, same_but_group. induction 1 as [|n m g g' H _ IH]; constructor; auto. rewrite H. simpl. auto 10. Qed.
Lemma og_upd g i n v : nth_error g i = Some n -> only_group g (upd g i (set_ggroup v n)).
Proof. intros E. eapply F2_upd; eauto. intros x. destruct x; reflexivity. Qed.
Lemma og_reset g : only_group g (ResetNetGroup g).
Proof. unfold only_group, ResetNetGroup. induction g as [|n g IH]; constructor; auto. Qed.
Lemma og_nth g g' i n : only_group g g' -> nth_error g i = Some n -> exists m, nth_error g' i = Some m /\ m = set_ggroup (ggroup m) n.
Proof. intros H E. exact (F2_nth _ _ _ _ _ H E). Qed.
Lemma og_undirected g g' : undirected g -> only_group g g' -> undirected g'.
Proof.
  intros U H. apply (sbg_undirected g); auto using og_sbg. intros i m E. destruct (nth_ex g i) as [n En]; [rewrite (F2_len _ _ _ H); eapply nth_lt; eauto|].
  destruct (og_nth g g' i n H En) as (m' & Em & Hm). rewrite E in Em. injection Em as <-. rewrite Hm. simpl. apply (wf_deg g (un_wf g U) i n En).
Qed.

(** The cells of a group point to the nodes [is]. *)
Definition aims g (cells : list (link A)) (is : list nat) : Prop :=
  Forall2 (fun l i => exists n, nth_error g i = Some n /\ glabel n = llabel l) cells is.
(** Every cell names a node of the network. *)
Definition found g (P : gpart A) : Prop := forall G l, In G P -> In l (pnodes G) -> exists i n, nth_error g i = Some n /\ glabel n = llabel l.
Lemma aims_ex g (cells : list (link A)) : (forall l, In l cells -> exists i n, nth_error g i = Some n /\ glabel n = llabel l) -> exists is, aims g cells is.
Proof.
  induction cells as [|l cells IH]; intros H; [exists []; constructor|]. destruct IH as [is Hi]; [intros; apply H; simpl; auto|].
  destruct (H l (or_introl eq_refl)) as (i & n & E). exists (i :: is). constructor; eauto.
Qed.
Definition pointed (l : link A) (i num : nat) : link A := mkLink num (llabel l) (lstatus l) (Some i) (lbtw l) (lweight l).

Lemma map_cells lab g0 cells is : wf_net g0 -> NoDup (map glabel g0) -> aims g0 cells is -> forall g acc, only_group g0 g ->
  exists g', foldM (map_cell lab) (g, acc) cells
  = Ok (g', acc ++ map (fun '(l, i) => pointed l i i) (combine cells is)) /\ only_group g0 g' /\
  forall j, group_of g' j = if mem j is then Some lab else group_of g j.
Proof.
  intros W ND Ha. induction Ha as [|l i cells is (n0' & En0 & El) _ IH]; intros g acc O.
  - exists g. cbn [foldM combine map]. rewrite app_nil_r. splits; auto.
  - cbn [foldM map_cell]. rewrite <- El. destruct (og_nth g0 g i n0' O En0) as (n & En & Hn).
    assert (Eg : glabel n0' = glabel n) by (rewrite Hn; reflexivity). rewrite Eg.
    rewrite (GetNodeDict_found g i n) by (auto; rewrite (sbg_labels g0 g (og_sbg _ _ O)); auto). cbn [deref bind].
    rewrite (get_ok _ _ _ En). cbn [bind]. rewrite set_ok by (eapply nth_lt; eauto). cbn [bind].
    assert (Enum : gnum n = i) by (rewrite Hn; simpl; apply (wf_num g0 W i n0' En0)). rewrite Enum.
    destruct (IH (upd g i (set_ggroup (Some lab) n)) (acc ++ [mkLink i (llabel l) (lstatus l) (Some i) (lbtw l) (lweight l)])) as (g' & E & O' & Hg).
    { eapply og_trans; eauto. now apply og_upd. }
    exists g'. rewrite <- Eg, El. split; [etransitivity; [exact E|]; cbn [combine map]; rewrite <- app_assoc; reflexivity|]. splits; auto.
    intros j. rewrite Hg. rewrite group_of_upd by auto. cbn [mem existsb]. destruct (Nat.eqb_spec j i) as [->|]; cbn [orb].
    + destruct (mem i is); auto.
    + reflexivity.
Qed.
Definition pointed_group (G : grp A) (is : list nat) : grp A :=
  mkGroup (plabel G) (psize G) 0 0 0 n0 n0 n0 (map (fun '(l, i) => pointed l i i) (combine (pnodes G) is)).
Lemma members_pointed g G is : aims g (pnodes G) is -> members (pointed_group G is) = is.
Proof.
  intros H. unfold members, pointed_group. cbn [pnodes]. induction H as [|l i cells is _ _ IH]; auto. cbn [combine map targets flat_map pointed lref app] in *. f_equal. exact IH.
Qed.
(** The positions of the nodes of all groups. *)
Definition locates g (P : gpart A) (Is : list (list nat)) : Prop := Forall2 (fun G is => aims g (pnodes G) is) P Is.
Lemma locates_ex g P : found g P -> exists Is, locates g P Is.
Proof.
  induction P as [|G P IH]; intros H; [exists []; constructor|]. destruct IH as [Is Hi]; [intros G' l HG; apply H; simpl; auto|].
  destruct (aims_ex g (pnodes G)) as [is Ha]; [intros l Hl; apply (H G); simpl; auto|]. exists (is :: Is). constructor; auto.
Qed.
Definition last_home (labs : list (nat * list nat)) (j : nat) (d : option nat) : option nat :=
  fold_left (fun o '(lab, is) => if mem j is then Some lab else o) labs d.
Lemma map_pass g0 P Is : wf_net g0 -> NoDup (map glabel g0) -> locates g0 P Is -> forall g Q, only_group g0 g ->
  exists g', foldM (fun '(g, Q) G => do (g, G) <- map_group g G; Ok (g, Q ++ [G])) (g, Q) P = Ok (g', Q ++ map (fun '(G, is) => pointed_group G is) (combine P Is)) /\
    only_group g0 g' /\ forall j, group_of g' j = last_home (combine (map plabel P) Is) j (group_of g j).
Proof.
  intros W ND HL. induction HL as [|G is P Is Ha _ IH]; intros g Q O.
  - exists g. cbn [foldM combine map]. rewrite app_nil_r. splits; auto.
  - destruct (map_cells (plabel G) g0 (pnodes G) is W ND Ha g [] O) as (g1 & E1 & O1 & H1).
    assert (EG : map_group g G = Ok (g1, pointed_group G is)) by (unfold map_group; rewrite E1; reflexivity).
    cbn [foldM]. rewrite EG. cbn [bind].
    destruct (IH g1 (Q ++ [pointed_group G is]) O1) as (g2 & E2 & O2 & H2). exists g2. rewrite E2. cbn [combine map]. rewrite <- app_assoc. splits; auto.
    intros j. rewrite H2. unfold last_home. cbn [map combine fold_left]. now rewrite H1.
Qed.

(** * Second pass *)
Variable XN : net A -> Prop.
Hypothesis X_degree : forall g g1, XN g -> same_cache g g1 -> (forall j, option_map (@gstr A) (nth_error g1 j) = option_map (@gstr A) (nth_error g j)) -> XN g1.
Hypothesis X_strength : forall g1 g2 i tw, XN g1 -> NodeStrength g1 i = Ok (tw, g2) -> XN g2.

Definition adj_of g (i : nat) : list (link A) := match nth_error g i with Some n => gadj n | None => [] end.
Definition got g (i : nat) (tw : A) : Prop := exists g1 g2, XN g1 /\ same_cache g g1 /\ NodeStrength g1 i = Ok (tw, g2).
Lemma count_cells g lab (cells : list (link A)) : undirected g -> (forall l, In l cells -> exists j, lref l = Some j /\ j < length g) ->
  forall g0 tot inn totW inW, same_cache g g0 -> undirected g0 -> XN g0 ->
  exists g' tws, foldM (count_cell lab) (g0, tot, inn, totW, inW) cells =
    Ok (g', (tot + Z.of_nat (lsum (degree g) (targets cells)))%Z, (inn + Z.of_nat (lsum (fun i => count (in_grp g lab) (nbrs g i)) (targets cells)))%Z,
        fold_left nadd tws totW, fold_left (fun s i => nadd s (sum_to g (adj_of g i) lab n0)) (targets cells) inW) /\
    same_cache g g' /\ undirected g' /\ XN g' /\ Forall2 (got g) (targets cells) tws.
Proof.
  intros U. induction cells as [|l cells IH]; intros Hc g0 tot inn totW inW S0 U0 X0.
  - exists g0, []. cbn [foldM targets flat_map lsum fold_left]. change (Z.of_nat 0) with 0%Z. rewrite !Z.add_0_r. splits; auto.
  - destruct (Hc l (or_introl eq_refl)) as (i & El & Li). cbn [foldM count_cell]. rewrite El. cbn [deref bind].
    destruct (nth_ex g i Li) as [n En]. destruct (F2_nth _ _ _ _ _ S0 En) as (m & Em & Hm).
    destruct (quantities g0 i m lab U0 Em) as (g1 & tw & g2 & E1 & E2 & E3 & E4 & S2 & U2 & S1 & U1 & T1).
    rewrite E1. cbn [bind]. rewrite E2. cbn [bind]. rewrite E3. cbn [bind]. rewrite E4. cbn [bind].
    assert (X1 : XN g1) by exact (X_degree g0 g1 X0 S1 T1). assert (X2 : XN g2) by exact (X_strength g1 g2 i tw X1 E3).
    rewrite !(sbg_nbrs g g0 i (sc_sbg _ _ S0)).
    assert (Ed : degree g0 i = degree g i) by (unfold degree; now rewrite (sbg_nbrs g g0 i (sc_sbg _ _ S0))). rewrite Ed.
    assert (Ec : count (in_grp g0 lab) (nbrs g i) = count (in_grp g lab) (nbrs g i)) by (apply count_ext; intros; now apply in_grp_sc). rewrite Ec.
    assert (Es : sum_to g0 (gadj m) lab n0 = sum_to g (adj_of g i) lab n0).
    { rewrite (sum_to_sc g g0) by auto. unfold adj_of. rewrite En. f_equal. symmetry. apply Hm. }
    rewrite Es.
    destruct (IH (fun x Hx => Hc x (or_intror Hx)) g2 (tot + Z.of_nat (degree g i))%Z (inn + Z.of_nat (count (in_grp g lab) (nbrs g i)))%Z (nadd totW tw) (nadd inW (sum_to g (adj_of g i) lab n0)))
      as (g' & tws & E & S' & U' & X' & F').
    { eapply sc_trans; eauto. } { auto. } { auto. }
    rewrite E. exists g', (tw :: tws). replace (targets (l :: cells)) with (i :: targets cells) by (unfold targets; cbn [flat_map]; rewrite El; reflexivity).
    cbn [lsum fold_left]. splits; auto.
    + rewrite !Nat2Z.inj_add, !Z.add_assoc. reflexivity.
    + constructor; auto. exists g1, g2. splits; auto. exact (sc_trans _ _ _ S0 S1).
Qed.

(** What is left of the groups after the second pass, in terms of the first. *)
Definition recount g (G G' : grp A) : Prop :=
  plabel G' = plabel G /\ psize G' = psize G /\ pnodes G' = pnodes G /\
  pin G' = Z.quot (Z.of_nat (lsum (fun i => count (in_grp g (plabel G)) (nbrs g i)) (members G))) 2 /\
  ptot G' = (Z.of_nat (lsum (degree g) (members G)) - pin G')%Z /\ pout G' = (ptot G' - pin G')%Z /\
  (exists tws, Forall2 (got g) (members G) tws /\ ptotW G' = nsub (fold_left nadd tws n0) (pinW G')) /\
  pinW G' = ndiv (fold_left (fun s i => nadd s (sum_to g (adj_of g i) (plabel G) n0)) (members G) n0) (nofQ (2 # 1)) /\ poutW G' = nsub (ptotW G') (pinW G').
Lemma count_pass g : undirected g -> forall P g0 Q, (forall G l, In G P -> In l (pnodes G) -> exists j, lref l = Some j /\ j < length g) ->
  (forall G, In G P -> ptot G = 0%Z /\ pin G = 0%Z /\ ptotW G = n0 /\ pinW G = n0) ->
  same_cache g g0 -> undirected g0 -> XN g0 ->
  exists g' P', foldM (fun '(g, Q) G => do (g, G) <- count_group g G; Ok (g, Q ++ [G])) (g0, Q) P = Ok (g', Q ++ P') /\
    same_cache g g' /\ undirected g' /\ XN g' /\ Forall2 (recount g) P P'.
Proof.
  intros U. induction P as [|G P IH]; intros g0 Q Hc Hz S0 U0 X0.
  - exists g0, []. cbn [foldM]. rewrite app_nil_r. splits; auto.
  - destruct (Hz G (or_introl eq_refl)) as (Z1 & Z2 & Z3 & Z4).
    destruct (count_cells g (plabel G) (pnodes G) U (fun l Hl => Hc G l (or_introl eq_refl) Hl) g0 0%Z 0%Z n0 n0 S0 U0 X0) as (g1 & tws & E & S1 & U1 & X1 & F1).
    assert (EG : exists G', count_group g0 G = Ok (g1, G') /\ recount g G G').
    { eexists. split; [unfold count_group; rewrite Z1, Z2, Z3, Z4, E; reflexivity|].
      unfold recount. cbn [plabel psize pnodes pin ptot pout ptotW pinW poutW]. rewrite !Z.add_0_l. splits; auto. exists tws. split; auto. }
    destruct EG as (G' & EG & HG). cbn [foldM]. rewrite EG. cbn [bind].
    destruct (IH g1 (Q ++ [G'])) as (g2 & P' & E2 & S2 & U2 & X2 & F2); auto.
    { intros G0 l IG. apply Hc. simpl; auto. } { intros G0 IG. apply Hz. simpl; auto. }
    exists g2, (G' :: P'). rewrite E2, <- app_assoc. splits; auto.
Qed.

(** * Both passes *)
Hypothesis X_og : forall g g1, XN g -> only_group g g1 -> XN g1.
Lemma last_home_from M j d lab : last_home M j d = Some lab -> d = Some lab \/ exists l, In (lab, l) M /\ In j l.
Proof.
  revert d. induction M as [|[a l] M IH]; intros d H; [left; exact H|]. unfold last_home in *. cbn [fold_left] in H. apply IH in H as [H|(l' & H1 & H2)].
  - destruct (mem_spec j l) as [K|K]; auto. injection H as ->. right. exists l. simpl; auto.
  - right. exists l'. simpl; auto.
Qed.
Lemma last_home_some M j d : d <> None -> last_home M j d <> None.
Proof. revert d. induction M as [|[a l] M IH]; intros d H; [exact H|]. unfold last_home in *. cbn [fold_left]. apply IH. destruct (mem j l); congruence. Qed.
Lemma last_home_in M j d a l : In (a, l) M -> In j l -> last_home M j d <> None.
Proof.
  revert d. induction M as [|[b k] M IH]; intros d H Hj; [destruct H|]. destruct H as [[= -> ->]|H].
  - unfold last_home. cbn [fold_left]. rewrite (proj2 (mem_In j l) Hj). apply last_home_some. congruence.
  - unfold last_home in *. cbn [fold_left]. auto.
Qed.
Lemma last_home_home M j : good M -> last_home M j None = home M j.
Proof.
  intros G. apply opt_ext. intros x. rewrite home_iff by auto. split.
  - intros H. apply last_home_from in H as [H|H]; [discriminate|auto].
  - intros (l & H1 & H2). destruct (last_home M j None) as [y|] eqn:E; [|exfalso; eapply last_home_in; eauto].
    apply last_home_from in E as [E|(l' & H3 & H4)]; [discriminate|]. f_equal. exact (gd_disj _ G _ _ _ _ j H3 H1 H4 H2).
Qed.

Lemma aims_NoDup g cells is : aims g cells is -> NoDup (map llabel cells) -> NoDup is.
Proof.
  intros H. induction H as [|l i cells is (n & En & El) H IH]; intros ND; constructor; inversion ND; subst; auto.
  intros K. apply H2. clear - H K En El. induction H as [|l' i' cells is (n' & En' & El') H IH]; [destruct K|]. simpl. destruct K as [->|K]; auto. left. rewrite En in En'. injection En' as <-. congruence.
Qed.
Lemma aims_label g cells is i : aims g cells is -> In i is -> exists n, nth_error g i = Some n /\ In (glabel n) (map llabel cells).
Proof.
  induction 1 as [|l j cells is (n & En & El) H IH]; intros K; [destruct K|]. destruct K as [->|K].
  - exists n. split; auto. simpl. auto.
  - destruct (IH K) as (m & Em & Hm). exists m. simpl; auto.
Qed.
Lemma abs_pointed g P Is : locates g P Is -> abs (map (fun '(G, is) => pointed_group G is) (combine P Is)) = combine (map plabel P) Is.
Proof.
  induction 1 as [|G is P Is Ha H IH]; auto. cbn [combine map]. unfold abs in *. cbn [map]. rewrite IH. f_equal. now rewrite (members_pointed g G is Ha).
Qed.
Lemma in_combine_labels g P Is a is : locates g P Is -> In (a, is) (combine (map plabel P) Is) -> exists G, In G P /\ plabel G = a /\ aims g (pnodes G) is.
Proof.
  induction 1 as [|G is0 P Is Ha H IH]; intros K; [destruct K|]. cbn [map combine] in K. destruct K as [[= <- <-]|K]; [exists G; simpl; auto|].
  destruct (IH K) as (G' & H1 & H2). exists G'. simpl; auto.
Qed.
Lemma NoDup_flat_in {X Y} (f : X -> list Y) l x : NoDup (flat_map f l) -> In x l -> NoDup (f x).
Proof.
  induction l as [|y l IH]; intros ND K; [destruct K|]. cbn [flat_map] in ND. apply NoDup_app_iff in ND as (N1 & N2 & N3). destruct K as [->|K]; auto.
Qed.
Lemma NoDup_flat_disj {X Y} (f : X -> list Y) l x y z : NoDup (flat_map f l) -> In x l -> In y l -> In z (f x) -> In z (f y) -> x = y.
Proof.
  induction l as [|a l IH]; intros ND Kx Ky Hx Hy; [destruct Kx|]. cbn [flat_map] in ND. apply NoDup_app_iff in ND as (N1 & N2 & N3).
  destruct Kx as [->|Kx], Ky as [->|Ky]; auto; exfalso; apply (N3 z); auto; apply in_flat_map; eauto.
Qed.
Lemma locates_good g P Is : nameable g P -> locates g P Is -> good (combine (map plabel P) Is).
Proof.
  intros [H1 H2 H3 H4 H5] HL. assert (Len : length P = length Is) by (clear - HL; induction HL; simpl; auto).
  assert (Ef : map fst (combine (map plabel P) Is) = map plabel P).
  { clear - Len. revert Is Len. induction P as [|G P IH]; intros [|is Is] L; try discriminate; auto. simpl. f_equal. apply IH. simpl in L. lia. }
  split; [now rewrite Ef| |].
  - intros lab l Hl. destruct (in_combine_labels g P Is lab l HL Hl) as (G & HG & _ & Ha). apply (aims_NoDup g _ _ Ha). exact (NoDup_flat_in (fun G => map llabel (pnodes G)) P G H4 HG).
  - intros a x b y i Hx Hy Hi Hi'. destruct (in_combine_labels g P Is a x HL Hx) as (G & HG & <- & Ha). destruct (in_combine_labels g P Is b y HL Hy) as (G' & HG' & <- & Ha').
    destruct (aims_label g _ _ i Ha Hi) as (n & En & Ln). destruct (aims_label g _ _ i Ha' Hi') as (n' & En' & Ln'). rewrite En in En'. injection En' as <-.
    f_equal. exact (NoDup_flat_disj (fun G => map llabel (pnodes G)) P G G' (glabel n) H4 HG HG' Ln Ln').
Qed.
Lemma pointed_cells g cells is l : aims g cells is -> In l (map (fun '(l, i) => pointed l i i) (combine cells is)) ->
  exists i n, lref l = Some i /\ nth_error g i = Some n /\ lnode l = i /\ llabel l = glabel n.
Proof.
  induction 1 as [|l0 i cells is (n & En & El) H IH]; intros K; [destruct K|]. cbn [combine map] in K. destruct K as [<-|K]; auto.
  exists i, n. unfold pointed. simpl. splits; auto.
Qed.
Lemma pointed_labels g cells is : aims g cells is -> map llabel (map (fun '(l, i) => pointed l i i) (combine cells is)) = map llabel cells.
Proof. induction 1 as [|l0 i cells is _ H IH]; auto. cbn [combine map]. unfold pointed at 1. cbn [llabel]. now f_equal. Qed.
Lemma names_pointed g P Is : locates g P Is -> names (map (fun '(G, is) => pointed_group G is) (combine P Is)) = names P.
Proof. induction 1 as [|G is P Is Ha H IH]; auto. cbn [combine map]. unfold names in *. cbn [map]. rewrite IH. f_equal. unfold pointed_group. cbn [plabel pnodes]. f_equal. eapply pointed_labels; eauto. Qed.

Lemma MapPart_raw g P : undirected g -> nameable g P -> XN g ->
  exists g1 P1 g' P', MapPartToNet (g, P) = Ok (g', P') /\ only_group g g1 /\ undirected g1 /\ same_cache g1 g' /\ undirected g' /\ XN g' /\ XN g1 /\
    Forall2 (recount g1) P1 P' /\ good (abs P1) /\ (forall i, i < length g -> group_of g1 i = home (abs P1) i) /\
    names P1 = names P /\ (forall G l, In G P1 -> In l (pnodes G) -> exists i n, lref l = Some i /\ nth_error g1 i = Some n /\ lnode l = i /\ llabel l = glabel n) /\
    (forall G, In G P1 -> psize G = Z.of_nat (length (pnodes G))).
Proof.
  intros U HN X. assert (Fd : found g P).
  { intros G l HG Hl. pose proof (nm_found _ _ HN G l HG Hl) as K. apply in_map_iff in K as (n & En & Kn). apply In_nth_error in Kn as [i Ei]. eauto. }
  destruct (locates_ex g P Fd) as [Is HL].
  destruct (map_pass g P Is (un_wf g U) (nm_nodes _ _ HN) HL (ResetNetGroup g) [] (og_reset g)) as (g1 & E1 & O1 & H1). cbn [app] in E1.
  set (P1 := map (fun '(G, is) => pointed_group G is) (combine P Is)) in *. pose proof (og_undirected g g1 U O1) as U1. pose proof (X_og g g1 X O1) as X1.
  pose proof (abs_pointed g P Is HL) as EA. fold P1 in EA.
  assert (HP : forall G, In G P1 -> exists G0 is, G = pointed_group G0 is /\ In G0 P /\ aims g (pnodes G0) is).
  { intros G HG. unfold P1 in HG. clear - HG HL. induction HL as [|G0 is P Is Ha HL IH]; [destruct HG|]. cbn [combine map] in HG. destruct HG as [<-|HG].
    - exists G0, is. simpl; auto.
    - destruct (IH HG) as (G1 & is1 & H1 & H2 & H3). exists G1, is1. simpl; auto. }
  assert (Hcell : forall G l, In G P1 -> In l (pnodes G) -> exists i n, lref l = Some i /\ nth_error g1 i = Some n /\ lnode l = i /\ llabel l = glabel n).
  { intros G l HG Hl. destruct (HP G HG) as (G0 & is & -> & _ & Ha). destruct (pointed_cells g _ _ l Ha Hl) as (i & n & Q1 & Q2 & Q3 & Q4).
    destruct (og_nth g g1 i n O1 Q2) as (m & Em & Hm). exists i, m. splits; auto. rewrite Hm. auto. }
  destruct (count_pass g1 U1 P1 g1 []) as (g' & P' & E2 & S2 & U2 & X2 & F2); auto using sc_refl.
  { intros G l HG Hl. destruct (Hcell G l HG Hl) as (i & n & Q1 & Q2 & _). exists i. split; auto. eapply nth_lt; eauto. }
  { intros G HG. destruct (HP G HG) as (G0 & is & -> & _). auto. }
  assert (GD : good (abs P1)) by (rewrite EA; eapply locates_good; eauto).
  exists g1, P1, g', P'. splits; auto.
  - unfold MapPartToNet. rewrite E1. cbn [bind]. exact E2.
  - intros i Li. rewrite H1, EA, <- last_home_home by (rewrite <- EA; auto). f_equal. unfold group_of, ResetNetGroup. rewrite nth_error_map. destruct (nth_error g i); reflexivity.
  - exact (names_pointed g P Is HL).
  - intros G HG. destruct (HP G HG) as (G0 & is & -> & H0 & Ha). unfold pointed_group. cbn [psize pnodes]. rewrite map_length, combine_length. replace (length is) with (length (pnodes G0)) by (clear - Ha; induction Ha; simpl; auto). rewrite Nat.min_id. exact (nm_size _ _ HN G0 H0).
Qed.
End Any.

(** * The counts *)
Section Sums.
Context {A : Type} {ops : NumOps A}.
Implicit Types (g : net A) (P : gpart A) (G : grp A).
Lemma s_in_members N f S : (forall i j, f i j = f j i) -> (forall i, f i i = 0%Qc) -> NoDup S -> (forall i, In i S -> i < N) ->
  Qsum (fun i => s_to N f i S) S = (s_in N f S + s_in N f S)%Qc.
Proof.
  intros Hs Hl ND HS. rewrite (s_in_twice N f) by auto. rewrite (Qsum_members _ S N ND HS). apply Qsum_ext. intros i _. unfold s_to.
  destruct (mem i S); cbn [andb]; auto. symmetry. apply Qsum_0. auto.
Qed.
Lemma s_deg_members N f S : (forall i j, f i j = f j i) -> (forall i, f i i = 0%Qc) -> NoDup S -> (forall i, In i S -> i < N) ->
  Qsum (s_deg N f) S = (s_tot N f S + s_in N f S)%Qc.
Proof. intros Hs Hl ND HS. rewrite s_degrees by auto. now apply Qsum_members. Qed.
Lemma links_twice g S : undirected g -> NoDup S -> (forall i, In i S -> i < length g) ->
  lsum (fun i => count (fun j => mem j S) (nbrs g i)) S = 2 * links_in g S /\ lsum (degree g) S = links_tot g S + links_in g S.
Proof.
  intros U ND HS. split; apply Qc_of_nat_inj.
  - rewrite Qc_lsum. rewrite (Qsum_ext _ (fun i => s_to (length g) (unit_w g) i S)) by (intros i _; apply count_nbrs_Qc, U).
    rewrite s_in_members by auto using unit_sym, unit_loop. replace (2 * links_in g S) with (links_in g S + links_in g S) by lia. rewrite Qc_of_nat_add, links_in_Qc. reflexivity.
  - rewrite Qc_lsum. rewrite (Qsum_ext _ (s_deg (length g) (unit_w g))) by (intros i _; apply degree_Qc, U).
    rewrite s_deg_members by auto using unit_sym, unit_loop. rewrite Qc_of_nat_add, links_in_Qc, links_tot_Qc. reflexivity.
Qed.
Lemma recount_counts XN g G G' : undirected g -> NoDup (members G) -> (forall i, In i (members G) -> i < length g) ->
  (forall j, j < length g -> in_grp g (plabel G) j = mem j (members G)) -> psize G = Z.of_nat (length (members G)) -> recount XN g G G' -> counts_right g G'.
Proof.
  intros U ND HS Hin Hsz (R1 & R2 & R3 & R4 & R5 & R6 & _). assert (EM : members G' = members G) by (unfold members; now rewrite R3).
  destruct (links_twice g (members G) U ND HS) as [L1 L2]. pose proof (links_out_eq g (members G)) as L3.
  assert (E4 : pin G' = Z.of_nat (links_in g (members G))).
  { rewrite R4. rewrite (lsum_ext _ (fun i => count (fun j => mem j (members G)) (nbrs g i))).
    - rewrite L1. rewrite Nat2Z.inj_mul, Z.mul_comm. apply Z.quot_mul. discriminate.
    - intros i Hi. apply count_ext. intros j Hj. apply Hin. apply (nbrs_lt g i j (un_wf g U) Hj). }
  unfold counts_right. rewrite EM, R2, R6, R5, E4, L2. splits; auto; lia.
Qed.
Lemma in_grp_home g P G j : good (abs P) -> (forall i, i < length g -> group_of g i = home (abs P) i) -> In G P -> j < length g -> in_grp g (plabel G) j = mem j (members G).
Proof.
  intros GD HG IG Lj. unfold in_grp. rewrite HG by auto. symmetry. apply (mem_home (abs P) GD (plabel G)). apply in_abs. exists G. auto.
Qed.
Lemma abs_F2 P P' : Forall2 (fun G G' : grp A => plabel G' = plabel G /\ pnodes G' = pnodes G) P P' -> abs P' = abs P /\ names P' = names P.
Proof. unfold abs, names. induction 1 as [|G G' P P' (E1 & E2) _ [IH1 IH2]]; auto. cbn [map]. rewrite IH1, IH2. unfold members. now rewrite E1, E2. Qed.
Lemma F2_in {X} (R : X -> X -> Prop) l l' y : Forall2 R l l' -> In y l' -> exists x, In x l /\ R x y.
Proof. induction 1 as [|a b l l' H _ IH]; intros K; [destruct K|]. destruct K as [<-|K]; [exists a; simpl; auto|]. destruct (IH K) as (x & Hx & Hr). exists x. simpl; auto. Qed.

(** Mapping: what comes out describes the network, and the groups are the ones named. *)
Lemma raw_mapped XN g1 g' (P1 P' : gpart A) : undirected g1 -> undirected g' -> same_cache g1 g' -> Forall2 (recount XN g1) P1 P' -> good (abs P1) ->
  (forall i, i < length g1 -> group_of g1 i = home (abs P1) i) ->
  (forall G l, In G P1 -> In l (pnodes G) -> exists i n, lref l = Some i /\ nth_error g1 i = Some n /\ lnode l = i /\ llabel l = glabel n) ->
  (forall G, In G P1 -> psize G = Z.of_nat (length (pnodes G))) ->
  mapped g' P' /\ abs P' = abs P1 /\ names P' = names P1.
Proof.
  intros U1 U' S F GD HG HC HS. assert (EA : abs P' = abs P1 /\ names P' = names P1).
  { apply abs_F2. clear - F. induction F as [|G G' P P' H _ IH]; constructor; auto. split; apply H. }
  destruct EA as [EA EN]. splits; auto. pose proof GD as GD'. rewrite <- EA in GD'. apply good_map in GD' as (D1 & D2 & D3).
  split; auto.
  - intros G' l HG' Hl. destruct (F2_in _ _ _ _ F HG') as (G & H & R). destruct R as (_ & _ & R & _). rewrite R in Hl.
    destruct (HC G l H Hl) as (i & n & Q1 & Q2 & Q3 & Q4). destruct (F2_nth _ _ _ _ _ S Q2) as (m & Em & Hm). exists i, m. splits; auto. rewrite Q4. apply Hm.
  - intros i m Em. assert (Li : i < length g1) by (rewrite (F2_len _ _ _ S); eapply nth_lt; eauto). rewrite <- (group_of_at g' i m Em), (sc_group g1 g' i S), EA. auto.
  - intros G' HG'. destruct (F2_in _ _ _ _ F HG') as (G & H & R). apply (sbg_counts g1); [now apply sc_sbg|].
    assert (HM : forall i, In i (members G) -> i < length g1).
    { intros i Hi. unfold members in Hi. apply targets_In in Hi as (l & Hl & El). destruct (HC G l H Hl) as (j & n & Q1 & Q2 & _). rewrite El in Q1. injection Q1 as <-. eapply nth_lt; eauto. }
    apply (recount_counts XN g1 G); auto.
    + exact (gd_nd _ GD (plabel G) (members G) (proj2 (in_abs P1 _ _) (ex_intro _ G (conj H (conj eq_refl eq_refl))))).
    + intros j Lj. exact (in_grp_home g1 P1 G j GD HG H Lj).
    + rewrite (HS G H). f_equal. unfold members, targets. assert (HC' : forall l, In l (pnodes G) -> exists i, lref l = Some i) by (intros l Hl; destruct (HC G l H Hl) as (i & _ & E & _); eauto).
      clear - HC'. induction (pnodes G) as [|l ls IH]; auto. cbn [flat_map]. rewrite app_length, <- IH by (intros; apply HC'; simpl; auto). destruct (HC' l (or_introl eq_refl)) as [i ->]. reflexivity.
Qed.
Theorem MapPartToNet_mapped g (P : gpart A) : undirected g -> nameable g P ->
  exists g' P', MapPartToNet (g, P) = Ok (g', P') /\ undirected g' /\ same_but_group g g' /\ mapped g' P' /\ names P' = names P.
Proof.
  intros U HN. destruct (MapPart_raw (fun _ => True)) with (g := g) (P := P) as (g1 & P1 & g' & P' & E & O & U1 & S & U' & _ & _ & F & GD & HG & HNm & HC & HS); auto.
  destruct (raw_mapped _ g1 g' P1 P' U1 U' S F GD) as (M & _ & EN); auto.
  { intros i Li. apply HG. now rewrite <- (sbg_length g g1 (og_sbg _ _ O)). }
  exists g', P'. splits; auto; [|congruence]. eapply sbg_trans; [apply og_sbg; eauto|now apply sc_sbg].
Qed.
End Sums.

(** * Weights *)
Section Exact.
Variables ex sq : Qc -> Qc.
#[local] Instance opsX : NumOps Qc := Qc_ops ex sq.
Implicit Types (g : net Qc) (P : gpart Qc) (G : grp Qc).

Lemma cached_og g g1 : strengths_cached g -> only_group g g1 -> strengths_cached g1.
Proof.
  intros H O i m E. destruct (nth_ex g i) as [n En]; [rewrite (F2_len _ _ _ O); eapply nth_lt; eauto|]. destruct (og_nth g g1 i n O En) as (m' & Em & Hm).
  rewrite E in Em. injection Em as <-. rewrite Hm. exact (H i n En).
Qed.
Lemma recount_weights g G G' : undirected g -> NoDup (members G) -> (forall i, In i (members G) -> i < length g) ->
  (forall j, j < length g -> in_grp g (plabel G) j = mem j (members G)) -> recount strengths_cached g G G' -> weights_right g G'.
Proof.
  intros U ND HS Hin (R1 & R2 & R3 & _ & _ & _ & (tws & R7 & R8) & R9 & R10). assert (EM : members G' = members G) by (unfold members; now rewrite R3).
  assert (E1 : fold_left (fun s i => nadd s (sum_to g (adj_of g i) (plabel G) n0)) (members G) n0 = (weight_in_set g (members G) + weight_in_set g (members G))%Qc).
  { change (weight_in_set g (members G)) with (s_in (length g) (wt g) (members G)). rewrite <- s_in_members by auto using wt_sym, wt_loop.
    transitivity (0 + Qsum (fun i => sum_to g (adj_of g i) (plabel G) n0) (members G))%Qc; [exact (Qsum_fold (fun i => sum_to g (adj_of g i) (plabel G) n0) (members G) 0%Qc)|].
    rewrite Qcplus_0_l. apply Qsum_ext. intros i Hi. destruct (nth_ex g i (HS i Hi)) as [n En]. unfold adj_of. rewrite En.
    apply (sum_to_exact ex sq); auto. intros j Hj. apply Hin. apply (nbrs_lt g i j (un_wf g U) Hj). }
  assert (E2 : fold_left nadd tws n0 = (weight_tot g (members G) + weight_in_set g (members G))%Qc).
  { change (weight_in_set g (members G)) with (s_in (length g) (wt g) (members G)). change (weight_tot g (members G)) with (s_tot (length g) (wt g) (members G)).
    rewrite <- s_deg_members by auto using wt_sym, wt_loop. transitivity (Qsum (fun x => x) tws); [transitivity (0 + Qsum (fun x => x) tws)%Qc; [exact (Qsum_fold (fun x => x) tws 0%Qc)|ring]|].
    clear - R7 U HS. set (S := members G) in *. clearbody S. induction R7 as [|i tw S tws (g1 & g2 & X & Sc & E) R IH]; auto. cbn [Qsum]. rewrite IH by (intros; apply HS; simpl; auto). f_equal.
    destruct (nth_ex g i (HS i (or_introl eq_refl))) as [n En]. destruct (F2_nth _ _ _ _ _ Sc En) as (m & Em & Hm).
    destruct (NodeStrength_exact ex sq g1 i m tw g2 Em X E) as [-> _]. replace (gadj m) with (gadj n) by apply Hm. apply strength_sum; auto. apply U. }
  rewrite E1 in R9. rewrite E2 in R8. assert (E9 : pinW G' = weight_in_set g (members G)).
  { rewrite R9. cbn [ndiv nofQ opsX Qc_ops]. replace (Q2Qc 2) with (1 + 1)%Qc by (apply Qc_is_canon; reflexivity). field. discriminate. }
  assert (E8 : ptotW G' = weight_tot g (members G)). { rewrite R8, E9. cbn [nsub opsX Qc_ops]. ring. }
  unfold weights_right. rewrite EM, R10, E8, E9. splits; auto. change (weight_out g (members G)) with (s_out (length g) (wt g) (members G)). rewrite s_out_eq. reflexivity.
Qed.
Theorem MapPartToNet_weights g P : undirected g -> strengths_cached g -> nameable g P ->
  exists g' P', MapPartToNet (g, P) = Ok (g', P') /\ undirected g' /\ strengths_cached g' /\ same_but_group g g' /\ mapped g' P' /\ (forall G, In G P' -> weights_right g' G) /\ names P' = names P.
Proof.
  intros U X HN. destruct (MapPart_raw strengths_cached E_cache) with (g := g) (P := P) as (g1 & P1 & g' & P' & E & O & U1 & S & U' & X' & X1 & F & GD & HG & HNm & HC & HS); auto.
  { intros ga gb i tw Ha Eb. exact (E_strength ex sq ga ga gb i tw Ha (sc_refl ga) (fun _ => eq_refl) Eb). }
  { intros ga gb Ha Hb. exact (cached_og ga gb Ha Hb). }
  assert (HG' : forall i, i < length g1 -> group_of g1 i = home (abs P1) i) by (intros i Li; apply HG; now rewrite <- (sbg_length g g1 (og_sbg _ _ O))).
  destruct (raw_mapped _ g1 g' P1 P' U1 U' S F GD HG' HC HS) as (M & EA & EN).
  exists g', P'. splits; auto; [eapply sbg_trans; [apply og_sbg; eauto|now apply sc_sbg]| |congruence].
  intros G' HG0. destruct (F2_in _ _ _ _ F HG0) as (G & H & R). apply (E_sbg g1); [now apply sc_sbg|].
  apply (recount_weights g1 G); auto.
  - exact (gd_nd _ GD (plabel G) (members G) (proj2 (in_abs P1 _ _) (ex_intro _ G (conj H (conj eq_refl eq_refl))))).
  - intros i Hi. unfold members in Hi. apply targets_In in Hi as (l & Hl & El). destruct (HC G l H Hl) as (j & n & Q1 & Q2 & _). rewrite El in Q1. injection Q1 as <-. eapply nth_lt; eauto.
  - intros j Lj. exact (in_grp_home g1 P1 G j GD HG' H Lj).
Qed.
End Exact.

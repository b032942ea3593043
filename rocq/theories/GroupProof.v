(** GroupProof.v -- the operations on groups keep the counters equal to a recount (C29). *)
From Coq Require Import List Arith ZArith Bool QArith Qcanon Lia Permutation.
From Verif Require Import Base Num ListLib NatSum QcSum IoModel GraphModel GraphSpec GraphProof GroupModel GroupSpec PairSum.
Import ListNotations.
Local Open Scope nat_scope.

Section Any.
Context {A : Type} {ops : NumOps A}.
Implicit Types (g : net A) (P : gpart A) (G : grp A).

(** * Counting links *)
Definition unit_w g (i j : nat) : Qc := if linked g i j then 1%Qc else 0%Qc.
Lemma linked_sym g i j : undirected g -> linked g i j = linked g j i.
Proof. intros U. unfold linked. now rewrite (un_sym g U). Qed.
Lemma linked_nbrs g i j : linked g i j = mem j (nbrs g i).
Proof.
  unfold linked. pose proof (nbrs_weight g i j) as H. destruct (mem_spec j (nbrs g i)) as [I|I]; destruct (weight g i j); auto.
  - exfalso. apply H; auto.
  - exfalso. apply I, H. discriminate.
Qed.
Lemma linked_loop g i : undirected g -> linked g i i = false.
Proof. intros U. rewrite linked_nbrs. destruct (mem_spec i (nbrs g i)) as [I|]; auto. exfalso. eapply un_loop; eauto. Qed.
Lemma unit_sym g : undirected g -> forall i j, unit_w g i j = unit_w g j i.
Proof. intros U i j. unfold unit_w. now rewrite (linked_sym g i j U). Qed.
Lemma unit_loop g : undirected g -> forall i, unit_w g i i = 0%Qc.
Proof. intros U i. unfold unit_w. now rewrite (linked_loop g i U). Qed.

Lemma links_in_Qc g S : Qc_of_nat (links_in g S) = s_in (length g) (unit_w g) S.
Proof. unfold links_in, s_in. rewrite pair_count_Qc. apply pair_sum_ext. intros i j _ _. unfold unit_w. destruct (mem i S && mem j S); auto. Qed.
Lemma links_tot_Qc g S : Qc_of_nat (links_tot g S) = s_tot (length g) (unit_w g) S.
Proof. unfold links_tot, s_tot. rewrite pair_count_Qc. apply pair_sum_ext. intros i j _ _. unfold unit_w. destruct (mem i S || mem j S); auto. Qed.
Lemma links_out_Qc g S : Qc_of_nat (links_out g S) = s_out (length g) (unit_w g) S.
Proof. unfold links_out, s_out. rewrite pair_count_Qc. apply pair_sum_ext. intros i j _ _. unfold unit_w. destruct (xorb (mem i S) (mem j S)); auto. Qed.

Lemma Qsum_nbrs g i (h : nat -> Qc) : wf_net g -> Qsum h (nbrs g i) = Qsum (fun j => if linked g i j then h j else 0%Qc) (seq 0 (length g)).
Proof.
  intros W. rewrite (Qsum_members h (nbrs g i) (length g)).
  - apply Qsum_ext. intros j _. now rewrite linked_nbrs.
  - apply (wf_nodup g W).
  - intros j Hj. now destruct (nbrs_lt g i j W Hj).
Qed.
Lemma count_nbrs_Qc g i S : wf_net g -> Qc_of_nat (count (fun j => mem j S) (nbrs g i)) = s_to (length g) (unit_w g) i S.
Proof.
  intros W. rewrite count_Qc, (Qsum_nbrs g i _ W). unfold s_to. apply Qsum_ext. intros j _. unfold unit_w. destruct (mem j S), (linked g i j); auto.
Qed.
Lemma degree_Qc g i : wf_net g -> Qc_of_nat (degree g i) = s_deg (length g) (unit_w g) i.
Proof.
  intros W. unfold degree. replace (length (nbrs g i)) with (count (fun _ => true) (nbrs g i)).
  - rewrite count_Qc, (Qsum_nbrs g i _ W). reflexivity.
  - induction (nbrs g i) as [|x l IH]; auto. rewrite count_cons, IH. reflexivity.
Qed.

Lemma links_add g S v : undirected g -> v < length g -> ~ In v S ->
  links_in g (S ++ [v]) = links_in g S + count (fun j => mem j S) (nbrs g v) /\
  links_tot g (S ++ [v]) + count (fun j => mem j S) (nbrs g v) = links_tot g S + degree g v.
Proof.
  intros U Hv Hn. assert (Hm : mem v S = false) by (destruct (mem_spec v S); auto; contradiction). pose proof (un_wf g U) as W. split; apply Qc_of_nat_inj.
  - rewrite Qc_of_nat_add, !links_in_Qc, count_nbrs_Qc by auto. apply s_in_add; auto using unit_sym.
  - rewrite !Qc_of_nat_add, !links_tot_Qc, count_nbrs_Qc, degree_Qc by auto. rewrite s_tot_add; auto using unit_sym, unit_loop. ring.
Qed.
Lemma links_out_eq g S : links_out g S + links_in g S = links_tot g S.
Proof. apply Qc_of_nat_inj. rewrite Qc_of_nat_add, links_out_Qc, links_in_Qc, links_tot_Qc, s_out_eq. ring. Qed.
Lemma links_ext g S S' : (forall i, In i S <-> In i S') -> links_in g S = links_in g S' /\ links_tot g S = links_tot g S' /\ links_out g S = links_out g S'.
Proof.
  intros H. assert (E : forall i, mem i S = mem i S').
  { intros i. destruct (mem_spec i S), (mem_spec i S'); auto; exfalso; apply H in i0; auto || (apply n; apply H; auto). }
  destruct (s_ext (length g) (unit_w g) S S' E) as (E1 & E2 & E3). splits; apply Qc_of_nat_inj; rewrite ?links_in_Qc, ?links_tot_Qc, ?links_out_Qc; auto.
Qed.
Lemma links_nil g : links_in g [] = 0 /\ links_tot g [] = 0 /\ links_out g [] = 0.
Proof. destruct (s_empty (length g) (unit_w g)) as (E1 & E2 & E3). splits; apply Qc_of_nat_inj; rewrite ?links_in_Qc, ?links_tot_Qc, ?links_out_Qc; auto. Qed.

(** * The network up to caches and groups *)
Definition group_of g (i : nat) : option nat := match nth_error g i with Some n => ggroup n | None => None end.
Definition same_cache g g' : Prop :=
  Forall2 (fun n m => glabel n = glabel m /\ gnum n = gnum m /\ gstate n = gstate m /\ gdvar n = gdvar m /\ gadj n = gadj m /\ ggroup n = ggroup m) g g'.
Lemma F2_nth {X} (R : X -> X -> Prop) l l' i n : Forall2 R l l' -> nth_error l i = Some n -> exists m, nth_error l' i = Some m /\ R n m.
Proof. intros H. revert i. induction H; intros [|i] E; simpl in *; try discriminate; [injection E as <-; eauto|eauto]. Qed.
Lemma F2_len {X} (R : X -> X -> Prop) l l' : Forall2 R l l' -> length l = length l'.
Proof. induction 1; simpl; auto. Qed.
Lemma F2_upd {X} (R : X -> X -> Prop) l i n m : (forall x, R x x) -> nth_error l i = Some n -> R n m -> Forall2 R l (upd l i m).
Proof.
  intros Hr. revert i. induction l as [|a l IH]; intros [|i] E H; simpl in *; try discriminate.
  - injection E as ->. constructor; auto. clear - Hr. induction l; auto.
  - constructor; auto.
Qed.
Lemma F2_trans {X} (R : X -> X -> Prop) l1 l2 l3 : (forall x y z, R x y -> R y z -> R x z) -> Forall2 R l1 l2 -> Forall2 R l2 l3 -> Forall2 R l1 l3.
Proof. intros Ht H. revert l3. induction H; intros l3 H3; inversion H3; subst; constructor; eauto. Qed.

Lemma sbg_refl g : same_but_group g g.
Proof. unfold same_but_group. induction g; constructor; auto 10. Qed.
Lemma sbg_trans g1 g2 g3 : same_but_group g1 g2 -> same_but_group g2 g3 -> same_but_group g1 g3.
Proof. apply F2_trans. intuition congruence. Qed.
Lemma sc_refl g : same_cache g g.
Proof. unfold same_cache. induction g; constructor; auto 10. Qed.
Lemma sc_trans g1 g2 g3 : same_cache g1 g2 -> same_cache g2 g3 -> same_cache g1 g3.
Proof. apply F2_trans. intuition congruence. Qed.
Lemma sc_sbg g g' : same_cache g g' -> same_but_group g g'.
Proof. unfold same_cache, same_but_group. induction 1; constructor; auto. tauto. Qed.
Lemma sc_group g g' i : same_cache g g' -> group_of g' i = group_of g i.
Proof.
  intros H. unfold group_of. destruct (nth_error g i) as [n|] eqn:E.
  - destruct (F2_nth _ _ _ _ _ H E) as (m & -> & Hm). symmetry. apply Hm.
  - apply nth_error_None in E. rewrite (F2_len _ _ _ H) in E. now rewrite (proj2 (nth_error_None _ _)).
Qed.
Lemma sbg_length g g' : same_but_group g g' -> length g' = length g.
Proof. intros H. symmetry. exact (F2_len _ _ _ H). Qed.
Lemma sbg_adj g g' i : same_but_group g g' -> option_map (@gadj A) (nth_error g' i) = option_map (@gadj A) (nth_error g i).
Proof.
  intros H. destruct (nth_error g i) as [n|] eqn:E.
  - destruct (F2_nth _ _ _ _ _ H E) as (m & -> & Hm). simpl. f_equal. symmetry. apply Hm.
  - apply nth_error_None in E. rewrite (F2_len _ _ _ H) in E. now rewrite (proj2 (nth_error_None _ _)).
Qed.
Lemma sbg_nbrs g g' i : same_but_group g g' -> nbrs g' i = nbrs g i.
Proof. intros H. pose proof (sbg_adj g g' i H) as E. unfold nbrs. destruct (nth_error g' i), (nth_error g i); simpl in E; congruence. Qed.
Lemma sbg_weight g g' i j : same_but_group g g' -> weight g' i j = weight g i j.
Proof. intros H. pose proof (sbg_adj g g' i H) as E. unfold weight. destruct (nth_error g' i), (nth_error g i); simpl in E; congruence. Qed.
Definition degs_cached g : Prop := forall i n, nth_error g i = Some n -> gdeg n = 0 \/ gdeg n = length (gadj n).
Lemma sbg_undirected g g' : undirected g -> same_but_group g g' -> degs_cached g' -> undirected g'.
Proof.
  intros [W L S] H D. split.
  - split; auto.
    + intros i m E. destruct (nth_ex g i) as [n En]; [rewrite (F2_len _ _ _ H); eapply nth_lt; eauto|].
      destruct (F2_nth _ _ _ _ _ H En) as (m' & E' & Hm). rewrite E in E'. injection E' as <-. rewrite <- (wf_num g W i n En). symmetry. apply Hm.
    + intros i m l E Hl. destruct (nth_ex g i) as [n En]; [rewrite (F2_len _ _ _ H); eapply nth_lt; eauto|].
      destruct (F2_nth _ _ _ _ _ H En) as (m' & E' & Hm). rewrite E in E'. injection E' as <-.
      assert (Hl' : In l (gadj n)) by (replace (gadj n) with (gadj m) by (symmetry; apply Hm); auto).
      destruct (wf_link g W i n l En Hl') as (j & k & E1 & E2 & E3 & E4). destruct (F2_nth _ _ _ _ _ H E2) as (k' & E2' & Hk).
      exists j, k'. splits; auto. rewrite E4. apply Hk.
    + intros i. rewrite (sbg_nbrs g g' i H). apply W.
  - intros i. rewrite (sbg_nbrs g g' i H). apply L.
  - intros i j. rewrite !(sbg_weight g g' _ _ H). apply S.
Qed.
Lemma sbg_links g g' S : same_but_group g g' -> links_in g' S = links_in g S /\ links_tot g' S = links_tot g S /\ links_out g' S = links_out g S.
Proof.
  intros H. assert (E : forall i j, linked g' i j = linked g i j) by (intros; unfold linked; now rewrite (sbg_weight g g' _ _ H)).
  splits; unfold links_in, links_tot, links_out, pair_count; rewrite (sbg_length g g' H); apply lsum_ext; intros i _; apply count_ext; intros j _; now rewrite E.
Qed.
Lemma sbg_counts g g' G : same_but_group g g' -> counts_right g G -> counts_right g' G.
Proof. intros H (H1 & H2 & H3 & H4). destruct (sbg_links g g' (members G) H) as (E1 & E2 & E3). unfold counts_right. rewrite E1, E2, E3. auto. Qed.

(** * The queries *)
Lemma NodeDegree_cache g i : undirected g -> i < length g ->
  exists g', NodeDegree g i = Ok (degree g i, g') /\ same_cache g g' /\ undirected g' /\ (forall j, option_map (@gstr A) (nth_error g' j) = option_map (@gstr A) (nth_error g j)).
Proof.
  intros U Li. pose proof (un_wf g U) as W. destruct (nth_ex g i Li) as [n E]. unfold NodeDegree. rewrite (get_ok _ _ _ E). cbn [bind].
  pose proof (degree_adj g i n W E) as Hd. pose proof (wf_deg g W i n E) as Hc.
  destruct ((gdeg n =? 0) && negb (length (gadj n) =? 0)) eqn:Ec.
  - apply andb_true_iff in Ec as [Ec _]. apply Nat.eqb_eq in Ec. rewrite set_ok by auto. cbn [bind]. rewrite Ec, Nat.add_0_l, <- Hd. eexists. split; [reflexivity|].
    assert (Hs : same_cache g (upd g i (set_gdeg (degree g i) n))) by (eapply F2_upd; eauto; simpl; auto 10). splits; auto.
    + eapply sbg_undirected; eauto using sc_sbg. intros j m Em. rewrite nth_upd in Em. destruct (_ && _) eqn:Eq.
      * injection Em as <-. simpl. rewrite Hd. auto.
      * apply (wf_deg g W j m Em).
    + intros j. rewrite nth_upd. destruct (Nat.eqb_spec j i) as [->|]; simpl; auto. destruct (i <? length g); [rewrite E|rewrite E]; auto.
  - exists g. rewrite Hd. splits; auto using sc_refl. repeat f_equal. destruct Hc as [Hc|Hc]; auto. rewrite Hc in Ec. simpl in Ec.
    apply negb_false_iff, Nat.eqb_eq in Ec. congruence.
Qed.
Lemma NodeStrength_cache g i : undirected g -> i < length g ->
  exists s g', NodeStrength g i = Ok (s, g') /\ same_cache g g' /\ undirected g'.
Proof.
  intros U Li. destruct (nth_ex g i Li) as [n E]. unfold NodeStrength. rewrite (get_ok _ _ _ E). cbn [bind]. destruct (_ && _).
  - rewrite set_ok by auto. cbn [bind]. do 2 eexists. split; [reflexivity|].
    match goal with |- context [upd g i ?x] => assert (Hs : same_cache g (upd g i x)) by (eapply F2_upd; eauto; simpl; auto 10) end. splits; auto.
    eapply sbg_undirected; eauto using sc_sbg. intros j m Em. rewrite nth_upd in Em. destruct (_ && _) eqn:Eq.
    + injection Em as <-. simpl. apply (wf_deg g (un_wf g U) i n E).
    + apply (wf_deg g (un_wf g U) j m Em).
  - do 2 eexists. splits; auto using sc_refl.
Qed.

Definition in_grp g (lab j : nat) : bool := match group_of g j with Some x => x =? lab | None => false end.
Lemma in_grp_node g lab j m : nth_error g j = Some m -> in_group m lab = in_grp g lab j.
Proof. intros E. unfold in_grp, group_of, in_group. now rewrite E. Qed.
Lemma NLinksToGroup_spec g i lab : wf_net g -> i < length g -> NLinksToGroup g i lab = Ok (count (in_grp g lab) (nbrs g i)).
Proof.
  intros W Li. destruct (nth_ex g i Li) as [n E]. unfold NLinksToGroup. rewrite (get_ok _ _ _ E). cbn [bind]. rewrite (nbrs_eq g i n E).
  assert (H : forall ls c, (forall l, In l ls -> In l (gadj n)) ->
    foldM (fun c l => do j <- deref (lref l); do m <- get g j; Ok (if in_group m lab then c + 1 else c)) c ls = Ok (c + count (in_grp g lab) (targets ls))).
  { induction ls as [|l ls IH]; intros c Hls; cbn [foldM]; [rewrite Nat.add_0_r; auto|].
    destruct (wf_link g W i n l E) as (j & m & E1 & E2 & _); [simpl in Hls; auto|]. rewrite E1. cbn [deref bind]. rewrite (get_ok _ _ _ E2). cbn [bind].
    rewrite IH by (intros; apply Hls; simpl; auto). f_equal. cbn [targets flat_map]. rewrite E1. cbn [app]. rewrite count_cons, (in_grp_node g lab j m E2).
    unfold targets. destruct (in_grp g lab j); lia. }
  apply (H _ 0). auto.
Qed.
Definition sum_to g (ls : list (link A)) (lab : nat) (s : A) : A :=
  fold_left (fun s l => if match lref l with Some j => in_grp g lab j | None => false end then nadd s (lweight l) else s) ls s.
Lemma StrengthToGroup_spec g i n lab : wf_net g -> nth_error g i = Some n -> StrengthToGroup g i lab = Ok (sum_to g (gadj n) lab n0).
Proof.
  intros W E. unfold StrengthToGroup. rewrite (get_ok _ _ _ E). cbn [bind].
  assert (H : forall ls s, (forall l, In l ls -> In l (gadj n)) ->
    foldM (fun s l => do j <- deref (lref l); do m <- get g j; Ok (if in_group m lab then nadd s (lweight l) else s)) s ls = Ok (sum_to g ls lab s)).
  { induction ls as [|l ls IH]; intros c Hls; cbn [foldM]; auto.
    destruct (wf_link g W i n l E) as (j & m & E1 & E2 & _); [simpl in Hls; auto|]. unfold sum_to. cbn [fold_left]. rewrite E1. cbn [deref bind]. rewrite (get_ok _ _ _ E2). cbn [bind].
    rewrite IH by (intros; apply Hls; simpl; auto). now rewrite (in_grp_node g lab j m E2). }
  apply H. auto.
Qed.

Lemma in_grp_sc g g' lab j : same_cache g g' -> in_grp g' lab j = in_grp g lab j.
Proof. intros H. unfold in_grp. now rewrite (sc_group g g' j H). Qed.
Lemma sum_to_sc g g' ls lab s : same_cache g g' -> sum_to g' ls lab s = sum_to g ls lab s.
Proof.
  intros H. unfold sum_to. revert s. induction ls as [|l ls IH]; intros s; simpl; auto. rewrite IH. f_equal. destruct (lref l); auto. now rewrite (in_grp_sc g g' lab n H).
Qed.
(** The four quantities computed by AddNodeToGroup and RemoveNodeFromGroup. *)
Lemma quantities g i n lab : undirected g -> nth_error g i = Some n -> exists g1 tw g2,
  NodeDegree g i = Ok (degree g i, g1) /\ NLinksToGroup g1 i lab = Ok (count (in_grp g lab) (nbrs g i)) /\
  NodeStrength g1 i = Ok (tw, g2) /\ StrengthToGroup g2 i lab = Ok (sum_to g (gadj n) lab n0) /\
  same_cache g g2 /\ undirected g2 /\ same_cache g g1 /\ undirected g1 /\ (forall j, option_map (@gstr A) (nth_error g1 j) = option_map (@gstr A) (nth_error g j)).
Proof.
  intros U E. assert (Li : i < length g) by (eapply nth_lt; eauto). destruct (NodeDegree_cache g i U Li) as (g1 & E1 & S1 & U1 & T1).
  assert (L1 : i < length g1) by (rewrite <- (F2_len _ _ _ S1); auto).
  destruct (NodeStrength_cache g1 i U1 L1) as (tw & g2 & E2 & S2 & U2). exists g1, tw, g2. pose proof (sc_trans _ _ _ S1 S2) as S12.
  destruct (F2_nth _ _ _ _ _ S12 E) as (n2 & En2 & Hn2). splits; auto.
  - rewrite NLinksToGroup_spec by (auto; apply U1). rewrite (sbg_nbrs g g1 i (sc_sbg _ _ S1)). f_equal. apply count_ext. intros j _. now apply in_grp_sc.
  - rewrite (StrengthToGroup_spec g2 i n2 lab (un_wf g2 U2) En2). f_equal. rewrite (sum_to_sc g g2) by auto. f_equal. symmetry. apply Hn2.
Qed.

Definition cell_of (n : gnode A) (i : nat) : link A := mkLink (gnum n) (glabel n) 0 (Some i) n0 n0.
Definition grown (G : grp A) (n : gnode A) (i deg inl : nat) (tw iw : A) : grp A :=
  let tot := (ptot G + (Z.of_nat deg - Z.of_nat inl))%Z in let il := (pin G + Z.of_nat inl)%Z in
  let totW := nadd (ptotW G) (nsub tw iw) in let inW := nadd (pinW G) iw in
  mkGroup (plabel G) (psize G + 1) tot il (tot - il) totW inW (nsub totW inW) (pnodes G ++ [cell_of n i]).
Definition shrunk (G : grp A) (cells : list (link A)) (deg inl : nat) (tw iw : A) : grp A :=
  let tot := (ptot G - (Z.of_nat deg - Z.of_nat inl))%Z in let il := (pin G - Z.of_nat inl)%Z in
  let totW := nsub (ptotW G) (nsub tw iw) in let inW := nsub (pinW G) iw in
  mkGroup (plabel G) (psize G - 1) tot il (tot - il) totW inW (nsub totW inW) cells.

Lemma Add_raw g P k i n G : undirected g -> nth_error g i = Some n -> nth_error P k = Some G ->
  exists g1 tw g2 n2 g', NodeStrength g1 i = Ok (tw, g2) /\ same_cache g g1 /\ undirected g1 /\ (forall j, option_map (@gstr A) (nth_error g1 j) = option_map (@gstr A) (nth_error g j)) /\
   same_cache g g2 /\ undirected g2 /\ nth_error g2 i = Some n2 /\ g' = upd g2 i (set_ggroup (Some (plabel G)) n2) /\
   AddNodeToGroup (g, P) k i = Ok (g', upd P k (grown G n i (degree g i) (count (in_grp g (plabel G)) (nbrs g i)) tw (sum_to g (gadj n) (plabel G) n0))).
Proof.
  intros U E EG. destruct (quantities g i n (plabel G) U E) as (g1 & tw & g2 & E1 & E2 & E3 & E4 & S2 & U2 & S1 & U1 & T1).
  destruct (F2_nth _ _ _ _ _ S2 E) as (n2 & En2 & Hn2).
  exists g1, tw, g2, n2. eexists. splits; eauto. unfold AddNodeToGroup. rewrite (get_ok _ _ _ EG). cbn [bind]. rewrite (get_ok _ _ _ E). cbn [bind].
  rewrite E1. cbn [bind]. rewrite E2. cbn [bind]. rewrite E3. cbn [bind]. rewrite E4. cbn [bind]. rewrite set_ok by (eapply nth_lt; eauto). cbn [bind].
  unfold upd_node. rewrite (get_ok _ _ _ En2). cbn [bind]. rewrite set_ok by (eapply nth_lt; eauto). reflexivity.
Qed.
Lemma Remove_raw g P k i n G cells : undirected g -> nth_error g i = Some n -> nth_error P k = Some G -> rm_cell i (pnodes G) = Some cells ->
  exists g1 tw g', NodeStrength g1 i = Ok (tw, g') /\ same_cache g g1 /\ undirected g1 /\ (forall j, option_map (@gstr A) (nth_error g1 j) = option_map (@gstr A) (nth_error g j)) /\
   same_cache g g' /\ undirected g' /\
   RemoveNodeFromGroup (g, P) k i = Ok (true, (g', upd P k (shrunk G cells (degree g i) (count (in_grp g (plabel G)) (nbrs g i)) tw (sum_to g (gadj n) (plabel G) n0)))).
Proof.
  intros U E EG Ec. destruct (quantities g i n (plabel G) U E) as (g1 & tw & g2 & E1 & E2 & E3 & E4 & S2 & U2 & S1 & U1 & T1).
  exists g1, tw, g2. splits; auto. unfold RemoveNodeFromGroup. rewrite (get_ok _ _ _ EG). cbn [bind]. rewrite Ec.
  rewrite E1. cbn [bind]. rewrite E2. cbn [bind]. rewrite E3. cbn [bind]. rewrite E4. cbn [bind]. rewrite set_ok by (eapply nth_lt; eauto). reflexivity.
Qed.

Lemma rm_cell_spec i (ls : list (link A)) : NoDup (targets ls) -> match rm_cell i ls with
  | None => ~ In i (targets ls)
  | Some ls' => In i (targets ls) /\ targets ls' = remove1 i (targets ls) /\ (forall l, In l ls' -> In l ls) end.
Proof.
  induction ls as [|l ls IH]; [simpl; auto|]. intros ND. change (targets (l :: ls)) with ((match lref l with Some j => [j] | None => [] end) ++ targets ls) in *.
  cbn [rm_cell]. destruct (eq_ref (lref l) i) eqn:E.
  - apply eq_ref_true in E. rewrite E in *. simpl in ND. inversion ND; subst. splits; simpl; auto. rewrite Nat.eqb_refl. simpl. unfold remove1. clear - H1.
    induction (targets ls) as [|x t IH]; simpl; auto. simpl in H1. destruct (Nat.eqb_spec x i); simpl; [tauto|]. f_equal. apply IH. tauto.
  - apply NoDup_app_iff in ND as (_ & ND & _). specialize (IH ND). destruct (rm_cell i ls) as [ls'|]; simpl.
    + destruct IH as (H1 & H2 & H3). splits; [apply in_or_app; auto| |intros x [->|Hx]; auto].
      unfold targets in *. simpl. rewrite H2. destruct (lref l) as [j|]; simpl; auto. simpl in E. rewrite E. simpl. auto.
    + intros K. apply in_app_or in K as [K|K]; auto. destruct (lref l) as [j|]; simpl in *; [|tauto]. destruct K as [->|[]]. rewrite Nat.eqb_refl in E. discriminate.
Qed.

(** * One operation on one group *)
Lemma members_grown G n i d c tw iw : members (grown G n i d c tw iw) = members G ++ [i].
Proof. unfold members, grown. cbn [pnodes]. rewrite targets_app. reflexivity. Qed.
Lemma counts_grown g G n i tw iw : undirected g -> i < length g -> ~ In i (members G) ->
  (forall j, In j (nbrs g i) -> in_grp g (plabel G) j = mem j (members G)) -> counts_right g G ->
  counts_right g (grown G n i (degree g i) (count (in_grp g (plabel G)) (nbrs g i)) tw iw).
Proof.
  intros U Li Hn Hg (H1 & H2 & H3 & H4). unfold counts_right. rewrite members_grown. unfold grown. cbn [psize pin ptot pout].
  rewrite (count_ext (in_grp g (plabel G)) (fun j => mem j (members G))) by auto.
  destruct (links_add g (members G) i U Li Hn) as [E1 E2]. pose proof (links_out_eq g (members G ++ [i])) as E3. rewrite app_length. simpl length.
  splits; lia.
Qed.
Lemma count_remove1 S i : NoDup S -> In i S -> S <> [] /\ length S = length (remove1 i S) + 1.
Proof.
  intros ND Hi. destruct (in_split_nodup i S Hi ND) as (l1 & l2 & -> & H1 & H2). split; [destruct l1; discriminate|]. unfold remove1. rewrite filter_app. cbn [filter].
  rewrite Nat.eqb_refl. cbn [negb]. assert (F : forall l, ~ In i l -> filter (fun x => negb (x =? i)) l = l).
  { induction l as [|x l IH]; simpl; intros H; auto. destruct (Nat.eqb_spec x i); simpl; [tauto|]. f_equal. apply IH. tauto. }
  rewrite !F by auto. rewrite !app_length. simpl. lia.
Qed.
Lemma remove1_In S i x : In x (remove1 i S) <-> In x S /\ x <> i.
Proof. unfold remove1. rewrite filter_In, negb_true_iff, Nat.eqb_neq. tauto. Qed.
Lemma counts_shrunk g G cells i tw iw : undirected g -> i < length g -> NoDup (members G) -> In i (members G) -> targets cells = remove1 i (members G) ->
  (forall j, In j (nbrs g i) -> in_grp g (plabel G) j = mem j (members G)) -> counts_right g G ->
  counts_right g (shrunk G cells (degree g i) (count (in_grp g (plabel G)) (nbrs g i)) tw iw).
Proof.
  intros U Li ND Hi Hc Hg (H1 & H2 & H3 & H4). unfold counts_right. change (members (shrunk G cells (degree g i) (count (in_grp g (plabel G)) (nbrs g i)) tw iw)) with (targets cells).
  rewrite Hc. unfold shrunk. cbn [psize pin ptot pout].
  destruct (count_remove1 _ i ND Hi) as [_ El].
  rewrite (count_ext (in_grp g (plabel G)) (fun j => mem j (remove1 i (members G)))).
  2: { intros j Hj. rewrite Hg by auto. assert (j <> i) by (intros ->; eapply un_loop; eauto).
       destruct (mem_spec j (members G)) as [I|I]; destruct (mem_spec j (remove1 i (members G))) as [I'|I']; auto; rewrite remove1_In in I'; tauto. }
  destruct (links_add g (remove1 i (members G)) i U Li) as [E1 E2]; [rewrite remove1_In; tauto|]. pose proof (links_out_eq g (remove1 i (members G))) as E3.
  destruct (links_ext g (remove1 i (members G) ++ [i]) (members G)) as (X1 & X2 & X3).
  { intros x. rewrite in_app_iff, remove1_In. simpl. destruct (Nat.eq_dec x i) as [->|]; intuition congruence. }
  rewrite X1 in E1. rewrite X2 in E2. splits; lia.
Qed.

(** * Groups as a table from labels to members *)
Record good (M : groups) : Prop := {
  gd_lab : NoDup (map fst M);
  gd_nd : forall lab l, In (lab, l) M -> NoDup l;
  gd_disj : forall lab l lab' l' i, In (lab, l) M -> In (lab', l') M -> In i l -> In i l' -> lab = lab'
}.
Lemma lab_unique (M : groups) lab l l' : NoDup (map fst M) -> In (lab, l) M -> In (lab, l') M -> l = l'.
Proof.
  induction M as [|[a x] M IH]; simpl; [tauto|]. intros ND H H'. inversion ND; subst.
  destruct H as [H|H], H' as [H'|H']; try congruence; auto.
  - injection H as -> ->. exfalso. apply H2. apply (in_map fst) in H'. auto.
  - injection H' as -> ->. exfalso. apply H2. apply (in_map fst) in H. auto.
Qed.
Lemma map_fst_upd (M : groups) k lab l l' : nth_error M k = Some (lab, l) -> map fst (upd M k (lab, l')) = map fst M.
Proof. revert k. induction M as [|x M IH]; intros [|k] E; simpl in *; try discriminate; [injection E as ->; auto|f_equal; auto]. Qed.
Lemma upd_In (M : groups) k lab l l' a x : NoDup (map fst M) -> nth_error M k = Some (lab, l) ->
  (In (a, x) (upd M k (lab, l')) <-> (a = lab /\ x = l') \/ (a <> lab /\ In (a, x) M)).
Proof.
  revert k. induction M as [|[b y] M IH]; intros [|k] ND E; simpl in *; try discriminate; inversion ND; subst.
  - injection E as -> ->. split.
    + intros [H|H]; [left; split; congruence|right]. split; auto. intros ->. apply H1. apply (in_map fst) in H. auto.
    + intros [[-> ->]|[H [H3|H3]]]; auto. congruence.
  - specialize (IH k H2 E). rewrite IH. assert (b <> lab).
    { intros ->. apply H1. apply nth_error_In in E. apply (in_map fst) in E. auto. }
    split; [intros [H3|[H3|H3]]|intros [H3|[H3 [H4|H4]]]]; auto; try tauto. injection H3 as <- <-. auto.
Qed.
Lemma home_iff M j lab : good M -> (home M j = Some lab <-> exists l, In (lab, l) M /\ In j l).
Proof.
  intros H. unfold home. destruct (find (fun x => mem j (snd x)) M) as [[a l]|] eqn:E; simpl.
  - apply find_some in E as [E1 E2]. apply mem_In in E2. simpl in E2. split.
    + intros [= <-]. eauto.
    + intros (l' & H1 & H2). f_equal. eapply (gd_disj M H); eauto.
  - split; [discriminate|]. intros (l & H1 & H2). apply (find_none _ _ E) in H1. simpl in H1. apply mem_In in H2. congruence.
Qed.
Lemma opt_ext (a b : option nat) : (forall x, a = Some x <-> b = Some x) -> a = b.
Proof. intros H. destruct a as [x|]; [symmetry; now apply H|]. destruct b as [y|]; auto. now apply H. Qed.

(** Replacing the members of one group. *)
Lemma good_upd M k lab l l' : good M -> nth_error M k = Some (lab, l) -> NoDup l' ->
  (forall i, In i l' -> In i l \/ forall a x, In (a, x) M -> ~ In i x) -> good (upd M k (lab, l')).
Proof.
  intros H E ND Hl. pose proof (nth_error_In _ _ E) as EI. split.
  - rewrite (map_fst_upd M k lab l l' E). apply H.
  - intros a x Hx. apply (upd_In M k lab l l' a x (gd_lab M H) E) in Hx as [[-> ->]|[_ Hx]]; auto. eapply (gd_nd M H); eauto.
  - intros a x b y i Hx Hy Ix Iy. apply (upd_In M k lab l l' _ _ (gd_lab M H) E) in Hx. apply (upd_In M k lab l l' _ _ (gd_lab M H) E) in Hy.
    destruct Hx as [[-> ->]|[Na Hx]], Hy as [[-> ->]|[Nb Hy]]; auto.
    + destruct (Hl i Ix) as [I|I]; [|exfalso; eapply I; eauto]. eapply (gd_disj M H); eauto.
    + destruct (Hl i Iy) as [I|I]; [|exfalso; eapply I; eauto]. eapply (gd_disj M H); eauto.
    + eapply (gd_disj M H); eauto.
Qed.
Lemma nth_members_eq (M : groups) k lab l : nth_error M k = Some (lab, l) -> nth_members M k = l.
Proof. unfold nth_members. now intros ->. Qed.
Lemma set_members_eq (M : groups) k lab l l' : nth_error M k = Some (lab, l) -> set_members M k l' = upd M k (lab, l').
Proof. unfold set_members. now intros ->. Qed.

Lemma abs_nth P k G : nth_error P k = Some G -> nth_error (abs P) k = Some (plabel G, members G).
Proof. unfold abs. intros E. now rewrite nth_error_map, E. Qed.
Lemma abs_upd P k G : abs (upd P k G) = upd (abs P) k (plabel G, members G).
Proof. revert k. unfold abs. induction P as [|x P IH]; intros [|k]; simpl; auto. now rewrite IH. Qed.

Definition cells_ok g (P : gpart A) : Prop := forall G l, In G P -> In l (pnodes G) ->
  exists j n, lref l = Some j /\ nth_error g j = Some n /\ lnode l = j /\ llabel l = glabel n.

(** * Any sequence of operations, with any further conditions on networks and groups that the steps keep *)
Variable XN : net A -> Prop.
Variable XG : net A -> grp A -> Prop.
Hypothesis X_sbg : forall g g' G, same_but_group g g' -> XG g G -> XG g' G.
Hypothesis X_new : forall g lab, XG g (mkGroup lab 0 0 0 0 n0 n0 n0 []).
Hypothesis X_strength : forall g g1 g2 i tw, XN g -> same_cache g g1 -> (forall j, option_map (@gstr A) (nth_error g1 j) = option_map (@gstr A) (nth_error g j)) ->
  NodeStrength g1 i = Ok (tw, g2) -> XN g2.
Hypothesis X_group : forall g i n v, XN g -> nth_error g i = Some n -> XN (upd g i (set_ggroup v n)).
Hypothesis X_grown : forall g g1 g2 G i n tw d c, undirected g -> nth_error g i = Some n -> XN g -> same_cache g g1 ->
  (forall j, option_map (@gstr A) (nth_error g1 j) = option_map (@gstr A) (nth_error g j)) -> NodeStrength g1 i = Ok (tw, g2) ->
  ~ In i (members G) -> (forall j, In j (nbrs g i) -> in_grp g (plabel G) j = mem j (members G)) -> XG g G ->
  XG g (grown G n i d c tw (sum_to g (gadj n) (plabel G) n0)).
Hypothesis X_shrunk : forall g g1 g2 G cells i n tw d c, undirected g -> nth_error g i = Some n -> XN g -> same_cache g g1 ->
  (forall j, option_map (@gstr A) (nth_error g1 j) = option_map (@gstr A) (nth_error g j)) -> NodeStrength g1 i = Ok (tw, g2) ->
  NoDup (members G) -> In i (members G) -> targets cells = remove1 i (members G) ->
  (forall j, In j (nbrs g i) -> in_grp g (plabel G) j = mem j (members G)) -> XG g G ->
  XG g (shrunk G cells d c tw (sum_to g (gadj n) (plabel G) n0)).

Record ginv g (P : gpart A) : Prop := {
  gi_un : undirected g;
  gi_good : good (abs P);
  gi_cells : cells_ok g P;
  gi_group : forall i, i < length g -> group_of g i = home (abs P) i;
  gi_counts : forall G, In G P -> counts_right g G;
  gi_xn : XN g;
  gi_xg : forall G, In G P -> XG g G
}.

Lemma cells_members g P G i : cells_ok g P -> In G P -> In i (members G) -> i < length g.
Proof.
  intros C HG Hi. apply targets_In in Hi as (l & Hl & E). destruct (C G l HG Hl) as (j & n & E1 & E2 & _). rewrite E in E1. injection E1 as <-. eapply nth_lt; eauto.
Qed.
Lemma in_abs P a x : In (a, x) (abs P) <-> exists G, In G P /\ plabel G = a /\ members G = x.
Proof. unfold abs. rewrite in_map_iff. split; intros (G & H1 & H2); exists G; [injection H1 as <- <-; auto|destruct H2 as (<- & <-); auto]. Qed.
Lemma in_grp_members g P k G j : ginv g P -> nth_error P k = Some G -> j < length g -> in_grp g (plabel G) j = mem j (members G).
Proof.
  intros I E Lj. unfold in_grp. rewrite (gi_group _ _ I j Lj). pose proof (home_iff (abs P) j (plabel G) (gi_good _ _ I)) as H.
  assert (HG : In (plabel G, members G) (abs P)) by (apply in_abs; exists G; splits; auto; eapply nth_error_In; eauto).
  destruct (mem_spec j (members G)) as [M|M].
  - rewrite (proj2 H) by eauto. now rewrite Nat.eqb_refl.
  - destruct (home (abs P) j) as [x|] eqn:Eh; auto. destruct (Nat.eqb_spec x (plabel G)) as [->|]; auto. exfalso. apply M.
    destruct (proj1 H eq_refl) as (l & H1 & H2). rewrite <- (lab_unique _ _ _ _ (gd_lab _ (gi_good _ _ I)) H1 HG). auto.
Qed.
Lemma group_of_upd g i n v j : nth_error g i = Some n -> group_of (upd g i (set_ggroup v n)) j = if j =? i then v else group_of g j.
Proof.
  intros E. unfold group_of. rewrite nth_upd. destruct (Nat.eqb_spec j i) as [->|]; simpl; auto. rewrite (proj2 (Nat.ltb_lt _ _) (nth_lt _ _ _ E)). reflexivity.
Qed.
Lemma cells_sbg g g' P : same_but_group g g' -> cells_ok g P -> cells_ok g' P.
Proof.
  intros H C G l HG Hl. destruct (C G l HG Hl) as (j & n & E1 & E2 & E3 & E4). destruct (F2_nth _ _ _ _ _ H E2) as (m & Em & Hm). exists j, m. splits; auto. rewrite E4. apply Hm.
Qed.
Lemma sbg_group_upd g i n v : nth_error g i = Some n -> same_but_group g (upd g i (set_ggroup v n)).
Proof. intros E. eapply F2_upd; eauto; simpl; auto 10. Qed.
Lemma degs_group_upd g i n v : undirected g -> nth_error g i = Some n -> degs_cached (upd g i (set_ggroup v n)).
Proof.
  intros U E j m Em. rewrite nth_upd in Em. destruct (_ && _).
  - injection Em as <-. apply (wf_deg g (un_wf g U) i n E).
  - apply (wf_deg g (un_wf g U) j m Em).
Qed.

(** Adding, in a state where only the group field of the node itself may be stale. *)
Record ginv_but g (P : gpart A) (i : nat) : Prop := {
  gb_un : undirected g;
  gb_good : good (abs P);
  gb_cells : cells_ok g P;
  gb_group : forall j, j < length g -> j <> i -> group_of g j = home (abs P) j;
  gb_counts : forall G, In G P -> counts_right g G;
  gb_xn : XN g;
  gb_xg : forall G, In G P -> XG g G
}.
Lemma ginv_gb g P i : ginv g P -> ginv_but g P i.
Proof. intros [H1 H2 H3 H4 H5 H6 H7]. split; auto. Qed.
Lemma in_grp_but g P k G i j : ginv_but g P i -> nth_error P k = Some G -> j < length g -> j <> i -> in_grp g (plabel G) j = mem j (members G).
Proof.
  intros I E Lj Nj. unfold in_grp. rewrite (gb_group _ _ _ I j Lj Nj). pose proof (home_iff (abs P) j (plabel G) (gb_good _ _ _ I)) as H.
  assert (HG : In (plabel G, members G) (abs P)) by (apply in_abs; exists G; splits; auto; eapply nth_error_In; eauto).
  destruct (mem_spec j (members G)) as [M|M].
  - rewrite (proj2 H) by eauto. now rewrite Nat.eqb_refl.
  - destruct (home (abs P) j) as [x|] eqn:Eh; auto. destruct (Nat.eqb_spec x (plabel G)) as [->|]; auto. exfalso. apply M.
    destruct (proj1 H eq_refl) as (l & H1 & H2). rewrite <- (lab_unique _ _ _ _ (gd_lab _ (gb_good _ _ _ I)) H1 HG). auto.
Qed.
Lemma nbr_facts g i j : undirected g -> In j (nbrs g i) -> j < length g /\ j <> i.
Proof. intros U H. split; [now destruct (nbrs_lt g i j (un_wf g U) H)|]. intros ->. eapply un_loop; eauto. Qed.
Lemma in_upd {X} (l : list X) k x y : In y (upd l k x) -> y = x \/ In y l.
Proof. revert k. induction l as [|a l IH]; intros [|k]; simpl; auto; intros [->|H]; auto. destruct (IH _ H); auto. Qed.

Lemma add_step g P k i : ginv_but g P i -> k < length P -> i < length g -> (forall m, ~ In i (nth_members (abs P) m)) ->
  exists g' P', AddNodeToGroup (g, P) k i = Ok (g', P') /\ ginv g' P' /\ same_but_group g g' /\
    abs P' = set_members (abs P) k (nth_members (abs P) k ++ [i]).
Proof.
  intros I Lk Li Hn. destruct (nth_ex P k Lk) as [G EG]. destruct (nth_ex g i Li) as [n En]. pose proof (gb_un _ _ _ I) as U.
  destruct (Add_raw g P k i n G U En EG) as (g1 & tw & g2 & n2 & g' & ES & S1 & U1 & T1 & S2 & U2 & En2 & -> & EQ).
  set (G' := grown G n i (degree g i) (count (in_grp g (plabel G)) (nbrs g i)) tw (sum_to g (gadj n) (plabel G) n0)) in *.
  pose proof (abs_nth P k G EG) as EM. pose proof (nth_error_In _ _ EG) as IG.
  assert (HnG : ~ In i (members G)) by (specialize (Hn k); rewrite (nth_members_eq _ _ _ _ EM) in Hn; auto).
  assert (Hnall : forall a x, In (a, x) (abs P) -> ~ In i x).
  { intros a x Hx. apply In_nth_error in Hx as [m Em]. specialize (Hn m). now rewrite (nth_members_eq _ _ _ _ Em) in Hn. }
  assert (Hb : forall j, In j (nbrs g i) -> in_grp g (plabel G) j = mem j (members G)).
  { intros j Hj. destruct (nbr_facts g i j U Hj). eapply in_grp_but; eauto. }
  assert (EA : abs (upd P k G') = upd (abs P) k (plabel G, members G ++ [i])).
  { rewrite abs_upd. unfold G'. rewrite members_grown. reflexivity. }
  do 2 eexists. split; [exact EQ|]. assert (Sb : same_but_group g (upd g2 i (set_ggroup (Some (plabel G)) n2))).
  { eapply sbg_trans; [apply sc_sbg; eassumption|]. now apply sbg_group_upd. }
  assert (GD : good (abs (upd P k G'))).
  { rewrite EA. eapply good_upd; eauto; [apply (gb_good _ _ _ I)| |].
    - apply NoDup_app_iff. splits; [eapply (gd_nd _ (gb_good _ _ _ I)); eapply nth_error_In; eauto|repeat constructor; auto|]. intros x Hx [<-|[]]. auto.
    - intros x Hx. apply in_app_or in Hx as [Hx|[<-|[]]]; auto. }
  splits; auto.
  2: { rewrite (nth_members_eq _ _ _ _ EM), (set_members_eq _ _ _ _ _ EM). exact EA. }
  split; auto.
  - exact (sbg_undirected g _ U Sb (degs_group_upd g2 i n2 _ U2 En2)).
  - apply (cells_sbg g); auto. intros H l HH Hl. apply in_upd in HH as [->|HH]; [|eapply (gb_cells _ _ _ I); eauto].
    cbn [G' grown pnodes] in Hl. apply in_app_or in Hl as [Hl|[<-|[]]]; [eapply (gb_cells _ _ _ I); eauto|].
    exists i, n. unfold cell_of. cbn. splits; auto. apply (wf_num g (un_wf g U) i n En).
  - intros j Lj. rewrite group_of_upd by auto. rewrite (sbg_length _ _ Sb) in Lj. rewrite (sc_group g g2 j S2).
    apply opt_ext. intros x. rewrite (home_iff _ j x GD). rewrite EA.
    destruct (Nat.eqb_spec j i) as [->|Nj].
    + split.
      * intros [= <-]. exists (members G ++ [i]). split; [apply (upd_In _ _ _ _ _ _ _ (gd_lab _ (gb_good _ _ _ I)) EM); auto|apply in_or_app; simpl; auto].
      * intros (l & Hl & Hi). apply (upd_In _ _ _ _ _ _ _ (gd_lab _ (gb_good _ _ _ I)) EM) in Hl as [[-> ->]|[_ Hl]]; auto. exfalso. eapply Hnall; eauto.
    + rewrite (gb_group _ _ _ I j Lj Nj). rewrite (home_iff _ j x (gb_good _ _ _ I)). split; intros (l & Hl & Hj).
      * destruct (Nat.eq_dec x (plabel G)) as [->|Nx].
        -- exists (members G ++ [i]). split; [apply (upd_In _ _ _ _ _ _ _ (gd_lab _ (gb_good _ _ _ I)) EM); auto|].
           rewrite (lab_unique _ _ _ _ (gd_lab _ (gb_good _ _ _ I)) Hl (nth_error_In _ _ EM)) in Hj. apply in_or_app; auto.
        -- exists l. split; auto. apply (upd_In _ _ _ _ _ _ _ (gd_lab _ (gb_good _ _ _ I)) EM). auto.
      * apply (upd_In _ _ _ _ _ _ _ (gd_lab _ (gb_good _ _ _ I)) EM) in Hl as [[-> ->]|[_ Hl]]; eauto.
        exists (members G). split; [eapply nth_error_In; eauto|]. apply in_app_or in Hj as [Hj|[<-|[]]]; auto. contradiction.
  - intros H HH. eapply sbg_counts; eauto. apply in_upd in HH as [->|HH]; [|apply (gb_counts _ _ _ I); auto].
    apply counts_grown; auto. apply (gb_counts _ _ _ I); auto.
  - apply X_group; auto. exact (X_strength g g1 g2 i tw (gb_xn _ _ _ I) S1 T1 ES).
  - intros H HH. eapply X_sbg; [exact Sb|]. apply in_upd in HH as [->|HH]; [|apply (gb_xg _ _ _ I); auto].
    exact (X_grown g g1 g2 G i n tw _ _ U En (gb_xn _ _ _ I) S1 T1 ES HnG Hb (gb_xg _ _ _ I G IG)).
Qed.

Lemma remove_step g P k i : ginv g P -> k < length P -> In i (nth_members (abs P) k) ->
  exists g' P', RemoveNodeFromGroup (g, P) k i = Ok (true, (g', P')) /\ ginv_but g' P' i /\ same_but_group g g' /\
    abs P' = set_members (abs P) k (remove1 i (nth_members (abs P) k)) /\ length P' = length P.
Proof.
  intros I Lk Hi. destruct (nth_ex P k Lk) as [G EG]. pose proof (gi_un _ _ I) as U. pose proof (abs_nth P k G EG) as EM. pose proof (nth_error_In _ _ EG) as IG.
  rewrite (nth_members_eq _ _ _ _ EM) in *.
  assert (Li : i < length g) by (eapply cells_members; eauto; apply (gi_cells _ _ I)). destruct (nth_ex g i Li) as [n En].
  assert (ND : NoDup (members G)) by (eapply (gd_nd _ (gi_good _ _ I)); eapply nth_error_In; eauto).
  pose proof (rm_cell_spec i (pnodes G) ND) as Hc. destruct (rm_cell i (pnodes G)) as [cells|] eqn:Ec; [|contradiction]. destruct Hc as (_ & Hc & Hsub).
  destruct (Remove_raw g P k i n G cells U En EG Ec) as (g1 & tw & g' & ES & S1 & U1 & T1 & S2 & U2 & EQ).
  set (G' := shrunk G cells (degree g i) (count (in_grp g (plabel G)) (nbrs g i)) tw (sum_to g (gadj n) (plabel G) n0)) in *.
  assert (Hb : forall j, In j (nbrs g i) -> in_grp g (plabel G) j = mem j (members G)).
  { intros j Hj. destruct (nbr_facts g i j U Hj). eapply in_grp_members; eauto. }
  assert (EA : abs (upd P k G') = upd (abs P) k (plabel G, remove1 i (members G))).
  { rewrite abs_upd. change (members G') with (targets cells). rewrite Hc. reflexivity. }
  assert (GD : good (abs (upd P k G'))).
  { rewrite EA. eapply good_upd; eauto; [apply (gi_good _ _ I)| |].
    - unfold remove1. now apply NoDup_filter.
    - intros x Hx. apply remove1_In in Hx. tauto. }
  pose proof (sc_sbg _ _ S2) as Sb. do 2 eexists. split; [exact EQ|]. splits; auto.
  2: { rewrite (set_members_eq _ _ _ _ _ EM). exact EA. }
  2: { apply length_upd. }
  split; auto.
  - apply (cells_sbg g); auto. intros H l HH Hl. apply in_upd in HH as [->|HH]; [|eapply (gi_cells _ _ I); eauto].
    eapply (gi_cells _ _ I); eauto.
  - intros j Lj Nj. rewrite (sbg_length _ _ Sb) in Lj. rewrite (sc_group g g' j S2). rewrite (gi_group _ _ I j Lj).
    apply opt_ext. intros x. rewrite (home_iff _ j x GD), (home_iff _ j x (gi_good _ _ I)), EA. split; intros (l & Hl & Hj).
    + destruct (Nat.eq_dec x (plabel G)) as [->|Nx].
      * exists (remove1 i (members G)). split; [apply (upd_In _ _ _ _ _ _ _ (gd_lab _ (gi_good _ _ I)) EM); auto|].
        rewrite (lab_unique _ _ _ _ (gd_lab _ (gi_good _ _ I)) Hl (nth_error_In _ _ EM)) in Hj. apply remove1_In; auto.
      * exists l. split; auto. apply (upd_In _ _ _ _ _ _ _ (gd_lab _ (gi_good _ _ I)) EM). auto.
    + apply (upd_In _ _ _ _ _ _ _ (gd_lab _ (gi_good _ _ I)) EM) in Hl as [[-> ->]|[_ Hl]]; eauto.
      exists (members G). split; [eapply nth_error_In; eauto|]. apply remove1_In in Hj. tauto.
  - intros H HH. eapply sbg_counts; eauto. apply in_upd in HH as [->|HH]; [|apply (gi_counts _ _ I); auto].
    apply counts_shrunk; auto. apply (gi_counts _ _ I); auto.
  - exact (X_strength g g1 g' i tw (gi_xn _ _ I) S1 T1 ES).
  - intros H HH. eapply X_sbg; [exact Sb|]. apply in_upd in HH as [->|HH]; [|apply (gi_xg _ _ I); auto].
    exact (X_shrunk g g1 g' G cells i n tw _ _ U En (gi_xn _ _ I) S1 T1 ES ND Hi Hc Hb (gi_xg _ _ I G IG)).
Qed.

Lemma nth_members_In (M : groups) m i : In i (nth_members M m) -> exists lab l, nth_error M m = Some (lab, l) /\ In i l.
Proof. unfold nth_members. destruct (nth_error M m) as [[lab l]|]; [eauto|intros []]. Qed.
Lemma move_step g P i a b : ginv g P -> a < length P -> b < length P ->
  exists r g' P', MoveNode (g, P) i a b = Ok (r, (g', P')) /\ ginv g' P' /\ same_but_group g g' /\
    abs P' = grop_do (abs P) (GMove i a b) /\ (r = true <-> In i (nth_members (abs P) a)).
Proof.
  intros I La Lb. unfold MoveNode. cbn [grop_do]. destruct (mem_spec i (nth_members (abs P) a)) as [Hi|Hi].
  - destruct (remove_step g P a i I La Hi) as (g1 & P1 & -> & I1 & S1 & E1 & L1). cbn [bind].
    assert (Li : i < length g1).
    { rewrite (sbg_length _ _ S1). destruct (nth_ex P a La) as [G EG]. rewrite (nth_members_eq _ _ _ _ (abs_nth P a G EG)) in Hi.
      eapply cells_members; eauto; [apply (gi_cells _ _ I)|eapply nth_error_In; eauto]. }
    destruct (add_step g1 P1 b i I1) as (g2 & P2 & -> & I2 & S2 & E2); [lia|auto| |].
    + intros m Hm. apply nth_members_In in Hm as (lab & l & Em & Hl). rewrite E1 in Em.
      destruct (nth_ex P a La) as [G EG]. pose proof (abs_nth P a G EG) as EM. rewrite (nth_members_eq _ _ _ _ EM) in *. rewrite (set_members_eq _ _ _ _ _ EM) in Em.
      apply nth_error_In in Em. apply (upd_In _ _ _ _ _ _ _ (gd_lab _ (gi_good _ _ I)) EM) in Em as [[-> ->]|[Nl Hm]].
      * apply remove1_In in Hl. tauto.
      * apply Nl. exact (gd_disj _ (gi_good _ _ I) _ _ _ _ i Hm (nth_error_In _ _ EM) Hl Hi).
    + cbn [bind]. exists true, g2, P2. splits; auto.
      * eapply sbg_trans; eauto.
      * rewrite E2, E1. reflexivity.
      * tauto.
  - unfold RemoveNodeFromGroup. destruct (nth_ex P a La) as [G EG]. rewrite (get_ok _ _ _ EG). cbn [bind].
    pose proof (abs_nth P a G EG) as EM. rewrite (nth_members_eq _ _ _ _ EM) in *.
    assert (ND : NoDup (members G)) by (eapply (gd_nd _ (gi_good _ _ I)); eapply nth_error_In; eauto).
    pose proof (rm_cell_spec i (pnodes G) ND) as Hc. destruct (rm_cell i (pnodes G)) as [cells|] eqn:Ec; [exfalso; apply Hi, Hc|].
    cbn [bind]. exists false, g, P. splits; auto using sbg_refl. split; [discriminate|contradiction].
Qed.

Lemma upd_comm {X} (l : list X) a b x y : a <> b -> upd (upd l a x) b y = upd (upd l b y) a x.
Proof. revert a b. induction l as [|z l IH]; intros [|a] [|b] H; simpl; auto; try lia. rewrite IH by lia. reflexivity. Qed.
Lemma remove1_head i l : NoDup (i :: l) -> remove1 i (i :: l) = l.
Proof.
  intros ND. inversion ND; subst. unfold remove1. cbn [filter]. rewrite Nat.eqb_refl. cbn [negb]. clear ND H2.
  induction l as [|x l IH]; simpl; auto. simpl in H1. destruct (Nat.eqb_spec x i); simpl; [tauto|]. f_equal. apply IH. tauto.
Qed.
Lemma merge_move (M : groups) a b i rest : a < length M -> b < length M -> a <> b -> nth_members M a = i :: rest -> NoDup (i :: rest) ->
  grop_do (grop_do M (GMove i a b)) (GMerge a b) = grop_do M (GMerge a b) /\ nth_members (grop_do M (GMove i a b)) a = rest /\ length (grop_do M (GMove i a b)) = length M.
Proof.
  intros La Lb Nab Ha ND. destruct (nth_ex M a La) as [[la xa] Ea]. destruct (nth_ex M b Lb) as [[lb xb] Eb].
  rewrite (nth_members_eq _ _ _ _ Ea) in Ha. subst xa. cbn [grop_do]. rewrite (nth_members_eq _ _ _ _ Ea), (nth_members_eq _ _ _ _ Eb).
  replace (mem i (i :: rest)) with true by (symmetry; apply mem_In; simpl; auto). cbv zeta. rewrite (remove1_head i rest ND).
  rewrite !(set_members_eq _ _ _ _ _ Ea), !(set_members_eq _ _ _ _ _ Eb).
  assert (E1 : nth_error (upd M a (la, rest)) b = Some (lb, xb)) by (rewrite nth_upd_neq; auto).
  rewrite (nth_members_eq _ _ _ _ E1), (set_members_eq _ _ _ _ _ E1).
  assert (E2 : nth_error (upd (upd M a (la, rest)) b (lb, xb ++ [i])) a = Some (la, rest)).
  { rewrite nth_upd_neq by auto. rewrite nth_upd_eq; auto. }
  assert (E3 : nth_error (upd (upd M a (la, rest)) b (lb, xb ++ [i])) b = Some (lb, xb ++ [i])).
  { rewrite nth_upd_eq; auto. now rewrite length_upd. }
  rewrite (nth_members_eq _ _ _ _ E2), (nth_members_eq _ _ _ _ E3), (set_members_eq _ _ _ _ _ E3).
  splits; auto.
  - rewrite (set_members_eq _ a la rest); [|rewrite nth_upd_neq; auto]. rewrite (set_members_eq (upd M b _) a la (i :: rest)); [|rewrite nth_upd_neq; auto].
    rewrite upd_upd. rewrite (upd_comm _ a b) by auto. rewrite upd_upd. rewrite <- app_assoc. reflexivity.
  - now rewrite !length_upd.
Qed.
Lemma merge_step a b : a <> b -> forall fuel g P, ginv g P -> a < length P -> b < length P -> length (nth_members (abs P) a) < fuel ->
  exists g' P', merge_loop fuel (g, P) a b = Ok (g', P') /\ ginv g' P' /\ same_but_group g g' /\ abs P' = grop_do (abs P) (GMerge a b).
Proof.
  intros Nab. induction fuel as [|f IH]; intros g P I La Lb Lf; [lia|]. cbn [merge_loop snd].
  destruct (nth_ex P a La) as [G EG]. rewrite (get_ok _ _ _ EG). cbn [bind]. pose proof (abs_nth P a G EG) as EM.
  destruct (nth_ex P b Lb) as [H EH]. pose proof (abs_nth P b H EH) as EHM.
  destruct (pnodes G) as [|c rest] eqn:Ep.
  - exists g, P. splits; auto using sbg_refl. cbn [grop_do]. rewrite (nth_members_eq _ _ _ _ EM), (nth_members_eq _ _ _ _ EHM), (set_members_eq _ _ _ _ _ EHM).
    unfold members at 2. rewrite Ep. cbn [targets flat_map]. rewrite app_nil_r.
    rewrite (upd_same _ _ _ EHM). rewrite (set_members_eq _ _ _ _ _ EM). assert (Em : members G = []) by (unfold members; now rewrite Ep). rewrite <- Em.
    now rewrite (upd_same _ _ _ EM).
  - destruct (gi_cells _ _ I G c) as (i & n & Ec & En & _); [eapply nth_error_In; eauto|rewrite Ep; simpl; auto|]. rewrite Ec. cbn [deref bind].
    assert (Em : members G = i :: targets rest) by (unfold members; rewrite Ep; unfold targets; cbn [flat_map]; rewrite Ec; reflexivity).
    destruct (move_step g P i a b I La Lb) as (r & g1 & P1 & -> & I1 & S1 & E1 & _). cbn [bind].
    destruct (merge_move (abs P) a b i (targets rest)) as (X1 & X2 & X3); auto.
    { unfold abs. now rewrite map_length. } { unfold abs. now rewrite map_length. }
    { rewrite (nth_members_eq _ _ _ _ EM). auto. }
    { rewrite <- Em. eapply (gd_nd _ (gi_good _ _ I)); eapply nth_error_In; eauto. }
    assert (L1 : length P1 = length P). { rewrite <- E1 in X3. unfold abs in X3. now rewrite !map_length in X3. }
    destruct (IH g1 P1 I1) as (g2 & P2 & E2 & I2 & S2 & A2); try lia.
    { rewrite E1, X2. rewrite (nth_members_eq _ _ _ _ EM), Em in Lf. simpl in Lf. lia. }
    rewrite E2. exists g2, P2. splits; auto; [eapply sbg_trans; eauto|]. now rewrite A2, E1.
Qed.


Lemma home_app_nil M lab i : home (M ++ [(lab, [])]) i = home M i.
Proof. unfold home. induction M as [|[a x] M IH]; simpl; auto. destruct (mem i x); auto. Qed.
Lemma abs_compress g P : (forall G, In G P -> counts_right g G) -> abs (CompressPart P) = grop_do (abs P) GCompress.
Proof.
  intros H. unfold abs, CompressPart. cbn [grop_do]. induction P as [|G P IH]; auto. cbn [map filter snd].
  destruct (H G (or_introl eq_refl)) as (Hs & _). rewrite Hs. destruct (members G) as [|x l] eqn:E.
  - cbn [length Z.of_nat Z.eqb negb]. apply IH. intros; apply H; simpl; auto.
  - replace (Z.of_nat (length (x :: l)) =? 0)%Z with false by (symmetry; apply Z.eqb_neq; simpl length; lia). cbn [negb map]. rewrite E. f_equal. apply IH. intros; apply H; simpl; auto.
Qed.
Lemma good_filter M (c : nat * list nat -> bool) : good M -> good (filter c M).
Proof.
  intros [H1 H2 H3]. split.
  - clear - H1. induction M as [|x M IH]; simpl; auto. simpl in H1. inversion H1; subst. destruct (c x); simpl; auto. constructor; auto.
    intros K. apply H2. apply in_map_iff in K as (y & E & Hy). apply filter_In in Hy. apply in_map_iff. exists y. tauto.
  - intros lab l Hl. apply filter_In in Hl. eapply H2. apply Hl.
  - intros lab l lab' l' i Hl Hl'. apply filter_In in Hl. apply filter_In in Hl'. eapply H3; [apply Hl|apply Hl'].
Qed.

Theorem grop_step g P o : ginv g P -> grop_ok (length g) (abs P) o ->
  exists g' P', run_grop (g, P) o = Ok (g', P') /\ ginv g' P' /\ same_but_group g g' /\ abs P' = grop_do (abs P) o.
Proof.
  intros I Hok. assert (LA : length (abs P) = length P) by (unfold abs; apply map_length).
  destruct o as [lab|k i|i a b|a b|]; cbn [grop_ok run_grop] in *; rewrite ?LA in Hok.
  - exists g, (P ++ [mkGroup lab 0 0 0 0 n0 n0 n0 []]). cbn [fst snd CreateGroup]. assert (EA : abs (P ++ [mkGroup lab 0 0 0 0 n0 n0 n0 []]) = abs P ++ [(lab, [])]) by (unfold abs; rewrite map_app; reflexivity).
    assert (GD : good (abs P ++ [(lab, [])])).
    { destruct (gi_good _ _ I) as [H1 H2 H3]. split.
      - rewrite map_app. apply NoDup_app_iff. splits; auto; [repeat constructor; auto|]. intros x Hx [<-|[]]. auto.
      - intros x l Hl. apply in_app_or in Hl as [Hl|[Hl|[]]]; eauto. injection Hl as <- <-. constructor.
      - intros x l x' l' i Hl Hl' Hi Hi'. apply in_app_or in Hl as [Hl|[Hl|[]]]; [|injection Hl as <- <-; destruct Hi].
        apply in_app_or in Hl' as [Hl'|[Hl'|[]]]; [eauto|injection Hl' as <- <-; destruct Hi']. }
    splits; auto using sbg_refl. split; try apply I.
    + now rewrite EA.
    + intros G l HG Hl. apply in_app_or in HG as [HG|[<-|[]]]; [eapply (gi_cells _ _ I); eauto|destruct Hl].
    + intros i Li. rewrite EA, home_app_nil. apply (gi_group _ _ I i Li).
    + intros G HG. apply in_app_or in HG as [HG|[<-|[]]]; [apply (gi_counts _ _ I); auto|].
      destruct (links_nil g) as (E1 & E2 & E3). unfold counts_right, members. cbn [pnodes psize pin ptot pout targets flat_map length]. rewrite E1, E2, E3. auto.
    + intros G HG. apply in_app_or in HG as [HG|[<-|[]]]; [apply (gi_xg _ _ I); auto|apply X_new].
  - destruct Hok as (Lk & Li & Hn). apply add_step; auto using ginv_gb.
  - destruct Hok as (La & Lb). destruct (move_step g P i a b I La Lb) as (r & g' & P' & -> & I' & S' & E' & _). cbn [bind]. exists g', P'. auto.
  - destruct Hok as (La & Lb & Nab). unfold MergeGroups. cbn [snd]. destruct (nth_ex P a La) as [G EG]. rewrite (get_ok _ _ _ EG). cbn [bind].
    apply merge_step; auto. rewrite (nth_members_eq _ _ _ _ (abs_nth P a G EG)). unfold members.
    assert (H : forall ls : list (link A), length (targets ls) <= length ls).
    { induction ls as [|l ls IH]; auto. unfold targets in *. cbn [flat_map]. rewrite app_length. destruct (lref l); simpl; lia. }
    specialize (H (pnodes G)). lia.
  - exists g, (CompressPart P). cbn [fst snd]. pose proof (abs_compress g P (gi_counts _ _ I)) as EA. splits; auto using sbg_refl.
    assert (Hsub : forall G, In G (CompressPart P) -> In G P) by (intros G HG; apply filter_In in HG; tauto).
    assert (GD : good (abs (CompressPart P))) by (rewrite EA; apply good_filter, I).
    split; auto; try apply I.
    + intros G l HG Hl. eapply (gi_cells _ _ I); eauto.
    + intros i Li. rewrite (gi_group _ _ I i Li). apply opt_ext. intros x. rewrite (home_iff _ i x GD), (home_iff _ i x (gi_good _ _ I)), EA.
      cbn [grop_do]. split; intros (l & Hl & Hi); exists l; split; auto.
      * apply filter_In. split; auto. simpl. destruct l; [destruct Hi|auto].
      * apply filter_In in Hl. tauto.
    + intros G HG. apply (gi_counts _ _ I); auto.
    + intros G HG. apply (gi_xg _ _ I); auto.
Qed.
Theorem grops_run os : forall g P, ginv g P -> grops_ok (length g) (abs P) os ->
  exists g' P', foldM run_grop (g, P) os = Ok (g', P') /\ ginv g' P' /\ same_but_group g g' /\ abs P' = fold_left grop_do os (abs P).
Proof.
  induction os as [|o os IH]; intros g P I Hok; [exists g, P; splits; auto using sbg_refl|]. cbn [foldM grops_ok fold_left] in *. destruct Hok as [Ho Hos].
  destruct (grop_step g P o I Ho) as (g1 & P1 & -> & I1 & S1 & E1). cbn [bind].
  destruct (IH g1 P1 I1) as (g2 & P2 & -> & I2 & S2 & E2); [now rewrite E1, (sbg_length _ _ S1)|].
  exists g2, P2. splits; auto; [eapply sbg_trans; eauto|]. now rewrite E2, E1.
Qed.
End Any.

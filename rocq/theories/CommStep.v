(** CommStep.v -- the changes of energy that the annealing of src/modules.c computes are changes of a value of the colouring; moves and merges. *)
From Coq Require Import List Arith ZArith Bool QArith Qcanon Lia.
From Verif Require Import Base Num ListLib NatSum QcSum IoModel GraphModel GraphSpec GraphProof GroupModel GroupSpec PairSum GroupProof GroupExact ModulesModel ModulesSpec ModulesMod ModulesMap
  MissModel MissSpec MissSets RecSpec CommModel CommSpec CommSums.
Import ListNotations.
Local Open Scope nat_scope.

(** * Links of unions *)
Section Links.
Context {A : Type} {ops : NumOps A}.
Variable g : net A.
Hypothesis U : undirected g.
Lemma ends_add S v : v < length g -> ~ In v S -> links_in g (S ++ [v]) + links_tot g (S ++ [v]) = links_in g S + links_tot g S + degree g v.
Proof. intros Hv Hn. destruct (links_add g S v U Hv Hn) as [E1 E2]. lia. Qed.
Lemma to_nbrs_self S v : count (fun j => mem j (remove1 v S)) (nbrs g v) = count (fun j => mem j S) (nbrs g v).
Proof.
  apply count_ext. intros j Hj. assert (j <> v). { intros ->. apply (linked_nbrs g v v) in Hj || idtac. pose proof (linked_loop g v U) as X. apply (mem_In v (nbrs g v)) in Hj. rewrite linked_nbrs in X. congruence. }
  destruct (mem_spec j (remove1 v S)) as [X|X], (mem_spec j S) as [Y|Y]; auto; exfalso; [apply remove1_In in X; tauto|apply X, remove1_In; auto].
Qed.
Lemma same_remove_add S v : In v S -> forall i, In i S <-> In i (remove1 v S ++ [v]).
Proof. intros Hv i. rewrite in_app_iff, remove1_In. simpl. destruct (Nat.eq_dec i v) as [->|]; [tauto|]. split; [tauto|]. intros [X|[X|[]]]; [tauto|congruence]. Qed.
Lemma links_remove S v : v < length g -> In v S -> links_in g S = links_in g (remove1 v S) + count (fun j => mem j S) (nbrs g v) /\
  links_in g S + links_tot g S = links_in g (remove1 v S) + links_tot g (remove1 v S) + degree g v.
Proof.
  intros Hv Hi. assert (Hn : ~ In v (remove1 v S)) by (rewrite remove1_In; tauto). destruct (links_ext g S (remove1 v S ++ [v]) (same_remove_add S v Hi)) as (E1 & E2 & _).
  rewrite E1, E2. split; [|now apply ends_add]. destruct (links_add g _ v U Hv Hn) as [-> _]. now rewrite to_nbrs_self.
Qed.
Lemma links_union S T : NoDup (S ++ T) -> (forall i, In i T -> i < length g) -> links_in g (S ++ T) = links_in g S + links_in g T + across g S T /\
  links_in g (S ++ T) + links_tot g (S ++ T) = links_in g S + links_tot g S + (links_in g T + links_tot g T).
Proof.
  induction T as [|v T IH] using rev_ind; intros ND HT.
  - rewrite app_nil_r, across_nil_r. destruct (links_nil g) as (-> & -> & _). lia.
  - rewrite app_assoc in *. apply NoDup_app_iff in ND as (ND & _ & HD). assert (Hv : v < length g) by (apply HT, in_or_app; simpl; auto).
    destruct (IH ND) as [E1 E2]; [intros; apply HT, in_or_app; auto|]. assert (Hn : ~ In v (S ++ T)) by (intros X; apply (HD v X); simpl; auto).
    assert (HnT : ~ In v T) by (intros X; apply Hn, in_or_app; auto). pose proof ND as ND2. apply NoDup_app_iff in ND as (NS & NT & _).
    pose proof (ends_add (S ++ T) v Hv Hn) as E3. pose proof (ends_add T v Hv HnT) as E4. split; [|lia].
    rewrite !links_in_snoc by auto. rewrite E1. rewrite (across_sym g S (T ++ [v]) U), across_snoc, (across_sym g T S U).
    unfold to_set. rewrite count_app. lia.
Qed.
Lemma mapped_cache g' P : undirected g' -> same_cache g g' -> mapped g P -> mapped g' P.
Proof.
  intros U' S [H1 H2 H3 H4 H5 H6]. split; auto.
  - intros G l HG Hl. destruct (H4 G l HG Hl) as (j & n & E1 & E2 & E3 & E4). destruct (F2_nth _ _ _ _ _ S E2) as (m & Em & Hm). exists j, m. splits; auto. rewrite E4. apply Hm.
  - intros i n E. rewrite <- (group_of_at g' i n E), (sc_group g g' i S). assert (Hi : i < length g) by (rewrite <- (sbg_length g g' (sc_sbg _ _ S)); eapply nth_lt; eauto).
    destruct (nth_ex g i Hi) as [m Em]. rewrite (group_of_at g i m Em). eauto.
  - intros G HG. apply (sbg_counts g g'); auto. now apply sc_sbg.
Qed.
End Links.

Section Exact.
Variables ex sq : Qc -> Qc.
#[local] Instance opsS : NumOps Qc := Qc_ops ex sq.
Notation q := Qc_of_nat.

Lemma zA_q k : zA (Z.of_nat k) = q k.
Proof. reflexivity. Qed.
Lemma worth_links (g : net Qc) L S : worth (length g) (unit_weight g) L S =
  ((q (links_in g S) + q (links_in g S)) / L - q (links_in g S + links_tot g S) * q (links_in g S + links_tot g S) / (L * L))%Qc.
Proof. unfold worth. rewrite Qc_of_nat_add, !links_in_Qc, links_tot_Qc. reflexivity. Qed.
Lemma share_nat a k L : share_of (Z.of_nat a) (Z.of_nat k) (Z.of_nat L) = ((q a + q a) / q L - q k * q k / (q L * q L))%Qc.
Proof. unfold share_of. replace (2 * Z.of_nat a)%Z with (Z.of_nat (a + a)) by lia. rewrite !zA_q, Qc_of_nat_add. reflexivity. Qed.
Lemma term_right (g : net Qc) L (G : grp Qc) : counts_right g G -> term_of G 0 0 (Z.of_nat L) = worth (length g) (unit_weight g) (q L) (members G).
Proof.
  intros (_ & E1 & E2 & _). unfold term_of. rewrite E1, E2, worth_links, <- share_nat. f_equal; lia.
Qed.

(** * The state and its colouring *)
Variable g0 : net Qc.
Let N := length g0.
Variable K : nat.
Record shows (g : net Qc) (P : gpart Qc) (c : list nat) : Prop := {
  sw_un : undirected g;
  sw_same : same_but_group g0 g;
  sw_map : mapped g P;
  sw_col : cshows N K (abs P) c
}.
Section Facts.
Variables (g : net Qc) (P : gpart Qc) (c : list nat).
Hypothesis I : shows g P c.
Lemma sw_len : length g = N.
Proof. apply (sbg_length g0 g), I. Qed.
Lemma sw_plen : length P = K.
Proof. pose proof (ch_size _ _ _ _ (sw_col _ _ _ I)) as H. unfold abs in H. now rewrite map_length in H. Qed.
Lemma sw_ginv : ginv noX noXG g P.
Proof. apply ginv_mapped. unfold noX, noXG. splits; auto; apply I. Qed.
Lemma sw_linked i j : linked g i j = linked g0 i j.
Proof. unfold linked. now rewrite (sbg_weight g0 g i j (sw_same _ _ _ I)). Qed.
Lemma sw_value n L d : pair_value n (unit_weight g) L d = pair_value n (unit_weight g0) L d.
Proof.
  unfold pair_value, node_sum, unit_weight. apply Qsum_ext. intros i _. apply Qsum_ext. intros j _. rewrite sw_linked.
  rewrite (Qsum_ext (fun y => if linked g i y then 1%Qc else 0%Qc) (fun y => if linked g0 i y then 1%Qc else 0%Qc)) by (intros; now rewrite sw_linked).
  rewrite (Qsum_ext (fun y => if linked g j y then 1%Qc else 0%Qc) (fun y => if linked g0 j y then 1%Qc else 0%Qc)) by (intros; now rewrite sw_linked). reflexivity.
Qed.
Lemma sw_group k : k < K -> exists G, nth_error P k = Some G /\ plabel G = k /\ members G = nth_members (abs P) k /\ counts_right g G.
Proof.
  intros Hk. destruct (nth_ex P k) as [G E]; [now rewrite sw_plen|]. exists G. pose proof (abs_nth P k G E) as EM. pose proof (nth_members_eq _ _ _ _ EM) as En.
  rewrite (ch_nth _ _ _ _ k (sw_col _ _ _ I) Hk) in EM. injection EM as E1 E2. splits; auto. apply (mp_counts _ _ (sw_map _ _ _ I)). eapply nth_error_In; eauto.
Qed.
Lemma sw_node v : v < N -> exists n, nth_error g v = Some n /\ ggroup n = Some (colour c v).
Proof.
  intros Hv. destruct (nth_ex g v) as [n E]; [now rewrite sw_len|]. exists n. split; auto. rewrite (mp_group _ _ (sw_map _ _ _ I) v n E). eapply ch_home; eauto. apply I.
Qed.
Lemma sw_nlinks v k G : v < N -> nth_error P k = Some G -> NLinksToGroup g v (plabel G) = Ok (count (fun j => mem j (members G)) (nbrs g v)).
Proof.
  intros Hv EG. pose proof (sw_un _ _ _ I) as U. rewrite NLinksToGroup_spec; [|apply U|now rewrite sw_len]. f_equal. apply count_ext. intros j Hj.
  apply (in_grp_members noX noXG g P k); auto using sw_ginv. eapply nbrs_lt; eauto. apply U.
Qed.
Lemma sw_cells G l : In G P -> In l (pnodes G) -> exists i, lref l = Some i /\ lnode l = i /\ i < N.
Proof. intros HG Hl. destruct (mp_cells _ _ (sw_map _ _ _ I) G l HG Hl) as (j & n & E1 & E2 & E3 & _). exists j. splits; auto. rewrite <- sw_len. eapply nth_lt; eauto. Qed.
Lemma sw_nodup k : NoDup (nth_members (abs P) k).
Proof. apply (ch_once _ _ _ _ (sw_col _ _ _ I)). Qed.
Lemma sw_range k i : In i (nth_members (abs P) k) -> i < N.
Proof. intros H. apply (ch_in _ _ _ _ (sw_col _ _ _ I)) in H. tauto. Qed.
Lemma sw_ng2g a b : a < K -> b < K -> a <> b -> NG2GLinks g P a b = Ok (across g (nth_members (abs P) a) (nth_members (abs P) b)).
Proof.
  intros Ha Hb Hab. destruct (sw_group a Ha) as (Ga & EGa & Ela & Ema & _). destruct (sw_group b Hb) as (Gb & EGb & Elb & Emb & _). pose proof (sw_un _ _ _ I) as U.
  unfold NG2GLinks. rewrite (get_ok _ _ _ EGa), (get_ok _ _ _ EGb). cbn [bind]. rewrite <- Ema, <- Emb.
  assert (H : forall ls x, (forall l, In l ls -> In l (pnodes Ga)) ->
    foldM (fun c l => do i <- deref (lref l); do x <- NLinksToGroup g i (plabel Gb); Ok (c + x)) x ls = Ok (x + across g (targets ls) (members Gb))).
  { induction ls as [|l ls IH]; intros x Hin; [cbn [foldM]; f_equal; change (targets (@nil (link Qc))) with (@nil nat); rewrite across_nil_l; lia|].
    cbn [foldM]. destruct (sw_cells Ga l (nth_error_In _ _ EGa) (Hin l (or_introl eq_refl))) as (i & Er & _ & Li). rewrite Er. cbn [deref bind].
    rewrite (sw_nlinks i b Gb Li EGb). cbn [bind]. rewrite IH by (intros; apply Hin; simpl; auto). f_equal. unfold targets. cbn [flat_map]. rewrite Er. cbn [app].
    unfold across. cbn [lsum]. rewrite to_set_nbrs; [unfold to_set; lia|apply U|rewrite Emb; apply sw_nodup]. }
  rewrite H by auto. cbn [bind]. rewrite (proj2 (Nat.eqb_neq a b) Hab). reflexivity.
Qed.
Lemma shows_cache g1 : undirected g1 -> same_cache g g1 -> shows g1 P c.
Proof. intros U1 S. split; auto; [eapply sbg_trans; [apply I|now apply sc_sbg]|eapply mapped_cache; eauto; apply I|apply I]. Qed.

(** A move of a node. *)
Lemma move_gain_ok v w L Go Gw : v < N -> w < K -> colour c v <> w -> nth_error P (colour c v) = Some Go -> nth_error P w = Some Gw ->
  exists g1, move_gain g Go Gw v (Z.of_nat L) = Ok ((pair_value N (unit_weight g0) (q L) (upd c v w) - pair_value N (unit_weight g0) (q L) c)%Qc, g1) /\ shows g1 P c.
Proof.
  intros Hv Hw Hne EGo EGw. pose proof (sw_un _ _ _ I) as U. pose proof (ch_lt _ _ _ _ v (sw_col _ _ _ I) Hv) as Ho.
  destruct (sw_group (colour c v) Ho) as (G1 & E1 & L1 & M1 & C1). rewrite EGo in E1. injection E1 as <-. destruct (sw_group w Hw) as (G2 & E2 & L2 & M2 & C2). rewrite EGw in E2. injection E2 as <-.
  assert (Hvg : v < length g) by now rewrite sw_len. assert (Hin : In v (members Go)) by (rewrite M1; apply (ch_in _ _ _ _ (sw_col _ _ _ I)); auto).
  assert (Hnw : ~ In v (members Gw)) by (rewrite M2; intros X; apply (ch_in _ _ _ _ (sw_col _ _ _ I)) in X; lia).
  unfold move_gain. rewrite (sw_nlinks v _ Go Hv EGo), (sw_nlinks v _ Gw Hv EGw). cbn [bind]. destruct (NodeDegree_cache g v U Hvg) as (g1 & -> & S & U1 & _). cbn [bind].
  exists g1. split; [|now apply shows_cache]. f_equal. f_equal. rewrite <- !sw_value, <- sw_len.
  rewrite (gain_move (length g) (unit_weight g) (unit_sym g U) (unit_loop g U) K (q L) (abs P) c v w); auto; [|rewrite sw_len; apply I].
  rewrite !(term_right g L) by auto. rewrite <- M1, <- M2.
  destruct (links_remove g U (members Go) v Hvg Hin) as [R1 R2]. destruct (links_add g (members Gw) v U Hvg Hnw) as [A1 _]. pose proof (ends_add g U (members Gw) v Hvg Hnw) as A2.
  assert (T1 : term_of Go (- Z.of_nat (degree g v)) (- Z.of_nat (count (fun j => mem j (members Go)) (nbrs g v))) (Z.of_nat L) = worth (length g) (unit_weight g) (q L) (remove1 v (members Go))).
  { destruct C1 as (_ & X1 & X2 & _). unfold term_of. rewrite X1, X2, worth_links, <- share_nat. f_equal; lia. }
  assert (T2 : term_of Gw (Z.of_nat (degree g v)) (Z.of_nat (count (fun j => mem j (members Gw)) (nbrs g v))) (Z.of_nat L) = worth (length g) (unit_weight g) (q L) (members Gw ++ [v])).
  { destruct C2 as (_ & X1 & X2 & _). unfold term_of. rewrite X1, X2, worth_links, <- share_nat. f_equal; lia. }
  rewrite T1, T2. cbn [nadd nsub n0 opsS Qc_ops]. ring.
Qed.
Lemma move_ok v w : v < N -> w < K -> colour c v <> w -> exists r g1 P1, MoveNode (g, P) v (colour c v) w = Ok (r, (g1, P1)) /\ shows g1 P1 (upd c v w).
Proof.
  intros Hv Hw Hne. pose proof (ch_lt _ _ _ _ v (sw_col _ _ _ I) Hv) as Ho.
  destruct (move_step noX noXG) with (g := g) (P := P) (i := v) (a := colour c v) (b := w) as (r & g' & P' & E & I' & S & EA & _); auto using sw_ginv; try (intros; exact Logic.I); try (rewrite sw_plen; auto).
  apply ginv_mapped in I' as (U' & M' & _). exists r, g', P'. splits; auto. split; auto; [eapply sbg_trans; eauto; apply I|]. rewrite EA. apply ch_move; auto. apply I.
Qed.
(** A merge of two groups. *)
Lemma merge_gain_ok a b L : a < K -> b < K -> a <> b ->
  merge_gain (Z.of_nat L) g P a b = Ok (pair_value N (unit_weight g0) (q L) (repaint a b c) - pair_value N (unit_weight g0) (q L) c)%Qc.
Proof.
  intros Ha Hb Hab. pose proof (sw_un _ _ _ I) as U. unfold merge_gain. rewrite sw_ng2g by auto. cbn [bind].
  destruct (sw_group a Ha) as (G1 & E1 & _ & M1 & C1). destruct (sw_group b Hb) as (G2 & E2 & _ & M2 & C2). rewrite (get_ok _ _ _ E1), (get_ok _ _ _ E2). cbn [bind]. f_equal.
  rewrite <- !sw_value, <- sw_len. rewrite (gain_merge (length g) (unit_weight g) (unit_sym g U) (unit_loop g U) K (q L) (abs P) c a b); auto; [|rewrite sw_len; apply I|apply worth_nil].
  rewrite !(term_right g L) by auto. rewrite <- M1, <- M2.
  assert (ND : NoDup (members G2 ++ members G1)).
  { rewrite M1, M2. apply NoDup_app_iff. splits; try apply sw_nodup. intros i X Y. apply (ch_in _ _ _ _ (sw_col _ _ _ I)) in X. apply (ch_in _ _ _ _ (sw_col _ _ _ I)) in Y. lia. }
  destruct (links_union g U (members G2) (members G1) ND) as [U1 U2]; [intros i X; rewrite M1 in X; rewrite sw_len; eapply sw_range; eauto|].
  destruct C1 as (_ & X1 & X2 & _), C2 as (_ & Y1 & Y2 & _). rewrite X1, X2, Y1, Y2. rewrite (across_sym g _ _ U) in U1.
  set (T := nsub _ _) at 3. assert (ET : T = worth (length g) (unit_weight g) (q L) (members G2 ++ members G1)).
  { unfold T. rewrite worth_links, U2, U1.
    replace (Z.of_nat (links_in g (members G1)) + Z.of_nat (links_in g (members G2)) + Z.of_nat (across g (members G1) (members G2)))%Z
      with (Z.of_nat (links_in g (members G2) + links_in g (members G1) + across g (members G1) (members G2))) by lia.
    replace (Z.of_nat (links_tot g (members G1)) + Z.of_nat (links_in g (members G1)) + Z.of_nat (links_tot g (members G2)) + Z.of_nat (links_in g (members G2)))%Z
      with (Z.of_nat (links_in g (members G2) + links_tot g (members G2) + (links_in g (members G1) + links_tot g (members G1)))) by lia.
    rewrite !zA_q. cbn [nsub nmul ndiv nofQ opsS Qc_ops]. f_equal. f_equal. change (Q2Qc (2 # 1)) with (1 + 1)%Qc. ring. }
  rewrite ET. cbn [nadd nsub n0 opsS Qc_ops]. ring.
Qed.
Lemma merge_ok a b : a < K -> b < K -> a <> b -> exists g1 P1, MergeGroups (g, P) a b = Ok (g1, P1) /\ shows g1 P1 (repaint a b c).
Proof.
  intros Ha Hb Hab. destruct (groups_run g P [GMerge a b] (sw_un _ _ _ I) (sw_map _ _ _ I)) as (g1 & P1 & E & U1 & M1 & S1 & EA).
  { cbn. unfold abs. rewrite map_length, sw_plen. auto. }
  cbn [foldM run_grop] in E. exists g1, P1. split.
  - destruct (MergeGroups (g, P) a b) as [st|e]; [exact E|discriminate].
  - split; auto; [eapply sbg_trans; [apply I|auto]|]. rewrite EA. apply ch_merge; auto. apply I.
Qed.
End Facts.
End Exact.

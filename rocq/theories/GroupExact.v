(** GroupExact.v -- the operations on groups of nodes: any sequence, the counters (any arithmetic) and the weights (exact arithmetic). *)
From Coq Require Import List Arith ZArith Bool QArith Qcanon Lia Permutation.
From Verif Require Import Base Num ListLib NatSum QcSum IoModel GraphModel GraphSpec GraphProof GroupModel GroupSpec PairSum GroupProof.
Import ListNotations.
Local Open Scope nat_scope.

(** * Counters, in any arithmetic *)
Section Any.
Context {A : Type} {ops : NumOps A}.
Implicit Types (g : net A) (P : gpart A) (G : grp A).

Definition noX (g : net A) : Prop := True.
Definition noXG (g : net A) (G : grp A) : Prop := True.
Lemma good_map (P : gpart A) : good (abs P) <-> NoDup (map plabel P) /\ (forall G, In G P -> NoDup (members G)) /\
  (forall G H i, In G P -> In H P -> In i (members G) -> In i (members H) -> plabel G = plabel H).
Proof.
  assert (E : map fst (abs P) = map plabel P) by (unfold abs; rewrite map_map; reflexivity).
  split.
  - intros [H1 H2 H3]. rewrite E in H1. splits; auto.
    + intros G HG. eapply H2. apply in_abs. exists G. auto.
    + intros G H i HG HH Hi Hi'. apply (H3 (plabel G) (members G) (plabel H) (members H) i); auto; apply in_abs; eauto.
  - intros (H1 & H2 & H3). split; [now rewrite E| |].
    + intros lab l Hl. apply in_abs in Hl as (G & HG & _ & <-). auto.
    + intros lab l lab' l' i Hl Hl' Hi Hi'. apply in_abs in Hl as (G & HG & <- & <-). apply in_abs in Hl' as (H & HH & <- & <-). eauto.
Qed.
Lemma group_of_at g i n : nth_error g i = Some n -> group_of g i = ggroup n.
Proof. unfold group_of. now intros ->. Qed.
Lemma ginv_mapped XN XG g P : ginv XN XG g P <-> undirected g /\ mapped g P /\ XN g /\ forall G, In G P -> XG g G.
Proof.
  split.
  - intros [H1 H2 H3 H4 H5 H6 H7]. apply good_map in H2 as (G1 & G2 & G3). splits; auto. split; auto.
    intros i n E. rewrite <- (group_of_at g i n E). apply H4. eapply nth_lt; eauto.
  - intros (U & [H1 H2 H3 H4 H5 H6] & X1 & X2). split; auto; [apply good_map; auto|]. intros i Li. destruct (nth_ex g i Li) as [n E].
    rewrite (group_of_at g i n E). eauto.
Qed.
Theorem groups_run g P os : undirected g -> mapped g P -> grops_ok (length g) (abs P) os ->
  exists g' P', foldM run_grop (g, P) os = Ok (g', P') /\ undirected g' /\ mapped g' P' /\ same_but_group g g' /\ abs P' = fold_left grop_do os (abs P).
Proof.
  intros U M Hok. assert (I : ginv noX noXG g P) by (apply ginv_mapped; unfold noX, noXG; auto).
  destruct (grops_run noX noXG) with (os := os) (g := g) (P := P) as (g' & P' & E & I' & S & EA); auto; try (intros; exact Logic.I).
  apply ginv_mapped in I' as (U' & M' & _). exists g', P'. auto.
Qed.
(** One removal. *)
Lemma remove_counts g P k i : undirected g -> mapped g P -> k < length P -> In i (nth_members (abs P) k) ->
  exists g' P', RemoveNodeFromGroup (g, P) k i = Ok (true, (g', P')) /\ same_but_group g g' /\
    abs P' = set_members (abs P) k (remove1 i (nth_members (abs P) k)) /\ forall G, In G P' -> counts_right g' G.
Proof.
  intros U M Lk Hi. assert (I : ginv noX noXG g P) by (apply ginv_mapped; unfold noX, noXG; auto).
  destruct (remove_step noX noXG) with (g := g) (P := P) (k := k) (i := i) as (g' & P' & E & I' & S & EA & _); auto; try (intros; exact Logic.I).
  exists g', P'. splits; auto. apply (gb_counts _ _ _ _ _ I').
Qed.
(** Merging a group with itself. *)
Lemma merge_self fuel : forall g P k, undirected g -> mapped g P -> k < length P -> nth_members (abs P) k <> [] -> merge_loop fuel (g, P) k k = Err Diverge.
Proof.
  induction fuel as [|fuel IH]; intros g P k U M Lk Hne; auto. cbn [merge_loop snd].
  destruct (nth_ex P k Lk) as [G EG]. rewrite (get_ok _ _ _ EG). cbn [bind].
  pose proof (abs_nth P k G EG) as EM. rewrite (nth_members_eq _ _ _ _ EM) in Hne.
  destruct (pnodes G) as [|c cs] eqn:Ec; [exfalso; apply Hne; unfold members; now rewrite Ec|].
  destruct (mp_cells _ _ M G c) as (i & n & Er & En & _); [eapply nth_error_In; eauto|rewrite Ec; simpl; auto|]. rewrite Er. cbn [deref bind].
  assert (I : ginv noX noXG g P) by (apply ginv_mapped; unfold noX, noXG; auto).
  destruct (move_step noX noXG) with (g := g) (P := P) (i := i) (a := k) (b := k) as (r & g' & P' & E & I' & _ & EA & _); auto; try (intros; exact Logic.I).
  rewrite E. cbn [bind]. apply ginv_mapped in I' as (U' & M' & _).
  assert (Hi : mem i (nth_members (abs P) k) = true).
  { rewrite (nth_members_eq _ _ _ _ EM). apply mem_In. unfold members. rewrite Ec. unfold targets. cbn [flat_map]. rewrite Er. simpl; auto. }
  cbn [grop_do] in EA. rewrite Hi in EA. rewrite (nth_members_eq _ _ _ _ EM), (set_members_eq _ _ _ _ _ EM) in EA.
  set (M1 := upd (abs P) k (plabel G, remove1 i (members G))) in *.
  assert (Ek : nth_error M1 k = Some (plabel G, remove1 i (members G))).
  { unfold M1. rewrite nth_upd, Nat.eqb_refl. rewrite (proj2 (Nat.ltb_lt _ _) (nth_lt _ _ _ EM)). reflexivity. }
  rewrite (nth_members_eq _ _ _ _ Ek), (set_members_eq _ _ _ _ _ Ek) in EA.
  assert (Lk' : k < length P').
  { replace (length P') with (length (abs P')) by (unfold abs; apply map_length). rewrite EA, length_upd. unfold M1. rewrite length_upd. unfold abs. now rewrite map_length. }
  apply IH; auto. rewrite EA. unfold nth_members. rewrite nth_upd, Nat.eqb_refl. rewrite (proj2 (Nat.ltb_lt _ _) (nth_lt _ _ _ Ek)). simpl.
  destruct (remove1 i (members G)); discriminate.
Qed.
(** Where one starts: a network without groups. *)
Lemma mapped_nil g : (forall i n, nth_error g i = Some n -> ggroup n = None) -> mapped g [].
Proof. intros H. split; try (simpl; tauto). constructor. Qed.
End Any.

(** * Weights, in exact arithmetic *)
Section Exact.
Variables ex sq : Qc -> Qc.
#[local] Instance opsX : NumOps Qc := Qc_ops ex sq.
Implicit Types (g : net Qc) (P : gpart Qc) (G : grp Qc).

Definition str_ok (n : gnode Qc) : Prop := gstr n = 0%Qc \/ gstr n = Qsum lweight (gadj n).
Lemma sc_nodes g : strengths_cached g <-> forall i n, nth_error g i = Some n -> str_ok n.
Proof. reflexivity. Qed.
Lemma cached_upd g i m : strengths_cached g -> str_ok m -> strengths_cached (upd g i m).
Proof. intros H Hm j n E. rewrite nth_upd in E. destruct (_ && _); [injection E as <-; auto|apply (H j n E)]. Qed.

Lemma fold_lweight (ls : list (link Qc)) s : fold_left (fun s l => nadd s (lweight l)) ls s = (s + Qsum lweight ls)%Qc.
Proof. revert s. induction ls as [|l ls IH]; intros s; simpl; [ring|]. rewrite IH. simpl. ring. Qed.
Lemma NodeStrength_exact g i n s g' : nth_error g i = Some n -> strengths_cached g -> NodeStrength g i = Ok (s, g') ->
  s = Qsum lweight (gadj n) /\ strengths_cached g'.
Proof.
  intros E Hc. unfold NodeStrength. rewrite (get_ok _ _ _ E). cbn [bind]. pose proof (Hc i n E) as Hn.
  destruct (neqb (gstr n) n0 && negb (length (gadj n) =? 0)) eqn:Eq.
  - apply andb_true_iff in Eq as [Eq _]. change (neqb (gstr n) n0) with (if Qc_eq_dec (gstr n) 0%Qc then true else false) in Eq. destruct (Qc_eq_dec (gstr n) 0%Qc) as [E0|]; [|discriminate].
    rewrite set_ok by (eapply nth_lt; eauto). cbn [bind]. intros [= <- <-]. rewrite fold_lweight, E0. split; [ring|]. apply cached_upd; auto. right. simpl. ring.
  - intros [= <- <-]. split; auto. destruct Hn as [Hn|Hn]; auto. rewrite Hn. apply andb_false_iff in Eq as [Eq|Eq].
    + change (neqb (gstr n) n0) with (if Qc_eq_dec (gstr n) 0%Qc then true else false) in Eq. destruct (Qc_eq_dec (gstr n) 0%Qc); [discriminate|contradiction].
    + apply negb_false_iff, Nat.eqb_eq in Eq. destruct (gadj n); [reflexivity|discriminate].
Qed.

Lemma Qsum_targets (w : nat -> Qc) (ls : list (link Qc)) :
  (forall l, In l ls -> exists j, lref l = Some j /\ w j = lweight l) -> forall p : nat -> bool,
  Qsum (fun l => if match lref l with Some j => p j | None => false end then lweight l else 0%Qc) ls = Qsum (fun j => if p j then w j else 0%Qc) (targets ls).
Proof.
  intros H p. induction ls as [|l ls IH]; [reflexivity|]. unfold targets in *. cbn [flat_map Qsum]. destruct (H l (or_introl eq_refl)) as (j & E & Ew). rewrite E. cbn [app Qsum].
  rewrite <- IH by (intros; apply H; simpl; auto). rewrite Ew. reflexivity.
Qed.
Lemma weight_in_link (ls : list (link Qc)) l j : NoDup (targets ls) -> In l ls -> lref l = Some j -> weight_in ls j = Some (lweight l).
Proof.
  induction ls as [|x ls IH]; [intros _ []|]. intros ND Hl E. rewrite weight_in_cons. destruct Hl as [->|Hl].
  - rewrite E. unfold eq_ref. now rewrite Nat.eqb_refl.
  - unfold targets in ND. cbn [flat_map] in ND. apply NoDup_app_iff in ND as (_ & ND & D). destruct (eq_ref (lref x) j) eqn:Ex.
    + exfalso. apply eq_ref_true in Ex. rewrite Ex in D. apply (D j); simpl; auto. apply targets_In. eauto.
    + apply IH; auto.
Qed.
(** Sums over the links of a node are sums over the nodes of the network. *)
Lemma links_sum g i n (p : nat -> bool) : wf_net g -> nth_error g i = Some n ->
  Qsum (fun l => if match lref l with Some j => p j | None => false end then lweight l else 0%Qc) (gadj n) =
  Qsum (fun j => if p j then wt g i j else 0%Qc) (seq 0 (length g)).
Proof.
  intros W E. rewrite (Qsum_targets (wt g i)).
  - rewrite <- (nbrs_eq g i n E), (Qsum_nbrs g i _ W). apply Qsum_ext. intros j _. unfold linked, wt. destruct (weight g i j), (p j); auto.
  - intros l Hl. destruct (wf_link g W i n l E Hl) as (j & m & E1 & _). exists j. split; auto. unfold wt. rewrite (weight_eq g i n j E).
    rewrite (weight_in_link (gadj n) l j); auto. rewrite <- (nbrs_eq g i n E). apply (wf_nodup g W).
Qed.
Lemma strength_sum g i n : wf_net g -> nth_error g i = Some n -> Qsum lweight (gadj n) = s_deg (length g) (wt g) i.
Proof.
  intros W E. unfold s_deg. rewrite (Qsum_ext (wt g i) (fun j => if true then wt g i j else 0%Qc)) by auto. rewrite <- (links_sum g i n (fun _ => true) W E).
  apply Qsum_ext. intros l Hl. destruct (wf_link g W i n l E Hl) as (j & m & -> & _). reflexivity.
Qed.
Lemma sum_to_Qsum g (ls : list (link Qc)) lab s :
  sum_to g ls lab s = (s + Qsum (fun l => if match lref l with Some j => in_grp g lab j | None => false end then lweight l else 0%Qc) ls)%Qc.
Proof.
  unfold sum_to. revert s. induction ls as [|l ls IH]; intros s; cbn [fold_left Qsum]; [ring|]. rewrite IH. destruct (match lref l with Some j => _ | None => _ end); simpl; ring.
Qed.
Lemma sum_to_exact g i n lab S : undirected g -> nth_error g i = Some n -> (forall j, In j (nbrs g i) -> in_grp g lab j = mem j S) ->
  sum_to g (gadj n) lab n0 = s_to (length g) (wt g) i S.
Proof.
  intros U E H. rewrite sum_to_Qsum, (links_sum g i n _ (un_wf g U) E). simpl. rewrite Qcplus_0_l. unfold s_to. apply Qsum_ext. intros j _.
  unfold wt. destruct (weight g i j) as [w|] eqn:Ew.
  - rewrite H; auto. apply nbrs_weight. congruence.
  - destruct (in_grp g lab j), (mem j S); auto.
Qed.
Lemma wt_sym g : undirected g -> forall i j, wt g i j = wt g j i.
Proof. intros U i j. unfold wt. now rewrite (un_sym g U). Qed.
Lemma wt_loop g : undirected g -> forall i, wt g i i = 0%Qc.
Proof. intros U i. unfold wt. destruct (weight g i i) eqn:E; auto. exfalso. apply (un_loop g U i). apply nbrs_weight. congruence. Qed.

(** The conditions that the sequence lemma asks for. *)
Lemma E_sbg g g' G : same_but_group g g' -> weights_right g G -> weights_right g' G.
Proof.
  intros H (H1 & H2 & H3). assert (E : forall i j, wt g' i j = wt g i j) by (intros; unfold wt; now rewrite (sbg_weight g g' _ _ H)).
  unfold weights_right, weight_in_set, weight_tot, weight_out in *. rewrite (sbg_length g g' H). rewrite H1, H2, H3.
  splits; apply pair_sum_ext; intros i j _ _; now rewrite E.
Qed.
Lemma E_new g lab : weights_right g (mkGroup lab 0 0 0 0 n0 n0 n0 []).
Proof. destruct (s_empty (length g) (wt g)) as (E1 & E2 & E3). unfold weights_right, members. cbn [pnodes pinW ptotW poutW targets flat_map]. auto. Qed.
Lemma E_cache g g1 : strengths_cached g -> same_cache g g1 -> (forall j, option_map (@gstr Qc) (nth_error g1 j) = option_map (@gstr Qc) (nth_error g j)) -> strengths_cached g1.
Proof.
  intros H S T i m E. destruct (nth_ex g i) as [n En]; [rewrite (F2_len _ _ _ S); eapply nth_lt; eauto|]. destruct (F2_nth _ _ _ _ _ S En) as (m' & Em & Hm).
  rewrite E in Em. injection Em as <-. specialize (T i). rewrite E, En in T. injection T as ->. replace (gadj m) with (gadj n) by apply Hm. apply (H i n En).
Qed.
Lemma E_strength g g1 g2 i tw : strengths_cached g -> same_cache g g1 -> (forall j, option_map (@gstr Qc) (nth_error g1 j) = option_map (@gstr Qc) (nth_error g j)) ->
  NodeStrength g1 i = Ok (tw, g2) -> strengths_cached g2.
Proof.
  intros H S T E. pose proof (E_cache g g1 H S T) as H1. destruct (nth_error g1 i) as [n|] eqn:En; [eapply NodeStrength_exact; eauto|].
  unfold NodeStrength, get in E. rewrite En in E. discriminate.
Qed.
Lemma E_group g i n v : strengths_cached g -> nth_error g i = Some n -> strengths_cached (upd g i (set_ggroup v n)).
Proof. intros H E. apply cached_upd; auto. apply (H i n E). Qed.
Lemma E_tw g g1 g2 i n tw : undirected g -> nth_error g i = Some n -> strengths_cached g -> same_cache g g1 ->
  (forall j, option_map (@gstr Qc) (nth_error g1 j) = option_map (@gstr Qc) (nth_error g j)) -> NodeStrength g1 i = Ok (tw, g2) -> tw = s_deg (length g) (wt g) i.
Proof.
  intros U En H S T E. destruct (F2_nth _ _ _ _ _ S En) as (m & Em & Hm). destruct (NodeStrength_exact g1 i m tw g2 Em (E_cache g g1 H S T) E) as [-> _].
  replace (gadj m) with (gadj n) by apply Hm. apply strength_sum; auto. apply U.
Qed.
Lemma E_grown g g1 g2 G i n tw d c : undirected g -> nth_error g i = Some n -> strengths_cached g -> same_cache g g1 ->
  (forall j, option_map (@gstr Qc) (nth_error g1 j) = option_map (@gstr Qc) (nth_error g j)) -> NodeStrength g1 i = Ok (tw, g2) ->
  ~ In i (members G) -> (forall j, In j (nbrs g i) -> in_grp g (plabel G) j = mem j (members G)) -> weights_right g G ->
  weights_right g (grown G n i d c tw (sum_to g (gadj n) (plabel G) n0)).
Proof.
  intros U En H S T E Hn Hb (H1 & H2 & H3). rewrite (E_tw g g1 g2 i n tw U En H S T E). rewrite (sum_to_exact g i n (plabel G) (members G) U En Hb).
  assert (Hm : mem i (members G) = false) by (destruct (mem_spec i (members G)); auto; contradiction). pose proof (nth_lt _ _ _ En) as Li.
  unfold weights_right. rewrite members_grown. cbn [grown pinW ptotW poutW].
  assert (E1 : nadd (pinW G) (s_to (length g) (wt g) i (members G)) = weight_in_set g (members G ++ [i])).
  { change (weight_in_set g (members G ++ [i])) with (s_in (length g) (wt g) (members G ++ [i])). rewrite s_in_add; auto using wt_sym, wt_loop. rewrite H1. reflexivity. }
  assert (E2 : nadd (ptotW G) (nsub (s_deg (length g) (wt g) i) (s_to (length g) (wt g) i (members G))) = weight_tot g (members G ++ [i])).
  { change (weight_tot g (members G ++ [i])) with (s_tot (length g) (wt g) (members G ++ [i])). rewrite s_tot_add; auto using wt_sym, wt_loop. rewrite H2. reflexivity. }
  rewrite E1, E2. splits; auto. change (weight_out g (members G ++ [i])) with (s_out (length g) (wt g) (members G ++ [i])). rewrite s_out_eq. reflexivity.
Qed.
Lemma E_shrunk g g1 g2 G cells i n tw d c : undirected g -> nth_error g i = Some n -> strengths_cached g -> same_cache g g1 ->
  (forall j, option_map (@gstr Qc) (nth_error g1 j) = option_map (@gstr Qc) (nth_error g j)) -> NodeStrength g1 i = Ok (tw, g2) ->
  NoDup (members G) -> In i (members G) -> targets cells = remove1 i (members G) ->
  (forall j, In j (nbrs g i) -> in_grp g (plabel G) j = mem j (members G)) -> weights_right g G ->
  weights_right g (shrunk G cells d c tw (sum_to g (gadj n) (plabel G) n0)).
Proof.
  intros U En H S T E ND Hi Hc Hb (H1 & H2 & H3). rewrite (E_tw g g1 g2 i n tw U En H S T E). rewrite (sum_to_exact g i n (plabel G) (members G) U En Hb).
  pose proof (nth_lt _ _ _ En) as Li. set (R := remove1 i (members G)) in *.
  assert (Hm : mem i R = false) by (destruct (mem_spec i R) as [K|]; auto; apply remove1_In in K; tauto).
  assert (Hx : forall x, mem x (members G) = mem x (R ++ [i])).
  { intros x. destruct (mem_spec x (members G)) as [K|K]; destruct (mem_spec x (R ++ [i])) as [K'|K']; auto; exfalso.
    - apply K'. apply in_or_app. destruct (Nat.eq_dec x i) as [->|]; simpl; auto. left. apply remove1_In. auto.
    - apply K. apply in_app_or in K' as [K'|[<-|[]]]; auto. apply remove1_In in K'. tauto. }
  destruct (s_ext (length g) (wt g) (members G) (R ++ [i]) Hx) as (X1 & X2 & _).
  assert (X3 : s_to (length g) (wt g) i (members G) = s_to (length g) (wt g) i R).
  { unfold s_to. apply Qsum_ext. intros j _. rewrite Hx, mem_snoc. destruct (Nat.eqb_spec j i) as [->|]; [|now rewrite orb_false_r]. rewrite Hm, wt_loop; auto. }
  unfold weights_right. match goal with |- context [members ?x] => change (members x) with (targets cells) end. cbn [shrunk pinW ptotW poutW pnodes]. rewrite Hc, X3.
  assert (E1 : nsub (pinW G) (s_to (length g) (wt g) i R) = weight_in_set g R).
  { rewrite H1. change (weight_in_set g R) with (s_in (length g) (wt g) R). change (weight_in_set g (members G)) with (s_in (length g) (wt g) (members G)).
    rewrite X1, s_in_add; auto using wt_sym, wt_loop. simpl. ring. }
  assert (E2 : nsub (ptotW G) (nsub (s_deg (length g) (wt g) i) (s_to (length g) (wt g) i R)) = weight_tot g R).
  { rewrite H2. change (weight_tot g R) with (s_tot (length g) (wt g) R). change (weight_tot g (members G)) with (s_tot (length g) (wt g) (members G)).
    rewrite X2, s_tot_add; auto using wt_sym, wt_loop. simpl. ring. }
  rewrite E1, E2. splits; auto. change (weight_out g R) with (s_out (length g) (wt g) R). rewrite s_out_eq. reflexivity.
Qed.

Theorem groups_run_weights g P os : undirected g -> strengths_cached g -> mapped g P -> (forall G, In G P -> weights_right g G) -> grops_ok (length g) (abs P) os ->
  exists g' P', foldM run_grop (g, P) os = Ok (g', P') /\ undirected g' /\ strengths_cached g' /\ mapped g' P' /\ (forall G, In G P' -> weights_right g' G) /\
    same_but_group g g' /\ abs P' = fold_left grop_do os (abs P).
Proof.
  intros U Hc M Hw Hok. assert (I : ginv strengths_cached weights_right g P) by (apply ginv_mapped; auto).
  destruct (grops_run strengths_cached weights_right E_sbg E_new E_strength E_group E_grown E_shrunk os g P I Hok) as (g' & P' & E & I' & S & EA).
  apply ginv_mapped in I' as (U' & M' & X1 & X2). exists g', P'. splits; auto.
Qed.

(** Building a network keeps the cached strengths right. *)
Lemma upd_node_inv g i f g' : upd_node g i f = Ok g' -> exists n, nth_error g i = Some n /\ g' = upd g i (f n).
Proof.
  unfold upd_node. destruct (get g i) as [n|] eqn:E; cbn [bind]; [|discriminate]. unfold get in E. destruct (nth_error g i) as [m|] eqn:En; [|discriminate]. injection E as ->.
  rewrite set_ok by (eapply nth_lt; eauto). intros [= <-]. eauto.
Qed.
Lemma get_inv {X} (l : list X) i x : get l i = Ok x -> nth_error l i = Some x.
Proof. unfold get. destruct (nth_error l i); [congruence|discriminate]. Qed.
Lemma set_inv {X} (l : list X) i x l' : set l i x = Ok l' -> l' = upd l i x /\ i < length l.
Proof. unfold set. destruct (Nat.ltb_spec i (length l)); [intros [= <-]; auto|discriminate]. Qed.
Lemma bind_inv {X Y} (m : res X) (f : X -> res Y) y : (do x <- m; f x) = Ok y -> exists x, m = Ok x /\ f x = Ok y.
Proof. destruct m; simpl; [eauto|discriminate]. Qed.
Lemma reset2 g i j g1 g2 n : strengths_cached g -> upd_node g i reset_cache = Ok g1 -> upd_node g1 j reset_cache = Ok g2 -> nth_error g2 i = Some n ->
  strengths_cached g2 /\ gstr n = 0%Qc.
Proof.
  intros H E1 E2 En. apply upd_node_inv in E1 as (n1 & En1 & ->). apply upd_node_inv in E2 as (n2 & En2 & ->). split.
  - apply cached_upd; [apply cached_upd; auto|]; left; reflexivity.
  - rewrite nth_upd in En. destruct (Nat.eqb_spec i j) as [->|]; simpl in En.
    + rewrite (proj2 (Nat.ltb_lt _ _) (nth_lt _ _ _ En2)) in En. injection En as <-. reflexivity.
    + rewrite nth_upd, Nat.eqb_refl in En. rewrite (proj2 (Nat.ltb_lt _ _) (nth_lt _ _ _ En1)) in En. simpl in En. injection En as <-. reflexivity.
Qed.
Lemma AddAdjacency_cached g i j al aw w st r g' : strengths_cached g -> AddAdjacency g i j al aw w st = Ok (r, g') -> strengths_cached g'.
Proof.
  intros H. unfold AddAdjacency. destruct (_ && _); [intros [= <- <-]; auto|]. intros E.
  apply bind_inv in E as (g1 & E1 & E). apply bind_inv in E as (g2 & E2 & E). apply bind_inv in E as (n & En & E). apply bind_inv in E as (m & Em & E).
  apply get_inv in En. destruct (reset2 g i j g1 g2 n H E1 E2 En) as [H2 Hn]. destruct (add_link _ _ _ _ _) as [ls r']. apply bind_inv in E as (g3 & E3 & E).
  injection E as <- <-. apply set_inv in E3 as [-> _]. apply cached_upd; auto. left. simpl. auto.
Qed.
Lemma RemoveLink_cached g i j s g' : strengths_cached g -> RemoveLink g i j s = Ok g' -> strengths_cached g'.
Proof.
  intros H E. unfold RemoveLink in E. apply bind_inv in E as (g1 & E1 & E). apply bind_inv in E as (g2 & E2 & E). apply bind_inv in E as (n & En & E).
  apply bind_inv in E as (ls & Els & E). apply bind_inv in E as (g3 & E3 & E). apply get_inv in En. destruct (reset2 g i j g1 g2 n H E1 E2 En) as [H2 Hn].
  apply set_inv in E3 as [-> L]. assert (H3 : strengths_cached (upd g2 i (set_gadj ls n))) by (apply cached_upd; auto; left; simpl; auto).
  destruct (s && negb (i =? j)) eqn:Es; [|injection E as <-; auto]. apply bind_inv in E as (m & Em & E). apply bind_inv in E as (ls' & Els' & E).
  apply set_inv in E as [-> _]. apply get_inv in Em. apply cached_upd; auto. left. simpl.
  apply andb_true_iff in Es as [_ Es]. apply negb_true_iff, Nat.eqb_neq in Es. rewrite nth_upd_neq in Em by auto.
  apply upd_node_inv in E2 as (n2 & En2 & ->). rewrite nth_upd, Nat.eqb_refl in Em. rewrite (proj2 (Nat.ltb_lt _ _) (nth_lt _ _ _ En2)) in Em. simpl in Em. injection Em as <-. reflexivity.
Qed.
Theorem gop_cached g o g' : strengths_cached g -> run_gop g o = Ok g' -> strengths_cached g'.
Proof.
  intros H. destruct o as [i j aw w st|i j|i]; cbn [run_gop]; intros E.
  - apply bind_inv in E as ((r1 & g1) & E1 & E). apply bind_inv in E as ((r2 & g2) & E2 & E). injection E as <-. eauto using AddAdjacency_cached.
  - eauto using RemoveLink_cached.
  - apply bind_inv in E as ((d & g1) & E1 & E). injection E as <-. unfold NodeDegree in E1. apply bind_inv in E1 as (n & En & E1). apply get_inv in En.
    destruct (_ && _); [|injection E1 as _ <-; auto]. apply bind_inv in E1 as (g2 & E2 & E1). injection E1 as _ <-. apply set_inv in E2 as [-> _].
    apply cached_upd; auto. apply (H i n En).
Qed.
End Exact.

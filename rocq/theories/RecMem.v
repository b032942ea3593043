(** RecMem.v -- groups of the nodes of one side of a two-sided network: what adding and moving nodes does to them, and the links
    of a node to the groups of the other side. *)
From Coq Require Import List Arith ZArith Bool QArith Permutation Lia.
From Verif Require Import Base Num ListLib NatSum MatLib GraphModel GraphSpec GraphProof GroupModel GroupSpec GroupProof ModulesModel BipartModel BipartSpec
  MissModel MissSpec RecModel RecSpec RecSets.
Import ListNotations.
Local Open Scope nat_scope.

Section Mem.
Context {A : Type} {ops : NumOps A}.
Implicit Types (g : net A) (P : gpart A).

(** Two lists of nodes with their numbers, and links only across. *)
Record half g (sA sB : list nat) : Prop := {
  hf_nd : NoDup sA;
  hf_num : forall i p, nth_error sA i = Some p -> exists n, nth_error g p = Some n /\ gnum n = i;
  hf_link : forall p n l, In p sA -> nth_error g p = Some n -> In l (gadj n) -> exists q, lref l = Some q /\ In q sB;
  hf_once : forall p, In p sA -> NoDup (nbrs g p) }.
Record crossed g (sA sB : list nat) : Prop := {
  cr_l : half g sA sB;
  cr_r : half g sB sA;
  cr_disj : forall p, In p sA -> In p sB -> False;
  cr_sym : forall i j, weight g i j = weight g j i }.
Lemma crossed_sym g sA sB : crossed g sA sB -> crossed g sB sA.
Proof. intros [H1 H2 H3 H4]. split; auto. intros p I J. eapply H3; eauto. Qed.
Lemma bipartite_crossed b : bipartite b -> crossed (bmem b) (bset1 b) (bset2 b).
Proof.
  intros B. assert (ND : NoDup (bset1 b ++ bset2 b)) by (eapply Permutation_NoDup; [apply Permutation_sym; apply (bi_nodes b B)|apply seq_NoDup]).
  apply NoDup_app_iff in ND as (N1 & N2 & D).
  assert (Hlt : forall p, In p (bset1 b ++ bset2 b) -> p < length (bmem b)).
  { intros p Hp. apply (Permutation_in _ (bi_nodes b B)) in Hp. apply in_seq in Hp. lia. }
  assert (Hl : forall p n l, nth_error (bmem b) p = Some n -> In l (gadj n) -> exists q, lref l = Some q /\ In q (nbrs (bmem b) p)).
  { intros p n l En Hl. destruct (bi_link b B p n l En Hl) as (q & m & Eq & _). exists q. split; auto. unfold nbrs. rewrite En. apply targets_In. eauto. }
  split; [split|split| |]; auto.
  - intros i p Ep. destruct (nth_ex (bmem b) p) as [n En]; [apply Hlt; apply in_or_app; left; eapply nth_error_In; eauto|]. exists n. split; auto. eapply (bi_num1 b B); eauto.
  - intros p n l Hp En Hlk. destruct (Hl p n l En Hlk) as (q & Eq & Hq). exists q. split; auto. destruct (bi_cross b B p q Hq) as [[_ H]|[H _]]; auto. exfalso. eapply D; eauto.
  - intros. apply (bi_once b B).
  - intros i p Ep. destruct (nth_ex (bmem b) p) as [n En]; [apply Hlt; apply in_or_app; right; eapply nth_error_In; eauto|]. exists n. split; auto. eapply (bi_num2 b B); eauto.
  - intros p n l Hp En Hlk. destruct (Hl p n l En Hlk) as (q & Eq & Hq). exists q. split; auto. destruct (bi_cross b B p q Hq) as [[H _]|[_ H]]; auto. exfalso. eapply D; eauto.
  - intros. apply (bi_once b B).
  - exact (bi_sym b B).
Qed.
Lemma half_sbg g g' sA sB : same_but_group g g' -> half g sA sB -> half g' sA sB.
Proof.
  intros S [H1 H2 H3 H4]. split; auto.
  - intros i p Ep. destruct (H2 i p Ep) as (n & En & Hn). destruct (F2_nth _ _ _ _ _ S En) as (m & Em & R). exists m. split; auto. rewrite <- Hn. symmetry. apply R.
  - intros p m l Hp Em Hl. apply In_nth_error in Hp as Hi. destruct Hi as [i Ei]. destruct (H2 i p Ei) as (n & En & _). destruct (F2_nth _ _ _ _ _ S En) as (m' & Em' & R).
    rewrite Em in Em'. injection Em' as <-. eapply H3; eauto. destruct R as (_ & _ & _ & _ & ->). exact Hl.
  - intros p Hp. rewrite (sbg_nbrs g g' p S). auto.
Qed.
Lemma crossed_sbg g g' sA sB : same_but_group g g' -> crossed g sA sB -> crossed g' sA sB.
Proof.
  intros S [H1 H2 H3 H4]. split; eauto using half_sbg. intros i j. rewrite !(sbg_weight g g' _ _ S). apply H4.
Qed.

(** * Nodes whose links all point to nodes *)
Definition linksok g (ls : list (link A)) : Prop := forall l, In l ls -> exists j, lref l = Some j /\ j < length g.
Lemma half_linksok g sA sB p n : crossed g sA sB -> In p sA -> nth_error g p = Some n -> linksok g (gadj n).
Proof.
  intros C Hp En l Hl. destruct (hf_link _ _ _ (cr_l _ _ _ C) p n l Hp En Hl) as (q & Eq & Hq). exists q. split; auto.
  apply In_nth_error in Hq as [j Ej]. destruct (hf_num _ _ _ (cr_r _ _ _ C) j q Ej) as (m & Em & _). eapply nth_lt; eauto.
Qed.
Lemma NLinks_light g i n lab : nth_error g i = Some n -> linksok g (gadj n) -> exists c, NLinksToGroup g i lab = Ok c.
Proof.
  intros En L. unfold NLinksToGroup. rewrite (get_ok _ _ _ En). cbn [bind]. clear En.
  match goal with |- exists c, foldM ?f 0 _ = _ => assert (H : forall c0, exists c, foldM f c0 (gadj n) = Ok c); [|apply H] end. induction (gadj n) as [|l ls IH]; intros c; [cbn; eauto|].
  cbn [foldM]. destruct (L l) as (j & Ej & Hj); [simpl; auto|]. rewrite Ej. cbn [deref bind]. destruct (nth_ex g j Hj) as [m Em]. rewrite (get_ok _ _ _ Em). cbn [bind].
  apply IH. intros x Hx. apply L. simpl; auto.
Qed.
Lemma Strength_light g i n lab : nth_error g i = Some n -> linksok g (gadj n) -> exists c, StrengthToGroup g i lab = Ok c.
Proof.
  intros En L. unfold StrengthToGroup. rewrite (get_ok _ _ _ En). cbn [bind]. clear En. generalize n0. induction (gadj n) as [|l ls IH]; intros c; [cbn; eauto|].
  cbn [foldM]. destruct (L l) as (j & Ej & Hj); [simpl; auto|]. rewrite Ej. cbn [deref bind]. destruct (nth_ex g j Hj) as [m Em]. rewrite (get_ok _ _ _ Em). cbn [bind].
  apply IH. intros x Hx. apply L. simpl; auto.
Qed.
Lemma Degree_light g i n : nth_error g i = Some n -> exists k g', NodeDegree g i = Ok (k, g') /\ same_cache g g'.
Proof.
  intros En. unfold NodeDegree. rewrite (get_ok _ _ _ En). cbn [bind]. destruct (_ && _).
  - rewrite set_ok by (eapply nth_lt; eauto). cbn [bind]. do 2 eexists. split; [reflexivity|]. eapply F2_upd; eauto; simpl; auto 10.
  - do 2 eexists. split; [reflexivity|]. apply sc_refl.
Qed.
Lemma NodeStrength_light g i n : nth_error g i = Some n -> exists k g', NodeStrength g i = Ok (k, g') /\ same_cache g g'.
Proof.
  intros En. unfold NodeStrength. rewrite (get_ok _ _ _ En). cbn [bind]. destruct (_ && _).
  - rewrite set_ok by (eapply nth_lt; eauto). cbn [bind]. do 2 eexists. split; [reflexivity|]. eapply F2_upd; eauto; simpl; auto 10.
  - do 2 eexists. split; [reflexivity|]. apply sc_refl.
Qed.
Lemma quantities_light g i n lab : nth_error g i = Some n -> linksok g (gadj n) -> exists d g1 c tw g2 iw,
  NodeDegree g i = Ok (d, g1) /\ NLinksToGroup g1 i lab = Ok c /\ NodeStrength g1 i = Ok (tw, g2) /\ StrengthToGroup g2 i lab = Ok iw /\ same_cache g g2.
Proof.
  intros En L. destruct (Degree_light g i n En) as (d & g1 & E1 & S1). destruct (F2_nth _ _ _ _ _ S1 En) as (m & Em & Rm).
  assert (L1 : linksok g1 (gadj m)).
  { intros l Hl. destruct Rm as (_ & _ & _ & _ & Ea & _). rewrite <- Ea in Hl. destruct (L l Hl) as (j & Ej & Hj). exists j. split; auto. rewrite <- (F2_len _ _ _ S1). auto. }
  destruct (NLinks_light g1 i m lab Em L1) as (c & E2). destruct (NodeStrength_light g1 i m Em) as (tw & g2 & E3 & S2). destruct (F2_nth _ _ _ _ _ S2 Em) as (m2 & Em2 & Rm2).
  destruct (Strength_light g2 i m2 lab Em2) as (iw & E4).
  { intros l Hl. destruct Rm2 as (_ & _ & _ & _ & Ea & _). rewrite <- Ea in Hl. destruct (L1 l Hl) as (j & Ej & Hj). exists j. split; auto. rewrite <- (F2_len _ _ _ S2). auto. }
  exists d, g1, c, tw, g2, iw. splits; auto. eapply sc_trans; eauto.
Qed.
Lemma Add_light g P k i n G : nth_error g i = Some n -> nth_error P k = Some G -> linksok g (gadj n) -> exists g' G',
  AddNodeToGroup (g, P) k i = Ok (g', upd P k G') /\ plabel G' = plabel G /\ psize G' = (psize G + 1)%Z /\
  (exists l, pnodes G' = pnodes G ++ [l] /\ lref l = Some i) /\ same_but_group g g' /\ (forall j, group_of g' j = if j =? i then Some (plabel G) else group_of g j).
Proof.
  intros En EG L. destruct (quantities_light g i n (plabel G) En L) as (d & g1 & c & tw & g2 & iw & E1 & E2 & E3 & E4 & S2).
  destruct (F2_nth _ _ _ _ _ S2 En) as (n2 & En2 & _). do 2 eexists. split.
  - unfold AddNodeToGroup. rewrite (get_ok _ _ _ EG). cbn [bind]. rewrite (get_ok _ _ _ En). cbn [bind]. rewrite E1. cbn [bind]. rewrite E2. cbn [bind]. rewrite E3. cbn [bind]. rewrite E4. cbn [bind].
    rewrite set_ok by (eapply nth_lt; eauto). cbn [bind]. unfold upd_node. rewrite (get_ok _ _ _ En2). cbn [bind]. rewrite set_ok by (eapply nth_lt; eauto). reflexivity.
  - cbn [plabel psize pnodes]. split; [reflexivity|]. split; [reflexivity|]. split; [eexists; split; reflexivity|]. split.
    + eapply sbg_trans; [apply sc_sbg; eauto|]. now apply sbg_group_upd.
    + intros j. rewrite (group_of_upd g2 i n2 _ j En2). rewrite (sc_group g g2 j S2). reflexivity.
Qed.
Lemma Remove_light g P k i n G cells : nth_error g i = Some n -> nth_error P k = Some G -> linksok g (gadj n) -> rm_cell i (pnodes G) = Some cells -> exists g' G',
  RemoveNodeFromGroup (g, P) k i = Ok (true, (g', upd P k G')) /\ plabel G' = plabel G /\ psize G' = (psize G - 1)%Z /\
  pnodes G' = cells /\ same_cache g g'.
Proof.
  intros En EG L Ec. destruct (quantities_light g i n (plabel G) En L) as (d & g1 & c & tw & g2 & iw & E1 & E2 & E3 & E4 & S2). do 2 eexists. split.
  - unfold RemoveNodeFromGroup. rewrite (get_ok _ _ _ EG). cbn [bind]. rewrite Ec. rewrite E1. cbn [bind]. rewrite E2. cbn [bind]. rewrite E3. cbn [bind]. rewrite E4. cbn [bind].
    rewrite set_ok by (eapply nth_lt; eauto). reflexivity.
  - cbn [plabel psize pnodes]. splits; auto.
Qed.

(** * The groups of one side *)
Record groups_of g (s : list nat) P (c : list nat) : Prop := {
  go_len : length c = length s;
  go_col : coloured c;
  go_lab : map plabel P = seq 0 (length s);
  go_nd : forall k G, nth_error P k = Some G -> NoDup (members G);
  go_mem : forall k G x, nth_error P k = Some G -> (In x (members G) <-> exists i, nth_error s i = Some x /\ colour c i = k);
  go_cells : forall G l, In G P -> In l (pnodes G) -> lref l <> None;
  go_size : forall k G, nth_error P k = Some G -> psize G = Z.of_nat (csize c k);
  go_group : forall i p, nth_error s i = Some p -> group_of g p = Some (colour c i) }.
Lemma go_length g s P c : groups_of g s P c -> length P = length s.
Proof. intros H. rewrite <- (map_length plabel), (go_lab _ _ _ _ H). apply seq_length. Qed.
Lemma go_nth g s P c k : groups_of g s P c -> k < length s -> exists G, nth_error P k = Some G /\ plabel G = k.
Proof.
  intros H Hk. destruct (nth_ex P k) as [G EG]; [rewrite (go_length _ _ _ _ H); auto|]. exists G. split; auto.
  assert (E : nth_error (map plabel P) k = Some (plabel G)) by (now rewrite nth_error_map, EG). rewrite (go_lab _ _ _ _ H), nth_error_seq in E by auto. injection E. auto.
Qed.
Lemma map_plabel_upd P k G G' : nth_error P k = Some G -> plabel G' = plabel G -> map plabel (upd P k G') = map plabel P.
Proof.
  intros E EG. apply nth_ext. intros i. rewrite !nth_error_map, nth_upd. destruct (Nat.eqb_spec i k) as [->|]; cbn [andb]; auto. rewrite (proj2 (Nat.ltb_lt _ _) (nth_lt _ _ _ E)), E. cbn. now rewrite EG.
Qed.
(** Other nodes may change their groups. *)
Lemma groups_of_other g g' s P c : groups_of g s P c -> (forall p, In p s -> group_of g' p = group_of g p) -> groups_of g' s P c.
Proof. intros [H1 H2 H3 H4 H5 H6 H7 H8] H. split; auto. intros i p Ep. rewrite H by (eapply nth_error_In; eauto). auto. Qed.

Lemma csize_move c v w : v < length c -> colour c v <> w -> csize (upd c v w) (colour c v) = csize c (colour c v) - 1 /\ 0 < csize c (colour c v) /\
  csize (upd c v w) w = csize c w + 1 /\ forall k, k <> colour c v -> k <> w -> csize (upd c v w) k = csize c k.
Proof.
  intros Hv Hne. assert (H0 : 0 < csize c (colour c v)) by (apply csize_pos; eauto). pose proof (csize_upd c v w) as E. splits; auto.
  - specialize (E (colour c v) Hv). rewrite Nat.eqb_refl, (proj2 (Nat.eqb_neq w (colour c v))) in E by congruence. simpl in E. lia.
  - specialize (E w Hv). rewrite Nat.eqb_refl, (proj2 (Nat.eqb_neq (colour c v) w)) in E by congruence. simpl in E. lia.
  - intros k H1 H2. specialize (E k Hv). rewrite (proj2 (Nat.eqb_neq (colour c v) k)), (proj2 (Nat.eqb_neq w k)) in E by congruence. simpl in E. lia.
Qed.
Lemma upd_same (c : list nat) v : v < length c -> upd c v (colour c v) = c.
Proof. intros Hv. apply nth_ext. intros i. rewrite nth_upd. destruct (Nat.eqb_spec i v) as [->|]; cbn [andb]; auto. rewrite (proj2 (Nat.ltb_lt _ _) Hv). symmetry. now apply colour_nth. Qed.

Lemma nd_pos (s : list nat) i j p : NoDup s -> nth_error s i = Some p -> nth_error s j = Some p -> i = j.
Proof. intros N Ei Ej. apply (proj1 (NoDup_nth_error s) N); [eapply nth_lt; eauto|congruence]. Qed.

(** A node moves to another group, or leaves its group and comes back. *)
Lemma Move_light g s P c v p n w : groups_of g s P c -> NoDup s -> nth_error s v = Some p -> nth_error g p = Some n -> linksok g (gadj n) -> w < length s -> exists g' P',
  MoveNode (g, P) p (colour c v) w = Ok (true, (g', P')) /\ groups_of g' s P' (upd c v w) /\ same_but_group g g' /\
  (forall j, j <> p -> group_of g' j = group_of g j).
Proof.
  intros I ND Ep En L Hw. set (o := colour c v). assert (Hv : v < length c) by (rewrite (go_len _ _ _ _ I); eapply nth_lt; eauto).
  assert (Ho : o < length s) by (rewrite <- (go_len _ _ _ _ I); apply coloured_lt; auto; apply (go_col _ _ _ _ I)).
  destruct (go_nth _ _ _ _ o I Ho) as (Go & EGo & Lo). destruct (go_nth _ _ _ _ w I Hw) as (Gw & EGw & Lw).
  assert (LP : length P = length s) by (eapply go_length; eauto).
  pose proof (rm_cell_spec p (pnodes Go) (go_nd _ _ _ _ I _ _ EGo)) as R. destruct (rm_cell p (pnodes Go)) as [cells|] eqn:Ec.
  2: { exfalso. apply R. apply (go_mem _ _ _ _ I _ _ _ EGo). exists v. auto. }
  destruct R as (Rin & Rt & Rsub). change (targets (pnodes Go)) with (members Go) in Rin, Rt.
  destruct (Remove_light g P o p n Go cells En EGo L Ec) as (g1 & Go' & E1 & L1 & S1 & N1 & C1).
  destruct (F2_nth _ _ _ _ _ C1 En) as (m & Em & Rm).
  assert (Lm : linksok g1 (gadj m)).
  { intros l Hl. destruct Rm as (_ & _ & _ & _ & Ea & _). rewrite <- Ea in Hl. destruct (L l Hl) as (j & Ej & Hj). exists j. split; auto. rewrite <- (F2_len _ _ _ C1). auto. }
  set (P1 := upd P o Go'). set (Gw1 := if w =? o then Go' else Gw).
  assert (EGw1 : nth_error P1 w = Some Gw1).
  { unfold P1, Gw1. rewrite nth_upd. destruct (Nat.eqb_spec w o) as [->|]; cbn [andb]; auto. rewrite (proj2 (Nat.ltb_lt _ _)); auto. lia. }
  destruct (Add_light g1 P1 w p m Gw1 Em EGw1 Lm) as (g2 & Gw' & E2 & L2 & S2 & (cell & N2 & NL) & SB & Gr).
  assert (Lw1 : plabel Gw1 = w) by (unfold Gw1; destruct (Nat.eqb_spec w o) as [Ew|]; [rewrite L1; congruence|auto]).
  exists g2, (upd P1 w Gw'). split; [|split; [|split]].
  - unfold MoveNode. rewrite E1. cbn [bind]. apply (f_equal (fun r => do st <- r; Ok (true, st))) in E2. exact E2.
  - assert (P' : forall k G, nth_error (upd P1 w Gw') k = Some G -> k < length s /\ exists G0, nth_error P k = Some G0 /\
        members G = (if k =? o then remove1 p (members G0) else members G0) ++ (if k =? w then [p] else []) /\
        (psize G + (if Nat.eqb k o then 1 else 0) = psize G0 + (if Nat.eqb k w then 1 else 0))%Z /\ forall l, In l (pnodes G) -> In l (pnodes G0) \/ l = cell).
    { intros k G EG. assert (Hk : k < length s). { apply nth_lt in EG. rewrite !length_upd in EG. unfold P1 in EG. rewrite length_upd in EG. lia. } split; auto.
      rewrite nth_upd in EG. unfold P1 in EG. rewrite length_upd in EG. rewrite (proj2 (Nat.ltb_lt w (length P))) in EG by lia. rewrite nth_upd in EG. rewrite (proj2 (Nat.ltb_lt o (length P))) in EG by lia. rewrite !andb_true_r in EG.
      assert (Mo : members Go' = remove1 p (members Go)) by (unfold members; rewrite N1; exact Rt).
      assert (Mw : members Gw' = members Gw1 ++ [p]) by (unfold members; rewrite N2, targets_app; f_equal; unfold targets; simpl; rewrite NL; auto).
      destruct (Nat.eqb_spec k w) as [Ekw|Nkw].
      - injection EG as <-. subst k. unfold Gw1 in *. destruct (Nat.eqb_spec w o) as [Ewo|Nwo].
        + exists Go. rewrite Ewo. splits; auto; [now rewrite Mw, Mo|rewrite S2, S1; lia|]. intros l Hl. rewrite N2 in Hl. apply in_app_or in Hl as [Hl|[<-|[]]]; auto. left. rewrite N1 in Hl. auto.
        + exists Gw. splits; auto; [rewrite S2; lia|]. intros l Hl. rewrite N2 in Hl. apply in_app_or in Hl as [Hl|[<-|[]]]; auto.
      - destruct (Nat.eqb_spec k o) as [Eko|Nko].
        + injection EG as <-. subst k. exists Go. splits; auto; [rewrite Mo; now rewrite app_nil_r|rewrite S1; lia|]. intros l Hl. left. rewrite N1 in Hl. auto.
        + exists G. splits; auto. now rewrite app_nil_r. }
    split.
    + rewrite length_upd. apply (go_len _ _ _ _ I).
    + apply coloured_upd; [apply (go_col _ _ _ _ I)|]. rewrite (go_len _ _ _ _ I). auto.
    + rewrite (map_plabel_upd P1 w Gw1) by auto. unfold P1. rewrite (map_plabel_upd P o Go) by auto. apply (go_lab _ _ _ _ I).
    + intros k G EG. destruct (P' k G EG) as (Hk & G0 & EG0 & M & _). rewrite M.
      assert (N0 : NoDup (members G0)) by (eapply (go_nd _ _ _ _ I); eauto). pose proof (go_mem _ _ _ _ I k G0 p EG0) as Mp.
      assert (Nr : NoDup (if k =? o then remove1 p (members G0) else members G0)) by (destruct (k =? o); auto; apply NoDup_filter; auto).
      destruct (k =? w); [|now rewrite app_nil_r]. apply NoDup_app_iff. splits; auto; [constructor; [simpl; tauto|constructor]|]. intros x Hx [<-|[]].
      destruct (Nat.eqb_spec k o) as [Eko|Nko]; [apply remove1_In in Hx; tauto|]. apply Mp in Hx as (i & Ei & Ci). assert (i = v) by (apply (nd_pos s i v p); auto). subst i. auto.
    + intros k G x EG. destruct (P' k G EG) as (Hk & G0 & EG0 & M & _). rewrite M, in_app_iff. pose proof (go_mem _ _ _ _ I k G0 x EG0) as Mx. split.
      * intros [Hx|Hx].
        -- assert (Hx' : In x (members G0) /\ (x <> p \/ k <> o)) by (revert Hx; destruct (Nat.eqb_spec k o) as [|Nk]; intros Hx; [apply remove1_In in Hx; tauto|auto]). destruct Hx' as [Hx1 Hx2].
           apply Mx in Hx1 as (i & Ei & Ci). exists i. split; auto. rewrite colour_upd by auto. destruct (Nat.eqb_spec i v) as [->|]; auto. exfalso. rewrite Ep in Ei. injection Ei as ->. unfold o in Hx2. destruct Hx2; congruence.
        -- revert Hx; destruct (Nat.eqb_spec k w) as [->|]; intros Hx; [|destruct Hx]. destruct Hx as [<-|[]]. exists v. split; auto. rewrite colour_upd by auto. now rewrite Nat.eqb_refl.
      * intros (i & Ei & Ci). rewrite colour_upd in Ci by auto. destruct (Nat.eqb_spec i v) as [->|Niv].
        -- right. subst k. rewrite Nat.eqb_refl. left. congruence.
        -- left. assert (Hx : In x (members G0)) by (apply Mx; eauto). assert (x <> p) by (intros ->; apply Niv; apply (nd_pos s i v p); auto).
           destruct (k =? o); auto. apply remove1_In. auto.
    + intros G l HG Hl. apply In_nth_error in HG as [k EG]. destruct (P' k G EG) as (Hk & G0 & EG0 & _ & _ & M). destruct (M l Hl) as [H|H]; [|subst l; congruence].
      eapply (go_cells _ _ _ _ I); eauto. eapply nth_error_In; eauto.
    + intros k G EG. destruct (P' k G EG) as (Hk & G0 & EG0 & _ & M & _). pose proof (go_size _ _ _ _ I k G0 EG0) as Z0. pose proof (csize_upd c v w k Hv) as Z1. fold o in Z1. unfold one in Z1.
      rewrite (Nat.eqb_sym o k), (Nat.eqb_sym w k) in Z1. destruct (k =? o), (k =? w); lia.
    + intros i x Ex. rewrite Gr. rewrite colour_upd by auto. destruct (Nat.eqb_spec x p) as [->|Nx].
      * assert (i = v) by (apply (nd_pos s i v p); auto). subst i. now rewrite Nat.eqb_refl, Lw1.
      * destruct (Nat.eqb_spec i v) as [->|]; [exfalso; congruence|]. rewrite (sc_group g g1 x C1). apply (go_group _ _ _ _ I). auto.
  - eapply sbg_trans; [apply sc_sbg; eauto|auto].
  - intros j Hj. rewrite Gr. rewrite (proj2 (Nat.eqb_neq j p)) by auto. apply (sc_group g g1 j C1).
Qed.
End Mem.

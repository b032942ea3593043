(** RoleFast.v -- the operations on groups that do not count links follow those that do. *)
From Coq Require Import List Arith ZArith Bool QArith Qcanon Lia.
From Verif Require Import Base Num ListLib NatSum QcSum IoModel GraphModel GraphSpec GraphProof GroupModel GroupSpec GroupProof GroupExact ModulesModel ModulesSpec ModulesMod ModulesMap ModulesCopy RoleModel.
Import ListNotations.
Local Open Scope nat_scope.

Section Any.
Context {A : Type} {ops : NumOps A}.
Implicit Types (g : net A) (P : gpart A) (G : grp A).

(** The operations of the program that do not count links. *)
Definition run_fast (st : net A * gpart A) (o : grop) : res (net A * gpart A) :=
  match o with
  | GNew lab => Ok (fst st, snd (CreateGroup (snd st) lab))
  | GAdd k i => AddNodeToGroupFast st k i
  | GMove i a b => do (_, st) <- MoveNodeFast st i a b; Ok st
  | GMerge a b => MergeGroupsFast st a b
  | GCompress => Ok (fst st, CompressPart (snd st))
  end.
(** Two partitions with the same labels, sizes and cells. *)
Definition same_cells P P' : Prop := Forall2 (fun G G' => plabel G = plabel G' /\ psize G = psize G' /\ pnodes G = pnodes G') P P'.
Definition alike (st st' : net A * gpart A) : Prop := same_cache (fst st) (fst st') /\ same_cells (snd st) (snd st').
Lemma alike_refl st : alike st st.
Proof. split; [apply sc_refl|]. unfold same_cells. induction (snd st); constructor; auto. Qed.
(** The link counters of a group. *)
Definition counters G := (ptot G, pin G, pout G, ptotW G, pinW G, poutW G).
Definition no_counts : Z * Z * Z * A * A * A := (0%Z, 0%Z, 0%Z, n0, n0, n0).
(** Every group has the counters it had before, or none. *)
Definition untouched P P1 : Prop := forall G1, In G1 P1 -> counters G1 = no_counts \/ exists G, In G P /\ plabel G = plabel G1 /\ counters G = counters G1.
Lemma untouched_refl P : untouched P P.
Proof. intros G HG. right. eauto. Qed.
Lemma untouched_trans P Q R : untouched P Q -> untouched Q R -> untouched P R.
Proof.
  intros H1 H2 G HG. destruct (H2 G HG) as [E|(G' & HG' & E1 & E2)]; auto. destruct (H1 G' HG') as [E|(G0 & H0 & E3 & E4)]; [left|right]; [congruence|]. exists G0. splits; auto; congruence.
Qed.
Lemma untouched_upd P k G G1 : nth_error P k = Some G -> plabel G1 = plabel G -> counters G1 = counters G -> untouched P (upd P k G1).
Proof. intros E E1 E2 H HH. apply in_upd in HH as [->|HH]; right; [exists G|eauto]. splits; auto. eapply nth_error_In; eauto. Qed.

Lemma sc_sym g g' : same_cache g g' -> same_cache g' g.
Proof. unfold same_cache. induction 1 as [|n m g g' H _ IH]; constructor; auto. destruct H as (H1 & H2 & H3 & H4 & H5 & H6). auto 10. Qed.
Lemma NodeDegree_inv g i d g' : NodeDegree g i = Ok (d, g') -> same_cache g g'.
Proof.
  unfold NodeDegree. intros H. apply bind_inv in H as (n & E & H). apply get_inv in E. destruct (_ && _).
  - apply bind_inv in H as (g1 & E1 & H). injection H as _ <-. apply set_inv in E1 as [-> _]. eapply F2_upd; eauto; simpl; auto 10.
  - injection H as _ <-. apply sc_refl.
Qed.
Lemma NodeStrength_inv g i s g' : NodeStrength g i = Ok (s, g') -> same_cache g g'.
Proof.
  unfold NodeStrength. intros H. apply bind_inv in H as (n & E & H). apply get_inv in E. destruct (_ && _).
  - apply bind_inv in H as (g1 & E1 & H). injection H as _ <-. apply set_inv in E1 as [-> _]. eapply F2_upd; eauto; simpl; auto 10.
  - injection H as _ <-. apply sc_refl.
Qed.
Lemma F2_nth' {X} (R : X -> X -> Prop) l l' i m : Forall2 R l l' -> nth_error l' i = Some m -> exists n, nth_error l i = Some n /\ R n m.
Proof. intros H. revert i. induction H; intros [|i] E; simpl in *; try discriminate; [injection E as <-; eauto|eauto]. Qed.
Lemma F2_upd2 {X} (R : X -> X -> Prop) l l' k x y : Forall2 R l l' -> R x y -> Forall2 R (upd l k x) (upd l' k y).
Proof. intros H. revert k. induction H as [|a b l l' H1 H2 IH]; intros [|k] Hxy; cbn [upd]; constructor; auto. Qed.

Lemma sim_add st st' k i st1' : alike st st' -> AddNodeToGroup st' k i = Ok st1' ->
  exists st1, AddNodeToGroupFast st k i = Ok st1 /\ alike st1 st1' /\ untouched (snd st) (snd st1).
Proof.
  destruct st as [g P], st' as [g' P']. intros [HG HP] H. cbn [fst snd] in *. unfold AddNodeToGroup in H.
  apply bind_inv in H as (G' & E1 & H). apply get_inv in E1. apply bind_inv in H as (n' & E2 & H). apply get_inv in E2.
  apply bind_inv in H as ([d g1'] & E3 & H). apply NodeDegree_inv in E3. apply bind_inv in H as (c & _ & H).
  apply bind_inv in H as ([s g2'] & E4 & H). apply NodeStrength_inv in E4. apply bind_inv in H as (w & _ & H).
  apply bind_inv in H as (P1' & E5 & H). apply set_inv in E5 as [-> Lk]. apply bind_inv in H as (g3' & E6 & H). injection H as <-.
  unfold upd_node in E6. apply bind_inv in E6 as (n2' & En2 & E6). apply get_inv in En2. apply set_inv in E6 as [-> _].
  destruct (F2_nth' _ _ _ _ _ HP E1) as (G & EG & Q1 & Q2 & Q3). destruct (F2_nth' _ _ _ _ _ HG E2) as (n & En & Hn).
  unfold AddNodeToGroupFast. rewrite (get_ok _ _ _ EG). cbn [bind]. rewrite (get_ok _ _ _ En). cbn [bind]. rewrite set_ok by (eapply nth_lt; eauto). cbn [bind].
  unfold upd_node. rewrite (get_ok _ _ _ En). cbn [bind]. rewrite set_ok by (eapply nth_lt; eauto). cbn [bind]. eexists. split; [reflexivity|]. split; [split; cbn [fst snd]|cbn [snd]].
  - pose proof (sc_trans _ _ _ (sc_trans _ _ _ HG E3) E4) as S2. apply F2_upd2; auto. destruct (F2_nth _ _ _ _ _ S2 En) as (m & Em & Hm). rewrite Em in En2. injection En2 as <-.
    destruct Hm as (M1 & M2 & M3 & M4 & M5 & M6). simpl. rewrite Q1. auto 10.
  - apply F2_upd2; auto. cbn [plabel psize pnodes]. rewrite Q1, Q2, Q3. destruct Hn as (-> & -> & _). auto.
  - eapply untouched_upd; eauto.
Qed.
Lemma sim_remove st st' k i r st1' : alike st st' -> RemoveNodeFromGroup st' k i = Ok (r, st1') ->
  exists st1, RemoveNodeFromGroupFast st k i = Ok (r, st1) /\ alike st1 st1' /\ untouched (snd st) (snd st1).
Proof.
  destruct st as [g P], st' as [g' P']. intros [HG HP] H. cbn [fst snd] in *. unfold RemoveNodeFromGroup in H.
  apply bind_inv in H as (G' & E1 & H). apply get_inv in E1. destruct (F2_nth' _ _ _ _ _ HP E1) as (G & EG & Q1 & Q2 & Q3).
  unfold RemoveNodeFromGroupFast. rewrite (get_ok _ _ _ EG). cbn [bind]. rewrite Q3. destruct (rm_cell i (pnodes G')) as [cells|].
  - apply bind_inv in H as ([d g1'] & E3 & H). apply NodeDegree_inv in E3. apply bind_inv in H as (c & _ & H).
    apply bind_inv in H as ([s g2'] & E4 & H). apply NodeStrength_inv in E4. apply bind_inv in H as (w & _ & H).
    apply bind_inv in H as (P1' & E5 & H). apply set_inv in E5 as [-> Lk]. injection H as <- <-.
    rewrite set_ok by (eapply nth_lt; eauto). cbn [bind]. eexists. split; [reflexivity|]. split; [split; cbn [fst snd]|cbn [snd]].
    + exact (sc_trans _ _ _ (sc_trans _ _ _ HG E3) E4).
    + apply F2_upd2; auto. cbn [plabel psize pnodes]. rewrite Q1, Q2. auto.
    + eapply untouched_upd; eauto.
  - injection H as <- <-. eexists. split; [reflexivity|]. split; [split; auto|apply untouched_refl].
Qed.
Lemma sim_move st st' i a b r st1' : alike st st' -> MoveNode st' i a b = Ok (r, st1') ->
  exists st1, MoveNodeFast st i a b = Ok (r, st1) /\ alike st1 st1' /\ untouched (snd st) (snd st1).
Proof.
  intros HA H. unfold MoveNode in H. apply bind_inv in H as ([r0 st0'] & E1 & H). destruct (sim_remove _ _ _ _ _ _ HA E1) as (st0 & F1 & A0 & T0).
  unfold MoveNodeFast. rewrite F1. cbn [bind]. destruct r0.
  - apply bind_inv in H as (st2' & E2 & H). injection H as <- <-. destruct (sim_add _ _ _ _ _ A0 E2) as (st2 & F2 & A2 & T2). rewrite F2. cbn [bind]. exists st2. splits; auto. eapply untouched_trans; eauto.
  - injection H as <- <-. exists st0. auto.
Qed.
Lemma sim_merge fuel a b : forall st st' st1', alike st st' -> merge_loop fuel st' a b = Ok st1' ->
  exists st1, merge_fast fuel st a b = Ok st1 /\ alike st1 st1' /\ untouched (snd st) (snd st1).
Proof.
  induction fuel as [|fuel IH]; intros st st' st1' HA H; cbn [merge_loop merge_fast] in *; [discriminate|].
  apply bind_inv in H as (G' & E1 & H). apply get_inv in E1. destruct (F2_nth' _ _ _ _ _ (proj2 HA) E1) as (G & EG & Q1 & Q2 & Q3).
  rewrite (get_ok _ _ _ EG). cbn [bind]. rewrite Q3. destruct (pnodes G') as [|c cs].
  - injection H as <-. exists st. splits; auto using untouched_refl.
  - apply bind_inv in H as (i & E2 & H). rewrite E2. cbn [bind]. apply bind_inv in H as ([r st2'] & E3 & H).
    destruct (sim_move _ _ _ _ _ _ _ HA E3) as (st2 & F & A2 & T2). rewrite F. cbn [bind]. destruct (IH _ _ _ A2 H) as (st3 & F3 & A3 & T3). exists st3. splits; auto. eapply untouched_trans; eauto.
Qed.
Lemma sim_step st st' o st1' : alike st st' -> run_grop st' o = Ok st1' -> exists st1, run_fast st o = Ok st1 /\ alike st1 st1' /\ untouched (snd st) (snd st1).
Proof.
  intros HA H. destruct o as [lab|k i|i a b|a b|]; cbn [run_grop run_fast] in *.
  - injection H as <-. eexists. split; [reflexivity|]. destruct HA as [HG HP]. split; [split; auto|]; cbn [CreateGroup fst snd].
    + apply Forall2_app; auto.
    + intros G HG0. apply in_app_or in HG0 as [HG0|[<-|[]]]; [right; eauto|left; reflexivity].
  - eapply sim_add; eauto.
  - apply bind_inv in H as ([r st2'] & E & H). injection H as <-. destruct (sim_move _ _ _ _ _ _ _ HA E) as (st2 & F & A2 & T2). rewrite F. cbn [bind]. eauto.
  - unfold MergeGroups in H. apply bind_inv in H as (G' & E1 & H). apply get_inv in E1. destruct (F2_nth' _ _ _ _ _ (proj2 HA) E1) as (G & EG & Q1 & Q2 & Q3).
    unfold MergeGroupsFast. rewrite (get_ok _ _ _ EG). cbn [bind]. rewrite Q3. eapply sim_merge; eauto.
  - injection H as <-. eexists. split; [reflexivity|]. destruct HA as [HG HP]. split; [split; auto|]; cbn [fst snd].
    + unfold CompressPart. clear HG. induction HP as [|G G' P P' (Q1 & Q2 & Q3) _ IH]; cbn [filter]; [constructor|]. rewrite Q2. destruct (negb _); auto. constructor; auto.
    + intros G HG0. unfold CompressPart in HG0. apply filter_In in HG0 as [HG0 _]. right. eauto.
Qed.
Theorem fast_follows os : forall st st' st1', alike st st' -> foldM run_grop st' os = Ok st1' ->
  exists st1, foldM run_fast st os = Ok st1 /\ alike st1 st1' /\ untouched (snd st) (snd st1).
Proof.
  induction os as [|o os IH]; intros st st' st1' HA H; cbn [foldM] in *; [injection H as <-; exists st; auto using untouched_refl|].
  apply bind_inv in H as (st2' & E & H). destruct (sim_step _ _ _ _ HA E) as (st2 & F & A2 & T2). rewrite F. cbn [bind].
  destruct (IH _ _ _ A2 H) as (st3 & F3 & A3 & T3). exists st3. splits; auto. eapply untouched_trans; eauto.
Qed.
Lemma cells_abs P P' : same_cells P P' -> abs P = abs P'.
Proof. unfold abs. induction 1 as [|G G' P P' (Q1 & Q2 & Q3) _ IH]; auto. cbn [map]. rewrite IH, Q1. unfold members. now rewrite Q3. Qed.
Theorem fast_run g P os : undirected g -> mapped g P -> grops_ok (length g) (abs P) os ->
  exists g' P', foldM run_fast (g, P) os = Ok (g', P') /\ same_but_group g g' /\ abs P' = fold_left grop_do os (abs P) /\
    (forall i n, nth_error g' i = Some n -> ggroup n = home (abs P') i) /\
    (forall G, In G P' -> psize G = Z.of_nat (length (members G))) /\ untouched P P'.
Proof.
  intros U M Hok. destruct (groups_run g P os U M Hok) as (g1 & P1 & E & U1 & M1 & B1 & A1).
  destruct (fast_follows os (g, P) (g, P) (g1, P1) (alike_refl _) E) as ([g' P'] & F & [HG HP] & T). cbn [fst snd] in *. pose proof (cells_abs _ _ HP) as EA.
  exists g', P'. splits; auto.
  - eapply sbg_trans; [exact B1|]. apply sc_sbg, sc_sym, HG.
  - congruence.
  - intros i n En. destruct (F2_nth _ _ _ _ _ HG En) as (m & Em & Hm). rewrite EA, <- (mp_group _ _ M1 i m Em). apply Hm.
  - intros G HGi. apply In_nth_error in HGi as [k Ek]. destruct (F2_nth _ _ _ _ _ HP Ek) as (G' & Ek' & Q1 & Q2 & Q3). rewrite Q2. unfold members. rewrite Q3. apply (mp_counts _ _ M1 G'). eapply nth_error_In; eauto.
Qed.

(** * Mapping without counting *)
Lemma fast_first g P : MapPartToNet (g, P) = do st <- MapPartToNetFast (g, P); let '(g, P) := st in foldM (fun '(g, Q) G => do (g, G) <- count_group g G; Ok (g, Q ++ [G])) (g, []) P.
Proof. unfold MapPartToNet, MapPartToNetFast. destruct (foldM _ _ P) as [[g' P']|]; reflexivity. Qed.
Theorem MapFast g P : undirected g -> nameable g P ->
  exists g' P', MapPartToNetFast (g, P) = Ok (g', P') /\ undirected g' /\ same_but_group g g' /\ names P' = names P /\ cells_right g' P' /\
    (forall i n, nth_error g' i = Some n -> ggroup n = home (abs P') i) /\ (forall G, In G P' -> counters G = no_counts /\ psize G = Z.of_nat (length (members G))).
Proof.
  intros U HN. assert (Fd : found g P).
  { intros G l HG Hl. pose proof (nm_found _ _ HN G l HG Hl) as K. apply in_map_iff in K as (n & En & Kn). apply In_nth_error in Kn as [i Ei]. eauto. }
  destruct (locates_ex g P Fd) as [Is HL].
  destruct (map_pass g P Is (un_wf g U) (nm_nodes _ _ HN) HL (ResetNetGroup g) [] (og_reset g)) as (g1 & E1 & O1 & H1). cbn [app] in E1.
  set (P1 := map (fun '(G, is) => pointed_group G is) (combine P Is)) in *. pose proof (og_undirected g g1 U O1) as U1.
  pose proof (abs_pointed g P Is HL) as EA. fold P1 in EA.
  assert (HP : forall G, In G P1 -> exists G0 is, G = pointed_group G0 is /\ In G0 P /\ aims g (pnodes G0) is).
  { intros G HG. unfold P1 in HG. clear - HG HL. induction HL as [|G0 is P Is Ha HL IH]; [destruct HG|]. cbn [combine map] in HG. destruct HG as [<-|HG].
    - exists G0, is. simpl; auto.
    - destruct (IH HG) as (G1 & is1 & H1 & H2 & H3). exists G1, is1. simpl; auto. }
  exists g1, P1. splits; auto.
  - now apply og_sbg.
  - exact (names_pointed g P Is HL).
  - intros G l HG Hl. destruct (HP G HG) as (G0 & is & -> & _ & Ha). destruct (pointed_cells g _ _ l Ha Hl) as (i & n & Q1 & Q2 & Q3 & Q4).
    destruct (og_nth g g1 i n O1 Q2) as (m & Em & Hm). exists i, m. splits; auto. rewrite Hm. auto.
  - intros i n En. rewrite <- (group_of_at g1 i n En), H1, EA, <- last_home_home by (eapply locates_good; eauto). f_equal. unfold group_of, ResetNetGroup. rewrite nth_error_map. destruct (nth_error g i); reflexivity.
  - intros G HG. destruct (HP G HG) as (G0 & is & -> & H0 & Ha). split; [reflexivity|]. rewrite (members_pointed g G0 is Ha). unfold pointed_group. cbn [psize].
    rewrite (nm_size _ _ HN G0 H0). f_equal. clear - Ha. induction Ha; simpl; auto.
Qed.
End Any.

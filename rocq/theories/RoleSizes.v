(** RoleSizes.v -- statistics of the sizes of the groups; the partition that the groups stored in the nodes define. *)
From Coq Require Import List Arith ZArith Bool QArith Qcanon Lia.
From Verif Require Import Base Num ListLib NatSum QcSum ToolsModel ToolsProof IoModel GraphModel GraphSpec GraphProof GroupModel GroupSpec GroupProof GroupExact ModulesModel ModulesSpec ModulesMod ModulesMap ModulesCopy MissSpec RoleModel RoleProof BlockSpec RoleBlock.
Import ListNotations.
Local Open Scope nat_scope.

Section Sizes.
Variables ex sq : Qc -> Qc.
#[local] Instance opsZ : NumOps Qc := Qc_ops ex sq.
Variables (g : net Qc) (P : gpart Qc).
Hypothesis MP : mapped g P.
Definition sizes : list Qc := map (fun x => q (length (snd x))) (used_groups (abs P)).
Lemma sizes_filled : map (fun G => zA (psize G)) (filter (fun G => 0 <? psize G)%Z P) = sizes.
Proof.
  unfold sizes. rewrite <- (filter_abs g P MP), map_map. apply map_ext_in. intros G HG. apply filter_In in HG as [HG _]. destruct (mp_counts _ _ MP G HG) as (-> & _). reflexivity.
Qed.
Lemma fill_sizes Q : forall (d : list Qc) m, m = length (filter (fun G : grp Qc => 0 <? psize G)%Z Q) ->
  foldM (fun '(sizes, c) G => if (0 <? psize G)%Z then do sizes <- set sizes c (zA (psize G)); Ok (sizes, c + 1) else Ok (sizes, c)) (d ++ repeat n0 m, length d) Q
  = Ok (d ++ map (fun G => zA (psize G)) (filter (fun G => 0 <? psize G)%Z Q), length d + m).
Proof.
  induction Q as [|G Q IH]; intros d m ->; cbn [foldM filter].
  - cbn. now rewrite Nat.add_0_r.
  - destruct (0 <? psize G)%Z; [|cbn [bind]; now apply IH]. cbn [length repeat map]. rewrite set_ok by (rewrite app_length; simpl; lia). cbn [bind].
    replace (upd (d ++ n0 :: repeat n0 (length (filter (fun G0 => (0 <? psize G0)%Z) Q))) (length d) (zA (psize G))) with ((d ++ [zA (psize G)]) ++ repeat n0 (length (filter (fun G0 => (0 <? psize G0)%Z) Q))).
    + pose proof (IH (d ++ [zA (psize G)]) _ eq_refl) as H. rewrite app_length in H. cbn [length] in H. refine (eq_trans H _). rewrite <- app_assoc. cbn [app]. f_equal. f_equal. lia.
    + rewrite <- app_assoc. cbn [app]. clear. induction d as [|x d IH]; [reflexivity|]. simpl. f_equal. exact IH.
Qed.
Theorem GroupSizeStatistics_spec : used_groups (abs P) <> [] -> exists mn mx,
  GroupSizeStatistics P = Ok ((Qsum (fun x => x) sizes / q (length sizes))%Qc, if Qc_eq_dec (variance sizes) 0 then 0%Qc else sq (variance sizes), mn, mx) /\
  In mn sizes /\ (forall x, In x sizes -> (mn <= x)%Qc) /\ In mx sizes /\ (forall x, In x sizes -> (x <= mx)%Qc).
Proof.
  intros NE. unfold GroupSizeStatistics. assert (EN : NNonEmptyGroups P = length sizes) by (unfold NNonEmptyGroups; rewrite <- sizes_filled, map_length; reflexivity).
  assert (LP : 0 < length sizes) by (unfold sizes; rewrite map_length; destruct (used_groups (abs P)); [congruence|simpl; lia]).
  pose proof (fill_sizes P [] (NNonEmptyGroups P) eq_refl) as F. cbn [app length] in F. rewrite sizes_filled in F. refine ((fun H => _) I). rewrite F. cbn [bind]. rewrite EN.
  destruct (min_spec ex sq sizes (length sizes) LP (le_n _)) as (mn & E1 & M1 & M2). destruct (max_spec ex sq sizes (length sizes) LP (le_n _)) as (mx & E2 & X1 & X2).
  pose proof (mean_spec ex sq sizes (length sizes) (le_n _)) as E3. pose proof (stddev_spec ex sq sizes (length sizes) LP (le_n _)) as E4.
  rewrite firstn_all in *. exists mn, mx. splits; auto. 
  refine (eq_trans (f_equal (fun r => bind r _) E3) _). cbn [bind]. refine (eq_trans (f_equal (fun r => bind r _) E4) _). cbn [bind].
  refine (eq_trans (f_equal (fun r => bind r _) E1) _). cbn [bind]. refine (eq_trans (f_equal (fun r => bind r _) E2) _). reflexivity.
Qed.
End Sizes.

(** * CreatePartitionFromInGroup *)
Section InGroup.
Context {A : Type} {ops : NumOps A}.
Implicit Types (g : net A) (P : gpart A) (G : grp A).
Lemma copy_add_at g g0 (Q : gpart A) k H S i : undirected g -> same_cache g g0 -> undirected g0 -> i < length g -> nth_error Q k = Some H -> group_of g i = Some (plabel H) -> copied g S H ->
  exists g1 H1, AddNodeToGroup (g0, Q) k i = Ok (g1, upd Q k H1) /\ same_cache g g1 /\ undirected g1 /\ plabel H1 = plabel H /\ copied g (S ++ [i]) H1.
Proof.
  intros U S0 U0 Li EH Gi (C1 & C2 & C3 & C4 & C5 & C5' & C6). destruct (nth_ex g i Li) as [n En]. destruct (F2_nth _ _ _ _ _ S0 En) as (m & Em & Hm).
  destruct (Add_raw g0 Q k i m H U0 Em EH) as (g1 & tw & g2 & n2 & g' & _ & _ & _ & _ & S2 & U2 & En2 & -> & EQ).
  set (H1 := grown H m i (degree g0 i) (count (in_grp g0 (plabel H)) (nbrs g0 i)) tw (sum_to g0 (gadj m) (plabel H) n0)) in *.
  assert (EG : upd g2 i (set_ggroup (Some (plabel H)) n2) = g2).
  { rewrite <- (upd_same g2 i n2 En2) at 2. f_equal. assert (K : ggroup n2 = Some (plabel H)) by (rewrite <- (group_of_at g2 i n2 En2), (sc_group g0 g2 i S2), (sc_group g g0 i S0); auto).
    destruct n2; simpl in *. now rewrite K. }
  rewrite EG in EQ. exists g2, H1. splits; auto; [eapply sc_trans; eauto|].
  assert (Ed : degree g0 i = degree g i) by (unfold degree; now rewrite (sbg_nbrs g g0 i (sc_sbg _ _ S0))).
  assert (Ec : count (in_grp g0 (plabel H)) (nbrs g0 i) = count (in_grp g (plabel H)) (nbrs g i)).
  { rewrite (sbg_nbrs g g0 i (sc_sbg _ _ S0)). apply count_ext. intros; now apply in_grp_sc. }
  unfold copied, H1. rewrite members_grown. unfold grown. cbn [psize pin ptot pout plabel pnodes]. rewrite Ed, Ec, C1, C2, C4, C3, app_length, !lsum_app. cbn [lsum length].
  splits; auto; try lia.
  - intros K. apply app_eq_nil in K as [_ K]. discriminate.
  - intros l Hl. apply in_app_or in Hl as [Hl|[<-|[]]]; auto. exists i, n. unfold cell_of. simpl. splits; auto.
    + rewrite (wf_num g0 (un_wf g0 U0) i m Em). reflexivity.
    + symmetry. apply Hm.
Qed.

(** The labels seen so far, and where they are. *)
Definition seen_of (l : list nat) : list nat := first_seen [] l.
Lemma first_seen_snoc l x : forall s, first_seen s (l ++ [x]) = first_seen s l ++ (if mem x s || mem x l then [] else [x]).
Proof.
  induction l as [|y l IH]; intros s; cbn [app first_seen].
  - rewrite orb_false_r. destruct (mem x s); reflexivity.
  - destruct (mem y s) eqn:Ey.
    + rewrite IH. f_equal. replace (mem x (y :: l)) with ((x =? y) || mem x l) by reflexivity. destruct (Nat.eqb_spec x y) as [E|]; [rewrite E, Ey; reflexivity|reflexivity].
    + rewrite IH. cbn [app]. f_equal. f_equal. replace (mem x (y :: s)) with ((x =? y) || mem x s) by reflexivity. replace (mem x (y :: l)) with ((x =? y) || mem x l) by reflexivity.
      destruct (x =? y), (mem x s), (mem x l); reflexivity.
Qed.
Lemma first_seen_In l : forall s x, In x (first_seen s l) <-> In x l /\ ~ In x s.
Proof.
  induction l as [|y l IH]; intros s x; cbn [first_seen]; [simpl; tauto|]. destruct (mem y s) eqn:Ey.
  - apply mem_In in Ey. rewrite IH. simpl. split; [tauto|]. intros [[->|H] N]; tauto.
  - assert (N : ~ In y s) by (intros K; apply mem_In in K; congruence). cbn [In]. rewrite IH. simpl. destruct (Nat.eq_dec y x) as [->|D]; tauto.
Qed.
Lemma first_seen_NoDup l : forall s, NoDup (first_seen s l).
Proof. induction l as [|y l IH]; intros s; cbn [first_seen]; [constructor|]. destruct (mem y s); auto. constructor; auto. rewrite first_seen_In. simpl. tauto. Qed.

Section Run.
Variable g : net A.
Hypothesis U : undirected g.
Definition labs (m : nat) : list nat := flat_map (fun i => match group_of g i with Some x => [x] | None => [] end) (seq 0 m).
Definition top : nat := fold_left (fun m n => match ggroup n with Some x => if m <? x then x else m | None => m end) g 0.
Lemma top_ge i x : group_of g i = Some x -> x <= top.
Proof.
  unfold group_of. destruct (nth_error g i) as [n|] eqn:E; [|discriminate]. intros Ex. apply nth_error_In in E. unfold top.
  assert (H : forall (l : net A) m, m <= fold_left (fun m n => match ggroup n with Some x => if m <? x then x else m | None => m end) l m /\
    (In n l -> x <= fold_left (fun m n => match ggroup n with Some x => if m <? x then x else m | None => m end) l m)).
  { induction l as [|k l IH]; intros m; cbn [fold_left]; [simpl; split; [lia|tauto]|]. destruct (IH (match ggroup k with Some x => if m <? x then x else m | None => m end)) as [H1 H2]. split.
    - destruct (ggroup k) as [y|]; auto. destruct (Nat.ltb_spec m y); lia.
    - intros [->|Hn]; auto. rewrite Ex in *. destruct (Nat.ltb_spec m x); lia. }
  now apply H.
Qed.
Definition in_step : (net A * gpart A) * list (option nat) -> nat -> res ((net A * gpart A) * list (option nat)) := fun '(st, glist) i =>
    do n <- get (fst st) i;
    match ggroup n with
    | None => Err UB_oob
    | Some x =>
        do o <- get glist x;
        match o with
        | Some k => do st <- AddNodeToGroup st k i; Ok (st, glist)
        | None =>
            let '(k, Q) := CreateGroup (snd st) x in
            do glist <- set glist x (Some k);
            do st <- AddNodeToGroup (fst st, Q) k i; Ok (st, glist)
        end
    end.
Definition made (m : nat) (Q : gpart A) : Prop := map plabel Q = first_seen [] (labs m) /\ forall H, In H Q -> copied g (filter (in_grp g (plabel H)) (seq 0 m)) H.
Definition lists (m : nat) (glist : list (option nat)) : Prop := length glist = top + 1 /\
  (forall x k, nth_error glist x = Some (Some k) -> nth_error (first_seen [] (labs m)) k = Some x) /\ (forall x, nth_error glist x = Some None -> ~ In x (first_seen [] (labs m))).
Lemma labs_S m x : group_of g m = Some x -> labs (m + 1) = labs m ++ [x].
Proof. intros E. unfold labs. rewrite Nat.add_1_r, seq_S, flat_map_app. cbn [flat_map Nat.add]. now rewrite E. Qed.
Lemma filter_S lab m : filter (in_grp g lab) (seq 0 (m + 1)) = filter (in_grp g lab) (seq 0 m) ++ (if in_grp g lab m then [m] else []).
Proof. rewrite Nat.add_1_r, seq_S, filter_app. reflexivity. Qed.
Lemma filter_nil {B} (c : B -> bool) l : (forall x, In x l -> c x = false) -> filter c l = [].
Proof. induction l as [|x l IH]; intros H; [reflexivity|]. cbn [filter]. rewrite (H x (or_introl eq_refl)). apply IH. intros; apply H; simpl; auto. Qed.
Lemma none_yet lab m : ~ In lab (labs m) -> filter (in_grp g lab) (seq 0 m) = [].
Proof.
  intros N. apply filter_nil. intros i Hi. unfold in_grp. destruct (group_of g i) as [x|] eqn:E; auto. apply Nat.eqb_neq. intros ->. apply N. unfold labs. apply in_flat_map. exists i. rewrite E. simpl; auto.
Qed.
Lemma in_upd {B} (l : list B) k x y : In y (upd l k x) -> exists j, (j = k /\ y = x) \/ (j <> k /\ nth_error l j = Some y).
Proof.
  intros H. apply In_nth_error in H as [j E]. rewrite nth_upd in E. destruct (Nat.eqb_spec j k) as [Ek|Nk]; cbn [andb] in E; [|exists j; auto]. exists k. left. split; auto. destruct (k <? length l) eqn:L; [congruence|]. apply Nat.ltb_ge in L. apply nth_error_None in L. congruence.
Qed.
Lemma in_run m : m <= length g -> (forall i, i < m -> group_of g i <> None) -> exists g1 Q glist,
  foldM in_step ((g, []), repeat None (top + 1)) (seq 0 m) = Ok ((g1, Q), glist) /\ same_cache g g1 /\ undirected g1 /\ made m Q /\ lists m glist.
Proof.
  intros Lm HG.
  destruct (foldM_seq (fun m '((g1, Q), glist) => same_cache g g1 /\ undirected g1 /\ made m Q /\ lists m glist) in_step m ((g, []), repeat None (top + 1))) as (st & E & H).
  - splits; auto; [apply sc_refl|split; [reflexivity|intros H []]|]. split; [apply repeat_length|]. split; [|simpl; auto]. intros x k E. apply nth_error_In, repeat_spec in E. discriminate.
  - intros i [[g1 Q] gl] Li (S1 & U1 & [M1 M2] & L1 & L2 & L3). destruct (nth_ex g i) as [n En]; [lia|]. destruct (F2_nth _ _ _ _ _ S1 En) as (n1' & En1 & _).
    destruct (group_of g i) as [x|] eqn:Gi; [|now apply HG in Gi]. unfold in_step. cbn [fst snd]. rewrite (get_ok _ _ _ En1). cbn [bind].
    assert (EG : ggroup n1' = Some x) by (rewrite <- (group_of_at g1 i n1' En1), (sc_group g g1 i S1); exact Gi). rewrite EG.
    destruct (nth_ex gl x) as [o Eo]; [rewrite L1; pose proof (top_ge i x Gi); lia|]. rewrite (get_ok _ _ _ Eo). cbn [bind].
    assert (IX : in_grp g x i = true) by (unfold in_grp; rewrite Gi; apply Nat.eqb_refl).
    assert (IY : forall y, y <> x -> in_grp g y i = false) by (intros y D; unfold in_grp; rewrite Gi; apply Nat.eqb_neq; auto).
    pose proof (first_seen_NoDup (labs i) []) as ND. destruct o as [k|].
    + pose proof (L2 x k Eo) as Ek. assert (Lk : k < length Q) by (rewrite <- (map_length plabel), M1; eapply nth_lt; eauto). destruct (nth_ex Q k Lk) as [H EH].
      assert (PH : plabel H = x). { assert (K : nth_error (map plabel Q) k = Some (plabel H)) by (now rewrite nth_error_map, EH). rewrite M1 in K. congruence. }
      destruct (copy_add_at g g1 Q k H (filter (in_grp g (plabel H)) (seq 0 i)) i U S1 U1) as (g2 & H1 & E & S2 & U2 & P2 & C2); auto; [lia|congruence|apply M2; eapply nth_error_In; eauto|].
      rewrite E. cbn [bind]. eexists. split; [reflexivity|].
      assert (ES : first_seen [] (labs (i + 1)) = first_seen [] (labs i)).
      { rewrite (labs_S i x Gi), first_seen_snoc. replace (mem x (labs i)) with true; [apply app_nil_r|]. symmetry. apply mem_In. apply nth_error_In in Ek. now apply first_seen_In in Ek. }
      split; [exact S2|split; [exact U2|split; [|unfold lists; rewrite ES; auto]]]. split.
      * rewrite ES, <- M1. apply nth_ext. intros j. rewrite !nth_error_map, nth_upd. destruct (Nat.eqb_spec j k) as [->|]; cbn [andb]; auto. rewrite (proj2 (Nat.ltb_lt _ _) Lk), EH. cbn. now rewrite P2.
      * intros K HK. rewrite filter_S. apply in_upd in HK as (j & [[-> ->]|[D Ej]]).
        -- rewrite P2, PH, IX. rewrite PH in C2. exact C2.
        -- rewrite IY, app_nil_r; [apply M2; eapply nth_error_In; eauto|]. intros F. apply D. apply (proj1 (NoDup_nth_error (map plabel Q))); [now rewrite M1|rewrite map_length; eapply nth_lt; eauto|]. rewrite !nth_error_map, Ej, EH. cbn. congruence.
    + pose proof (L3 x Eo) as Nx. assert (NL : ~ In x (labs i)) by (intros K; apply Nx, first_seen_In; auto). unfold CreateGroup. rewrite set_ok by (eapply nth_lt; eauto). cbn [bind].
      set (H0 := mkGroup x 0 0 0 0 n0 n0 n0 []). assert (EH : nth_error (Q ++ [H0]) (length Q) = Some H0) by (rewrite nth_error_app2, Nat.sub_diag by lia; reflexivity).
      destruct (copy_add_at g g1 (Q ++ [H0]) (length Q) H0 [] i U S1 U1) as (g2 & H1 & E & S2 & U2 & P2 & C2); auto; [lia|unfold copied, H0; cbn; splits; auto; intros l []|].
      rewrite E. cbn [bind]. eexists. split; [reflexivity|]. assert (EU : upd (Q ++ [H0]) (length Q) H1 = Q ++ [H1]) by (clear; induction Q as [|y Q IH]; [reflexivity|simpl; f_equal; exact IH]). rewrite EU.
      assert (ES : first_seen [] (labs (i + 1)) = first_seen [] (labs i) ++ [x]).
      { rewrite (labs_S i x Gi), first_seen_snoc. replace (mem x (labs i)) with false; [reflexivity|]. symmetry. destruct (mem x (labs i)) eqn:F; auto. apply mem_In in F. contradiction. }
      assert (LQ : length (first_seen [] (labs i)) = length Q) by now rewrite <- M1, map_length.
      split; [exact S2|split; [exact U2|split; [split|unfold lists; rewrite ES; splits]]].
      * rewrite ES, <- M1, map_app. cbn [map]. now rewrite P2.
      * intros K HK. rewrite filter_S. apply in_app_or in HK as [HK|[<-|[]]].
        -- rewrite IY, app_nil_r; auto. intros F. apply Nx. rewrite <- M1, <- F. now apply in_map.
        -- rewrite P2. cbn [plabel H0]. rewrite IX, (none_yet x i NL). exact C2.
      * rewrite length_upd. exact L1.
      * intros y k. rewrite nth_upd. destruct (Nat.eqb_spec y x) as [->|D]; cbn [andb].
        -- rewrite (proj2 (Nat.ltb_lt _ _)) by (eapply nth_lt; eauto). intros [= <-]. rewrite <- LQ, nth_error_app2, Nat.sub_diag by lia. reflexivity.
        -- intros F. apply L2 in F. rewrite nth_error_app1; auto. eapply nth_lt; eauto.
      * intros y. rewrite nth_upd. destruct (Nat.eqb_spec y x) as [->|D]; cbn [andb].
        -- rewrite (proj2 (Nat.ltb_lt _ _)) by (eapply nth_lt; eauto). discriminate.
        -- intros F K. apply in_app_or in K as [K|[K|[]]]; [now apply (L3 y F)|congruence].
  - destruct st as [[g1 Q] gl]. exists g1, Q, gl. auto.
Qed.
Lemma in_is : CreatePartitionFromInGroup g = do (st, _) <- foldM in_step ((g, []), repeat None (top + 1)) (seq 0 (length g)); Ok st.
Proof. reflexivity. Qed.
(** Every node with a group: the groups in the order in which they appear, each with its nodes in order. *)
Theorem InGroup_spec : (forall i, i < length g -> group_of g i <> None) -> exists g' Q, CreatePartitionFromInGroup g = Ok (g', Q) /\ same_cache g g' /\ undirected g' /\
  map plabel Q = first_seen [] (labs (length g)) /\ forall H, In H Q -> copied g (filter (in_grp g (plabel H)) (seq 0 (length g))) H.
Proof.
  intros HG. destruct (in_run (length g) (le_n _) HG) as (g1 & Q & gl & E & S1 & U1 & [M1 M2] & _). exists g1, Q. rewrite in_is, E. splits; auto.
Qed.
(** A node without a group: the list of the groups is read at -1. *)
Theorem InGroup_missing i : i < length g -> group_of g i = None -> CreatePartitionFromInGroup g = Err UB_oob.
Proof.
  intros Li Gi. rewrite in_is. assert (L : exists m, m <= i /\ group_of g m = None /\ forall j, j < m -> group_of g j <> None).
  { clear Li. induction i as [i IH] using (well_founded_induction lt_wf). destruct (existsb (fun j => match group_of g j with None => true | _ => false end) (seq 0 i)) eqn:E.
    - apply existsb_exists in E as (j & Hj & E). apply in_seq in Hj. destruct (group_of g j) eqn:F; [discriminate|]. destruct (IH j) as (m & H1 & H2); auto; [lia|]. exists m. split; [lia|auto].
    - exists i. splits; auto. intros j Hj F. assert (K : existsb (fun j => match group_of g j with None => true | _ => false end) (seq 0 i) = true); [|congruence]. apply existsb_exists. exists j. split; [apply in_seq; lia|now rewrite F]. }
  destruct L as (m & Lm & Gm & HG). destruct (in_run m) as (g1 & Q & gl & E & S1 & _); auto; [lia|]. replace (length g) with (m + S (length g - S m)) by lia. rewrite seq_app, foldM_app, E. cbn [bind seq foldM Nat.add].
  destruct (nth_ex g m) as [n En]; [lia|]. destruct (F2_nth _ _ _ _ _ S1 En) as (n1' & En1 & _). unfold in_step at 1. cbn [fst]. rewrite (get_ok _ _ _ En1). cbn [bind].
  replace (ggroup n1') with (@None nat); [reflexivity|]. rewrite <- (group_of_at g1 m n1' En1), (sc_group g g1 m S1). auto.
Qed.
End Run.
End InGroup.

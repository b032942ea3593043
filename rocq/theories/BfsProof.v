(** BfsProof.v -- breadth-first lists hold the reachable nodes in order of distance, with all their predecessors (C28). *)
From Coq Require Import List Arith Lia Bool Permutation.
From Verif Require Import Base ListLib NatSum IoModel GraphModel GraphSpec GraphProof GraphSim BfsModel.
Import ListNotations.
Local Open Scope nat_scope.

Section Bfs.
Context {A : Type} {ops : NumOps A}.
Implicit Types g : net A.

(** ** Marks do not change links *)
Lemma reset_nth g i : nth_error (ResetNodesState g) i = option_map (set_gstate 0) (nth_error g i).
Proof. apply nth_error_map. Qed.
Lemma reset_nbrs g i : nbrs (ResetNodesState g) i = nbrs g i.
Proof. unfold nbrs. rewrite reset_nth. destruct (nth_error g i); reflexivity. Qed.
Lemma reset_length g : length (ResetNodesState g) = length g.
Proof. apply map_length. Qed.
Definition same_but_state g g' : Prop := ResetNodesState g = ResetNodesState g'.
Lemma sbs_nbrs g g' i : same_but_state g g' -> nbrs g' i = nbrs g i.
Proof. intros H. rewrite <- (reset_nbrs g'), <- H. apply reset_nbrs. Qed.
Lemma sbs_length g g' : same_but_state g g' -> length g' = length g.
Proof. intros H. rewrite <- (reset_length g'), <- H. apply reset_length. Qed.
Lemma sbs_nth g g' i n : same_but_state g g' -> nth_error g' i = Some n -> exists m, nth_error g i = Some m /\ set_gstate 0 n = set_gstate 0 m.
Proof.
  intros H E. pose proof (reset_nth g' i) as R. rewrite <- H, reset_nth, E in R. destruct (nth_error g i) as [m|]; [|discriminate].
  injection R as R. exists m. split; auto. unfold set_gstate. congruence.
Qed.
Lemma sbs_reset g : same_but_state g (ResetNodesState g).
Proof. unfold same_but_state, ResetNodesState. rewrite map_map. apply map_ext. reflexivity. Qed.
Lemma sbs_upd g v n k : nth_error g v = Some n -> same_but_state g (upd g v (set_gstate k n)).
Proof.
  intros E. apply nth_ext. intros i. rewrite !reset_nth, nth_upd. destruct (Nat.eqb_spec i v) as [->|]; simpl; auto.
  rewrite (proj2 (Nat.ltb_lt _ _) (nth_lt _ _ _ E)), E. reflexivity.
Qed.
Lemma sbs_trans g1 g2 g3 : same_but_state g1 g2 -> same_but_state g2 g3 -> same_but_state g1 g3.
Proof. unfold same_but_state. congruence. Qed.
Lemma sbs_adj g g' i n m : same_but_state g g' -> nth_error g' i = Some n -> nth_error g i = Some m -> gadj n = gadj m.
Proof. intros H E E'. destruct (sbs_nth g g' i n H E) as (m' & E1 & E2). rewrite E' in E1. injection E1 as <-. unfold set_gstate in E2. congruence. Qed.
Lemma sbs_wf g g' : same_but_state g g' -> wf_net g -> wf_net g'.
Proof.
  intros H W. split.
  - intros i n E. destruct (sbs_nth g g' i n H E) as (m & E1 & E2). rewrite <- (wf_num g W i m E1). unfold set_gstate in E2. congruence.
  - intros i n l E Hl. destruct (sbs_nth g g' i n H E) as (m & E1 & E2). assert (Ea : gadj n = gadj m) by (unfold set_gstate in E2; congruence).
    rewrite Ea in Hl. destruct (wf_link g W i m l E1 Hl) as (j & k & K1 & K2 & K3 & K4). destruct (nth_ex g' j) as [k' Ek'].
    { rewrite (sbs_length g g' H). eapply nth_lt; eauto. }
    exists j, k'. splits; auto. destruct (sbs_nth g g' j k' H Ek') as (k2 & E3 & E4). rewrite K2 in E3. injection E3 as <-. unfold set_gstate in E4. congruence.
  - intros i. rewrite (sbs_nbrs g g' i H). apply (wf_nodup g W).
  - intros i n E. destruct (sbs_nth g g' i n H E) as (m & E1 & E2). pose proof (wf_deg g W i m E1) as D. unfold set_gstate in E2.
    assert (gadj n = gadj m) as -> by congruence. assert (gdeg n = gdeg m) as -> by congruence. auto.
Qed.

Definition marked g (r : list nat) : Prop := forall v n, nth_error g v = Some n -> gstate n = if mem v r then 1 else 0.
Lemma marked_reset g : marked (ResetNodesState g) [].
Proof. intros v n. rewrite reset_nth. destruct (nth_error g v); simpl; [|discriminate]. intros [= <-]. reflexivity. Qed.

(** ** Searching the list *)
Definition refs (l : list bent) : list nat := map bref l.
Lemma GetBFS_Some v : forall l pos x, GetBFS v pos l = Some x -> exists y e, x = pos + y /\ nth_error l y = Some e /\ bref e = v.
Proof.
  induction l as [|e l IH]; simpl; intros pos x; [discriminate|]. destruct (Nat.eqb_spec (bref e) v) as [E|E].
  - intros [= <-]. exists 0, e. splits; auto.
  - intros H. destruct (IH _ _ H) as (y & e' & -> & H1 & H2). exists (S y), e'. splits; auto. lia.
Qed.
Lemma GetBFS_None v : forall l pos, GetBFS v pos l = None -> ~ In v (refs l).
Proof.
  induction l as [|e l IH]; simpl; intros pos; [auto|]. destruct (Nat.eqb_spec (bref e) v) as [E|E]; [discriminate|].
  intros H [|H']; [contradiction|]. eapply IH; eauto.
Qed.
Lemma nth_skipn {X} (l : list X) a y : nth_error (skipn a l) y = nth_error l (a + y).
Proof. revert l; induction a as [|a IH]; intros [|x l]; simpl; auto. now destruct y. Qed.
Lemma refs_nodup_inj l x y e e' : NoDup (refs l) -> nth_error l x = Some e -> nth_error l y = Some e' -> bref e = bref e' -> x = y.
Proof.
  intros ND E E' H. apply (proj1 (NoDup_nth_error _) ND).
  - unfold refs. rewrite map_length. eapply nth_lt; eauto.
  - unfold refs. rewrite !nth_error_map, E, E'. simpl. congruence.
Qed.

(** ** One layer *)
Section Layer.
Variables (g : net A) (W : wf_net g).
Variables (old : list bent) (k d : nat).
Hypothesis Hold : forall e, In e old -> bd e <= d.

Definition links_from (v p : nat) : bool := match nth_error old p with Some e => mem v (nbrs g (bref e)) | None => false end.

Record RI (j : nat) (dn : list nat) (g' : net A) (q : bfs) (new : list bent) : Prop := {
  ri_sbs : same_but_state g g';
  ri_q : bq q = old ++ new;
  ri_size : bsize q = length (bq q);
  ri_nodup : NoDup (refs (bq q));
  ri_mark : marked g' (refs (bq q));
  ri_lt : forall v, In v (refs (bq q)) -> v < length g;
  ri_new : forall e, In e new -> bd e = d + 1 /\
    bpred e = map Some (filter (links_from (bref e)) (seq k (j - k))) ++ (if mem (bref e) dn then [Some j] else []);
  ri_set : forall w, In w (refs new) <-> ~ In w (refs old) /\ ((exists p, k <= p < j /\ links_from w p = true) \/ In w dn) }.

Lemma Enqueue_step j dn g' q new w : RI j dn g' q new -> j < length old -> w < length g -> ~ In w dn ->
  exists g'' q' new', Enqueue (g', q) w (Some j) (d + 1) = Ok (g'', q') /\ RI j (dn ++ [w]) g'' q' new'.
Proof.
  intros [R1 R2 R3 R4 R5 R5' R6 R7] Hj Hw Hdn. unfold Enqueue. destruct (nth_ex g' w) as [n En]; [rewrite (sbs_length g g' R1); auto|].
  rewrite (get_ok _ _ _ En). cbn [bind]. pose proof (R5 w n En) as Hst.
  assert (Hfilt : ~ In w (refs (bq q)) -> filter (links_from w) (seq k (j - k)) = []).
  { intros Hn. destruct (filter (links_from w) (seq k (j - k))) as [|p l] eqn:Ef; auto. exfalso.
    assert (Hp : In p (filter (links_from w) (seq k (j - k)))) by (rewrite Ef; simpl; auto). apply filter_In in Hp as [Hp1 Hp2]. apply in_seq in Hp1.
    apply Hn. rewrite R2. unfold refs. rewrite map_app. apply in_app_iff. destruct (in_dec Nat.eq_dec w (refs old)) as [|Ho]; [left; auto|right].
    apply R7. split; auto. left. exists p. split; auto. lia. }
  destruct (mem_spec w (refs (bq q))) as [Hin|Hin]; rewrite Hst; cbn [Nat.eqb].
  - (* already there *)
    assert (Hno : In w (refs old) -> RI j (dn ++ [w]) g' q new).
    { intros Ho. split; auto.
      - intros e He. destruct (R6 e He) as [H1 H2]. split; auto. rewrite H2, mem_app. cbn [mem existsb]. rewrite orb_false_r.
        destruct (Nat.eqb_spec (bref e) w) as [Ew|]; [|now rewrite orb_false_r].
        exfalso. apply (in_map bref) in He. change (In (bref e) (refs new)) in He. apply R7 in He as [He _]. rewrite Ew in He. auto.
      - intros x. rewrite R7, in_app_iff. simpl. split; [tauto|]. intros (H1 & [H2|[H2|[<-|[]]]]); tauto. }
    destruct (GetBFS w j (skipn j (bq q))) as [x|] eqn:Ex.
    + apply GetBFS_Some in Ex as (y & e & -> & Ee & Er). rewrite nth_skipn in Ee. rewrite (get_ok _ _ _ Ee). cbn [bind].
      destruct (Nat.lt_ge_cases (j + y) (length old)) as [Hx|Hx].
      * assert (Ho : In e old). { rewrite R2, nth_error_app1 in Ee by auto. eapply nth_error_In; eauto. }
        pose proof (Hold e Ho) as Hd. rewrite (proj2 (Nat.eqb_neq _ _)) by lia. exists g', q, new. split; auto. apply Hno. rewrite <- Er. now apply in_map.
      * assert (En' : nth_error new (j + y - length old) = Some e). { rewrite R2, nth_error_app2 in Ee by auto. auto. }
        assert (Hn : In e new) by (eapply nth_error_In; eauto). destruct (R6 e Hn) as [D1 D2]. rewrite D1, Nat.eqb_refl.
        unfold AddPredecessor. rewrite (get_ok _ _ _ Ee). cbn [bind]. rewrite set_ok by (eapply nth_lt; eauto). cbn [bind].
        set (e' := mkB (bd e) (bref e) (bpred e ++ [Some j])). remember (j + y - length old) as y' eqn:Ey'.
        assert (Eq : upd (bq q) (j + y) e' = old ++ upd new y' e').
        { rewrite R2. apply nth_ext. intros i. rewrite nth_upd, app_length. destruct (Nat.eqb_spec i (j + y)) as [->|Hi]; simpl.
          - pose proof (nth_lt _ _ _ En') as Hy. rewrite (proj2 (Nat.ltb_lt _ _)) by lia.
            rewrite nth_error_app2 by auto. rewrite <- Ey'. now rewrite nth_upd_eq.
          - destruct (Nat.lt_ge_cases i (length old)); [rewrite !nth_error_app1 by auto; auto|]. rewrite !nth_error_app2 by auto. rewrite nth_upd_neq; auto. lia. }
        assert (Erefs : refs (upd (bq q) (j + y) e') = refs (bq q)).
        { unfold refs. apply nth_ext. intros i. rewrite !nth_error_map, nth_upd. destruct (Nat.eqb_spec i (j + y)) as [->|]; simpl; auto.
          rewrite (proj2 (Nat.ltb_lt _ _) (nth_lt _ _ _ Ee)), Ee. reflexivity. }
        assert (Enew : refs (upd new y' e') = refs new).
        { unfold refs. apply nth_ext. intros i. rewrite !nth_error_map, nth_upd. destruct (Nat.eqb_spec i y') as [->|]; simpl; auto.
          rewrite (proj2 (Nat.ltb_lt _ _) (nth_lt _ _ _ En')), En'. reflexivity. }
        exists g', (mkQ (upd (bq q) (j + y) e') (bsize q)), (upd new y' e'). split; auto. split; cbn [bq bsize]; auto.
        -- now rewrite length_upd.
        -- now rewrite Erefs.
        -- now rewrite Erefs.
        -- now rewrite Erefs.
        -- intros f Hf. apply In_nth_error in Hf as [i Hi]. rewrite nth_upd in Hi. destruct (Nat.eqb_spec i y') as [Hiy|Hi']; cbn [andb] in Hi; [rewrite Hiy in Hi|].
           ++ rewrite (proj2 (Nat.ltb_lt _ _) (nth_lt _ _ _ En')) in Hi. injection Hi as <-. cbn [bd bref bpred e']. split; auto. rewrite D2, mem_app. cbn [mem existsb].
              rewrite Er. rewrite Nat.eqb_refl, !orb_true_r. destruct (mem_spec w dn); [contradiction|]. now rewrite app_nil_r.
           ++ assert (Hf : In f new) by (eapply nth_error_In; eauto). destruct (R6 f Hf) as [F1 F2]. split; auto. rewrite F2, mem_app. cbn [mem existsb]. rewrite orb_false_r.
              destruct (Nat.eqb_spec (bref f) w) as [Ew|]; [|now rewrite orb_false_r]. exfalso. apply Hi'.
              assert (length old + i = j + y). { apply (refs_nodup_inj (bq q) _ _ f e); auto; [|congruence]. rewrite R2, nth_error_app2 by lia. now rewrite Nat.add_comm, Nat.add_sub. }
              lia.
        -- intros x. rewrite Enew, R7, in_app_iff. simpl. split; [tauto|]. intros (H1 & [H2|[H2|[<-|[]]]]); auto.
           split; auto. apply R7. rewrite <- Er. apply (in_map bref) in Hn. exact Hn.
    + apply GetBFS_None in Ex. exists g', q, new. split; auto. apply Hno. rewrite R2 in Hin. unfold refs in Hin. rewrite map_app in Hin. apply in_app_iff in Hin as [|Hin]; auto.
      exfalso. apply Ex. rewrite R2. rewrite skipn_app. unfold refs. rewrite map_app. apply in_app_iff. right.
      replace (j - length old) with 0 by lia. auto.
  - (* new node *)
    rewrite set_ok by (rewrite (sbs_length g g' R1); auto). cbn [bind].
    assert (Ho : ~ In w (refs old)). { intros H. apply Hin. rewrite R2. unfold refs. rewrite map_app. apply in_app_iff. auto. }
    assert (Hnew : ~ In w (refs new)). { intros H. apply Hin. rewrite R2. unfold refs. rewrite map_app. apply in_app_iff. auto. }
    exists (upd g' w (set_gstate 1 n)), (mkQ (bq q ++ [mkB (d + 1) w [Some j]]) (bsize q + 1)), (new ++ [mkB (d + 1) w [Some j]]). split; auto.
    assert (Er : refs (bq q ++ [mkB (d + 1) w [Some j]]) = refs (bq q) ++ [w]) by (unfold refs; now rewrite map_app).
    split; cbn [bq bsize]; auto.
    + eapply sbs_trans; eauto. now apply sbs_upd.
    + now rewrite R2, app_assoc.
    + rewrite app_length. simpl. lia.
    + rewrite Er. apply NoDup_app_iff. splits; auto; [constructor; auto; constructor|]. intros x Hx [<-|[]]. auto.
    + intros v m. rewrite nth_upd, Er, mem_app. cbn [mem existsb]. rewrite orb_false_r. destruct (Nat.eqb_spec v w) as [->|]; simpl.
      * rewrite (proj2 (Nat.ltb_lt _ _)) by (rewrite (sbs_length g g' R1); auto). intros [= <-]. now rewrite orb_true_r.
      * rewrite orb_false_r. apply R5.
    + intros v. rewrite Er, in_app_iff. intros [Hv|[<-|[]]]; auto.
    + intros e He. apply in_app_iff in He as [He|[<-|[]]].
      * destruct (R6 e He) as [H1 H2]. split; auto. rewrite H2, mem_app. cbn [mem existsb]. rewrite orb_false_r.
        destruct (Nat.eqb_spec (bref e) w) as [Ew|]; [|now rewrite orb_false_r]. exfalso. apply Hnew. rewrite <- Ew. now apply (in_map bref).
      * cbn [bd bref bpred]. split; auto. rewrite Hfilt by auto. rewrite mem_app. cbn [mem existsb]. rewrite Nat.eqb_refl, !orb_true_r. reflexivity.
    + intros x. unfold refs at 1. rewrite map_app, in_app_iff. fold (refs new). rewrite R7, in_app_iff. simpl. split.
      * intros [H|[<-|[]]]; [tauto|]. auto.
      * intros (H1 & [H2|[H2|[<-|[]]]]); auto.
Qed.

Lemma RI_next j g' q new e : RI j (nbrs g (bref e)) g' q new -> nth_error old j = Some e -> k <= j -> RI (j + 1) [] g' q new.
Proof.
  intros [R1 R2 R3 R4 R5 R5' R6 R7] Ej Hk. assert (El : forall v, links_from v j = mem v (nbrs g (bref e))) by (intros v; unfold links_from; now rewrite Ej).
  split; auto.
  - intros f Hf. destruct (R6 f Hf) as [H1 H2]. split; auto. rewrite H2. replace (j + 1 - k) with (j - k + 1) by lia. rewrite seq_app, filter_app, map_app. simpl.
    replace (k + (j - k)) with j by lia. rewrite El, app_nil_r. now destruct (mem (bref f) (nbrs g (bref e))).
  - intros w. rewrite R7. simpl. split.
    + intros (H1 & [(p & Hp & H2)|H2]); split; auto; left; [exists p; split; auto; lia|]. exists j. split; [lia|]. rewrite El. now apply mem_In.
    + intros (H1 & [(p & Hp & H2)|[]]); split; auto. destruct (Nat.eq_dec p j) as [->|]; [right; apply mem_In; now rewrite <- El|]. left. exists p. split; auto. lia.
Qed.

Lemma EnqueueAdjaList_step j g' q new e : RI j [] g' q new -> nth_error old j = Some e -> k <= j -> bref e < length g ->
  exists g'' q' new', EnqueueAdjaList (g', q) j (d + 1) = Ok (g'', q') /\ RI (j + 1) [] g'' q' new'.
Proof.
  intros R Ej Hk Hlt. unfold EnqueueAdjaList. assert (Hj : j < length old) by (eapply nth_lt; eauto).
  rewrite (get_ok (bq q) j e). 2:{ rewrite (ri_q _ _ _ _ _ R), nth_error_app1; auto. } cbn [bind].
  destruct (nth_ex g' (bref e)) as [n En]. { rewrite (sbs_length g g' (ri_sbs _ _ _ _ _ R)). auto. } rewrite (get_ok _ _ _ En). cbn [bind].
  pose proof (ri_sbs _ _ _ _ _ R) as Sb. pose proof (sbs_wf g g' Sb W) as W'.
  rewrite (fold_links g' (bref e) n _ (fun st w => Enqueue st w (Some j) (d + 1)) W' En).
  - rewrite (sbs_nbrs g g' _ Sb).
    destruct (foldM_inv (fun dn '(g'', q') => exists new', RI j dn g'' q' new') (fun st w => Enqueue st w (Some j) (d + 1)) (nbrs g (bref e)) (g', q)) as ([g'' q'] & E & new' & R').
    + eauto.
    + intros dn w rest [g1 q1] El (new1 & R1). pose proof (wf_nodup g W (bref e)) as ND. rewrite El in ND. apply NoDup_app_iff in ND as (_ & ND2 & ND3).
      destruct (Enqueue_step j dn g1 q1 new1 w R1 Hj) as (g2 & q2 & new2 & E2 & R2).
      * apply (nbrs_lt g (bref e) w W). rewrite El. apply in_app_iff. simpl. auto.
      * intros Hw. apply (ND3 w Hw). simpl. auto.
      * exists (g2, q2). eauto.
    + exists g'', q', new'. split; auto. eapply RI_next; eauto.
  - intros s l x _ E1 _ _. rewrite E1. reflexivity.
Qed.

Lemma RenewQueue_layer : (forall p e, nth_error old p = Some e -> k <= p -> bd e = d) -> (forall e, In e old -> bref e < length g) ->
  forall fuel j g' q new, RI j [] g' q new -> k <= j <= length old -> length old - j < fuel ->
  exists g'' q' new', RenewQueue fuel (g', q) j d = Ok ((g'', q'), length old) /\ RI (length old) [] g'' q' new'.
Proof.
  intros Hd Hlt. induction fuel as [|f IH]; intros j g' q new R Hj Hf; [lia|]. cbn [RenewQueue snd].
  rewrite (ri_q _ _ _ _ _ R). destruct (Nat.eq_dec j (length old)) as [->|Hne].
  - destruct (nth_error (old ++ new) (length old)) as [e|] eqn:Ee; [|eauto 10]. rewrite nth_error_app2 in Ee by auto.
    apply nth_error_In in Ee. destruct (ri_new _ _ _ _ _ R e Ee) as [D _]. rewrite (proj2 (Nat.eqb_neq _ _)) by lia. eauto 10.
  - destruct (nth_ex old j) as [e Ee]; [lia|]. rewrite nth_error_app1 by lia. rewrite Ee. rewrite (Hd j e Ee) by lia. rewrite Nat.eqb_refl.
    destruct (EnqueueAdjaList_step j g' q new e R Ee) as (g1 & q1 & new1 & -> & R1); [lia|eapply Hlt, nth_error_In; eauto|]. cbn [bind].
    apply (IH (j + 1) g1 q1 new1); auto; lia.
Qed.
End Layer.

(** ** All layers *)
Section All.
Variables (g : net A) (W : wf_net g) (s : nat).

Definition preds_of (l : list bent) (e : bent) : list (option nat) :=
  match bd e with
  | 0 => [None]
  | S d' => map Some (filter (fun p => match nth_error l p with Some e' => (bd e' =? d') && mem (bref e) (nbrs g (bref e')) | None => false end) (seq 0 (length l)))
  end.

Record OI (d k : nat) (g' : net A) (q : bfs) : Prop := {
  oi_sbs : same_but_state g g';
  oi_size : bsize q = length (bq q);
  oi_nodup : NoDup (refs (bq q));
  oi_mark : marked g' (refs (bq q));
  oi_lt : forall e, In e (bq q) -> bref e < length g;
  oi_first : exists e, nth_error (bq q) 0 = Some e /\ bref e = s /\ bd e = 0;
  oi_path : forall e, In e (bq q) -> path g (bd e) s (bref e);
  oi_done : forall p e, nth_error (bq q) p = Some e -> p < k -> bd e < d;
  oi_todo : forall p e, nth_error (bq q) p = Some e -> k <= p -> bd e = d;
  oi_k : k <= length (bq q);
  oi_sorted : forall p p' e e', nth_error (bq q) p = Some e -> nth_error (bq q) p' = Some e' -> p <= p' -> bd e <= bd e';
  oi_closed : forall p e w, nth_error (bq q) p = Some e -> p < k -> In w (nbrs g (bref e)) -> exists e', In e' (bq q) /\ bref e' = w /\ bd e' <= bd e + 1;
  oi_pred : forall e, In e (bq q) -> bpred e = preds_of (bq q) e }.

Lemma oi_le d k g' q e : OI d k g' q -> In e (bq q) -> bd e <= d.
Proof.
  intros O He. apply In_nth_error in He as [p Hp]. destruct (Nat.lt_ge_cases p k) as [H|H].
  - pose proof (oi_done _ _ _ _ O p e Hp H). lia.
  - pose proof (oi_todo _ _ _ _ O p e Hp H). lia.
Qed.

Lemma start : s < length g -> forall g0, same_but_state g g0 -> exists g' q, Enqueue (ResetNodesState g0, CreateHeaderList) s None 0 = Ok (g', q) /\ OI 0 0 g' q.
Proof.
  intros Hs g0 S0. unfold Enqueue. destruct (nth_ex (ResetNodesState g0) s) as [n En]; [now rewrite reset_length, (sbs_length g g0)|]. rewrite (get_ok _ _ _ En). cbn [bind].
  rewrite (marked_reset g0 s n En). simpl Nat.eqb. cbv iota. rewrite set_ok by now rewrite reset_length, (sbs_length g g0). cbn [bind]. do 2 eexists. split; [reflexivity|].
  simpl. split; cbn [bq bsize]; auto.
  - eapply sbs_trans; [exact S0|]. eapply sbs_trans; [apply sbs_reset|]. now apply sbs_upd.
  - repeat constructor. simpl. tauto.
  - intros v m. rewrite nth_upd. simpl. destruct (Nat.eqb_spec v s) as [->|]; simpl.
    + rewrite (proj2 (Nat.ltb_lt _ _)) by now rewrite reset_length, (sbs_length g g0). intros [= <-]. reflexivity.
    + intros Em. exact (marked_reset g0 v m Em).
  - intros e [<-|[]]. auto.
  - eexists. splits; reflexivity.
  - intros e [<-|[]]. now constructor.
  - intros p e _ Hp. lia.
  - intros [|[|p]] e; simpl; try discriminate. intros [= <-] _. reflexivity.
  - lia.
  - intros [|[|p]] [|[|p']] e e'; simpl; try discriminate. intros [= <-] [= <-] _. auto.
  - intros p e w _ Hp. lia.
  - intros e [<-|[]]. reflexivity.
Qed.

Lemma filter_none {X} (f : X -> bool) l : (forall x, In x l -> f x = false) -> filter f l = [].
Proof. induction l as [|x l IH]; simpl; intros H; auto. rewrite H by auto. apply IH. auto. Qed.

(** One round. *)
Lemma round d k g' q fuel : OI d k g' q -> length (bq q) - k < fuel ->
  exists g'' q' new, RenewQueue fuel (g', q) k d = Ok ((g'', q'), length (bq q)) /\ bq q' = bq q ++ new /\ OI (d + 1) (length (bq q)) g'' q' /\
    (forall e, In e new -> bd e = d + 1).
Proof.
  intros O Hf. pose proof O as [O1 O2 O3 O4 O5 O6 O7 O8 O9 Ok1 O10 O11 O12].
  assert (Hle : forall e, In e (bq q) -> bd e <= d) by (intros e He; eapply oi_le; eauto).
  destruct (RenewQueue_layer g W (bq q) k d Hle O9 O5 fuel k g' q []) as (g'' & q' & new & E & R); auto; try lia.
  { split; auto.
    - now rewrite app_nil_r.
    - intros v Hv. apply in_map_iff in Hv as (e & <- & He). auto.
    - intros e [].
    - simpl. intros w. split; [tauto|]. intros (_ & [(p & Hp & _)|[]]). lia. }
  exists g'', q', new. pose proof R as [R1 R2 R3 R4 R5 R5' R6 R7]. splits; auto; [|apply R6].
  assert (Hnth : forall p e, nth_error (bq q') p = Some e -> (p < length (bq q) /\ nth_error (bq q) p = Some e) \/ (length (bq q) <= p /\ In e new)).
  { intros p e. rewrite R2. destruct (Nat.lt_ge_cases p (length (bq q))); [rewrite nth_error_app1; auto|]. rewrite nth_error_app2 by auto. intros H1. right. split; auto. eapply nth_error_In; eauto. }
  split; auto.
  - intros e He. apply R5'. now apply (in_map bref).
  - destruct O6 as (e & E1 & E2 & E3). exists e. splits; auto. rewrite R2, nth_error_app1; auto. eapply nth_lt; eauto.
  - intros e He. rewrite R2 in He. apply in_app_iff in He as [He|He]; auto. destruct (R6 e He) as [-> _]. rewrite Nat.add_1_r.
    apply (in_map bref) in He. apply R7 in He as (_ & [(p & Hp & Hl)|[]]). unfold links_from in Hl. destruct (nth_error (bq q) p) as [e'|] eqn:Ep; [|discriminate].
    apply mem_In in Hl. eapply path_S; [|exact Hl]. rewrite <- (O9 p e' Ep) by lia. apply O7. eapply nth_error_In; eauto.
  - intros p e Ep Hp. apply Hnth in Ep as [[_ Ep]|[? _]]; [|lia]. apply nth_error_In in Ep. specialize (Hle e Ep). lia.
  - intros p e Ep Hp. apply Hnth in Ep as [[? _]|[_ He]]; [lia|]. now apply R6.
  - rewrite R2, app_length. lia.
  - intros p p' e e' Ep Ep' Hp. apply Hnth in Ep as [[L1 Ep]|[L1 He]]; apply Hnth in Ep' as [[L2 Ep']|[L2 He']]; try lia.
    + eapply O10; eauto.
    + apply nth_error_In in Ep. specialize (Hle e Ep). destruct (R6 e' He'). lia.
    + destruct (R6 e He), (R6 e' He'). lia.
  - intros p e w Ep Hp Hw. apply Hnth in Ep as [[_ Ep]|[? _]]; [|lia]. destruct (Nat.lt_ge_cases p k) as [Hk|Hk].
    + destruct (O11 p e w Ep Hk Hw) as (e' & H1 & H2 & H3). exists e'. splits; auto. rewrite R2. apply in_app_iff. auto.
    + destruct (in_dec Nat.eq_dec w (refs (bq q))) as [Hi|Hi].
      * apply in_map_iff in Hi as (e' & <- & He'). exists e'. splits; auto; [rewrite R2; apply in_app_iff; auto|]. specialize (Hle e' He'). rewrite (O9 p e Ep Hk). lia.
      * assert (Hn : In w (refs new)). { apply R7. split; auto. left. exists p. split; [lia|]. unfold links_from. rewrite Ep. now apply mem_In. }
        apply in_map_iff in Hn as (e' & <- & He'). exists e'. splits; auto; [rewrite R2; apply in_app_iff; auto|]. destruct (R6 e' He'). rewrite (O9 p e Ep Hk). lia.
  - intros e He. rewrite R2 in He. unfold preds_of. rewrite R2, app_length. apply in_app_iff in He as [He|He].
    + rewrite (O12 e He). unfold preds_of. pose proof (Hle e He) as Hd. destruct (bd e) as [|d'] eqn:Ed; auto. rewrite seq_app, filter_app. f_equal.
      rewrite (filter_none _ (seq (0 + length (bq q)) (length new))).
      * rewrite app_nil_r. apply filter_ext_in. intros p Hp. apply in_seq in Hp. now rewrite nth_error_app1 by lia.
      * intros p Hp. apply in_seq in Hp. rewrite nth_error_app2 by lia. destruct (nth_error new (p - length (bq q))) as [e'|] eqn:Ee; auto.
        apply nth_error_In in Ee. destruct (R6 e' Ee) as [-> _]. rewrite (proj2 (Nat.eqb_neq _ _)) by lia. auto.
    + destruct (R6 e He) as [Hd ->]. rewrite Hd, Nat.add_1_r. rewrite seq_app, filter_app. cbn [mem existsb]. rewrite app_nil_r. f_equal.
      rewrite (filter_none _ (seq (0 + length (bq q)) (length new))).
      * rewrite app_nil_r. replace (seq 0 (length (bq q))) with (seq 0 k ++ seq k (length (bq q) - k)) by (rewrite <- seq_app; f_equal; lia).
        rewrite filter_app, (filter_none _ (seq 0 k)).
        -- simpl. apply filter_ext_in. intros p Hp. apply in_seq in Hp. rewrite nth_error_app1 by lia. unfold links_from.
           destruct (nth_error (bq q) p) as [e'|] eqn:Ep; auto. rewrite (O9 p e' Ep) by lia. now rewrite Nat.eqb_refl.
        -- intros p Hp. apply in_seq in Hp. rewrite nth_error_app1 by lia. destruct (nth_error (bq q) p) as [e'|] eqn:Ep; auto.
           pose proof (O8 p e' Ep). rewrite (proj2 (Nat.eqb_neq _ _)) by lia. auto.
      * intros p Hp. apply in_seq in Hp. rewrite nth_error_app2 by lia. destruct (nth_error new (p - length (bq q))) as [e'|] eqn:Ee; auto.
        apply nth_error_In in Ee. destruct (R6 e' Ee) as [-> _]. rewrite (proj2 (Nat.eqb_neq _ _)) by lia. auto.
Qed.

(** Entries carry distances. *)
Lemma oi_distance d k g' q e : OI d k g' q -> In e (bq q) -> distance g s (bref e) (bd e).
Proof.
  intros O He. split; [eapply oi_path; eauto|]. intros n Hn.
  destruct (Nat.le_gt_cases d n) as [H|H]; [pose proof (oi_le d k g' q e O He); lia|].
  assert (G : forall n v, path g n s v -> n < d -> exists e, In e (bq q) /\ bref e = v /\ bd e <= n).
  { intros n0 v P Hlt. remember s as s0 eqn:Es in P. induction P as [i Hi|m i j w P IH Hw].
    - subst i. destruct (oi_first _ _ _ _ O) as (e0 & E1 & E2 & E3). exists e0. splits; auto; [eapply nth_error_In; eauto|lia].
    - destruct (IH Es) as (e1 & H1 & H2 & H3); [lia|]. apply In_nth_error in H1 as [p Hp]. destruct (Nat.lt_ge_cases p k) as [Hk|Hk].
      + rewrite <- H2 in Hw. destruct (oi_closed _ _ _ _ O p e1 w Hp Hk Hw) as (e2 & K1 & K2 & K3). exists e2. splits; auto. lia.
      + pose proof (oi_todo _ _ _ _ O p e1 Hp Hk). lia. }
  destruct (G n (bref e) Hn H) as (e' & H1 & H2 & H3). apply In_nth_error in H1 as [p Hp]. apply In_nth_error in He as [p' Hp'].
  assert (p = p') by (eapply refs_nodup_inj; eauto; eapply oi_nodup; eauto). subst p'. rewrite Hp in Hp'. injection Hp' as <-. auto.
Qed.

(** The finished list. *)
Record complete (l : list bent) : Prop := {
  c_nodup : NoDup (refs l);
  c_reach : forall v, In v (refs l) <-> reachable g s v;
  c_dist : forall e, In e l -> distance g s (bref e) (bd e);
  c_sorted : forall p p' e e', nth_error l p = Some e -> nth_error l p' = Some e' -> p <= p' -> bd e <= bd e';
  c_pred : forall e, In e l -> bpred e = preds_of l e }.

Lemma oi_complete d k g' q : OI d k g' q -> k = length (bq q) -> complete (bq q).
Proof.
  intros O ->. split; try apply O.
  - intros v. split.
    + intros Hv. apply in_map_iff in Hv as (e & <- & He). exists (bd e). eapply oi_path; eauto.
    + intros [n P]. remember s as s0 eqn:Es in P. induction P as [i Hi|m i j w P IH Hw].
      * subst i. destruct (oi_first _ _ _ _ O) as (e0 & E1 & <- & _). apply in_map. eapply nth_error_In; eauto.
      * specialize (IH Es). apply in_map_iff in IH as (e & <- & He). apply In_nth_error in He as [p Hp].
        destruct (oi_closed _ _ _ _ O p e w Hp (nth_lt _ _ _ Hp) Hw) as (e' & H1 & <- & _). now apply in_map.
  - intros e He. eapply oi_distance; eauto.
Qed.

Definition layer (l : list bent) (d : nat) : nat := count (fun e => bd e =? d) l.

Theorem layers_spec {T} (act : T -> nat -> nat -> res T) : forall fuel x d k g' q, OI d k g' q -> length g - length (bq q) < fuel ->
  exists D g'' q', layers act fuel x (g', q) k d = (do x <- foldM (fun x i => act x i (layer (bq q') i)) x (seq (d + 1) D); Ok (x, (g'', q'), bsize q')) /\
    same_but_state g g'' /\ bsize q' = length (bq q') /\ complete (bq q') /\ (exists new, bq q' = bq q ++ new /\ forall e, In e new -> d < bd e) /\
    (forall e, In e (bq q') -> bd e <= d + D) /\ (forall i, d < i <= d + D -> 0 < layer (bq q') i).
Proof.
  induction fuel as [|f IH]; intros x d k g' q O Hf; [lia|]. cbn [layers fst snd].
  assert (Hlen : length (bq q) <= length g).
  { rewrite <- (map_length bref). apply NoDup_bound; [eapply oi_nodup; eauto|]. intros v Hv. apply in_map_iff in Hv as (e & <- & He). eapply oi_lt; eauto. }
  destruct (round d k g' q (length g' + 1) O) as (g1 & q1 & new & -> & Eq & O1 & Hnew).
  { rewrite (sbs_length g g' (oi_sbs _ _ _ _ O)). lia. }
  cbn [bind snd fst]. rewrite (oi_size _ _ _ _ O), (oi_size _ _ _ _ O1), Eq, app_length.
  destruct new as [|e new].
  - simpl. rewrite Nat.add_0_r, Nat.eqb_refl. cbn [bind]. exists 0, g1, q1. simpl. rewrite (oi_size _ _ _ _ O1), Eq, app_length. simpl. rewrite Nat.add_0_r.
    splits; auto; try apply O1.
    + rewrite app_nil_r. rewrite app_nil_r in Eq. rewrite <- Eq. eapply oi_complete; eauto. now rewrite Eq.
    + exists []. split; auto. intros ? [].
    + intros e He. rewrite app_nil_r in He. pose proof (oi_le _ _ _ _ e O He). lia.
    + intros i Hi. lia.
  - cbn [length]. rewrite (proj2 (Nat.eqb_neq _ _)) by lia.
    assert (IH1 : forall y, exists D g'' q', layers act f y (g1, q1) (length (bq q)) (d + 1) = (do x <- foldM (fun x i => act x i (layer (bq q') i)) y (seq (d + 1 + 1) D); Ok (x, (g'', q'), bsize q')) /\
      same_but_state g g'' /\ bsize q' = length (bq q') /\ complete (bq q') /\ (exists new, bq q' = bq q1 ++ new /\ forall e, In e new -> d + 1 < bd e) /\
      (forall e, In e (bq q') -> bd e <= d + 1 + D) /\ (forall i, d + 1 < i <= d + 1 + D -> 0 < layer (bq q') i)).
    { intros y. apply IH; auto. rewrite Eq, app_length. simpl. assert (length (bq q1) <= length g); [|rewrite Eq, app_length in H; simpl in H; lia].
      rewrite <- (map_length bref). apply NoDup_bound; [eapply oi_nodup; eauto|]. intros v Hv. apply in_map_iff in Hv as (e' & <- & He). eapply oi_lt; eauto. }
    assert (Hlay : forall rest, (forall e, In e rest -> d + 1 < bd e) -> layer (bq q1 ++ rest) (d + 1) = S (length new)).
    { intros rest Hr. unfold layer. rewrite Eq, !count_app. rewrite (count_ext _ (fun _ => false) (bq q)), (count_ext _ (fun _ => false) rest), (count_ext _ (fun _ => true) (e :: new)).
      - unfold count. assert (Ef : forall X (l : list X), filter (fun _ => false) l = []) by (induction l; auto).
        assert (Et : forall X (l : list X), filter (fun _ => true) l = l) by (induction l as [|a l IHl]; simpl; auto; f_equal; auto).
        rewrite !Ef, Et. simpl. lia.
      - intros y Hy. rewrite (Hnew y Hy). apply Nat.eqb_refl.
      - intros y Hy. specialize (Hr y Hy). apply Nat.eqb_neq. lia.
      - intros y Hy. pose proof (oi_le _ _ _ _ y O Hy). apply Nat.eqb_neq. lia. }
    destruct (act x (d + 1) (length (bq q) + S (length new) - length (bq q))) as [y|err] eqn:Ea; cbn [bind].
    + destruct (IH1 y) as (D & g2 & q2 & E2 & H1 & H2 & H3 & (rest & H4 & H4') & H5 & H6). rewrite E2. exists (S D), g2, q2. cbn [seq foldM].
      assert (El : layer (bq q2) (d + 1) = S (length new)) by (rewrite H4; auto). rewrite El.
      replace (length (bq q) + S (length new) - length (bq q)) with (S (length new)) in Ea by lia. rewrite Ea. cbn [bind]. rewrite (Nat.add_1_r (d + 1)). splits; auto.
      * exists (e :: new ++ rest). rewrite H4, Eq, <- app_assoc. split; auto. intros e' [<-|He']; [rewrite (Hnew e); simpl; auto; lia|].
        apply in_app_iff in He' as [He'|He']; [rewrite (Hnew e'); simpl; auto; lia|]. specialize (H4' e' He'). lia.
      * intros e' He'. specialize (H5 e' He'). lia.
      * intros i Hi. destruct (Nat.eq_dec i (d + 1)) as [->|]; [lia|]. apply H6. lia.
    + (* the action fails; the list is still the complete one *)
      destruct (IH1 x) as (D & g2 & q2 & E2 & H1 & H2 & H3 & (rest & H4 & H4') & H5 & H6). exists (S D), g2, q2. cbn [seq foldM].
      assert (El : layer (bq q2) (d + 1) = S (length new)) by (rewrite H4; auto). rewrite El.
      replace (length (bq q) + S (length new) - length (bq q)) with (S (length new)) in Ea by lia. rewrite Ea. cbn [bind]. splits; auto.
      * exists (e :: new ++ rest). rewrite H4, Eq, <- app_assoc. split; auto. intros e' [<-|He']; [rewrite (Hnew e); simpl; auto; lia|].
        apply in_app_iff in He' as [He'|He']; [rewrite (Hnew e'); simpl; auto; lia|]. specialize (H4' e' He'). lia.
      * intros e' He'. specialize (H5 e' He'). lia.
      * intros i Hi. destruct (Nat.eq_dec i (d + 1)) as [->|]; [lia|]. apply H6. lia.
Qed.

Lemma ClearList_ok q : bsize q = length (bq q) -> ClearList q = Ok CreateHeaderList.
Proof.
  destruct q as [l n]. unfold ClearList. simpl. intros ->.
  assert (H : forall (l : list bent) n, foldM (fun k _ => dec k) (length l + n) l = Ok n). { clear. induction l as [|e l IH]; intros n; simpl; auto. }
  specialize (H l 0). rewrite Nat.add_0_r in H. rewrite H. reflexivity.
Qed.
End All.

(** C28: connectivity. *)
Theorem IsGraphConnected_spec g : wf_net g -> g <> [] ->
  exists b g', IsGraphConnected g = Ok (b, g') /\ same_but_state g g' /\ (b = true <-> forall v, v < length g -> reachable g 0 v).
Proof.
  intros W Hne. assert (H0 : 0 < length g) by (destruct g; simpl; [congruence|lia]). unfold IsGraphConnected, CountNodes.
  rewrite (proj2 (Nat.eqb_neq _ _)) by lia. cbn [negb check bind].
  destruct (start g 0 H0 g eq_refl) as (g1 & q1 & -> & O). cbn [bind].
  destruct (layers_spec g W 0 (fun (s : unit) _ _ => Ok s) (length g + 1) tt 0 0 g1 q1 O) as (D & g2 & q2 & E & H1 & H2 & H3 & _); [lia|].
  rewrite E. assert (Hf : forall l, foldM (fun (s : unit) (_ : nat) => Ok s) tt l = Ok tt) by (induction l; simpl; auto). 
  rewrite Hf. cbn [bind snd fst]. rewrite (ClearList_ok q2 H2). cbn [bind]. exists (bsize q2 =? length g), g2. splits; auto.
  rewrite H2, Nat.eqb_eq. destruct H3 as [C1 C2 C3 C4 C5].
  assert (Hlt : forall v, In v (refs (bq q2)) -> v < length g).
  { intros v Hv. apply C2 in Hv as [n P]. destruct P as [i Hi|m i j w P Hw]; auto. now destruct (nbrs_lt g j w W Hw). }
  split.
  - intros Hl v Hv. apply C2. assert (Hinc : incl (seq 0 (length g)) (refs (bq q2))).
    { apply NoDup_length_incl; auto.
      - rewrite seq_length. unfold refs. rewrite map_length. lia.
      - intros x Hx. apply in_seq. specialize (Hlt x Hx). lia. }
    apply Hinc, in_seq. lia.
  - intros Hr. assert (length (seq 0 (length g)) <= length (refs (bq q2))).
    { apply NoDup_incl_length; [apply seq_NoDup|]. intros x Hx. apply in_seq in Hx. apply C2, Hr. lia. }
    rewrite seq_length in H. unfold refs in H, C1, Hlt. rewrite map_length in H.
    assert (length (bq q2) <= length g). { rewrite <- (map_length bref). apply NoDup_bound; auto. } lia.
Qed.
End Bfs.

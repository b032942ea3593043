(** BtwProof.v -- CalculateNodeBetweenness computes betweenness. *)
From Coq Require Import List Arith Lia ZArith Bool Sorted QArith Qcanon Permutation.
From Verif Require Import Base Num ListLib NatSum QcSum IoModel GraphModel GraphSpec GraphProof BfsModel BfsProof FillProof ToolsModel ToolsProof
  BtwModel BtwSpec BtwCount BtwBrandes BtwSearch.
Import ListNotations.
Local Open Scope nat_scope.

(** ** Only the links matter *)
Section Same.
Context {A B : Type}.
Variables (g : net A) (g' : net B).
Hypothesis L : length g = length g'.
Hypothesis E : forall i, nbrs g i = nbrs g' i.
Lemma walks_same n : forall s, walks g n s = walks g' n s.
Proof. induction n as [|n IH]; intros s; cbn [walks]; auto. rewrite E. induction (nbrs g' s) as [|u l IHl]; cbn [flat_map]; auto. now rewrite IH, IHl. Qed.
Lemma walks_to_same n s t : walks_to g n s t = walks_to g' n s t.
Proof. unfold walks_to. now rewrite walks_same. Qed.
Lemma dist_same s t : dist g s t = dist g' s t.
Proof. unfold dist. rewrite L. generalize (seq 0 (length g')). intros l. induction l as [|n l IH]; cbn [find]; auto. rewrite walks_to_same. destruct (walks_to g' n s t); auto. Qed.
Lemma geodesics_same s t : geodesics g s t = geodesics g' s t.
Proof. unfold geodesics. rewrite dist_same. destruct (dist g' s t); auto. apply walks_to_same. Qed.
Lemma npaths_same s t : npaths g s t = npaths g' s t.
Proof. unfold npaths. now rewrite geodesics_same. Qed.
Lemma depend_same s v : depend g s v = depend g' s v.
Proof. unfold depend. rewrite L. apply Qsum_ext. intros t _. unfold share, pair_share, through. now rewrite geodesics_same. Qed.
End Same.

Section Main.
Variables ex sq : Qc -> Qc.
#[local] Instance opsB : NumOps Qc := Qc_ops ex sq.

Definition withd (g : net Qc) (h : gnode Qc -> Qc) : net Qc := map (fun n => set_gdvar (h n) n) g.
Lemma withd_nth g h i n : nth_error g i = Some n -> nth_error (withd g h) i = Some (set_gdvar (h n) n).
Proof. intros H. unfold withd. rewrite nth_error_map, H. reflexivity. Qed.
Lemma withd_inv g h i n : nth_error (withd g h) i = Some n -> exists n0, nth_error g i = Some n0 /\ n = set_gdvar (h n0) n0.
Proof. unfold withd. rewrite nth_error_map. destruct (nth_error g i) as [n0|]; [|discriminate]. intros [= <-]. eauto. Qed.
Lemma withd_length g h : length (withd g h) = length g.
Proof. apply map_length. Qed.
Lemma withd_nbrs g h i : nbrs (withd g h) i = nbrs g i.
Proof. unfold nbrs, withd. rewrite nth_error_map. now destruct (nth_error g i). Qed.
Lemma withd_wf g h : wf_net g -> wf_net (withd g h).
Proof.
  intros W. constructor.
  - intros i n H. apply withd_inv in H as (n0 & H & ->). cbn. eapply wf_num; eauto.
  - intros i n l H IN. apply withd_inv in H as (n0 & H & ->). cbn in IN. destruct (wf_link g W _ _ _ H IN) as (j & m & H1 & H2 & H3 & H4).
    exists j, (set_gdvar (h m) m). splits; auto. now apply withd_nth.
  - intros i. rewrite withd_nbrs. apply W.
  - intros i n H. apply withd_inv in H as (n0 & H & ->). cbn. eapply wf_deg; eauto.
Qed.
Lemma withd_withd g h h' : withd (withd g h) h' = withd g (fun n => h' (set_gdvar (h n) n)).
Proof. unfold withd. rewrite map_map. reflexivity. Qed.
Lemma withd_ext g h h' : (forall n, In n g -> h n = h' n) -> withd g h = withd g h'.
Proof. intros H. apply map_ext_in. intros n Hn. now rewrite H. Qed.

Section Source.
Variable g : net Qc.
Hypothesis W : wf_net g.
Notation N := (length g).
Variable s : nat.
Hypothesis Hs : s < N.

Definition term (u w : nat) : Qc := if before g s u w then (ratio g s u w * (1 + depend g s w))%Qc else 0%Qc.
Definition part (done : list nat) (u : nat) : Qc := Qsum (fun w => term u w) done.
Definition gmid (done : list nat) : net Qc := withd g (fun n => gdvar n + if mem (gnum n) done && negb (gnum n =? s) then depend g s (gnum n) else 0)%Qc.

Lemma before_irrefl w : before g s w w = false.
Proof.
  destruct (before g s w w) eqn:E; auto. apply (before_spec g W) in E as (_ & k & D1 & D2); auto. pose proof (distance_fun g _ _ _ _ D1 D2). lia.
Qed.
Lemma gmid_nth done w n : nth_error g w = Some n -> exists m, nth_error (gmid done) w = Some m /\ gnum m = w /\
  gdvar m = (gdvar n + if mem w done && negb (w =? s) then depend g s w else 0)%Qc /\ set_gdvar 0%Qc m = set_gdvar 0%Qc n.
Proof.
  intros H. pose proof (wf_num g W _ _ H) as En. eexists. split; [apply withd_nth, H|]. cbn. rewrite En. auto.
Qed.
Lemma gmid_step done w n m : nth_error g w = Some n -> nth_error (gmid done) w = Some m -> ~ In w done -> w <> s ->
  upd (gmid done) w (set_gdvar (gdvar m + depend g s w)%Qc m) = gmid (done ++ [w]).
Proof.
  intros H Hm Hw Hne. apply ListLib.nth_ext. intros i. rewrite nth_upd. unfold gmid. rewrite withd_length.
  destruct (Nat.eqb_spec i w) as [->|Hi]; cbn [andb].
  - rewrite (proj2 (Nat.ltb_lt _ _) (nth_lt _ _ _ H)). rewrite (withd_nth _ _ _ _ H). f_equal.
    unfold gmid in Hm. rewrite (withd_nth _ _ _ _ H) in Hm. injection Hm as <-. unfold set_gdvar. cbn. rewrite (wf_num g W _ _ H).
    assert (M : mem w done = false) by (destruct (mem_spec w done); tauto). rewrite mem_app, M. cbn [mem existsb]. rewrite Nat.eqb_refl. cbn [orb andb].
    destruct (Nat.eqb_spec w s); [congruence|]. cbn [negb]. f_equal. ring.
  - destruct (nth_error g i) as [k|] eqn:Ek.
    + rewrite !(withd_nth _ _ _ _ Ek). rewrite (wf_num g W _ _ Ek), mem_app. cbn [mem existsb].
      destruct (Nat.eqb_spec i w); [congruence|]. destruct (Nat.eqb_spec w i); [congruence|]. now rewrite !orb_false_r.
    + unfold withd. now rewrite !nth_error_map, Ek.
Qed.
Lemma gmid_src done : gmid (done ++ [s]) = gmid done.
Proof.
  apply withd_ext. intros n _. rewrite mem_app. cbn [mem existsb]. destruct (Nat.eqb_spec (gnum n) s) as [->|Hne]; [now rewrite !andb_false_r|].
  destruct (Nat.eqb_spec s (gnum n)); [congruence|]. now rewrite !orb_false_r.
Qed.
Lemma pop_step st exl done w rest : searched g s st exl -> rev exl = done ++ w :: rest ->
  btw_pop s st (gmid done, tab N (part done)) w = Ok (gmid (done ++ [w]), tab N (part (done ++ [w]))).
Proof.
  intros SE ER.
  assert (EX : exl = rev rest ++ w :: rev done). { rewrite <- (rev_involutive exl), ER, rev_app_distr. cbn. now rewrite <- app_assoc. }
  assert (INw : In w exl) by (rewrite EX; apply in_or_app; right; left; auto).
  assert (LT : forall x, In x exl -> x < N). { intros x Hx. apply SE in Hx as [n D]. apply (path_lt g W n s x), D. }
  assert (Hw := LT w INw). destruct (nth_ex g w Hw) as [n En].
  assert (NDr : NoDup (done ++ w :: rest)) by (rewrite <- ER; apply NoDup_rev, SE).
  assert (Hwd : ~ In w done). { apply NoDup_remove_2 in NDr. rewrite in_app_iff in NDr. tauto. }
  destruct (gmid_nth done w n En) as (m & Em & Nm & Vm & _).
  unfold btw_pop. rewrite (get_ok _ _ _ Em). cbn [bind]. rewrite Nm. destruct (se_pred _ _ _ _ SE w INw) as (l & El & NDl & Hl). rewrite El. cbn [bind].
  (* the dependency on w is complete *)
  assert (PW : part done w = depend g s w).
  { rewrite (depend_rec g W) by auto. unfold part. rewrite (Qsum_members _ done N).
    - apply Qsum_ext. intros x Hx. destruct (mem_spec x done) as [|Hnx]; auto. destruct (before g s w x) eqn:E; auto. exfalso.
      apply (before_spec g W) in E as (_ & k & D1 & D2); auto. assert (IX : In x exl) by (apply SE; eauto).
      assert (SS := se_sort _ _ _ _ SE). rewrite EX in IX, SS. replace (rev rest ++ w :: rev done) with ((rev rest ++ [w]) ++ rev done) in IX, SS by now rewrite <- app_assoc.
      apply in_app_or in IX as [IX|IX]; [|apply Hnx, in_rev, IX]. apply in_app_or in IX as [IX|[<-|[]]].
      + rewrite <- app_assoc in SS. pose proof (SS_split _ _ _ SS x w IX (or_introl eq_refl)) as LL. cbv beta in LL. rewrite (dd_dist g W s Hs _ _ D1), (dd_dist g W s Hs _ _ D2) in LL. lia.
      + pose proof (distance_fun g _ _ _ _ D1 D2). lia.
    - eapply NoDup_app_l, NDr.
    - intros x Hx. apply LT. rewrite EX. apply in_or_app. right. right. now apply -> in_rev. }
  assert (Hwl : ~ In w l). { intros H. apply Hl in H. rewrite before_irrefl in H. discriminate. }
  set (val := fun p u => (part done u + if mem u p then ratio g s u w * (1 + depend g s w) else 0)%Qc).
  assert (IN1 : foldM (btw_pred (gmid done) (bsigma st) w) (tab N (part done)) l = Ok (tab N (val l))).
  { destruct (foldM_inv (fun p d => d = tab N (val p)) (btw_pred (gmid done) (bsigma st) w) l (tab N (part done))) as (d & E & ->); auto.
    - apply tab_ext. intros u _. unfold val. cbn. ring.
    - intros p v r d Epl ->. assert (INv : In v l) by (rewrite Epl; apply in_or_app; right; left; auto).
      assert (Bv := proj1 (Hl v) INv). pose proof (proj1 (before_spec g W s v w Hs) Bv) as (_ & k & Dv & Dw).
      assert (INx : In v exl) by (apply SE; eauto). assert (Hv := LT v INx). destruct (nth_ex g v Hv) as [nv Ev]. destruct (gmid_nth done v nv Ev) as (mv & Emv & Nmv & _).
      unfold btw_pred. rewrite (get_ok _ _ _ Emv), (get_ok _ _ _ Em). cbn [bind]. rewrite Nmv, Nm, !tab_get by auto. cbn [bind].
      rewrite (se_sigma _ _ _ _ SE v INx), (se_sigma _ _ _ _ SE w INw). cbn [bind]. rewrite tab_set by auto. eexists. split; [reflexivity|]. apply tab_ext. intros u Hu.
      assert (VW : val p w = depend g s w). { unfold val. assert (M : mem w p = false) by (destruct (mem_spec w p) as [H|]; auto; exfalso; apply Hwl; rewrite Epl; apply in_or_app; auto). rewrite M, PW. ring. }
      rewrite VW. unfold val. rewrite mem_app. cbn [mem existsb].
      rewrite Epl in NDl. apply NoDup_remove_2 in NDl. rewrite in_app_iff in NDl.
      destruct (Nat.eqb_spec u v) as [->|Hne].
      + assert (M : mem v p = false) by (destruct (mem_spec v p); tauto). rewrite M, ?Nat.eqb_refl. cbn [orb]. unfold ratio.
        change (nofQ (Z.of_nat (npaths g s v) # 1)) with (Qc_of_nat (npaths g s v)). change (nofQ (Z.of_nat (npaths g s w) # 1)) with (Qc_of_nat (npaths g s w)).
        cbn. unfold Qcdiv. ring.
      + now rewrite !orb_false_r. }
  rewrite IN1. cbn [bind]. destruct (nth_ex g s Hs) as [sn Esn]. destruct (gmid_nth done s sn Esn) as (ms & Ems & Nms & _). rewrite (get_ok _ _ _ Ems). cbn [bind].
  rewrite tab_get by auto. cbn [bind]. rewrite Nms.
  assert (TT : tab N (val l) = tab N (part (done ++ [w]))).
  { apply tab_ext. intros u Hu. unfold val, part. rewrite Qsum_app. cbn [Qsum fold_right]. unfold term at 3.
    destruct (mem_spec u l) as [H|H]; [apply Hl in H; rewrite H; ring|]. destruct (before g s u w) eqn:E; [|ring]. exfalso. apply H, Hl, E. }
  assert (VW : val l w = depend g s w). { unfold val. assert (M : mem w l = false) by (destruct (mem_spec w l); tauto). rewrite M, PW. ring. }
  rewrite VW, TT. destruct (Nat.eqb_spec w s) as [->|Hne].
  - now rewrite gmid_src.
  - unfold upd_node. rewrite (get_ok _ _ _ Em). cbn [bind]. rewrite set_ok by (unfold gmid; now rewrite withd_length). cbn [bind]. f_equal. f_equal.
    change (nadd (gdvar m) (depend g s w)) with (gdvar m + depend g s w)%Qc. eapply gmid_step; eauto.
Qed.
Theorem source_spec :
  match btw_source g s with
  | Ok g' => (forall t, t < N -> (Z.of_nat (npaths g s t) <= INT_MAX)%Z) /\ g' = withd g (fun n => gdvar n + if gnum n =? s then 0 else depend g s (gnum n))%Qc
  | Err e => e = Wrap /\ many g s end.
Proof.
  unfold btw_source, CountNodes. destruct (nth_ex g s Hs) as [sn Esn]. rewrite (get_ok _ _ _ Esn). cbn [bind]. rewrite (wf_num g W _ _ Esn).
  rewrite (tab_repeat N 0%Z), (tab_repeat N (-1)%Z), !tab_set by auto. cbn [bind]. pose proof (search_spec g W s Hs) as SS.
  destruct (btw_search _ _ _ _) as [[st stk]|e]; [|exact SS]. cbn [bind]. destruct SS as (exl & -> & SE).
  rewrite (tab_repeat N (n0 : Qc)).
  destruct (foldM_inv (fun done gd => gd = (gmid done, tab N (part done))) (btw_pop s st) (rev exl) (g, tab N (fun _ => n0))) as (gd & E & ->).
  - f_equal. unfold gmid, withd. rewrite <- (map_id g) at 1. apply map_ext. intros n. destruct n; cbn. unfold set_gdvar; cbn. f_equal. ring.
  - intros done w rest gd ER ->. eexists. split; [eapply pop_step; eauto|reflexivity].
  - rewrite E. cbn [bind]. split; [apply SE|]. apply withd_ext. intros n Hn. apply In_nth_error in Hn as [i Hi]. rewrite (wf_num g W _ _ Hi).
    f_equal. destruct (Nat.eqb_spec i s) as [->|Hne]; [now rewrite andb_false_r|]. cbn [negb]. rewrite andb_true_r. destruct (mem_spec i (rev exl)) as [|H]; auto.
    symmetry. apply depend_none; auto. intros k P. apply H, in_rev. rewrite rev_involutive. apply SE. eapply exists_distance; eauto.
Qed.
End Source.

Theorem betweenness_spec g : wf_net g ->
  match CalculateNodeBetweenness g with
  | Ok g' => (forall s t, s < length g -> t < length g -> (Z.of_nat (length (geodesics g s t)) <= INT_MAX)%Z) /\
      g' = map (fun n => set_gdvar (betweenness g (gnum n)) n) g
  | Err e => e = Wrap /\ exists s t, s < length g /\ t < length g /\ (INT_MAX < Z.of_nat (length (geodesics g s t)))%Z
  end.
Proof.
  intros W. unfold CalculateNodeBetweenness, CountNodes. set (N := length g).
  set (I := fun k (g' : net Qc) => (forall s t, s < k -> t < N -> (Z.of_nat (length (geodesics g s t)) <= INT_MAX)%Z) /\
     g' = withd g (fun n => Qsum (fun s => if s =? gnum n then 0 else depend g s (gnum n))%Qc (seq 0 k))).
  assert (B : forall n, In n g -> Qsum (fun s => if s =? gnum n then 0%Qc else depend g s (gnum n)) (seq 0 N) = betweenness g (gnum n)).
  { intros n _. symmetry. apply betweenness_depend. }
  pose proof (foldM_seq_safe I (fun e => e = Wrap /\ exists s t, s < N /\ t < N /\ (INT_MAX < Z.of_nat (length (geodesics g s t)))%Z) btw_source N (map (set_gdvar n0) g)) as G.
  assert (I0 : I 0 (map (set_gdvar n0) g)). { split; [intros; lia|]. apply map_ext. intros n. reflexivity. }
  assert (ST : forall i g', i < N -> I i g' -> match btw_source g' i with Ok g'' => I (i + 1) g'' | Err e => e = Wrap /\ exists s t, s < N /\ t < N /\ (INT_MAX < Z.of_nat (length (geodesics g s t)))%Z end).
  { intros i g' Hi [H1 ->]. set (h := fun n : gnode Qc => _). pose proof (source_spec (withd g h) (withd_wf g h W) i) as SS. rewrite withd_length in SS. specialize (SS Hi).
    destruct (btw_source _ _) as [g''|e].
    - destruct SS as [S1 ->]. split.
      + intros s t Hs Ht. destruct (Nat.eq_dec s i) as [->|]; [|apply H1; auto; lia]. specialize (S1 t Ht). rewrite (npaths_same _ g (withd_length g h) (withd_nbrs g h)) in S1. exact S1.
      + rewrite withd_withd. apply withd_ext. intros n _. cbn [set_gdvar gdvar gnum]. rewrite Nat.add_1_r, seq_S, Qsum_app. unfold h. f_equal. cbn [Qsum fold_right Nat.add].
        rewrite (Nat.eqb_sym (gnum n) i). destruct (i =? gnum n); [ring|]. rewrite (depend_same _ g (withd_length g h) (withd_nbrs g h)). ring.
    - destruct SS as (-> & t & Ht & SS). split; auto. rewrite withd_length in Ht. rewrite (npaths_same _ g (withd_length g h) (withd_nbrs g h)) in SS. eauto. }
  destruct (foldM btw_source _ _) as [g'|e].
  - destruct G as [G1 ->]; auto. split; auto. apply withd_ext, B.
  - apply G; auto.
Qed.

(** ** Statistics *)
Lemma dvars g h : wf_net g -> foldM (fun b n => set b (gnum n) (gdvar n)) (repeat 0%Qc (length g)) (withd g h) = Ok (map h g).
Proof.
  intros W. set (N := length g).
  destruct (foldM_inv (fun done b => length b = N /\ forall i n, i < length done -> nth_error g i = Some n -> nth_error b i = Some (h n))
    (fun b n => set b (gnum n) (gdvar n)) (withd g h) (repeat 0%Qc N)) as (b & E & L & H).
  - split; [apply repeat_length|]. cbn. intros; lia.
  - intros done n rest b El [L H]. assert (En : nth_error (withd g h) (length done) = Some n) by (rewrite El, nth_error_app2, Nat.sub_diag; auto).
    apply withd_inv in En as (n0 & En & ->). cbn [set_gdvar gnum gdvar]. rewrite (wf_num g W _ _ En). pose proof (nth_lt _ _ _ En) as Hl.
    rewrite set_ok by (rewrite L; exact Hl). eexists. split; [reflexivity|]. rewrite length_upd. split; auto. intros i m Hi Em. rewrite app_length in Hi. cbn in Hi.
    destruct (Nat.eq_dec i (length done)) as [->|Hne].
    + rewrite nth_upd_eq by (rewrite L; exact Hl). congruence.
    + rewrite nth_upd_neq by auto. apply H; auto. lia.
  - rewrite E. f_equal. apply ListLib.nth_ext. intros i. rewrite nth_error_map. rewrite withd_length in H. destruct (nth_error g i) as [n|] eqn:En.
    + cbn. apply H; auto. eapply nth_lt; eauto.
    + cbn. apply nth_error_None. apply nth_error_None in En. unfold N in L. lia.
Qed.
Theorem statistics_spec g : wf_net g -> g <> [] -> let b := map (fun n => betweenness g (gnum n)) g in
  match NodeBetweennessStatistics g with
  | Ok (m, s, lo, hi, g') => m = (Qsum (fun x => x) b / Qc_of_nat (length g))%Qc /\ s = (if Qc_eq_dec (variance b) 0 then 0%Qc else sq (variance b)) /\
      In lo b /\ In hi b /\ (forall x, In x b -> (lo <= x /\ x <= hi)%Qc) /\ g' = map (fun n => set_gdvar (betweenness g (gnum n)) n) g
  | Err e => e = Wrap
  end.
Proof.
  intros W Hg b. unfold NodeBetweennessStatistics, CountNodes. pose proof (betweenness_spec g W) as B. destruct (CalculateNodeBetweenness g) as [g'|e]; [|apply B]. destruct B as [_ ->]. cbn [bind].
  match goal with |- context [foldM ?f ?a ?l] => replace (foldM f a l) with (Ok b) by (symmetry; exact (dvars g (fun n => betweenness g (gnum n)) W)) end. cbn [bind]. assert (Lb : length b = length g) by apply map_length.
  assert (F : firstn (length g) b = b) by (rewrite <- Lb; apply firstn_all). assert (Hp : 0 < length g) by (destruct g; [congruence|cbn; lia]).
  assert (E1 := mean_spec ex sq b (length g)). assert (E2 := stddev_spec ex sq b (length g)). rewrite F in E1, E2.
  destruct (min_spec ex sq b (length g)) as (lo & E3 & I1 & H1); try lia. destruct (max_spec ex sq b (length g)) as (hi & E4 & I2 & H2); try lia. rewrite F in *.
  match goal with |- context [bind (mean ?x ?y) _] => replace (mean x y) with (Ok (Qsum (fun x => x) b / Qc_of_nat (length g))%Qc) by (symmetry; apply E1; lia) end. cbn [bind].
  match goal with |- context [bind (stddev ?x ?y) _] => replace (stddev x y) with (Ok (if Qc_eq_dec (variance b) 0 then 0%Qc else sq (variance b))) by (symmetry; apply E2; lia) end. cbn [bind].
  match goal with |- context [bind (min_d ?x ?y) _] => replace (min_d x y) with (Ok lo) end. cbn [bind].
  match goal with |- context [bind (max_d ?x ?y) _] => replace (max_d x y) with (Ok hi) end. cbn [bind]. splits; auto.
Qed.
End Main.

(** ConnSets.v -- counting the strongly connected sets and extracting the largest one. *)
From Coq Require Import List Arith Lia Bool Permutation ZArith.
From Verif Require Import Base ListLib NatSum IoModel IoSpec IoProof GraphModel GraphSpec GraphProof GraphSim BipartModel BipartSpec BipartRen BipartCopy BipartMem BipartFile BfsModel BfsProof NetModel NetSpec NetBuild NetPrint NetCopy ConnModel ConnSpec ConnProof ConnSearch.
Import ListNotations.
Local Open Scope nat_scope.

Section Sets.
Context {A : Type} {ops : NumOps A}.
Variables (g : net A) (W : wf_net g).

(** ** Strongly connected sets *)
Lemma strong_lt M v : strong_set g M -> In v M -> v < length g.
Proof. intros (_ & _ & H) Hv. destruct (proj1 (H v v Hv) Hv) as [R _]. eapply reach_lt; eauto. Qed.
Lemma strong_same M M' v : strong_set g M -> strong_set g M' -> In v M -> In v M' -> length M = length M'.
Proof. intros (_ & D & H) (_ & D' & H') Hv Hv'. apply Permutation_length. apply NoDup_Permutation; auto. intros u. rewrite (H v u Hv), (H' v u Hv'). tauto. Qed.
Lemma strong_disjoint M M' : strong_set g M -> strong_set g M' -> length M <> length M' -> length M + length M' <= length g.
Proof.
  intros S S' N. rewrite <- app_length. apply refs_bound.
  - apply NoDup_app_iff. split; [apply S|]. split; [apply S'|]. intros v Hv Hv'. apply N. eapply strong_same; eauto.
  - intros v Hv. apply in_app_or in Hv as [Hv|Hv]; [exact (strong_lt M v S Hv)|exact (strong_lt M' v S' Hv)].
Qed.
Lemma mutual_class p Q : p < length g -> NoDup Q -> (forall v, In v Q <-> mutual g p v) -> strong_set g Q.
Proof.
  intros Lp D H. assert (Hp : In p Q) by (apply H; split; apply reach_refl; auto). split; [intros E; rewrite E in Hp; destruct Hp|]. split; auto. intros a b Ha. apply H in Ha as [R1 R2]. rewrite H. split; intros [U1 U2]; split; eapply reach_trans; eauto.
Qed.
Definition so_far (Ms : list (list nat)) : Prop := Forall (strong_set g) Ms /\ NoDup (concat Ms).
Lemma so_far_lt Ms v : so_far Ms -> In v (concat Ms) -> v < length g.
Proof. intros [F _] H. apply in_concat in H as (M & HM & Hv). rewrite Forall_forall in F. eapply strong_lt; eauto. Qed.
Lemma so_far_len Ms : so_far Ms -> length (concat Ms) <= length g.
Proof. intros S. apply refs_bound; [apply S|]. intros v. apply so_far_lt; auto. Qed.
Lemma so_far_full Ms : so_far Ms -> length (concat Ms) = length g -> strong_sets_of g Ms.
Proof.
  intros S L. split; [apply S|]. split; [apply S|]. intros v. split; [apply so_far_lt; auto|]. intros Hv.
  assert (I : incl (seq 0 (length g)) (concat Ms)) by (apply NoDup_length_incl; [apply S|rewrite seq_length; lia|intros u Hu; apply in_seq; pose proof (so_far_lt _ u S Hu); lia]). apply I, in_seq. lia.
Qed.
Lemma so_far_left Ms : so_far Ms -> length (concat Ms) < length g -> exists k, k < length g /\ ~ In k (concat Ms).
Proof.
  intros S L. destruct (existsb (fun k => negb (mem k (concat Ms))) (seq 0 (length g))) eqn:E.
  - apply existsb_exists in E as (k & Hk & E). apply in_seq in Hk. exists k. split; [lia|]. intros H. apply mem_In in H. rewrite H in E. discriminate.
  - exfalso. assert (incl (seq 0 (length g)) (concat Ms)).
    { intros k Hk. destruct (mem k (concat Ms)) eqn:Em; [apply mem_In; auto|]. assert (X : existsb (fun k => negb (mem k (concat Ms))) (seq 0 (length g)) = true) by (apply existsb_exists; exists k; rewrite Em; auto). congruence. }
    apply NoDup_incl_length in H; [rewrite seq_length in H; lia|apply seq_NoDup].
Qed.
Lemma so_far_snoc Ms p Q : so_far Ms -> p < length g -> ~ In p (concat Ms) -> NoDup Q -> (forall v, In v Q <-> mutual g p v) -> so_far (Ms ++ [Q]) /\ concat (Ms ++ [Q]) = concat Ms ++ Q.
Proof.
  intros [F D] Lp Hp DQ H. assert (E : concat (Ms ++ [Q]) = concat Ms ++ Q) by (rewrite concat_app; cbn; rewrite app_nil_r; auto). split; auto. split.
  - apply Forall_app. split; auto. constructor; auto. eapply mutual_class; eauto.
  - rewrite E. apply NoDup_app_iff. split; auto. split; auto. intros v Hv HQ. apply Hp. apply in_concat in Hv as (M & HM & Hv). apply in_concat. exists M. split; auto.
    rewrite Forall_forall in F. destruct (F M HM) as (_ & _ & HF). apply (HF v p Hv). apply H in HQ as [U1 U2]. split; auto.
Qed.

(** ** The copy searched for ways back *)
Hypothesis Dl : NoDup (map glabel g).
Hypothesis Ll : forall n, In n g -> length (glabel n) < 100.
Let c0 := net_copy g.
Let Wc : wf_net c0 := net_copy_wf g W.
Let Lc : length c0 = length g := net_copy_length g.
Let Nc : forall i, nbrs c0 i = nbrs g i := net_copy_nbrs g.
Lemma sbs_refl (h : net A) : same_but_state h h.
Proof. reflexivity. Qed.
Definition after {T} (Ms : list (list nat)) (x : scan T) : Prop := between g c0 (fun v => In v (concat Ms)) (length (concat Ms)) x.
Lemma SS_after {T} (TI : list nat -> T -> Prop) Ms Q x s : so_far (Ms ++ [Q]) -> same_but_state g (sg _ x) -> SS g c0 TI (fun v => In v (concat Ms)) (length (concat Ms)) Q x ->
  after (Ms ++ [Q]) (mkScan T (sg _ x) (sc _ x) CreateHeaderList (this_net _ x) (selected _ x) (anod _ x) s).
Proof.
  intros SF G [C L1 N1 L2 N2 An Ti]. assert (E : concat (Ms ++ [Q]) = concat Ms ++ Q) by (rewrite concat_app; cbn; rewrite app_nil_r; auto). unfold after. constructor; cbn [sg sc sq this_net selected anod set_of]; auto.
  - intros v. rewrite N2, E, in_app_iff. tauto.
  - rewrite E, app_length. auto.
Qed.

(** ** CountStronglyConnectedSets *)
Lemma count_ok : forall fuel Ms x, so_far Ms -> after Ms x -> length (concat Ms) < length g -> length g - length (concat Ms) < fuel ->
  exists Ms' g', count_sets fuel (length g) x (length Ms) = Ok (length Ms', g') /\ same_but_state g g' /\ strong_sets_of g Ms'.
Proof.
  induction fuel as [|f IH]; intros Ms x SF B L Hf; [lia|]. cbn [count_sets]. destruct (so_far_left Ms SF L) as (k & Lk & Hk).
  destruct (round_ok g W c0 Wc Lc Nc (fun _ s _ => Ok s) (fun _ (_ : unit) => True) tt) with (strong := true) (S0 := fun v => In v (concat Ms)) (a0 := length (concat Ms)) (x := x) (k := k) (fuel := length g + 1) as (p & x1 & x' & lp & d & Q & E1 & E2 & Lp & Hp & _ & ND & HQ & G & CL & SS'); auto; [intros; exists s; auto|lia|].
  rewrite E1. cbn [bind]. rewrite E2. cbn [bind]. rewrite CL. cbn [bind anod sg]. destruct (so_far_snoc Ms p Q SF Lp Hp ND HQ) as [SF' EC].
  assert (An : anod _ x' = length (concat (Ms ++ [Q]))) by (rewrite EC, app_length; apply (ss_an _ _ _ _ _ _ _ SS')). rewrite An. replace (length Ms + 1) with (length (Ms ++ [Q])) by (rewrite app_length; auto).
  pose proof (so_far_len _ SF') as LL. destruct (Nat.ltb_spec (length (concat (Ms ++ [Q]))) (length g)) as [H|H].
  - rewrite <- An. apply IH; auto; [eapply SS_after; eauto|]. assert (length Q <> 0) by (destruct Q; [exfalso; apply (proj2 (HQ p)); split; apply reach_refl; auto|discriminate]). rewrite EC, app_length in *. lia.
  - exists (Ms ++ [Q]), (sg _ x'). split; auto. split; auto. apply so_far_full; auto. lia.
Qed.
Lemma start_after {T} (s : T) k : length g <= k -> after [] (mkScan T g c0 CreateHeaderList (repeat false k) (repeat false k) 0 s).
Proof.
  intros L. unfold after. constructor; cbn [sg sc sq this_net selected anod set_of]; auto; try apply sbs_refl; try (rewrite repeat_length; auto).
  intros v. rewrite nth_repeat_false. cbn. split; [discriminate|intros []].
Qed.
Theorem count_strong : g <> [] -> exists n g' Ms, CountStronglyConnectedSets g = Ok (n, g') /\ same_but_state g g' /\ strong_sets_of g Ms /\ n = length Ms.
Proof.
  intros Hg. unfold CountStronglyConnectedSets, CountNodes. rewrite CopyNetwork_copy by auto. cbn [bind]. assert (0 < length g) by (destruct g; [congruence|cbn; lia]).
  destruct (count_ok (length g + 1) [] (mkScan unit g c0 CreateHeaderList (repeat false (length g)) (repeat false (length g)) 0 tt)) as (Ms & g' & E & S & H'); [split; constructor|apply start_after; auto|cbn; lia|cbn; lia|].
  exists (length Ms), g', Ms. auto.
Qed.

(** ** The set under construction *)
Definition TN (Q : list nat) (s : net A) : Prop := length s = length Q /\ forall x v n, nth_error Q x = Some v -> nth_error g v = Some n ->
  exists m, nth_error s x = Some m /\ glabel m = glabel n /\ gnum m = v /\ gadj m = map soft (gadj n) /\ gdeg m = 0.
Lemma sbs_same g' v n n' : same_but_state g g' -> nth_error g v = Some n -> nth_error g' v = Some n' -> glabel n' = glabel n /\ gnum n' = gnum n /\ gadj n' = gadj n.
Proof. intros S E E'. destruct (sbs_nth g g' v n' S E') as (m & Em & H). rewrite E in Em. injection Em as <-. destruct n, n'. unfold set_gstate in H. injection H. intros; subst. auto. Qed.
Lemma TN_snoc Q s v n m : TN Q s -> nth_error g v = Some n -> glabel m = glabel n -> gnum m = v -> gadj m = map soft (gadj n) -> gdeg m = 0 -> TN (Q ++ [v]) (s ++ [m]).
Proof.
  intros [L H] En H1 H2 H3 H4. split; [rewrite !app_length, L; auto|]. intros x u k Ex Ek. apply nth_snoc in Ex as [Ex|[-> ->]].
  - destruct (H x u k Ex Ek) as (m' & Em & R). exists m'. split; auto. rewrite nth_error_app1; auto. eapply nth_lt; eauto.
  - exists m. rewrite En in Ek. injection Ek as <-. split; [rewrite nth_error_app2, L, Nat.sub_diag by lia; auto|auto].
Qed.
Lemma put_ok (f : gnode A -> gnode A -> gnode A) Q s g' v : (forall n t, glabel (f n t) = glabel t /\ gnum (f n t) = gnum n /\ gadj (f n t) = gadj t /\ gdeg (f n t) = gdeg t) ->
  TN Q s -> same_but_state g g' -> v < length g -> exists s', (do n <- get g' v; do (i, loc) <- CreateNodeGraph s (glabel n); do j <- GetNode (gnum n) g'; do m <- get g' j; upd_node loc i (fun t => CopyAdjacencyList m (f m t))) = Ok s' /\ TN (Q ++ [v]) s'.
Proof.
  intros Hf T S Lv. pose proof (sbs_length _ _ S) as Lg. pose proof (sbs_wf _ _ S W) as W'. destruct (nth_ex g v Lv) as [n En]. destruct (nth_ex g' v) as [n' En']; [lia|]. destruct (sbs_same g' v n n' S En En') as (S1 & S2 & S3).
  rewrite (get_ok _ _ _ En'). cbn [bind]. unfold CreateNodeGraph, store_label, max_label. rewrite (proj2 (Nat.ltb_lt _ _)) by (rewrite S1; apply Ll; eapply nth_error_In; eauto). cbn [check bind].
  rewrite (wf_num _ W' _ _ En'), GetNode_spec by (auto; lia). cbn [bind]. rewrite (get_ok _ _ _ En'). cbn [bind]. rewrite upd_last. eexists. split; [reflexivity|].
  match goal with |- context [f n' ?t] => destruct (Hf n' t) as (F1 & F2 & F3 & F4) end. cbn in F1, F3, F4.
  rewrite CopyAdjacencyList_ok; [|auto|rewrite S3; apply (link_labels g v n); auto]. apply (TN_snoc Q s v n); auto; cbn [set_gadj glabel gnum gadj gdeg]; try congruence. rewrite F2. apply (wf_num _ W' _ _ En').
Qed.
Lemma put_node_ok Q s g' v : TN Q s -> same_but_state g g' -> v < length g -> exists s', put_node g' s v = Ok s' /\ TN (Q ++ [v]) s'.
Proof.
  intros T S Lv. destruct (put_ok (fun m t => set_gnum (gnum m) t) Q s g' v) as (s' & E & H); auto. exists s'. split; auto. rewrite <- E. unfold put_node.
  pose proof (sbs_length _ _ S) as Lg. pose proof (sbs_wf _ _ S W) as W'. destruct (nth_ex g' v) as [n' En']; [lia|]. rewrite (get_ok _ _ _ En'). cbn [bind]. destruct (CreateNodeGraph s (glabel n')) as [[i loc]|]; auto. cbn [bind].
  rewrite (wf_num _ W' _ _ En'), GetNode_spec by (auto; lia). cbn [bind]. rewrite (get_ok _ _ _ En'). cbn [bind]. rewrite (wf_num _ W' _ _ En'). auto.
Qed.

(** ** Its links are made hard *)
Definition renum (c : net A) : net A := map (fun p => set_gnum (fst p) (snd p)) (combine (seq 0 (length c)) c).
Lemma renum_nth c x : nth_error (renum c) x = option_map (set_gnum x) (nth_error c x).
Proof.
  unfold renum. rewrite nth_error_map. destruct (nth_error c x) as [n|] eqn:E.
  - rewrite (nth_combine (seq 0 (length c)) c x x n) by (auto; rewrite nth_seq, (proj2 (Nat.ltb_lt _ _) (nth_lt _ _ _ E)); auto). auto.
  - rewrite (proj2 (nth_error_None _ _)); auto. rewrite combine_length, seq_length, Nat.min_id. now apply nth_error_None.
Qed.
Lemma renum_length c : length (renum c) = length c.
Proof. unfold renum. rewrite map_length, combine_length, seq_length. lia. Qed.
Lemma renum_labels c : map glabel (renum c) = map glabel c.
Proof. apply nth_ext_eq. intros x. rewrite !nth_error_map, renum_nth. destruct (nth_error c x); auto. Qed.
Lemma renum_places c : places (renum c).
Proof. intros i n E. rewrite renum_nth in E. destruct (nth_error c i); [|discriminate]. injection E as <-. auto. Qed.
Lemma renum_dict c : MakeLabelDict (renum c) = MakeLabelDict c.
Proof. unfold MakeLabelDict. rewrite renum_labels, renum_length. auto. Qed.
Definition put_link (c : net A) (num : nat -> nat) (l : link A) : link A :=
  let j := match dict_find (MakeLabelDict c) (llabel l) with Some j => j | None => 0 end in mkLink (num j) (llabel l) (lstatus l) (Some j) (lbtw l) (lweight l).
Definition num_of (c : net A) (j : nat) : nat := match nth_error c j with Some n => gnum n | None => 0 end.
Lemma rewire_any c : NoDup (map glabel c) -> (forall n l, In n c -> In l (gadj n) -> In (llabel l) (map glabel c)) ->
  RewireAdjacencyByLabel c = Ok (map (fun n => reset_cache (set_gadj (map (put_link c (num_of c)) (gadj n)) n)) c).
Proof.
  intros D H. unfold RewireAdjacencyByLabel. apply mapM_ok. intros n Hn. rewrite (mapM_ok _ (put_link c (num_of c))); auto. intros l Hl. unfold put_link.
  assert (D' : NoDup (map glabel (renum c))) by (rewrite renum_labels; auto). rewrite <- (renum_dict c). destruct (dict_find (MakeLabelDict (renum c)) (llabel l)) as [j|] eqn:E.
  - cbn [deref bind]. destruct (dict_some _ _ _ (renum_places c) D' E) as (m & Em & _). rewrite renum_nth in Em. destruct (nth_error c j) as [k|] eqn:Ek; [|discriminate]. rewrite (get_ok _ _ _ Ek). cbn [bind]. unfold num_of. rewrite Ek. auto.
  - apply dict_none in E; auto using renum_places. destruct E. rewrite renum_labels. eauto.
Qed.
Lemma finish_ok c : NoDup (map glabel c) -> (forall n l, In n c -> In l (gadj n) -> In (llabel l) (map glabel c)) ->
  (do c <- RewireAdjacencyByLabel c; RenumberNodes c) = Ok (map (fun n => reset_cache (set_gadj (map (place (renum c)) (gadj n)) n)) (renum c)).
Proof.
  intros D H. rewrite rewire_any by auto. cbn [bind]. unfold RenumberNodes. set (c1 := map _ c). fold (renum c1). assert (L1 : length c1 = length c) by apply map_length.
  assert (D' : NoDup (map glabel (renum c))) by (rewrite renum_labels; auto).
  assert (N1 : forall x, nth_error (renum c1) x = option_map (fun n => set_gnum x (reset_cache (set_gadj (map (put_link c (num_of c)) (gadj n)) n))) (nth_error c x)) by (intros x; rewrite renum_nth; unfold c1; rewrite nth_error_map; destruct (nth_error c x); auto).
  rewrite (mapM_ok _ (fun n => set_gadj (map (fun l => mkLink (match lref l with Some j => j | None => 0 end) (llabel l) (lstatus l) (lref l) (lbtw l) (lweight l)) (gadj n)) n)).
  - f_equal. apply nth_ext_eq. intros x. rewrite !nth_error_map, N1, renum_nth. destruct (nth_error c x) as [n|]; auto. cbn. f_equal. unfold set_gadj, reset_cache, set_gnum. cbn. f_equal. rewrite map_map. apply map_ext. intros l. unfold put_link, place. cbn. rewrite renum_dict. auto.
  - intros n Hn. apply In_nth_error in Hn as [x Ex]. rewrite N1 in Ex. destruct (nth_error c x) as [m|] eqn:Em; [|discriminate]. injection Ex as <-. cbn [gadj set_gnum reset_cache set_gadj].
    rewrite (mapM_ok _ (fun l => mkLink (match lref l with Some j => j | None => 0 end) (llabel l) (lstatus l) (lref l) (lbtw l) (lweight l))); auto. intros l Hl. apply in_map_iff in Hl as (l0 & <- & Hl). unfold put_link. cbn.
    assert (Hin : In (llabel l0) (map glabel (renum c))) by (rewrite renum_labels; eapply H; eauto; eapply nth_error_In; eauto).
    destruct (dict_find (MakeLabelDict c) (llabel l0)) as [j|] eqn:Ej; [|rewrite <- renum_dict in Ej; apply dict_none in Ej; auto using renum_places; tauto].
    rewrite <- renum_dict in Ej. destruct (dict_some _ _ _ (renum_places c) D' Ej) as (k & Ek & _). rewrite renum_nth in Ek. destruct (nth_error c j) as [k'|] eqn:Ek'; [|discriminate].
    rewrite (get_ok _ j (set_gnum j (reset_cache (set_gadj (map (put_link c (num_of c)) (gadj k')) k')))) by (rewrite N1, Ek'; auto). reflexivity.
Qed.
Lemma TN_labels Q s : TN Q s -> (forall v, In v Q -> v < length g) -> map glabel s = map (label_of g) Q.
Proof.
  intros [L H] HQ. apply nth_ext_eq. intros x. rewrite !nth_error_map. destruct (nth_error Q x) as [v|] eqn:Ev.
  - destruct (nth_ex g v) as [n En]; [apply HQ; eapply nth_error_In; eauto|]. destruct (H x v n Ev En) as (m & Em & E1 & _). rewrite Em. cbn. rewrite (label_of_nth _ _ _ En), E1. auto.
  - rewrite (proj2 (nth_error_None s x)); auto. rewrite L. now apply nth_error_None.
Qed.
Lemma labels_nodup Q : NoDup Q -> (forall v, In v Q -> v < length g) -> NoDup (map (label_of g) Q).
Proof.
  intros ND Hk. induction Q as [|i is IH]; cbn; constructor; inversion ND as [|? ? N1 N2]; subst.
  - intros H. apply in_map_iff in H as (j & E & Hj). apply (labels_inj g) in E; auto; try (apply Hk; simpl; auto). subst. auto.
  - apply IH; auto. intros; apply Hk; simpl; auto.
Qed.
Lemma TN_dict Q s : TN Q s -> NoDup Q -> (forall v, In v Q -> v < length g) -> forall j m, nth_error g j = Some m -> dict_find (MakeLabelDict s) (glabel m) = shift Q j.
Proof.
  intros T ND HQ j m Ej. pose proof (TN_labels Q s T HQ) as EL. assert (D' : NoDup (map glabel (renum s))) by (rewrite renum_labels, EL; apply labels_nodup; auto). rewrite <- renum_dict. destruct (shift Q j) as [k|] eqn:Es.
  - apply shift_spec in Es; auto. destruct T as [_ T]. destruct (T k j m Es Ej) as (t & Et & E1 & _). rewrite <- E1. change (glabel t) with (glabel (set_gnum k t)). apply dict_nth; auto using renum_places. rewrite renum_nth, Et. auto.
  - apply shift_none in Es; auto. apply dict_none; auto using renum_places. rewrite renum_labels, EL. intros H. apply in_map_iff in H as (i & Ei & Hi). rewrite <- (label_of_nth _ _ _ Ej) in Ei. apply (labels_inj g) in Ei; auto; [subst; auto|eapply nth_lt; eauto].
Qed.
Theorem finish_induced Q s : TN Q s -> NoDup Q -> (forall v, In v Q -> v < length g) -> exists c, finish_set s = Ok c /\ induced g Q c /\ length c = length Q.
Proof.
  intros T ND HQ. pose proof (TN_labels Q s T HQ) as EL. pose proof (TN_dict Q s T ND HQ) as Fd. unfold finish_set. set (c1 := CleanAdjacencies s).
  assert (L1 : map glabel c1 = map glabel s) by (unfold c1, CleanAdjacencies; rewrite map_map; reflexivity).
  assert (N1 : forall x, nth_error c1 x = option_map (fun n => reset_cache (set_gadj (filter (fun l => match dict_find (MakeLabelDict s) (llabel l) with Some _ => true | None => false end) (gadj n)) n)) (nth_error s x)) by (intros x; apply nth_error_map).
  assert (M1 : MakeLabelDict c1 = MakeLabelDict s) by (unfold MakeLabelDict; rewrite L1; unfold c1, CleanAdjacencies; now rewrite map_length).
  assert (D1 : NoDup (map glabel c1)) by (rewrite L1, EL; apply labels_nodup; auto).
  rewrite finish_ok; auto.
  2: { intros n l Hn Hl. unfold c1, CleanAdjacencies in Hn. apply in_map_iff in Hn as (m & <- & Hm). cbn in Hl. apply filter_In in Hl as [_ Hl]. destruct (dict_find (MakeLabelDict s) (llabel l)) as [j|] eqn:Ej; [|discriminate].
       rewrite <- M1, <- renum_dict in Ej. apply dict_some in Ej as (q & Eq & <-); auto using renum_places; [|rewrite renum_labels; auto]. rewrite <- renum_labels. apply in_map. eapply nth_error_In; eauto. }
  set (c2 := map _ (renum c1)). assert (Lc2 : length c2 = length Q) by (unfold c2; rewrite map_length, renum_length; unfold c1, CleanAdjacencies; rewrite map_length; apply T). exists c2. split; auto. split; auto. apply induced_by; auto.
  intros x i n Ei En. destruct T as [LT T]. destruct (T x i n Ei En) as (m & Em & E1 & E2 & E3 & E4). eexists. split; [unfold c2; rewrite nth_error_map, renum_nth, N1, Em; reflexivity|]. cbn. split; auto. split; auto. split; auto. exists (fun _ => n0). rewrite E3.
  rewrite filter_flat, flat_map_concat_map, map_map, <- flat_map_concat_map. apply flat_map_ext_in'. intros l Hl. destruct (wf_link _ W i n l En Hl) as (j & k & U1 & U2 & U3 & U4).
  unfold place, shrink. rewrite renum_dict, M1. cbn. rewrite U4, (Fd _ _ U2), U1. destruct (shift Q j); auto.
Qed.

(** ** GetLargestStronglyConnectedSet *)
Definition largest (thres : Z) (M : list nat) : Prop := strong_set g M /\ ((thres < Z.of_nat (length M))%Z \/ forall M', strong_set g M' -> length M' <= length M).
Definition best (Ms : list (list nat)) (maxS : nat) (giant : option (net A)) : Prop :=
  (forall M, In M Ms -> length M <= maxS) /\ (Ms = [] /\ maxS = 0 \/ exists M loc, In M Ms /\ giant = Some loc /\ induced g M loc /\ length M = maxS).
Lemma best_end thres Ms maxS giant : so_far Ms -> Ms <> [] -> length (concat Ms) = length g -> best Ms maxS giant -> exists M loc, giant = Some loc /\ induced g M loc /\ largest thres M.
Proof.
  intros SF Hne L [B1 [[? _]|(M & loc & HM & -> & I & LM)]]; [congruence|]. exists M, loc. split; auto. split; auto. destruct (so_far_full Ms SF L) as (F & _ & C). rewrite Forall_forall in F. split; auto. right. intros M' S'.
  destruct S' as (N' & D' & H'). destruct M' as [|a M']; [congruence|]. assert (Ha : In a (concat Ms)) by (apply C; eapply strong_lt; [split; [exact N'|split; eauto]|left; auto]).
  apply in_concat in Ha as (M1 & HM1 & Ha). rewrite (strong_same (a :: M') M1 a); [rewrite LM; auto|split; [exact N'|split; eauto]|auto|left; auto|auto].
Qed.
(** One round of the loop. *)
Lemma round_best Ms maxS giant Q loc thres : so_far Ms -> so_far (Ms ++ [Q]) -> best Ms maxS giant -> induced g Q loc -> length loc = length Q ->
  exists maxS' giant' stop, (if maxS <? CountNodes loc then (CountNodes loc, Some loc, (length g / 2 <? CountNodes loc) || (thres <? Z.of_nat (CountNodes loc))%Z) else (maxS, giant, false)) = (maxS', giant', stop) /\ best (Ms ++ [Q]) maxS' giant' /\
    (stop = true -> exists M loc, giant' = Some loc /\ induced g M loc /\ largest thres M).
Proof.
  intros SF SF' [B1 B2] I L. unfold CountNodes. rewrite L. assert (SQ : strong_set g Q) by (destruct SF' as [F _]; apply Forall_app in F as [_ F]; inversion F; auto). assert (PQ : 0 < length Q) by (destruct SQ as (N & _); destruct Q; [congruence|cbn; lia]).
  destruct (Nat.ltb_spec maxS (length Q)) as [H|H].
  - do 3 eexists. split; [reflexivity|]. split.
    + split; [intros M HM; apply in_app_or in HM as [HM|[<-|[]]]; auto; specialize (B1 M HM); lia|]. right. exists Q, loc. split; [apply in_or_app; right; left; auto|auto].
    + intros E. exists Q, loc. split; auto. split; auto. split; auto. apply orb_prop in E as [E|E]; [right|left; apply Z.ltb_lt; auto]. apply Nat.ltb_lt in E. intros M' S'. destruct (Nat.eq_dec (length M') (length Q)); [lia|].
      pose proof (strong_disjoint M' Q S' SQ ltac:(auto)) as Hs. pose proof (Nat.div_mod (length g) 2 ltac:(lia)). pose proof (Nat.mod_upper_bound (length g) 2 ltac:(lia)). lia.
  - exists maxS, giant, false. split; auto. split; [|discriminate]. split; [intros M HM; apply in_app_or in HM as [HM|[<-|[]]]; auto|]. right. destruct B2 as [[-> ->]|(M & loc' & HM & R)]; [lia|]. exists M, loc'. split; auto. apply in_or_app. auto.
Qed.
Lemma TN_act Q s g' v : TN Q s -> same_but_state g g' -> v < length g -> ~ In v Q -> (forall n, nth_error g' v = Some n -> gstate n = 1) -> exists s', put_node g' s v = Ok s' /\ TN (Q ++ [v]) s'.
Proof. intros T S L _ _. apply put_node_ok; auto. Qed.
Lemma TN_empty : TN [] [].
Proof. split; auto. intros [|x] v n E; discriminate. Qed.
Lemma strong_ok thres : forall fuel Ms x maxS giant, so_far Ms -> after Ms x -> best Ms maxS giant -> length (concat Ms) < length g -> length g - length (concat Ms) < fuel ->
  exists M loc g', strong_sets fuel (length g) thres x maxS giant = Ok (Some loc, g') /\ same_but_state g g' /\ induced g M loc /\ largest thres M.
Proof.
  induction fuel as [|f IH]; intros Ms x maxS giant SF B Bs L Hf; [lia|]. cbn [strong_sets]. destruct (so_far_left Ms SF L) as (k & Lk & Hk).
  destruct (round_ok g W c0 Wc Lc Nc put_node TN [] TN_act TN_empty true (fun v => In v (concat Ms)) (length (concat Ms)) x k (length g + 1)) as (p & x1 & x' & lp & d & Q & E1 & E2 & Lp & Hp & _ & ND & HQ & G & CL & SS'); auto; [lia|].
  rewrite E1. cbn [bind]. rewrite E2. cbn [bind]. destruct (so_far_snoc Ms p Q SF Lp Hp ND HQ) as [SF' EC].
  destruct (finish_induced Q (set_of _ x') (ss_ti _ _ _ _ _ _ _ SS') ND) as (loc & E3 & I & LL'); [intros v Hv; apply HQ in Hv as [Hv _]; eapply reach_lt; eauto|]. rewrite E3. cbn [bind]. rewrite CL. cbn [bind].
  destruct (round_best Ms maxS giant Q loc thres SF SF' Bs I LL') as (maxS' & giant' & stop & E4 & Bs' & Hst). rewrite E4. cbn [sg anod].
  assert (An : anod _ x' = length (concat (Ms ++ [Q]))) by (rewrite EC, app_length; apply (ss_an _ _ _ _ _ _ _ SS')). pose proof (so_far_len _ SF') as LL. destruct stop.
  - destruct (Hst eq_refl) as (M & loc' & -> & I' & Lg). exists M, loc', (sg _ x'). auto.
  - rewrite An. destruct (Nat.ltb_spec (length (concat (Ms ++ [Q]))) (length g)) as [H|H].
    + rewrite <- An. eapply IH; eauto; [eapply SS_after; eauto|]. assert (length Q <> 0) by (destruct Q; [exfalso; apply (proj2 (HQ p)); split; apply reach_refl; auto|discriminate]). rewrite EC, app_length in *. lia.
    + destruct (best_end thres (Ms ++ [Q]) maxS' giant' SF') as (M & loc' & -> & I' & Lg); auto; [destruct Ms; discriminate|lia|]. exists M, loc', (sg _ x'). auto.
Qed.
Theorem largest_strong thres : g <> [] -> exists M loc g', GetLargestStronglyConnectedSet g thres = Ok (Some loc, g') /\ same_but_state g g' /\ induced g M loc /\ largest thres M.
Proof.
  intros Hg. unfold GetLargestStronglyConnectedSet, CountNodes. rewrite CopyNetwork_copy by auto. cbn [bind]. assert (0 < length g) by (destruct g; [congruence|cbn; lia]).
  apply (strong_ok thres (length g + 1) []); [split; constructor|apply start_after; auto| |cbn; lia|cbn; lia]. split; [intros M []|left; auto].
Qed.
End Sets.

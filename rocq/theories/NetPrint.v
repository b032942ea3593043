(** NetPrint.v -- writing networks (FPrintNetAdjacencyList) and reading them again. *)
From Coq Require Import List Arith Lia Ascii Bool QArith.
From Verif Require Import Base Num ListLib IoModel IoSpec IoProof GraphModel GraphSpec GraphProof BipartModel BipartSpec BipartRen BipartMem BipartFile BipartCopy NetModel NetSpec NetBuild.
Import ListNotations.
Local Open Scope nat_scope.

Section Print.
Context {A : Type} {ops : NumOps A}.
Implicit Types (g : net A).
Notation row := (label * label * A)%type.

Lemma code_inj x y : nat_of_ascii x = nat_of_ascii y -> x = y.
Proof. intros H. rewrite <- (ascii_nat_embedding x), <- (ascii_nat_embedding y). now rewrite H. Qed.
Lemma strcmp_lex a : forall b, strcmp_le a b = true <-> lex a b.
Proof.
  induction a as [|x a IH]; intros [|y b]; cbn [strcmp_le].
  - split; auto using lex_nil.
  - split; auto using lex_nil.
  - split; [discriminate|]. intros H. inversion H.
  - destruct (Nat.ltb_spec (nat_of_ascii x) (nat_of_ascii y)) as [L|L]; [split; auto using lex_lt|]. destruct (Nat.ltb_spec (nat_of_ascii y) (nat_of_ascii x)) as [L'|L'].
    + split; [discriminate|]. intros H. inversion H; subst; lia.
    + assert (x = y) by (apply code_inj; lia). subst y. rewrite IH. split; auto using lex_eq. intros H. inversion H; subst; auto; lia.
Qed.
Lemma lex_anti a : forall b, lex a b -> lex b a -> a = b.
Proof.
  induction a as [|x a IH]; intros b H1 H2; inversion H1; subst; inversion H2; subst; auto; try lia. f_equal. auto.
Qed.
Lemma lex_total a : forall b, lex a b \/ lex b a.
Proof.
  induction a as [|x a IH]; intros [|y b]; auto using lex_nil. destruct (Nat.lt_trichotomy (nat_of_ascii x) (nat_of_ascii y)) as [H|[H|H]]; auto using lex_lt.
  apply code_inj in H. subst y. destruct (IH b); auto using lex_eq.
Qed.

Lemma net_rows_links g i n : wf_net g -> nth_error g i = Some n ->
  map (fun j => (label_of g i, label_of g j, match weight g i j with Some w => w | None => n0 end)) (nbrs g i) = map (fun l => (glabel n, llabel l, lweight l)) (gadj n).
Proof.
  intros W En. unfold nbrs at 1. rewrite En. pose proof (wf_nodup _ W i) as ND. unfold nbrs in ND. rewrite En in ND.
  assert (G : forall ls, (forall l, In l ls -> In l (gadj n)) -> map (fun j => (label_of g i, label_of g j, match weight g i j with Some w => w | None => n0 end)) (targets ls) = map (fun l => (glabel n, llabel l, lweight l)) ls); [|apply G; auto].
  induction ls as [|l ls IH]; intros Hs; auto. destruct (wf_link _ W i n l En) as (j & m & E1 & E2 & E3 & E4); [apply Hs; simpl; auto|]. unfold targets. cbn. rewrite E1. cbn. f_equal.
  - rewrite (weight_eq _ _ _ _ En), (weight_link (gadj n) l j ND); auto; [|apply Hs; simpl; auto]. unfold label_of. now rewrite En, E2, E4.
  - apply IH. intros; apply Hs; simpl; auto.
Qed.
Lemma net_rows_In g a c w : wf_net g -> (In (a, c, w) (all_rows g) <-> exists i j, weight g i j = Some w /\ a = label_of g i /\ c = label_of g j).
Proof.
  intros W. unfold all_rows. rewrite in_flat_map. split.
  - intros (i & _ & H). apply in_map_iff in H as (j & E & Hj). injection E as <- <- <-. exists i, j. apply nbrs_weight in Hj. destruct (weight g i j); [|congruence]. auto.
  - intros (i & j & Hw & -> & ->). assert (Hn : In j (nbrs g i)) by (apply nbrs_weight; congruence). exists i. split; [apply in_seq; apply nbrs_lt in Hn; auto; lia|]. apply in_map_iff. exists j. rewrite Hw. split; auto.
Qed.
Lemma labels_seq g : map (label_of g) (seq 0 (length g)) = map glabel g.
Proof.
  apply nth_ext_eq. intros i. rewrite !nth_error_map, nth_seq. destruct (Nat.ltb_spec i (length g)) as [L|L].
  - destruct (nth_ex g i L) as [n E]. rewrite E. cbn. now rewrite (label_of_nth _ _ _ E).
  - now rewrite (proj2 (nth_error_None _ _) L).
Qed.
Lemma labels_inj g i j : NoDup (map glabel g) -> i < length g -> j < length g -> label_of g i = label_of g j -> i = j.
Proof. intros D Hi Hj E. rewrite <- labels_seq in D. eapply (distinct_inj g (seq 0 (length g))); eauto; apply in_seq; lia. Qed.
Lemma net_rows_once g : wf_net g -> NoDup (map glabel g) -> NoDup (map fst (all_rows g)).
Proof.
  intros W D. unfold all_rows. rewrite flat_map_concat_map, concat_map, map_map, <- flat_map_concat_map. apply NoDup_flat_map.
  - apply seq_NoDup.
  - intros i Hi. rewrite map_map. cbn. pose proof (wf_nodup _ W i) as ND. assert (Hs : forall j, In j (nbrs g i) -> j < length g) by (intros j Hj; apply nbrs_lt in Hj; tauto).
    revert ND Hs. induction (nbrs g i) as [|j l IH]; intros ND Hs; cbn; constructor; inversion ND as [|? ? N1 N2]; subst.
    + intros H. apply in_map_iff in H as (k & E & Hk). injection E as E. apply (labels_inj g) in E; auto; try (apply Hs; simpl; auto). subst. auto.
    + apply IH; auto. intros; apply Hs; simpl; auto.
  - intros i i' y Hi Hi' Hy Hy'. rewrite map_map in Hy, Hy'. apply in_map_iff in Hy as (j & <- & _). apply in_map_iff in Hy' as (j' & E & _). cbn in E. injection E as E _. apply in_seq in Hi, Hi'. apply (labels_inj g); auto; lia.
Qed.

Theorem FPrintNetAdjacencyList_text show g weighted symmetric f : wf_net g -> (forall a c, f a c = true <-> lex a c) ->
  FPrintNetAdjacencyList show g weighted symmetric =
  Ok (concat (map (row_line show weighted) (filter (fun r => negb symmetric || f (fst (fst r)) (snd (fst r))) (all_rows g)))).
Proof.
  intros W Hf. assert (Ef : forall a c, f a c = strcmp_le a c) by (intros a c; apply eq_true_iff_eq; now rewrite Hf, strcmp_lex).
  unfold FPrintNetAdjacencyList, all_rows.
  assert (F : forall n ls out, (forall x, In x ls -> exists i, nth_error g i = Some n /\ In x (gadj n)) -> foldM (fun out l =>
      do j <- deref (lref l);
      do m <- get g j;
      if negb symmetric || strcmp_le (glabel n) (glabel m)
      then Ok (out ++ glabel n ++ [" "%char] ++ glabel m ++ (if weighted then [" "%char] ++ show (lweight l) else []) ++ [nl])
      else Ok out) out ls =
      Ok (out ++ concat (map (row_line show weighted) (filter (fun r => negb symmetric || f (fst (fst r)) (snd (fst r))) (map (fun l => (glabel n, llabel l, lweight l)) ls))))).
  { intros n. induction ls as [|x ls IH]; intros out Hs; cbn [foldM map filter]. { cbn. now rewrite app_nil_r. }
    destruct (Hs x) as (i & En & Hx); [simpl; auto|]. destruct (wf_link _ W i n x En Hx) as (j & m & E1 & E2 & E3 & E4). rewrite E1. cbn [deref bind]. rewrite (get_ok _ _ _ E2). cbn [bind fst snd].
    rewrite Ef, E4. destruct (negb symmetric || strcmp_le (glabel n) (glabel m)); cbn [bind]; rewrite IH by (intros; apply Hs; simpl; auto); auto.
    cbn [map concat]. unfold row_line at 2. now rewrite <- !app_assoc. }
  assert (G : forall rest k out, (forall x n, nth_error rest x = Some n -> nth_error g (k + x) = Some n) -> foldM (fun out n => foldM (fun out l =>
      do j <- deref (lref l);
      do m <- get g j;
      if negb symmetric || strcmp_le (glabel n) (glabel m)
      then Ok (out ++ glabel n ++ [" "%char] ++ glabel m ++ (if weighted then [" "%char] ++ show (lweight l) else []) ++ [nl])
      else Ok out) out (gadj n)) out rest =
    Ok (out ++ concat (map (row_line show weighted) (filter (fun r => negb symmetric || f (fst (fst r)) (snd (fst r)))
      (flat_map (fun i => map (fun j => (label_of g i, label_of g j, match weight g i j with Some w => w | None => n0 end)) (nbrs g i)) (seq k (length rest))))))).
  { induction rest as [|n rest IH]; intros k out H; cbn [foldM length seq flat_map]. { cbn. now rewrite app_nil_r. }
    assert (En : nth_error g k = Some n) by (rewrite <- (Nat.add_0_r k); apply (H 0); auto).
    rewrite (F n (gadj n) out) by eauto. cbn [bind]. rewrite (IH (S k)). 2: { intros x y Hx. rewrite Nat.add_succ_comm. apply (H (S x)). auto. }
    rewrite (net_rows_links g k n W En), filter_app, map_app, concat_app, app_assoc. reflexivity. }
  rewrite (G g 0 []); auto.
Qed.

(** ** What was written is read again *)
Lemma arcs_once al sym (es : list row) : NoDup (map fst es) -> (sym = true -> forall a c w, In (a, c, w) es -> lex a c) -> NoDup (map fst (arcs al sym es)).
Proof.
  intros ND Ho. unfold arcs. rewrite flat_map_concat_map, concat_map, map_map, <- flat_map_concat_map. apply NoDup_flat_map.
  - eapply NoDup_map_inv. exact ND.
  - intros [[a c] w] _. destruct (eqb_label_spec a c) as [->|N]; [destruct al; cbn; repeat constructor; auto|]. destruct sym; cbn; repeat constructor; cbn; auto. intros [H|[]]. congruence.
  - assert (U : forall r r', In r es -> In r' es -> fst r = fst r' -> r = r').
    { clear - ND. induction es as [|x es IH]; intros r r' Hr Hr' E; [destruct Hr|]. cbn in ND. inversion ND as [|? ? N1 N2]; subst. destruct Hr as [->|Hr], Hr' as [->|Hr']; auto.
      - destruct N1. rewrite E. now apply in_map.
      - destruct N1. rewrite <- E. now apply in_map. }
    intros [[a c] w] [[a' c'] w'] y Hr Hr' Hy Hy'. apply U; auto. cbn [fst].
    destruct (eqb_label_spec a c) as [->|N], (eqb_label_spec a' c') as [->|N'].
    + destruct al; [|destruct Hy]. destruct Hy as [<-|[]], Hy' as [Hy'|[]]. cbn in Hy'. congruence.
    + destruct al; [|destruct Hy]. destruct Hy as [<-|[]]. cbn in Hy'. destruct Hy' as [Hy'|Hy']; [congruence|]. destruct sym; [|destruct Hy']. destruct Hy' as [Hy'|[]]. cbn in Hy'. congruence.
    + destruct al; [|destruct Hy']. destruct Hy' as [<-|[]]. cbn in Hy. destruct Hy as [Hy|Hy]; [congruence|]. destruct sym; [|destruct Hy]. destruct Hy as [Hy|[]]. cbn in Hy. congruence.
    + destruct sym; cbn [map fst In] in Hy, Hy'.
      * pose proof (Ho eq_refl _ _ _ Hr) as O. pose proof (Ho eq_refl _ _ _ Hr') as O'.
        destruct Hy as [<-|[<-|[]]], Hy' as [Hy'|[Hy'|[]]]; injection Hy' as -> ->; auto; destruct N; now apply lex_anti.
      * destruct Hy as [<-|[]], Hy' as [Hy'|[]]. congruence.
Qed.
Lemma arcs_In al sym (es : list row) a c w : In (a, c, w) (arcs al sym es) <->
  (if eqb_label a c then al = true /\ In (a, c, w) es else In (a, c, w) es \/ sym = true /\ In (c, a, w) es).
Proof.
  unfold arcs. rewrite in_flat_map. destruct (eqb_label_spec a c) as [->|N].
  - split.
    + intros ([[x y] v] & Hr & H). destruct (eqb_label_spec x y) as [->|Nxy].
      * destruct al; [|destruct H]. destruct H as [H|[]]. inversion H; subst. auto.
      * destruct H as [H|H]; [congruence|]. destruct sym; [|destruct H]. destruct H as [H|[]]. congruence.
    + intros [-> H]. exists (c, c, w). split; auto. destruct (eqb_label_spec c c); [simpl; auto|congruence].
  - split.
    + intros ([[x y] v] & Hr & H). destruct (eqb_label_spec x y) as [->|Nxy].
      * destruct al; [|destruct H]. destruct H as [H|[]]. congruence.
      * destruct H as [H|H]; [injection H as -> -> ->; auto|]. destruct sym; [|destruct H]. destruct H as [H|[]]. injection H as -> -> ->. auto.
    + intros [H|[-> H]].
      * exists (a, c, w). split; auto. destruct (eqb_label_spec a c); [congruence|simpl; auto].
      * exists (c, a, w). split; auto. destruct (eqb_label_spec c a); [congruence|simpl; auto].
Qed.
Theorem reading_net_rows show scan weighted al add sym (es : list row) : Forall (row_fits show scan weighted) es ->
  exists g, FBuildNetwork scan (concat (map (row_line show weighted) es)) weighted al add sym = Ok (Some g) /\ net_of al sym add (map (as_read weighted) es) g.
Proof.
  intros F. eapply FBuildNetwork_reads; [eapply rows_lines; eauto|now apply rows_hold|].
  intros a c w Hin. apply in_map_iff in Hin as ([[a' c'] w'] & E & Hr). injection E as <- <- _. rewrite Forall_forall in F. destruct (F _ Hr) as (_ & _ & L1 & L2 & _). auto.
Qed.
Theorem Net_roundtrip show scan g weighted add symmetric auto : wf_net g -> NoDup (map glabel g) -> Forall (row_fits show scan weighted) (all_rows g) ->
  (symmetric = true -> forall i j, weight g i j = weight g j i) -> (auto = false -> forall i, ~ In i (nbrs g i)) ->
  exists text g', FPrintNetAdjacencyList show g weighted symmetric = Ok text /\ FBuildNetwork scan text weighted auto add symmetric = Ok (Some g') /\ wf_net g' /\
    NoDup (map glabel g') /\
    (forall lab, In lab (map glabel g') <-> exists i n, nth_error g i = Some n /\ glabel n = lab /\ (nbrs g i <> [] \/ exists j, In i (nbrs g j))) /\
    (forall i j i' j', i < length g -> j < length g -> i' < length g' -> j' < length g' -> label_of g' i' = label_of g i -> label_of g' j' = label_of g j ->
       weight g' i' j' = option_map (fun w => if weighted then w else n1) (weight g i j)).
Proof.
  intros W D F Hs Ha. set (keep := fun r : row => negb symmetric || strcmp_le (fst (fst r)) (snd (fst r))). set (es := filter keep (all_rows g)).
  assert (F' : Forall (row_fits show scan weighted) es) by (rewrite Forall_forall in *; intros r Hr; apply filter_In in Hr as [Hr _]; auto).
  destruct (reading_net_rows show scan weighted auto add symmetric es F') as (g' & E & [W' NL NW NF]).
  exists (concat (map (row_line show weighted) es)), g'. split; [apply FPrintNetAdjacencyList_text; auto; apply strcmp_lex|]. splits; auto.
  - rewrite NL. apply numbered_NoDup.
  - intros lab. rewrite NL, numbered_In. unfold row_labels. rewrite in_flat_map. split.
    + intros ([[a c] w] & Hr & H). apply in_map_iff in Hr as ([[a' c'] w'] & Er & Hr). injection Er as -> -> _. apply filter_In in Hr as [Hr _].
      apply net_rows_In in Hr as (i & j & Hw & -> & ->); auto. assert (Hn : In j (nbrs g i)) by (apply nbrs_weight; congruence). destruct (nbrs_lt g i j W Hn) as [Li Lj].
      destruct (nth_ex g i Li) as [ni Ei], (nth_ex g j Lj) as [nj Ej]. cbn in H. rewrite (label_of_nth _ _ _ Ei), (label_of_nth _ _ _ Ej) in H. destruct H as [<-|[<-|[]]].
      * exists i, ni. splits; auto. left. intros H. rewrite H in Hn. destruct Hn.
      * exists j, nj. splits; eauto.
    + intros (i & n & En & <- & H). assert (Hr : exists x y, In y (nbrs g x) /\ (x = i \/ y = i)).
      { destruct H as [H|[j H]]; [|eauto]. destruct (nbrs g i) as [|y l] eqn:Ey; [congruence|]. exists i, y. rewrite Ey. simpl. auto. }
      destruct Hr as (x & y & Hy & Hi). assert (Hw : weight g x y <> None) by now apply nbrs_weight.
      assert (K : exists u v w, In (label_of g u, label_of g v, w) es /\ (u = i \/ v = i)).
      { destruct (weight g x y) as [w|] eqn:Ew; [|congruence].
        destruct (keep (label_of g x, label_of g y, w)) eqn:Ek.
        - exists x, y, w. split; auto. apply filter_In. split; auto. apply net_rows_In; auto. exists x, y. auto.
        - unfold keep in Ek. apply orb_false_iff in Ek as [Ek1 Ek2]. apply negb_false_iff in Ek1. exists y, x, w. split; [|tauto]. apply filter_In. split.
          + apply net_rows_In; auto. exists y, x. rewrite <- Hs; auto.
          + unfold keep. cbn. apply orb_true_iff. right. apply strcmp_lex. destruct (lex_total (label_of g x) (label_of g y)) as [H1|H1]; auto. apply strcmp_lex in H1. cbn in Ek2. congruence. }
      destruct K as (u & v & w & Hr & Hu). exists (as_read weighted (label_of g u, label_of g v, w)). split; [now apply in_map|]. cbn. rewrite <- (label_of_nth _ _ _ En). destruct Hu as [->| ->]; auto.
  - intros i j i' j' Hi Hj Hi' Hj' Li Lj. destruct (nth_ex g' i' Hi') as [ni Ei], (nth_ex g' j' Hj') as [nj Ej]. rewrite (NW i' j' ni nj Ei Ej).
    rewrite <- (label_of_nth _ _ _ Ei), <- (label_of_nth _ _ _ Ej), Li, Lj.
    assert (Unq : forall x y w, weight g x y = Some w -> label_of g x = label_of g i -> label_of g y = label_of g j -> weight g i j = Some w).
    { intros x y w Hw H1 H2. assert (Hn : In y (nbrs g x)) by (apply nbrs_weight; congruence). destruct (nbrs_lt g x y W Hn). apply (labels_inj g) in H1; auto. apply (labels_inj g) in H2; auto. congruence. }
    assert (Back : forall w, In (label_of g i, label_of g j, w) (arcs auto symmetric (map (as_read weighted) es)) -> exists v, weight g i j = Some v /\ w = if weighted then v else n1).
    { intros w Hw. apply arcs_In in Hw. assert (G : forall a c, In (a, c, w) (map (as_read weighted) es) -> exists x y v, weight g x y = Some v /\ w = (if weighted then v else n1) /\ a = label_of g x /\ c = label_of g y).
      { intros a c H. apply in_map_iff in H as ([[a' c'] v] & Er & Hr). injection Er as -> -> <-. apply filter_In in Hr as [Hr _]. apply net_rows_In in Hr as (x & y & Hv & -> & ->); auto. exists x, y, v. auto. }
      destruct (eqb_label (label_of g i) (label_of g j)).
      - destruct Hw as [_ Hw]. apply G in Hw as (x & y & v & Hv & -> & L1 & L2). exists v. split; auto. eapply Unq; eauto.
      - destruct Hw as [Hw|[Hsy Hw]]; apply G in Hw as (x & y & v & Hv & -> & L1 & L2); exists v; split; auto; [eapply Unq; eauto|]. rewrite (Hs Hsy) in Hv. eapply Unq; eauto. }
    destruct (weight g i j) as [w|] eqn:Ew; cbn [option_map].
    + apply rows_weight_const.
      * exists (if weighted then w else n1). apply arcs_In.
        assert (R : forall x y, weight g x y = Some w -> keep (label_of g x, label_of g y, w) = true -> In (label_of g x, label_of g y, if weighted then w else n1) (map (as_read weighted) es)).
        { intros x y Hw Hk. apply in_map_iff. exists (label_of g x, label_of g y, w). split; auto. apply filter_In. split; auto. apply net_rows_In; auto. exists x, y. auto. }
        destruct (eqb_label_spec (label_of g i) (label_of g j)) as [Eij|Nij].
        -- assert (i = j) by (apply (labels_inj g); auto). subst j. split.
           ++ destruct auto; auto. destruct (Ha eq_refl i). apply nbrs_weight. congruence.
           ++ apply R; auto. unfold keep. cbn. apply orb_true_iff. right. apply strcmp_lex. destruct (lex_total (label_of g i) (label_of g i)); auto.
        -- destruct (keep (label_of g i, label_of g j, w)) eqn:Ek; [left; auto|]. right. unfold keep in Ek. apply orb_false_iff in Ek as [Ek1 Ek2]. apply negb_false_iff in Ek1. split; auto. apply R; [rewrite Hs; auto|].
           unfold keep. cbn. apply orb_true_iff. right. apply strcmp_lex. destruct (lex_total (label_of g i) (label_of g j)) as [H1|H1]; auto. apply strcmp_lex in H1. cbn in Ek2. congruence.
      * intros w' Hw'. apply Back in Hw' as (v & Hv & ->). destruct weighted; congruence.
      * apply arcs_once.
        -- rewrite map_map. rewrite (map_ext _ fst) by (intros [[a c] v]; reflexivity). unfold es. pose proof (net_rows_once g W D) as O. clear - O. induction (all_rows g) as [|r l IH]; cbn [filter map]; [constructor|]. cbn [map] in O. inversion O as [|? ? N1 N2]; subst.
           destruct (keep r); auto. cbn [map]. constructor; auto. intros H. apply N1. apply in_map_iff in H as (r' & E & Hr'). apply filter_In in Hr' as [Hr' _]. rewrite <- E. now apply in_map.
        -- intros Hsy a c v H. apply in_map_iff in H as ([[a' c'] v'] & Er & Hr). injection Er as -> -> _. apply filter_In in Hr as [_ Hk]. unfold keep in Hk. rewrite Hsy in Hk. cbn in Hk. now apply strcmp_lex.
    + apply rows_weight_none. intros w Hw. apply Back in Hw as (v & Hv & _). discriminate.
Qed.
End Print.

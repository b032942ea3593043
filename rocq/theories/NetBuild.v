(** NetBuild.v -- reading networks (FBuildNetwork). *)
From Coq Require Import List Arith Lia Ascii Bool QArith.
From Verif Require Import Base Num ListLib IoModel IoSpec IoProof GraphModel GraphSpec GraphProof BipartModel BipartSpec BipartRen BipartMem BipartFile BipartCopy NetModel NetSpec.
Import ListNotations.
Local Open Scope nat_scope.

Section Build.
Context {A : Type} {ops : NumOps A}.
Implicit Types (g : net A).
Notation row := (label * label * A)%type.

Lemma wf_snoc g lab : wf_net g -> wf_net (g ++ [bare lab (length g)]).
Proof.
  intros [R L N D]. split.
  - intros i n E. apply nth_snoc in E as [E|[-> ->]]; auto.
  - intros i n l E Hl. apply nth_snoc in E as [E|[-> ->]]; [|destruct Hl]. destruct (L i n l E Hl) as (j & m & E1 & E2 & E3 & E4). exists j, m. splits; auto. rewrite nth_error_app1; auto. eapply nth_lt; eauto.
  - intros i. rewrite nbrs_snoc; auto.
  - intros i n E. apply nth_snoc in E as [E|[-> ->]]; eauto.
Qed.
Lemma wf_nil : wf_net (@nil (gnode A)).
Proof. split; try (intros [|i]; discriminate). intros [|i]; constructor. Qed.
Lemma Create_at g lab : CreateNodeAt g (match rev (seq 0 (length g)) with [] => None | k :: _ => Some k end) lab = CreateNodeGraph g lab.
Proof.
  unfold CreateNodeAt, CreateNodeGraph. destruct g as [|n g] using rev_ind; [reflexivity|]. rewrite app_length, Nat.add_1_r, seq_S, !rev_app_distr. cbn [rev app]. cbn [Nat.add].
  destruct (store_label lab) as [l|e]; cbn [bind]; auto. rewrite (get_ok (g ++ [n]) (length g) n) by (rewrite nth_error_app2, Nat.sub_diag by lia; reflexivity). reflexivity.
Qed.
Lemma Create_ok g lab : wf_net g -> length lab < 100 -> CreateNodeGraph g lab = Ok (length g, g ++ [bare lab (length g)]).
Proof.
  intros W L. unfold CreateNodeGraph, store_label, max_label. rewrite (proj2 (Nat.ltb_lt _ _) L). cbn [check bind]. destruct g as [|n g] using rev_ind; [reflexivity|].
  rewrite rev_app_distr. cbn [rev app]. rewrite (wf_num _ W (length g) n) by (rewrite nth_error_app2, Nat.sub_diag by lia; reflexivity). rewrite app_length. reflexivity.
Qed.
Definition whole g d labs := side g (seq 0 (length g)) d labs.
Lemma intern_net g d L lab : wf_net g -> whole g d (numbered L) -> length lab < 100 ->
  exists p g' d', intern g d lab = Ok (p, g', d') /\ wf_net g' /\ whole g' d' (numbered (L ++ [lab])) /\ p < length g' /\ label_of g' p = lab /\
    (In lab L /\ g' = g \/ ~ In lab L /\ g' = g ++ [bare lab (length g)] /\ p = length g).
Proof.
  intros W S Hl. destruct (intern_spec g _ d L lab S Hl) as (p & g' & s' & d' & E & S' & Ip & Lp & C). exists p, g', d'. unfold intern_node in E. unfold intern. rewrite Create_at in E.
  destruct (dict_find d lab) as [q|] eqn:Ef.
  - injection E as <- <- <- <-. apply in_seq in Ip. splits; auto; [lia|]. destruct C as [(C1 & _)|(C1 & C2 & _)]; auto. exfalso. apply (f_equal (@length _)) in C2. rewrite app_length in C2. simpl in C2. lia.
  - destruct (CreateNodeGraph g lab) as [[q h]|e]; [|discriminate]. cbn [bind] in *. injection E as <- <- <- <-. destruct C as [(C1 & -> & C3)|(C1 & -> & C3 & ->)].
    + exfalso. apply (f_equal (@length _)) in C3. rewrite app_length in C3. simpl in C3. lia.
    + rewrite seq_length in *. splits; auto.
      * now apply wf_snoc.
      * unfold whole. rewrite app_length. simpl. rewrite Nat.add_1_r, seq_S. exact S'.
      * rewrite app_length. simpl. lia.
Qed.

(** The weights are those of the arcs [es]. *)
Definition carries aw (es : list row) g := forall i j, i < length g -> j < length g -> weight g i j = rows_weight aw es (label_of g i) (label_of g j).
Lemma carries_snoc aw (es : list row) g lab : wf_net g -> carries aw es g -> (forall a c w, In (a, c, w) es -> a <> lab /\ c <> lab) -> carries aw es (g ++ [bare lab (length g)]).
Proof.
  intros W C H i j Hi Hj. rewrite app_length in Hi, Hj. simpl in Hi, Hj. rewrite weight_snoc by reflexivity.
  assert (Lb : label_of (g ++ [bare lab (length g)]) (length g) = lab) by (unfold label_of; rewrite nth_error_app2, Nat.sub_diag by lia; reflexivity).
  destruct (Nat.eq_dec i (length g)) as [->|Ni]; [|destruct (Nat.eq_dec j (length g)) as [->|Nj]].
  - rewrite Lb, rows_weight_none. { unfold weight. now rewrite (proj2 (nth_error_None _ _)). } intros w Hw. destruct (H _ _ _ Hw). congruence.
  - rewrite Lb, rows_weight_none.
    + destruct (weight g i (length g)) as [w|] eqn:Ew; auto. exfalso. assert (Hn : In (length g) (nbrs g i)) by (apply nbrs_weight; congruence). apply nbrs_lt in Hn; auto. lia.
    + intros w Hw. destruct (H _ _ _ Hw). congruence.
  - rewrite !label_of_app by lia. apply C; lia.
Qed.
Lemma carries_add aw (es : list row) g d labs p q a c w al st : wf_net g -> whole g d labs -> carries aw es g -> p < length g -> q < length g -> label_of g p = a -> label_of g q = c -> p <> q \/ al = true ->
  exists r g', AddAdjacency g p q al aw w st = Ok (r, g') /\ wf_net g' /\ same_nodes g g' /\ carries aw (es ++ [(a, c, w)]) g'.
Proof.
  intros W S C Lp Lq Ea Ec Hd. destruct (AddAdjacency_spec g p q al aw w st W Lp Lq) as (r & g' & E & W' & N & H). exists r, g'. splits; auto.
  assert (Eb : (p =? q) && negb al = false) by (destruct Hd as [Hd| ->]; [rewrite (proj2 (Nat.eqb_neq _ _) Hd); auto|apply andb_false_r]). rewrite Eb in H. destruct H as (Hw & _ & _).
  intros i j Hi Hj. rewrite <- (same_nodes_length _ _ N) in Hi, Hj. rewrite Hw, !(same_nodes_label _ _ _ N), rows_weight_snoc.
  assert (Es : (i =? p) && (j =? q) = same_ends (label_of g i) (label_of g j) (a, c, w)).
  { apply eq_true_iff_eq. rewrite same_ends_true. cbn. rewrite andb_true_iff, !Nat.eqb_eq. split; [intros [-> ->]; congruence|].
    intros [= E1 E2]. split; eapply (side_inj _ _ _ _ _ _ S); try (apply in_seq; lia); congruence. }
  rewrite Es. destruct (same_ends _ _ _); [|now apply C]. rewrite (C p q) by auto. now rewrite Ea, Ec.
Qed.
Lemma arcs_labels al sym (es : list row) a c w : In (a, c, w) (arcs al sym es) -> In a (row_labels es) /\ In c (row_labels es).
Proof.
  intros H. apply in_flat_map in H as ([[x y] v] & Hr & H).
  assert (Hx : In x (row_labels es)) by (apply in_flat_map; exists (x, y, v); simpl; auto). assert (Hy : In y (row_labels es)) by (apply in_flat_map; exists (x, y, v); simpl; auto).
  destruct (eqb_label x y); [destruct al; [destruct H as [H|[]]; injection H as <- <- _; auto|destruct H]|].
  destruct H as [H|H]; [injection H as <- <- _; auto|]. destruct sym; [|destruct H]. destruct H as [H|[]]. injection H as <- <- _. auto.
Qed.
Record net_built al sym aw (es : list row) g d : Prop := {
  nb_wf : wf_net g;
  nb_side : whole g d (numbered (row_labels es));
  nb_carries : carries aw (arcs al sym es) g;
  nb_fields : forall n, In n g -> gstate n = 0 /\ ggroup n = None
}.
Lemma arcs_app al sym (es fs : list row) : arcs al sym (es ++ fs) = arcs al sym es ++ arcs al sym fs.
Proof. unfold arcs. apply flat_map_app. Qed.
Lemma eqb_label_spec (a c : label) : reflect (a = c) (eqb_label a c).
Proof. destruct (eqb_label a c) eqn:E; constructor; [now apply eqb_label_eq|]. intros H. apply eqb_label_eq in H. congruence. Qed.
Lemma label_of_nth g i n : nth_error g i = Some n -> label_of g i = glabel n.
Proof. intros E. unfold label_of. now rewrite E. Qed.
Lemma net_line_spec al sym aw (es : list row) g d l1 l2 w : net_built al sym aw es g d -> length l1 < 100 -> length l2 < 100 ->
  exists g' d', net_line al aw sym g d l1 l2 w = Ok (g', d') /\ net_built al sym aw (es ++ [(l1, l2, w)]) g' d'.
Proof.
  intros [W S C F] L1 L2. unfold net_line. destruct (intern_net g d _ l1 W S L1) as (p & g1 & d1 & -> & W1 & S1 & Lp & Ep & K1). cbn [bind].
  assert (C1 : carries aw (arcs al sym es) g1).
  { destruct K1 as [(_ & ->)|(Hn & -> & _)]; auto. apply carries_snoc; auto. intros a c v Hv. apply arcs_labels in Hv as [Ha Hc]. split; intros ->; auto. }
  assert (F1 : forall n, In n g1 -> gstate n = 0 /\ ggroup n = None). { destruct K1 as [(_ & ->)|(Hn & -> & _)]; auto. intros n Hin. apply in_app_or in Hin as [Hin|[<-|[]]]; auto. }
  destruct (intern_net g1 d1 _ l2 W1 S1 L2) as (q & g2 & d2 & -> & W2 & S2 & Lq & Eq & K2). cbn [bind].
  assert (C2 : carries aw (arcs al sym es) g2).
  { destruct K2 as [(_ & ->)|(Hn & -> & _)]; auto. apply carries_snoc; auto. intros a c v Hv. apply arcs_labels in Hv as [Ha Hc]. split; intros ->; apply Hn; apply in_or_app; auto. }
  assert (F2 : forall n, In n g2 -> gstate n = 0 /\ ggroup n = None). { destruct K2 as [(_ & ->)|(Hn & -> & _)]; auto. intros n Hin. apply in_app_or in Hin as [Hin|[<-|[]]]; auto. }
  assert (Lp2 : p < length g2 /\ label_of g2 p = l1).
  { destruct K2 as [(_ & ->)|(Hn & -> & _)]; auto. rewrite app_length, label_of_app by auto. split; [lia|auto]. }
  destruct Lp2 as [Lp2 Ep2].
  assert (S2' : whole g2 d2 (numbered (row_labels (es ++ [(l1, l2, w)])))). { unfold row_labels in *. rewrite flat_map_app. cbn [flat_map fst snd app]. rewrite <- app_assoc in S2. exact S2. }
  assert (Epq : eqb_label l1 l2 = (p =? q)).
  { apply eq_true_iff_eq. rewrite eqb_label_eq, Nat.eqb_eq. split; [|intros ->; congruence]. intros E. eapply (side_inj _ _ _ _ _ _ S2); try (apply in_seq; lia). congruence. }
  assert (Fin : forall g', same_nodes g2 g' -> wf_net g' -> carries aw (arcs al sym (es ++ [(l1, l2, w)])) g' -> net_built al sym aw (es ++ [(l1, l2, w)]) g' d2).
  { intros g' N W' C'. split; auto; [|eapply same_nodes_fields; eauto]. unfold whole in *. rewrite <- (same_nodes_length _ _ N). eapply side_nodes; eauto. }
  rewrite arcs_app in Fin. unfold arcs at 2 in Fin. cbn [flat_map] in Fin. rewrite app_nil_r, Epq in Fin.
  destruct (Nat.eqb_spec p q) as [->|Npq].
  - rewrite andb_false_r. destruct al.
    + destruct (carries_add aw (arcs true sym es) g2 d2 _ q q l1 l2 w true 0 W2 S2 C2 Lq Lq Ep2 Eq (or_intror eq_refl)) as (r & g' & -> & W' & N & C'). cbn [bind]. exists g', d2. split; auto.
    + unfold AddAdjacency. rewrite Nat.eqb_refl. cbn [andb negb bind]. exists g2, d2. split; auto. apply Fin; auto using same_nodes_refl. now rewrite app_nil_r.
  - destruct (carries_add aw (arcs al sym es) g2 d2 _ p q l1 l2 w al 0 W2 S2 C2 Lp2 Lq Ep2 Eq (or_introl Npq)) as (r & g3 & -> & W3 & N3 & C3). cbn [bind]. destruct sym; cbn [andb negb].
    + destruct (carries_add aw (arcs al true es ++ [(l1, l2, w)]) g3 d2 (numbered (row_labels (es ++ [(l1, l2, w)]))) q p l2 l1 w al 0 W3) as (r' & g4 & -> & W4 & N4 & C4); auto; try (rewrite <- (same_nodes_length _ _ N3); auto); try (rewrite (same_nodes_label _ _ _ N3); auto).
      { unfold whole in *. rewrite <- (same_nodes_length _ _ N3). eapply side_nodes; eauto. }
      cbn [bind]. exists g4, d2. split; auto. apply Fin; auto; [eapply same_nodes_trans; eauto|]. rewrite <- app_assoc in C4. exact C4.
    + exists g3, d2. split; auto.
Qed.
Lemma built_net al sym aw es g d : net_built al sym aw es g d -> net_of al sym aw es g.
Proof.
  intros [W S C F]. split; auto.
  - rewrite <- (sd_labs _ _ _ _ S). apply BipartRen.nth_ext_eq. intros i. rewrite !nth_error_map, nth_seq. destruct (Nat.ltb_spec i (length g)) as [L|L].
    + destruct (nth_ex g i L) as [n E]. rewrite E. cbn. now rewrite (label_of_nth _ _ _ E).
    + now rewrite (proj2 (nth_error_None _ _) L).
  - intros i j ni nj Ei Ej. rewrite (C i j) by (eapply nth_lt; eauto). now rewrite (label_of_nth _ _ _ Ei), (label_of_nth _ _ _ Ej).
Qed.
Lemma net_built_nil al sym aw : net_built al sym aw [] [] [].
Proof.
  split; [apply wf_nil| |intros i j Hi; simpl in Hi; lia|intros n []]. split; cbn; try (intros; tauto); try constructor. { intros [|k] i n E; discriminate. } { discriminate. } { intros [[] _]. }
Qed.
Variable scan_lf : list ascii -> option A.
Lemma net_lines_spec weighted al aw sym lines : forall es' es g d, Forall2 (line_holds scan_lf weighted) lines es' ->
  (forall a c w, In (a, c, w) es' -> length a < 100 /\ length c < 100) -> net_built al sym aw es g d ->
  exists g', net_lines scan_lf weighted al aw sym g d lines = Ok (Some g') /\ net_of al sym aw (es ++ es') g'.
Proof.
  induction lines as [|l ls IH]; intros es' es g d F L Bt; inversion F as [|? e ? es1 Hl F1]; subst; cbn [net_lines].
  - exists g. rewrite app_nil_r. split; auto. eapply built_net; eauto.
  - destruct e as [[a c] w]. destruct (L a c w) as [La Lc]; [simpl; auto|]. rewrite (scan_line_ok scan_lf weighted l a c w Hl La Lc). cbn [bind].
    destruct (net_line_spec al sym aw es g d a c w Bt La Lc) as (g' & d' & -> & Bt'). cbn [bind].
    destruct (IH es1 _ _ _ F1 ltac:(intros; eapply L; simpl; eauto) Bt') as (g'' & E & N). rewrite <- app_assoc in N. eauto.
Qed.
Theorem FBuildNetwork_reads weighted al aw sym file lines es : lines_of file lines -> Forall2 (line_holds scan_lf weighted) lines es ->
  (forall a c w, In (a, c, w) es -> length a < 100 /\ length c < 100) ->
  exists g, FBuildNetwork scan_lf file weighted al aw sym = Ok (Some g) /\ net_of al sym aw es g.
Proof.
  intros HL F L. unfold FBuildNetwork. rewrite (getlines_spec _ _ HL). exact (net_lines_spec weighted al aw sym lines es [] _ _ F L (net_built_nil al sym aw)).
Qed.
Theorem FBuildNetwork_refuses weighted al aw sym file lines l : lines_of file lines -> In l lines -> (forall e, ~ line_holds scan_lf weighted l e) ->
  (forall s w t, file = s ++ w ++ t -> word w -> length w < 100) -> FBuildNetwork scan_lf file weighted al aw sym = Ok None.
Proof.
  intros HL Hl Hn Hw. unfold FBuildNetwork. rewrite (getlines_spec _ _ HL). destruct HL as (full & last & -> & -> & _). set (lines := full ++ last) in *. clearbody lines. clear full last.
  assert (G : forall ls es g d, In l ls -> (exists pre, lines = pre ++ ls) -> net_built al sym aw es g d -> net_lines scan_lf weighted al aw sym g d ls = Ok None).
  { induction ls as [|x ls IH]; intros es g d Hin (pre & Ep) Bt; [destruct Hin|]. cbn [net_lines]. pose proof (scan_line_cases scan_lf weighted x) as C.
    destruct (scan_line scan_lf weighted x) as [[[[a c] w]|]|e] eqn:Es; cbn [bind]; auto.
    - destruct C as (Hx & La & Lc). destruct (net_line_spec al sym aw es g d a c w Bt La Lc) as (g' & d' & -> & Bt'). cbn [bind].
      destruct Hin as [->|Hin]; [destruct (Hn _ Hx)|]. apply (IH _ _ _ Hin) with (2 := Bt'). exists (pre ++ [x]). now rewrite <- app_assoc.
    - destruct C as (_ & s & w & t & -> & Ww & Lw). exfalso. specialize (Hw (concat pre ++ s) w (t ++ concat ls)).
      assert (length w < 100); [|lia]. apply Hw; auto. rewrite Ep, concat_app. cbn [concat]. now rewrite <- !app_assoc. }
  apply (G lines [] _ _ Hl); [exists []; reflexivity|apply net_built_nil].
Qed.
(** Without loops, symmetric rows make undirected networks. *)
Lemma arcs_sym al (es : list row) a c : map snd (filter (same_ends a c) (arcs al true es)) = map snd (filter (same_ends c a) (arcs al true es)).
Proof.
  destruct (eqb_label_spec a c) as [->|N]; auto. induction es as [|[[x y] w] es IH]; auto. unfold arcs. cbn [flat_map]. fold (arcs al true es). rewrite !filter_app, !map_app, IH. f_equal.
  destruct (eqb_label_spec x y) as [->|Nxy].
  - destruct al; auto. cbn [filter]. assert (H : forall u v, u <> v -> same_ends u v (y, y, w) = false). { intros u v H. destruct (same_ends u v (y, y, w)) eqn:E; auto. apply same_ends_true in E. cbn in E. congruence. }
    rewrite !H by congruence. reflexivity.
  - cbn [filter]. assert (H : forall u v, same_ends u v (x, y, w) = same_ends v u (y, x, w)). { intros u v. apply eq_true_iff_eq. rewrite !same_ends_true. cbn. split; intros [= -> ->]; auto. }
    rewrite (H a c), (H c a). destruct (same_ends c a (y, x, w)) eqn:E1, (same_ends a c (y, x, w)) eqn:E2; auto.
Qed.
Theorem net_of_undirected aw es g : net_of false true aw es g -> undirected g.
Proof.
  intros [W L C F]. assert (Out : forall i j, weight g i j <> None -> exists ni nj, nth_error g i = Some ni /\ nth_error g j = Some nj).
  { intros i j H. apply nbrs_weight in H. apply nbrs_lt in H as [H1 H2]; auto. destruct (nth_ex g i H1), (nth_ex g j H2). eauto. }
  assert (S : forall i j ni nj, nth_error g i = Some ni -> nth_error g j = Some nj -> weight g i j = weight g j i).
  { intros i j ni nj Ei Ej. rewrite (C i j ni nj), (C j i nj ni) by auto. unfold rows_weight. now rewrite arcs_sym. }
  split; auto.
  - intros i H. apply nbrs_weight in H. destruct (Out i i H) as (n & _ & E & _). rewrite (C i i n n E E) in H. apply H. apply rows_weight_none. intros w Hw.
    apply in_flat_map in Hw as ([[x y] v] & _ & Hw). destruct (eqb_label_spec x y); [destruct Hw|]. destruct Hw as [Hw|[Hw|[]]]; injection Hw; congruence.
  - intros i j. destruct (weight g i j) eqn:E1, (weight g j i) eqn:E2; auto.
    + destruct (Out i j) as (ni & nj & Ei & Ej); [congruence|]. rewrite <- E1, <- E2. eauto.
    + destruct (Out i j) as (ni & nj & Ei & Ej); [congruence|]. rewrite <- E1, <- E2. eauto.
    + destruct (Out j i) as (nj & ni & Ej & Ei); [congruence|]. rewrite <- E1, <- E2. eauto.
Qed.
End Build.

(** IoProof.v -- EdgeListFileInput numbers the labels in order of first appearance and stays inside its buffers. *)
From Coq Require Import List Arith Lia Ascii Bool.
From Verif Require Import Base ListLib PartModel FillModel IoModel IoSpec.
Import ListNotations.
Local Open Scope nat_scope.

(** ** Characters and words *)
Lemma is_space_blank c : is_space c = true <-> blank c.
Proof.
  unfold blank. split.
  - destruct c as [[] [] [] [] [] [] [] []]; vm_compute; intros H; try discriminate; auto 10.
  - intros H. repeat (destruct H as [<-|H]; [reflexivity|]). destruct H.
Qed.
Lemma not_space_blank c : is_space c = false <-> ~ blank c.
Proof. rewrite <- is_space_blank. destruct (is_space c); split; intros; congruence. Qed.

Lemma label_eqb_eq a b : label_eqb a b = true <-> a = b.
Proof.
  revert b; induction a as [|x a IH]; intros [|y b]; simpl; try (split; congruence).
  rewrite andb_true_iff. unfold ascii_eqb. rewrite Ascii.eqb_eq, IH. split; [intros []; congruence|].
  intros [= -> ->]; auto.
Qed.

Lemma span_app f a b : (forall c, In c a -> f c = true) -> (forall c t, b = c :: t -> f c = false) ->
  span f (a ++ b) = (a, b).
Proof.
  induction a as [|x a IH]; intros Ha Hb; simpl.
  - destruct b as [|c t]; auto. simpl. now rewrite (Hb c t).
  - rewrite (Ha x) by (simpl; auto). rewrite IH; auto. intros; apply Ha; simpl; auto.
Qed.
Lemma span_spec f s a b : span f s = (a, b) ->
  s = a ++ b /\ (forall c, In c a -> f c = true) /\ (forall c t, b = c :: t -> f c = false).
Proof.
  revert a b; induction s as [|x s IH]; simpl; intros a b.
  - intros [= <- <-]. splits; simpl; auto; try tauto; discriminate.
  - destruct (f x) eqn:E.
    + destruct (span f s) as [a' b'] eqn:E'. intros [= <- <-]. destruct (IH _ _ eq_refl) as (-> & H1 & H2).
      splits; auto. intros c [<-|Hc]; auto.
    + intros [= <- <-]. splits; simpl; auto; try tauto. intros c t [= <- <-]; auto.
Qed.

Lemma scan_s_word s1 w rest : (forall c, In c s1 -> blank c) -> word w -> (forall c t, rest = c :: t -> blank c) ->
  scan_s (s1 ++ w ++ rest) = Some (w, rest).
Proof.
  intros H1 [Hw1 Hw2] Hr. unfold scan_s. rewrite span_app.
  - rewrite span_app.
    + destruct w; [congruence|auto].
    + intros c Hc. rewrite (proj2 (not_space_blank c)); auto.
    + intros c t E. rewrite (proj2 (is_space_blank c)); eauto.
  - intros c Hc. apply is_space_blank; auto.
  - intros c t E. apply not_space_blank. apply Hw2. destruct w; [congruence|]. simpl in E. injection E as -> _. simpl; auto.
Qed.
Lemma scan_s_inv s w rest : scan_s s = Some (w, rest) ->
  exists s1, s = s1 ++ w ++ rest /\ (forall c, In c s1 -> blank c) /\ word w /\ (forall c t, rest = c :: t -> blank c).
Proof.
  unfold scan_s. destruct (span is_space s) as [s1 s'] eqn:E1. destruct (span _ s') as [w' s2] eqn:E2.
  destruct (span_spec _ _ _ _ E1) as (-> & H1 & H2). destruct (span_spec _ _ _ _ E2) as (-> & H3 & H4).
  destruct w' as [|c w']; [discriminate|]. intros [= <- <-]. exists s1. splits; auto.
  - intros x Hx. apply is_space_blank; auto.
  - split; [discriminate|]. intros x Hx. apply not_space_blank. specialize (H3 x Hx). destruct (is_space x); auto; discriminate.
  - intros x t E. apply is_space_blank. specialize (H4 x t E). destruct (is_space x); auto; discriminate.
Qed.
Lemma scan_s_none s : scan_s s = None -> forall c, In c s -> blank c.
Proof.
  unfold scan_s. destruct (span is_space s) as [s1 s'] eqn:E1. destruct (span _ s') as [w' s2] eqn:E2.
  destruct (span_spec _ _ _ _ E1) as (-> & H1 & H2). destruct (span_spec _ _ _ _ E2) as (-> & H3 & H4).
  destruct w' as [|c w']; [|discriminate]. intros _ x Hx. simpl in Hx. apply in_app_iff in Hx as [Hx|Hx].
  - apply is_space_blank; auto.
  - destruct s2 as [|y t]; [destruct Hx|]. specialize (H2 y t eq_refl). specialize (H4 y t eq_refl). rewrite H2 in H4. discriminate.
Qed.

(** ** Lines *)
Lemma lines_aux_full cur b s : ~ In nl b -> lines_aux cur (b ++ nl :: s) = (rev cur ++ b ++ [nl]) :: lines_aux [] s.
Proof.
  revert cur; induction b as [|c b IH]; intros cur Hb.
  - reflexivity.
  - simpl. unfold ascii_eqb. rewrite (proj2 (Ascii.eqb_neq c nl)) by (intros ->; apply Hb; simpl; auto).
    rewrite IH by (intros H; apply Hb; simpl; auto). simpl. now rewrite <- app_assoc.
Qed.
Lemma lines_aux_last cur b : ~ In nl b -> lines_aux cur b = match rev cur ++ b with [] => [] | l => [l] end.
Proof.
  revert cur; induction b as [|c b IH]; intros cur Hb; simpl.
  - rewrite app_nil_r. destruct cur as [|x cur]; auto. destruct (rev (x :: cur)) eqn:E; auto.
    apply (f_equal (@rev ascii)) in E. rewrite rev_involutive in E. discriminate.
  - unfold ascii_eqb. rewrite (proj2 (Ascii.eqb_neq c nl)) by (intros ->; apply Hb; simpl; auto).
    rewrite IH by (intros H; apply Hb; simpl; auto). simpl. now rewrite <- app_assoc.
Qed.

Lemma getlines_spec file lines : lines_of file lines -> getlines file = lines.
Proof.
  intros (full & last & -> & -> & Hf & Hl). unfold getlines.
  induction full as [|l full IH]; simpl.
  - destruct Hl as [->|(l & -> & H1 & H2)]; auto. simpl. rewrite app_nil_r, lines_aux_last by auto.
    destruct l; [congruence|auto].
  - destruct (Hf l) as (b & -> & Hb); [simpl; auto|]. rewrite <- app_assoc. simpl.
    rewrite (lines_aux_full [] b) by auto. simpl. f_equal. apply IH. intros; apply Hf; simpl; auto.
Qed.

Lemma lines_of_exists file : lines_of file (getlines file).
Proof.
  assert (G : forall n file, length file <= n -> exists lines, lines_of file lines).
  { induction n as [|n IH]; intros s Hn.
    - destruct s; simpl in Hn; [|lia]. exists [], [], []. simpl. splits; auto. tauto.
    - destruct (in_dec ascii_dec nl s) as [Hi|Hi].
      + assert (exists b t, s = b ++ nl :: t /\ ~ In nl b) as (b & t & -> & Hb).
        { clear - Hi. induction s as [|c s IH]; [destruct Hi|]. destruct (ascii_dec c nl) as [->|Hc].
          - exists [], s. auto.
          - destruct IH as (b & t & -> & Hb). { destruct Hi; congruence. }
            exists (c :: b), t. split; auto. simpl. intros [|]; auto. }
        destruct (IH t) as (lines & full & last & -> & E2 & H3 & H4). { rewrite app_length in Hn. simpl in Hn. lia. }
        exists ((b ++ [nl]) :: full ++ last). exists ((b ++ [nl]) :: full), last. splits; auto.
        * simpl. rewrite <- app_assoc. simpl. congruence.
        * intros l [<-|Hl]; auto. eauto.
      + destruct s as [|c s].
        * exists [], [], []. simpl. splits; auto; tauto.
        * exists [c :: s], [], [c :: s]. splits; auto; simpl. now rewrite app_nil_r. tauto.
          right. exists (c :: s). splits; auto. discriminate. }
  destruct (G _ file (le_n _)) as (lines & H). rewrite (getlines_spec _ _ H). auto.
Qed.

(** ** Numbering *)
Lemma eqb_label_eq a b : eqb_label a b = true <-> a = b.
Proof. unfold eqb_label. destruct (list_eq_dec ascii_dec a b); split; congruence. Qed.
Lemma label_eqb_eqb a b : label_eqb a b = eqb_label a b.
Proof.
  destruct (eqb_label a b) eqn:E.
  - apply label_eqb_eq. now apply eqb_label_eq.
  - destruct (label_eqb a b) eqn:E'; auto. apply label_eqb_eq in E'. apply eqb_label_eq in E'. congruence.
Qed.
Lemma numbered_In l x : In x (numbered l) <-> In x l.
Proof.
  unfold numbered. induction l as [|y l IH]; simpl; [tauto|]. rewrite filter_In, IH.
  destruct (list_eq_dec ascii_dec y x) as [->|Hn]; [tauto|].
  assert (eqb_label y x = false) as ->. { destruct (eqb_label y x) eqn:E; auto. apply eqb_label_eq in E; congruence. }
  simpl. tauto.
Qed.
Lemma filter_filter_comm {B} (f g : B -> bool) l : filter f (filter g l) = filter g (filter f l).
Proof.
  induction l as [|a l IH]; simpl; auto. destruct (g a) eqn:G, (f a) eqn:F; simpl; rewrite ?G, ?F, IH; auto.
Qed.
Lemma numbered_snoc l x : numbered (l ++ [x]) = numbered l ++ (if existsb (eqb_label x) l then [] else [x]).
Proof.
  unfold numbered. induction l as [|y l IH]; simpl; auto. rewrite IH, filter_app. 
  destruct (eqb_label x y) eqn:E.
  - apply eqb_label_eq in E as ->. simpl. destruct (existsb (eqb_label y) l); simpl; auto.
    rewrite (proj2 (eqb_label_eq y y) eq_refl). auto.
  - simpl. destruct (existsb (eqb_label x) l); simpl; auto.
    assert (eqb_label y x = false) as ->; auto. destruct (eqb_label y x) eqn:E'; auto. apply eqb_label_eq in E'.
    rewrite E' in E. rewrite (proj2 (eqb_label_eq x x) eq_refl) in E. discriminate.
Qed.
Lemma numbered_NoDup l : NoDup (numbered l).
Proof.
  unfold numbered. induction l as [|y l IH]; simpl; constructor.
  - rewrite filter_In. intros [_ H]. rewrite (proj2 (eqb_label_eq y y) eq_refl) in H. discriminate.
  - now apply NoDup_filter.
Qed.
Lemma existsb_label x l : existsb (eqb_label x) l = true <-> In x l.
Proof.
  rewrite existsb_exists. split.
  - intros (y & H & E). apply eqb_label_eq in E. now subst.
  - intros H. exists x. split; auto. now apply eqb_label_eq.
Qed.
Lemma numbered_snoc_old l x : In x l -> numbered (l ++ [x]) = numbered l.
Proof. intros H. rewrite numbered_snoc, (proj2 (existsb_label x l) H), app_nil_r. auto. Qed.
Lemma numbered_snoc_new l x : ~ In x l -> numbered (l ++ [x]) = numbered l ++ [x].
Proof.
  intros H. rewrite numbered_snoc. destruct (existsb (eqb_label x) l) eqn:E; auto. apply existsb_label in E. tauto.
Qed.

(** ** Buffers and dictionaries *)
Definition pad {X} (n : nat) (l : list X) : buf X := map Some l ++ repeat None (n - length l).
Lemma pad_length {X} n (l : list X) : length l <= n -> length (pad n l) = n.
Proof. intros H. unfold pad. rewrite app_length, map_length, repeat_length. lia. Qed.
Lemma bwrite_pad {X} n (l : list X) v : length l < n -> bwrite (pad n l) (length l) v = Ok (pad n (l ++ [v])).
Proof.
  intros H. unfold bwrite. rewrite set_ok by (rewrite pad_length; lia). f_equal. unfold pad.
  replace (n - length l) with (S (n - length (l ++ [v]))) by (rewrite app_length; simpl; lia). simpl.
  rewrite <- (map_length Some l) at 1. rewrite upd_app_mid, map_app, <- app_assoc. auto.
Qed.
Lemma bwrite_pad_at {X} n (l : list X) v k : length l = k -> k < n -> bwrite (pad n l) k v = Ok (pad n (l ++ [v])).
Proof. intros <- H. now apply bwrite_pad. Qed.
Lemma firstn_repeat' {X} (x : X) n m : firstn n (repeat x m) = repeat x (Nat.min n m).
Proof. revert m; induction n as [|n IH]; intros [|m]; simpl; auto. now rewrite IH. Qed.
Lemma brealloc_pad {X} n m (l : list X) : length l <= n -> length l <= m -> brealloc (pad n l) m = pad m l.
Proof.
  intros Hn Hm. unfold brealloc. rewrite pad_length by auto. unfold pad. rewrite firstn_app, map_length.
  rewrite firstn_all2 by (rewrite map_length; auto). rewrite <- app_assoc. f_equal.
  rewrite firstn_repeat', <- repeat_app. f_equal. lia.
Qed.
Lemma nth_pad {X} n (l : list X) i : i < length l -> nth_error (pad n l) i = Some (nth_error l i).
Proof.
  intros H. unfold pad. rewrite nth_error_app1 by (rewrite map_length; auto). rewrite nth_error_map.
  destruct (nth_ex _ _ H) as [x ->]. auto.
Qed.

Definition tree_of (labs : list label) : dict := combine labs (seq 0 (length labs)).
Lemma dict_find_gen labs a l : dict_find (combine labs (seq a (length labs))) l = label_index labs a l.
Proof.
  revert a; induction labs as [|k labs IH]; intros a; simpl; auto. destruct (label_eqb k l); auto.
  rewrite IH. f_equal. lia.
Qed.
Lemma label_index_none labs a l : label_index labs a l = None <-> ~ In l labs.
Proof.
  revert a; induction labs as [|k labs IH]; intros a; simpl; [tauto|]. destruct (label_eqb k l) eqn:E.
  - apply label_eqb_eq in E. split; [discriminate|tauto].
  - rewrite IH. assert (k <> l). { intros H. apply label_eqb_eq in H. congruence. } tauto.
Qed.
Lemma label_index_some labs a l i : label_index labs a l = Some i -> a <= i /\ nth_error labs (i - a) = Some l.
Proof.
  revert a; induction labs as [|k labs IH]; intros a; simpl; [discriminate|]. destruct (label_eqb k l) eqn:E.
  - apply label_eqb_eq in E. intros [= <-]. rewrite Nat.sub_diag. simpl. split; [lia|congruence].
  - intros H. apply IH in H as [H1 H2]. split; [lia|]. replace (i - a) with (S (i - (a + 1))) by lia. auto.
Qed.
Lemma label_index_nodup labs i l : NoDup labs -> nth_error labs i = Some l -> label_index labs 0 l = Some i.
Proof.
  intros Hn E. destruct (label_index labs 0 l) as [j|] eqn:Ej.
  - apply label_index_some in Ej as [_ Ej]. rewrite Nat.sub_0_r in Ej. f_equal.
    apply (proj1 (NoDup_nth_error labs)); auto; [eapply nth_lt; eauto|congruence].
  - apply label_index_none in Ej. exfalso. apply Ej. eapply nth_error_In; eauto.
Qed.
Lemma combine_snoc {X Y} (l : list X) (l' : list Y) x y : length l = length l' ->
  combine (l ++ [x]) (l' ++ [y]) = combine l l' ++ [(x, y)].
Proof. revert l'; induction l as [|a l IH]; intros [|b l']; simpl; try discriminate; auto. intros [= H]. now rewrite IH. Qed.
Lemma tree_of_snoc labs l : tree_of labs ++ [(l, length labs)] = tree_of (labs ++ [l]).
Proof.
  unfold tree_of. rewrite app_length. simpl. rewrite seq_app. simpl. rewrite combine_snoc; auto. now rewrite seq_length.
Qed.

Section Read.
Context {A : Type} {ops : NumOps A}.
Variable scan_lf : list ascii -> option A.
Notation edge := (label * label * A)%type.

Lemma scan_line_ok weighted line a b w : line_holds scan_lf weighted line (a, b, w) -> length a < 100 -> length b < 100 ->
  scan_line scan_lf weighted line = Ok (Some (a, b, w)).
Proof.
  intros (s1 & s2 & rest & -> & H1 & Ha & Hs2 & H2 & Hb & Hr & Hw) La Lb. unfold scan_line.
  rewrite scan_s_word; auto.
  - unfold store_label, check, max_label. rewrite (proj2 (Nat.ltb_lt _ _) La). cbn [bind].
    rewrite scan_s_word by auto. rewrite (proj2 (Nat.ltb_lt _ _) Lb). cbn [bind].
    destruct weighted; rewrite Hw; reflexivity.
  - intros c t E. apply H2. destruct s2; [congruence|]. simpl in E. injection E as -> _. simpl; auto.
Qed.

(** The cases of reading one line. *)
Lemma scan_line_cases weighted line :
  match scan_line scan_lf weighted line with
  | Ok (Some (a, b, w)) => line_holds scan_lf weighted line (a, b, w) /\ length a < 100 /\ length b < 100
  | Ok None => forall e, ~ line_holds scan_lf weighted line e
  | Err e => e = UB_oob /\ exists s w t, line = s ++ w ++ t /\ word w /\ 100 <= length w
  end.
Proof.
  assert (U : forall e, line_holds scan_lf weighted line e -> forall a b rest s,
     scan_s line = Some (a, s) -> scan_s s = Some (b, rest) -> fst e = (a, b) /\
     (if weighted then scan_lf rest = Some (snd e) else snd e = n1)).
  { intros [[a b] w] (s1 & s2 & rest & -> & H1 & Ha & Hs2 & H2 & Hb & Hr & Hw) a' b' rest' s E1 E2.
    rewrite scan_s_word in E1; auto.
    - injection E1 as <- <-. rewrite scan_s_word in E2 by auto. injection E2 as <- <-. auto.
    - intros c t E. apply H2. destruct s2; [congruence|]. simpl in E. injection E as -> _. simpl; auto. }
  unfold scan_line. destruct (scan_s line) as [[a s]|] eqn:E1.
  - destruct (scan_s_inv _ _ _ E1) as (s1 & -> & H1 & Ha & Hs).
    unfold store_label at 1, check. destruct (Nat.ltb_spec (length a) max_label) as [La|La]; cbn [bind].
    2: { split; auto. exists s1, a, s. auto. }
    destruct (scan_s s) as [[b rest]|] eqn:E2.
    + destruct (scan_s_inv _ _ _ E2) as (s2 & -> & H2 & Hb & Hr).
      unfold store_label, check. destruct (Nat.ltb_spec (length b) max_label) as [Lb|Lb]; cbn [bind].
      2: { split; auto. exists (s1 ++ a ++ s2), b, rest. rewrite <- !app_assoc. auto. }
      assert (Hs2 : s2 <> []).
      { intros ->. destruct Hb as [Hb1 Hb2]. destruct b as [|c b]; [congruence|]. apply (Hb2 c); simpl; auto. eapply Hs. reflexivity. }
      assert (LH : forall w, (if weighted then scan_lf rest = Some w else w = n1) ->
                 line_holds scan_lf weighted (s1 ++ a ++ s2 ++ b ++ rest) (a, b, w)).
      { intros w Hw. exists s1, s2, rest. splits; auto. }
      destruct weighted.
      * destruct (scan_lf rest) as [w|] eqn:Ew; [splits; auto|].
        intros e He. specialize (U e He a b rest _ eq_refl E2) as [_ U]. congruence.
      * splits; auto.
    + intros [[a' b'] w] He. pose proof He as He'. destruct He' as (t1 & t2 & rest & El & G1 & Ha' & Gs2 & G2 & Hb' & Gr & Gw).
      rewrite El in E1. rewrite scan_s_word in E1; auto.
      * injection E1 as <- <-. rewrite scan_s_word in E2 by auto. discriminate.
      * intros c t E. apply G2. destruct t2; [congruence|]. simpl in E. injection E as -> _. simpl; auto.
  - intros [[a b] w] (s1 & s2 & rest & -> & H1 & Ha & Hs2 & H2 & Hb & Hr & Hw).
    rewrite scan_s_word in E1; [discriminate|auto|auto|].
    intros c t E. apply H2. destruct s2; [congruence|]. simpl in E. injection E as -> _. simpl; auto.
Qed.

(** Invariant of the reading loop after the edges [es]. *)
Record RI (bip : nat) (es : list edge) (r : @rd A) (ins outs : list nat) : Prop := {
  ri_state : r = mkRd (rNmax r) (rEmax r) (length (numbered (words1 bip es))) (match bip with 0 => 0 | _ => length (numbered (words2 bip es)) end) (length es)
     (pad (rNmax r + 1) (numbered (words1 bip es))) (pad (rEmax r + 1) (map snd es)) (pad (rEmax r + 1) ins) (pad (rEmax r + 1) outs)
     (tree_of (numbered (words1 bip es))) (match bip with 0 => [] | _ => tree_of (numbered (words2 bip es)) end);
  ri_N : length (numbered (words1 bip es)) + 2 < rNmax r;
  ri_E : length es + 1 < rEmax r;
  ri_in : Forall2 (fun i e => nth_error (numbered (words1 bip es)) i = Some (fst (ends bip e))) ins es;
  ri_out : Forall2 (fun i e => nth_error (numbered (words2 bip es)) i = Some (snd (ends bip e))) outs es
}.

Lemma intern_spec L l Nmax Emax N2 E (ws : buf A) bi bo t2 : length (numbered L) < Nmax + 1 ->
  exists i, intern l (mkRd Nmax Emax (length (numbered L)) N2 E (pad (Nmax + 1) (numbered L)) ws bi bo (tree_of (numbered L)) t2)
  = Ok (i, mkRd Nmax Emax (length (numbered (L ++ [l]))) N2 E (pad (Nmax + 1) (numbered (L ++ [l]))) ws bi bo (tree_of (numbered (L ++ [l]))) t2)
  /\ nth_error (numbered (L ++ [l])) i = Some l.
Proof.
  intros H. unfold intern. cbn [rtree rlabels rN rNmax rEmax rN2 rE rweights rin rout rtree2].
  unfold tree_of at 1. rewrite dict_find_gen. destruct (label_index (numbered L) 0 l) as [i|] eqn:Ei.
  - apply label_index_some in Ei as [_ Ei]. rewrite Nat.sub_0_r in Ei. exists i.
    rewrite numbered_snoc_old; auto. apply numbered_In. eapply nth_error_In; eauto.
  - apply label_index_none in Ei. rewrite numbered_In in Ei.
    rewrite bwrite_pad by auto. cbn [bind]. rewrite tree_of_snoc. rewrite numbered_snoc_new by auto.
    exists (length (numbered L)). rewrite app_length. split; auto. rewrite nth_error_app2, Nat.sub_diag by lia. auto.
Qed.

Lemma intern2_spec L l Nmax Emax N E labs (ws : buf A) bi bo t1 :
  exists i, intern2 l (mkRd Nmax Emax N (length (numbered L)) E labs ws bi bo t1 (tree_of (numbered L)))
  = Ok (i, mkRd Nmax Emax N (length (numbered (L ++ [l]))) E labs ws bi bo t1 (tree_of (numbered (L ++ [l]))))
  /\ nth_error (numbered (L ++ [l])) i = Some l.
Proof.
  unfold intern2. cbn [rtree rlabels rN rNmax rEmax rN2 rE rweights rin rout rtree2].
  unfold tree_of at 1. rewrite dict_find_gen. destruct (label_index (numbered L) 0 l) as [i|] eqn:Ei.
  - apply label_index_some in Ei as [_ Ei]. rewrite Nat.sub_0_r in Ei. exists i.
    rewrite numbered_snoc_old; auto. apply numbered_In. eapply nth_error_In; eauto.
  - apply label_index_none in Ei. rewrite numbered_In in Ei.
    rewrite tree_of_snoc. rewrite numbered_snoc_new by auto.
    exists (length (numbered L)). rewrite app_length. split; auto. rewrite nth_error_app2, Nat.sub_diag by lia. auto.
Qed.

Lemma numbered_prefix L l i x : nth_error (numbered L) i = Some x -> nth_error (numbered (L ++ [l])) i = Some x.
Proof.
  intros H. rewrite numbered_snoc. rewrite nth_error_app1; auto. eapply nth_lt; eauto.
Qed.
Lemma numbered_snoc_len L l : length (numbered (L ++ [l])) <= length (numbered L) + 1.
Proof. rewrite numbered_snoc, app_length. destruct (existsb _ _); simpl; lia. Qed.

Lemma grow_spec Nmax Emax labs (ws : list A) (bi bo : list nat) N2 E t1 t2 :
  length labs < Nmax + 1 -> length labs + 2 < Nmax * 2 -> E + 2 < Emax * 2 -> length ws = E + 1 -> length bi = E + 1 -> length bo = E + 1 -> E + 1 < Emax ->
  exists Nmax' Emax', grow (mkRd Nmax Emax (length labs) N2 E (pad (Nmax + 1) labs) (pad (Emax + 1) ws) (pad (Emax + 1) bi) (pad (Emax + 1) bo) t1 t2)
   = mkRd Nmax' Emax' (length labs) N2 (E + 1) (pad (Nmax' + 1) labs) (pad (Emax' + 1) ws) (pad (Emax' + 1) bi) (pad (Emax' + 1) bo) t1 t2
   /\ length labs + 2 < Nmax' /\ E + 1 + 1 < Emax'.
Proof.
  intros H1 H1' H1'' Hw Hi Ho HE. unfold grow. cbn [rtree rlabels rN rNmax rEmax rN2 rE rweights rin rout rtree2].
  assert (N : exists Nmax', (if Nmax <=? length labs + 2 then (Nmax * 2, brealloc (pad (Nmax + 1) labs) (Nmax * 2 + 1)) else (Nmax, pad (Nmax + 1) labs))
      = (Nmax', pad (Nmax' + 1) labs) /\ length labs + 2 < Nmax').
  { destruct (Nat.leb_spec Nmax (length labs + 2)).
    - exists (Nmax * 2). rewrite brealloc_pad by lia. split; auto.
    - exists Nmax. auto. }
  destruct N as (Nmax' & -> & HN').
  destruct (Nat.leb_spec Emax (E + 1 + 1)).
  - exists Nmax', (Emax * 2). rewrite !brealloc_pad by lia. splits; auto. lia.
  - exists Nmax', Emax. splits; auto.
Qed.

Lemma Forall2_length {X Y} (R : X -> Y -> Prop) l l' : Forall2 R l l' -> length l = length l'.
Proof. induction 1; simpl; auto. Qed.
Lemma Forall2_nth {X Y} (R : X -> Y -> Prop) l l' k x y : Forall2 R l l' ->
  nth_error l k = Some x -> nth_error l' k = Some y -> R x y.
Proof. intros F. revert k. induction F; intros [|k]; simpl; try discriminate; eauto. congruence. Qed.
Lemma Forall2_impl {X Y} (R R' : X -> Y -> Prop) l l' : (forall x y, R x y -> R' x y) -> Forall2 R l l' -> Forall2 R' l l'.
Proof. induction 2; auto. Qed.
Lemma Forall2_snoc {X Y} (R : X -> Y -> Prop) l l' x y : Forall2 R l l' -> R x y -> Forall2 R (l ++ [x]) (l' ++ [y]).
Proof. intros H H'. apply Forall2_app; auto. Qed.

Lemma words_snoc0 (es : list edge) a b w : words1 0 (es ++ [(a, b, w)]) = (words1 0 es ++ [a]) ++ [b].
Proof. unfold words1. rewrite flat_map_app. simpl. now rewrite <- app_assoc. Qed.

(** One line adds one edge. *)
Lemma read_line_spec weighted bip es r ins outs line a b w :
  bip <= 2 -> RI bip es r ins outs -> scan_line scan_lf weighted line = Ok (Some (a, b, w)) ->
  exists r' i j, read_line scan_lf weighted bip r line = Ok (inl r') /\ RI bip (es ++ [(a, b, w)]) r' (ins ++ [i]) (outs ++ [j]).
Proof.
  intros Hb R Hs. unfold read_line. rewrite Hs. cbn [bind]. rewrite (ri_state _ _ _ _ _ R).
  pose proof (ri_N _ _ _ _ _ R) as HN. pose proof (ri_E _ _ _ _ _ R) as HE.
  pose proof (ri_in _ _ _ _ _ R) as Hin. pose proof (ri_out _ _ _ _ _ R) as Hout.
  pose proof (Forall2_length _ _ _ Hin) as Lin. pose proof (Forall2_length _ _ _ Hout) as Lout.
  generalize dependent (rNmax r). generalize dependent (rEmax r). intros Emax HE Nmax HN. clear R r.
  cbn [rweights rE]. rewrite bwrite_pad_at by (rewrite ?map_length; lia). cbn [bind].
  unfold set_weights. cbn [rtree rlabels rN rNmax rEmax rN2 rE rweights rin rout rtree2].
  assert (Lws : length (map snd es ++ [w]) = length es + 1) by (rewrite app_length, map_length; auto).
  assert (Ews : map snd es ++ [w] = map snd (es ++ [(a, b, w)])) by (rewrite map_app; auto).
  destruct bip as [|[|[|bip]]]; [| | |lia]; cbn [Nat.ltb Nat.leb Nat.eqb].
  - edestruct (intern_spec (words1 0 es) a) as (i & -> & Hi); [lia|]. cbn [bind rin rE].
    rewrite bwrite_pad_at by lia. cbn [bind]. unfold set_in. cbn [rtree rlabels rN rNmax rEmax rN2 rE rweights rin rout rtree2].
    pose proof (numbered_snoc_len (words1 0 es) a) as L1.
    edestruct (intern_spec (words1 0 es ++ [a]) b) as (j & -> & Hj); [lia|]. cbn [bind rout rE].
    rewrite bwrite_pad_at by lia. cbn [bind]. unfold set_out. cbn [rtree rlabels rN rNmax rEmax rN2 rE rweights rin rout rtree2].
    pose proof (numbered_snoc_len (words1 0 es ++ [a]) b) as L2.
    destruct (grow_spec Nmax Emax (numbered ((words1 0 es ++ [a]) ++ [b])) (map snd es ++ [w]) (ins ++ [i]) (outs ++ [j]) 0 (length es)
       (tree_of (numbered ((words1 0 es ++ [a]) ++ [b]))) []) as (Nmax' & Emax' & -> & GN & GE); try (rewrite ?app_length, ?map_length; cbn [length]; lia).
    eexists _, i, j. split; [reflexivity|]. 
    assert (E0 : words1 0 (es ++ [(a, b, w)]) = (words1 0 es ++ [a]) ++ [b]) by apply words_snoc0.
    split; cbn [rNmax rEmax]; unfold words2; rewrite ?E0, ?app_length; auto.
    + rewrite Ews. reflexivity.
    + apply Forall2_snoc.
      * eapply Forall2_impl; [|exact Hin]. intros k e X. apply numbered_prefix, numbered_prefix; auto.
      * apply numbered_prefix; auto.
    + apply Forall2_snoc; auto. eapply Forall2_impl; [|exact Hout]. intros k e X. apply numbered_prefix, numbered_prefix; auto.
  - edestruct (intern_spec (words1 1 es) a) as (i & -> & Hi); [lia|]. cbn [bind rin rE].
    rewrite bwrite_pad_at by lia. cbn [bind]. unfold set_in. cbn [rtree rlabels rN rNmax rEmax rN2 rE rweights rin rout rtree2].
    pose proof (numbered_snoc_len (words1 1 es) a) as L1.
    edestruct (intern2_spec (words2 1 es) b) as (j & -> & Hj). cbn [bind rout rE].
    rewrite bwrite_pad_at by lia. cbn [bind]. unfold set_out. cbn [rtree rlabels rN rNmax rEmax rN2 rE rweights rin rout rtree2].
    destruct (grow_spec Nmax Emax (numbered (words1 1 es ++ [a])) (map snd es ++ [w]) (ins ++ [i]) (outs ++ [j]) (length (numbered (words2 1 es ++ [b]))) (length es)
       (tree_of (numbered (words1 1 es ++ [a]))) (tree_of (numbered (words2 1 es ++ [b])))) as (Nmax' & Emax' & -> & GN & GE); try (rewrite ?app_length, ?map_length; cbn [length]; lia).
    eexists _, i, j. split; [reflexivity|].
    assert (E1 : words1 1 (es ++ [(a, b, w)]) = words1 1 es ++ [a]) by (unfold words1; rewrite map_app; auto).
    assert (E2 : words2 1 (es ++ [(a, b, w)]) = words2 1 es ++ [b]) by (unfold words2; rewrite map_app; auto).
    split; cbn [rNmax rEmax]; rewrite ?E1, ?E2, ?app_length; auto.
    + rewrite Ews. reflexivity.
    + apply Forall2_snoc; auto. eapply Forall2_impl; [|exact Hin]. intros k e X. apply numbered_prefix; auto.
    + apply Forall2_snoc; auto. eapply Forall2_impl; [|exact Hout]. intros k e X. apply numbered_prefix; auto.
  - edestruct (intern_spec (words1 2 es) b) as (i & -> & Hi); [lia|]. cbn [bind rin rE].
    rewrite bwrite_pad_at by lia. cbn [bind]. unfold set_in. cbn [rtree rlabels rN rNmax rEmax rN2 rE rweights rin rout rtree2].
    pose proof (numbered_snoc_len (words1 2 es) b) as L1.
    edestruct (intern2_spec (words2 2 es) a) as (j & -> & Hj). cbn [bind rout rE].
    rewrite bwrite_pad_at by lia. cbn [bind]. unfold set_out. cbn [rtree rlabels rN rNmax rEmax rN2 rE rweights rin rout rtree2].
    destruct (grow_spec Nmax Emax (numbered (words1 2 es ++ [b])) (map snd es ++ [w]) (ins ++ [i]) (outs ++ [j]) (length (numbered (words2 2 es ++ [a]))) (length es)
       (tree_of (numbered (words1 2 es ++ [b]))) (tree_of (numbered (words2 2 es ++ [a])))) as (Nmax' & Emax' & -> & GN & GE); try (rewrite ?app_length, ?map_length; cbn [length]; lia).
    eexists _, i, j. split; [reflexivity|].
    assert (E1 : words1 2 (es ++ [(a, b, w)]) = words1 2 es ++ [b]) by (unfold words1; rewrite map_app; auto).
    assert (E2 : words2 2 (es ++ [(a, b, w)]) = words2 2 es ++ [a]) by (unfold words2; rewrite map_app; auto).
    split; cbn [rNmax rEmax]; rewrite ?E1, ?E2, ?app_length; auto.
    + rewrite Ews. reflexivity.
    + apply Forall2_snoc; auto. eapply Forall2_impl; [|exact Hin]. intros k e X. apply numbered_prefix; auto.
    + apply Forall2_snoc; auto. eapply Forall2_impl; [|exact Hout]. intros k e X. apply numbered_prefix; auto.
Qed.

(** All lines: either every line holds an edge and the state describes them, or a line is refused, or a label is too long. *)
Lemma read_lines_spec weighted bip ls : bip <= 2 -> forall es r ins outs, RI bip es r ins outs ->
  match read_lines scan_lf weighted bip r ls with
  | Ok (inl r') => exists es' ins' outs', Forall2 (line_holds scan_lf weighted) ls es' /\ RI bip (es ++ es') r' ins' outs'
  | Ok (inr _) => exists l, In l ls /\ forall e, ~ line_holds scan_lf weighted l e
  | Err e => e = UB_oob /\ exists l s w t, In l ls /\ l = s ++ w ++ t /\ word w /\ 100 <= length w
  end.
Proof.
  intros Hb. induction ls as [|l ls IH]; intros es r ins outs R; simpl.
  - exists [], ins, outs. rewrite app_nil_r. split; auto.
  - pose proof (scan_line_cases weighted l) as C. destruct (scan_line scan_lf weighted l) as [[[[a b] w]|]|e] eqn:E.
    + destruct C as (C1 & _). destruct (read_line_spec weighted bip es r ins outs l a b w Hb R E) as (r' & i & j & -> & R'). cbn [bind].
      specialize (IH _ _ _ _ R'). destruct (read_lines scan_lf weighted bip r' ls) as [[r''|]|e].
      * destruct IH as (es' & ins' & outs' & F & R''). exists ((a, b, w) :: es'), ins', outs'.
        rewrite <- app_assoc in R''. split; auto.
      * destruct IH as (l' & H1 & H2). exists l'. split; auto. 
      * destruct IH as (H0 & l' & s & w' & t & H1 & H2). split; auto. exists l', s, w', t. simpl. tauto.
    + unfold read_line. rewrite E. cbn [bind]. exists l. split; auto.
    + unfold read_line. rewrite E. cbn [bind]. destruct C as (C0 & s & w & t & C). split; auto. exists l, s, w, t. simpl; tauto.
Qed.

Lemma rd_init_RI bip : bip <= 2 -> RI bip [] rd_init [] [].
Proof. intros H. destruct bip as [|[|[|bip]]]; [| | |lia]; (split; [reflexivity|simpl; lia|simpl; lia|constructor|constructor]). Qed.

Lemma RI_describes bip es r ins outs : RI bip es r ins outs ->
  describes bip es (mkInput (rN r) (rE r) (brealloc (rin r) (rE r + 1)) (brealloc (rout r) (rE r + 1))
                               (brealloc (rweights r) (rE r + 1)) (brealloc (rlabels r) (rN r + 1))).
Proof.
  intros R. rewrite (ri_state _ _ _ _ _ R). cbn [rtree rlabels rN rNmax rEmax rN2 rE rweights rin rout rtree2].
  pose proof (ri_N _ _ _ _ _ R) as HN. pose proof (ri_E _ _ _ _ _ R) as HE.
  pose proof (ri_in _ _ _ _ _ R) as Hin. pose proof (ri_out _ _ _ _ _ R) as Hout.
  pose proof (Forall2_length _ _ _ Hin) as Lin. pose proof (Forall2_length _ _ _ Hout) as Lout.
  rewrite !brealloc_pad by (rewrite ?map_length; lia).
  split; cbn [eiE eiN ei_labels ei_in ei_out ei_w]; auto.
  - intros i Hi. now rewrite nth_pad.
  - intros k e Hk. pose proof (nth_lt _ _ _ Hk) as Lk. destruct (nth_ex ins k) as [i Ei]; [lia|].
    exists i. rewrite nth_pad by lia. split; [congruence|].
    exact (Forall2_nth _ _ _ _ _ _ Hin Ei Hk).
  - intros k e Hk. pose proof (nth_lt _ _ _ Hk) as Lk. destruct (nth_ex outs k) as [i Ei]; [lia|].
    exists i. rewrite nth_pad by lia. split; [congruence|].
    exact (Forall2_nth _ _ _ _ _ _ Hout Ei Hk).
  - intros k a b w Hk. pose proof (nth_lt _ _ _ Hk) as Lk. rewrite nth_pad by (rewrite map_length; lia).
    now rewrite nth_error_map, Hk.
Qed.

(** ** C22, C23 *)
Theorem EdgeListFileInput_total weighted bip file : bip <= 2 ->
  match EdgeListFileInput scan_lf weighted bip file with
  | Ok (Some inp) => exists lines es, lines_of file lines /\ Forall2 (line_holds scan_lf weighted) lines es /\ describes bip es inp
  | Ok None => exists lines l, lines_of file lines /\ In l lines /\ forall e, ~ line_holds scan_lf weighted l e
  | Err e => e = UB_oob /\ exists s w t, file = s ++ w ++ t /\ word w /\ 100 <= length w
  end.
Proof.
  intros Hb. unfold EdgeListFileInput. rewrite (proj2 (Nat.ltb_ge 2 bip) Hb).
  pose proof (lines_of_exists file) as HL.
  pose proof (read_lines_spec weighted bip (getlines file) Hb [] rd_init [] [] (rd_init_RI bip Hb)) as H.
  destruct (read_lines scan_lf weighted bip rd_init (getlines file)) as [[r|]|e]; cbn [bind].
  - destruct H as (es & ins & outs & F & R). exists (getlines file), es. splits; auto. eapply RI_describes; eauto.
  - destruct H as (l & H1 & H2). exists (getlines file), l. auto.
  - destruct H as (He & l & s & w & t & H1 & -> & H2 & H3). split; auto.
    destruct HL as (full & last & E1 & E2 & _). apply in_split in H1 as (l1 & l2 & El).
    rewrite El in E2. rewrite concat_app in E2. simpl in E2.
    exists (concat l1 ++ s), w, (t ++ concat l2). rewrite E2. rewrite <- !app_assoc. auto.
Qed.

Lemma words_eq_line weighted line e e' : line_holds scan_lf weighted line e -> line_holds scan_lf weighted line e' -> e = e'.
Proof.
  destruct e as [[a b] w], e' as [[a' b'] w'].
  intros (s1 & s2 & rest & El & H1 & Ha & Hs2 & H2 & Hb & Hr & Hw) (t1 & t2 & rest' & El' & G1 & Ga & Gs2 & G2 & Gb & Gr & Gw).
  assert (X : forall (u v : list ascii), u <> [] -> (forall c, In c u -> blank c) -> forall c t, u ++ v = c :: t -> blank c).
  { intros u v Hu Hu2 c t E. destruct u; [congruence|]. simpl in E. injection E as -> _. apply Hu2; simpl; auto. }
  pose proof (scan_s_word s1 a (s2 ++ b ++ rest) H1 Ha (X s2 _ Hs2 H2)) as P1.
  pose proof (scan_s_word t1 a' (t2 ++ b' ++ rest') G1 Ga (X t2 _ Gs2 G2)) as P2.
  rewrite <- El in P1. rewrite <- El', P1 in P2. injection P2 as <- E.
  pose proof (scan_s_word s2 b rest H2 Hb Hr) as Q1. pose proof (scan_s_word t2 b' rest' G2 Gb Gr) as Q2.
  rewrite <- E, Q1 in Q2. injection Q2 as <- <-. destruct weighted; congruence.
Qed.

Theorem EdgeListFileInput_reads weighted bip file lines es : bip <= 2 -> lines_of file lines ->
  Forall2 (line_holds scan_lf weighted) lines es ->
  (forall a b w, In (a, b, w) es -> length a < 100 /\ length b < 100) ->
  exists inp, EdgeListFileInput scan_lf weighted bip file = Ok (Some inp) /\ describes bip es inp.
Proof.
  intros Hb HL F Hlen. unfold EdgeListFileInput. rewrite (proj2 (Nat.ltb_ge 2 bip) Hb).
  rewrite (getlines_spec _ _ HL).
  assert (G : forall ls es' es0 r ins outs, Forall2 (line_holds scan_lf weighted) ls es' ->
     (forall a b w, In (a, b, w) es' -> length a < 100 /\ length b < 100) -> RI bip es0 r ins outs ->
     exists r' ins' outs', read_lines scan_lf weighted bip r ls = Ok (inl r') /\ RI bip (es0 ++ es') r' ins' outs').
  { induction ls as [|l ls IH]; intros es' es0 r ins outs F' L' R; inversion F' as [|? e ? es1 Hl F1]; subst; simpl.
    - exists r, ins, outs. rewrite app_nil_r. auto.
    - destruct e as [[a b] w]. destruct (L' a b w) as [La Lb]; [simpl; auto|].
      pose proof (scan_line_ok weighted l a b w Hl La Lb) as Es.
      destruct (read_line_spec weighted bip es0 r ins outs l a b w Hb R Es) as (r' & i & j & -> & R'). cbn [bind].
      destruct (IH es1 _ _ _ _ F1 ltac:(intros; eapply L'; simpl; eauto) R') as (r'' & ins' & outs' & E & R'').
      rewrite <- app_assoc in R''. eauto. }
  destruct (G lines es [] rd_init [] [] F Hlen (rd_init_RI bip Hb)) as (r & ins & outs & -> & R). cbn [bind].
  eexists. split; [reflexivity|]. eapply RI_describes; eauto.
Qed.

Theorem EdgeListFileInput_refuses weighted bip file lines l : bip <= 2 -> lines_of file lines -> In l lines ->
  (forall e, ~ line_holds scan_lf weighted l e) ->
  (forall s w t, file = s ++ w ++ t -> word w -> length w < 100) ->
  EdgeListFileInput scan_lf weighted bip file = Ok None.
Proof.
  intros Hb HL Hl Hn Hw. pose proof (EdgeListFileInput_total weighted bip file Hb) as T.
  destruct (EdgeListFileInput scan_lf weighted bip file) as [[inp|]|e]; auto.
  - destruct T as (lines' & es & HL' & F & _). apply getlines_spec in HL. apply getlines_spec in HL'.
    assert (lines' = lines) by congruence. subst lines'. exfalso. apply In_nth_error in Hl as (k & Hk).  rewrite HL in F.
    pose proof (Forall2_length _ _ _ F) as L. destruct (nth_ex es k) as [e Ee]. { rewrite <- L. eapply nth_lt; eauto. }
    apply (Hn e). exact (Forall2_nth _ _ _ _ _ _ F Hk Ee).
  - destruct T as (_ & s & w & t & E & W & L). specialize (Hw s w t E W). lia.
Qed.

(** A label of 100 characters or more in the first column is written outside its buffer. *)
Theorem EdgeListFileInput_overflow weighted bip s w t rest : bip <= 2 -> word w -> 100 <= length w ->
  (forall c, In c s -> blank c /\ c <> nl) -> (forall c t', t = c :: t' -> blank c) -> ~ In nl t ->
  EdgeListFileInput scan_lf weighted bip ((s ++ w ++ t) ++ nl :: rest) = Err UB_oob.
Proof.
  intros Hb Hw Hl Hs Ht Hn. unfold EdgeListFileInput. rewrite (proj2 (Nat.ltb_ge 2 bip) Hb).
  unfold getlines. rewrite lines_aux_full.
  2: { rewrite !in_app_iff. intros [H|[H|H]]; auto. { apply Hs in H as [_ H]. auto. } destruct Hw as [_ Hw]. apply (Hw _ H). unfold blank; simpl; auto 10. }
  simpl rev. cbn [app read_lines]. unfold read_line, scan_line. rewrite <- !app_assoc. rewrite scan_s_word; auto.
  - unfold store_label, check, max_label. rewrite (proj2 (Nat.ltb_ge _ _) Hl). reflexivity.
  - intros c Hc. apply Hs; auto.
  - intros c t' E. destruct t as [|x t]; simpl in E; injection E as <- _; [|eapply Ht; eauto]. unfold blank; simpl; auto 10.
Qed.
End Read.

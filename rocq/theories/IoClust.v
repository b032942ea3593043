(** IoClust.v -- ClusteringOutput and AssignNodesToModulesFromFile. *)
From Coq Require Import List Arith Lia Ascii Bool Permutation.
From Verif Require Import Base ListLib PartModel MoveModel FillModel PartSpec PartInv ChangeProof MergeProof FillProof CompressProof IoModel IoSpec IoProof.
Import ListNotations.
Local Open Scope nat_scope.

Lemma is_sep_iff c : is_sep c = true <-> c = tab \/ c = nl.
Proof. unfold is_sep, ascii_eqb. rewrite orb_true_iff, !Ascii.eqb_eq. tauto. Qed.
Lemma cell_not_sep l c : cell_label l -> In c l -> negb (is_sep c) = true.
Proof.
  intros (_ & H1 & H2 & _) Hc. destruct (is_sep c) eqn:E; auto. apply is_sep_iff in E as [->| ->]; contradiction.
Qed.

Section Clust.
Context {A : Type} {ops : NumOps A}.
Implicit Types p q : partition A.

(** ** What is written *)
Lemma ClusteringOutput_text p ls labels lab : WF p ls -> pN p <= length labels ->
  (forall i, i < pN p -> nth_error labels i = Some (lab i)) ->
  ClusteringOutput p labels = Ok (tabbed_text lab (map ls (seq 0 (pM p)))).
Proof.
  intros W HL Hlab. unfold ClusteringOutput.
  set (f := fun g => concat (map (fun i => lab i ++ [tab]) g) ++ [nl]).
  match goal with |- foldM ?body _ _ = _ =>
    destruct (foldM_seq (fun k out => out = concat (map f (map ls (seq 0 k)))) body (pM p) []) as (out & E & ->) end; auto.
  - intros m out Hm ->. destruct (wf_module _ _ _ W Hm) as (md & Emd & _ & _ & Ef & _ & D).
    rewrite (get_ok _ _ _ Emd). cbn [bind]. rewrite Ef.
    assert (L : length (ls m) <= length (pnodes p)).
    { rewrite (wf_N _ _ W). apply NoDup_bound; [apply (wf_nodup _ _ W)|]. intros x Hx. eapply wf_in_lt; eauto. }
    match goal with |- context [walkM ?nx ?b _ _ ?s0] =>
      destruct (walkM_list nx b (fun dn out => out = s0 ++ concat (map (fun i => lab i ++ [tab]) dn)) (ls m) (length (pnodes p)) s0 L)
        as (out & E & ->) end.
    + simpl. now rewrite app_nil_r.
    + intros dn i rest out El ->. rewrite El in D. destruct (dll_node _ _ _ _ D) as (nd & End & _ & Enx).
      assert (Hi : i < pN p). { eapply wf_in_lt with (m := m); eauto. rewrite El, in_app_iff. simpl; auto. }
      rewrite (get_ok _ _ _ End). cbn [bind]. rewrite (wf_nid _ _ W _ _ End).
      rewrite (get_ok _ _ _ (Hlab i Hi)). cbn [bind]. eexists. splits; [reflexivity| |].
      * rewrite map_app, concat_app. simpl. rewrite app_nil_r, <- !app_assoc. auto.
      * unfold next_of. rewrite (get_ok _ _ _ End). cbn [bind]. now rewrite Enx.
    + rewrite E. cbn [bind]. eexists. split; [reflexivity|].
      rewrite seq_app, !map_app, concat_app. simpl. rewrite app_nil_r. unfold f at 3. now rewrite <- app_assoc.
Qed.

(** ** Reading *)
Definition sep1 (c : ascii) : Prop := c = tab \/ c = nl.

(** One round on a label followed by one separator. *)
Lemma assign_step fuel labels s0 j nnode p l c rest i :
  cell_label l -> sep1 c -> (forall c' t, rest = c' :: t -> ~ sep1 c') -> label_index labels 0 l = Some i ->
  assign_loop (S fuel) labels (l ++ c :: rest) s0 j nnode p =
  do p <- append_node p i j;
  match rest with
  | [] => Ok (p, nnode - 1)
  | _ => assign_loop fuel labels rest (Some c) (if ascii_eqb c nl then j + 1 else j) (nnode - 1) p
  end.
Proof.
  intros Hl Hc Hr Hi. cbn [assign_loop]. destruct (l ++ c :: rest) as [|x0 t0] eqn:E0; [destruct l; discriminate|].
  rewrite <- E0. clear E0 x0 t0. rewrite span_app.
  - destruct l as [|x l]; [destruct Hl; congruence|]. unfold store_label, check, max_label.
    rewrite (proj2 (Nat.ltb_lt _ _)) by apply Hl. cbn [bind].
    change (c :: rest) with ([c] ++ rest) at 1. rewrite (span_app is_sep [c] rest).
    + cbn [length]. cbn [Nat.ltb Nat.leb bind]. rewrite Hi. cbn [deref bind]. destruct (append_node p i j); reflexivity.
    + intros y [<-|[]]. apply is_sep_iff. auto.
    + intros y t E. destruct (is_sep y) eqn:X; auto. apply is_sep_iff in X. exfalso. eapply Hr; eauto.
  - intros y Hy. eapply cell_not_sep; eauto.
  - intros y t [= <- _]. rewrite (proj2 (is_sep_iff c)); auto.
Qed.

(** A label followed by two separators overflows the buffer [sep]. *)
Lemma assign_overflow fuel labels s0 j nnode p l c c' rest :
  cell_label l -> sep1 c -> sep1 c' ->
  assign_loop (S fuel) labels (l ++ c :: c' :: rest) s0 j nnode p = Err UB_oob.
Proof.
  intros Hl Hc Hc'. cbn [assign_loop]. destruct (l ++ c :: c' :: rest) as [|x0 t0] eqn:E0; [destruct l; discriminate|].
  rewrite <- E0. clear E0 x0 t0. rewrite span_app.
  - destruct l as [|x l]; [destruct Hl; congruence|]. unfold store_label, check, max_label.
    rewrite (proj2 (Nat.ltb_lt _ _)) by apply Hl. cbn [bind].
    cbn [span]. rewrite (proj2 (is_sep_iff c) Hc), (proj2 (is_sep_iff c') Hc').
    destruct (span is_sep rest) as [a b]. cbn [length]. reflexivity.
  - intros y Hy. eapply cell_not_sep; eauto.
  - intros y t [= <- _]. rewrite (proj2 (is_sep_iff c)); auto.
Qed.

Lemma cell_no_sep_head l rest c t : cell_label l -> l ++ rest = c :: t -> ~ sep1 c.
Proof.
  intros (H0 & H1 & H2 & _) E. destruct l as [|x l]; [congruence|]. simpl in E. injection E as -> _.
  intros [->| ->]; [apply H1|apply H2]; simpl; auto.
Qed.

(** *** The text written by ClusteringOutput is never readable. *)
Lemma label_index_ok labels i l n : NoDup (firstn n labels) -> i < n -> nth_error labels i = Some l ->
  label_index (firstn n labels) 0 l = Some i.
Proof.
  intros Hn Hi E. apply label_index_nodup; auto. rewrite <- E. clear - Hi. revert n Hi labels.
  induction i as [|i IH]; intros [|n] Hi [|a l]; simpl; auto; try lia. apply IH; lia.
Qed.

Lemma tabbed_nonempty_fails labels lab N : (forall i, i < N -> label_index labels 0 (lab i) = Some i /\ cell_label (lab i)) ->
  forall g i fuel rest s0 nnode q ls D,
  NoDup (i :: g) -> (forall x, In x (i :: g) -> x < N) -> length g < fuel -> N <= pN q -> 0 < pM q ->
  PW D q ls -> (forall x, In x (i :: g) -> ~ D x) ->
  assign_loop fuel labels (concat (map (fun i => lab i ++ [tab]) (i :: g)) ++ nl :: rest) s0 0 nnode q = Err UB_oob.
Proof.
  intros Hlab g. induction g as [|k g IH]; intros i fuel rest s0 nnode q ls D ND HN Hf HNq HM W HD.
  - destruct fuel as [|fuel]; [simpl in Hf; lia|]. simpl map. simpl concat. rewrite app_nil_r, <- app_assoc. simpl app.
    apply assign_overflow; unfold sep1; auto. apply Hlab. apply HN; simpl; auto.
  - destruct fuel as [|fuel]; [simpl in Hf; lia|].
    assert (Hi : i < N) by (apply HN; simpl; auto). destruct (Hlab i Hi) as [Li Ci].
    change (concat (map (fun i => lab i ++ [tab]) (i :: k :: g)) ++ nl :: rest) with
      (((lab i ++ [tab]) ++ concat (map (fun i => lab i ++ [tab]) (k :: g))) ++ nl :: rest).
    rewrite <- !app_assoc. change ([tab] ++ concat (map (fun i => lab i ++ [tab]) (k :: g)) ++ nl :: rest) with
      (tab :: (concat (map (fun i => lab i ++ [tab]) (k :: g)) ++ nl :: rest)).
    assert (Hk : k < N) by (apply HN; simpl; auto). destruct (Hlab k Hk) as [Lk Ck].
    rewrite (assign_step _ _ _ _ _ _ _ _ _ i); auto; [|unfold sep1; auto|].
    + destruct (nth_ex (pnodes q) i) as [nd End]. { rewrite (pw_N _ _ _ W). lia. }
      destruct (append_node_spec D i q ls 0 nd W) as (q' & -> & W' & N' & M' & _); auto; try lia.
      { apply HD. simpl; auto. }
      cbn [bind]. destruct (concat (map (fun i => lab i ++ [tab]) (k :: g)) ++ nl :: rest) as [|y0 t0] eqn:E0.
      { destruct (concat (map (fun i => lab i ++ [tab]) (k :: g))); discriminate. }
      rewrite <- E0. cbn [ascii_eqb]. change (ascii_eqb tab nl) with false. cbv iota.
      inversion ND as [|? ? Hni ND']; subst. eapply IH; eauto; try lia.
      * intros x Hx. apply HN. simpl; auto.
      * simpl in Hf. lia.
      * intros x Hx [->|Hd]; [auto|]. eapply HD; [|exact Hd]. simpl in *; auto.
    + intros c t E. simpl map in E. simpl concat in E. rewrite <- !app_assoc in E. eapply cell_no_sep_head; [exact Ck|exact E].
Qed.

Theorem clustering_unreadable p q labels : valid p -> 0 < pN p -> pN p <= length labels -> NoDup labels -> Forall cell_label labels ->
  fresh q -> pN q = pN p -> 0 < pM q ->
  exists text, ClusteringOutput p labels = Ok text /\
    (AssignNodesToModulesFromFile text q labels = Err UB_oob \/ AssignNodesToModulesFromFile text q labels = Err Diverge) /\
    (pnempty p = 0 -> AssignNodesToModulesFromFile text q labels = Err UB_oob).
Proof.
  intros V HN HL ND HC F HNq HMq. apply valid_WF in V as W. set (ls := members p) in *.
  set (lab := fun i => nth i labels []).
  assert (Hlab : forall i, i < pN p -> nth_error labels i = Some (lab i)) by (intros i Hi; apply nth_error_nth'; lia).
  assert (NDf : NoDup (firstn (pN q) labels)).
  { rewrite <- (firstn_skipn (pN q) labels) in ND. apply NoDup_app_iff in ND. tauto. }
  assert (HX : forall i, i < pN p -> label_index (firstn (pN q) labels) 0 (lab i) = Some i /\ cell_label (lab i)).
  { intros i Hi. split; [apply label_index_ok; auto; lia|]. rewrite Forall_forall in HC. apply HC. eapply nth_error_In; eauto. }
  exists (tabbed_text lab (map ls (seq 0 (pM p)))). split; [eapply ClusteringOutput_text; eauto|].
  destruct (wf_node _ _ _ W HN) as (nd & _ & _ & HM & _).
  destruct (pM p) as [|M] eqn:EM; [lia|]. cbn [seq map]. unfold tabbed_text. cbn [map concat].
  set (rest := concat (map _ (map ls (seq 1 M)))).
  unfold AssignNodesToModulesFromFile.
  destruct (ls 0) as [|i g] eqn:E0.
  - split.
    + right. cbn [map concat app length Nat.add]. cbn [assign_loop]. reflexivity.
    + intros He. exfalso. pose proof (wf_nempty _ _ W) as Hne. rewrite He in Hne.
      assert (0 < count (fun m => isnil (ls m)) (seq 0 (pM p))); [|lia].
      eapply count_pos with (x := 0). apply in_seq; lia. now rewrite E0.
  - assert (X : assign_loop (length ((concat (map (fun i => lab i ++ [tab]) (i :: g)) ++ [nl]) ++ rest) + 1) (firstn (pN q) labels)
        ((concat (map (fun i => lab i ++ [tab]) (i :: g)) ++ [nl]) ++ rest) None 0 (pN q) q = Err UB_oob).
    { rewrite <- app_assoc. cbn [app]. eapply (tabbed_nonempty_fails _ lab (pN p)); eauto.
      - rewrite <- E0. apply (wf_nodup _ _ W).
      - intros x Hx. rewrite <- E0 in Hx. eapply wf_in_lt; eauto.
      - rewrite app_length. assert (LL : forall g0 : list nat, length g0 <= length (concat (map (fun i => lab i ++ [tab]) g0))).
        { induction g0 as [|x g0 IH]; simpl; auto. rewrite !app_length. simpl. lia. }
        specialize (LL (i :: g)). cbn [length] in LL. lia.
      - lia.
      - apply fresh_PW; auto.
      - auto. }
    cbn [pN] in X. change nl with "010"%char in X. change tab with "009"%char in X. rewrite X. cbn [bind]. auto.
Qed.

(** *** A text with single separators is read back. *)
Definition upto (gs : list (list nat)) (j : nat) : list nat := nth j gs [].

Lemma read_group labels lab N : (forall i, i < N -> label_index labels 0 (lab i) = Some i /\ cell_label (lab i)) ->
  forall g i fuel rest s0 nnode q ls D j,
  NoDup (i :: g) -> (forall x, In x (i :: g) -> x < N) -> length g < fuel -> N <= pN q -> j < pM q ->
  PW D q ls -> (forall x, In x (i :: g) -> ~ D x) -> length g < nnode ->
  (forall c t, rest = c :: t -> ~ sep1 c) ->
  exists q', assign_loop fuel labels (tab_joined (map lab (i :: g)) ++ nl :: rest) s0 j nnode q =
     (match rest with [] => Ok (q', nnode - length (i :: g)) | _ => assign_loop (fuel - length (i :: g)) labels rest (Some nl) (j + 1) (nnode - length (i :: g)) q' end) /\
    PW (fun x => In x (i :: g) \/ D x) q' (fupd ls j (ls j ++ i :: g)) /\
    pN q' = pN q /\ pM q' = pM q /\ (forall x, group q' x = if mem x (i :: g) then Some j else group q x) /\
    (forall x, strength q' x = strength q x).
Proof.
  intros Hlab g. induction g as [|k g IH]; intros i fuel rest s0 nnode q ls D j ND HN Hf HNq HM W HD Hnn Hr.
  - destruct fuel as [|fuel]; [simpl in Hf; lia|]. cbn [map tab_joined].
    assert (Hi : i < N) by (apply HN; simpl; auto). destruct (Hlab i Hi) as [Li Ci].
    rewrite (assign_step _ _ _ _ _ _ _ _ _ i); auto; [|unfold sep1; auto].
    destruct (nth_ex (pnodes q) i) as [nd End]. { rewrite (pw_N _ _ _ W). lia. }
    destruct (append_node_spec D i q ls j nd W) as (q' & -> & W' & N' & M' & G' & S' & _); auto; try lia.
    { apply HD. simpl; auto. }
    cbn [bind]. exists q'. splits; auto.
    + cbn [length]. change (ascii_eqb nl nl) with true. cbv iota. destruct rest; auto. f_equal. lia.
    + eapply PW_ext; [|exact W']. intros x; simpl; intuition congruence.
    + intros x. rewrite G'. unfold mem. simpl. rewrite orb_false_r. auto.
  - destruct fuel as [|fuel]; [simpl in Hf; lia|].
    assert (Hi : i < N) by (apply HN; simpl; auto). destruct (Hlab i Hi) as [Li Ci].
    assert (Hk : k < N) by (apply HN; simpl; auto). destruct (Hlab k Hk) as [Lk Ck].
    assert (Et : tab_joined (map lab (i :: k :: g)) ++ nl :: rest = lab i ++ tab :: (tab_joined (map lab (k :: g)) ++ nl :: rest)).
    { cbn [map tab_joined]. rewrite <- app_assoc. reflexivity. }
    rewrite Et. clear Et. 
    assert (Hs : forall c t, tab_joined (map lab (k :: g)) ++ nl :: rest = c :: t -> ~ sep1 c).
    { intros c t E. destruct g as [|k' g]; cbn [map tab_joined] in E; rewrite <- ?app_assoc in E; eapply cell_no_sep_head; eauto. }
    rewrite (assign_step _ _ _ _ _ _ _ _ _ i); auto; [|unfold sep1; auto].
    destruct (nth_ex (pnodes q) i) as [nd End]. { rewrite (pw_N _ _ _ W). lia. }
    destruct (append_node_spec D i q ls j nd W) as (q' & -> & W' & N' & M' & G' & S' & _); auto; try lia.
    { apply HD. simpl; auto. }
    cbn [bind]. destruct (tab_joined (map lab (k :: g)) ++ nl :: rest) as [|y0 t0] eqn:E0.
    { destruct (tab_joined (map lab (k :: g))); discriminate. }
    rewrite <- E0. change (ascii_eqb tab nl) with false. cbv iota.
    inversion ND as [|? ? Hni ND']; subst.
    destruct (IH k fuel rest (Some tab) (nnode - 1) q' (fupd ls j (ls j ++ [i])) (fun x => x = i \/ D x) j) as (q2 & E2 & W2 & N2 & M2 & G2 & S2); auto; try lia.
    + intros x Hx. apply HN. simpl; auto.
    + simpl in Hf. lia.
    + intros x Hx [->|Hd]; [auto|]. eapply HD; [|exact Hd]. simpl in *; auto.
    + simpl in Hnn. lia.
    + exists q2. rewrite E2. splits; auto; try congruence.
      * cbn [length]. replace (nnode - 1 - S (length g)) with (nnode - S (S (length g))) by lia.
        replace (fuel - S (length g)) with (S fuel - S (S (length g))) by lia. reflexivity.
      * eapply PW_ext with (D := fun x => In x (k :: g) \/ x = i \/ D x); [intros x; simpl; intuition congruence|].
        replace (fupd ls j (ls j ++ i :: k :: g)) with (fupd ls j ((ls j ++ [i]) ++ k :: g)) by (rewrite <- app_assoc; auto).
        rewrite fupd_eq in W2. destruct W2 as [w1 w2 w3 w4 w5 w6 w7 w8 w9 w10 w11].
        assert (FX : forall m, fupd (fupd ls j (ls j ++ [i])) j ((ls j ++ [i]) ++ k :: g) m = fupd ls j ((ls j ++ [i]) ++ k :: g) m).
        { intros m. unfold fupd. destruct (m =? j); auto. }
        split; auto.
        -- intros m md Em. rewrite <- FX. auto.
        -- intros m md Em. rewrite <- FX. auto.
        -- intros m. rewrite <- FX. auto.
        -- intros m x. rewrite <- FX. auto.
        -- rewrite w10. apply count_ext. intros m _. now rewrite FX.
      * intros x. rewrite G2, G'. unfold mem. cbn [existsb]. destruct (Nat.eqb_spec x i) as [->|]; cbn [orb]; auto.
        destruct (existsb (Nat.eqb i) (k :: g)) eqn:X; cbn [existsb] in X; rewrite X; auto.
Qed.

Lemma groups_head lab (gs : list (list nat)) : (forall g, In g gs -> g <> [] /\ forall i, In i g -> cell_label (lab i)) ->
  forall c t, groups_text lab gs = c :: t -> ~ sep1 c.
Proof.
  intros H c t E. destruct gs as [|[|i g] gs]; [discriminate| |].
  - destruct (H []); simpl; auto.
  - destruct (H (i :: g)) as [_ Hc]; [simpl; auto|]. unfold groups_text in E. cbn [map concat] in E.
    destruct g as [|k g]; cbn [map tab_joined] in E; rewrite <- ?app_assoc in E; eapply cell_no_sep_head; [|exact E| |exact E]; apply Hc; simpl; auto.
Qed.

Lemma read_groups labels lab N : (forall i, i < N -> label_index labels 0 (lab i) = Some i /\ cell_label (lab i)) ->
  forall gs g0 fuel s0 nnode q ls D j,
  NoDup (concat (g0 :: gs)) -> (forall g, In g (g0 :: gs) -> g <> []) -> (forall x, In x (concat (g0 :: gs)) -> x < N) ->
  length (concat (g0 :: gs)) <= fuel -> N <= pN q -> j + length gs < pM q -> length (concat (g0 :: gs)) <= nnode ->
  PW D q ls -> (forall x, In x (concat (g0 :: gs)) -> ~ D x) -> (forall m, j <= m -> ls m = []) ->
  exists q' ls', assign_loop fuel labels (groups_text lab (g0 :: gs)) s0 j nnode q = Ok (q', nnode - length (concat (g0 :: gs))) /\
    PW (fun x => In x (concat (g0 :: gs)) \/ D x) q' ls' /\ pN q' = pN q /\ pM q' = pM q /\
    (forall m, ls' m = if m <? j then ls m else nth (m - j) (g0 :: gs) []) /\
    (forall x, strength q' x = strength q x).
Proof.
  intros Hlab gs. induction gs as [|g1 gs IH]; intros g0 fuel s0 nnode q ls D j ND Hne HN Hf HNq HM Hnn W HD Hls.
  - destruct g0 as [|i g]; [exfalso; apply (Hne []); simpl; auto|].
    unfold groups_text. cbn [map concat]. rewrite app_nil_r. cbn [concat] in *. rewrite app_nil_r in *.
    change ["010"%char] with [nl].
    destruct (read_group labels lab N Hlab g i fuel [] s0 nnode q ls D j) as (q' & E & W' & N' & M' & G' & S'); auto; try (simpl in *; lia).
    { intros; discriminate. }
    exists q', (fupd ls j (ls j ++ i :: g)). splits; auto.
    intros m. unfold fupd. destruct (Nat.ltb_spec m j), (Nat.eqb_spec m j); try lia; auto.
    + subst m. rewrite Nat.sub_diag, Hls by lia. auto.
    + rewrite Hls by lia. destruct (m - j) as [|[|d]] eqn:Em; auto. lia.
  - destruct g0 as [|i g]; [exfalso; apply (Hne []); simpl; auto|].
    change (groups_text lab ((i :: g) :: g1 :: gs)) with ((tab_joined (map lab (i :: g)) ++ [nl]) ++ groups_text lab (g1 :: gs)).
    rewrite <- app_assoc. change ([nl] ++ groups_text lab (g1 :: gs)) with (nl :: groups_text lab (g1 :: gs)).
    set (rest := groups_text lab (g1 :: gs)) in *.
    change (concat ((i :: g) :: g1 :: gs)) with ((i :: g) ++ concat (g1 :: gs)) in *.
    set (cs := concat (g1 :: gs)) in *.
    rewrite app_length in *. 
    assert (Hcs : 0 < length cs). { unfold cs. destruct g1 as [|x g1]; [exfalso; apply (Hne []); simpl; auto|]. simpl. lia. }
    apply NoDup_app_iff in ND as (ND1 & ND2 & ND3).
    destruct (read_group labels lab N Hlab g i fuel rest s0 nnode q ls D j) as (q' & E & W' & N' & M' & G' & S'); auto; try (cbn [length] in *; lia).
    { intros x Hx. apply HN. apply in_app_iff; auto. }
    { intros x Hx. apply HD. apply in_app_iff; auto. }
    { apply groups_head. intros g2 Hg2. split; [apply Hne; simpl in *; auto|]. intros x Hx. apply Hlab. apply HN.
      apply in_app_iff. right. unfold cs. apply in_concat. exists g2. auto. }
    destruct (IH g1 (fuel - length (i :: g)) (Some nl) (nnode - length (i :: g)) q' (fupd ls j (ls j ++ i :: g)) (fun x => In x (i :: g) \/ D x) (j + 1))
      as (q2 & ls2 & E2 & W2 & N2 & M2 & L2 & S2); auto; fold cs; try (cbn [length] in *; lia).
    { intros g2 Hg2. apply Hne. simpl in *; auto. }
    { intros x Hx. apply HN. apply in_app_iff; auto. }
    { intros x Hx [Hi|Hd]; [eapply ND3; eauto|]. eapply HD; [|exact Hd]. apply in_app_iff; auto. }
    { intros m Hm. rewrite fupd_neq by lia. apply Hls. lia. }
    exists q2, ls2. fold rest in E2. fold cs in E2, W2.
    assert (Er : rest <> []). { unfold rest, groups_text. cbn [map concat]. destruct (tab_joined (map lab g1)); discriminate. }
    rewrite E. destruct rest as [|c t] eqn:Erest; [congruence|]. rewrite E2. splits; auto; try congruence.
    + f_equal. f_equal. lia.
    + eapply PW_ext; [|exact W2]. intros x. cbv beta. rewrite in_app_iff. tauto.
    + intros m. rewrite L2. unfold fupd. destruct (Nat.ltb_spec m (j + 1)), (Nat.ltb_spec m j); try lia; auto.
      * destruct (Nat.eqb_spec m j); auto; lia.
      * replace m with j by lia. rewrite Nat.eqb_refl, Nat.sub_diag, Hls by lia. auto.
      * replace (m - j) with (S (m - (j + 1))) by lia. auto.
Qed.

Theorem groups_readable q labels lab groups : fresh q -> 0 < pN q -> length labels = pN q -> NoDup labels -> 
  (forall i, i < pN q -> nth_error labels i = Some (lab i) /\ cell_label (lab i)) ->
  Permutation (concat groups) (seq 0 (pN q)) -> (forall g, In g groups -> g <> []) -> length groups <= pM q ->
  exists p', AssignNodesToModulesFromFile (groups_text lab groups) q labels = Ok (p', 0) /\ valid p' /\ pN p' = pN q /\
    pM p' = length groups /\
    (forall i j, i < pN q -> j < pN q -> (group p' i = group p' j <-> exists g, In g groups /\ In i g /\ In j g)) /\
    (forall i, strength p' i = strength q i).
Proof.
  intros F HN HL ND Hlab HP Hne HM. unfold AssignNodesToModulesFromFile.
  assert (LC : length (concat groups) = pN q) by (rewrite (Permutation_length HP), seq_length; auto).
  assert (NC : NoDup (concat groups)) by (eapply Permutation_NoDup; [apply Permutation_sym; exact HP|apply seq_NoDup]).
  destruct groups as [|g0 gs]; [simpl in LC; lia|].
  assert (LF : length (concat (g0 :: gs)) <= length (groups_text lab (g0 :: gs))).
  { assert (GL : forall g, (forall i, In i g -> i < pN q) -> length g <= length (tab_joined (map lab g) ++ ["010"%char])).
    { intros g Hg. induction g as [|x g IH]; [simpl; lia|].
      assert (1 <= length (lab x)). { destruct (Hlab x) as [_ (Hz & _)]; [apply Hg; simpl; auto|]. destruct (lab x); [congruence|simpl; lia]. }
      destruct g as [|y g]; [cbn [map tab_joined]; rewrite app_length; simpl; lia|].
      change (tab_joined (map lab (x :: y :: g))) with (lab x ++ "009"%char :: tab_joined (map lab (y :: g))).
      rewrite <- app_assoc, app_length. cbn [length app]. specialize (IH ltac:(intros; apply Hg; simpl in *; auto)). cbn [length] in IH. lia. }
    assert (Hb : forall g, In g (g0 :: gs) -> forall i, In i g -> i < pN q).
    { intros g Hg i Hi. assert (In i (seq 0 (pN q))) as X; [|apply in_seq in X; lia].
      eapply Permutation_in; [exact HP|]. apply in_concat. eauto. }
    clear - GL Hb. unfold groups_text. induction (g0 :: gs) as [|g l IH]; [simpl; auto|]. cbn [map concat]. rewrite !app_length.
    specialize (GL g (Hb g ltac:(simpl; auto))). rewrite app_length in GL. specialize (IH ltac:(intros; eapply Hb; simpl; eauto)). lia. }
  destruct (read_groups (firstn (pN q) labels) lab (pN q)) with (gs := gs) (g0 := g0) (fuel := length (groups_text lab (g0 :: gs)) + 1)
    (s0 := @None ascii) (nnode := pN q) (q := q) (ls := fun _ : nat => @nil nat) (D := fun _ : nat => False) (j := 0) as (q' & ls' & E & W & N' & M' & L' & S'); auto; try lia.
  - intros i Hi. destruct (Hlab i Hi). split; auto. apply label_index_ok; auto. rewrite firstn_all2; auto; lia.
  - intros x Hx. eapply Permutation_in in Hx; [|exact HP]. apply in_seq in Hx. lia.
  - apply fresh_PW; auto.
  - rewrite E. cbn [bind].
    assert (W' : WF q' ls').
    { apply PW_WF. eapply PW_ext; [|exact W]. intros x. cbv beta. rewrite N'. split.
      - intros [Hx|[]]. eapply Permutation_in in Hx; [|exact HP]. apply in_seq in Hx. lia.
      - intros Hx. left. eapply Permutation_in; [apply Permutation_sym; exact HP|]. apply in_seq. lia. }
    assert (Lm : forall m, ls' m = nth m (g0 :: gs) []). { intros m. rewrite L'. simpl (m <? 0). cbv iota. now rewrite Nat.sub_0_r. }
    destruct (CompressPartition_spec q' ls' W') as (p' & lp & f & -> & Wp & Np & Mp & NEp & Gp & Lp & NNp & Sp); [lia|].
    cbn [bind]. exists p'. rewrite LC, Nat.sub_diag. splits; auto; try lia.
    + eapply WF_valid; eauto.
    + rewrite Mp, (wf_nempty _ _ W'), M'. clear - Lm HM Hne. set (gg := g0 :: gs) in *.
      assert (forall k, count (fun m => isnil (ls' m)) (seq 0 k) = k - length gg).
      { induction k as [|k IH]; auto. rewrite seq_S, count_app, IH. unfold count at 1. simpl filter.
        rewrite Lm. destruct (Nat.ltb_spec k (length gg)).
        - destruct (nth_ex gg k) as [g Eg]; auto. erewrite nth_error_nth; [|exact Eg].
          assert (g <> []) by (apply Hne; eapply nth_error_In; eauto). destruct g; [congruence|]. simpl isnil. cbn [length]. lia.
        - rewrite nth_overflow by auto. simpl isnil. cbn [length]. lia. }
      rewrite H. lia.
    + intros i j Hi Hj. 
      assert (G : forall i, i < pN q -> exists m, group q' i = Some m /\ In i (ls' m)).
      { intros x Hx. destruct (wf_node _ _ x W') as (nd & E1 & _ & _ & E2); [lia|]. exists (nmod nd). split; auto. unfold group. now rewrite E1. }
      destruct (G i Hi) as (mi & Gi & Ii). destruct (G j Hj) as (mj & Gj & Ij).
      assert (X : forall m x, In x (ls' m) -> In (ls' m) (g0 :: gs)).
      { intros m x Hx. rewrite Lm in *. destruct (nth_in_or_default m (g0 :: gs) []) as [H|H]; auto. rewrite H in Hx. destruct Hx. }
      assert (Y : group p' i = group p' j <-> mi = mj).
      { rewrite !Gp, Gi, Gj. simpl. split; [|congruence]. intros [= Hf].
        destruct (Lp mi) as [L1 _]; [intros Z; rewrite Z in Ii; destruct Ii|].
        destruct (Lp mj) as [L2 _]; [intros Z; rewrite Z in Ij; destruct Ij|].
        rewrite Hf, L2 in L1. rewrite <- L1 in Ii. apply (wf_mem _ _ W') in Ii. congruence. }
      rewrite Y. split.
      * intros <-. exists (ls' mi). eauto.
      * intros (g & Hg & H1 & H2). apply In_nth_error in Hg as (m & Em).
        assert (ls' m = g) by (rewrite Lm; erewrite nth_error_nth; eauto). subst g.
        apply (wf_mem _ _ W') in H1. apply (wf_mem _ _ W') in H2. congruence.
    + intros i. rewrite Sp. auto.
Qed.
End Clust.

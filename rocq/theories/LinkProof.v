(** LinkProof.v -- RemoveRandomLinks removes and AddRandomLinks adds the links that were drawn, and no others. *)
From Coq Require Import List Arith Lia Bool Permutation.
From Verif Require Import Base Num ListLib NatSum IoModel GraphModel GraphSpec GraphProof GraphRand SearchProof LinkModel LinkSpec.
Import ListNotations.
Local Open Scope nat_scope.

Section Link.
Context {A : Type} {ops : NumOps A}.
Implicit Types g : net A.

Lemma filter_all (P : nat -> bool) l : (forall x, In x l -> P x = true) -> filter P l = l.
Proof. induction l as [|x l IH]; intros H; cbn; auto. rewrite H by (left; auto). rewrite IH; auto. intros y Hy. apply H. right. auto. Qed.

(** ** RemoveLink keeps the order of the other links *)
Lemma del_link_order j ls ls' : NoDup (targets ls) -> del_link (A := A) j ls = Ok ls' -> targets ls' = filter (fun x => negb (x =? j)) (targets ls).
Proof.
  revert ls'. induction ls as [|l ls IH]; intros ls' ND E; [discriminate|]. cbn [del_link] in E. change (l :: ls) with ([l] ++ ls) in *. rewrite targets_app in *. rewrite filter_app. destruct (eq_ref (lref l) j) eqn:El.
  - injection E as <-. apply eq_ref_true in El. cbn [targets flat_map] in *. rewrite El in *. cbn [app filter] in *. rewrite Nat.eqb_refl. cbn. inversion ND as [|? ? H1 H2]; subst. symmetry. apply filter_all. intros x Hx. apply negb_true_iff, Nat.eqb_neq. intros ->. contradiction.
  - destruct (del_link j ls) as [r|e] eqn:Er; [|discriminate]. cbn [bind] in E. injection E as <-. change (l :: r) with ([l] ++ r). rewrite targets_app. rewrite (IH r) by (auto; apply NoDup_app_iff in ND; tauto). f_equal.
    cbn [targets flat_map]. destruct (lref l) as [k|]; cbn [app filter]; auto. cbn in El. now rewrite El.
Qed.
Lemma RemoveLink_order g i j sym g' : wf_net g -> i < length g -> j < length g -> RemoveLink g i j sym = Ok g' ->
  forall a, nbrs g' a = if a =? i then filter (fun x => negb (x =? j)) (nbrs g i) else if sym && (a =? j) then filter (fun x => negb (x =? i)) (nbrs g j) else nbrs g a.
Proof.
  intros W Li Lj E a. unfold RemoveLink in E.
  destruct (reset_spec g i W Li) as (g1 & E1 & W1 & S1 & N1 & Wt1 & _). rewrite E1 in E. cbn [bind] in E.
  destruct (reset_spec g1 j W1) as (g2 & E2 & W2 & S2 & N2 & Wt2 & _). { rewrite <- (same_nodes_length _ _ S1). auto. } rewrite E2 in E. cbn [bind] in E.
  assert (NN : forall x, nbrs g2 x = nbrs g x) by (intros; now rewrite N2, N1). pose proof (same_nodes_length _ _ S1). pose proof (same_nodes_length _ _ S2).
  destruct (nth_ex g2 i) as [n En]; [lia|]. rewrite (get_ok _ _ _ En) in E. cbn [bind] in E. destruct (del_link j (gadj n)) as [ls|e] eqn:Ed; [|discriminate]. cbn [bind] in E.
  rewrite set_ok in E by lia. cbn [bind] in E. apply del_link_order in Ed; [|rewrite <- (nbrs_eq _ _ _ En); apply (wf_nodup g2 W2)]. rewrite <- (nbrs_eq _ _ _ En), NN in Ed.
  assert (G3 : forall x, nbrs (upd g2 i (set_gadj ls n)) x = if x =? i then filter (fun x => negb (x =? j)) (nbrs g i) else nbrs g x).
  { intros x. rewrite (nbrs_upd _ _ _ _ _ En). cbn [set_gadj gadj]. rewrite Ed, NN. auto. }
  destruct sym; cbn [andb] in *.
  - destruct (Nat.eqb_spec i j) as [->|Hij]; cbn [negb] in E.
    + injection E as <-. rewrite G3. destruct (a =? j); auto.
    + destruct (nth_ex (upd g2 i (set_gadj ls n)) j) as [m Em]; [rewrite length_upd; lia|]. rewrite (get_ok _ _ _ Em) in E. cbn [bind] in E.
      destruct (del_link i (gadj m)) as [ls2|e] eqn:Ed2; [|discriminate]. cbn [bind] in E. rewrite set_ok in E by (rewrite length_upd; lia). injection E as <-.
      assert (Nj : nbrs g j = targets (gadj m)). { rewrite <- (nbrs_eq _ _ _ Em), G3. apply Nat.eqb_neq in Hij. rewrite Nat.eqb_sym in Hij. now rewrite Hij. }
      apply del_link_order in Ed2; [|rewrite <- Nj; apply (wf_nodup g W)]. rewrite <- Nj in Ed2. rewrite (nbrs_upd _ _ _ _ _ Em). cbn [set_gadj gadj]. rewrite G3.
      destruct (Nat.eqb_spec a j) as [->|Ha]; auto. rewrite (proj2 (Nat.eqb_neq j i)) by auto. exact Ed2.
  - injection E as <-. apply G3.
Qed.

Lemma filter_shorter (P Q : nat -> bool) l : (forall x, P x = true -> Q x = true) -> length (filter P l) <= length (filter Q l).
Proof. intros H. induction l as [|x l IH]; cbn; auto. specialize (H x). destruct (P x); [rewrite H by auto; cbn; lia|]. destruct (Q x); cbn; lia. Qed.

(** ** The links that are gone *)
Definition pair_eqb (x y : nat * nat) : bool := (fst x =? fst y) && (snd x =? snd y).
Lemma pair_eqb_true x y : pair_eqb x y = true <-> x = y.
Proof. destruct x, y. unfold pair_eqb. cbn. rewrite andb_true_iff, !Nat.eqb_eq. split; [intros [-> ->]; auto|intros E; now injection E]. Qed.
Definition gone (sym : bool) (D : list (nat * nat)) (a b : nat) : bool := existsb (pair_eqb (a, b)) D || (sym && existsb (pair_eqb (b, a)) D).
Lemma exb D a b : existsb (pair_eqb (a, b)) D = true <-> In (a, b) D.
Proof.
  rewrite existsb_exists. split; [intros (x & Hx & E); apply pair_eqb_true in E; now subst x|intros H; exists (a, b); split; auto; now apply pair_eqb_true].
Qed.
Lemma gone_among sym D a b : gone sym D a b = true <-> among sym D a b.
Proof. unfold gone, among. rewrite orb_true_iff, andb_true_iff, !exb. tauto. Qed.
Definition mode (sym : bool) g : Prop := if sym then undirected g else wf_net g.
Lemma mode_wf sym g : mode sym g -> wf_net g.
Proof. destruct sym; cbn; [apply un_wf|auto]. Qed.
(** The network [g] without the links [D]. *)
Record without (sym : bool) g (D : list (nat * nat)) (g1 : net A) : Prop := {
  wo_mode : mode sym g1;
  wo_nodes : same_nodes g g1;
  wo_nbrs : forall a, nbrs g1 a = filter (fun b => negb (gone sym D a b)) (nbrs g a);
  wo_weight : forall a b, weight g1 a b = if gone sym D a b then None else weight g a b;
  wo_count : sum_deg g1 + (if sym then 2 else 1) * length D = sum_deg g
}.
Lemma sum_deg_drop g g1 i j (c : nat -> nat) : length g = length g1 -> i < length g -> j < length g -> (forall a, degree g a = degree g1 a + ((if a =? i then c 0 else 0) + (if a =? j then c 1 else 0))) -> sum_deg g = sum_deg g1 + (c 0 + c 1).
Proof.
  intros L Li Lj H. rewrite !sum_deg_lsum, <- L. rewrite (lsum_ext _ (fun a => degree g1 a + ((if a =? i then c 0 else 0) + (if a =? j then c 1 else 0)))) by auto. rewrite !lsum_add.
  assert (D : forall i v, i < length g -> lsum (fun a => if a =? i then v else 0) (seq 0 (length g)) = v).
  { intros x v Hx. apply (lsum_single (fun _ => v)); [apply seq_NoDup|apply in_seq; lia]. }
  rewrite !D by auto. lia.
Qed.
Lemma without_remove sym g D g1 i j : mode sym g -> without sym g D g1 -> In j (nbrs g i) -> gone sym D i j = false ->
  exists g2, RemoveLink g1 i j sym = Ok g2 /\ without sym g (D ++ [(i, j)]) g2.
Proof.
  intros HM [M1 S1 N1 W1 C1] Hj Hg. assert (Hj1 : In j (nbrs g1 i)) by (rewrite N1; apply filter_In; now rewrite Hg).
  assert (Wf1 : wf_net g1) by (eapply mode_wf; eauto). destruct (nbrs_lt g1 i j Wf1 Hj1) as [Li Lj].
  assert (GA : forall a b, gone sym (D ++ [(i, j)]) a b = gone sym D a b || (((a =? i) && (b =? j)) || (sym && (a =? j) && (b =? i)))).
  { intros a b. unfold gone. rewrite !existsb_app. generalize (existsb (pair_eqb (a, b)) D) (existsb (pair_eqb (b, a)) D). intros u v. cbn [existsb]. unfold pair_eqb. cbn [fst snd]. destruct sym, u, v, (a =? i), (b =? j), (a =? j), (b =? i); auto. }
  assert (NF : forall (P Q : nat -> bool) l, filter (fun x => negb (P x || Q x)) l = filter (fun x => negb (Q x)) (filter (fun x => negb (P x)) l)).
  { intros P Q l. induction l as [|x l IH]; cbn; auto. destruct (P x); cbn; auto. destruct (Q x); cbn; rewrite IH; auto. }
  assert (FX : forall (P Q : nat -> bool) l, (forall x, P x = Q x) -> filter P l = filter Q l) by (intros P Q l H; induction l as [|x l IH]; cbn; auto; rewrite H, IH; auto).
  assert (NO : forall g2, RemoveLink g1 i j sym = Ok g2 -> (sym = true -> i <> j) -> forall a, nbrs g2 a = filter (fun b => negb (gone sym (D ++ [(i, j)]) a b)) (nbrs g a)).
  { intros g2 E Hn a. rewrite (RemoveLink_order g1 i j sym g2 Wf1 Li Lj E). erewrite (FX (fun b => negb (gone sym (D ++ [(i, j)]) a b))) by (intros x; rewrite GA; reflexivity). rewrite NF, <- N1.
    destruct (Nat.eqb_spec a i) as [->|Ha]; cbn [andb orb].
    - apply FX. intros x. destruct sym; cbn; [|now rewrite orb_false_r]. rewrite (proj2 (Nat.eqb_neq i j)) by auto. cbn. now rewrite orb_false_r.
    - destruct sym; cbn [andb]. destruct (Nat.eqb_spec a j) as [->|Hb]; cbn [andb]; auto. symmetry. now apply filter_all.
      symmetry. now apply filter_all. }
  destruct sym; cbn [mode] in *.
  - destruct (remove_both g1 i j M1 Hj1) as (g2 & E2 & U2 & S2 & W2 & D2). exists g2. split; auto. assert (Hn : i <> j) by (intros ->; apply (un_loop g1 M1 j); auto). constructor; auto.
    + eapply same_nodes_trans; eauto.
    + intros a b. rewrite W2, W1, GA. destruct (gone true D a b); cbn; [destruct (_ || _); auto|]. destruct ((a =? i) && (b =? j)); cbn; auto.
    + rewrite app_length. cbn [length]. pose proof (sum_deg_drop g1 g2 i j (fun _ => 1) (same_nodes_length _ _ S2) Li Lj D2) as X. cbv beta iota in X, C1 |- *. lia.
  - destruct (RemoveLink_spec g1 i j false M1 Hj1 ltac:(discriminate)) as (g2 & E2 & U2 & S2 & W2 & N2 & P2 & _). exists g2. split; auto. constructor; auto.
    + eapply same_nodes_trans; eauto.
    + apply NO; [auto|discriminate].
    + intros a b. rewrite W2, W1, GA. cbn [andb]. rewrite !orb_false_r. destruct (gone false D a b); cbn; [destruct (_ && _); auto|]. auto.
    + rewrite app_length. cbn [length]. assert (DD : forall a, degree g1 a = degree g2 a + ((if a =? i then (fun x => 1 - x) 0 else 0) + (if a =? j then (fun x => 1 - x) 1 else 0))).
      { intros a. unfold degree. cbn. destruct (Nat.eqb_spec a i) as [->|Ha]; [rewrite (Permutation_length P2); cbn; destruct (i =? j); lia|]. rewrite N2 by auto. destruct (a =? j); lia. }
      pose proof (sum_deg_drop g1 g2 i j (fun x => 1 - x) (same_nodes_length _ _ S2) Li Lj DD) as X. cbv beta iota in X, C1 |- *. lia.
Qed.

(** ** The loop over the links *)
(** The elements of a list whose position, counted from [c], is marked. *)
Fixpoint picked {X} (tl : list bool) (c : nat) (l : list X) : list X :=
  match l with [] => [] | x :: l => (if nth c tl false then [x] else []) ++ picked tl (S c) l end.
Lemma picked_app {X} tl (l1 l2 : list X) : forall c, picked tl c (l1 ++ l2) = picked tl c l1 ++ picked tl (c + length l1) l2.
Proof. induction l1 as [|x l1 IH]; intros c; cbn [app picked length]; [now rewrite Nat.add_0_r|]. rewrite IH, app_assoc. replace (c + S (length l1)) with (S c + length l1) by lia. auto. Qed.
Lemma picked_In {X} tl (l : list X) : forall c x, In x (picked tl c l) <-> exists k, nth_error l k = Some x /\ nth (c + k) tl false = true.
Proof.
  induction l as [|y l IH]; intros c x; cbn [picked].
  - split; [intros []|]. intros (k & E & _). destruct k; discriminate.
  - rewrite in_app_iff, IH. split.
    + intros [H|(k & E & N)].
      * destruct (nth c tl false) eqn:En; [|destruct H]. destruct H as [<-|[]]. exists 0. rewrite Nat.add_0_r. auto.
      * exists (S k). rewrite Nat.add_succ_r. auto.
    + intros (k & E & N). destruct k as [|k]; cbn in E; [left; injection E as ->; rewrite Nat.add_0_r in N; rewrite N; left; auto|]. right. exists k. split; auto. rewrite <- N. f_equal. lia.
Qed.
Lemma picked_length {X} tl (l : list X) : forall c, length (picked tl c l) = lsum (fun k => if nth k tl false then 1 else 0) (seq c (length l)).
Proof. induction l as [|x l IH]; intros c; cbn [picked length seq lsum]; auto. rewrite app_length, IH. destruct (nth c tl false); auto. Qed.

Definition row (sym : bool) g p (l : list nat) : list (nat * nat) := map (pair p) (filter (fun j => negb sym || (p <=? j)) l).
Lemma remove_marked_ok sym tl g p : mode sym g -> p < length g -> forall todo don D g1 cnt fuel,
  nbrs g p = don ++ todo -> without sym g D g1 -> length (filter (fun b => negb (gone sym D p b)) todo) <= fuel -> cnt + length (row sym g p todo) <= length tl ->
  (forall a b, In (a, b) D -> (sym = true -> a < b) /\ (a < p \/ (a = p /\ In b don))) ->
  exists g2, remove_marked fuel tl sym p (length (filter (fun b => negb (gone sym D p b)) don)) cnt g1 = Ok (cnt + length (row sym g p todo), g2) /\
    without sym g (D ++ picked tl cnt (row sym g p todo)) g2 /\
    (forall a b, In (a, b) (D ++ picked tl cnt (row sym g p todo)) -> (sym = true -> a < b) /\ (a < p \/ (a = p /\ In b (don ++ todo)))).
Proof.
  intros HM Lp. induction todo as [|j todo IH]; intros don D g1 cnt fuel EN HW HF HT HD.
  - rewrite app_nil_r in EN. pose proof (wo_nodes _ _ _ _ HW) as S1. destruct (nth_ex g1 p) as [n En]; [rewrite <- (same_nodes_length _ _ S1); auto|].
    assert (Wf1 : wf_net g1) by (eapply mode_wf; eapply wo_mode; eauto).
    assert (L : length (gadj n) = length (filter (fun b => negb (gone sym D p b)) don)). { rewrite <- (degree_adj g1 p n Wf1 En). unfold degree. rewrite (wo_nbrs _ _ _ _ HW), EN. auto. }
    exists g1. cbn [row filter map length picked]. rewrite Nat.add_0_r, !app_nil_r. split; [|split; auto].
    destruct fuel; cbn [remove_marked]; rewrite (get_ok _ _ _ En); cbn [bind]; rewrite (proj2 (nth_error_None _ _)) by lia; auto.
  - assert (Hin : In j (nbrs g p)) by (rewrite EN; apply in_or_app; right; left; auto). assert (Wf : wf_net g) by (eapply mode_wf; eauto). destruct (nbrs_lt g p j Wf Hin) as [_ Lj].
    assert (ND : NoDup (don ++ j :: todo)) by (rewrite <- EN; apply (wf_nodup g Wf)). assert (Nd : ~ In j don) by (apply NoDup_remove_2 in ND; rewrite in_app_iff in ND; tauto).
    destruct (gone sym D p j) eqn:Hg.
    + (* already removed from the other end *)
      assert (Hc : negb sym || (p <=? j) = false). { apply gone_among in Hg. unfold among in Hg. destruct Hg as [Hg|[-> Hg]]; apply HD in Hg as [Hs Hl]; [destruct Hl as [|[_ Hl]]; [lia|contradiction]|]. cbn. apply Nat.leb_gt. destruct Hl as [|[? _]]; [lia|subst; specialize (Hs eq_refl); lia]. }
      assert (RW : row sym g p (j :: todo) = row sym g p todo) by (unfold row; cbn [filter]; now rewrite Hc). rewrite RW in *.
      destruct (IH (don ++ [j]) D g1 cnt fuel) as (g2 & E2 & W2 & H2); auto; [rewrite <- app_assoc; auto|cbn [filter] in HF; rewrite Hg in HF; auto| |].
      { intros a b H. apply HD in H as [H1 H2]. split; auto. rewrite in_app_iff. tauto. }
      exists g2. rewrite filter_app in E2. cbn [filter] in E2. rewrite Hg in E2. cbn in E2. rewrite app_nil_r in E2. split; auto. split; auto. intros a b H. apply H2 in H as [H3 H4]. split; auto. rewrite <- app_assoc in H4. exact H4.
    + cbn [filter] in HF. rewrite Hg in HF. cbn [negb length] in HF. destruct fuel as [|fuel]; [lia|]. pose proof (wo_nodes _ _ _ _ HW) as S1. pose proof (same_nodes_length _ _ S1) as L1. assert (Wf1 : wf_net g1) by (eapply mode_wf; eapply wo_mode; eauto).
      destruct (nth_ex g1 p) as [n En]; [lia|]. cbn [remove_marked]. rewrite (get_ok _ _ _ En). cbn [bind].
      assert (NT : nth_error (targets (gadj n)) (length (filter (fun b => negb (gone sym D p b)) don)) = Some j).
      { rewrite <- (nbrs_eq _ _ _ En), (wo_nbrs _ _ _ _ HW), EN, filter_app, nth_error_app2, Nat.sub_diag by lia. cbn [filter]. now rewrite Hg. }
      assert (NL : exists l, nth_error (gadj n) (length (filter (fun b => negb (gone sym D p b)) don)) = Some l /\ lref l = Some j).
      { pose proof (wf_linked _ _ _ Wf1 En) as LO. clear -NT LO. unfold linked_ok in LO. revert NT LO. generalize (length (filter (fun b => negb (gone sym D p b)) don)) as k. induction (gadj n) as [|l ls IH]; intros k NT LO; [destruct k; discriminate|].
        assert (Hl : exists x, lref l = Some x). { exact (Forall_inv LO). }
        destruct Hl as (x & El). cbn [targets flat_map] in NT. rewrite El in NT. cbn [app] in NT. destruct k as [|k]; cbn in NT |- *; [injection NT as ->; eauto|]. apply IH; auto. now inversion LO. }
      destruct NL as (l & El & Elr). rewrite El, Elr. cbn [deref bind]. destruct (nth_ex g1 j) as [m Em]; [lia|]. rewrite (get_ok _ _ _ Em). cbn [bind]. rewrite (wf_num g1 Wf1 p n En), (wf_num g1 Wf1 j m Em). rewrite orb_comm.
      destruct (negb sym || (p <=? j)) eqn:Hc.
      * assert (RW : row sym g p (j :: todo) = (p, j) :: row sym g p todo) by (unfold row; cbn [filter]; now rewrite Hc). rewrite RW in *. cbn [length] in HT |- *. cbn [picked].
        destruct (nth_ex tl cnt) as [b Eb]; [lia|]. rewrite (get_ok _ _ _ Eb). cbn [bind]. rewrite (nth_error_nth _ _ _ Eb).
        assert (HD' : forall a b, In (a, b) (D ++ [(p, j)]) -> (sym = true -> a < b) /\ (a < p \/ (a = p /\ In b (don ++ [j])))).
        { intros a b0 H. apply in_app_or in H as [H|[H|[]]]; [apply HD in H as [H1 H2]; split; auto; rewrite in_app_iff; tauto|]. injection H as <- <-. split; [|right; rewrite in_app_iff; cbn; auto]. intros ->. cbn in Hc. apply Nat.leb_le in Hc. assert (p <> j) by (intros ->; apply (un_loop g HM j); auto). lia. }
        destruct b.
        -- destruct (without_remove sym g D g1 p j HM HW Hin Hg) as (g2 & E2 & W2). rewrite E2. cbn [bind].
           destruct (IH (don ++ [j]) (D ++ [(p, j)]) g2 (cnt + 1) fuel) as (g3 & E3 & W3 & H3); auto; [rewrite <- app_assoc; auto| |lia|].
           { etransitivity; [|apply (proj2 (Nat.succ_le_mono _ _)); exact HF]. apply filter_shorter. intros x. unfold gone. rewrite !existsb_app. rewrite !negb_true_iff, !orb_false_iff, !andb_false_iff, !orb_false_iff. tauto. }
           exists g3. assert (EK : length (filter (fun b => negb (gone sym (D ++ [(p, j)]) p b)) (don ++ [j])) = length (filter (fun b => negb (gone sym D p b)) don)).
           { rewrite filter_app. cbn [filter]. assert (G1 : gone sym (D ++ [(p, j)]) p j = true) by (apply gone_among; left; apply in_or_app; right; left; auto). rewrite G1. cbn. rewrite app_nil_r. f_equal. apply filter_ext_in. intros b Hb. f_equal.
             unfold gone. rewrite !existsb_app. cbn [existsb]. unfold pair_eqb at 2 4. cbn [fst snd]. rewrite Nat.eqb_refl. assert (b <> j) by (intros ->; contradiction). rewrite (proj2 (Nat.eqb_neq b j)) by auto. cbn [andb orb]. rewrite !orb_false_r.
             destruct sym; cbn [andb]; [|now rewrite ?orb_false_r]. cbn in Hc. apply Nat.leb_le in Hc. assert (Hpj : p <> j) by (intros ->; apply (un_loop g HM j); auto). rewrite (proj2 (Nat.eqb_neq p j)) by auto. rewrite andb_false_r. now rewrite ?orb_false_r. }
           rewrite EK in E3. rewrite E3. cbn [app]. rewrite <- app_assoc in W3, H3. cbn [app] in W3, H3. rewrite Nat.add_1_r in W3, H3. split; [f_equal; f_equal; lia|]. split; auto. intros a b H. apply H3 in H. rewrite <- app_assoc in H. exact H.
        -- destruct (IH (don ++ [j]) D g1 (cnt + 1) fuel) as (g3 & E3 & W3 & H3); auto; [rewrite <- app_assoc; auto|lia|lia| |].
           { intros a b H. apply HD in H as [H1 H2]. split; auto. rewrite in_app_iff. tauto. }
           exists g3. rewrite filter_app in E3. cbn [filter] in E3. rewrite Hg in E3. cbn [negb] in E3. rewrite app_length in E3. cbn [length] in E3. rewrite E3. cbn [app]. rewrite Nat.add_1_r in W3, H3. split; [f_equal; f_equal; lia|]. split; auto. intros a b H. apply H3 in H. rewrite <- app_assoc in H. exact H.
      * assert (RW : row sym g p (j :: todo) = row sym g p todo) by (unfold row; cbn [filter]; now rewrite Hc). rewrite RW in *.
        destruct (IH (don ++ [j]) D g1 cnt fuel) as (g3 & E3 & W3 & H3); auto; [rewrite <- app_assoc; auto|lia| |].
        { intros a b H. apply HD in H as [H1 H2]. split; auto. rewrite in_app_iff. tauto. }
        exists g3. rewrite filter_app in E3. cbn [filter] in E3. rewrite Hg in E3. cbn [negb] in E3. rewrite app_length in E3. cbn [length] in E3. rewrite E3. split; auto. split; auto. intros a b H. apply H3 in H. rewrite <- app_assoc in H. exact H.
Qed.
(** ** The list of links *)
Definition upto (sym : bool) g p : list (nat * nat) := flat_map (fun i => row sym g i (nbrs g i)) (seq 0 p).
Lemma links_upto sym g : links_of sym g = upto sym g (length g).
Proof. reflexivity. Qed.
Lemma upto_S sym g p : upto sym g (p + 1) = upto sym g p ++ row sym g p (nbrs g p).
Proof. unfold upto. rewrite seq_app, flat_map_app. cbn. now rewrite app_nil_r. Qed.
Lemma In_links sym g a b : wf_net g -> In (a, b) (links_of sym g) <-> In b (nbrs g a) /\ (sym = true -> a <= b).
Proof.
  intros W. unfold links_of. rewrite in_flat_map. split.
  - intros (i & Hi & H). apply in_map_iff in H as (j & E & H). injection E as -> ->. apply filter_In in H as [H1 H2]. split; auto. intros ->. cbn in H2. now apply Nat.leb_le.
  - intros [H1 H2]. exists a. split; [apply in_seq; destruct (nbrs_lt g a b W H1); lia|]. apply in_map, filter_In. split; auto. destruct sym; auto. cbn. now apply Nat.leb_le, H2.
Qed.
Lemma NoDup_links sym g : wf_net g -> NoDup (links_of sym g).
Proof.
  intros W. apply NoDup_flat; [apply seq_NoDup| |].
  - intros i _. apply FinFun.Injective_map_NoDup; [intros x y E; now injection E|]. apply NoDup_filter, (wf_nodup g W).
  - intros i j [a b] _ _ H1 H2. apply in_map_iff in H1 as (x & E1 & _), H2 as (y & E2 & _). congruence.
Qed.
Lemma length_links sym g : mode sym g -> sum_deg g = (if sym then 2 else 1) * length (links_of sym g).
Proof.
  destruct sym; cbn [mode]; intros M.
  - rewrite handshake by auto. f_equal. rewrite <- (map_length (fun x => (snd x, fst x)) (links_of true g)). apply Permutation_length, NoDup_Permutation.
    + apply NoDup_edges, un_wf, M.
    + apply FinFun.Injective_map_NoDup; [intros [a b] [c d] E; now injection E as -> ->|]. apply NoDup_links, un_wf, M.
    + intros [a b]. rewrite In_edges, in_map_iff. split.
      * intros (H1 & H2 & _). exists (b, a). split; auto. apply In_links; [apply un_wf, M|]. split; [now apply undirected_sym|lia].
      * intros ([x y] & E & H). injection E as <- <-. cbn [fst snd]. apply In_links in H as [H1 H2]; [|apply un_wf, M]. specialize (H2 eq_refl). assert (x <> y) by (intros ->; apply (un_loop g M y); auto). pose proof (nbrs_lt g x y (un_wf g M) H1). split; [now apply undirected_sym|lia].
  - rewrite sum_deg_lsum. unfold links_of. rewrite length_flat, Nat.mul_1_l. apply lsum_ext. intros i _. rewrite map_length. unfold degree. symmetry. f_equal. now apply filter_all.
Qed.

(** ** Marking *)
Definition marks (tl : list bool) : nat := lsum (fun k => if nth k tl false then 1 else 0) (seq 0 (length tl)).
Lemma nth_upd_b (tl : list bool) n k : n < length tl -> nth k (upd tl n true) false = (k =? n) || nth k tl false.
Proof.
  intros L. destruct (Nat.eqb_spec k n) as [->|H].
  - apply nth_error_nth. now apply nth_upd_eq.
  - cbn. destruct (nth_error tl k) as [b|] eqn:E; [rewrite (nth_error_nth _ _ _ E); apply nth_error_nth; rewrite nth_upd_neq by auto; exact E|]. apply nth_error_None in E. rewrite !nth_overflow; auto. now rewrite length_upd.
Qed.
Lemma mark_one_spec tl ds : Forall (fun d => d < length tl) ds ->
  match mark_one tl ds with
  | Ok (tl', ds') => exists u n, ds = u ++ n :: ds' /\ (forall x, In x u -> nth x tl false = true) /\ nth n tl false = false /\ n < length tl /\ tl' = upd tl n true
  | Err e => e = RngOut /\ forall x, In x ds -> nth x tl false = true
  end.
Proof.
  induction ds as [|d ds IH]; intros F; cbn [mark_one]; [split; [auto|intros x []]|]. inversion F as [|? ? Hd F']; subst. destruct (nth_ex tl d Hd) as [b Eb]. rewrite (get_ok _ _ _ Eb). cbn [bind]. pose proof (nth_error_nth _ _ false Eb) as Nb. destruct b.
  - specialize (IH F'). destruct (mark_one tl ds) as [[tl' ds']|e].
    + destruct IH as (u & n & -> & H1 & H2). exists (d :: u), n. split; auto. split; auto. intros x [<-|Hx]; auto.
    + destruct IH as [-> H]. split; auto. intros x [<-|Hx]; auto.
  - rewrite set_ok by auto. cbn [bind]. exists [], d. cj; try (auto; fail); intros x [].
Qed.
Lemma marks_upd tl n : n < length tl -> nth n tl false = false -> marks (upd tl n true) = marks tl + 1.
Proof.
  intros L H. unfold marks. rewrite length_upd. rewrite (lsum_ext _ (fun k => (if k =? n then 1 else 0) + (if nth k tl false then 1 else 0))).
  - rewrite lsum_add. rewrite (lsum_single (fun _ => 1)); [lia|apply seq_NoDup|apply in_seq; lia].
  - intros k _. rewrite nth_upd_b by auto. destruct (Nat.eqb_spec k n) as [->|]; cbn; auto. now rewrite H.
Qed.
Lemma marks_distinct tl u : (forall x, nth x tl false = true <-> In x u) -> marks tl = distinct u.
Proof.
  intros H. unfold marks. rewrite <- lsum_filter with (f := fun _ => 1), <- length_lsum. apply Permutation_length, NoDup_Permutation.
  - apply NoDup_filter, seq_NoDup.
  - apply NoDup_nodup.
  - intros x. rewrite filter_In, nodup_In, H, in_seq. split; [tauto|]. intros Hx. split; auto. split; [lia|]. apply H in Hx. destruct (lt_dec x (length tl)); auto. rewrite nth_overflow in Hx by lia. discriminate.
Qed.
Lemma mark_all total nLinks ds : Forall (fun d => d < total) ds ->
  match foldM (fun '(tl, ds) (_ : nat) => mark_one tl ds) (repeat false total, ds) (seq 0 nLinks) with
  | Ok (tl, ds') => exists used, ds = used ++ ds' /\ length tl = total /\ (forall x, nth x tl false = true <-> In x used) /\ distinct used = nLinks /\ needed used
  | Err e => e = RngOut /\ distinct ds < nLinks
  end.
Proof.
  intros F.
  pose proof (foldM_seq_safe (fun k '(tl, ds') => exists used, ds = used ++ ds' /\ length tl = total /\ (forall x, nth x tl false = true <-> In x used) /\ distinct used = k /\ needed used)
    (fun e => e = RngOut /\ distinct ds < nLinks) (fun '(tl, ds) (_ : nat) => mark_one tl ds) nLinks (repeat false total, ds)) as G.
  destruct (foldM _ _ _) as [[tl ds']|e] eqn:E; apply G; clear G.
  1, 3: exists []; cj; auto; [apply repeat_length| |left; auto]; intros x; split; [|intros []]; intros H; exfalso; destruct (nth_in_or_default x (repeat false total) false) as [IN|Q]; [apply repeat_spec in IN|]; congruence.
  all: intros k [tl1 ds1] Hk (used & -> & L & HI & HC & HN); apply Forall_app in F as [F1 F2]; pose proof (mark_one_spec tl1 ds1) as M; rewrite L in M; specialize (M F2); destruct (mark_one tl1 ds1) as [[tl2 ds2]|e'].
  1, 3: destruct M as (u & n & -> & H1 & H2 & H3 & ->); exists (used ++ u ++ [n]); rewrite <- !app_assoc; cj; auto;
    [now rewrite length_upd| | |];
    [intros x; rewrite nth_upd_b by lia; rewrite orb_true_iff, Nat.eqb_eq, HI, !in_app_iff; cbn [In]; split; [intuition auto|]; intros [Hx|[Hx|[Hx|[]]]]; auto; right; apply HI, H1; auto
    |rewrite <- (marks_distinct (upd tl1 n true)); [rewrite marks_upd, (marks_distinct tl1 used) by (auto; lia); lia|];
     intros x; rewrite nth_upd_b by lia; rewrite orb_true_iff, Nat.eqb_eq, HI, !in_app_iff; cbn [In]; split; [intuition auto|]; intros [Hx|[Hx|[Hx|[]]]]; auto; right; apply HI, H1; auto
    |right; exists (used ++ u), n; rewrite <- app_assoc; split; auto; intros Q; apply in_app_or in Q as [Q|Q]; [apply HI in Q|apply H1 in Q]; congruence].
  all: destruct M as [-> H]; split; auto; rewrite <- HC in Hk; eapply Nat.le_lt_trans; [|exact Hk]; apply NoDup_incl_length; [apply NoDup_nodup|]; intros x Hx; apply nodup_In; apply nodup_In in Hx; apply in_app_or in Hx as [Hx|Hx]; auto; now apply HI, H.
Qed.
End Link.

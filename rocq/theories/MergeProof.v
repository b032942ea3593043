(** MergeProof.v -- MergeModules keeps the partition invariant; equivalence of [valid] and [WF]. *)
From Coq Require Import List Arith Lia Bool.
From Verif Require Import Base ListLib PartModel MoveModel PartSpec PartInv ChangeProof.
Import ListNotations.
Local Open Scope nat_scope.

Section Proofs.
Context {A : Type} {ops : NumOps A}.
Implicit Types p : partition A.

(** ** [valid] and [WF] *)
Fixpoint chain (step : nat -> option (option nat)) (fuel : nat) (o : option nat) : list nat :=
  match fuel, o with
  | S f, Some i => match step i with Some o' => i :: chain step f o' | None => [i] end
  | _, _ => []
  end.

Lemma walks_chain step o l : walks step o l -> chain step (length l) o = l.
Proof.
  intros H; induction H as [|i o l Hs Hw IH]; simpl; auto. rewrite Hs, IH. auto.
Qed.

Lemma walks_hd step o l : walks step o l -> o = hd_error l.
Proof. intros H; inversion H; auto. Qed.

Lemma walks_tail step o l1 i l2 : walks step o (l1 ++ i :: l2) -> step i = Some (hd_error l2).
Proof.
  revert o; induction l1 as [|a l1 IH]; intros o H; simpl in H; inversion H; subst.
  - rewrite H3. f_equal. eapply walks_hd; eauto.
  - eapply IH; eauto.
Qed.

Lemma walks_intro step l : (forall l1 i l2, l = l1 ++ i :: l2 -> step i = Some (hd_error l2)) ->
  walks step (hd_error l) l.
Proof.
  induction l as [|a l IH]; intros H; simpl; [constructor|]. econstructor.
  - apply (H [] a l). auto.
  - apply IH. intros l1 i l2 ->. apply (H (a :: l1)). auto.
Qed.

Lemma dll_walks p l :
  dll (pnodes p) None l None <-> walks (fwd p) (hd_error l) l /\ walks (bwd p) (last_error l) (rev l).
Proof.
  split.
  - intros H. split.
    + apply walks_intro. intros l1 i l2 ->. destruct (dll_node _ _ _ _ H) as (nd & E & _ & Hx).
      unfold fwd. rewrite E. simpl. congruence.
    + apply walks_intro. intros l1 i l2 E. apply (f_equal (@rev nat)) in E. rewrite rev_involutive in E.
      rewrite rev_app_distr in E. simpl in E. rewrite <- app_assoc in E. simpl in E. subst l.
      destruct (dll_node _ _ _ _ H) as (nd & E & Hp & _).
      unfold bwd. rewrite E. simpl. rewrite Hp. unfold last_error. now rewrite rev_involutive.
  - intros [Hf Hb].
    assert (G : forall l1 l2, l = l1 ++ l2 -> dll (pnodes p) (lastor None l1) l2 None).
    { intros l1 l2; revert l1. induction l2 as [|i l2 IH]; intros l1 E; simpl; auto. split.
      - assert (H1 : fwd p i = Some (hd_error l2)). { rewrite E in Hf. eapply walks_tail; eauto. }
        assert (H2 : bwd p i = Some (last_error l1)).
        { rewrite E in Hb. rewrite rev_app_distr in Hb. simpl in Hb. rewrite <- app_assoc in Hb. simpl in Hb.
          apply walks_tail in Hb. exact Hb. }
        unfold fwd, bwd, links in *. destruct (nth_error (pnodes p) i); [|discriminate].
        simpl in *. injection H1 as ->. injection H2 as ->. rewrite lastor_last. auto.
      - specialize (IH (l1 ++ [i])). rewrite lastor_app in IH. simpl in IH. apply IH.
        rewrite E, <- app_assoc. auto. }
    apply (G [] l). auto.
Qed.

Lemma filter_map_nth {B C} (f : C -> bool) (g : nat -> C) (h : B -> C) (l : list B) a :
  (forall i b, nth_error l i = Some b -> f (g (a + i)) = f (h b)) ->
  length (filter (fun m => f (g m)) (seq a (length l))) = length (filter (fun b => f (h b)) l).
Proof.
  revert a; induction l as [|b l IH]; intros a H; simpl; auto.
  assert (E : f (g a) = f (h b)). { specialize (H 0 b eq_refl). now rewrite Nat.add_0_r in H. }
  rewrite E. destruct (f (h b)); simpl; rewrite IH; auto; intros i x Hi; specialize (H (S i) x Hi);
    now rewrite Nat.add_succ_r in H.
Qed.

Lemma count_empty p (ls : nat -> list nat) :
  length (pmods p) = pM p ->
  (forall m md, nth_error (pmods p) m = Some md -> msize md = length (ls m)) ->
  count (fun m => isnil (ls m)) (seq 0 (pM p)) = length (filter (fun md => msize md =? 0) (pmods p)).
Proof.
  intros <- H. unfold count.
  rewrite (filter_ext _ (fun m => length (ls m) =? 0)) by (intros; apply isnil_length).
  apply (filter_map_nth (fun n => n =? 0) (fun m => length (ls m)) msize).
  intros i b Hb. simpl. now rewrite (H i b).
Qed.

Lemma WF_valid p ls : WF p ls -> valid p.
Proof.
  intros W. split; try apply W.
  - intros m md Hm. exists (ls m). destruct (wf_links _ _ W m md Hm) as (-> & -> & D).
    apply dll_walks in D as [D1 D2]. repeat split; auto.
    + symmetry. eapply wf_size; eauto.
    + apply (wf_nodup _ _ W).
    + apply (wf_mem _ _ W).
    + apply (wf_mem _ _ W).
  - rewrite (wf_nempty _ _ W). apply count_empty. apply (wf_M _ _ W). apply (wf_size _ _ W).
Qed.

Definition members p (m : nat) : list nat :=
  match nth_error (pmods p) m with
  | Some md => chain (fwd p) (msize md) (mfirst md)
  | None => []
  end.

Lemma valid_WF p : valid p -> WF p (members p).
Proof.
  intros V.
  assert (G : forall m md, nth_error (pmods p) m = Some md ->
    walks (fwd p) (mfirst md) (members p m) /\ walks (bwd p) (mlast md) (rev (members p m)) /\
    length (members p m) = msize md /\ NoDup (members p m) /\
    (forall i, In i (members p m) <-> group p i = Some m)).
  { intros m md E. destruct (valid_lists _ V m md E) as (l & H1 & H2 & H3 & H4 & H5).
    assert (members p m = l). { unfold members. rewrite E, <- H3. now apply walks_chain. }
    subst l. auto. }
  assert (Hnone : forall m, nth_error (pmods p) m = None -> members p m = []).
  { intros m E. unfold members. now rewrite E. }
  split; try apply V.
  - intros m md E. destruct (G m md E) as (H1 & H2 & _).
    pose proof (walks_hd _ _ _ H1) as Hh. pose proof (walks_hd _ _ _ H2) as Hl. fold (last_error (members p m)) in Hl.
    repeat split; auto. apply dll_walks. rewrite <- Hh, <- Hl. auto.
  - intros m md E. symmetry. apply (G m md E).
  - intros m. destruct (nth_error (pmods p) m) eqn:E; [apply (G m _ E)|rewrite Hnone by auto; constructor].
  - intros m i. destruct (nth_error (pmods p) m) eqn:E; [apply (G m _ E)|]. rewrite Hnone by auto. simpl.
    split; [tauto|]. intros Hg. unfold group in Hg. destruct (nth_error (pnodes p) i) eqn:En; [|discriminate].
    injection Hg as <-. apply nth_error_None in E. pose proof (valid_range _ V i _ En). rewrite (valid_M _ V) in E. lia.
  - rewrite (valid_nempty _ V). symmetry. apply count_empty. apply (valid_M _ V).
    intros m md E. symmetry. apply (G m md E).
Qed.

Lemma WF_members p ls : WF p ls -> forall m, members p m = ls m.
Proof.
  intros W m. unfold members. destruct (nth_error (pmods p) m) as [md|] eqn:E.
  - destruct (wf_links _ _ W m md E) as (-> & _ & D). rewrite (wf_size _ _ W m md E).
    apply walks_chain. apply dll_walks in D. tauto.
  - destruct (ls m) as [|i l] eqn:El; auto. exfalso.
    assert (Hi : In i (ls m)) by (rewrite El; simpl; auto).
    apply (wf_mod_lt _ _ _ _ W) in Hi. rewrite <- (wf_M _ _ W) in Hi. apply nth_error_None in E. lia.
Qed.

(** ** Relabelling the nodes of a list *)
Definition relabel (nodes : list (node A)) (l : list nat) (v : nat) : list (node A) :=
  fold_left (fun nds i => match nth_error nds i with Some nd => upd nds i (set_nmod v nd) | None => nds end) l nodes.

Lemma relabel_length nodes l v : length (relabel nodes l v) = length nodes.
Proof.
  revert nodes; induction l as [|a l IH]; intros nodes; auto.
  change (relabel nodes (a :: l) v) with
      (relabel (match nth_error nodes a with Some nd => upd nodes a (set_nmod v nd) | None => nodes end) l v).
  rewrite IH. destruct (nth_error nodes a); auto. apply length_upd.
Qed.

Lemma relabel_nth nodes l v i :
  nth_error (relabel nodes l v) i =
  option_map (fun nd => if mem i l then set_nmod v nd else nd) (nth_error nodes i).
Proof.
  revert nodes; induction l as [|a l IH]; intros nodes.
  - simpl. destruct (nth_error nodes i); auto.
  - change (relabel nodes (a :: l) v) with
      (relabel (match nth_error nodes a with Some nd => upd nodes a (set_nmod v nd) | None => nodes end) l v).
    rewrite IH. unfold mem. cbn [existsb].
    destruct (nth_error nodes a) as [nd|] eqn:Ea.
    + rewrite nth_upd. apply nth_lt in Ea as Hl. rewrite (proj2 (Nat.ltb_lt _ _) Hl), andb_true_r.
      destruct (Nat.eqb_spec i a) as [->|]; simpl; auto. rewrite Ea. simpl.
      destruct (existsb _ l); auto.
    + destruct (Nat.eqb_spec i a) as [->|]; simpl; auto. rewrite Ea. auto.
Qed.

Lemma relabel_links nodes l v i : links (relabel nodes l v) i = links nodes i.
Proof. unfold links. rewrite relabel_nth. destruct (nth_error nodes i); simpl; auto. destruct (mem i l); auto. Qed.

Lemma relabel_app nodes l1 l2 v : relabel nodes (l1 ++ l2) v = relabel (relabel nodes l1 v) l2 v.
Proof. unfold relabel. apply fold_left_app. Qed.

Lemma relabel_one nodes i v nd : nth_error nodes i = Some nd -> relabel nodes [i] v = upd nodes i (set_nmod v nd).
Proof. intros H. unfold relabel. simpl. now rewrite H. Qed.

Lemma relabel_walk p l v :
  dll (pnodes p) None l None -> length l <= length (pnodes p) ->
  walkM (fun p i => next_of p i) (fun p i => upd_node p i (set_nmod v)) (length (pnodes p)) (hd_error l) p
  = Ok (set_nodes (relabel (pnodes p) l v) p).
Proof.
  intros D L.
  destruct (walkM_list (fun p i => next_of p i) (fun p i => upd_node p i (set_nmod v))
     (fun done q => q = set_nodes (relabel (pnodes p) done v) p) l (length (pnodes p)) p) as (q & E & Eq); auto.
  - simpl. destruct p; auto.
  - intros done i rest q El ->. 
    assert (Hi : i < length (relabel (pnodes p) done v)).
    { rewrite relabel_length. eapply dll_in_lt; [exact D|]. rewrite El. apply in_app_iff; simpl; auto. }
    destruct (nth_ex _ _ Hi) as [nd End].
    erewrite upd_node_ok by (cbn; eauto). eexists. split; [reflexivity|]. split.
    + rewrite relabel_app, (relabel_one _ _ _ _ End). reflexivity.
    + unfold next_of. cbn. erewrite get_ok by (apply nth_upd_eq; auto). cbn.
      rewrite relabel_nth in End. rewrite El in D. destruct (dll_node _ _ _ _ D) as (nd0 & E0 & _ & Hx).
      rewrite E0 in End. simpl in End. rewrite <- Hx. destruct (mem i done); injection End as <-; auto.
  - rewrite E, Eq. reflexivity.
Qed.

(** ** MergeModules *)
Definition ls_merge (ls : nat -> list nat) small large :=
  fupd (fupd ls small []) large (ls small ++ ls large).

Lemma hd_error_app {B} (l1 l2 : list B) : l1 <> [] -> hd_error (l1 ++ l2) = hd_error l1.
Proof. destruct l1; simpl; congruence. Qed.
Lemma last_error_app {B} (l1 l2 : list B) : l2 <> [] -> last_error (l1 ++ l2) = last_error l2.
Proof. intros H. destruct (exists_last H) as (l & a & ->). rewrite app_assoc, !last_error_snoc. auto. Qed.

(** The two halves of the code below the size test, for given small and large. *)
Lemma MergeModules_large p ls id1 id2 small large ms ml :
  WF p ls -> id1 <> id2 -> id1 < pM p -> id2 < pM p ->
  (small, large) = (if length (ls id2) <? length (ls id1) then (id2, id1) else (id1, id2)) ->
  nth_error (pmods p) small = Some ms -> nth_error (pmods p) large = Some ml ->
  ls id1 <> [] -> ls id2 <> [] ->
  exists p', MergeModules id1 id2 p = Ok p' /\ WF p' (ls_merge ls small large) /\
    pN p' = pN p /\ pM p' = pM p /\
    (forall i, group p' i = if mem i (ls small) then Some large else group p i) /\
    (forall i, strength p' i = strength p i) /\
    (forall m, option_map mstr (nth_error (pmods p') m) =
               if m =? small then Some n0 else if m =? large then Some (nadd (mstr ml) (mstr ms))
               else option_map mstr (nth_error (pmods p) m)).
Proof.
  intros W Hne H1 H2 Esl Es El Hn1 Hn2.
  destruct (wf_module _ _ _ W H1) as (m1 & E1 & _ & S1 & _).
  destruct (wf_module _ _ _ W H2) as (m2 & E2 & _ & S2 & _).
  assert (Hsl : small <> large) by (destruct (_ <? _); congruence).
  assert (Hns : ls small <> []) by (destruct (_ <? _); injection Esl as -> ->; auto).
  assert (Hnl : ls large <> []) by (destruct (_ <? _); injection Esl as -> ->; auto).
  unfold MergeModules. rewrite (get_ok _ _ _ E1). cbn [bind]. rewrite (get_ok _ _ _ E2). cbn [bind].
  rewrite S1, S2.
  assert (Z : ((length (ls id1) =? 0) || (length (ls id2) =? 0)) = false).
  { destruct (ls id1); [congruence|]. destruct (ls id2); [congruence|]. reflexivity. }
  rewrite Z, <- Esl. clear Z.
  destruct (wf_links _ _ W small ms Es) as (Fs & Ls & Ds).
  destruct (wf_links _ _ W large ml El) as (Fl & Ll & Dl).
  pose proof (wf_size _ _ W _ _ Es) as Ss. pose proof (wf_size _ _ W _ _ El) as Sl.
  pose proof (wf_mid _ _ W _ _ Es) as Is. pose proof (wf_mid _ _ W _ _ El) as Il.
  pose proof (wf_disj _ _ W) as HD.
  apply nth_lt in Es as Lens. apply nth_lt in El as Lenl.
  rewrite (get_ok _ _ _ Es). cbn [bind]. rewrite (get_ok _ _ _ El). cbn [bind].
  rewrite Il, Fs. rewrite relabel_walk; auto.
  2: { rewrite (wf_N _ _ W). apply NoDup_bound. apply (wf_nodup _ _ W). intros x Hx. eapply wf_in_lt; eauto. }
  cbn [bind]. unfold set_nempty, set_nodes. cbn [pN pM pnempty pmods pnodes].
  set (nodes1 := relabel (pnodes p) (ls small) large).
  rewrite (get_ok _ _ _ Es). cbn [bind].
  erewrite upd_mod_ok by (cbn; eauto). unfold set_mods. cbn [bind pN pM pnempty pmods pnodes].
  erewrite upd_mod_ok by (cbn; rewrite nth_upd_neq; eauto). unfold set_mods. cbn [bind pN pM pnempty pmods pnodes].
  erewrite get_ok by (apply nth_upd_eq; rewrite length_upd; auto). cbn [bind].
  erewrite upd_mod_ok by (cbn; rewrite nth_upd_neq by auto; apply nth_upd_eq; auto).
  unfold set_mods. cbn [bind pN pM pnempty pmods pnodes].
  erewrite upd_mod_ok by (cbn; rewrite nth_upd_neq by auto; apply nth_upd_eq; rewrite length_upd; auto).
  unfold set_mods. cbn [bind pN pM pnempty pmods pnodes].
  erewrite get_ok by (apply nth_upd_eq; rewrite !length_upd; auto). cbn [bind].
  erewrite get_ok by (rewrite nth_upd_neq by auto; apply nth_upd_eq; rewrite !length_upd; auto). cbn [bind].
  cbn [mfirst mlast set_msize set_mstr mstr msize mid].
  destruct (ls large) as [|lf ll] eqn:Ell; [congruence|].
  destruct (snoc_cases (ls small)) as [|(sl0 & sla & Els)]; [congruence|].
  rewrite Fl. simpl hd_error. cbn [deref bind].
  assert (Lf : lf < length nodes1).
  { unfold nodes1. rewrite relabel_length. eapply dll_in_lt; [exact Dl|simpl; auto]. }
  destruct (nth_ex _ _ Lf) as [ndlf Elf].
  erewrite upd_node_ok by (cbn; eauto). unfold set_nodes. cbn [bind pN pM pnempty pmods pnodes].
  rewrite Ls, Els, last_error_snoc. cbn [deref bind].
  assert (Lsa : sla < length nodes1).
  { unfold nodes1. rewrite relabel_length. eapply dll_in_lt; [exact Ds|rewrite Els; apply in_app_iff; simpl; auto]. }
  assert (Hlfsa : lf <> sla).
  { intros ->. apply Hsl. apply (HD small large sla). rewrite Els; apply in_app_iff; simpl; auto. rewrite Ell; simpl; auto. }
  destruct (nth_ex _ _ Lsa) as [ndsa Esa].
  erewrite upd_node_ok by (cbn; rewrite nth_upd_neq; eauto). unfold set_nodes. cbn [bind pN pM pnempty pmods pnodes].
  erewrite upd_mod_ok by (cbn; rewrite nth_upd_neq by auto; apply nth_upd_eq; rewrite !length_upd; auto).
  unfold set_mods. cbn [bind pN pM pnempty pmods pnodes].
  erewrite upd_mod_ok by (cbn; rewrite nth_upd_neq by auto; apply nth_upd_eq; rewrite !length_upd; auto).
  unfold set_mods. cbn [bind pN pM pnempty pmods pnodes].
  erewrite upd_mod_ok by (cbn; apply nth_upd_eq; rewrite !length_upd; auto).
  unfold set_mods. cbn [bind pN pM pnempty pmods pnodes].
  eexists. split; [reflexivity|].
  cbn [mfirst mlast set_msize set_mstr set_mfirst set_mlast mstr msize mid].
  set (mods' := upd _ small _).
  assert (Emods : forall m, nth_error mods' m =
     if m =? small then Some (mkModule small 0 n0 None None)
     else if m =? large then Some (mkModule large (msize ml + msize ms) (nadd (mstr ml) (mstr ms)) (hd_error (ls small)) (mlast ml))
     else nth_error (pmods p) m).
  { intros m. unfold mods'. clear mods'.
    destruct (Nat.eqb_spec m small) as [->|Hms].
    - rewrite nth_upd_eq by (rewrite !length_upd; auto). unfold set_mfirst, set_mlast; simpl. rewrite Is. auto.
    - rewrite (nth_upd_neq _ small) by auto. rewrite (nth_upd_neq _ small) by auto.
      destruct (Nat.eqb_spec m large) as [->|Hml].
      + rewrite nth_upd_eq by (rewrite !length_upd; auto).
        unfold set_mfirst, set_mstr, set_msize; simpl. rewrite Il, Fs. auto.
      + rewrite !nth_upd_neq by auto. auto. }
  set (nodes2 := upd (upd nodes1 lf _) sla _).
  assert (Hmem : forall m i, In i (ls_merge ls small large m) <->
            (m = large /\ (In i (ls small) \/ In i (ls large))) \/ (m <> small /\ m <> large /\ In i (ls m))).
  { intros m i. unfold ls_merge, fupd. destruct (Nat.eqb_spec m large) as [->|].
    - rewrite in_app_iff. split; [auto|intros [[_ H]|(_ & H & _)]; [auto|congruence]].
    - destruct (Nat.eqb_spec m small) as [->|]; simpl.
      + split; [tauto|intros [[H _]|(H & _)]; congruence].
      + split; [auto|intros [[H _]|(_ & _ & H)]; [congruence|auto]]. }
  assert (Hdata : forall i, option_map ndata (nth_error nodes2 i) = option_map ndata (nth_error nodes1 i)).
  { assert (Esa' : nth_error (upd nodes1 lf (set_nprev (Some sla) ndlf)) sla = Some ndsa)
      by (rewrite nth_upd_neq; auto).
    apply (same_ndata_trans nodes1 (upd nodes1 lf (set_nprev (Some sla) ndlf)) nodes2).
    - eapply same_ndata_upd; eauto.
    - eapply same_ndata_upd; eauto. }
  assert (Hdata1 : forall i, option_map ndata (nth_error nodes2 i) =
     option_map (fun nd => (nid nd, nstr nd, if mem i (ls small) then large else nmod nd)) (nth_error (pnodes p) i)).
  { intros i. rewrite Hdata. unfold nodes1. rewrite relabel_nth.
    destruct (nth_error (pnodes p) i); simpl; auto. destruct (mem i (ls small)); auto. }
  assert (Hlen2 : length nodes2 = length (pnodes p)).
  { unfold nodes2. rewrite !length_upd. apply relabel_length. }
  match goal with |- WF ?q _ /\ _ => set (p' := q) end.
  assert (Hgrp : forall i, group p' i = if mem i (ls small) then Some large else group p i).
  { intros i. specialize (Hdata1 i). unfold group. simpl.
    destruct (nth_error nodes2 i) as [x|]; destruct (nth_error (pnodes p) i) as [y|] eqn:Ey; simpl in *; try discriminate.
    - injection Hdata1 as _ _ ->. destruct (mem i (ls small)); auto.
    - destruct (mem_spec i (ls small)) as [Hi|]; auto. apply (wf_mem _ _ W) in Hi. unfold group in Hi.
      rewrite Ey in Hi. discriminate. }
  split; [|split; [auto|split; [auto|split; [|split]]]].
  - split.
    + simpl. rewrite Hlen2. apply (wf_N _ _ W).
    + simpl. unfold mods'. rewrite !length_upd. apply (wf_M _ _ W).
    + intros i nd E. simpl in E. specialize (Hdata1 i). rewrite E in Hdata1.
      destruct (nth_error (pnodes p) i) eqn:E0; [|discriminate]. simpl in Hdata1. injection Hdata1 as -> _ _.
      eapply wf_nid; eauto.
    + intros m md E. simpl in E. rewrite Emods in E. destruct (Nat.eqb_spec m small); [injection E as <-; auto|].
      destruct (Nat.eqb_spec m large); [injection E as <-; auto|]. eapply wf_mid; eauto.
    + intros i nd E. simpl in E. specialize (Hdata1 i). rewrite E in Hdata1.
      destruct (nth_error (pnodes p) i) eqn:E0; [|discriminate]. simpl in Hdata1. injection Hdata1 as _ _ ->.
      simpl. destruct (mem i (ls small)); [|eapply wf_range; eauto]. rewrite <- (wf_M _ _ W). auto.
    + intros m md E. simpl in E. rewrite Emods in E. simpl.
      assert (Hlk : forall i, i <> lf -> i <> sla -> links nodes2 i = links (pnodes p) i).
      { intros i Ha Hb. unfold nodes2, links. rewrite !nth_upd_neq by auto.
        apply (relabel_links (pnodes p) (ls small) large i). }
      destruct (Nat.eqb_spec m small) as [->|Hms].
      { injection E as <-. unfold ls_merge. rewrite fupd_neq by auto. rewrite fupd_eq. simpl. auto. }
      destruct (Nat.eqb_spec m large) as [->|Hml].
      { injection E as <-. unfold ls_merge. rewrite fupd_eq. simpl mfirst. simpl mlast.
        rewrite Ell. rewrite hd_error_app by auto. rewrite last_error_app by auto. repeat split; auto.
        rewrite Els, <- app_assoc. simpl. 
        assert (HNs : NoDup (sl0 ++ [sla])) by (rewrite <- Els; apply (wf_nodup _ _ W)).
        assert (HNl : NoDup (lf :: ll)) by (rewrite <- Ell; apply (wf_nodup _ _ W)).
        assert (Hds1 : dll nodes1 None (sl0 ++ [sla]) None).
        { rewrite <- Els. eapply dll_frame; [|exact Ds]. intros i _. apply relabel_links. }
        assert (Hdl1 : dll nodes1 None (lf :: ll) None).
        { eapply dll_frame; [|exact Dl]. intros i _. apply relabel_links. }
        change (sl0 ++ sla :: lf :: ll) with (sl0 ++ [sla] ++ lf :: ll). rewrite app_assoc.
        apply dll_app. split.
        - simpl hdor. unfold nodes2. eapply dll_set_last.
          + eapply dll_frame; [|exact Hds1]. intros i Hi. unfold links. rewrite nth_upd_neq; auto. intros ->.
            apply Hsl. apply (HD small large i). rewrite Els; auto. rewrite Ell; simpl; auto.
          + apply NoDup_remove_2 in HNs. rewrite app_nil_r in HNs. auto.
          + rewrite nth_upd_neq; auto.
        - rewrite lastor_app. simpl lastor.
          eapply dll_frame; [|eapply dll_set_first; [exact Hdl1| |exact Elf]].
          + intros i Hi. unfold nodes2, links. rewrite nth_upd_neq; auto. intros ->.
            apply Hsl. apply (HD small large i). rewrite Els; apply in_app_iff; simpl; auto. rewrite Ell; auto.
          + inversion HNl; auto. }
      { unfold ls_merge. rewrite !fupd_neq by auto. destruct (wf_links _ _ W m md E) as (a & b & c). repeat split; auto.
        eapply dll_frame; [|exact c]. intros i Hi. apply Hlk; intros ->.
        - apply Hml. apply (HD m large lf); auto. rewrite Ell; simpl; auto.
        - apply Hms. apply (HD m small sla); auto. rewrite Els; apply in_app_iff; simpl; auto. }
    + intros m md E. simpl in E. rewrite Emods in E. unfold ls_merge.
      destruct (Nat.eqb_spec m small) as [->|Hms].
      { injection E as <-. rewrite fupd_neq by auto. rewrite fupd_eq. auto. }
      destruct (Nat.eqb_spec m large) as [->|Hml].
      { injection E as <-. rewrite fupd_eq, app_length. rewrite Ell. simpl msize. lia. }
      { rewrite !fupd_neq by auto. eapply wf_size; eauto. }
    + intros m. unfold ls_merge, fupd. destruct (Nat.eqb_spec m large).
      { clear - W HD Hsl. 
        assert (G : forall l1 l2 : list nat, NoDup l1 -> NoDup l2 -> (forall x, In x l1 -> ~ In x l2) -> NoDup (l1 ++ l2)).
        { induction l1; simpl; auto. intros l2 H1 H2 H. inversion H1; subst. constructor.
          - rewrite in_app_iff. specialize (H a). simpl in H. tauto.
          - apply IHl1; auto. }
        apply G; try apply (wf_nodup _ _ W). intros x Ha Hb. apply Hsl. eapply HD; eauto. }
      destruct (m =? small); [constructor|apply (wf_nodup _ _ W)].
    + intros m i. rewrite Hmem, Hgrp. destruct (mem_spec i (ls small)) as [Hi|Hi].
      * split; [|intros [= <-]; auto]. intros [[-> _]|(Ha & Hb & Hc)]; auto. exfalso. apply Ha.
        apply (HD m small i); auto.
      * split.
        { intros [[-> [H|H]]|(_ & _ & H)]; [contradiction| |]; apply (wf_mem _ _ W); auto. }
        { intros H. apply (wf_mem _ _ W) in H. destruct (Nat.eq_dec m large) as [->|]; [auto|].
          right. repeat split; auto. intros ->. contradiction. }
    + simpl pnempty. simpl pM. rewrite (wf_nempty _ _ W).
      assert (Hs : small < pM p) by (rewrite <- (wf_M _ _ W); auto).
      pose proof (count_change (fun m => isnil (ls_merge ls small large m)) (fun m => isnil (ls m)) (seq 0 (pM p)) small) as C.
      cbv beta in C. unfold ls_merge in C at 3. rewrite fupd_neq in C by auto. rewrite fupd_eq in C. simpl isnil in C.
      replace (isnil (ls small)) with false in C by (destruct (ls small); auto; congruence).
      rewrite Nat.add_0_r in C. symmetry. apply C. apply seq_NoDup. apply in_seq; lia.
      intros y _ Hy. unfold ls_merge, fupd. destruct (Nat.eqb_spec y large) as [->|].
      { rewrite Els, Ell. destruct sl0; auto. }
      { destruct (Nat.eqb_spec y small); congruence. }
  - rewrite <- Els. auto.
  - intros i. specialize (Hdata1 i). unfold strength. simpl.
    destruct (nth_error nodes2 i) as [x|]; destruct (nth_error (pnodes p) i) as [y|]; simpl in *; try discriminate; auto.
    injection Hdata1 as _ -> _. auto.
  - intros m. simpl. rewrite Emods. destruct (m =? small); auto. destruct (m =? large); auto.
Qed.

End Proofs.

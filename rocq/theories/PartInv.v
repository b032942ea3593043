(** PartInv.v -- the list invariant behind [valid] and its preservation by the primitive list operations. *)
From Coq Require Import List Arith Lia Bool.
From Verif Require Import Base ListLib PartModel MoveModel PartSpec.
Import ListNotations.
Local Open Scope nat_scope.

(** ** Doubly linked segments *)
Definition hdor (l : list nat) (o : option nat) : option nat :=
  match l with [] => o | j :: _ => Some j end.
Fixpoint lastor (o : option nat) (l : list nat) : option nat :=
  match l with [] => o | j :: l' => lastor (Some j) l' end.

Lemma lastor_app o l1 l2 : lastor o (l1 ++ l2) = lastor (lastor o l1) l2.
Proof. revert o; induction l1; simpl; auto. Qed.
Lemma lastor_last l : lastor None l = last_error l.
Proof.
  destruct (snoc_cases l) as [->|(l' & a & ->)]; auto.
  now rewrite lastor_app, last_error_snoc.
Qed.
Lemma lastor_In o l a : lastor o l = Some a -> o = Some a \/ In a l.
Proof.
  revert o; induction l as [|b l IH]; simpl; intros o H; auto.
  apply IH in H as [H|H]; auto. injection H as ->; auto.
Qed.

Section Inv.
Context {A : Type}.
Implicit Types nodes : list (node A).

Definition links nodes (i : nat) : option (option nat * option nat) :=
  option_map (fun nd => (nprev nd, nnext nd)) (nth_error nodes i).

Fixpoint dll nodes (prv : option nat) (l : list nat) (nxt : option nat) : Prop :=
  match l with
  | [] => True
  | i :: l' => links nodes i = Some (prv, hdor l' nxt) /\ dll nodes (Some i) l' nxt
  end.

Lemma dll_app nodes prv l1 l2 nxt :
  dll nodes prv (l1 ++ l2) nxt <-> dll nodes prv l1 (hdor l2 nxt) /\ dll nodes (lastor prv l1) l2 nxt.
Proof.
  revert prv; induction l1 as [|i l1 IH]; intros prv; simpl; [tauto|].
  rewrite IH. replace (hdor (l1 ++ l2) nxt) with (hdor l1 (hdor l2 nxt)) by (destruct l1; auto). tauto.
Qed.

Lemma dll_frame nodes nodes' prv l nxt :
  (forall i, In i l -> links nodes' i = links nodes i) -> dll nodes prv l nxt -> dll nodes' prv l nxt.
Proof.
  revert prv; induction l as [|i l IH]; intros prv Hf H; simpl in *; auto.
  destruct H as [H1 H2]. split; [rewrite Hf; auto|]. apply IH; auto.
Qed.

Lemma dll_in_links nodes prv l nxt i : dll nodes prv l nxt -> In i l -> exists x, links nodes i = Some x.
Proof.
  revert prv; induction l as [|j l IH]; intros prv H Hi; simpl in *; [tauto|].
  destruct H as [H1 H2]. destruct Hi as [->|Hi]; eauto.
Qed.

Lemma dll_in_lt nodes prv l nxt i : dll nodes prv l nxt -> In i l -> i < length nodes.
Proof.
  intros H Hi. destruct (dll_in_links _ _ _ _ _ H Hi) as [x Hx]. unfold links in Hx.
  destruct (nth_error nodes i) eqn:E; [|discriminate]. eapply nth_lt; eauto.
Qed.

(** Changing the outgoing link of the last cell of a segment, or the incoming link of the first. *)
Lemma links_set_next nodes a nd o :
  nth_error nodes a = Some nd ->
  forall i, links (upd nodes a (set_nnext o nd)) i =
            if i =? a then Some (nprev nd, o) else links nodes i.
Proof.
  intros H i. unfold links. rewrite nth_upd. apply nth_lt in H as Hl. apply Nat.ltb_lt in Hl. rewrite Hl, andb_true_r.
  destruct (i =? a); auto.
Qed.
Lemma links_set_prev nodes a nd o :
  nth_error nodes a = Some nd ->
  forall i, links (upd nodes a (set_nprev o nd)) i =
            if i =? a then Some (o, nnext nd) else links nodes i.
Proof.
  intros H i. unfold links. rewrite nth_upd. apply nth_lt in H as Hl. apply Nat.ltb_lt in Hl. rewrite Hl, andb_true_r.
  destruct (i =? a); auto.
Qed.
Lemma links_set_data nodes a nd nd' :
  nth_error nodes a = Some nd -> nprev nd' = nprev nd -> nnext nd' = nnext nd ->
  forall i, links (upd nodes a nd') i = links nodes i.
Proof.
  intros H H1 H2 i. unfold links. rewrite nth_upd. apply nth_lt in H as Hl. apply Nat.ltb_lt in Hl. rewrite Hl, andb_true_r.
  destruct (Nat.eqb_spec i a) as [->|]; auto. rewrite H; simpl. congruence.
Qed.

Lemma dll_set_last nodes prv l a nxt nd o :
  dll nodes prv (l ++ [a]) nxt -> ~ In a l -> nth_error nodes a = Some nd ->
  dll (upd nodes a (set_nnext o nd)) prv (l ++ [a]) o.
Proof.
  intros H Hn Ha. apply dll_app in H as [H1 H2]. apply dll_app. split.
  - eapply dll_frame; [|exact H1]. intros i Hi. rewrite (links_set_next nodes a nd o Ha).
    destruct (Nat.eqb_spec i a); congruence.
  - simpl in *. destruct H2 as [H2 _]. split; auto.
    rewrite (links_set_next nodes a nd o Ha), Nat.eqb_refl.
    unfold links in H2. rewrite Ha in H2. simpl in H2. congruence.
Qed.

Lemma dll_set_first nodes prv a l nxt nd o :
  dll nodes prv (a :: l) nxt -> ~ In a l -> nth_error nodes a = Some nd ->
  dll (upd nodes a (set_nprev o nd)) o (a :: l) nxt.
Proof.
  intros [H1 H2] Hn Ha. split.
  - rewrite (links_set_prev nodes a nd o Ha), Nat.eqb_refl.
    unfold links in H1. rewrite Ha in H1. simpl in H1. congruence.
  - eapply dll_frame; [|exact H2]. intros i Hi. rewrite (links_set_prev nodes a nd o Ha).
    destruct (Nat.eqb_spec i a); congruence.
Qed.

(** ** The invariant with explicit member lists *)
Definition isnil {B} (l : list B) : bool := match l with [] => true | _ => false end.

Definition LinksOK nodes (mods : list (module A)) (ls : nat -> list nat) : Prop :=
  forall m md, nth_error mods m = Some md ->
    mfirst md = hd_error (ls m) /\ mlast md = last_error (ls m) /\ dll nodes None (ls m) None.

Definition Disj (ls : nat -> list nat) : Prop := forall m m' i, In i (ls m) -> In i (ls m') -> m = m'.

Record WF (p : partition A) (ls : nat -> list nat) : Prop := {
  wf_N : length (pnodes p) = pN p;
  wf_M : length (pmods p) = pM p;
  wf_nid : forall i nd, nth_error (pnodes p) i = Some nd -> nid nd = i;
  wf_mid : forall m md, nth_error (pmods p) m = Some md -> mid md = m;
  wf_range : forall i nd, nth_error (pnodes p) i = Some nd -> nmod nd < pM p;
  wf_links : LinksOK (pnodes p) (pmods p) ls;
  wf_size : forall m md, nth_error (pmods p) m = Some md -> msize md = length (ls m);
  wf_nodup : forall m, NoDup (ls m);
  wf_mem : forall m i, In i (ls m) <-> group p i = Some m;
  wf_nempty : pnempty p = count (fun m => isnil (ls m)) (seq 0 (pM p))
}.

Lemma wf_disj p ls : WF p ls -> Disj ls.
Proof. intros W m m' i H H'. apply (wf_mem _ _ W) in H. apply (wf_mem _ _ W) in H'. congruence. Qed.

Lemma wf_in_lt p ls m i : WF p ls -> In i (ls m) -> i < pN p.
Proof.
  intros W H. apply (wf_mem _ _ W) in H. unfold group in H. rewrite <- (wf_N _ _ W).
  destruct (nth_error (pnodes p) i) eqn:E; [|discriminate]. eapply nth_lt; eauto.
Qed.

Lemma wf_mod_lt p ls m i : WF p ls -> In i (ls m) -> m < pM p.
Proof.
  intros W H. apply (wf_mem _ _ W) in H. unfold group in H.
  destruct (nth_error (pnodes p) i) eqn:E; [|discriminate]. simpl in H. injection H as <-.
  eapply wf_range; eauto.
Qed.

Lemma wf_node p ls i : WF p ls -> i < pN p -> exists nd, nth_error (pnodes p) i = Some nd /\
  nid nd = i /\ nmod nd < pM p /\ In i (ls (nmod nd)).
Proof.
  intros W H. rewrite <- (wf_N _ _ W) in H. destruct (nth_ex _ _ H) as [nd E].
  exists nd. repeat split; auto.
  - eapply wf_nid; eauto.
  - eapply wf_range; eauto.
  - apply (wf_mem _ _ W). unfold group. now rewrite E.
Qed.

Lemma wf_module p ls m : WF p ls -> m < pM p -> exists md, nth_error (pmods p) m = Some md /\
  mid md = m /\ msize md = length (ls m) /\ mfirst md = hd_error (ls m) /\ mlast md = last_error (ls m) /\
  dll (pnodes p) None (ls m) None.
Proof.
  intros W H. rewrite <- (wf_M _ _ W) in H. destruct (nth_ex _ _ H) as [md E].
  exists md. repeat split; auto.
  - eapply wf_mid; eauto.
  - eapply wf_size; eauto.
  - eapply wf_links; eauto.
  - eapply wf_links; eauto.
  - destruct (wf_links _ _ W m md E) as (_ & _ & D); auto.
Qed.

(** ** Taking a node out of a list *)
Definition del (n : nat) (l : list nat) : list nat := filter (fun x => negb (x =? n)) l.

Lemma del_notin n l : ~ In n l -> del n l = l.
Proof.
  induction l as [|a l IH]; simpl; auto. intros H. destruct (Nat.eqb_spec a n); simpl; [tauto|].
  f_equal. tauto.
Qed.
Lemma del_split n l1 l2 : ~ In n l1 -> ~ In n l2 -> del n (l1 ++ n :: l2) = l1 ++ l2.
Proof.
  intros H1 H2. unfold del. rewrite filter_app. simpl. rewrite Nat.eqb_refl. simpl.
  fold (del n l1) (del n l2). now rewrite !del_notin.
Qed.
Lemma del_In n l i : In i (del n l) <-> In i l /\ i <> n.
Proof.
  unfold del. rewrite filter_In. destruct (Nat.eqb_spec i n); simpl; intuition congruence.
Qed.
Lemma del_NoDup n l : NoDup l -> NoDup (del n l).
Proof. apply NoDup_filter. Qed.

(** Data of a node and of a module that the list operations leave alone. *)
Definition ndata (n : node A) := (nid n, nstr n, nmod n).
Definition mdata (m : module A) := (mid m, msize m, mstr m).
Definition same_ndata nodes nodes' := forall i, option_map ndata (nth_error nodes' i) = option_map ndata (nth_error nodes i).
Definition same_mdata (mods mods' : list (module A)) :=
  forall i, option_map mdata (nth_error mods' i) = option_map mdata (nth_error mods i).

Lemma same_ndata_refl nodes : same_ndata nodes nodes. Proof. intros i; auto. Qed.
Lemma same_mdata_refl mods : same_mdata mods mods. Proof. intros i; auto. Qed.
Lemma same_ndata_trans a b c : same_ndata a b -> same_ndata b c -> same_ndata a c.
Proof. intros H1 H2 i. rewrite H2. apply H1. Qed.
Lemma same_mdata_trans a b c : same_mdata a b -> same_mdata b c -> same_mdata a c.
Proof. intros H1 H2 i. rewrite H2. apply H1. Qed.

Lemma same_ndata_upd nodes a nd nd' :
  nth_error nodes a = Some nd -> ndata nd' = ndata nd -> same_ndata nodes (upd nodes a nd').
Proof.
  intros H E i. rewrite nth_upd. apply nth_lt in H as Hl. apply Nat.ltb_lt in Hl. rewrite Hl, andb_true_r.
  destruct (Nat.eqb_spec i a) as [->|]; auto. rewrite H. simpl. congruence.
Qed.
Lemma same_mdata_upd mods a md md' :
  nth_error mods a = Some md -> mdata md' = mdata md -> same_mdata mods (upd mods a md').
Proof.
  intros H E i. rewrite nth_upd. apply nth_lt in H as Hl. apply Nat.ltb_lt in Hl. rewrite Hl, andb_true_r.
  destruct (Nat.eqb_spec i a) as [->|]; auto. rewrite H. simpl. congruence.
Qed.
Lemma same_mdata_len mods mods' : same_mdata mods mods' -> length mods' = length mods.
Proof.
  intros H. destruct (Nat.lt_trichotomy (length mods') (length mods)) as [L|[L|L]]; auto; exfalso.
  - specialize (H (length mods')). destruct (nth_ex _ _ L) as [x E]. rewrite E in H.
    rewrite (proj2 (nth_error_None mods' _)) in H by lia. discriminate.
  - specialize (H (length mods)). destruct (nth_ex _ _ L) as [x E]. rewrite E in H.
    rewrite (proj2 (nth_error_None mods _)) in H by lia. discriminate.
Qed.
Lemma same_ndata_len nodes nodes' : same_ndata nodes nodes' -> length nodes' = length nodes.
Proof.
  intros H. destruct (Nat.lt_trichotomy (length nodes') (length nodes)) as [L|[L|L]]; auto; exfalso.
  - specialize (H (length nodes')). destruct (nth_ex _ _ L) as [x E]. rewrite E in H.
    rewrite (proj2 (nth_error_None nodes' _)) in H by lia. discriminate.
  - specialize (H (length nodes)). destruct (nth_ex _ _ L) as [x E]. rewrite E in H.
    rewrite (proj2 (nth_error_None nodes _)) in H by lia. discriminate.
Qed.
Lemma same_mdata_get mods mods' m md' : same_mdata mods mods' -> nth_error mods' m = Some md' ->
  exists md, nth_error mods m = Some md /\ mdata md' = mdata md.
Proof.
  intros H E. specialize (H m). rewrite E in H. destruct (nth_error mods m) as [md|]; [|discriminate].
  exists md. simpl in H. split; congruence.
Qed.
Lemma same_ndata_get nodes nodes' m md' : same_ndata nodes nodes' -> nth_error nodes' m = Some md' ->
  exists md, nth_error nodes m = Some md /\ ndata md' = ndata md.
Proof.
  intros H E. specialize (H m). rewrite E in H. destruct (nth_error nodes m) as [md|]; [|discriminate].
  exists md. simpl in H. split; congruence.
Qed.

Record same_frame (p p' : partition A) : Prop := {
  sf_N : pN p' = pN p; sf_M : pM p' = pM p; sf_ne : pnempty p' = pnempty p;
  sf_nodes : same_ndata (pnodes p) (pnodes p'); sf_mods : same_mdata (pmods p) (pmods p')
}.
Lemma same_frame_trans p q r : same_frame p q -> same_frame q r -> same_frame p r.
Proof.
  intros [a1 a2 a3 a4 a5] [b1 b2 b3 b4 b5]. split; try congruence.
Qed.

Lemma upd_node_ok (p : partition A) i nd f : nth_error (pnodes p) i = Some nd ->
  upd_node p i f = Ok (set_nodes (upd (pnodes p) i (f nd)) p).
Proof. intros H. unfold upd_node. now rewrite (get_ok _ _ _ H). Qed.
Lemma upd_mod_ok (p : partition A) m md f : nth_error (pmods p) m = Some md ->
  upd_mod p m f = Ok (set_mods (upd (pmods p) m (f md)) p).
Proof. intros H. unfold upd_mod. now rewrite (get_ok _ _ _ H). Qed.

Lemma frame_node p i nd nd' : nth_error (pnodes p) i = Some nd -> ndata nd' = ndata nd ->
  same_frame p (set_nodes (upd (pnodes p) i nd') p).
Proof. intros H E. split; simpl; auto. eapply same_ndata_upd; eauto. apply same_mdata_refl. Qed.
Lemma frame_mod p i md md' : nth_error (pmods p) i = Some md -> mdata md' = mdata md ->
  same_frame p (set_mods (upd (pmods p) i md') p).
Proof. intros H E. split; simpl; auto. apply same_ndata_refl. eapply same_mdata_upd; eauto. Qed.

(** Core of unlink: the four shapes. *)
Lemma dll_node nodes l1 n l2 : dll nodes None (l1 ++ n :: l2) None ->
  exists nd, nth_error nodes n = Some nd /\ nprev nd = last_error l1 /\ nnext nd = hd_error l2.
Proof.
  intros H. apply dll_app in H as [_ [H _]]. unfold links in H.
  destruct (nth_error nodes n) as [nd|]; [|discriminate]. simpl in H.
  exists nd. rewrite lastor_last in H. injection H as H1 H2. repeat split; auto.
Qed.

Lemma LinksOK_upd nodes nodes' mods mods' ls ls' old mo mo' :
  LinksOK nodes mods ls ->
  nth_error mods old = Some mo -> mods' = upd mods old mo' ->
  (forall m, m <> old -> ls' m = ls m) ->
  (forall m i, m <> old -> In i (ls m) -> links nodes' i = links nodes i) ->
  mfirst mo' = hd_error (ls' old) -> mlast mo' = last_error (ls' old) ->
  dll nodes' None (ls' old) None ->
  LinksOK nodes' mods' ls'.
Proof.
  intros HL Ho -> Hls Hfr H1 H2 H3 m md Hm. rewrite nth_upd in Hm.
  apply nth_lt in Ho as Hl. apply Nat.ltb_lt in Hl. rewrite Hl, andb_true_r in Hm.
  destruct (Nat.eqb_spec m old) as [->|Hn].
  - injection Hm as <-. auto.
  - rewrite Hls by auto. destruct (HL m md Hm) as (a & b & c). repeat split; auto.
    eapply dll_frame; [|exact c]. intros i Hi. eapply Hfr; eauto.
Qed.

Lemma cm_unlink_spec (p : partition A) ls n old mo :
  LinksOK (pnodes p) (pmods p) ls -> Disj ls -> NoDup (ls old) -> In n (ls old) ->
  nth_error (pmods p) old = Some mo ->
  exists p', cm_unlink n old p = Ok p' /\ same_frame p p' /\
             LinksOK (pnodes p') (pmods p') (fupd ls old (del n (ls old))).
Proof.
  intros HL HD HN Hi Ho.
  destruct (in_split_nodup n (ls old) Hi HN) as (l1 & l2 & El & Hn1 & Hn2).
  destruct (HL old mo Ho) as (Hf & Hla & Hd). rewrite El in *.
  destruct (dll_node _ _ _ _ Hd) as (nd & End & Hp & Hx).
  unfold cm_unlink. rewrite (get_ok _ _ _ End). cbn [bind]. rewrite del_split by auto.
  assert (HN' : NoDup (l1 ++ l2)) by (eapply NoDup_remove_1; eauto).
  assert (Hother : forall m i, m <> old -> In i (ls m) -> ~ In i (l1 ++ l2)).
  { intros m i Hm Hi1 Hi2. apply Hm. apply (HD m old i Hi1). rewrite El. apply in_app_iff in Hi2.
    apply in_app_iff. simpl. tauto. }
  pose proof Hd as Hd0. apply dll_app in Hd as [Hd1 [_ Hd2]]. simpl in Hd1.
  rewrite Hp, Hx.
  destruct (snoc_cases l1) as [->|(l1' & a & ->)].
  - (* first of the list *)
    change (last_error (@nil nat)) with (@None nat). cbn iota. rewrite (upd_mod_ok _ _ _ _ Ho). cbn [bind pnodes set_mods].
    rewrite (get_ok _ _ _ End). cbn [bind]. rewrite Hp, Hx. change (last_error (@nil nat)) with (@None nat). simpl in *.
    destruct l2 as [|b l2].
    + simpl. unfold upd_mod, get. cbn [pmods set_mods]. rewrite nth_upd_eq by (eapply nth_lt; eauto).
      cbn [bind]. eexists. split; [reflexivity|]. split.
      * split; simpl; auto. apply same_ndata_refl.
        rewrite upd_upd. eapply same_mdata_upd; eauto.
      * cbn. rewrite upd_upd. eapply LinksOK_upd; eauto; rewrite ?fupd_eq; auto; simpl; auto.
        intros m Hm; apply fupd_neq; auto.
    + simpl hd_error. cbn iota.
      destruct (nth_ex (pnodes p) b) as [ndb Eb]. { eapply dll_in_lt; [exact Hd2|]. simpl; auto. }
      erewrite upd_node_ok by (cbn; eauto). eexists. split; [reflexivity|]. split.
      * split; cbn; auto; [eapply same_ndata_upd; eauto|eapply same_mdata_upd; eauto].
      * cbn. eapply LinksOK_upd; eauto; rewrite ?fupd_eq; auto; simpl; auto.
        { intros m Hm; apply fupd_neq; auto. }
        { intros m i Hm Him. rewrite (links_set_prev _ _ _ _ Eb). destruct (Nat.eqb_spec i b); auto. subst.
          exfalso. apply (Hother m b Hm Him). simpl; auto. }
        { rewrite Hla. simpl. rewrite last_error_cons by discriminate. auto. }
        { inversion HN'; subst. eapply dll_set_first; eauto. }
  - rewrite last_error_snoc. cbn iota.
    assert (Ha : In a (l1' ++ [a])) by (apply in_app_iff; simpl; auto).
    destruct (nth_ex (pnodes p) a) as [nda Ea].
    { eapply dll_in_lt; [exact Hd0|]. apply in_app_iff; auto. }
    rewrite (upd_node_ok _ _ _ _ Ea). cbn [bind pnodes set_nodes].
    assert (Hna : n <> a) by congruence.
    assert (End' : nth_error (upd (pnodes p) a (set_nnext (hd_error l2) nda)) n = Some nd).
    { rewrite nth_upd_neq; auto. }
    rewrite (get_ok _ _ _ End'). cbn [bind]. rewrite Hp, Hx, last_error_snoc.
    assert (Hal : ~ In a l1' /\ ~ In a l2).
    { rewrite <- app_assoc in HN'. simpl in HN'. apply NoDup_remove_2 in HN'. rewrite in_app_iff in HN'. tauto. }
    destruct Hal as [Hal1 Hal2].
    destruct l2 as [|b l2].
    + simpl hd_error. cbn iota. erewrite upd_mod_ok by (cbn; eauto). eexists. split; [reflexivity|]. split.
      * split; cbn; auto; [eapply same_ndata_upd; eauto|eapply same_mdata_upd; eauto].
      * cbn. rewrite app_nil_r in *. eapply LinksOK_upd; eauto; rewrite ?fupd_eq; auto; simpl; auto.
        { intros m Hm; apply fupd_neq; auto. }
        { intros m i Hm Him. rewrite (links_set_next _ _ _ _ Ea). destruct (Nat.eqb_spec i a); auto. subst.
          exfalso. apply (Hother m a Hm Him). auto. }
        { rewrite Hf. destruct l1'; auto. }
        { now rewrite last_error_snoc. }
        { eapply dll_set_last; eauto. }
    + simpl hd_error. cbn iota.
      destruct (nth_ex (pnodes p) b) as [ndb Eb].
      { eapply dll_in_lt; [exact Hd0|]. apply in_app_iff; simpl; auto. }
      assert (Hab : a <> b) by (intros ->; apply Hal2; simpl; auto).
      assert (Eb' : nth_error (upd (pnodes p) a (set_nnext (Some b) nda)) b = Some ndb).
      { rewrite nth_upd_neq; auto. }
      erewrite upd_node_ok by (cbn; eauto). eexists. split; [reflexivity|]. split.
      * split; cbn; auto; [|apply same_mdata_refl].
        eapply same_ndata_trans; [eapply same_ndata_upd; [exact Ea|]|eapply same_ndata_upd; [exact Eb'|]]; auto.
      * cbn. rewrite <- (upd_same _ _ _ Ho). eapply LinksOK_upd; eauto; rewrite ?fupd_eq; auto; simpl; auto.
        { intros m Hm; apply fupd_neq; auto. }
        { intros m i Hm Him. rewrite (links_set_prev _ _ _ _ Eb'), (links_set_next _ _ _ _ Ea).
          specialize (Hother m i Hm Him).
          destruct (Nat.eqb_spec i b); [subst; exfalso; apply Hother; apply in_app_iff; simpl; auto|].
          destruct (Nat.eqb_spec i a); [subst; exfalso; apply Hother; apply in_app_iff; auto|]. auto. }
        { rewrite Hf. destruct l1'; auto. }
        { rewrite Hla. rewrite <- !lastor_last, !lastor_app. simpl. auto. }
        { apply dll_app. simpl hdor. rewrite lastor_app. simpl lastor. split.
          - eapply dll_frame; [|eapply dll_set_last; eauto].
            intros i Hi'. rewrite (links_set_prev _ _ _ _ Eb').
            destruct (Nat.eqb_spec i b); auto. subst. exfalso.
            apply (NoDup_remove_2 (l1' ++ [a]) l2 b); auto. apply in_app_iff; auto.
          - eapply dll_set_first; eauto.
            + eapply dll_frame; [|exact Hd2]. intros i Hi'. rewrite (links_set_next _ _ _ _ Ea).
              destruct (Nat.eqb_spec i a); auto. subst; contradiction.
            + intros Hb. apply (NoDup_remove_2 (l1' ++ [a]) l2 b); auto. apply in_app_iff; auto. }
Qed.

Lemma cm_push_spec (p : partition A) ls n new mn :
  LinksOK (pnodes p) (pmods p) ls -> Disj ls -> NoDup (ls new) -> (forall m, ~ In n (ls m)) ->
  n < length (pnodes p) -> nth_error (pmods p) new = Some mn ->
  exists p', cm_push n new p = Ok p' /\ same_frame p p' /\
             LinksOK (pnodes p') (pmods p') (fupd ls new (n :: ls new)).
Proof.
  intros HL HD HN Hni Hn Ho.
  destruct (HL new mn Ho) as (Hf & Hla & Hd).
  destruct (nth_ex _ _ Hn) as [nd End].
  unfold cm_push. rewrite (get_ok _ _ _ Ho). cbn [bind].
  rewrite (upd_node_ok _ _ _ _ End). cbn [bind].
  assert (E1 : nth_error (upd (pnodes p) n (set_nnext (mfirst mn) nd)) n = Some (set_nnext (mfirst mn) nd))
    by (rewrite nth_upd_eq; auto).
  erewrite upd_node_ok by (cbn; eauto). cbn [bind set_nodes pnodes pmods pN pM pnempty].
  rewrite upd_upd.
  set (nd' := set_nprev None (set_nnext (mfirst mn) nd)).
  assert (E2 : nth_error (upd (pnodes p) n nd') n = Some nd') by (rewrite nth_upd_eq; auto).
  assert (Hlk : forall i, i <> n -> links (upd (pnodes p) n nd') i = links (pnodes p) i).
  { intros i Hi. unfold links. rewrite nth_upd_neq; auto. }
  destruct (ls new) as [|c l] eqn:El.
  - rewrite Hf. simpl hd_error. cbn iota. erewrite upd_mod_ok by (cbn; eauto). cbn [bind].
    unfold upd_mod, get. cbn [pmods set_mods]. cbn. rewrite nth_upd_eq by (eapply nth_lt; eauto). cbn.
    rewrite upd_upd. eexists. split; [reflexivity|]. split.
    + split; simpl; auto. eapply same_ndata_upd; eauto. eapply same_mdata_upd; eauto.
    + cbn. eapply LinksOK_upd; eauto; rewrite ?fupd_eq; auto; simpl; auto.
      * intros m Hm; apply fupd_neq; auto.
      * intros m i Hm Hi. apply Hlk. intros ->. eapply Hni; eauto.
      * split; auto. unfold links. rewrite E2. unfold nd'. simpl. now rewrite Hf.
  - rewrite Hf. simpl hd_error. cbn iota.
    assert (Hcn : c <> n). { intros ->. apply (Hni new). rewrite El; simpl; auto. }
    destruct (nth_ex (pnodes p) c) as [ndc Ec]. { eapply dll_in_lt; [exact Hd|simpl; auto]. }
    assert (Ec' : nth_error (upd (pnodes p) n nd') c = Some ndc) by (rewrite nth_upd_neq; auto).
    erewrite upd_node_ok by (cbn; eauto). cbn [bind].
    erewrite upd_mod_ok by (cbn; eauto). eexists. split; [reflexivity|]. split.
    + split; cbn; auto.
      * eapply same_ndata_trans; [eapply same_ndata_upd; [exact End|]|eapply same_ndata_upd; [exact Ec'|]]; auto.
      * eapply same_mdata_upd; eauto.
    + cbn. eapply LinksOK_upd; eauto; rewrite ?fupd_eq; auto; simpl; auto.
      * intros m Hm; apply fupd_neq; auto.
      * intros m i Hm Hi. rewrite (links_set_prev _ _ _ _ Ec'). destruct (Nat.eqb_spec i c).
        { subst. exfalso. apply Hm. apply (HD m new c); auto. rewrite El; simpl; auto. }
        apply Hlk. intros ->. eapply Hni; eauto.
      * rewrite Hla. symmetry. apply last_error_cons. discriminate.
      * split.
        { rewrite (links_set_prev _ _ _ _ Ec'). destruct (Nat.eqb_spec n c); [congruence|].
          unfold links. rewrite E2. unfold nd'; simpl. now rewrite Hf. }
        { change (dll (upd (upd (pnodes p) n nd') c (set_nprev (Some n) ndc)) (Some n) (c :: l) None).
          inversion HN; subst. eapply dll_set_first; eauto.
          eapply dll_frame; [|exact Hd]. intros i Hi. apply Hlk. intros ->. apply (Hni new). now rewrite El. }
Qed.

(** ** Bookkeeping *)
End Inv.

(** ChangeProof.v -- ChangeModule keeps the partition invariant and moves exactly one node. *)
From Coq Require Import List Arith Lia Bool.
From Verif Require Import Base ListLib PartModel MoveModel PartSpec PartInv.
Import ListNotations.
Local Open Scope nat_scope.

Section Proofs.
Context {A : Type} {ops : NumOps A}.
Implicit Types p : partition A.

(** Member lists after moving [n] from [old] to the front of [new]. *)
Definition ls_del (ls : nat -> list nat) n old := fupd ls old (del n (ls old)).
Definition ls_move (ls : nat -> list nat) n old new := fupd (ls_del ls n old) new (n :: ls_del ls n old new).

Lemma del_length n l : NoDup l -> In n l -> length l = S (length (del n l)).
Proof.
  intros HN Hi. destruct (in_split_nodup n l Hi HN) as (l1 & l2 & -> & H1 & H2).
  rewrite del_split by auto. rewrite !app_length. simpl. lia.
Qed.

Lemma isnil_length {B} (l : list B) : isnil l = (length l =? 0).
Proof. destruct l; auto. Qed.

(** Result of cm_book. *)
Definition book_mods (mods : list (module A)) old new mo mn s : list (module A) :=
  let mo' := set_msize (msize mo - 1) (set_mstr (nsub (mstr mo) s) mo) in
  let mn1 := if new =? old then mo' else mn in
  upd (upd mods old mo') new (set_msize (msize mn1 + 1) (set_mstr (nadd (mstr mn1) s) mn1)).

Lemma cm_book_spec p ls n new nd mo mn :
  WF p ls -> nth_error (pnodes p) n = Some nd -> new < pM p ->
  nth_error (pmods p) (nmod nd) = Some mo -> nth_error (pmods p) new = Some mn ->
  cm_book n new (nmod nd) nd p =
    Ok (mkPart (pN p) (pM p) (count (fun m => isnil (ls_move ls n (nmod nd) new m)) (seq 0 (pM p)))
               (book_mods (pmods p) (nmod nd) new mo mn (nstr nd))
               (upd (pnodes p) n (set_nmod new nd))).
Proof.
  intros W En Hnew Eo Em. set (old := nmod nd) in *.
  assert (Hold : old < pM p) by (eapply wf_range; eauto).
  assert (Hin : In n (ls old)). { apply (wf_mem _ _ W). unfold group. now rewrite En. }
  assert (HN : NoDup (ls old)) by apply (wf_nodup _ _ W).
  pose proof (del_length n _ HN Hin) as Hlen.
  pose proof (wf_size _ _ W _ _ Eo) as Hso. pose proof (wf_size _ _ W _ _ Em) as Hsn.
  pose proof (wf_mid _ _ W _ _ Em) as Hmid.
  assert (Hlold : old < length (pmods p)) by (eapply nth_lt; eauto).
  assert (Hlnew : new < length (pmods p)) by (eapply nth_lt; eauto).
  unfold cm_book. rewrite (get_ok _ _ _ Em). cbn [bind].
  rewrite (upd_node_ok _ _ _ _ En). cbn [bind].
  erewrite upd_mod_ok by (cbn; eauto). cbn [bind set_mods set_nodes pmods pnodes pN pM pnempty].
  erewrite get_ok by (apply nth_upd_eq; auto). cbn [bind msize set_mstr].
  assert (Hdec : dec (msize mo) = Ok (msize mo - 1)). { rewrite Hso, Hlen. simpl. f_equal. lia. }
  rewrite Hdec. cbn [bind].
  erewrite upd_mod_ok by (cbn; apply nth_upd_eq; auto).
  cbn [bind set_mods set_nodes pmods pnodes pN pM pnempty]. rewrite upd_upd.
  set (mo' := set_msize (msize mo - 1) (set_mstr (nsub (mstr mo) (nstr nd)) mo)).
  set (mn1 := if new =? old then mo' else mn).
  assert (Emn1 : nth_error (upd (pmods p) old mo') new = Some mn1).
  { rewrite nth_upd. apply Nat.ltb_lt in Hlold. rewrite Hlold, andb_true_r. unfold mn1.
    destruct (new =? old); auto. }
  assert (Hz : (msize mo - 1 =? 0) = isnil (del n (ls old))).
  { rewrite isnil_length, Hso, Hlen. f_equal. lia. }
  assert (Hsz : msize mn1 = length (ls_del ls n old new)).
  { unfold mn1, ls_del. destruct (Nat.eqb_spec new old) as [->|Hne].
    - rewrite fupd_eq. simpl. lia.
    - rewrite fupd_neq; auto. }
  pose proof (wf_nempty _ _ W) as Hne.
  (* counting the empty modules *)
  assert (C1 : count (fun m => isnil (ls_del ls n old m)) (seq 0 (pM p)) =
               pnempty p + (if isnil (del n (ls old)) then 1 else 0)).
  { pose proof (count_change (fun m => isnil (ls_del ls n old m)) (fun m => isnil (ls m)) (seq 0 (pM p)) old) as C.
    cbv beta in C. unfold ls_del in C at 3. rewrite fupd_eq in C.
    replace (isnil (ls old)) with false in C.
    - rewrite Nat.add_0_r in C. rewrite C; auto using seq_NoDup. apply in_seq; lia.
      intros y _ Hy. unfold ls_del. now rewrite fupd_neq by auto.
    - destruct (ls old); auto. }
  assert (C2 : count (fun m => isnil (ls_move ls n old new m)) (seq 0 (pM p)) + (if msize mn1 =? 0 then 1 else 0) =
               count (fun m => isnil (ls_del ls n old m)) (seq 0 (pM p))).
  { rewrite Hsz, <- isnil_length.
    pose proof (count_change (fun m => isnil (ls_move ls n old new m)) (fun m => isnil (ls_del ls n old m)) (seq 0 (pM p)) new) as C.
    cbv beta in C. unfold ls_move in C at 3. rewrite fupd_eq in C. simpl isnil in C.
    rewrite Nat.add_0_r in C. rewrite C; auto using seq_NoDup. apply in_seq; lia.
    intros y _ Hy. unfold ls_move. now rewrite fupd_neq by auto. }
  rewrite Hz.
  set (p1 := if isnil (del n (ls old)) then _ else _).
  assert (Ep1 : p1 = mkPart (pN p) (pM p) (count (fun m => isnil (ls_del ls n old m)) (seq 0 (pM p)))
                       (upd (pmods p) old mo') (upd (pnodes p) n (set_nmod (mid mn) nd))).
  { unfold p1. rewrite C1. destruct (isnil (del n (ls old))); unfold set_nempty, set_mods; simpl; rewrite ?Nat.add_0_r; reflexivity. }
  rewrite Ep1. cbn [bind set_mods set_nodes pmods pnodes pN pM pnempty].
  rewrite (get_ok _ _ _ Emn1). cbn [bind].
  rewrite <- C2.
  set (cnt := count _ _).
  assert (Estep : (if msize mn1 =? 0 then do ne <- dec (cnt + (if msize mn1 =? 0 then 1 else 0));
                     Ok (set_nempty ne (mkPart (pN p) (pM p) (cnt + (if msize mn1 =? 0 then 1 else 0))
                       (upd (pmods p) old mo') (upd (pnodes p) n (set_nmod (mid mn) nd))))
                   else Ok (mkPart (pN p) (pM p) (cnt + (if msize mn1 =? 0 then 1 else 0))
                       (upd (pmods p) old mo') (upd (pnodes p) n (set_nmod (mid mn) nd)))) =
                  Ok (mkPart (pN p) (pM p) cnt (upd (pmods p) old mo') (upd (pnodes p) n (set_nmod new nd)))).
  { rewrite Hmid. destruct (msize mn1 =? 0).
    - replace (cnt + 1) with (S cnt) by lia. reflexivity.
    - now rewrite Nat.add_0_r. }
  rewrite Estep. cbn [bind].
  erewrite upd_mod_ok by (cbn; eauto). cbn [bind set_mods set_nodes pmods pnodes pN pM pnempty].
  erewrite upd_mod_ok by (cbn; apply nth_upd_eq; rewrite length_upd; auto).
  cbn [bind set_mods set_nodes pmods pnodes pN pM pnempty]. rewrite upd_upd. reflexivity.
Qed.

(** Strength recorded for module [m] after the move, as computed by the code. *)
Definition moved_str p (old new : nat) (s : A) (m : nat) : option A :=
  match nth_error (pmods p) m with
  | None => None
  | Some md =>
      let x := if m =? old then nsub (mstr md) s else mstr md in
      Some (if m =? new then nadd x s else x)
  end.

Lemma book_mods_get mods old new mo mn (s : A) m :
  nth_error mods old = Some mo -> nth_error mods new = Some mn ->
  nth_error (book_mods mods old new mo mn s) m =
  match nth_error mods m with
  | None => None
  | Some md =>
      let md1 := if m =? old then set_msize (msize md - 1) (set_mstr (nsub (mstr md) s) md) else md in
      Some (if m =? new then set_msize (msize md1 + 1) (set_mstr (nadd (mstr md1) s) md1) else md1)
  end.
Proof.
  intros Eo En. unfold book_mods. rewrite nth_upd, length_upd.
  apply nth_lt in En as Ln. apply nth_lt in Eo as Lo.
  rewrite (proj2 (Nat.ltb_lt _ _) Ln), andb_true_r. rewrite nth_upd, (proj2 (Nat.ltb_lt _ _) Lo), andb_true_r.
  destruct (Nat.eqb_spec m new) as [->|Hmn].
  - rewrite En. cbv zeta. destruct (Nat.eqb_spec new old) as [->|]; auto. rewrite Eo in En. injection En as ->. auto.
  - destruct (Nat.eqb_spec m old) as [->|]; auto. rewrite Eo. auto.
    destruct (nth_error mods m); auto.
Qed.

Theorem ChangeModule_spec p ls n new nd :
  WF p ls -> nth_error (pnodes p) n = Some nd -> new < pM p ->
  exists p', ChangeModule n new p = Ok p' /\ WF p' (ls_move ls n (nmod nd) new) /\
    pN p' = pN p /\ pM p' = pM p /\
    (forall i, group p' i = if i =? n then Some new else group p i) /\
    (forall i, strength p' i = strength p i) /\
    (forall m, option_map mstr (nth_error (pmods p') m) = moved_str p (nmod nd) new (nstr nd) m).
Proof.
  intros W En Hnew. set (old := nmod nd).
  assert (Hold : old < pM p) by (eapply wf_range; eauto).
  assert (Hin : In n (ls old)). { apply (wf_mem _ _ W). unfold group. now rewrite En. }
  destruct (wf_module _ _ _ W Hold) as (mo & Eo & _).
  destruct (wf_module _ _ _ W Hnew) as (mn & Em & _).
  unfold ChangeModule. rewrite (get_ok _ _ _ En). cbn [bind]. fold old. rewrite (get_ok _ _ _ Eo). cbn [bind].
  pose proof (cm_book_spec p ls n new nd mo mn W En Hnew Eo Em) as EB. fold old in EB. rewrite EB. cbn [bind].
  set (p1 := mkPart _ _ _ _ _).
  assert (L1 : LinksOK (pnodes p1) (pmods p1) ls).
  { intros m md Hm. simpl in Hm. rewrite book_mods_get in Hm by auto.
    destruct (nth_error (pmods p) m) as [md0|] eqn:E0; [|discriminate].
    destruct (wf_links _ _ W m md0 E0) as (a & b & c).
    assert (mfirst md = mfirst md0 /\ mlast md = mlast md0) as [-> ->].
    { cbv zeta in Hm. injection Hm as <-. destruct (m =? new), (m =? old); auto. }
    repeat split; auto. eapply dll_frame; [|exact c]. intros i _. simpl.
    eapply links_set_data; eauto. }
  pose proof (wf_disj _ _ W) as HD.
  assert (Eo1 : exists mo1, nth_error (pmods p1) old = Some mo1).
  { simpl. rewrite book_mods_get by auto. rewrite Eo. eauto. }
  destruct Eo1 as [mo1 Eo1].
  destruct (cm_unlink_spec p1 ls n old mo1) as (p2 & E2 & F2 & L2); auto. { apply (wf_nodup _ _ W). }
  fold old. rewrite E2. cbn [bind].
  fold (ls_del ls n old) in L2.
  assert (HD2 : Disj (ls_del ls n old)).
  { intros m m' i H H'. apply (HD m m' i).
    - unfold ls_del, fupd in H. destruct (Nat.eqb_spec m old); auto. subst. apply del_In in H. tauto.
    - unfold ls_del, fupd in H'. destruct (Nat.eqb_spec m' old); auto. subst. apply del_In in H'. tauto. }
  assert (HN2 : forall m, NoDup (ls_del ls n old m)).
  { intros m. unfold ls_del, fupd. destruct (m =? old); [apply del_NoDup|]; apply (wf_nodup _ _ W). }
  assert (Hni : forall m, ~ In n (ls_del ls n old m)).
  { intros m. unfold ls_del, fupd. destruct (Nat.eqb_spec m old).
    - rewrite del_In. tauto.
    - intros H. apply n0. apply (HD m old n); auto. }
  assert (Hlen2 : length (pnodes p2) = pN p).
  { rewrite (same_ndata_len _ _ (sf_nodes _ _ F2)). simpl. rewrite length_upd. apply (wf_N _ _ W). }
  assert (Emn2 : exists mn2, nth_error (pmods p2) new = Some mn2).
  { apply nth_ex. rewrite (same_mdata_len _ _ (sf_mods _ _ F2)). simpl.
    unfold book_mods. rewrite !length_upd. rewrite (wf_M _ _ W). auto. }
  destruct Emn2 as [mn2 Emn2].
  destruct (cm_push_spec p2 (ls_del ls n old) n new mn2) as (p3 & E3 & F3 & L3); auto.
  { rewrite Hlen2, <- (wf_N _ _ W). eapply nth_lt; eauto. }
  rewrite E3. exists p3. split; auto.
  pose proof (same_frame_trans _ _ _ F2 F3) as F.
  assert (Hgrp : forall i, group p3 i = if i =? n then Some new else group p i).
  { intros i. pose proof (sf_nodes _ _ F i) as H. simpl in H. rewrite nth_upd in H.
    apply nth_lt in En as Ln. rewrite (proj2 (Nat.ltb_lt _ _) Ln), andb_true_r in H.
    unfold group. destruct (i =? n).
    - simpl in H. destruct (nth_error (pnodes p3) i) as [x|]; [|discriminate]. simpl in *.
      injection H as _ _ ->. auto.
    - destruct (nth_error (pnodes p3) i), (nth_error (pnodes p) i); simpl in *; try discriminate; auto.
      injection H as _ _ ->. auto. }
  assert (Hstr : forall i, strength p3 i = strength p i).
  { intros i. pose proof (sf_nodes _ _ F i) as H. simpl in H. rewrite nth_upd in H.
    apply nth_lt in En as Ln. rewrite (proj2 (Nat.ltb_lt _ _) Ln), andb_true_r in H.
    unfold strength. destruct (Nat.eqb_spec i n) as [e|].
    - rewrite e in *. rewrite En. simpl in H. destruct (nth_error (pnodes p3) n) as [x|]; [|discriminate]. simpl in *.
      injection H as _ -> _. auto.
    - destruct (nth_error (pnodes p3) i), (nth_error (pnodes p) i); simpl in *; try discriminate; auto.
      injection H as _ -> _. auto. }
  split; [|split; [apply (sf_N _ _ F)|split; [apply (sf_M _ _ F)|split; [auto|split; [auto|]]]]].
  - split.
    + rewrite (same_ndata_len _ _ (sf_nodes _ _ F)), (sf_N _ _ F). simpl. rewrite length_upd. apply (wf_N _ _ W).
    + rewrite (same_mdata_len _ _ (sf_mods _ _ F)), (sf_M _ _ F). simpl. unfold book_mods. rewrite !length_upd.
      apply (wf_M _ _ W).
    + intros i x Hx. destruct (same_ndata_get _ _ _ _ (sf_nodes _ _ F) Hx) as (y & Hy & Hd).
      injection Hd as -> _ _. simpl in Hy. rewrite nth_upd in Hy.
      destruct (Nat.eqb_spec i n) as [e|].
      * rewrite e in *. destruct (_ <? _); simpl in Hy; [injection Hy as <-; simpl|]; eapply wf_nid; eauto.
      * eapply wf_nid; eauto.
    + intros m x Hx. destruct (same_mdata_get _ _ _ _ (sf_mods _ _ F) Hx) as (y & Hy & Hd).
      injection Hd as -> _ _. simpl in Hy. rewrite book_mods_get in Hy by auto.
      destruct (nth_error (pmods p) m) as [md|] eqn:E; [|discriminate]. injection Hy as <-.
      destruct (m =? new), (m =? old); simpl; eapply wf_mid; eauto.
    + intros i x Hx. rewrite (sf_M _ _ F). simpl.
      assert (H : group p3 i = Some (nmod x)) by (unfold group; now rewrite Hx).
      rewrite Hgrp in H. destruct (i =? n); [injection H as <-; auto|].
      unfold group in H. destruct (nth_error (pnodes p) i) eqn:E; [|discriminate]. injection H as <-.
      eapply wf_range; eauto.
    + auto.
    + intros m x Hx. destruct (same_mdata_get _ _ _ _ (sf_mods _ _ F) Hx) as (y & Hy & Hd).
      injection Hd as _ -> _. simpl in Hy. rewrite book_mods_get in Hy by auto.
      destruct (nth_error (pmods p) m) as [md|] eqn:E; [|discriminate]. injection Hy as <-.
      pose proof (wf_size _ _ W _ _ E) as Hs.
      unfold ls_move. destruct (Nat.eqb_spec m new) as [->|Hmn]; simpl.
      * rewrite fupd_eq. simpl. unfold ls_del. destruct (Nat.eqb_spec new old) as [->|]; simpl.
        { rewrite fupd_eq. rewrite Hs. rewrite (del_length n (ls old)); auto. lia. apply (wf_nodup _ _ W). }
        { rewrite fupd_neq by auto. lia. }
      * rewrite fupd_neq by auto. unfold ls_del. destruct (Nat.eqb_spec m old) as [->|]; simpl.
        { rewrite fupd_eq. rewrite Hs. rewrite (del_length n (ls old)); auto. lia. apply (wf_nodup _ _ W). }
        { rewrite fupd_neq by auto. lia. }
    + intros m. unfold ls_move, fupd. destruct (m =? new); auto. constructor; auto.
    + intros m i. rewrite Hgrp. unfold ls_move, fupd. 
      assert (Hdel : forall m, In i (ls_del ls n old m) <-> i <> n /\ group p i = Some m).
      { intros m'. unfold ls_del, fupd. destruct (Nat.eqb_spec m' old) as [->|Hne].
        - rewrite del_In, (wf_mem _ _ W). tauto.
        - rewrite (wf_mem _ _ W). split; [|tauto]. intros H; split; auto. intros ->.
          apply (wf_mem _ _ W) in H. apply Hne. apply (HD m' old n); auto. }
      destruct (Nat.eqb_spec m new) as [->|Hmn]; simpl.
      * rewrite Hdel. destruct (Nat.eqb_spec i n); intuition congruence.
      * rewrite Hdel. destruct (Nat.eqb_spec i n); intuition congruence.
    + rewrite (sf_ne _ _ F), (sf_M _ _ F). reflexivity.
  - intros m. pose proof (sf_mods _ _ F m) as H. simpl in H. rewrite book_mods_get in H by auto. unfold moved_str.
    destruct (nth_error (pmods p) m) as [md|]; destruct (nth_error (pmods p3) m) as [x|]; simpl in *; try discriminate; auto.
    injection H as _ _ ->. f_equal. destruct (m =? new), (m =? old); auto.
Qed.

End Proofs.

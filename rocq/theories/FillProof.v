(** FillProof.v -- filling a fresh partition: CreatePartition, append_node and AssignNodesToModules. *)
From Coq Require Import List Arith Lia Bool.
From Verif Require Import Base ListLib PartModel MoveModel FillModel PartSpec PartInv ChangeProof MergeProof.
Import ListNotations.
Local Open Scope nat_scope.

(** ** Specification of a fresh partition: every module empty, no node linked. *)
Record fresh {A} {ops : NumOps A} (p : partition A) : Prop := {
  fr_N : length (pnodes p) = pN p;
  fr_M : length (pmods p) = pM p;
  fr_node : forall i nd, nth_error (pnodes p) i = Some nd -> nid nd = i /\ nprev nd = None /\ nnext nd = None;
  fr_mod : forall m md, nth_error (pmods p) m = Some md -> md = mkModule m 0 n0 None None;
  fr_nempty : pnempty p = pM p
}.

Section Proofs.
Context {A : Type} {ops : NumOps A}.
Implicit Types p : partition A.

Lemma nth_map_seq {B} (f : nat -> B) n i : nth_error (map f (seq 0 n)) i = if i <? n then Some (f i) else None.
Proof.
  destruct (Nat.ltb_spec i n).
  - rewrite (map_nth_error f i (seq 0 n) (d := i)); auto. now rewrite nth_error_seq by auto.
  - apply nth_error_None. rewrite map_length, seq_length. lia.
Qed.

Lemma CreatePartition_fresh N M : M <= N ->
  exists p : partition A, CreatePartition N M = Ok p /\ fresh p /\ pN p = N /\ pM p = M /\
    (forall i, i < N -> group p i = Some 0 /\ strength p i = Some n0).
Proof.
  intros H. unfold CreatePartition, check. rewrite (proj2 (Nat.leb_le _ _) H). simpl.
  eexists. split; [reflexivity|]. split; [|split; [|split]]; auto.
  - split; simpl; rewrite ?map_length, ?seq_length; auto.
    + intros i nd. rewrite nth_map_seq. destruct (i <? N); [|discriminate]. intros [= <-]. auto.
    + intros m md. rewrite nth_map_seq. destruct (m <? M); [|discriminate]. intros [= <-]. auto.
  - intros i Hi. unfold group, strength. simpl. rewrite nth_map_seq, (proj2 (Nat.ltb_lt _ _) Hi). auto.
Qed.

Lemma CreatePartition_oob N M : N < M -> @CreatePartition A ops N M = Err UB_oob.
Proof. intros H. unfold CreatePartition, check. rewrite (proj2 (Nat.leb_gt _ _) H). auto. Qed.

(** Invariant when the nodes in [D] are assigned and the others are not. *)
Record PW (D : nat -> Prop) p (ls : nat -> list nat) : Prop := {
  pw_N : length (pnodes p) = pN p;
  pw_M : length (pmods p) = pM p;
  pw_nid : forall i nd, nth_error (pnodes p) i = Some nd -> nid nd = i;
  pw_mid : forall m md, nth_error (pmods p) m = Some md -> mid md = m;
  pw_range : forall i nd, D i -> nth_error (pnodes p) i = Some nd -> nmod nd < pM p;
  pw_links : LinksOK (pnodes p) (pmods p) ls;
  pw_size : forall m md, nth_error (pmods p) m = Some md -> msize md = length (ls m);
  pw_nodup : forall m, NoDup (ls m);
  pw_mem : forall m i, In i (ls m) <-> D i /\ group p i = Some m;
  pw_nempty : pnempty p = count (fun m => isnil (ls m)) (seq 0 (pM p));
  pw_rest : forall i, ~ D i -> i < pN p -> links (pnodes p) i = Some (None, None)
}.

Lemma count_all {B} (f : B -> bool) l : (forall x, In x l -> f x = true) -> count f l = length l.
Proof.
  unfold count. induction l; simpl; auto. intros H. rewrite (H a) by auto. simpl. rewrite IHl; auto.
Qed.

Lemma PW_ext (D D' : nat -> Prop) p ls : (forall i, D i <-> D' i) -> PW D p ls -> PW D' p ls.
Proof.
  intros HD W. split; try apply W.
  - intros i nd H. apply (pw_range _ _ _ W). now apply HD.
  - intros m i. rewrite <- HD. apply (pw_mem _ _ _ W).
  - intros i H. apply (pw_rest _ _ _ W). now rewrite HD.
Qed.

Lemma fresh_PW p : fresh p -> PW (fun _ => False) p (fun _ => []).
Proof.
  intros F. split; try apply F.
  - intros m md H. rewrite (fr_mod _ F m md H). auto.
  - intros; tauto.
  - intros m md H. rewrite (fr_mod _ F m md H). simpl. auto.
  - intros m md H. rewrite (fr_mod _ F m md H). auto.
  - constructor.
  - intros m i. simpl. tauto.
  - rewrite (fr_nempty _ F). rewrite count_all; auto. now rewrite seq_length.
  - intros i _ Hi. unfold links. rewrite <- (fr_N _ F) in Hi. destruct (nth_ex _ _ Hi) as [nd E].
    rewrite E. simpl. destruct (fr_node _ F i nd E) as (_ & -> & ->). auto.
Qed.

Lemma PW_WF p ls : PW (fun i => i < pN p) p ls -> WF p ls.
Proof.
  intros W. split; try apply W.
  - intros i nd H. eapply pw_range; eauto. rewrite <- (pw_N _ _ _ W). eapply nth_lt; eauto.
  - intros m i. rewrite (pw_mem _ _ _ W). split; [tauto|]. intros H; split; auto. unfold group in H.
    destruct (nth_error (pnodes p) i) eqn:E; [|discriminate]. apply nth_lt in E. rewrite <- (pw_N _ _ _ W). auto.
Qed.

Definition appended_str p (j : nat) (s : A) (m : nat) : option A :=
  match nth_error (pmods p) m with
  | None => None
  | Some md => Some (if m =? j then (if msize md =? 0 then s else nadd (mstr md) s) else mstr md)
  end.

Lemma append_node_spec D k p ls j nd :
  PW D p ls -> ~ D k -> k < pN p -> j < pM p -> nth_error (pnodes p) k = Some nd ->
  exists p', append_node p k j = Ok p' /\ PW (fun i => i = k \/ D i) p' (fupd ls j (ls j ++ [k])) /\
    pN p' = pN p /\ pM p' = pM p /\
    (forall i, group p' i = if i =? k then Some j else group p i) /\
    (forall i, strength p' i = strength p i) /\
    (forall m, option_map mstr (nth_error (pmods p') m) = appended_str p j (nstr nd) m).
Proof.
  intros W HDk Hk Hj End. assert (Hjl : j < length (pmods p)) by (rewrite (pw_M _ _ _ W); auto).
  destruct (nth_ex _ _ Hjl) as [md Emd].
  pose proof (pw_size _ _ _ W _ _ Emd) as Hs.
  destruct (pw_links _ _ _ W _ _ Emd) as (Hf & Hl & Hd).
  pose proof (pw_mid _ _ _ W _ _ Emd) as Hmid.
  pose proof (pw_rest _ _ _ W k HDk Hk) as Hrest. unfold links in Hrest. rewrite End in Hrest.
  injection Hrest as Hnp Hnn.
  assert (Hkl : k < length (pnodes p)) by (rewrite (pw_N _ _ _ W); auto).
  assert (Hnotin : forall m, ~ In k (ls m)). { intros m H. apply (pw_mem _ _ _ W) in H. tauto. }
  (* everything that does not depend on the branch *)
  assert (Main : forall ne mods' nodes' s0 fi,
     (fi = if isnil (ls j) then Some k else mfirst md) ->
     (ne + (if isnil (ls j) then 1 else 0) = pnempty p) ->
     (s0 = if isnil (ls j) then nstr nd else nadd (mstr md) (nstr nd)) ->
     mods' = upd (pmods p) j (mkModule j (length (ls j) + 1) s0 fi (Some k)) ->
     (forall i, option_map ndata (nth_error nodes' i) =
                option_map ndata (if i =? k then Some (set_nmod j nd) else nth_error (pnodes p) i)) ->
     (forall i, ~ In i (ls j) -> i <> k -> links nodes' i = links (pnodes p) i) ->
     dll nodes' None (ls j ++ [k]) None ->
     let p' := mkPart (pN p) (pM p) ne mods' nodes' in
     PW (fun i => i = k \/ D i) p' (fupd ls j (ls j ++ [k])) /\
     pN p' = pN p /\ pM p' = pM p /\
     (forall i, group p' i = if i =? k then Some j else group p i) /\
     (forall i, strength p' i = strength p i) /\
     (forall m, option_map mstr (nth_error (pmods p') m) = appended_str p j (nstr nd) m)).
  { intros ne mods' nodes' s0 fi Efi Ene Es0 Emods' Hdata Hlk Hdll p'.
    assert (Hgrp : forall i, group p' i = if i =? k then Some j else group p i).
    { intros i. specialize (Hdata i). unfold group; simpl. destruct (i =? k).
      - destruct (nth_error nodes' i); [|discriminate]. simpl in *. injection Hdata as _ _ ->. auto.
      - destruct (nth_error nodes' i), (nth_error (pnodes p) i); simpl in *; try discriminate; auto.
        injection Hdata as _ _ ->. auto. }
    assert (Hlen : length nodes' = length (pnodes p)).
    { transitivity (length (upd (pnodes p) k (set_nmod j nd))); [|apply length_upd].
      apply same_ndata_len. intros i. rewrite Hdata. rewrite nth_upd.
      apply Nat.ltb_lt in Hkl. rewrite Hkl, andb_true_r. auto. }
    assert (Enth : forall m, nth_error mods' m = if m =? j then Some (mkModule j (length (ls j) + 1) s0 fi (Some k)) else nth_error (pmods p) m).
    { intros m. rewrite Emods', nth_upd. apply Nat.ltb_lt in Hjl. rewrite Hjl, andb_true_r. auto. }
    split; [|split; [|split; [|split; [|split]]]]; auto.
    - split; simpl.
      + rewrite Hlen. apply (pw_N _ _ _ W).
      + rewrite Emods', length_upd. apply (pw_M _ _ _ W).
      + intros i x Hx. specialize (Hdata i). rewrite Hx in Hdata. destruct (Nat.eqb_spec i k) as [->|].
        * simpl in Hdata. injection Hdata as -> _ _. eapply pw_nid; eauto.
        * destruct (nth_error (pnodes p) i) eqn:E; [|discriminate]. simpl in Hdata. injection Hdata as -> _ _.
          eapply pw_nid; eauto.
      + intros m x Hx. rewrite Enth in Hx. destruct (Nat.eqb_spec m j) as [->|]; [injection Hx as <-; auto|].
        eapply pw_mid; eauto.
      + intros i x Hi Hx. assert (G : group p' i = Some (nmod x)) by (unfold group; simpl; now rewrite Hx).
        rewrite Hgrp in G. destruct (Nat.eqb_spec i k); [injection G as <-; auto|].
        unfold group in G. destruct (nth_error (pnodes p) i) eqn:E; [|discriminate]. simpl in G. injection G as <-.
        eapply pw_range; eauto. tauto.
      + intros m x Hx. rewrite Enth in Hx. unfold fupd. destruct (Nat.eqb_spec m j) as [->|Hmj].
        * injection Hx as <-. simpl. rewrite last_error_snoc. repeat split; auto. rewrite Efi.
          destruct (ls j); simpl; auto.
        * destruct (pw_links _ _ _ W m x Hx) as (a & b & c). repeat split; auto.
          eapply dll_frame; [|exact c]. intros i Hi. apply Hlk.
          { intros Hi'. apply (pw_mem _ _ _ W) in Hi. apply (pw_mem _ _ _ W) in Hi'. destruct Hi, Hi'. congruence. }
          { intros ->. eapply Hnotin; eauto. }
      + intros m x Hx. rewrite Enth in Hx. unfold fupd. destruct (Nat.eqb_spec m j) as [->|Hmj].
        * injection Hx as <-. simpl. rewrite app_length. auto.
        * eapply pw_size; eauto.
      + intros m. unfold fupd. destruct (m =? j); [|apply (pw_nodup _ _ _ W)].
        apply NoDup_Add with (a := k) (l := ls j).
        * apply (Add_app k (ls j) []) || idtac. rewrite <- (app_nil_r (ls j)) at 1. apply Add_app.
        * split; auto. apply (pw_nodup _ _ _ W).
      + intros m i. rewrite Hgrp. unfold fupd. destruct (Nat.eqb_spec m j) as [->|Hmj].
        * rewrite in_app_iff. simpl. rewrite (pw_mem _ _ _ W). destruct (Nat.eqb_spec i k) as [->|].
          { split; auto. }
          { split; [intros [[? ?]|[?|[]]]; [split; [tauto|auto]|congruence]|]. intros [? ?]. left. split; auto. tauto. }
        * rewrite (pw_mem _ _ _ W). destruct (Nat.eqb_spec i k) as [->|].
          { split; [tauto|]. intros [_ [= <-]]. congruence. }
          { split; intros [? ?]; split; auto; tauto. }
      + rewrite (pw_nempty _ _ _ W) in Ene.
        pose proof (count_change (fun m => isnil (fupd ls j (ls j ++ [k]) m)) (fun m => isnil (ls m)) (seq 0 (pM p)) j) as C.
        cbv beta in C. rewrite fupd_eq in C.
        replace (isnil (ls j ++ [k])) with false in C by (destruct (ls j); auto).
        rewrite Nat.add_0_r in C.
        assert (C' : count (fun m => isnil (fupd ls j (ls j ++ [k]) m)) (seq 0 (pM p)) + (if isnil (ls j) then 1 else 0) =
                     count (fun m => isnil (ls m)) (seq 0 (pM p))).
        { apply C. apply seq_NoDup. apply in_seq; lia. intros y _ Hy. now rewrite fupd_neq. }
        lia.
      + intros i Hi Hi2. rewrite Hlk; try tauto. apply (pw_rest _ _ _ W); tauto.
        intros H. apply (pw_mem _ _ _ W) in H. tauto.
    - intros i. specialize (Hdata i). unfold strength; simpl. destruct (Nat.eqb_spec i k) as [e|].
      + rewrite e in *. rewrite End. destruct (nth_error nodes' k); [|discriminate]. simpl in *. injection Hdata as _ -> _. auto.
      + destruct (nth_error nodes' i), (nth_error (pnodes p) i); simpl in *; try discriminate; auto.
        injection Hdata as _ -> _. auto.
    - intros m. unfold appended_str. simpl. rewrite Enth. destruct (Nat.eqb_spec m j) as [->|]; simpl.
      + rewrite Emd. rewrite Es0, isnil_length, Hs. auto.
      + destruct (nth_error (pmods p) m); auto. }
  unfold append_node. rewrite (get_ok _ _ _ Emd). cbn [bind]. rewrite (get_ok _ _ _ End). cbn [bind].
  rewrite Hs. rewrite <- isnil_length. destruct (ls j) as [|a0 lj0] eqn:Elj; simpl isnil; cbv iota.
  - (* empty module *)
    assert (Hne : 0 < pnempty p).
    { rewrite (pw_nempty _ _ _ W). eapply count_pos with (x := j). apply in_seq; lia. now rewrite Elj. }
    destruct (pnempty p) as [|ne] eqn:Ene; [lia|]. cbn [dec bind].
    erewrite upd_node_ok by (cbn; eauto). unfold set_nodes. cbn [bind pN pM pnempty pmods pnodes set_nempty].
    erewrite upd_mod_ok by (cbn; eauto). unfold set_mods. cbn [bind pN pM pnempty pmods pnodes].
    erewrite upd_mod_ok by (cbn; apply nth_upd_eq; auto). unfold set_mods. cbn [bind pN pM pnempty pmods pnodes].
    erewrite upd_mod_ok by (cbn; apply nth_upd_eq; rewrite length_upd; auto). unfold set_mods. cbn [bind pN pM pnempty pmods pnodes].
    erewrite upd_mod_ok by (cbn; apply nth_upd_eq; rewrite !length_upd; auto). unfold set_mods. cbn [bind pN pM pnempty pmods pnodes].
    rewrite !upd_upd. eexists. split; [reflexivity|].
    eapply (Main ne _ _ (nstr nd) (Some k)); auto; try (simpl; lia).
    + unfold set_msize, set_mstr, set_mfirst, set_mlast. simpl. rewrite Hmid. auto.
    + intros i. rewrite nth_upd. apply Nat.ltb_lt in Hkl. rewrite Hkl, andb_true_r. auto.
    + intros i _ Hi. unfold links. rewrite nth_upd_neq; auto.
    + simpl. split; auto. unfold links. rewrite nth_upd_eq by auto. simpl. congruence.
  - (* non-empty module *)
    rewrite <- Elj in *. assert (Hnn' : ls j <> []) by (rewrite Elj; discriminate).
    erewrite upd_node_ok by (cbn; eauto). unfold set_nodes. cbn [bind pN pM pnempty pmods pnodes].
    erewrite upd_mod_ok by (cbn; eauto). unfold set_mods. cbn [bind pN pM pnempty pmods pnodes].
    erewrite upd_mod_ok by (cbn; apply nth_upd_eq; auto). unfold set_mods. cbn [bind pN pM pnempty pmods pnodes].
    destruct (exists_last Hnn') as (l0 & la & El0).
    rewrite Hl, El0, last_error_snoc. cbn [deref bind].
    assert (Hla : la < length (pnodes p)). { eapply dll_in_lt; [exact Hd|]. rewrite El0. apply in_app_iff; simpl; auto. }
    assert (Hlak : la <> k). { intros ->. apply (Hnotin j). rewrite El0. apply in_app_iff; simpl; auto. }
    destruct (nth_ex _ _ Hla) as [ndl Endl].
    erewrite upd_node_ok by (cbn; rewrite nth_upd_neq by auto; eauto). unfold set_nodes. cbn [bind pN pM pnempty pmods pnodes].
    rewrite upd_upd. erewrite get_ok by (apply nth_upd_eq; auto). cbn [bind].
    erewrite upd_node_ok by (cbn; rewrite nth_upd_neq by auto; apply nth_upd_eq; auto). unfold set_nodes. cbn [bind pN pM pnempty pmods pnodes].
    erewrite upd_mod_ok by (cbn; apply nth_upd_eq; auto). unfold set_mods. cbn [bind pN pM pnempty pmods pnodes].
    rewrite !upd_upd. eexists. split; [reflexivity|].
    assert (Enil : isnil (ls j) = false) by (rewrite Elj; auto).
    set (nodes1 := upd (pnodes p) k (set_nmod j nd)).
    set (nodes2 := upd nodes1 la (set_nnext (Some k) ndl)).
    assert (E1 : nth_error nodes1 la = Some ndl) by (unfold nodes1; rewrite nth_upd_neq; auto).
    assert (E2 : nth_error nodes2 k = Some (set_nmod j nd)).
    { unfold nodes2. rewrite nth_upd_neq by auto. unfold nodes1. apply nth_upd_eq; auto. }
    assert (Hfin : forall i, nth_error (upd nodes2 k (set_nprev (Some la) (set_nmod j nd))) i =
       if i =? k then Some (set_nprev (Some la) (set_nmod j nd)) else
       if i =? la then Some (set_nnext (Some k) ndl) else nth_error (pnodes p) i).
    { intros i. rewrite nth_upd. assert (k <? length nodes2 = true) as ->. { apply Nat.ltb_lt. eapply nth_lt; eauto. }
      rewrite andb_true_r. destruct (Nat.eqb_spec i k); auto. unfold nodes2. rewrite nth_upd.
      assert (la <? length nodes1 = true) as ->. { apply Nat.ltb_lt. eapply nth_lt; eauto. }
      rewrite andb_true_r. destruct (i =? la); auto. unfold nodes1. rewrite nth_upd_neq; auto. }
    assert (Hl2 : mlast (set_mstr (nadd (mstr (set_msize (msize md + 1) md)) (nstr nd)) (set_msize (msize md + 1) md)) = Some la).
    { simpl. rewrite Hl, El0, last_error_snoc. auto. }
    rewrite Hl2. rewrite <- El0.
    eapply (Main (pnempty p) _ _ (nadd (mstr md) (nstr nd)) (mfirst md)); rewrite ?Enil; auto; try lia.
    + unfold set_msize, set_mstr, set_mfirst, set_mlast. simpl. rewrite Hmid, <- Hs. auto.
    + intros i. rewrite Hfin. destruct (Nat.eqb_spec i k); auto. destruct (Nat.eqb_spec i la) as [->|]; auto.
      rewrite Endl. auto.
    + intros i Hi Hik. unfold links. rewrite Hfin. destruct (Nat.eqb_spec i k); [congruence|].
      destruct (Nat.eqb_spec i la) as [->|]; auto. exfalso. apply Hi. rewrite El0; apply in_app_iff; simpl; auto.
    + rewrite El0. apply dll_app. simpl hdor. rewrite lastor_app. simpl lastor. split.
      * rewrite El0 in Hd. 
        assert (HN : ~ In la l0). { pose proof (pw_nodup _ _ _ W j) as HN. rewrite El0 in HN. apply NoDup_remove_2 in HN.
          rewrite app_nil_r in HN. auto. }
        eapply dll_frame; [|eapply dll_set_last; [exact Hd|exact HN|exact Endl]].
        intros i Hi. unfold links at 1. rewrite Hfin. unfold links. rewrite nth_upd.
        apply Nat.ltb_lt in Hla. rewrite Hla, andb_true_r.
        destruct (Nat.eqb_spec i k) as [->|]; auto. exfalso. apply (Hnotin j). rewrite El0. auto.
      * simpl. split; auto. unfold links. rewrite Hfin, Nat.eqb_refl. simpl. congruence.
Qed.

(** Random assignment, with any further property [X] of the partition that appending a node keeps. *)
Lemma AssignNodes_random (X : partition A -> (nat -> list nat) -> Prop) p ds :
  fresh p -> pN p <> pM p -> Forall (fun j => j < pM p) ds -> pN p <= length ds ->
  X p (fun _ => []) ->
  (forall k q ls j nd q', PW (fun i => i < k) q ls -> nth_error (pnodes q) k = Some nd -> j < pM q ->
     PW (fun i => i < k + 1) q' (fupd ls j (ls j ++ [k])) ->
     (forall i, strength q' i = strength q i) ->
     (forall m, option_map mstr (nth_error (pmods q') m) = appended_str q j (nstr nd) m) ->
     X q ls -> X q' (fupd ls j (ls j ++ [k]))) ->
  exists p' ls, AssignNodesToModules p ds = Ok (p', skipn (pN p) ds) /\ WF p' ls /\ X p' ls /\
    pN p' = pN p /\ pM p' = pM p /\
    (forall i, i < pN p -> group p' i = nth_error ds i) /\
    (forall i, strength p' i = strength p i).
Proof.
  intros F Hne Hds Hlen HX0 HXs. unfold AssignNodesToModules. apply Nat.eqb_neq in Hne. rewrite Hne.
  destruct (foldM_seq (fun k st => exists ls, snd st = skipn k ds /\ PW (fun i => i < k) (fst st) ls /\ X (fst st) ls /\
       pN (fst st) = pN p /\ pM (fst st) = pM p /\
       (forall i, i < k -> group (fst st) i = nth_error ds i) /\
       (forall i, strength (fst st) i = strength p i))
     (fun '(p, ds) i => do (j, ds) <- draw ds; do p <- append_node p i j; Ok (p, ds)) (pN p) (p, ds))
    as ([p' ds'] & E & ls & H1 & H2 & HX & H3 & H4 & H5 & H6).
  - exists (fun _ => []). simpl. splits; auto; try lia. eapply PW_ext; [|apply fresh_PW; auto]. intros; simpl; lia.
  - intros i [q es] Hi (ls & H1 & H2 & HX & H3 & H4 & H5 & H6). simpl in *. subst es.
    destruct (nth_ex ds i) as [j Ej]; [lia|].
    assert (Esk : skipn i ds = j :: skipn (i + 1) ds).
    { clear - Ej. revert i Ej. induction ds as [|d ds IH]; intros [|i] Ej; simpl in *; try discriminate.
      - injection Ej as <-. auto.
      - apply IH; auto. }
    rewrite Esk. simpl.
    assert (Hj : j < pM q). { rewrite H4. rewrite Forall_forall in Hds. apply Hds. eapply nth_error_In; eauto. }
    destruct (nth_ex (pnodes q) i) as [nd End]. { rewrite (pw_N _ _ _ H2). lia. }
    destruct (append_node_spec _ i q ls j nd H2) as (q' & E' & W0 & G1 & G2 & G3 & G4 & G5); auto; try lia.
    assert (W' : PW (fun x => x < i + 1) q' (fupd ls j (ls j ++ [i]))).
    { eapply PW_ext; [|exact W0]. intros; simpl; lia. }
    rewrite E'. simpl. eexists. split; [reflexivity|]. exists (fupd ls j (ls j ++ [i])). simpl.
    splits; eauto; try congruence.
    intros i0 Hi0. rewrite G3. destruct (Nat.eqb_spec i0 i) as [->|]; auto. apply H5. lia.
  - simpl in *. exists p', ls. rewrite E, H1. splits; auto. apply PW_WF; rewrite H3; auto.
Qed.

(** One module per node. *)
Lemma AssignNodes_singletons p ds :
  fresh p -> pN p = pM p ->
  exists p', AssignNodesToModules p ds = Ok (p', ds) /\
    WF p' (fun m => if m <? pN p then [m] else []) /\
    pN p' = pN p /\ pM p' = pM p /\
    (forall i, i < pN p -> group p' i = Some i) /\
    (forall i, strength p' i = strength p i) /\
    (forall m, m < pN p -> option_map mstr (nth_error (pmods p') m) = strength p m).
Proof.
  intros F HNM. unfold AssignNodesToModules. rewrite (proj2 (Nat.eqb_eq _ _) HNM).
  set (body := fun p i => _).
  destruct (foldM_seq (fun k q =>
      pN q = pN p /\ pM q = pM p /\ pnempty q = 0 /\
      length (pnodes q) = length (pnodes p) /\ length (pmods q) = length (pmods p) /\
      (forall i, nth_error (pnodes q) i =
          option_map (fun nd => if i <? k then set_nmod i nd else nd) (nth_error (pnodes p) i)) /\
      (forall i, nth_error (pmods q) i =
          match nth_error (pmods p) i, nth_error (pnodes p) i with
          | Some md, Some nd => Some (if i <? k then mkModule i 1 (nstr nd) (Some i) (Some i) else md)
          | _, _ => None end)) body (pN p) (set_nempty 0 p)) as (q & E & H1 & H2 & H3 & H4 & H5 & H6 & H7).
  - simpl. splits; auto.
    + intros i. destruct (nth_error (pnodes p) i); auto.
    + intros i. destruct (nth_error (pmods p) i) eqn:Em; auto. apply nth_lt in Em.
      rewrite (fr_M _ F), <- HNM, <- (fr_N _ F) in Em. destruct (nth_ex _ _ Em) as [nd End]. now rewrite End.
  - intros i q Hi (H1 & H2 & H3 & H4 & H5 & H6 & H7).
    assert (Hn : i < length (pnodes p)) by (rewrite (fr_N _ F); auto).
    assert (Hm : i < length (pmods p)) by (rewrite (fr_M _ F); lia).
    destruct (nth_ex _ _ Hn) as [nd End]. destruct (nth_ex _ _ Hm) as [md Emd].
    pose proof (fr_mod _ F _ _ Emd) as Emd'.
    assert (Eq : nth_error (pnodes q) i = Some nd). { rewrite H6, End. simpl. now rewrite Nat.ltb_irrefl. }
    assert (Eqm : nth_error (pmods q) i = Some md). { rewrite H7, End, Emd. now rewrite Nat.ltb_irrefl. }
    assert (Hmq : i < length (pmods q)) by lia.
    unfold body. rewrite (get_ok _ _ _ Eq). cbn [bind].
    erewrite upd_node_ok by (cbn; eauto). unfold set_nodes. cbn [bind pN pM pnempty pmods pnodes].
    erewrite upd_mod_ok by (cbn; eauto). unfold set_mods. cbn [bind pN pM pnempty pmods pnodes].
    erewrite upd_mod_ok by (cbn; apply nth_upd_eq; auto). unfold set_mods. cbn [bind pN pM pnempty pmods pnodes].
    erewrite upd_mod_ok by (cbn; apply nth_upd_eq; rewrite !length_upd; auto). unfold set_mods. cbn [bind pN pM pnempty pmods pnodes].
    erewrite upd_mod_ok by (cbn; apply nth_upd_eq; rewrite !length_upd; auto). unfold set_mods. cbn [bind pN pM pnempty pmods pnodes].
    rewrite !upd_upd. eexists. split; [reflexivity|]. cbn [pN pM pnempty pmods pnodes]. splits; auto; rewrite ?length_upd; auto.
    + intros a. rewrite nth_upd, H4, (proj2 (Nat.ltb_lt _ _) Hn), andb_true_r.
      destruct (Nat.eqb_spec a i) as [->|].
      * rewrite End. cbn [option_map]. rewrite (proj2 (Nat.ltb_lt i (i + 1))) by lia. auto.
      * rewrite H6. destruct (nth_error (pnodes p) a); auto. simpl.
        destruct (Nat.ltb_spec a i), (Nat.ltb_spec a (i + 1)); auto; lia.
    + intros a. rewrite nth_upd, (proj2 (Nat.ltb_lt _ _) Hmq), andb_true_r.
      destruct (Nat.eqb_spec a i) as [->|].
      * rewrite End, Emd. rewrite (proj2 (Nat.ltb_lt i (i + 1))) by lia.
        unfold set_msize, set_mstr, set_mfirst, set_mlast. simpl. rewrite Emd'. auto.
      * rewrite H7. destruct (nth_error (pmods p) a); auto. destruct (nth_error (pnodes p) a); auto.
        destruct (Nat.ltb_spec a i), (Nat.ltb_spec a (i + 1)); auto; lia.
  - rewrite E. simpl. exists q. split; auto.
    assert (Hgrp : forall i, group q i = if i <? pN p then Some i else None).
    { intros i. unfold group. rewrite H6. destruct (Nat.ltb_spec i (pN p)) as [Hl|Hl].
      - destruct (nth_ex (pnodes p) i) as [nd ->]; auto. rewrite (fr_N _ F); auto.
      - rewrite (proj2 (nth_error_None _ _)); auto. rewrite (fr_N _ F); auto. }
    assert (Hmods : forall m md, nth_error (pmods q) m = Some md ->
       m < pN p /\ exists nd, nth_error (pnodes p) m = Some nd /\ md = mkModule m 1 (nstr nd) (Some m) (Some m)).
    { intros m md Em. assert (Hm : m < pN p). { rewrite HNM, <- (fr_M _ F), <- H5. eapply nth_lt; eauto. }
      split; auto. rewrite H7 in Em. destruct (nth_error (pmods p) m); [|discriminate].
      destruct (nth_error (pnodes p) m) as [nd|]; [|discriminate].
      rewrite (proj2 (Nat.ltb_lt _ _) Hm) in Em. injection Em as <-. eauto. }
    assert (Hnodes : forall i nd, nth_error (pnodes q) i = Some nd ->
       i < pN p /\ exists nd0, nth_error (pnodes p) i = Some nd0 /\ nd = set_nmod i nd0).
    { intros i nd Ei. assert (Hi : i < pN p). { rewrite <- (fr_N _ F), <- H4. eapply nth_lt; eauto. }
      split; auto. rewrite H6 in Ei. destruct (nth_error (pnodes p) i) as [nd0|]; [|discriminate].
      simpl in Ei. rewrite (proj2 (Nat.ltb_lt _ _) Hi) in Ei. injection Ei as <-. eauto. }
    splits; auto.
    + split.
      * rewrite H4, H1. apply (fr_N _ F).
      * rewrite H5, H2. apply (fr_M _ F).
      * intros i nd Ei. destruct (Hnodes i nd Ei) as (_ & nd0 & E0 & ->). apply (fr_node _ F i nd0 E0).
      * intros m md Em. destruct (Hmods m md Em) as (_ & nd & _ & ->). auto.
      * intros i nd Ei. destruct (Hnodes i nd Ei) as (Hi & nd0 & E0 & ->). simpl. lia.
      * intros m md Em. destruct (Hmods m md Em) as (Hm & nd & End & ->).
        rewrite (proj2 (Nat.ltb_lt _ _) Hm). simpl. splits; auto.
        unfold links. rewrite H6, End. simpl. rewrite (proj2 (Nat.ltb_lt _ _) Hm). simpl.
        destruct (fr_node _ F m nd End) as (_ & -> & ->). auto.
      * intros m md Em. destruct (Hmods m md Em) as (Hm & nd & End & ->).
        rewrite (proj2 (Nat.ltb_lt _ _) Hm). auto.
      * intros m. destruct (m <? pN p); repeat constructor; simpl; tauto.
      * intros m i. rewrite Hgrp. destruct (Nat.ltb_spec m (pN p)); destruct (Nat.ltb_spec i (pN p)); simpl.
        -- split; [intros [->|[]]; auto|intros [= ->]; auto].
        -- split; [intros [->|[]]; lia|discriminate].
        -- split; [tauto|]. intros [= ->]. lia.
        -- split; [tauto|discriminate].
      * rewrite H3, H2, <- HNM. symmetry. unfold count.
        assert (G : forall l, (forall x, In x l -> x < pN p) ->
           length (filter (fun m => isnil (if m <? pN p then [m] else [])) l) = 0).
        { induction l as [|x l IH]; simpl; auto. intros G. rewrite (proj2 (Nat.ltb_lt _ _) (G x (or_introl eq_refl))).
          simpl. apply IH. intros; apply G; auto. }
        apply G. intros x Hx. apply in_seq in Hx. lia.
    + intros i Hi. rewrite Hgrp, (proj2 (Nat.ltb_lt _ _) Hi). auto.
    + intros i. unfold strength. rewrite H6. destruct (nth_error (pnodes p) i); auto. simpl.
      destruct (i <? pN p); auto.
    + intros m Hm. rewrite H7. unfold strength.
      destruct (nth_ex (pmods p) m) as [md ->]. { rewrite (fr_M _ F). lia. }
      destruct (nth_ex (pnodes p) m) as [nd ->]. { rewrite (fr_N _ F). lia. }
      rewrite (proj2 (Nat.ltb_lt _ _) Hm). auto.
Qed.

End Proofs.

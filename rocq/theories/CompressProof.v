(** CompressProof.v -- CompressPartition keeps the clustering and leaves no empty module. *)
From Coq Require Import List Arith Lia Bool.
From Verif Require Import Base ListLib PartModel MoveModel PartSpec PartInv ChangeProof MergeProof FillProof CopyProof.
Import ListNotations.
Local Open Scope nat_scope.

Section Proofs.
Context {A : Type} {ops : NumOps A}.
Implicit Types p : partition A.

Definition nullify (md : module A) : option (module A) := if msize md =? 0 then None else Some md.

Lemma seq_snoc a n : seq a (n + 1) = seq a n ++ [a + n].
Proof. rewrite seq_app. auto. Qed.

Lemma compress_collect_spec p :
  length (pmods p) = pM p ->
  let emp := fun i => match nth_error (pmods p) i with Some md => msize md =? 0 | None => false end in
  pnempty p = count emp (seq 0 (pM p)) ->
  compress_collect p = Ok (map nullify (pmods p), filter emp (seq 0 (pM p)), pnempty p).
Proof.
  intros HM emp Hne. unfold compress_collect.
  set (body := fun '(mods, eid, j) i => _).
  destruct (foldM_seq (fun k st =>
      st = (map nullify (firstn k (pmods p)) ++ map Some (skipn k (pmods p)),
            filter emp (seq 0 k) ++ repeat 0 (pnempty p - count emp (seq 0 k)), count emp (seq 0 k)))
     body (pM p) (map Some (pmods p), repeat 0 (pnempty p), 0)) as (st & E & Est).
  - simpl. unfold count; simpl. now rewrite Nat.sub_0_r.
  - intros i st Hi ->. destruct (nth_ex (pmods p) i) as [md Emd]; [lia|].
    assert (Hsk : skipn i (pmods p) = md :: skipn (i + 1) (pmods p)).
    { clear - Emd. revert i Emd. generalize (pmods p). induction l as [|d l IH]; intros [|i] Ej; simpl in *; try discriminate.
      - injection Ej as <-. auto.
      - apply IH; auto. }
    assert (Hfi : firstn (i + 1) (pmods p) = firstn i (pmods p) ++ [md]).
    { clear - Emd. revert i Emd. generalize (pmods p). induction l as [|d l IH]; intros [|i] Ej; simpl in *; try discriminate.
      - injection Ej as <-. auto.
      - f_equal. apply IH; auto. }
    assert (Hlen : length (map nullify (firstn i (pmods p))) = i). { rewrite map_length, firstn_length. lia. }
    rewrite Hsk. cbn [map].
    unfold body. 
    assert (Hget : nth_error (map nullify (firstn i (pmods p)) ++ Some md :: map Some (skipn (i + 1) (pmods p))) i = Some (Some md)).
    { rewrite nth_error_app2 by lia. rewrite Hlen, Nat.sub_diag. auto. }
    rewrite (get_ok _ _ _ Hget). cbn [bind deref].
    rewrite seq_snoc, filter_app, count_app. cbn [filter plus].
    assert (Hemp : emp i = (msize md =? 0)) by (unfold emp; now rewrite Emd).
    rewrite Hfi, map_app. cbn [map].
    destruct (msize md =? 0) eqn:Ez.
    + assert (Hcnt : count emp (seq 0 i) + 1 <= pnempty p).
      { rewrite Hne. replace (pM p) with (i + 1 + (pM p - i - 1)) by lia. rewrite seq_app, count_app.
        rewrite seq_snoc, count_app. unfold count at 3. simpl. rewrite Hemp. simpl. lia. }
      assert (Hj : count emp (seq 0 i) = length (filter emp (seq 0 i))) by auto.
      rewrite set_ok. 2: { rewrite app_length, repeat_length. unfold count in *. lia. }
      cbn [bind]. rewrite set_ok by (eapply nth_lt; eauto). cbn [bind].
      eexists. split; [reflexivity|]. rewrite Hemp. assert (Hc1 : count emp [i] = 1) by (unfold count; simpl; rewrite Hemp; auto). rewrite Hc1.
      assert (Hnu : nullify md = None) by (unfold nullify; now rewrite Ez). rewrite Hnu.
      f_equal. f_equal.
      * rewrite <- Hlen at 3. rewrite upd_app_mid. rewrite <- app_assoc. auto.
      * destruct (pnempty p - count emp (seq 0 i)) as [|r] eqn:Er; [lia|]. simpl repeat.
        rewrite Hj at 1. rewrite upd_app_mid. rewrite <- app_assoc. simpl. f_equal. f_equal. f_equal. lia.
    + eexists. split; [reflexivity|]. rewrite Hemp. assert (Hc1 : count emp [i] = 0) by (unfold count; simpl; rewrite Hemp; auto). rewrite Hc1.
      assert (Hnu : nullify md = Some md) by (unfold nullify; now rewrite Ez). rewrite Hnu.
      rewrite !Nat.add_0_r, app_nil_r. f_equal. f_equal. rewrite <- app_assoc. auto.
  - rewrite E, Est. rewrite <- HM at 1 2. rewrite firstn_all, skipn_all. simpl. rewrite app_nil_r.
    rewrite <- Hne, Nat.sub_diag. simpl. now rewrite app_nil_r.
Qed.

(** Relabelling walk on a bare node array, the new label read from [eid] at every step. *)
Lemma relabel_walk_nodes (nodes : list (node A)) l v eid j :
  dll nodes None l None -> length l <= length nodes -> nth_error eid j = Some v ->
  walkM (fun nds c => do nd <- get nds c; Ok (nnext nd))
        (fun nds c => do nd <- get nds c; do e <- get eid j; Ok (upd nds c (set_nmod e nd)))
        (length nodes) (hd_error l) nodes = Ok (relabel nodes l v).
Proof.
  intros D L Ev.
  destruct (walkM_list (fun nds c => do nd <- get nds c; Ok (nnext nd))
     (fun nds c => do nd <- get nds c; do e <- get eid j; Ok (upd nds c (set_nmod e nd)))
     (fun done q => q = relabel nodes done v) l (length nodes) nodes) as (q & E & Eq); auto.
  - intros done i rest q El ->.
    assert (Hi : i < length (relabel nodes done v)).
    { rewrite relabel_length. eapply dll_in_lt; [exact D|]. rewrite El. apply in_app_iff; simpl; auto. }
    destruct (nth_ex _ _ Hi) as [nd End]. rewrite (get_ok _ _ _ End). cbn [bind]. rewrite (get_ok _ _ _ Ev). cbn [bind].
    eexists. split; [reflexivity|]. split.
    + rewrite relabel_app, (relabel_one _ _ _ _ End). reflexivity.
    + erewrite get_ok by (apply nth_upd_eq; auto). cbn.
      rewrite relabel_nth in End. rewrite El in D. destruct (dll_node _ _ _ _ D) as (nd0 & E0 & _ & Hx).
      rewrite E0 in End. simpl in End. rewrite <- Hx. destruct (mem i done); injection End as <-; auto.
  - rewrite E, Eq. reflexivity.
Qed.

Lemma filter_app_split {B} (f : B -> bool) l1 l2 : filter f (l1 ++ l2) = filter f l1 ++ filter f l2.
Proof. apply filter_app. Qed.

Lemma filter_tail (f g : nat -> bool) l e t :
  NoDup l -> filter f l = e :: t -> g e = false -> (forall y, y <> e -> g y = f y) -> filter g l = t.
Proof.
  revert t. induction l as [|a l IH]; intros t HN Hf Hg Hgf; simpl in *; [discriminate|].
  inversion HN as [|? ? Hna HNl]; subst.
  destruct (f a) eqn:Ea.
  - injection Hf as -> <-. rewrite Hg. apply filter_ext_in. intros y Hy. apply Hgf. intros ->; contradiction.
  - assert (a <> e). { intros ->. assert (In e (filter f l)) by (rewrite Hf; simpl; auto). apply filter_In in H. tauto. }
    rewrite Hgf, Ea by auto. apply IH; auto.
Qed.

(** State of the descending loop after the slots [k .. M0-1] are processed. *)
Record CInv p ls (M k : nat) (mods : list (option (module A))) (nodes : list (node A)) (j : nat)
       (lsc : nat -> list nat) (f : nat -> nat) : Prop := {
  ci_mods : length mods = pM p;
  ci_nodes : length nodes = pN p;
  ci_f : forall x, ls x <> [] -> lsc (f x) = ls x;
  ci_slot : forall y, lsc y <> [] -> exists x md, ls x <> [] /\ f x = y /\ nth_error (pmods p) x = Some md /\
              nth_error mods y = Some (Some (set_mid y md));
  ci_un : forall y, y < k -> M <= y -> lsc y = ls y /\ (ls y = [] -> nth_error mods y = Some None);
  ci_done : forall y, k <= y -> M <= y -> lsc y = [];
  ci_data : forall i, option_map (fun nd => (nid nd, nstr nd, nprev nd, nnext nd)) (nth_error nodes i) =
                      option_map (fun nd => (nid nd, nstr nd, nprev nd, nnext nd)) (nth_error (pnodes p) i);
  ci_mem : forall y i, In i (lsc y) <-> option_map nmod (nth_error nodes i) = Some y;
  ci_count : count (fun y => negb (isnil (lsc y))) (seq 0 (pM p)) = M;
  ci_empty : filter (fun y => isnil (lsc y)) (seq 0 M) = skipn j (filter (fun y => isnil (ls y)) (seq 0 M))
}.

Lemma count_negb {B} (f : B -> bool) l : count f l + count (fun x => negb (f x)) l = length l.
Proof.
  unfold count. induction l as [|a l IH]; simpl; auto. destruct (f a); simpl; lia.
Qed.

Lemma skipn_cons {B} (l : list B) j e t : skipn j l = e :: t -> nth_error l j = Some e /\ skipn (j + 1) l = t.
Proof.
  revert j; induction l as [|a l IH]; intros [|j]; simpl; try discriminate.
  - intros [= <- <-]. auto.
  - apply IH.
Qed.

Theorem CompressPartition_spec p ls :
  WF p ls -> 0 < pN p ->
  exists p' ls' f, CompressPartition p = Ok p' /\ WF p' ls' /\
    pN p' = pN p /\ pM p' = pM p - pnempty p /\ pnempty p' = 0 /\
    (forall i, group p' i = option_map f (group p i)) /\
    (forall x, ls x <> [] -> ls' (f x) = ls x /\
        option_map mstr (nth_error (pmods p') (f x)) = option_map mstr (nth_error (pmods p) x)) /\
    (forall m, m < pM p' -> ls' m <> []) /\
    (forall i, strength p' i = strength p i).
Proof.
  intros W HN. unfold CompressPartition.
  destruct (Nat.eqb_spec (pnempty p) 0) as [Hz|Hz].
  { exists p, ls, (fun x => x). splits; auto; try lia.
    - intros i. destruct (group p i); auto.
    - intros m Hm El. pose proof (wf_nempty _ _ W) as Hne. rewrite Hz in Hne.
      assert (0 < count (fun m => isnil (ls m)) (seq 0 (pM p))); [|lia].
      eapply count_pos with (x := m). apply in_seq; lia. now rewrite El. }
  set (M := pM p - pnempty p).
  pose proof (wf_nempty _ _ W) as Hne.
  assert (Hle : pnempty p <= pM p). { rewrite Hne. etransitivity. apply count_le. now rewrite seq_length. }
  unfold check. rewrite (proj2 (Nat.leb_le _ _) Hle). cbn [bind].
  set (emp := fun i => match nth_error (pmods p) i with Some md => msize md =? 0 | None => false end).
  assert (Hemp : forall x, x < pM p -> emp x = isnil (ls x)).
  { intros x Hx. unfold emp. destruct (nth_ex (pmods p) x) as [md E]. { rewrite (wf_M _ _ W); auto. }
    rewrite E, (wf_size _ _ W _ _ E), isnil_length. auto. }
  assert (Hfe : forall k, k <= pM p -> filter emp (seq 0 k) = filter (fun y => isnil (ls y)) (seq 0 k)).
  { intros k Hk. apply filter_ext_in. intros x Hx. apply in_seq in Hx. apply Hemp. lia. }
  rewrite compress_collect_spec; [|apply (wf_M _ _ W)|].
  2: { fold emp. rewrite Hne. apply count_ext. intros x Hx. apply in_seq in Hx. symmetry. apply Hemp. lia. }
  fold emp. cbn [bind].
  set (E := filter emp (seq 0 (pM p))).
  set (Elow := filter (fun y => isnil (ls y)) (seq 0 M)).
  assert (HE : exists Eh, E = Elow ++ Eh).
  { exists (filter emp (seq M (pM p - M))). unfold E, Elow.
    replace (pM p) with (M + (pM p - M)) at 1 by (unfold M; lia). rewrite seq_app, filter_app. simpl. rewrite Hfe; auto. unfold M; lia. }
  destruct HE as [Eh HE].
  (* run the descending loop *)
  assert (Loop : forall n, n <= pM p - M -> exists mods nodes j lsc f,
     foldM (compress_move E) (map nullify (pmods p), pnodes p, 0) (rev (seq (pM p - n) n)) = Ok (mods, nodes, j) /\
     CInv p ls M (pM p - n) mods nodes j lsc f).
  { induction n as [|n IH]; intros Hn.
    - exists (map nullify (pmods p)), (pnodes p), 0, ls, (fun x => x). split; [reflexivity|]. split.
      + rewrite map_length. apply (wf_M _ _ W).
      + apply (wf_N _ _ W).
      + auto.
      + intros y Hy. exists y. destruct (ls y) as [|i0 l0] eqn:El; [congruence|].
        assert (Hi0 : In i0 (ls y)) by (rewrite El; simpl; auto).
        assert (Hyl : y < pM p) by (eapply wf_mod_lt; eauto).
        destruct (wf_module _ _ _ W Hyl) as (md & Emd & Hmid & Hs & _). exists md. splits; auto.
        rewrite (map_nth_error _ _ _ Emd). unfold nullify. rewrite Hs, El. simpl. f_equal. f_equal.
        destruct md; simpl in *; subst; auto.
      + intros y Hy1 Hy2. split; auto. intros El. destruct (nth_ex (pmods p) y) as [md Emd]. { rewrite (wf_M _ _ W). lia. }
        rewrite (map_nth_error _ _ _ Emd). unfold nullify. rewrite (wf_size _ _ W _ _ Emd), El. auto.
      + intros y Hy _. rewrite Nat.sub_0_r in Hy. destruct (ls y) eqn:El; auto. exfalso.
        assert (y < pM p); [|lia]. eapply wf_mod_lt; [exact W|]. rewrite El. simpl; eauto.
      + auto.
      + intros y i. apply (wf_mem _ _ W).
      + pose proof (count_negb (fun y => isnil (ls y)) (seq 0 (pM p))) as C. rewrite seq_length in C. unfold M. lia.
      + reflexivity.
    - destruct IH as (mods & nodes & j & lsc & f & Ef & CI); [lia|].
      set (i := pM p - S n). replace (seq i (S n)) with ([i] ++ seq (pM p - n) n).
      2: { simpl. f_equal. f_equal. unfold i; lia. }
      rewrite rev_app_distr, foldM_app, Ef. cbn [bind rev app foldM].
      assert (Hi1 : i < pM p - n) by (unfold i; lia). assert (Hi2 : M <= i) by (unfold i; lia).
      assert (Hi3 : i + 1 = pM p - n) by (unfold i; lia).
      destruct (ci_un _ _ _ _ _ _ _ _ _ CI i Hi1 Hi2) as [Hlsc Hnone].
      destruct (ls i) as [|x0 l0] eqn:Eli.
      + (* empty slot *)
        unfold compress_move. rewrite (get_ok _ _ _ (Hnone eq_refl)). cbn [bind].
        exists mods, nodes, j, lsc, f. split; auto. destruct CI as [c1 c2 c3 c4 c5 c6 c7 c8 c9 c10]. split; auto.
        * intros y Hy1 Hy2. apply c5; lia.
        * intros y Hy1 Hy2. destruct (Nat.eq_dec y i) as [->|]; auto. apply c6; lia.
      + (* occupied slot: move it *)
        assert (Hne_i : lsc i <> []) by (rewrite Hlsc; discriminate).
        destruct (ci_slot _ _ _ _ _ _ _ _ _ CI i Hne_i) as (x & md & Hx1 & Hx2 & Hx3 & Hx4).
        assert (Hlsx : ls x = lsc i). { rewrite <- Hx2. symmetry. apply (ci_f _ _ _ _ _ _ _ _ _ CI x Hx1). }
        assert (Hxi : x = i).
        { assert (In x0 (ls x)) by (rewrite Hlsx, Hlsc; simpl; auto).
          apply (wf_disj _ _ W x i x0); auto. rewrite Eli; simpl; auto. }
        subst x.
        (* there is an empty slot below M *)
        assert (Hfree : exists e t, skipn j Elow = e :: t).
        { pose proof (ci_count _ _ _ _ _ _ _ _ _ CI) as C. pose proof (ci_empty _ _ _ _ _ _ _ _ _ CI) as Ce.
          fold Elow in Ce. destruct (skipn j Elow) as [|e t] eqn:Es; [|eauto]. exfalso.
          assert (count (fun y => isnil (lsc y)) (seq 0 M) = 0) by (unfold count; rewrite Ce; auto).
          pose proof (count_negb (fun y => isnil (lsc y)) (seq 0 M)) as C2. rewrite seq_length in C2.
          replace (pM p) with (M + (pM p - M)) in C by lia. rewrite seq_app, count_app in C. simpl in C.
          assert (0 < count (fun y => negb (isnil (lsc y))) (seq M (pM p - M))); [|lia].
          eapply count_pos with (x := i). apply in_seq; lia. rewrite Hlsc. auto. }
        destruct Hfree as (e & t & Hfree). destruct (skipn_cons _ _ _ _ Hfree) as [Eje Hsk].
        assert (HejE : nth_error E j = Some e).
        { rewrite HE, nth_error_app1; auto. eapply nth_lt; eauto. }
        assert (He : e < M /\ lsc e = []).
        { pose proof (ci_empty _ _ _ _ _ _ _ _ _ CI) as Ce. fold Elow in Ce. rewrite Hfree in Ce.
          assert (In e (filter (fun y => isnil (lsc y)) (seq 0 M))) by (rewrite Ce; simpl; auto).
          apply filter_In in H as [Ha Hb]. apply in_seq in Ha. split; [lia|]. destruct (lsc e); auto. discriminate. }
        destruct He as [HeM Hlsce].
        pose proof (wf_links _ _ W i md Hx3) as (Hf & Hl & Hd).
        assert (Hd' : dll nodes None (ls i) None).
        { eapply dll_frame; [|exact Hd]. intros a _. pose proof (ci_data _ _ _ _ _ _ _ _ _ CI a) as D. unfold links.
          destruct (nth_error nodes a), (nth_error (pnodes p) a); simpl in *; try discriminate; auto. congruence. }
        unfold compress_move. rewrite (get_ok _ _ _ Hx4). cbn [bind mfirst set_mid]. rewrite Hf.
        rewrite (relabel_walk_nodes nodes (ls i) e E j); auto.
        2: { rewrite (ci_nodes _ _ _ _ _ _ _ _ _ CI). apply NoDup_bound. apply (wf_nodup _ _ W).
             intros a Ha. eapply wf_in_lt; eauto. }
        cbn [bind]. rewrite (get_ok _ _ _ HejE). cbn [bind].
        rewrite set_ok by (rewrite (ci_mods _ _ _ _ _ _ _ _ _ CI); lia). cbn [bind].
        set (lsc' := fupd (fupd lsc i []) e (ls i)).
        exists (upd mods e (Some (set_mid e (set_mid i md)))), (relabel nodes (ls i) e), (j + 1), lsc', (fupd f i e).
        split; [reflexivity|].
        assert (Hei : e <> i) by lia.
        assert (Hmem' : forall y a, In a (lsc' y) <-> option_map nmod (nth_error (relabel nodes (ls i) e) a) = Some y).
        { intros y a. rewrite relabel_nth. pose proof (ci_mem _ _ _ _ _ _ _ _ _ CI) as Hm.
          assert (Hia : In a (ls i) <-> option_map nmod (nth_error nodes a) = Some i).
          { rewrite Eli, <- Hlsc. apply Hm. }
          unfold lsc', fupd. destruct (Nat.eqb_spec y e) as [->|Hye].
          - destruct (mem_spec a (ls i)) as [Ha|Ha].
            + apply Hia in Ha as Hb. destruct (nth_error nodes a); simpl in *; [|discriminate]. tauto.
            + assert (option_map nmod (nth_error nodes a) <> Some e).
              { intros H. apply Hm in H. rewrite Hlsce in H. destruct H. }
              destruct (nth_error nodes a); simpl in *; split; tauto || congruence.
          - destruct (Nat.eqb_spec y i) as [->|Hyi].
            + simpl. split; [tauto|]. destruct (mem_spec a (ls i)) as [Ha|Ha].
              * destruct (nth_error nodes a); simpl; congruence.
              * intros H. apply Ha, Hia. destruct (nth_error nodes a); simpl in *; auto.
            + rewrite Hm. destruct (mem_spec a (ls i)) as [Ha|Ha].
              * apply Hia in Ha. destruct (nth_error nodes a); simpl in *; split; congruence.
              * destruct (nth_error nodes a); simpl in *; tauto. }
        split.
        * rewrite length_upd. apply CI.
        * rewrite relabel_length. apply CI.
        * intros x Hx. unfold lsc'. destruct (Nat.eq_dec x i) as [->|Hxi].
          { now rewrite !fupd_eq. }
          rewrite (fupd_neq f) by auto. pose proof (ci_f _ _ _ _ _ _ _ _ _ CI x Hx) as Hfx.
          rewrite !fupd_neq; auto.
          { intros Heq. rewrite Heq, Hlsc in Hfx. apply Hxi. apply (wf_disj _ _ W x i x0).
            rewrite <- Hfx; simpl; auto. rewrite Eli; simpl; auto. }
          { intros Heq. rewrite Heq, Hlsce in Hfx. congruence. }
        * intros y Hy. unfold lsc' in Hy. destruct (Nat.eq_dec y e) as [->|Hye].
          { exists i, md. splits; auto. apply fupd_eq.
            rewrite nth_upd_eq; auto. rewrite (ci_mods _ _ _ _ _ _ _ _ _ CI); lia. }
          rewrite fupd_neq in Hy by auto. destruct (Nat.eq_dec y i) as [->|Hyi]; [rewrite fupd_eq in Hy; congruence|].
          rewrite fupd_neq in Hy by auto.
          destruct (ci_slot _ _ _ _ _ _ _ _ _ CI y Hy) as (x & md' & G1 & G2 & G3 & G4).
          exists x, md'. splits; auto.
          { rewrite fupd_neq; auto. intros ->. congruence. }
          { rewrite nth_upd_neq; auto. }
        * intros y Hy1 Hy2. unfold lsc'. rewrite !fupd_neq by lia. rewrite nth_upd_neq by lia.
          apply (ci_un _ _ _ _ _ _ _ _ _ CI); lia.
        * intros y Hy1 Hy2. unfold lsc'. rewrite fupd_neq by lia. destruct (Nat.eq_dec y i) as [->|]; [apply fupd_eq|].
          rewrite fupd_neq by auto. apply (ci_done _ _ _ _ _ _ _ _ _ CI); lia.
        * intros a. rewrite relabel_nth. rewrite <- (ci_data _ _ _ _ _ _ _ _ _ CI a).
          destruct (nth_error nodes a); auto. simpl. destruct (mem a (ls i)); auto.
        * exact Hmem'.
        * (* the number of occupied slots does not change *)
          pose proof (ci_count _ _ _ _ _ _ _ _ _ CI) as C.
          assert (C1 : count (fun y => negb (isnil (fupd lsc i [] y))) (seq 0 (pM p)) + 1 = M).
          { pose proof (count_change (fun y => negb (isnil (fupd lsc i [] y))) (fun y => negb (isnil (lsc y))) (seq 0 (pM p)) i) as Cc.
            cbv beta in Cc. rewrite fupd_eq, Hlsc in Cc. simpl in Cc. rewrite Nat.add_0_r in Cc.
            rewrite Cc; auto. apply seq_NoDup. apply in_seq; lia. intros y _ Hy. rewrite fupd_neq; auto. }
          assert (C2 : count (fun y => negb (isnil (lsc' y))) (seq 0 (pM p)) =
                       count (fun y => negb (isnil (fupd lsc i [] y))) (seq 0 (pM p)) + 1).
          { pose proof (count_change (fun y => negb (isnil (lsc' y))) (fun y => negb (isnil (fupd lsc i [] y))) (seq 0 (pM p)) e) as Cc.
            cbv beta in Cc. unfold lsc' in Cc at 3. rewrite fupd_eq, fupd_neq, Hlsce, Eli in Cc by auto. simpl in Cc.
            rewrite Nat.add_0_r in Cc. apply Cc. apply seq_NoDup. apply in_seq; lia.
            intros y _ Hy. unfold lsc'. rewrite fupd_neq; auto. }
          lia.
        * fold Elow. rewrite Hsk. pose proof (ci_empty _ _ _ _ _ _ _ _ _ CI) as Ce. fold Elow in Ce. rewrite Hfree in Ce.
          rewrite (filter_ext_in _ (fun y => if y =? e then false else isnil (lsc y))).
          { eapply filter_tail; [apply seq_NoDup|exact Ce| |]; simpl.
            - now rewrite Nat.eqb_refl.
            - intros y Hy. apply Nat.eqb_neq in Hy. now rewrite Hy. }
          intros y Hy. apply in_seq in Hy. unfold lsc'. destruct (Nat.eqb_spec y e) as [->|].
          { rewrite fupd_eq, Eli. auto. }
          { rewrite !fupd_neq by lia. auto. } }
  destruct (Loop (pM p - M)) as (mods & nodes & j & lsc & f & Ef & CI); [lia|].
  replace (pM p - (pM p - M)) with M in * by (unfold M; lia).
  rewrite Ef. cbn [bind].
  (* M is positive *)
  assert (HM0 : 0 < M).
  { pose proof (ci_count _ _ _ _ _ _ _ _ _ CI) as C. rewrite <- C.
    destruct (wf_node _ _ 0 W HN) as (nd & End & _ & Hm & Hin).
    assert (Hls : ls (nmod nd) <> []) by (intros El; rewrite El in Hin; destruct Hin).
    assert (Hlf : lsc (f (nmod nd)) <> []) by (rewrite (ci_f _ _ _ _ _ _ _ _ _ CI); auto).
    destruct (ci_slot _ _ _ _ _ _ _ _ _ CI _ Hlf) as (x & md & _ & _ & _ & Es).
    apply nth_lt in Es. rewrite (ci_mods _ _ _ _ _ _ _ _ _ CI) in Es.
    eapply count_pos with (x := f (nmod nd)). apply in_seq; lia. destruct (lsc (f (nmod nd))); auto. }
  rewrite (proj2 (Nat.ltb_lt _ _) HM0). cbn [bind].
  (* all slots below M are occupied *)
  assert (Hocc : forall y, y < M -> lsc y <> []).
  { intros y Hy El. pose proof (ci_count _ _ _ _ _ _ _ _ _ CI) as C.
    replace (pM p) with (M + (pM p - M)) in C by lia. rewrite seq_app, count_app in C. simpl in C.
    assert (count (fun y => negb (isnil (lsc y))) (seq M (pM p - M)) = 0) as C0.
    { destruct (count (fun y => negb (isnil (lsc y))) (seq M (pM p - M))) eqn:Ec; auto. exfalso.
      destruct (count_pos_ex (fun y => negb (isnil (lsc y))) (seq M (pM p - M))) as (x & Hx & Hx2); [lia|].
      apply in_seq in Hx. rewrite (ci_done _ _ _ _ _ _ _ _ _ CI x) in Hx2 by lia. discriminate. }
    pose proof (count_negb (fun y => isnil (lsc y)) (seq 0 M)) as C2. rewrite seq_length in C2.
    assert (0 < count (fun y => isnil (lsc y)) (seq 0 M)); [|lia].
    eapply count_pos with (x := y). apply in_seq; lia. now rewrite El. }
  set (body := fun acc i => _).
  destruct (foldM_seq (fun k acc => length acc = k /\ forall y, y < k -> exists x md, ls x <> [] /\ f x = y /\
       nth_error (pmods p) x = Some md /\ nth_error acc y = Some (set_mid y md)) body M []) as (newm & En & Hlm & Hnm).
  { split; auto. intros; lia. }
  { intros y acc Hy (Hl & Hacc). destruct (ci_slot _ _ _ _ _ _ _ _ _ CI y (Hocc y Hy)) as (x & md & G1 & G2 & G3 & G4).
    unfold body. rewrite (get_ok _ _ _ G4). cbn [bind deref]. eexists. split; [reflexivity|].
    rewrite app_length, Hl. simpl. split; auto. intros z Hzz. destruct (Nat.eq_dec z y) as [->|].
    - exists x, md. splits; auto. rewrite nth_error_app2 by lia. rewrite Hl, Nat.sub_diag. auto.
    - destruct (Hacc z) as (x' & md' & K1 & K2 & K3 & K4); [lia|]. exists x', md'. splits; auto.
      rewrite nth_error_app1; auto. lia. }
  rewrite En. cbn [bind].
  exists (mkPart (pN p) M 0 newm nodes), lsc, f. split; [reflexivity|].
  set (p' := mkPart (pN p) M 0 newm nodes).
  assert (Hgrp : forall i, group p' i = option_map f (group p i)).
  { intros i. unfold group. simpl. destruct (nth_error (pnodes p) i) as [nd|] eqn:End; simpl.
    - assert (Hin : In i (ls (nmod nd))). { apply (wf_mem _ _ W). unfold group. now rewrite End. }
      assert (Hls : ls (nmod nd) <> []) by (intros El; rewrite El in Hin; destruct Hin).
      apply (ci_mem _ _ _ _ _ _ _ _ _ CI). rewrite (ci_f _ _ _ _ _ _ _ _ _ CI); auto.
    - pose proof (ci_data _ _ _ _ _ _ _ _ _ CI i) as D. rewrite End in D. destruct (nth_error nodes i); auto. discriminate. }
  assert (Hmd : forall m md, nth_error newm m = Some md -> exists x md0, ls x <> [] /\ f x = m /\ m < M /\
       nth_error (pmods p) x = Some md0 /\ md = set_mid m md0).
  { intros m md Em. apply nth_lt in Em as Hm. rewrite Hlm in Hm. destruct (Hnm m Hm) as (x & md0 & G1 & G2 & G3 & G4).
    exists x, md0. splits; auto. congruence. }
  splits; auto.
  - split; simpl.
    + apply CI.
    + auto.
    + intros i nd Ei. pose proof (ci_data _ _ _ _ _ _ _ _ _ CI i) as D. rewrite Ei in D.
      destruct (nth_error (pnodes p) i) eqn:E0; [|discriminate]. simpl in D. injection D as D _ _ _. rewrite D.
      eapply wf_nid; eauto.
    + intros m md Em. destruct (Hmd m md Em) as (x & md0 & _ & _ & _ & _ & ->). auto.
    + intros i nd Ei. destruct (Nat.lt_ge_cases (nmod nd) M) as [H|H]; auto. exfalso.
      assert (In i (lsc (nmod nd))). { apply (ci_mem _ _ _ _ _ _ _ _ _ CI). now rewrite Ei. }
      rewrite (ci_done _ _ _ _ _ _ _ _ _ CI) in H0 by lia. destruct H0.
    + intros m md Em. destruct (Hmd m md Em) as (x & md0 & G1 & G2 & G3 & G4 & ->). simpl.
      destruct (wf_links _ _ W x md0 G4) as (a & b & c).
      assert (El : lsc m = ls x). { rewrite <- G2. apply (ci_f _ _ _ _ _ _ _ _ _ CI x G1). }
      rewrite El. splits; auto.
      eapply dll_frame; [|exact c]. intros z _. pose proof (ci_data _ _ _ _ _ _ _ _ _ CI z) as D. unfold links.
      destruct (nth_error nodes z), (nth_error (pnodes p) z); simpl in *; try discriminate; auto. congruence.
    + intros m md Em. destruct (Hmd m md Em) as (x & md0 & G1 & G2 & G3 & G4 & ->). simpl.
      rewrite <- G2, (ci_f _ _ _ _ _ _ _ _ _ CI x G1). eapply wf_size; eauto.
    + intros m. destruct (Nat.lt_ge_cases m M) as [Hm|Hm].
      * destruct (Hnm m Hm) as (x & md & G1 & G2 & _). rewrite <- G2, (ci_f _ _ _ _ _ _ _ _ _ CI x G1). apply (wf_nodup _ _ W).
      * rewrite (ci_done _ _ _ _ _ _ _ _ _ CI) by lia. constructor.
    + intros m i. unfold group. simpl. apply (ci_mem _ _ _ _ _ _ _ _ _ CI).
    + destruct (count (fun m => isnil (lsc m)) (seq 0 M)) eqn:Ec; auto. exfalso.
      destruct (count_pos_ex (fun m => isnil (lsc m)) (seq 0 M)) as (x & Hx & Hx2); [lia|].
      apply in_seq in Hx. apply (Hocc x); [lia|]. destruct (lsc x); auto. discriminate.
  - intros x Hx. split; [apply (ci_f _ _ _ _ _ _ _ _ _ CI x Hx)|]. simpl.
    assert (Hfx : f x < M).
    { destruct (Nat.lt_ge_cases (f x) M) as [H|H]; auto. exfalso.
      pose proof (ci_f _ _ _ _ _ _ _ _ _ CI x Hx) as El. rewrite (ci_done _ _ _ _ _ _ _ _ _ CI) in El by lia. congruence. }
    destruct (Hnm _ Hfx) as (x' & md & G1 & G2 & G3 & G4). rewrite G4. simpl.
    assert (x' = x).
    { pose proof (ci_f _ _ _ _ _ _ _ _ _ CI x Hx) as E1. pose proof (ci_f _ _ _ _ _ _ _ _ _ CI x' G1) as E2.
      rewrite G2 in E2. destruct (ls x) as [|z l] eqn:El; [congruence|].
      apply (wf_disj _ _ W x' x z). rewrite <- E2, E1; simpl; auto. rewrite El; simpl; auto. }
    subst x'. rewrite G3. auto.
  - intros i. unfold strength. simpl. pose proof (ci_data _ _ _ _ _ _ _ _ _ CI i) as D.
    destruct (nth_error nodes i), (nth_error (pnodes p) i); simpl in *; try discriminate; auto. congruence.
Qed.

End Proofs.

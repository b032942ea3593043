(** ProjProof.v -- ProjectBipartEdgeList: its loops, for any arithmetic. *)
From Coq Require Import List Arith ZArith Lia Bool Sorting.Sorted Sorting.Permutation.
From Verif Require Import Base ListLib PartModel FillModel PartSpec AdjSpec FillProof EdgeListProof ProjModel RunLib.
Import ListNotations.
Local Open Scope nat_scope.

Section Proj.
Context {A : Type} {ops : NumOps A}.
Implicit Types (e : Edge A) (ed : list (Edge A)) (p : partition A).

Definition teamk e : nat * nat := (enode2 e, 0).
Definition pairk e : nat * nat := (enode2 e, enode1 e).
Definition rsum (r : list (Edge A)) : A := fold_left nadd (map estr r) n0.
Definition tri (m : nat) : nat := m * (m - 1) / 2.

Lemma tri_S m : tri (m + 1) = tri m + m.
Proof.
  unfold tri. replace ((m + 1) * (m + 1 - 1)) with (m * (m - 1) + m * 2) by (destruct m; nia).
  now rewrite Nat.div_add by lia.
Qed.

Lemma teamk_eqb e e' : (enode2 e =? enode2 e') = keqb (teamk e) (teamk e').
Proof. unfold keqb, teamk; simpl. now rewrite andb_true_r. Qed.
Lemma pairk_eqb e e' : (EdgeCompare e e' =? 0)%Z = keqb (pairk e) (pairk e').
Proof.
  unfold EdgeCompare, keqb, pairk; simpl.
  destruct (Nat.ltb_spec (enode2 e) (enode2 e')). { rewrite (proj2 (Nat.eqb_neq (enode2 e) _)) by lia. auto. }
  destruct (Nat.ltb_spec (enode2 e') (enode2 e)). { rewrite (proj2 (Nat.eqb_neq (enode2 e) _)) by lia. auto. }
  rewrite (proj2 (Nat.eqb_eq (enode2 e) _)) by lia.
  destruct (Nat.ltb_spec (enode1 e) (enode1 e')). { rewrite (proj2 (Nat.eqb_neq (enode1 e) _)) by lia. auto. }
  destruct (Nat.ltb_spec (enode1 e') (enode1 e)). { rewrite (proj2 (Nat.eqb_neq (enode1 e) _)) by lia. auto. }
  rewrite (proj2 (Nat.eqb_eq (enode1 e) _)) by lia. auto.
Qed.

Lemma next_some l z i e : nth_error l i = Some e -> next l (Some z) i = Ok (nth (i + 1) l z).
Proof.
  intros H. apply nth_lt in H. unfold next. destruct (nth_error l (i + 1)) as [x|] eqn:E.
  - f_equal. symmetry. now apply nth_error_nth.
  - apply nth_error_None in E. rewrite (proj2 (Nat.eqb_eq (i + 1) _)) by lia. now rewrite nth_overflow.
Qed.

(** ** Reading *)
Definition toE (x : nat * nat * A) : Edge A := let '(a, b, w) := x in mkEdge a b w.
Fixpoint numN (es : list (nat * nat * A)) : nat :=
  match es with [] => 0 | (a, _, _) :: es => Nat.max (a + 1) (numN es) end.
Lemma pj_read_spec es : pj_read es = (numN es, map toE es).
Proof.
  unfold pj_read.
  assert (G : forall N l, fold_left (fun '(N, ed) '(a, b, w) => (if N <? a + 1 then a + 1 else N, ed ++ [mkEdge a b w])) es (N, l)
     = (Nat.max N (numN es), l ++ map toE es)).
  { induction es as [|[[a b] w] es IH]; intros N l; cbn [fold_left numN map].
    - rewrite app_nil_r. f_equal. lia.
    - rewrite IH, <- app_assoc. f_equal. destruct (Nat.ltb_spec N (a + 1)); lia. }
  now rewrite G.
Qed.
Lemma numN_lt es a b w : In (a, b, w) es -> a < numN es.
Proof. induction es as [|[[x y] v] es IH]; simpl; [tauto|]. intros [[= -> -> ->]|H]; [lia|]. apply IH in H. lia. Qed.
Lemma numN_last es : es <> [] -> exists a b w, In (a, b, w) es /\ numN es = a + 1.
Proof.
  induction es as [|[[x y] v] es IH]; [congruence|]. intros _. destruct es as [|x' es].
  - exists x, y, v. simpl. split; auto. lia.
  - destruct IH as (a & b & w & H & E); [discriminate|]. change (numN ((x, y, v) :: x' :: es)) with (Nat.max (x + 1) (numN (x' :: es))). rewrite E.
    destruct (le_lt_dec (x + 1) (a + 1)).
    + exists a, b, w. split; [right; auto|lia].
    + exists x, y, v. split; [left; auto|lia].
Qed.

(** ** A run ends with its last element *)
Lemma do_run_snoc {X S} (opn cls : S -> nat -> X -> res S) (o : S -> X -> res S) r x : (forall s i y, opn s i y = o s y) ->
  forall i s, do_run opn cls i (r ++ [x]) s = do s' <- foldM o s r; cls s' (i + length r) x.
Proof.
  intros H. induction r as [|y r IH]; intros i s; cbn [app do_run foldM length].
  - cbn [isempty bind]. now rewrite Nat.add_0_r.
  - replace (isempty (r ++ [x])) with false by (destruct r; auto). rewrite H. destruct (o s y); auto. cbn [bind].
    rewrite IH. now replace (i + 1 + length r) with (i + Datatypes.S (length r)) by lia.
Qed.

(** ** Counting *)
(** Strengths of the nodes after the edges [l] have been added. *)
Definition wsum (l : list (Edge A)) (i : nat) (s : A) : A :=
  fold_left (fun s e => if enode1 e =? i then nadd s (estr e) else s) l s.
Definition pstate (f : nat -> A -> A) p0 p : Prop :=
  pN p = pN p0 /\ pM p = pM p0 /\ pnempty p = pnempty p0 /\ pmods p = pmods p0 /\ length (pnodes p) = length (pnodes p0) /\
  (forall i nd, nth_error (pnodes p0) i = Some nd -> nth_error (pnodes p) i = Some (set_nstr (f i (nstr nd)) nd)).

Definition addw p e : res (partition A) := upd_node p (enode1 e) (fun nd => set_nstr (nadd (nstr nd) (estr e)) nd).
Lemma addw_ok p0 p l e : pstate (wsum l) p0 p -> enode1 e < length (pnodes p0) ->
  exists p', addw p e = Ok p' /\ pstate (wsum (l ++ [e])) p0 p'.
Proof.
  intros (H1 & H2 & H3 & H4 & H5 & H6) He. destruct (nth_ex (pnodes p0) (enode1 e) He) as [nd End].
  unfold addw, upd_node. rewrite (get_ok _ _ _ (H6 _ _ End)). cbn [bind]. eexists. split; [reflexivity|].
  unfold pstate. cbn [pN pM pnempty pmods pnodes set_nodes]. splits; auto. { now rewrite length_upd. }
  intros i nd' E'. unfold wsum. rewrite fold_left_app. cbn [fold_left]. destruct (Nat.eqb_spec (enode1 e) i) as [<-|Hne].
  - rewrite nth_upd_eq by lia. rewrite End in E'. injection E' as <-. reflexivity.
  - rewrite nth_upd_neq by auto. apply H6; auto.
Qed.

Definition cnt_open (s : pj_acc) e : res pj_acc :=
  do st <- match jstr s with Some x => Ok x | None => Err UB_uninit end;
  do p <- addw (jpart s) e;
  Ok (mkAcc (jdeg s + 1) (jEmax s) (Some (nadd st (estr e))) (jfac1 s) (jfac2 s) p).
Definition cnt_close (s : pj_acc) e : res pj_acc :=
  do st <- match jstr s with Some x => Ok x | None => Err UB_uninit end;
  let st := nadd st (estr e) in
  let degree := jdeg s + 1 in
  do p <- addw (jpart s) e;
  Ok (mkAcc 0 (jEmax s + tri degree) (Some n0)
       (nadd (jfac1 s) (nmul st (nsub st (ndiv st (nofnat degree))))) (nadd (jfac2 s) st) p).

Definition team_fac (r : list (Edge A)) : A :=
  nmul (rsum r) (nsub (rsum r) (ndiv (rsum r) (nofnat (length r)))).
Definition fac1_of (rs : list (list (Edge A))) : A := fold_left (fun f r => nadd f (team_fac r)) rs n0.
Definition fac2_of (rs : list (list (Edge A))) : A := fold_left (fun f r => nadd f (rsum r)) rs n0.
Fixpoint cap (rs : list (list (Edge A))) : nat := match rs with [] => 0 | r :: rs => tri (length r) + cap rs end.
Lemma cap_app a b : cap (a ++ b) = cap a + cap b.
Proof. induction a; simpl; lia. Qed.

Lemma cnt_run r : forall d Em x f1 f2 p0 p l, pstate (wsum l) p0 p -> (forall e, In e r -> enode1 e < length (pnodes p0)) ->
  exists p', foldM cnt_open (mkAcc d Em (Some x) f1 f2 p) r = Ok (mkAcc (d + length r) Em (Some (fold_left nadd (map estr r) x)) f1 f2 p') /\
    pstate (wsum (l ++ r)) p0 p'.
Proof.
  induction r as [|e r IH]; intros d Em x f1 f2 p0 p l HP Hr; cbn [foldM].
  - exists p. cbn [length map fold_left]. rewrite Nat.add_0_r, app_nil_r. auto.
  - destruct (addw_ok p0 p l e HP) as (p1 & E1 & H1); [apply Hr; left; auto|].
    unfold cnt_open at 1. cbn [jstr bind jpart jdeg jEmax jfac1 jfac2]. rewrite E1. cbn [bind].
    destruct (IH (d + 1) Em (nadd x (estr e)) f1 f2 p0 p1 (l ++ [e]) H1) as (p2 & E2 & H2); [intros; apply Hr; right; auto|].
    exists p2. rewrite E2. rewrite <- app_assoc in H2. cbn [length map fold_left]. split; auto. rewrite <- Nat.add_assoc. auto.
Qed.

Lemma pj_count_spec ed z p0 : (forall e, In e ed -> enode1 e < length (pnodes p0)) ->
  exists p', foldM (pj_count ed (Some z)) (mkAcc 0 0 (Some n0) n0 n0 p0) (seq 0 (length ed)) =
    Ok (mkAcc 0 (cap (runs teamk ed)) (Some n0) (fac1_of (runs teamk ed)) (fac2_of (runs teamk ed)) p') /\
    pstate (wsum ed) p0 p'.
Proof.
  intros Hed.
  rewrite (foldM_look teamk (fun s _ e => cnt_open s e) (fun s _ e => cnt_close s e) _ z).
  2: { intros s i e E. unfold pj_count. rewrite (get_ok _ _ _ E). cbn [bind].
       unfold cnt_open, cnt_close, addw. destruct (jstr s) as [x|]; cbn [bind]; [|destruct (negb _ || _); auto].
       destruct (upd_node _ _ _) as [p|]; cbn [bind]; [|destruct (negb _ || _); auto].
       rewrite (next_some ed z i e E). cbn [bind]. rewrite teamk_eqb. destruct (negb _ || _); auto. }
  destruct (runs_do_inv (fun s _ e => cnt_open s e) (fun s _ e => cnt_close s e)
    (fun done s => exists p', s = mkAcc 0 (cap done) (Some n0) (fac1_of done) (fac2_of done) p' /\
       pstate (wsum (concat done)) p0 p') (runs teamk ed) (mkAcc 0 0 (Some n0) n0 n0 p0)) as (s' & E & p' & -> & HP).
  - exists p0. split; auto. unfold pstate. splits; auto. intros i nd En. rewrite En. destruct nd; auto.
  - intros done r rest s El (p1 & -> & HP).
    assert (Hr : In r (runs teamk ed)) by (rewrite El, in_app_iff; simpl; auto).
    destruct (snoc_cases r) as [->|(r' & e & ->)]. { exfalso. eapply runs_nonempty; eauto. }
    rewrite (do_run_snoc _ _ cnt_open) by auto.
    destruct (cnt_run r' 0 (cap done) n0 (fac1_of done) (fac2_of done) p0 p1 (concat done) HP) as (p2 & E2 & HP2).
    { intros x Hx. apply Hed. eapply runs_in; eauto. apply in_or_app; auto. }
    rewrite E2. cbn [bind]. unfold cnt_close. cbn [jstr bind jpart jdeg jEmax jfac1 jfac2].
    destruct (addw_ok p0 p2 (concat done ++ r') e HP2) as (p3 & E3 & HP3).
    { apply Hed. eapply runs_in; eauto. apply in_or_app; simpl; auto. }
    rewrite E3. cbn [bind]. eexists. split; [reflexivity|]. exists p3. split.
    + assert (RS : rsum (r' ++ [e]) = nadd (fold_left nadd (map estr r') n0) (estr e)).
      { unfold rsum. rewrite map_app, fold_left_app. reflexivity. }
      assert (LN : length (r' ++ [e]) = 0 + length r' + 1) by (rewrite app_length; simpl; lia).
      f_equal.
      * rewrite cap_app. cbn [cap]. rewrite LN. lia.
      * unfold fac1_of. rewrite fold_left_app. cbn [fold_left]. unfold team_fac. now rewrite RS, LN.
      * unfold fac2_of. rewrite fold_left_app. cbn [fold_left]. now rewrite RS.
    + rewrite concat_app. cbn [concat]. rewrite app_nil_r, app_assoc. auto.
  - rewrite E. exists p'. split; auto. now rewrite runs_concat in HP.
Qed.

(** Without a value in [strength] the first round is undefined. *)
Lemma pj_count_uninit ed past p0 : ed <> [] -> foldM (pj_count ed past) (mkAcc 0 0 None n0 n0 p0) (seq 0 (length ed)) = Err UB_uninit.
Proof. destruct ed; [congruence|]. reflexivity. Qed.
Lemma pj_count_past ed x p0 : ed <> [] -> (forall e, In e ed -> enode1 e < length (pnodes p0)) ->
  foldM (pj_count ed None) (mkAcc 0 0 (Some x) n0 n0 p0) (seq 0 (length ed)) = Err UB_oob.
Proof.
  intros Hne Hed. destruct (snoc_cases ed) as [->|(l & e & ->)]; [congruence|].
  rewrite app_length. cbn [length]. rewrite Nat.add_1_r, seq_S, foldM_app. cbn [plus].
  destruct (foldM_seq (fun k s => exists d Em y f1 f2 q, s = mkAcc d Em (Some y) f1 f2 q /\ length (pnodes q) = length (pnodes p0))
    (pj_count (l ++ [e]) None) (length l) (mkAcc 0 0 (Some x) n0 n0 p0)) as (s & E & d & Em & y & f1 & f2 & q & -> & Hq).
  - repeat eexists.
  - intros k s Hk (d & Em & y & f1 & f2 & q & -> & Hq). unfold pj_count. cbn [jdeg jEmax jstr jfac1 jfac2 jpart].
    destruct (nth_ex l k Hk) as [ek Ek]. assert (Ek' : nth_error (l ++ [e]) k = Some ek) by (rewrite nth_error_app1; auto).
    rewrite (get_ok _ _ _ Ek'). cbn [bind]. unfold upd_node.
    destruct (nth_ex (pnodes q) (enode1 ek)) as [nd End]. { rewrite Hq. apply Hed. eapply nth_error_In; eauto. }
    rewrite (get_ok _ _ _ End). cbn [bind]. unfold next.
    destruct (nth_ex (l ++ [e]) (k + 1)) as [e' E']. { rewrite app_length. simpl. lia. }
    rewrite E'. cbn [bind]. destruct (negb _ || _); eexists; (split; [reflexivity|]); repeat eexists; cbn; now rewrite length_upd.
  - rewrite E. cbn [bind foldM]. unfold pj_count. cbn [jdeg jEmax jstr jfac1 jfac2 jpart].
    assert (Ek' : nth_error (l ++ [e]) (length l) = Some e) by (rewrite nth_error_app2, Nat.sub_diag by lia; auto).
    rewrite (get_ok _ _ _ Ek'). cbn [bind]. unfold upd_node.
    destruct (nth_ex (pnodes q) (enode1 e)) as [nd End]. { rewrite Hq. apply Hed. eapply nth_error_In; eauto. }
    rewrite (get_ok _ _ _ End). cbn [bind]. unfold next.
    rewrite (proj2 (nth_error_None _ _)) by (rewrite app_length; simpl; lia).
    rewrite (proj2 (Nat.eqb_eq _ _)) by (rewrite app_length; simpl; lia). reflexivity.
Qed.

(** ** The pairs of a team *)
Fixpoint tpr (rr : list (Edge A)) : list (Edge A * Edge A) :=
  match rr with [] => [] | e :: rr => tpr rr ++ map (pair e) (rev rr) end.
Definition tp (r : list (Edge A)) : list (Edge A * Edge A) := tpr (rev r).
Lemma tp_snoc r e : tp (r ++ [e]) = tp r ++ map (pair e) r.
Proof. unfold tp. rewrite rev_app_distr. cbn [rev app tpr]. now rewrite rev_involutive. Qed.
Lemma tp_length r : length (tp r) = tri (length r).
Proof.
  induction r as [|e r IH] using rev_ind; auto. rewrite tp_snoc, app_length, map_length, IH, app_length. cbn [length].
  now rewrite tri_S.
Qed.
Definition mk2 (x : Edge A * Edge A) : Edge A := mkEdge (enode1 (fst x)) (enode1 (snd x)) (nmul (estr (fst x)) (estr (snd x))).
Definition pairs_of (rs : list (list (Edge A))) : list (Edge A) := map mk2 (flat_map tp rs).

Definition buf (l : list (Edge A)) (k : nat) : list (option (Edge A)) := map Some l ++ repeat None k.
Lemma buf_set l k e : set (buf l (S k)) (length l) (Some e) = Ok (buf (l ++ [e]) k).
Proof.
  unfold buf. rewrite set_ok by (rewrite app_length, map_length, repeat_length; lia). f_equal.
  cbn [repeat]. pose proof (upd_app_mid (map Some l) (repeat None k) None (Some e)) as H. rewrite map_length in H.
  rewrite H, map_app, <- app_assoc. reflexivity.
Qed.

Lemma pj_pairs ed x ex0 ys : forall l k, nth_error ed x = Some ex0 ->
  forall x0, (forall t y, nth_error ys t = Some y -> nth_error ed (x0 + t) = Some y) ->
  foldM (pj_pair ed x) (buf l (length ys + k), length l) (seq x0 (length ys)) =
    Ok (buf (l ++ map (fun y => mk2 (ex0, y)) ys) k, length l + length ys).
Proof.
  induction ys as [|y ys IH]; intros l k Ex x0 H; cbn [length seq foldM].
  - cbn [map plus]. rewrite app_nil_r, Nat.add_0_r. auto.
  - unfold pj_pair at 1. rewrite (get_ok _ _ _ Ex). cbn [bind].
    assert (Ey : nth_error ed x0 = Some y). { rewrite <- (H 0 y eq_refl). f_equal; lia. }
    rewrite (get_ok _ _ _ Ey). cbn [bind plus]. rewrite buf_set. cbn [bind].
    replace (if enode1 ex0 <? enode1 y then _ else _) with (mk2 (ex0, y)) by (destruct (enode1 ex0 <? enode1 y); auto).
    specialize (IH (l ++ [mk2 (ex0, y)]) k Ex (S x0)). rewrite app_length in IH. cbn [length] in IH. rewrite IH.
    + cbn [map]. rewrite <- app_assoc. cbn [app]. do 2 f_equal. lia.
    + intros t y' E'. rewrite <- (H (S t) y' E'). f_equal; lia.
Qed.

Lemma pj_runpairs ed r : forall l k x0, (forall t y, nth_error r t = Some y -> nth_error ed (x0 + t) = Some y) ->
  foldM (fun s x => foldM (pj_pair ed x) s (seq x0 (x - x0))) (buf l (tri (length r) + k), length l) (seq x0 (length r)) =
    Ok (buf (l ++ map mk2 (tp r)) k, length l + tri (length r)).
Proof.
  induction r as [|e r IH] using rev_ind; intros l k x0 H.
  - cbn. rewrite app_nil_r, Nat.add_0_r. auto.
  - rewrite app_length. cbn [length]. rewrite Nat.add_1_r, seq_S, foldM_app. rewrite <- Nat.add_1_r, tri_S.
    replace (tri (length r) + length r + k) with (tri (length r) + (length r + k)) by lia.
    rewrite IH. 2: { intros t y E. apply H. rewrite nth_error_app1; auto. eapply nth_lt; eauto. }
    cbn [bind foldM]. replace (x0 + length r - x0) with (length r) by lia.
    assert (Ee : nth_error ed (x0 + length r) = Some e).
    { apply H. rewrite nth_error_app2, Nat.sub_diag by lia. auto. }
    replace (length l + tri (length r)) with (length (l ++ map mk2 (tp r))) by (rewrite app_length, map_length, tp_length; auto).
    rewrite (pj_pairs ed _ e r _ k Ee). 2: { intros t y E. apply H. rewrite nth_error_app1; auto. eapply nth_lt; eauto. }
    cbn [bind]. rewrite tp_snoc, map_app, map_map, app_assoc. do 2 f_equal. rewrite app_length, map_length, tp_length. lia.
Qed.

Lemma pj_team_spec ed z : exists x, foldM (pj_team ed (Some z)) (repeat None (cap (runs teamk ed)), 0, 0) (seq 0 (length ed)) =
    Ok (map Some (pairs_of (runs teamk ed)), length (pairs_of (runs teamk ed)), x).
Proof.
  set (cl := fun (s : list (option (Edge A)) * nat * nat) (i : nat) (e : Edge A) => let '(pr, j, x0) := s in
    do (pr, j) <- foldM (fun s x => foldM (pj_pair ed x) s (seq x0 (x - x0))) (pr, j) (seq x0 (i + 1 - x0));
    Ok (pr, j, i + 1)).
  rewrite (foldM_look teamk (fun s _ e => Ok s) cl _ z).
  2: { intros [[pr j] x0] i e E. unfold pj_team, cl. rewrite (get_ok _ _ _ E). cbn [bind].
       rewrite (next_some ed z i e E). cbn [bind]. rewrite teamk_eqb. destruct (negb _ || _); auto. }
  destruct (runs_do_inv (fun s _ e => Ok s) cl
    (fun done s => forall rest, runs teamk ed = done ++ rest ->
       s = (buf (pairs_of done) (cap rest), length (pairs_of done), length (concat done)))
    (runs teamk ed) (repeat None (cap (runs teamk ed)), 0, 0)) as (s' & E & H).
  - intros rest Er. cbn [app] in Er. now rewrite Er.
  - intros done r rest s El Hs. specialize (Hs _ El). subst s.
    assert (Hr : In r (runs teamk ed)) by (rewrite El, in_app_iff; simpl; auto).
    destruct (snoc_cases r) as [->|(r' & e & Er)]. { exfalso. eapply runs_nonempty; eauto. }
    match goal with |- context [do_run ?o ?c ?i r ?s0] =>
      pose proof (do_run_snoc o c (fun s _ => Ok s) r' e (fun _ _ _ => eq_refl) i s0) as DR end.
    rewrite <- Er in DR. rewrite DR.
    assert (FO : forall (s : list (option (Edge A)) * nat * nat) (l : list (Edge A)), foldM (fun s _ => Ok s) s l = Ok s) by (intros s l; induction l; simpl; auto).
    rewrite FO. cbn [bind]. unfold cl.
    replace (length (concat done) + length r' + 1 - length (concat done)) with (length r).
    2: { rewrite Er, app_length. simpl. lia. }
    cbn [cap]. rewrite pj_runpairs.
    + cbn [bind]. eexists. split; [reflexivity|]. intros rest' El'. rewrite El, <- app_assoc in El'.
      apply app_inv_head in El'. injection El' as ->.
      assert (EP : pairs_of (done ++ [r]) = pairs_of done ++ map mk2 (tp r)).
      { unfold pairs_of. rewrite flat_map_app, map_app. cbn [flat_map]. now rewrite app_nil_r. }
      rewrite EP. f_equal; [f_equal|].
      * rewrite app_length, map_length, tp_length. auto.
      * rewrite concat_app, app_length. cbn [concat]. rewrite app_nil_r, Er, app_length. simpl. lia.
    + intros t y E. assert (EC : ed = concat done ++ r ++ concat rest).
      { rewrite <- (runs_concat teamk ed), El, concat_app. reflexivity. }
      rewrite EC, nth_error_app2 by lia. rewrite nth_error_app1. { rewrite <- E. f_equal. lia. }
      apply nth_lt in E. lia.
  - rewrite E, (H []) by now rewrite app_nil_r. cbn [cap]. unfold buf. cbn [repeat]. rewrite app_nil_r. eauto.
Qed.

Lemma pj_written_some (l : list (Edge A)) : pj_written (map Some l) = Ok l.
Proof. induction l as [|e l IH]; simpl; auto. now rewrite IH. Qed.

(** ** The different pairs *)
Definition class (r : list (Edge A)) : nat * nat * A :=
  match r with [] => (0, 0, n0) | e :: _ => (enode1 e, enode2 e, rsum r) end.
Definition classes (rs : list (list (Edge A))) : list (nat * nat * A) := map class rs.
Definition pr_ok (N : nat) e : Prop := enode1 e <> enode2 e /\ enode1 e < N /\ enode2 e < N.

Lemma class_last r e l : In (r ++ [e]) (runs pairk l) -> class (r ++ [e]) = (enode1 e, enode2 e, rsum (r ++ [e])).
Proof.
  intros H. destruct (r ++ [e]) as [|x q] eqn:Eq. { destruct r; discriminate. }
  unfold class. assert (K : pairk x = pairk e).
  { eapply runs_key; eauto; [left; auto|]. rewrite <- Eq. apply in_or_app; simpl; auto. }
  unfold pairk in K. injection K as -> ->. auto.
Qed.
Lemma classes_ok N l : Forall (pr_ok N) l -> no_loops (classes (runs pairk l)) /\ in_range N (classes (runs pairk l)).
Proof.
  rewrite Forall_forall. intros H. unfold no_loops, in_range, classes. rewrite !Forall_forall.
  split; intros [[a b] w] Hin; apply in_map_iff in Hin as (r & Er & Hr);
    (destruct r as [|x q]; [exfalso; eapply runs_nonempty; eauto|]); cbn [class] in Er; injection Er as <- <- _;
    destruct (H x) as (H1 & H2 & H3); auto; eapply runs_in; eauto; left; auto.
Qed.
Lemma runs_count (l : list (Edge A)) : length (runs pairk l) <= length l.
Proof.
  rewrite <- (runs_concat pairk l) at 2. assert (H := runs_nonempty pairk l). revert H.
  generalize (runs pairk l). induction l0 as [|r rs IH]; intros H; simpl; auto. rewrite app_length.
  assert (length r <> 0). { intros E. apply length_zero_iff_nil in E. apply (H r); simpl; auto. }
  assert (length rs <= length (concat rs)) by (apply IH; intros; apply H; simpl; auto). lia.
Qed.

Definition deg_close (s : list nat * nat) e : res (list nat * nat) :=
  let '(deg, E) := s in
  do d <- get deg (enode1 e);
  do deg <- set deg (enode1 e) (d + 1);
  do d <- get deg (enode2 e);
  do deg <- set deg (enode2 e) (d + 1);
  Ok (deg, E).
Lemma deg_run (r : list (Edge A)) : forall deg E, length r <= E ->
  foldM (fun (s : list nat * nat) _ => let '(deg, E) := s in do E <- dec E; Ok (deg, E)) (deg, E) r = Ok (deg, E - length r).
Proof.
  induction r as [|e r IH]; intros deg E H; cbn [foldM length] in *.
  - now rewrite Nat.sub_0_r.
  - destruct E as [|E]; [lia|]. cbn [dec bind]. rewrite IH by lia. auto.
Qed.

Lemma pj_degree_spec N pr z : Forall (pr_ok N) pr ->
  exists deg, foldM (pj_degree pr (Some z)) (repeat 0 N, length pr) (seq 0 (length pr)) = Ok (deg, length (runs pairk pr)) /\
    length deg = N /\ forall i, i < N -> nth_error deg i = Some (degree_of (classes (runs pairk pr)) i).
Proof.
  intros HP.
  rewrite (foldM_look pairk (fun s _ _ => let '(deg, E) := s in do E <- dec E; Ok (deg, E)) (fun s _ e => deg_close s e) _ z).
  2: { intros [deg E] i e Ee. unfold pj_degree, deg_close. rewrite (get_ok _ _ _ Ee). cbn [bind].
       rewrite (next_some pr z i e Ee). cbn [bind]. rewrite pairk_eqb. destruct (negb _ || _); auto. }
  destruct (runs_do_inv (fun s _ _ => let '(deg, E) := s in do E <- dec E; Ok (deg, E)) (fun s _ e => deg_close s e)
    (fun done '(deg, E) => E + length (concat done) = length pr + length done /\ length deg = N /\
       forall i, i < N -> nth_error deg i = Some (degree_of (classes done) i))
    (runs pairk pr) (repeat 0 N, length pr)) as ([deg E] & Er & H1 & H2 & H3).
  - splits; auto. { apply repeat_length. } intros i Hi. rewrite nth_error_repeat by auto. auto.
  - intros done r rest [deg E] El (H1 & H2 & H3).
    assert (Hr : In r (runs pairk pr)) by (rewrite El, in_app_iff; simpl; auto).
    destruct (snoc_cases r) as [->|(r' & e & ->)]. { exfalso. eapply runs_nonempty; eauto. }
    rewrite (do_run_snoc _ _ (fun (s : list nat * nat) _ => let '(deg, E) := s in do E <- dec E; Ok (deg, E))) by (intros [] ? ?; auto).
    assert (HL : length pr = length (concat done) + (length r' + 1) + length (concat rest)).
    { rewrite <- (runs_concat pairk pr) at 1. rewrite El, concat_app. cbn [concat]. rewrite !app_length. simpl. lia. }
    rewrite deg_run by lia. cbn [bind]. unfold deg_close.
    assert (He : pr_ok N e). { rewrite Forall_forall in HP. apply HP. eapply runs_in; eauto. apply in_or_app; simpl; auto. }
    destruct He as (Hne & Ha & Hb).
    rewrite (get_ok _ _ _ (H3 _ Ha)). cbn [bind]. rewrite set_ok by lia. cbn [bind].
    rewrite (get_ok _ _ (degree_of (classes done) (enode2 e))). 2: { rewrite nth_upd_neq by auto. apply H3; auto. }
    cbn [bind]. rewrite set_ok by (rewrite length_upd; lia). cbn [bind]. eexists. split; [reflexivity|].
    cbv beta iota. rewrite concat_app, !app_length. cbn [concat length]. rewrite app_nil_r, app_length. cbn [length].
    splits; [lia|now rewrite !length_upd|]. intros i Hi.
    unfold classes. rewrite map_app. fold (classes done). rewrite degree_of_app. cbn [map]. rewrite (class_last r' e pr Hr), degree_of_cons, degree_of_nil.
    rewrite nth_upd, length_upd. destruct (Nat.eqb_spec i (enode2 e)) as [->|Hib].
    + rewrite (proj2 (Nat.ltb_lt _ _)) by lia. cbn [andb]. rewrite Nat.eqb_refl, orb_true_r. f_equal; lia.
    + cbn [andb]. rewrite nth_upd. destruct (Nat.eqb_spec i (enode1 e)) as [->|Hia].
      * rewrite (proj2 (Nat.ltb_lt _ _)) by lia. cbn [andb]. rewrite Nat.eqb_refl. cbn [orb]. f_equal; lia.
      * cbn [andb]. rewrite (proj2 (Nat.eqb_neq (enode1 e) i)), (proj2 (Nat.eqb_neq (enode2 e) i)) by auto. cbn [orb].
        rewrite H3 by auto. f_equal; lia.
  - rewrite Er. exists deg. splits; auto. do 2 f_equal. rewrite runs_concat in H1. lia.
Qed.

Lemma pj_index_spec (es : list (nat * nat * A)) N deg aidx0 : length aidx0 = N + 1 -> (forall i, i < N -> nth_error deg i = Some (degree_of es i)) ->
  exists idx aidx k, foldM (pj_index deg) (repeat 0 N, aidx0, 0) (seq 0 N) = Ok (idx, aidx, k) /\
    length idx = N /\ length aidx = N + 1 /\
    (forall i, i < N -> nth_error idx i = Some (offset es i)) /\ (forall i, i < N -> nth_error aidx i = Some (offset es i)) /\
    nth_error aidx N = nth_error aidx0 N.
Proof.
  intros L D. destruct (foldM_seq (fun k '(idx, aidx, x) => x = offset es k /\ length idx = N /\ length aidx = N + 1 /\
    (forall i, i < k -> nth_error idx i = Some (offset es i)) /\ (forall i, i < k -> nth_error aidx i = Some (offset es i)) /\
    nth_error aidx N = nth_error aidx0 N) (pj_index deg) N (repeat 0 N, aidx0, 0)) as ([[idx aidx] x] & E & H).
  - splits; auto; try (intros; lia). apply repeat_length.
  - intros k [[idx aidx] x] Hk (Q0 & Q1 & Q2 & Q3 & Q4 & Q5). unfold pj_index.
    rewrite set_ok by lia. cbn [bind]. rewrite set_ok by lia. cbn [bind]. rewrite (get_ok _ _ _ (D k Hk)). cbn [bind].
    eexists. split; [reflexivity|]. cbv beta iota. rewrite !length_upd. splits; auto.
    + rewrite Nat.add_1_r. simpl. lia.
    + intros i Hi. destruct (Nat.eq_dec i k) as [->|]; [rewrite nth_upd_eq by lia; congruence|]. rewrite nth_upd_neq by auto. apply Q3. lia.
    + intros i Hi. destruct (Nat.eq_dec i k) as [->|]; [rewrite nth_upd_eq by lia; congruence|]. rewrite nth_upd_neq by auto. apply Q4. lia.
    + rewrite nth_upd_neq by lia. auto.
  - exists idx, aidx, x. tauto.
Qed.

(** ** Filling the rows *)
Definition plain (es : list (nat * nat * A)) (i : nat) : list (nat * A) :=
  flat_map (fun '(a, b, w) => if a =? i then [(b, w)] else if b =? i then [(a, w)] else []) es.
Lemma plain_app es1 es2 i : plain (es1 ++ es2) i = plain es1 i ++ plain es2 i.
Proof. apply flat_map_app. Qed.
Lemma plain_length es i : length (plain es i) = degree_of es i.
Proof.
  induction es as [|[[a b] w] es IH]; simpl; auto. unfold degree_of in *. rewrite count_cons, app_length, IH.
  destruct (a =? i); simpl; auto. destruct (b =? i); simpl; auto.
Qed.

Definition fill_add (s : list nat * list A * list nat) e : res (list nat * list A * list nat) :=
  let '(nb, st, idx) := s in
  do k <- get idx (enode1 e);
  do x <- get st k;
  do st <- set st k (nadd x (estr e));
  do k <- get idx (enode2 e);
  do x <- get st k;
  do st <- set st k (nadd x (estr e));
  Ok (nb, st, idx).
Definition fill_end (s : list nat * list A * list nat) e : res (list nat * list A * list nat) :=
  let '(nb, st, idx) := s in
  do k <- get idx (enode1 e);
  do nb <- set nb k (enode2 e);
  do k <- get idx (enode2 e);
  do nb <- set nb k (enode1 e);
  do k <- get idx (enode1 e);
  do idx <- set idx (enode1 e) (k + 1);
  do k <- get idx (enode2 e);
  do idx <- set idx (enode2 e) (k + 1);
  Ok (nb, st, idx).

Lemma fill_adds nb idx a b pa pb r : nth_error idx a = Some pa -> nth_error idx b = Some pb -> pa <> pb ->
  (forall e, In e r -> enode1 e = a /\ enode2 e = b) ->
  forall st x, pa < length st -> pb < length st ->
  foldM fill_add (nb, upd (upd st pa x) pb x, idx) r =
    let y := fold_left nadd (map estr r) x in Ok (nb, upd (upd st pa y) pb y, idx).
Proof.
  intros Ha Hb Hne. induction r as [|e r IH]; intros Hr st x La Lb; cbn [foldM map fold_left]; auto.
  destruct (Hr e (or_introl eq_refl)) as [Ea Eb]. unfold fill_add at 1. rewrite Ea, Eb.
  rewrite (get_ok _ _ _ Ha). cbn [bind]. rewrite (get_ok _ _ x). 2: { rewrite nth_upd_neq, nth_upd_eq by auto. auto. }
  cbn [bind]. rewrite set_ok by (rewrite !length_upd; auto). cbn [bind]. rewrite (get_ok _ _ _ Hb). cbn [bind].
  rewrite (get_ok _ _ x). 2: { rewrite nth_upd_neq by auto. rewrite nth_upd_eq by (rewrite length_upd; auto). auto. }
  cbn [bind]. rewrite set_ok by (rewrite !length_upd; auto). cbn [bind].
  replace (upd (upd (upd (upd st pa x) pb x) pa (nadd x (estr e))) pb (nadd x (estr e)))
    with (upd (upd st pa (nadd x (estr e))) pb (nadd x (estr e))).
  - rewrite IH; auto. intros; apply Hr; right; auto.
  - apply ListLib.nth_ext. intros i. rewrite !nth_upd, !length_upd.
    destruct (Nat.eqb_spec i pb); destruct (Nat.eqb_spec i pa); subst; cbn [andb]; auto;
      repeat match goal with |- context [if ?b then _ else _] => destruct b eqn:? end; auto; try congruence.
Qed.

Lemma pj_fill_spec N pr z nb0 st0 idx0 : let C := classes (runs pairk pr) in
  Forall (pr_ok N) pr -> (forall e, In e pr -> pairk e <> pairk z) ->
  length idx0 = N -> (forall i, i < N -> nth_error idx0 i = Some (offset C i)) ->
  2 * length C <= length nb0 -> length st0 = length nb0 -> (forall k, k < length st0 -> nth_error st0 k = Some n0) ->
  exists nb st idx, foldM (pj_fill pr (Some z)) (nb0, st0, idx0) (seq 0 (length pr)) = Ok (nb, st, idx) /\
    length nb = length nb0 /\ length st = length nb0 /\
    (forall i k j w, i < N -> nth_error (plain C i) k = Some (j, w) ->
       nth_error nb (offset C i + k) = Some j /\ nth_error st (offset C i + k) = Some w).
Proof.
  intros C HP Hz LI HI LN LS HS. destruct (classes_ok N pr HP) as [NL IR]. fold C in NL, IR.
  rewrite (foldM_look pairk (fun s _ e => fill_add s e) (fun s _ e => do s <- fill_add s e; fill_end s e) _ z).
  2: { intros [[nb st] idx] i e Ee. unfold pj_fill, fill_add. rewrite (get_ok _ _ _ Ee). cbn [bind].
       destruct (get idx (enode1 e)) as [k|] eqn:K1; cbn [bind]; [|destruct (negb _ || _); auto].
       destruct (get st k) as [x|]; cbn [bind]; [|destruct (negb _ || _); auto].
       destruct (set st k _) as [st1|]; cbn [bind]; [|destruct (negb _ || _); auto].
       destruct (get idx (enode2 e)) as [k2|] eqn:K2; cbn [bind]; [|destruct (negb _ || _); auto].
       destruct (get st1 k2) as [x2|]; cbn [bind]; [|destruct (negb _ || _); auto].
       destruct (set st1 k2 _) as [st2|]; cbn [bind]; [|destruct (negb _ || _); auto].
       rewrite (next_some pr z i e Ee). cbn [bind]. rewrite pairk_eqb.
       assert (Hlast : (i =? length pr - 1) = true -> keqb (pairk e) (pairk (nth (i + 1) pr z)) = false).
       { intros K. apply Nat.eqb_eq in K. rewrite nth_overflow by lia.
         destruct (keqb_spec (pairk e) (pairk z)) as [X|]; auto. destruct (Hz e); auto. eapply nth_error_In; eauto. }
       destruct (keqb (pairk e) (pairk (nth (i + 1) pr z))); cbn [negb orb].
       - destruct (i =? length pr - 1); auto. discriminate (Hlast eq_refl).
       - unfold fill_end. rewrite K1. cbn [bind]. rewrite K2. cbn [bind]. destruct (set nb k (enode2 e)); auto. }
  destruct (runs_do_inv (fun s _ e => fill_add s e) (fun s _ e => do s <- fill_add s e; fill_end s e)
    (fun done '(nb, st, idx) => length nb = length nb0 /\ length st = length nb0 /\ length idx = N /\
       (forall i, i < N -> nth_error idx i = Some (offset C i + degree_of (classes done) i)) /\
       (forall i k j w, i < N -> nth_error (plain (classes done) i) k = Some (j, w) ->
         nth_error nb (offset C i + k) = Some j /\ nth_error st (offset C i + k) = Some w) /\
       (forall i k, i < N -> degree_of (classes done) i <= k -> k < degree_of C i -> nth_error st (offset C i + k) = Some n0))
    (runs pairk pr) (nb0, st0, idx0)) as ([[nb st] idx] & Er & Q1 & Q2 & Q3 & Q4 & Q5 & Q6).
  - splits; auto.
    + intros i Hi. rewrite HI by auto. cbn. f_equal; lia.
    + intros i k j w _ E. destruct k; discriminate.
    + intros i k Hi _ Hk. apply HS. pose proof (offset_mono C (S i) N Hi) as O. rewrite (offset_total N C NL IR) in O. unfold edge in O. cbn [offset] in O. lia.
  - intros done r rest [[nb st] idx] El (Q1 & Q2 & Q3 & Q4 & Q5 & Q6).
    assert (Hr : In r (runs pairk pr)) by (rewrite El, in_app_iff; simpl; auto).
    destruct (snoc_cases r) as [->|(r' & e & ->)]. { exfalso. eapply runs_nonempty; eauto. }
    rewrite (do_run_snoc _ _ fill_add) by auto.
    assert (He : pr_ok N e). { rewrite Forall_forall in HP. apply HP. eapply runs_in; eauto. apply in_or_app; simpl; auto. }
    destruct He as (Hne & Ha & Hb). set (a := enode1 e) in *. set (b := enode2 e) in *.
    assert (EC : classes (done ++ [r' ++ [e]]) = classes done ++ [(a, b, rsum (r' ++ [e]))]).
    { unfold classes. rewrite map_app. cbn [map]. now rewrite (class_last r' e pr Hr). }
    assert (ECall : C = classes done ++ (a, b, rsum (r' ++ [e])) :: classes rest).
    { unfold C. rewrite El. unfold classes. rewrite map_app. cbn [map]. now rewrite (class_last r' e pr Hr). }
    assert (D : forall i, i < N -> (i = a \/ i = b) -> degree_of (classes done) i < degree_of C i).
    { intros i Hi Hab. rewrite ECall, degree_of_app, degree_of_cons.
      destruct Hab; subst i; rewrite Nat.eqb_refl; rewrite ?orb_true_r; cbn [orb]; lia. }
    assert (Hpos : forall i, i < N -> (i = a \/ i = b) -> offset C i + degree_of (classes done) i < length nb).
    { intros i Hi Hab. specialize (D i Hi Hab). pose proof (offset_mono C (S i) N Hi) as O.
      rewrite (offset_total N C NL IR) in O. unfold edge in O. cbn [offset] in O. lia. }
    pose proof (D a Ha (or_introl eq_refl)) as Da. pose proof (D b Hb (or_intror eq_refl)) as Db.
    pose proof (Hpos a Ha (or_introl eq_refl)) as Pa. pose proof (Hpos b Hb (or_intror eq_refl)) as Pb.
    pose proof (Q4 a Ha) as Ia. pose proof (Q4 b Hb) as Ib. pose proof (Q6 a _ Ha (le_n _) Da) as Sa. pose proof (Q6 b _ Hb (le_n _) Db) as Sb.
    assert (Hpab : offset C a + degree_of (classes done) a <> offset C b + degree_of (classes done) b).
    { intros E'. apply (cell_inj C N) in E'; auto. tauto. }
    set (pa := offset C a + degree_of (classes done) a) in *. set (pb := offset C b + degree_of (classes done) b) in *.
    set (v := rsum (r' ++ [e])) in *.
    assert (F : foldM fill_add (nb, st, idx) (r' ++ [e]) = Ok (nb, upd (upd st pa v) pb v, idx)).
    { replace st with (upd (upd st pa n0) pb n0) at 1.
      2: { rewrite (upd_same st pa n0 Sa). now rewrite upd_same. }
      rewrite (fill_adds nb idx a b pa pb); auto; try lia.
      intros x Hx. assert (K : pairk x = pairk e).
      { apply (runs_key pairk pr (r' ++ [e])); auto. apply in_or_app; simpl; auto. }
      unfold pairk in K. injection K as -> ->. auto. }
    rewrite foldM_app in F. cbn [foldM] in F.
    destruct (foldM fill_add (nb, st, idx) r') as [s1|] eqn:F1; cbn [bind] in F; [|discriminate]. cbn [bind].
    destruct (fill_add s1 e) as [s2|] eqn:F2; cbn [bind] in F; [|discriminate]. injection F as ->. cbn [bind]. unfold fill_end. fold a b.
    rewrite (get_ok _ _ _ Ia). cbn [bind]. rewrite set_ok by lia. cbn [bind]. rewrite (get_ok _ _ _ Ib). cbn [bind].
    rewrite set_ok by (rewrite length_upd; lia). cbn [bind]. rewrite set_ok by lia. cbn [bind].
    rewrite (get_ok _ _ pb). 2: { rewrite nth_upd_neq by auto. auto. }
    cbn [bind]. rewrite set_ok by (rewrite length_upd; lia). cbn [bind]. eexists. split; [reflexivity|]. cbv beta iota.
    rewrite EC. splits; try (now rewrite !length_upd).
    + intros i Hi. rewrite degree_of_app, degree_of_cons, degree_of_nil. rewrite nth_upd, length_upd.
      destruct (Nat.eqb_spec i b) as [->|Hib].
      * rewrite (proj2 (Nat.ltb_lt _ _)) by lia. cbn [andb]. rewrite Nat.eqb_refl, orb_true_r. f_equal. unfold pb. lia.
      * cbn [andb]. rewrite nth_upd. destruct (Nat.eqb_spec i a) as [->|Hia].
        -- rewrite (proj2 (Nat.ltb_lt _ _)) by lia. cbn [andb]. rewrite Nat.eqb_refl. cbn [orb]. f_equal. unfold pa; lia.
        -- cbn [andb]. rewrite (proj2 (Nat.eqb_neq a i)), (proj2 (Nat.eqb_neq b i)) by auto. cbn [orb]. rewrite Q4 by auto. f_equal; lia.
    + intros i k j w Hi E. rewrite plain_app in E.
      destruct (lt_dec k (degree_of (classes done) i)) as [Hk|Hk].
      * rewrite nth_error_app1 in E by (rewrite plain_length; auto).
        assert (Hdi : degree_of (classes done) i <= degree_of C i) by (rewrite ECall, degree_of_app; lia).
        assert (offset C i + k <> pa).
        { intros E'. destruct (cell_inj C N i k a (degree_of (classes done) a)) as [X Y]; auto; [lia|rewrite X in Hk; lia]. }
        assert (offset C i + k <> pb).
        { intros E'. destruct (cell_inj C N i k b (degree_of (classes done) b)) as [X Y]; auto; [lia|rewrite X in Hk; lia]. }
        destruct (Q5 i k j w Hi E). split; rewrite !nth_upd_neq by auto; auto.
      * rewrite nth_error_app2 in E by (rewrite plain_length; lia). rewrite plain_length in E.
        unfold plain in E. cbn [flat_map] in E. rewrite app_nil_r in E.
        destruct (Nat.eqb_spec a i) as [<-|Hia].
        -- destruct (k - degree_of (classes done) a) as [|y] eqn:Ez; [|destruct y; discriminate]. cbn in E. injection E as <- <-.
           replace (offset C a + k) with pa by (unfold pa; lia).
           split; (rewrite nth_upd_neq by auto); (rewrite nth_upd_eq by lia); auto.
        -- destruct (Nat.eqb_spec b i) as [<-|Hib]; [|destruct (k - degree_of (classes done) i); discriminate].
           destruct (k - degree_of (classes done) b) as [|y] eqn:Ez; [|destruct y; discriminate]. cbn in E. injection E as <- <-.
           replace (offset C b + k) with pb by (unfold pb; lia).
           split; (rewrite nth_upd_eq by (rewrite length_upd; lia)); auto.
    + intros i k Hi Hk Hk2. rewrite degree_of_app, degree_of_cons, degree_of_nil in Hk.
      assert (offset C i + k <> pa).
      { intros E'. destruct (cell_inj C N i k a (degree_of (classes done) a)) as [X Y]; auto. rewrite X, Nat.eqb_refl in Hk. cbn [orb] in Hk. subst; lia. }
      assert (offset C i + k <> pb).
      { intros E'. destruct (cell_inj C N i k b (degree_of (classes done) b)) as [X Y]; auto. rewrite X, Nat.eqb_refl, orb_true_r in Hk. subst; lia. }
      rewrite !nth_upd_neq by auto. apply Q6; auto. lia.
  - rewrite Er. exists nb, st, idx. splits; auto.
Qed.

End Proj.

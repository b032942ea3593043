(** SplitProof.v -- SplitModuleByComponent: safety of the traversal, what is counted and what is moved. *)
From Coq Require Import List Arith Lia Bool Permutation.
From Verif Require Import Base ListLib PartModel MoveModel PartSpec AdjSpec PartInv ChangeProof MergeProof Steps.
Import ListNotations.
Local Open Scope nat_scope.

Lemma NoDup_snoc {B} (l : list B) k : NoDup l -> ~ In k l -> NoDup (l ++ [k]).
Proof.
  intros H Hn. rewrite <- (rev_involutive (_ ++ [k])). apply NoDup_rev. rewrite rev_app_distr. simpl.
  constructor; [rewrite <- in_rev; auto|now apply NoDup_rev].
Qed.

Lemma filter_snoc {B} (f : B -> bool) l k : filter f (l ++ [k]) = filter f l ++ (if f k then [k] else []).
Proof. rewrite filter_app. reflexivity. Qed.

(** ** Stacks *)
Definition content (s : bstack) : list nat := firstn (stop s) (sitems s).
Definition stack_ok (cap : nat) (s : bstack) : Prop := length (sitems s) = cap /\ stop s <= cap.

Lemma content_length cap s : stack_ok cap s -> length (content s) = stop s.
Proof. intros [H1 H2]. unfold content. rewrite firstn_length. lia. Qed.

Lemma firstn_S_nth {B} (l : list B) n v : nth_error l n = Some v -> firstn (n + 1) l = firstn n l ++ [v].
Proof.
  revert n; induction l as [|a l IH]; intros [|n] H; simpl in *; try discriminate.
  - congruence.
  - rewrite <- IH; auto.
Qed.
Lemma firstn_upd {B} (l : list B) n v : firstn n (upd l n v) = firstn n l.
Proof. revert n; induction l as [|a l IH]; intros [|n]; simpl; auto. now rewrite IH. Qed.

Lemma CreateStack_ok N : stack_ok N (CreateStack N) /\ content (CreateStack N) = [].
Proof. split; [split; simpl; [apply repeat_length|lia]|reflexivity]. Qed.

Lemma AddToStack_ok cap s v : stack_ok cap s -> length (content s) < cap ->
  exists s', AddToStack v s = Ok s' /\ stack_ok cap s' /\ content s' = content s ++ [v].
Proof.
  intros H Hl. rewrite (content_length _ _ H) in Hl. destruct H as [H1 H2]. unfold AddToStack.
  rewrite set_ok by lia. cbn [bind]. eexists. split; [reflexivity|]. split.
  - split; simpl; [now rewrite length_upd|lia].
  - unfold content. simpl. rewrite (firstn_S_nth _ _ v).
    + now rewrite firstn_upd.
    + apply nth_upd_eq. lia.
Qed.

Lemma PopFromStack_nil cap s : stack_ok cap s -> content s = [] -> PopFromStack s = Ok (None, s).
Proof.
  intros H E. assert (stop s = 0) as Z. { rewrite <- (content_length _ _ H), E. reflexivity. }
  unfold PopFromStack. now rewrite Z.
Qed.
Lemma PopFromStack_snoc cap s l v : stack_ok cap s -> content s = l ++ [v] ->
  exists s', PopFromStack s = Ok (Some v, s') /\ stack_ok cap s' /\ content s' = l.
Proof.
  intros H E. assert (stop s = length l + 1) as Z.
  { rewrite <- (content_length _ _ H), E, app_length. simpl. lia. }
  unfold PopFromStack. rewrite Z, Nat.add_1_r. destruct H as [H1 H2].
  destruct (nth_ex (sitems s) (length l)) as [x Ex]; [lia|].
  assert (firstn (length l) (sitems s) ++ [x] = l ++ [v]) as E'.
  { rewrite <- (firstn_S_nth _ _ _ Ex), <- Z. exact E. }
  apply app_inj_tail in E' as [E1 ->]. rewrite (get_ok _ _ _ Ex). cbn [bind].
  eexists. split; [reflexivity|]. split; [split; simpl; lia|]. exact E1.
Qed.

Section Split.
Context {A : Type} {ops : NumOps A}.

Definition vis (st : trav) (v : nat) : Prop := nth_error (tvisit st) v = Some true.

(** ** Pushing the neighbours of one node *)
Lemma push_row N (l : list (nat * A)) : forall st,
  (forall j w, In (j, w) l -> j < N) ->
  length (tvisit st) = N -> stack_ok N (tstack st) -> NoDup (content (tstack st)) ->
  (forall v, In v (content (tstack st)) -> vis st v) ->
  exists st' new,
    foldM (fun st '(k, _) =>
      do v <- get (tvisit st) k;
      if v then Ok st
      else
        do vis <- set (tvisit st) k true;
        do stk <- AddToStack k (tstack st);
        Ok (mkTrav vis stk (tmove st) (tfind st))) st l = Ok st' /\
    length (tvisit st') = N /\ stack_ok N (tstack st') /\
    content (tstack st') = content (tstack st) ++ new /\ NoDup new /\
    (forall v, In v new -> ~ vis st v /\ In v (map fst l)) /\
    (forall v, vis st' v <-> vis st v \/ In v new) /\
    (forall v, In v (map fst l) -> vis st' v) /\
    tmove st' = tmove st /\ tfind st' = tfind st.
Proof.
  induction l as [|[k w] l IH]; intros st Hl HN Hs Hnd Hv; cbn [foldM].
  - exists st, []. rewrite app_nil_r. splits; auto; simpl; try tauto. constructor.
  - assert (Hk : k < N) by (eapply Hl; simpl; eauto).
    destruct (nth_ex (tvisit st) k) as [b Eb]; [lia|]. rewrite (get_ok _ _ _ Eb). cbn [bind].
    assert (Hl' : forall j w, In (j, w) l -> j < N) by (intros; eapply Hl; simpl; eauto).
    destruct b; cbn [bind].
    + destruct (IH st Hl' HN Hs Hnd Hv) as (st' & new & E & L & S' & C & ND & Hnew & Hvis & Hall & M & F).
      exists st', new. splits; auto.
      * intros v Hin. destruct (Hnew v Hin). split; simpl; auto.
      * intros v [<-|Hin]; auto. apply Hvis. left. exact Eb.
    + rewrite set_ok by lia. cbn [bind].
      assert (Hnin : ~ In k (content (tstack st))).
      { intros Hin. apply Hv in Hin. unfold vis in Hin. congruence. }
      assert (ND1 : NoDup (content (tstack st) ++ [k])).
      { apply NoDup_snoc; auto. }
      assert (Hb : length (content (tstack st) ++ [k]) <= N).
      { apply NoDup_bound; auto. intros x Hx. apply in_app_iff in Hx as [Hx|[<-|[]]]; auto.
        apply Hv in Hx. unfold vis in Hx. apply nth_lt in Hx. lia. }
      rewrite app_length in Hb. simpl in Hb.
      destruct (AddToStack_ok N (tstack st) k Hs) as (s' & Ea & Hs' & Cs'); [lia|].
      rewrite Ea. cbn [bind].
      set (st1 := mkTrav _ _ _ _).
      assert (V1 : forall v, vis st1 v <-> vis st v \/ v = k).
      { intros v. unfold vis, st1. simpl. destruct (Nat.eq_dec v k) as [->|Hne].
        - rewrite nth_upd_eq by lia. tauto.
        - rewrite nth_upd_neq by auto. tauto. }
      destruct (IH st1 Hl') as (st' & new & E & L & S' & C & ND & Hnew & Hvis & Hall & M & F).
      * simpl. rewrite length_upd. auto.
      * exact Hs'.
      * simpl. rewrite Cs'. exact ND1.
      * simpl. rewrite Cs'. intros v Hin. apply V1. apply in_app_iff in Hin as [Hin|[<-|[]]]; auto.
      * exists st', (k :: new). splits; auto.
        -- rewrite C. simpl. rewrite Cs', <- app_assoc. reflexivity.
        -- constructor; auto. intros Hin. apply Hnew in Hin as [Hin _]. apply Hin. apply V1. auto.
        -- intros v [<-|Hin]; simpl.
           ++ split; auto. unfold vis. congruence.
           ++ destruct (Hnew v Hin) as [Q1 Q2]. split; auto. rewrite V1 in Q1. tauto.
        -- intros v. rewrite Hvis, V1. simpl. split; [intros [[|]|]|intros [|[|]]]; auto.
        -- intros v [<-|Hin]; auto. apply Hvis. left. apply V1. auto.
Qed.

Lemma push_spec (adj : adja A) N j st : adj_ok adj N -> j < N ->
  length (tvisit st) = N -> stack_ok N (tstack st) -> NoDup (content (tstack st)) ->
  (forall v, In v (content (tstack st)) -> vis st v) ->
  exists st' new, push_neighbors adj j st = Ok st' /\
    length (tvisit st') = N /\ stack_ok N (tstack st') /\
    content (tstack st') = content (tstack st) ++ new /\ NoDup new /\
    (forall v, In v new -> ~ vis st v /\ adjacent adj j v) /\
    (forall v, vis st' v <-> vis st v \/ In v new) /\
    (forall v, adjacent adj j v -> vis st' v) /\
    tmove st' = tmove st /\ tfind st' = tfind st.
Proof.
  intros Ha Hj H1 H2 H3 H4.
  destruct (push_row N (row adj j) st) as (st' & new & E & R); auto.
  { intros k w Hin. eapply row_lt in Hin; eauto. tauto. }
  exists st', new. split; [|exact R]. rewrite <- E. unfold push_neighbors.
  apply (row_fold_eq adj N); auto.
  intros s k jj w Ek _ _ _. rewrite (get_ok _ _ _ Ek). reflexivity.
Qed.

(** ** The traversal invariant
    [P]: nodes fully processed, in order; [stk]: nodes seen but not processed; [comp v]: number of the component in
    which [v] was seen; [sd k]: whether component [k] goes to the empty module. *)
Variable adj : adja A.
Variable p : partition A.
Variable ls : nat -> list nat.
Variable target : nat.
Hypothesis W : WF p ls.
Hypothesis HA : adj_ok adj (pN p).
Hypothesis HS : sym_adj adj.

Record TI (P stk : list nat) (comp : nat -> nat) (sd : nat -> bool) (c : nat)
          (vs : nat -> Prop) (mv : bstack) (fnd : nat) : Prop := {
  ti_nodup : NoDup (P ++ stk);
  ti_vis : forall v, vs v <-> In v (P ++ stk);
  ti_lt : forall v, In v (P ++ stk) -> v < pN p;
  ti_comp : forall v, In v (P ++ stk) -> 1 <= comp v <= c;
  ti_stk : forall v, In v stk -> comp v = c;
  ti_find : fnd + count (fun v => mem v (ls target)) P = length (ls target);
  ti_mvok : stack_ok (length (ls target)) mv;
  ti_mv : content mv = filter (fun v => mem v (ls target) && sd (comp v)) P;
  ti_closed : forall v u, In v P -> adjacent adj v u -> In u (P ++ stk) /\ comp u = comp v;
  ti_root : forall k, 1 <= k <= c -> exists r, In r (ls target) /\ In r (P ++ stk) /\ comp r = k /\
              forall v, In v (P ++ stk) -> comp v = k -> connected adj r v
}.

Lemma count_filter_le {B} (f g : B -> bool) l : (forall x, In x l -> g x = true -> f x = true) ->
  length (filter g l) <= count f l.
Proof.
  unfold count. induction l as [|a l IH]; intros H; simpl; auto.
  assert (length (filter g l) <= length (filter f l)) by (apply IH; intros; apply H; simpl; auto).
  destruct (g a) eqn:E.
  - rewrite (H a) by (simpl; auto). simpl. lia.
  - destruct (f a); simpl; lia.
Qed.

(** Processing the popped node [j]: record it as found, push its neighbours. *)
Lemma TI_step P l j comp sd c st stk' :
  TI P (l ++ [j]) comp sd c (vis st) (tmove st) (tfind st) ->
  length (tvisit st) = pN p -> stack_ok (pN p) stk' -> content stk' = l -> tfind st <> 0 ->
  exists st' comp' new,
    (do nd <- get (pnodes p) j;
     do st0 <- (if nmod nd =? target then
                  do fi <- dec (tfind st);
                  do mv <- (if sd c then AddToStack j (tmove st) else Ok (tmove st));
                  Ok (mkTrav (tvisit st) stk' mv fi)
                else Ok (mkTrav (tvisit st) stk' (tmove st) (tfind st)));
     push_neighbors adj j st0) = Ok st' /\
    length (tvisit st') = pN p /\ stack_ok (pN p) (tstack st') /\ content (tstack st') = l ++ new /\
    TI (P ++ [j]) (l ++ new) comp' sd c (vis st') (tmove st') (tfind st') /\
    (forall v, vis st v -> vis st' v).
Proof.
  intros T HN Hs Hc Hf.
  assert (Hj : j < pN p). { apply (ti_lt _ _ _ _ _ _ _ _ T). rewrite !in_app_iff. simpl. auto. }
  destruct (wf_node _ _ _ W Hj) as (nd & End & _ & _ & Hin).
  rewrite (get_ok _ _ _ End). cbn [bind].
  pose proof (ti_nodup _ _ _ _ _ _ _ _ T) as ND. rewrite app_assoc in ND.
  assert (Hcj : comp j = c). { apply (ti_stk _ _ _ _ _ _ _ _ T). rewrite in_app_iff; simpl; auto. }
  assert (Hmem : (nmod nd =? target) = mem j (ls target)).
  { destruct (Nat.eqb_spec (nmod nd) target) as [E|Hne].
    - symmetry. apply mem_In. rewrite <- E. auto.
    - symmetry. apply not_true_is_false. intros Hm. apply mem_In in Hm. apply Hne.
      eapply wf_disj; eauto. }
  (* the bookkeeping *)
  assert (B : exists mv fi,
     (if nmod nd =? target then
                  do fi <- dec (tfind st);
                  do mv <- (if sd c then AddToStack j (tmove st) else Ok (tmove st));
                  Ok (mkTrav (tvisit st) stk' mv fi)
                else Ok (mkTrav (tvisit st) stk' (tmove st) (tfind st))) = Ok (mkTrav (tvisit st) stk' mv fi) /\
     stack_ok (length (ls target)) mv /\
     content mv = content (tmove st) ++ (if mem j (ls target) && sd c then [j] else []) /\
     fi + (if mem j (ls target) then 1 else 0) = tfind st).
  { rewrite Hmem. pose proof (ti_mvok _ _ _ _ _ _ _ _ T) as Hmv.
    destruct (mem j (ls target)) eqn:Em.
    - destruct (tfind st) as [|fi] eqn:Ef; [congruence|]. cbn [dec bind].
      destruct (sd c) eqn:Es; cbn [bind andb].
      + destruct (AddToStack_ok _ (tmove st) j Hmv) as (mv & E1 & E2 & E3).
        { rewrite (ti_mv _ _ _ _ _ _ _ _ T). pose proof (ti_find _ _ _ _ _ _ _ _ T) as Q. try rewrite Ef in Q.
          assert (Q2 := count_filter_le (fun v => mem v (ls target)) (fun v => mem v (ls target) && sd (comp v)) P).
          cbv beta in Q2. assert (forall x, In x P -> mem x (ls target) && sd (comp x) = true -> mem x (ls target) = true) as Q3.
          { intros x _ Hx. apply andb_prop in Hx. tauto. }
          specialize (Q2 Q3). lia. }
        rewrite E1. cbn [bind]. exists mv, fi. splits; auto. lia.
      + exists (tmove st), fi. splits; auto; try (now rewrite app_nil_r); lia.
    - exists (tmove st), (tfind st). cbn [andb]. splits; auto; try (now rewrite app_nil_r); lia. }
  destruct B as (mv & fi & EB & Hmvok & Hmvc & Hfi). rewrite EB. cbn [bind]. clear EB.
  assert (NDl : NoDup l).
  { apply NoDup_app_iff in ND as [ND _]. apply NoDup_app_iff in ND. tauto. }
  destruct (push_spec adj (pN p) j (mkTrav (tvisit st) stk' mv fi)) as
     (st' & new & E & L & S' & C & NDn & Hnew & Hvis & Hall & M & F); auto.
  { simpl. rewrite Hc. auto. }
  { simpl. rewrite Hc. intros v Hv. apply (ti_vis _ _ _ _ _ _ _ _ T). rewrite !in_app_iff. auto. }
  simpl in C, M, F. rewrite Hc in C.
  assert (VV : forall v, vis (mkTrav (tvisit st) stk' mv fi) v <-> In v (P ++ l ++ [j])).
  { intros v. apply (ti_vis _ _ _ _ _ _ _ _ T). }
  set (comp' := fun v => if mem v new then c else comp v).
  assert (Hold : forall v, In v (P ++ l ++ [j]) -> comp' v = comp v).
  { intros v Hv. unfold comp'. destruct (mem_spec v new) as [Hm|]; auto.
    apply Hnew in Hm as [Hm _]. exfalso. apply Hm. apply VV. auto. }
  assert (Hmemb : forall v, In v ((P ++ [j]) ++ l ++ new) <-> In v (P ++ l ++ [j]) \/ In v new).
  { intros v. rewrite !in_app_iff. simpl. tauto. }
  assert (Hnewc : forall v, In v new -> comp' v = c).
  { intros v Hv. unfold comp'. destruct (mem_spec v new); tauto. }
  exists st', comp', new. splits; auto. 2: { intros v Hv. apply Hvis. left. exact Hv. } constructor.
  - (* nodup *)
    rewrite <- app_assoc in ND.
    assert (Q : NoDup ((P ++ l ++ [j]) ++ new)).
    { apply NoDup_app_iff. splits; auto. intros v Hv Hn. apply Hnew in Hn as [Hn _]. apply Hn, VV, Hv. }
    eapply Permutation_NoDup; [|exact Q]. rewrite <- !app_assoc. apply Permutation_app_head.
    rewrite app_assoc. rewrite app_assoc. apply Permutation_app_tail. apply Permutation_app_comm.
  - intros v. rewrite Hvis, VV, Hmemb. tauto.
  - intros v Hv. apply Hmemb in Hv as [Hv|Hv]; [apply (ti_lt _ _ _ _ _ _ _ _ T); auto|].
    apply Hnew in Hv as [_ Hv]. eapply adjacent_lt in Hv; eauto. tauto.
  - intros v Hv. apply Hmemb in Hv as [Hv|Hv].
    + rewrite Hold by auto. apply (ti_comp _ _ _ _ _ _ _ _ T); auto.
    + rewrite Hnewc by auto. split; auto. rewrite <- Hcj.
      apply (ti_comp _ _ _ _ _ _ _ _ T j). rewrite !in_app_iff; simpl; auto.
  - intros v Hv. apply in_app_iff in Hv as [Hv|Hv]; auto.
    rewrite Hold by (rewrite !in_app_iff; auto). apply (ti_stk _ _ _ _ _ _ _ _ T). rewrite in_app_iff; auto.
  - rewrite F, count_app, count_cons. pose proof (ti_find _ _ _ _ _ _ _ _ T). unfold count at 2. simpl. lia.
  - rewrite M. auto.
  - rewrite M, Hmvc, (ti_mv _ _ _ _ _ _ _ _ T), filter_snoc. f_equal.
    + apply filter_ext_in. intros v Hv. rewrite Hold; auto. rewrite in_app_iff; auto.
    + rewrite Hold by (rewrite !in_app_iff; simpl; auto). rewrite Hcj. reflexivity.
  - intros v u Hv Ha. rewrite in_app_iff in Hv. simpl in Hv. destruct Hv as [Hv|[<-|[]]].
    + destruct (ti_closed _ _ _ _ _ _ _ _ T v u Hv Ha) as [Q1 Q2]. split.
      * apply Hmemb; auto.
      * rewrite !Hold; auto. rewrite in_app_iff; auto.
    + apply Hall in Ha as Hu. apply Hvis in Hu. rewrite VV in Hu. split; [apply Hmemb; auto|].
      rewrite (Hold j) by (rewrite !in_app_iff; simpl; auto). rewrite Hcj.
      destruct Hu as [Hu|Hu]; auto. rewrite Hold by auto.
      rewrite in_app_iff in Hu. destruct Hu as [Hu|Hu]; [|apply (ti_stk _ _ _ _ _ _ _ _ T); auto].
      apply HS in Ha. destruct (ti_closed _ _ _ _ _ _ _ _ T u j Hu Ha) as [_ Q]. congruence.
  - intros k Hk. destruct (ti_root _ _ _ _ _ _ _ _ T k Hk) as (r & R1 & R2 & R3 & R4).
    exists r. splits; auto.
    + apply Hmemb; auto.
    + rewrite Hold; auto.
    + intros v Hv Hcv. apply Hmemb in Hv as [Hv|Hv].
      * rewrite Hold in Hcv by auto. auto.
      * rewrite Hnewc in Hcv by auto. subst k.
        apply Hnew in Hv as [_ Hv]. apply conn_step with j; auto. apply R4; [|congruence].
        rewrite !in_app_iff; simpl; auto.
Qed.

(** The traversal of one component. *)
Lemma traverse_spec sd c : forall fuel P comp st,
  TI P (content (tstack st)) comp sd c (vis st) (tmove st) (tfind st) ->
  length (tvisit st) = pN p -> stack_ok (pN p) (tstack st) -> pN p < fuel + length P ->
  exists st' P' stk' comp', traverse target p adj (sd c) fuel st = Ok st' /\
    TI P' stk' comp' sd c (vis st') (tmove st') (tfind st') /\
    length (tvisit st') = pN p /\ stack_ok (pN p) (tstack st') /\
    (tfind st' = 0 \/ (stk' = [] /\ content (tstack st') = [])) /\
    (forall v, vis st v -> vis st' v).
Proof.
  induction fuel as [|fuel IH]; intros P comp st T HN Hs Hf.
  - exfalso. pose proof (ti_nodup _ _ _ _ _ _ _ _ T) as ND. apply NoDup_app_iff in ND as [ND _].
    apply (NoDup_bound _ (pN p)) in ND; [lia|]. intros x Hx. apply (ti_lt _ _ _ _ _ _ _ _ T). rewrite in_app_iff; auto.
  - cbn [traverse]. destruct (snoc_cases (content (tstack st))) as [E|(l & j & E)].
    + rewrite (PopFromStack_nil _ _ Hs E). cbn [bind]. exists (mkTrav (tvisit st) (tstack st) (tmove st) (tfind st)).
      exists P, (content (tstack st)), comp. destruct st. simpl in *. splits; auto.
    + destruct (PopFromStack_snoc _ _ _ _ Hs E) as (s' & Ep & Hs' & Cs'). rewrite Ep. cbn [bind tfind tvisit tstack tmove].
      destruct (Nat.eqb_spec (tfind st) 0) as [Z|NZ].
      * eexists. exists P, (content (tstack st)), comp. split; [reflexivity|]. cbn [tfind tvisit tstack tmove].
        splits; auto.
      * rewrite E in T.
        destruct (TI_step P l j comp sd c st s' T HN Hs' Cs' NZ) as (st1 & comp1 & new & E1 & L1 & S1 & C1 & T1 & V1).
        destruct (IH (P ++ [j]) comp1 st1) as (st' & P' & stk' & comp' & E2 & R1 & R2 & R3 & R4 & R5); auto.
        { rewrite C1. auto. }
        { rewrite app_length. simpl. lia. }
        exists st', P', stk', comp'. splits; auto. rewrite <- E2. clear -E1.
        destruct (get (pnodes p) j) as [nd|]; cbn [bind] in *; [|discriminate].
        destruct (nmod nd =? target); cbn [bind] in *.
        -- destruct (dec (tfind st)); cbn [bind] in *; [|discriminate].
           destruct (if sd c then _ else _); cbn [bind] in *; [|discriminate]. rewrite E1. reflexivity.
        -- rewrite E1. reflexivity.
Qed.

(** ** The loop over the members of the target module *)
Lemma split_walk_spec : forall l done fuel P stk comp sd c st ds,
  ls target = done ++ l ->
  TI P stk comp sd c (vis st) (tmove st) (tfind st) ->
  length (tvisit st) = pN p -> stack_ok (pN p) (tstack st) -> length l <= fuel ->
  (tfind st = 0 \/ (stk = [] /\ content (tstack st) = [] /\ forall v, In v done -> vis st v)) ->
  (1 <= c -> sd 1 = false) -> (2 <= c -> sd 2 = true) ->
  match split_walk target p adj fuel (hd_error l) c st ds with
  | Ok (c', st', _) => exists P' stk' comp' sd',
      TI P' stk' comp' sd' c' (vis st') (tmove st') (tfind st') /\ tfind st' = 0 /\
      (1 <= c' -> sd' 1 = false) /\ (2 <= c' -> sd' 2 = true)
  | Err e => e = RngOut
  end.
Proof.
  induction l as [|i l IH]; intros done fuel P stk comp sd c st ds Els T HN Hs Hf Hor Hs1 Hs2.
  - assert (tfind st = 0) as Z.
    { destruct Hor as [|(-> & C & Hd)]; auto. rewrite app_nil_r in Els. subst done.
      pose proof (ti_find _ _ _ _ _ _ _ _ T) as F.
      assert (length (ls target) <= count (fun v => mem v (ls target)) P); [|lia].
      unfold count. apply NoDup_incl_length; [apply (wf_nodup _ _ W)|].
      intros v Hv. apply filter_In. split; [|apply mem_In; auto].
      apply Hd in Hv. apply (ti_vis _ _ _ _ _ _ _ _ T) in Hv. rewrite app_nil_r in Hv. auto. }
    destruct fuel; simpl; exists P, stk, comp, sd; splits; auto.
  - assert (Htm : target < pM p). { apply (wf_mod_lt _ _ _ i W). rewrite Els, in_app_iff. simpl; auto. }
    destruct (wf_module _ _ _ W Htm) as (tm & _ & _ & _ & _ & _ & D). rewrite Els in D.
    destruct (dll_node _ _ _ _ D) as (nd & End & _ & Enx).
    assert (Hid : nid nd = i) by (eapply wf_nid; eauto).
    assert (Hi : i < pN p). { rewrite <- (wf_N _ _ W). eapply nth_lt; eauto. }
    destruct fuel as [|fuel]; [simpl in Hf; lia|]. cbn [split_walk hd_error].
    destruct (Nat.eqb_spec (tfind st) 0) as [Z|NZ].
    { exists P, stk, comp, sd; splits; auto. }
    destruct Hor as [|(-> & C & Hd)]; [congruence|]. 
    rewrite (get_ok _ _ _ End). cbn [bind]. rewrite Hid.
    destruct (nth_ex (tvisit st) i) as [b Eb]; [lia|]. rewrite (get_ok _ _ _ Eb). cbn [bind].
    assert (Els' : ls target = (done ++ [i]) ++ l) by (rewrite <- app_assoc; auto).
    assert (Hf' : length l <= fuel) by (simpl in Hf; lia).
    rewrite Enx. destruct b; cbn [bind].
    + apply (IH (done ++ [i]) fuel P [] comp sd c st ds); auto. right. splits; auto.
      intros v Hv. apply in_app_iff in Hv as [Hv|[<-|[]]]; auto.
    + rewrite set_ok by lia. cbn [bind].
      destruct (pick_side (c + 1) ds) as [[side ds1]|e] eqn:Ep; cbn [bind].
      2: { unfold pick_side in Ep. destruct (_ =? 1); [discriminate|]. destruct (_ =? 2); [discriminate|].
           destruct ds; simpl in Ep; congruence. }
      destruct (AddToStack_ok (pN p) (tstack st) i Hs) as (s1 & Ea & Hs1' & Cs1). { rewrite C. simpl. lia. }
      rewrite Ea. cbn [bind]. rewrite C in Cs1. simpl in Cs1.
      set (st1 := mkTrav _ _ _ _). set (sd1 := fupd sd (c + 1) side).
      assert (Hni : ~ In i P).
      { intros H. assert (vis st i) as Q. { apply (ti_vis _ _ _ _ _ _ _ _ T). rewrite app_nil_r. auto. }
        unfold vis in Q. congruence. }
      set (comp1 := fupd comp i (c + 1)).
      assert (Hold : forall v, In v P -> comp1 v = comp v).
      { intros v Hv. unfold comp1. apply fupd_neq. congruence. }
      assert (Hnew : comp1 i = c + 1) by (unfold comp1; apply fupd_eq).
      assert (HP : forall v, In v P -> In v (P ++ [])) by (intros; rewrite app_nil_r; auto).
      assert (T1 : TI P (content (tstack st1)) comp1 sd1 (c + 1) (vis st1) (tmove st1) (tfind st1)).
      { unfold st1 at 1. cbn [tstack]. rewrite Cs1. constructor.
        - apply NoDup_snoc; auto. pose proof (ti_nodup _ _ _ _ _ _ _ _ T) as ND. rewrite app_nil_r in ND. auto.
        - intros v. unfold vis, st1. cbn [tvisit]. pose proof (ti_vis _ _ _ _ _ _ _ _ T v) as Q. rewrite app_nil_r in Q.
          rewrite in_app_iff. simpl. destruct (Nat.eq_dec v i) as [->|Hne].
          + rewrite nth_upd_eq by lia. tauto.
          + rewrite nth_upd_neq by auto. fold (vis st v). rewrite Q. split; auto. intros [|[|[]]]; auto; congruence.
        - intros v Hv. apply in_app_iff in Hv as [Hv|[<-|[]]]; auto. apply (ti_lt _ _ _ _ _ _ _ _ T). auto.
        - intros v Hv. apply in_app_iff in Hv as [Hv|[<-|[]]]; [|lia].
          rewrite Hold by auto. pose proof (ti_comp _ _ _ _ _ _ _ _ T v (HP v Hv)). lia.
        - intros v [<-|[]]. auto.
        - apply (ti_find _ _ _ _ _ _ _ _ T).
        - apply (ti_mvok _ _ _ _ _ _ _ _ T).
        - unfold st1. cbn [tmove]. rewrite (ti_mv _ _ _ _ _ _ _ _ T). apply filter_ext_in. intros v Hv.
          rewrite Hold by auto. unfold sd1. rewrite fupd_neq; auto.
          pose proof (ti_comp _ _ _ _ _ _ _ _ T v (HP v Hv)). lia.
        - intros v u Hv Ha. destruct (ti_closed _ _ _ _ _ _ _ _ T v u Hv Ha) as [Q1 Q2]. rewrite app_nil_r in Q1.
          split; [rewrite in_app_iff; auto|]. rewrite !Hold; auto.
        - intros k Hk. destruct (Nat.eq_dec k (c + 1)) as [->|].
          + exists i. splits; auto.
            * rewrite Els, in_app_iff. simpl; auto.
            * rewrite in_app_iff; simpl; auto.
            * intros v Hv Hcv. apply in_app_iff in Hv as [Hv|[<-|[]]]; [|constructor].
              rewrite Hold in Hcv by auto. pose proof (ti_comp _ _ _ _ _ _ _ _ T v (HP v Hv)). lia.
          + destruct (ti_root _ _ _ _ _ _ _ _ T k) as (r & R1 & R2 & R3 & R4); [lia|]. rewrite app_nil_r in R2.
            exists r. splits; auto.
            * rewrite in_app_iff; auto.
            * rewrite Hold; auto.
            * intros v Hv Hcv. apply in_app_iff in Hv as [Hv|[<-|[]]]; [|congruence].
              rewrite Hold in Hcv by auto. apply R4; auto. }
      destruct (traverse_spec sd1 (c + 1) (S (pN p)) P comp1 st1 T1) as (st2 & P2 & stk2 & comp2 & E2 & T2 & L2 & S2 & O2 & V2).
      { simpl. rewrite length_upd. auto. }
      { exact Hs1'. }
      { lia. }
      assert (Hsd : sd1 (c + 1) = side) by (unfold sd1; apply fupd_eq). rewrite Hsd in E2.
      rewrite E2. cbn [bind].
      apply (IH (done ++ [i]) fuel P2 stk2 comp2 sd1 (c + 1) st2 ds1); auto.
      * destruct O2 as [|[-> C2]]; auto. right. splits; auto.
        intros v Hv. apply V2. unfold vis, st1. cbn [tvisit]. apply in_app_iff in Hv as [Hv|[<-|[]]].
        -- apply Hd in Hv as Q. unfold vis in Q. rewrite nth_upd_neq; auto. intros ->. congruence.
        -- apply nth_upd_eq. lia.
      * intros _. unfold sd1. destruct (Nat.eq_dec c 0) as [->|].
        -- simpl. unfold fupd. simpl. unfold pick_side in Ep. simpl in Ep. congruence.
        -- rewrite fupd_neq by lia. apply Hs1. lia.
      * intros H2. unfold sd1. destruct (Nat.eq_dec c 1) as [->|].
        -- simpl. unfold fupd. simpl. unfold pick_side in Ep. simpl in Ep. congruence.
        -- rewrite fupd_neq by lia. apply Hs2. lia.
Qed.
(** ** Moving the collected nodes *)
Lemma move_all_spec empty : forall l fuel s q lq,
  stack_ok (length (ls target)) s -> content s = l -> length l < fuel ->
  WF q lq -> pN q = pN p -> empty < pM q -> (forall i, In i l -> i < pN p) -> NoDup l ->
  exists q' lq', move_all empty fuel s q = Ok q' /\ WF q' lq' /\ pN q' = pN q /\ pM q' = pM q /\
    (forall i, group q' i = if mem i l then Some empty else group q i) /\
    (forall i, strength q' i = strength q i) /\ steps q q'.
Proof.
  intros l. induction l as [|j l IH] using rev_ind; intros fuel s q lq Hs C Hf Wq HN He Hl ND;
    (destruct fuel as [|fuel]; [lia|]); cbn [move_all].
  - rewrite (PopFromStack_nil _ _ Hs C). cbn [bind]. exists q, lq. splits; auto. constructor.
  - destruct (PopFromStack_snoc _ _ _ _ Hs C) as (s' & Ep & Hs' & Cs'). rewrite Ep. cbn [bind].
    assert (Hj : j < pN q). { rewrite HN. apply Hl. rewrite in_app_iff; simpl; auto. }
    destruct (wf_node _ _ _ Wq Hj) as (nd & End & _).
    destruct (ChangeModule_spec q lq j empty nd Wq End He) as (q1 & E1 & W1 & N1 & M1 & G1 & S1 & _).
    rewrite E1. cbn [bind]. rewrite app_length in Hf. simpl in Hf. apply NoDup_app_iff in ND as (ND & _ & Dj).
    destruct (IH fuel s' q1 (ls_move lq j (nmod nd) empty)) as (q' & lq' & E2 & W2 & N2 & M2 & G2 & S2 & St); auto.
    + lia.
    + lia.
    + lia.
    + intros i Hi. apply Hl. rewrite in_app_iff; auto.
    + exists q', lq'. splits; auto; try lia.
      * intros i. rewrite G2, G1, mem_app. unfold mem at 3. simpl. rewrite orb_false_r.
        destruct (mem i l); simpl; auto.
      * intros i. rewrite S2, S1. auto.
      * eapply steps_trans; [|exact St]. eapply steps_change; [constructor|exact Hj|exact He|exact E1].
Qed.

(** ** SplitModuleByComponent *)
Definition only_moved (q q' : partition A) (from to : nat) : Prop :=
  forall i, group q' i = group q i \/ (group q i = Some from /\ group q' i = Some to).

Theorem SplitModuleByComponent_spec empty ds :
  target < pM p -> empty < pM p ->
  match SplitModuleByComponent target empty p adj ds with
  | Err e => e = RngOut
  | Ok (c, p', _) => exists ls' comp,
      WF p' ls' /\ steps p p' /\ pN p' = pN p /\ pM p' = pM p /\
      only_moved p p' target empty /\
      (forall x, In x (ls target) -> 1 <= comp x <= c) /\
      (forall k, 1 <= k <= c -> exists x, In x (ls target) /\ comp x = k) /\
      (forall x y, In x (ls target) -> In y (ls target) -> (comp x = comp y <-> connected adj x y)) /\
      (forall x y, In x (ls target) -> In y (ls target) -> connected adj x y -> group p' x = group p' y) /\
      (c <= 1 -> p' = p) /\
      (2 <= c -> (exists x, In x (ls target) /\ group p' x = Some target) /\
                 (exists x, In x (ls target) /\ group p' x = Some empty))
  end.
Proof.
  intros Ht He. destruct (wf_module _ _ _ W Ht) as (tm & Etm & _ & Sz & Fi & _).
  unfold SplitModuleByComponent. rewrite (get_ok _ _ _ Etm). cbn [bind]. rewrite Sz, Fi.
  set (st0 := mkTrav _ _ _ _).
  assert (T0 : TI [] [] (fun _ => 0) (fun _ => false) 0 (vis st0) (tmove st0) (tfind st0)).
  { constructor; simpl; try tauto; try lia.
    - constructor.
    - intros v. split; [|tauto]. unfold vis, st0. simpl. intros H. destruct (lt_dec v (pN p)).
      + rewrite (nth_error_nth' _ false) in H by (rewrite repeat_length; auto). rewrite nth_repeat in H. congruence.
      + apply nth_lt in H. rewrite repeat_length in H. lia.
    - unfold count. simpl. lia.
    - apply CreateStack_ok. }
  pose proof (split_walk_spec (ls target) [] (length (pnodes p)) [] [] (fun _ => 0) (fun _ => false) 0 st0 ds eq_refl T0) as SW.
  assert (Hlen : length (ls target) <= length (pnodes p)).
  { rewrite (wf_N _ _ W). apply NoDup_bound; [apply (wf_nodup _ _ W)|]. intros x Hx. eapply wf_in_lt; eauto. }
  specialize (SW (repeat_length false (pN p)) (proj1 (CreateStack_ok (pN p))) Hlen).
  assert (Q0 : tfind st0 = 0 \/ (@nil nat = [] /\ content (tstack st0) = [] /\ forall v, In v [] -> vis st0 v)).
  { right. splits; auto. simpl; tauto. }
  specialize (SW Q0 (fun _ => eq_refl)). assert (Q1 : 2 <= 0 -> false = true) by lia. specialize (SW Q1).
  destruct (split_walk target p adj (length (pnodes p)) (hd_error (ls target)) 0 st0 ds) as [[[c st] ds']|e] eqn:ESW; cbn [bind].
  2: { exact SW. }
  destruct SW as (P & stk & comp & sd & T & Z & Hs1 & Hs2).
  pose proof (ti_mvok _ _ _ _ _ _ _ _ T) as Hmv.
  pose proof (ti_mv _ _ _ _ _ _ _ _ T) as Cmv.
  pose proof (ti_nodup _ _ _ _ _ _ _ _ T) as ND. apply NoDup_app_iff in ND as (NDP & NDs & Dis).
  destruct (move_all_spec empty (content (tmove st)) (S (stop (tmove st))) (tmove st) p ls) as
     (q & lq & Em & Wq & Nq & Mq & Gq & Sq & Stq); auto.
  { rewrite (content_length _ _ Hmv). lia. }
  { intros i Hi. rewrite Cmv in Hi. apply filter_In in Hi as [Hi _]. apply (ti_lt _ _ _ _ _ _ _ _ T). rewrite in_app_iff; auto. }
  { rewrite Cmv. apply NoDup_filter. auto. }
  rewrite Em. cbn [bind].
  (* every member of the target module was processed *)
  assert (HinP : forall x, In x (ls target) -> In x P).
  { intros x Hx. pose proof (ti_find _ _ _ _ _ _ _ _ T) as F. rewrite Z in F. simpl in F.
    assert (incl (ls target) (filter (fun v => mem v (ls target)) P)) as I.
    { apply NoDup_length_incl.
      - apply NoDup_filter; auto.
      - unfold count in F. lia.
      - intros v Hv. apply filter_In in Hv as [_ Hv]. apply mem_In; auto. }
    apply I in Hx. apply filter_In in Hx. tauto. }
  assert (HinA : forall x, In x (ls target) -> In x (P ++ stk)) by (intros; rewrite in_app_iff; auto).
  assert (Gt : forall x, In x (ls target) -> group q x = if sd (comp x) then Some empty else Some target).
  { intros x Hx. rewrite Gq. apply (wf_mem _ _ W) in Hx as Hg. rewrite Hg, Cmv.
    destruct (mem_spec x (filter (fun v => mem v (ls target) && sd (comp v)) P)) as [Hm|Hm].
    - apply filter_In in Hm as [_ Hm]. apply andb_prop in Hm as [_ ->]. auto.
    - destruct (sd (comp x)) eqn:Es; auto. exfalso. apply Hm. apply filter_In. split; auto.
      apply mem_In in Hx. rewrite Hx, Es. auto. }
  assert (Hcl : forall x y, In x (P ++ stk) -> comp x < c -> connected adj x y -> In y (P ++ stk) /\ comp y = comp x).
  { intros x y Hx Hcx Hc. induction Hc as [|a b d Hab IH Had]; auto.
    destruct IH as [I1 I2]; auto. destruct (ti_closed _ _ _ _ _ _ _ _ T b d) as [J1 J2]; auto.
    - apply in_app_iff in I1 as [|I1]; auto. apply (ti_stk _ _ _ _ _ _ _ _ T) in I1. lia.
    - split; auto; congruence. }
  assert (Hcomp : forall x y, In x (ls target) -> In y (ls target) -> (comp x = comp y <-> connected adj x y)).
  { intros x y Hx Hy. pose proof (ti_comp _ _ _ _ _ _ _ _ T x (HinA x Hx)) as Bx.
    pose proof (ti_comp _ _ _ _ _ _ _ _ T y (HinA y Hy)) as By. split.
    - intros E. destruct (ti_root _ _ _ _ _ _ _ _ T (comp x) Bx) as (r & R1 & R2 & R3 & R4).
      eapply connected_trans; [apply connected_sym; [exact HS|]|]; apply R4; auto.
    - intros Hc. destruct (lt_dec (comp x) c).
      + destruct (Hcl x y) as [_ Q]; auto.
      + destruct (lt_dec (comp y) c); [|lia]. destruct (Hcl y x) as [_ Q]; auto. apply connected_sym; auto. }
  exists lq, comp. splits; auto.
  - intros i. rewrite Gq, Cmv. destruct (mem_spec i (filter (fun v => mem v (ls target) && sd (comp v)) P)) as [Hm|]; auto.
    right. split; auto. apply filter_In in Hm as [_ Hm]. apply andb_prop in Hm as [Hm _]. apply mem_In in Hm.
    apply (wf_mem _ _ W); auto.
  - intros x Hx. apply (ti_comp _ _ _ _ _ _ _ _ T); auto.
  - intros k Hk. destruct (ti_root _ _ _ _ _ _ _ _ T k Hk) as (r & R1 & R2 & R3 & R4). eauto.
  - intros x y Hx Hy Hc. rewrite !Gt by auto. apply Hcomp in Hc; auto. now rewrite Hc.
  - intros Hc. assert (content (tmove st) = []) as En.
    { rewrite Cmv. destruct (filter _ P) as [|x t] eqn:Ef; auto. exfalso.
      assert (In x (filter (fun v => mem v (ls target) && sd (comp v)) P)) as Hx by (rewrite Ef; simpl; auto).
      apply filter_In in Hx as [Hx Hb]. apply andb_prop in Hb as [_ Hb].
      assert (1 <= comp x <= c) as Q. { apply (ti_comp _ _ _ _ _ _ _ _ T). rewrite in_app_iff; auto. }
      replace (comp x) with 1 in Hb by lia. rewrite Hs1 in Hb by lia. discriminate. }
    cbn [move_all] in Em. rewrite (PopFromStack_nil _ _ Hmv En) in Em. cbn [bind] in Em. congruence.
  - intros Hc. split.
    + destruct (ti_root _ _ _ _ _ _ _ _ T 1) as (r & R1 & R2 & R3 & R4); [lia|].
      exists r. split; auto. rewrite Gt by auto. rewrite R3, Hs1 by lia. auto.
    + destruct (ti_root _ _ _ _ _ _ _ _ T 2) as (r & R1 & R2 & R3 & R4); [lia|].
      exists r. split; auto. rewrite Gt by auto. rewrite R3, Hs2 by lia. auto.
Qed.

End Split.

(** DataProof.v -- stacks and queues of src/datastruct.c behave as LIFO and FIFO sequences. *)
From Coq Require Import List Arith Lia Bool Permutation.
From Verif Require Import Base ListLib DataModel.
Import ListNotations.
Local Open Scope nat_scope.

Section Spec.
Context {X : Type} (null : X).

(** ** Specification: every object is a sequence. *)
Inductive aobj := AStack (l : list X) | AQueue (l : list X) | AFreed.
Definition hd_or (l : list X) : X := match l with [] => null | x :: _ => x end.
Definition is_nil (l : list X) : bool := match l with [] => true | _ => false end.

(** One call of the abstract objects: a stack grows and shrinks at its head; a queue grows at its end and shrinks at its head. *)
Inductive acall : list aobj -> op -> out -> list aobj -> Prop :=
| a_news os : acall os NewStack Unit (os ++ [AStack []])
| a_newq os : acall os NewQueue Unit (os ++ [AQueue []])
| a_push os k d l : nth_error os k = Some (AStack l) -> acall os (SPush k d) Unit (upd os k (AStack (d :: l)))
| a_pop os k l : nth_error os k = Some (AStack l) -> acall os (SPop k) (Ptr (hd_or l)) (upd os k (AStack (tl l)))
| a_top os k l : nth_error os k = Some (AStack l) -> acall os (STop k) (Ptr (hd_or l)) os
| a_sempty os k l : nth_error os k = Some (AStack l) -> acall os (SEmpty k) (Bool (is_nil l)) os
| a_sclear os k l : nth_error os k = Some (AStack l) -> acall os (SClear k) Unit (upd os k (AStack []))
| a_sfree os k l : nth_error os k = Some (AStack l) -> acall os (SFree k) Unit (upd os k AFreed)
| a_enq os k d l : nth_error os k = Some (AQueue l) -> acall os (QEnq k d) Unit (upd os k (AQueue (l ++ [d])))
| a_deq os k l : nth_error os k = Some (AQueue l) -> acall os (QDeq k) (Ptr (hd_or l)) (upd os k (AQueue (tl l)))
| a_first os k l : nth_error os k = Some (AQueue l) -> acall os (QFirst k) (Ptr (hd_or l)) os
| a_qempty os k l : nth_error os k = Some (AQueue l) -> acall os (QEmpty k) (Bool (is_nil l)) os
| a_qclear os k l : nth_error os k = Some (AQueue l) -> acall os (QClear k) Unit (upd os k (AQueue []))
| a_qfree os k l : nth_error os k = Some (AQueue l) -> acall os (QFree k) Unit (upd os k AFreed).

Inductive acalls : list aobj -> list op -> list out -> list aobj -> Prop :=
| as_nil os : acalls os [] [] os
| as_cons os o r os' ops rs os'' : acall os o r os' -> acalls os' ops rs os'' -> acalls os (o :: ops) (r :: rs) os''.

(** The recorded length of an object and the length of its sequence. *)
Definition recorded (o : obj) : option nat := match o with OStack s => Some (slen s) | OQueue q => Some (qlen q) | OFreed => None end.
Definition alen (o : aobj) : option nat := match o with AStack l | AQueue l => Some (length l) | AFreed => None end.
Definition content (o : aobj) : list X := match o with AStack l | AQueue l => l | AFreed => [] end.
(** Cells allocated and not freed. *)
Definition live (h : @heap X) : nat := length (filter (fun c => match c with Some _ => true | None => false end) h).

(** ** Proof *)
Notation heap := (@heap X).
Implicit Types h : heap.

Inductive chain h : option nat -> list nat -> list X -> Prop :=
| ch_nil : chain h None [] []
| ch_cons a c ads l : nth_error h a = Some (Some c) -> chain h (cnext c) ads l -> chain h (Some a) (a :: ads) (cdata c :: l).

Definition rep h (o : obj) (ads : list nat) (x : aobj) : Prop :=
  match o, x with
  | OStack s, AStack l => chain h (stop s) ads l /\ slen s = length l
  | OQueue q, AQueue l => chain h (qfirst q) ads l /\ qlen q = length l /\ (ads <> [] -> qlast q = last_error ads)
  | OFreed, AFreed => ads = []
  | _, _ => False
  end.

Record Inv (st : heap * list obj) (os : list aobj) (ads : list (list nat)) : Prop := {
  iv_len : length (snd st) = length os;
  iv_alen : length ads = length os;
  iv_rep : forall k o a x, nth_error (snd st) k = Some o -> nth_error ads k = Some a -> nth_error os k = Some x -> rep (fst st) o a x;
  iv_nodup : NoDup (concat ads);
  iv_live : forall a, (exists c, nth_error (fst st) a = Some (Some c)) <-> In a (concat ads)
}.

Lemma chain_frame h h' o ads l : (forall a, In a ads -> nth_error h' a = nth_error h a) -> chain h o ads l -> chain h' o ads l.
Proof.
  intros H C. induction C; [constructor|]. econstructor; [rewrite H; simpl; eauto|]. apply IHC. intros; apply H; simpl; auto.
Qed.
Lemma rep_frame h h' o ads x : (forall a, In a ads -> nth_error h' a = nth_error h a) -> rep h o ads x -> rep h' o ads x.
Proof.
  intros H. destruct o, x; simpl; auto.
  - intros [? ?]. split; auto. eapply chain_frame; eauto.
  - intros (? & ? & ?). splits; auto. eapply chain_frame; eauto.
Qed.
Lemma chain_len h o ads l : chain h o ads l -> length ads = length l.
Proof. induction 1; simpl; auto. Qed.
Lemma chain_empty h o ads l : chain h o ads l -> (match o with None => true | Some _ => false end) = is_nil l.
Proof. destruct 1; auto. Qed.

Lemma load_ok h a c : nth_error h a = Some (Some c) -> load h a = Ok c.
Proof. intros H. unfold load. now rewrite (get_ok _ _ _ H). Qed.

Lemma concat_at {B} (ads : list (list B)) k a : nth_error ads k = Some a ->
  exists l1 l2, ads = l1 ++ a :: l2 /\ length l1 = k /\ forall b, upd ads k b = l1 ++ b :: l2.
Proof.
  intros H. apply nth_error_split in H as (l1 & l2 & -> & <-). exists l1, l2. splits; auto. intros b. apply upd_app_mid.
Qed.

(** Replacing one object: the new cells of the object and the rest of the heap. *)
Lemma Inv_upd h objs os ads k o a x h' o' a' x' :
  Inv (h, objs) os ads -> nth_error objs k = Some o -> nth_error ads k = Some a -> nth_error os k = Some x ->
  NoDup a' -> (forall y, In y a' -> In y a \/ nth_error h y = None) ->
  (forall y, ~ In y a -> ~ In y a' -> nth_error h' y = nth_error h y) ->
  (forall y, In y a -> ~ In y a' -> nth_error h' y = Some None) ->
  (forall y, In y a' -> exists c, nth_error h' y = Some (Some c)) ->
  rep h' o' a' x' ->
  Inv (h', upd objs k o') (upd os k x') (upd ads k a').
Proof.
  intros [I1 I2 I3 I4 I5] Eo Ea Ex NDa Hnew Hframe Hfreed Hlive' Hrep. simpl in *.
  destruct (concat_at ads k a Ea) as (l1 & l2 & Eads & El1 & Eupd).
  assert (Hc : forall y, In y (concat ads) <-> In y a \/ In y (concat l1) \/ In y (concat l2)).
  { intros y. rewrite Eads, concat_app. simpl. rewrite !in_app_iff. tauto. }
  assert (Hc' : forall y, In y (concat (upd ads k a')) <-> In y a' \/ In y (concat l1) \/ In y (concat l2)).
  { intros y. rewrite Eupd, concat_app. simpl. rewrite !in_app_iff. tauto. }
  assert (ND : NoDup (concat l1 ++ a ++ concat l2)). { rewrite Eads, concat_app in I4. auto. }
  apply NoDup_app_iff in ND as (N1 & N2 & N3). apply NoDup_app_iff in N2 as (N4 & N5 & N6).
  assert (Dis : forall y, In y (concat l1) \/ In y (concat l2) -> ~ In y a /\ ~ In y a').
  { intros y Hy. assert (~ In y a).
    { destruct Hy as [Hy|Hy]; intros Hya; [apply (N3 y Hy); apply in_app_iff; auto|apply (N6 y Hya); auto]. }
    split; auto. intros Hya'. destruct (Hnew y Hya') as [|Hn]; auto.
    assert (In y (concat ads)) by (apply Hc; tauto). apply I5 in H0 as (c & Ec). congruence. }
  split; simpl; rewrite ?length_upd; auto.
  - intros m om am xm. rewrite !nth_upd.
    assert (Lk : k < length objs /\ k < length ads /\ k < length os) by (splits; eapply nth_lt; eauto).
    destruct Lk as (L1 & L2 & L3). rewrite (proj2 (Nat.ltb_lt _ _) L1), (proj2 (Nat.ltb_lt _ _) L2), (proj2 (Nat.ltb_lt _ _) L3), !andb_true_r.
    destruct (Nat.eqb_spec m k) as [->|Hm].
    + intros [= <-] [= <-] [= <-]. auto.
    + intros E1 E2 E3. eapply rep_frame; [|eapply I3; eauto]. intros y Hy. apply Hframe.
      * apply Dis. rewrite Eads in E2. destruct (Nat.lt_ge_cases m k).
        -- left. rewrite nth_error_app1 in E2 by lia. apply in_concat. exists am. split; auto. eapply nth_error_In; eauto.
        -- right. rewrite nth_error_app2 in E2 by lia. destruct (m - length l1) as [|d] eqn:Ed; [lia|]. simpl in E2.
           apply in_concat. exists am. split; auto. eapply nth_error_In; eauto.
      * apply Dis. rewrite Eads in E2. destruct (Nat.lt_ge_cases m k).
        -- left. rewrite nth_error_app1 in E2 by lia. apply in_concat. exists am. split; auto. eapply nth_error_In; eauto.
        -- right. rewrite nth_error_app2 in E2 by lia. destruct (m - length l1) as [|d] eqn:Ed; [lia|]. simpl in E2.
           apply in_concat. exists am. split; auto. eapply nth_error_In; eauto.
  - rewrite Eupd, concat_app. simpl. apply NoDup_app_iff. splits; auto.
    + apply NoDup_app_iff. splits; auto. intros y Hy Hy2. destruct (Dis y); auto.
    + intros y Hy. rewrite in_app_iff. intros [H|H]; [destruct (Dis y); auto|]. apply (N3 y Hy). apply in_app_iff; auto.
  - intros y. rewrite Hc'. split.
    + intros (c & Ec). destruct (in_dec Nat.eq_dec y a') as [|Hna']; auto. destruct (in_dec Nat.eq_dec y a) as [Ha|Hna].
      * rewrite Hfreed in Ec by auto. discriminate.
      * rewrite Hframe in Ec by auto. assert (In y (concat ads)) as H by (apply I5; eauto). apply Hc in H. tauto.
    + intros [H|H]; auto. destruct (Dis y H). rewrite Hframe by auto. apply I5. apply Hc. tauto.
Qed.

Lemma nth_app_end {B} (l : list B) x i : nth_error (l ++ [x]) i = if i =? length l then Some x else nth_error l i.
Proof.
  destruct (Nat.eqb_spec i (length l)) as [->|Hn].
  - rewrite nth_error_app2, Nat.sub_diag by lia. auto.
  - destruct (Nat.lt_ge_cases i (length l)).
    + now rewrite nth_error_app1.
    + rewrite (proj2 (nth_error_None l i)) by lia. apply nth_error_None. rewrite app_length. simpl. lia.
Qed.

Lemma snoc_cases {B} (l : list B) : l = [] \/ exists l1 x, l = l1 ++ [x].
Proof. induction l using rev_ind; eauto. Qed.
(** Freeing the cells of a chain one by one. *)
Lemma free_ok h a c : nth_error h a = Some (Some c) -> free h a = Ok (upd h a None).
Proof. intros H. unfold free. rewrite (load_ok _ _ _ H). cbn [bind]. apply set_ok. eapply nth_lt; eauto. Qed.

Lemma stack_clear_ok l : forall fuel h s ads, chain h (stop s) ads l -> NoDup ads -> slen s = length l -> length l <= fuel ->
  exists h', stack_clear null fuel h s = Ok (h', mkStack None 0) /\ length h' = length h /\
    (forall y, In y ads -> nth_error h' y = Some None) /\ (forall y, ~ In y ads -> nth_error h' y = nth_error h y).
Proof.
  induction l as [|x l IH]; intros fuel h s ads C ND Hs Hf.
  - inversion C; subst. destruct s as [t n]. simpl in *. subst. exists h. splits; auto; [destruct fuel; auto|]. intros y [].
  - inversion C as [|a c ads' l' Ea C' Et]; subst. destruct fuel as [|fuel]; [simpl in Hf; lia|].
    cbn [stack_clear]. unfold stack_empty, stack_pop. rewrite <- Et. rewrite (load_ok _ _ _ Ea). cbn [bind].
    rewrite (free_ok _ _ _ Ea). cbn [bind]. rewrite Hs. cbn [dec length bind].
    inversion ND as [|? ? Hn ND']; subst.
    destruct (IH fuel (upd h a None) (mkStack (cnext c) (length l)) ads') as (h' & E & L & F1 & F2); auto.
    + eapply chain_frame; [|exact C']. intros y Hy. apply nth_upd_neq. intros ->; auto.
    + simpl in Hf. lia.
    + exists h'. rewrite E. rewrite length_upd in L. splits; auto.
      * intros y [<-|Hy]; auto. rewrite F2 by auto. apply nth_upd_eq. eapply nth_lt; eauto.
      * intros y Hy. simpl in Hy. rewrite F2 by tauto. apply nth_upd_neq. intros ->; tauto.
Qed.
Lemma queue_clear_ok l : forall fuel h q ads, chain h (qfirst q) ads l -> NoDup ads -> qlen q = length l -> length l <= fuel ->
  exists h', queue_clear null fuel h q = Ok (h', mkQueue None (qlast q) 0) /\ length h' = length h /\
    (forall y, In y ads -> nth_error h' y = Some None) /\ (forall y, ~ In y ads -> nth_error h' y = nth_error h y).
Proof.
  induction l as [|x l IH]; intros fuel h s ads C ND Hs Hf.
  - inversion C; subst. destruct s as [t n k]. simpl in *. subst. exists h. splits; auto; [destruct fuel; auto|]. intros y [].
  - inversion C as [|a c ads' l' Ea C' Et]; subst. destruct fuel as [|fuel]; [simpl in Hf; lia|].
    cbn [queue_clear]. unfold queue_empty, queue_dequeue. rewrite <- Et. rewrite (load_ok _ _ _ Ea). cbn [bind].
    rewrite (free_ok _ _ _ Ea). cbn [bind]. rewrite Hs. cbn [dec length bind].
    inversion ND as [|? ? Hn ND']; subst.
    destruct (IH fuel (upd h a None) (mkQueue (cnext c) (qlast s) (length l)) ads') as (h' & E & L & F1 & F2); auto.
    + eapply chain_frame; [|exact C']. intros y Hy. apply nth_upd_neq. intros ->; auto.
    + simpl in Hf. lia.
    + exists h'. rewrite E. rewrite length_upd in L. splits; auto.
      * intros y [<-|Hy]; auto. rewrite F2 by auto. apply nth_upd_eq. eapply nth_lt; eauto.
      * intros y Hy. simpl in Hy. rewrite F2 by tauto. apply nth_upd_neq. intros ->; tauto.
Qed.

Lemma chain_lt h o ads l a : chain h o ads l -> In a ads -> exists c, nth_error h a = Some (Some c).
Proof. induction 1; simpl; [tauto|]. intros [<-|H']; eauto. Qed.

(** Appending a cell behind the last one. *)
Lemma chain_snoc h o ads l b c d a : chain h o (ads ++ [b]) l -> NoDup (ads ++ [b]) -> nth_error h b = Some (Some c) ->
  a = length h ->
  chain (upd (h ++ [Some (mkCell d None)]) b (Some (mkCell (cdata c) (Some a)))) o ((ads ++ [b]) ++ [a]) (l ++ [d]).
Proof.
  intros C ND Ec Ea. subst a. revert o l C. assert (Hb : b < length h) by (eapply nth_lt; eauto).
  assert (Hb' : b < length (h ++ [Some (mkCell d None)])) by (rewrite app_length; lia).
  induction ads as [|x ads IH]; intros o l C.
  - simpl in *. inversion C as [|? c0 ? l' E C']; subst. rewrite Ec in E. injection E as ->. 
    assert (l' = []) as -> by (inversion C'; auto).
    change ([cdata c0] ++ [d]) with (cdata (mkCell (cdata c0) (Some (length h))) :: [d]).
    econstructor; [apply nth_upd_eq; auto|]. cbn [cnext].
    change [d] with [cdata (mkCell d None)]. econstructor; [|constructor].
    rewrite nth_upd_neq by lia. rewrite nth_app_end, Nat.eqb_refl. auto.
  - simpl in *. inversion C as [|? c0 ? l' E C']; subst. inversion ND as [|? ? Hn ND']; subst.
    rewrite <- app_comm_cons. econstructor; [|apply IH; auto].
    rewrite nth_upd_neq by (intros ->; apply Hn; apply in_app_iff; simpl; auto).
    rewrite nth_app_end. assert (x < length h) by (eapply nth_lt; eauto). rewrite (proj2 (Nat.eqb_neq _ _)) by lia. auto.
Qed.

(** One call. *)
Lemma call_ok st os ads o r os' : Inv st os ads -> acall os o r os' ->
  exists st' ads', call null st o = Ok (r, st') /\ Inv st' os' ads'.
Proof.
  intros I AC. destruct st as [h objs]. pose proof I as [I1 I2 I3 I4 I5]. simpl in *.
  assert (Obj : forall k x, nth_error os k = Some x -> exists o a, nth_error objs k = Some o /\ nth_error ads k = Some a /\ rep h o a x /\ NoDup a).
  { intros k x Ex. pose proof (nth_lt _ _ _ Ex) as L. destruct (nth_ex objs k) as [ob Eo]; [lia|].
    destruct (nth_ex ads k) as [a Ea]; [lia|]. exists ob, a. splits; auto. eapply I3; eauto.
    destruct (concat_at ads k a Ea) as (l1 & l2 & Eads & _). rewrite Eads, concat_app in I4. simpl in I4.
    apply NoDup_app_iff in I4 as (_ & H & _). apply NoDup_app_iff in H. tauto. }
  assert (Stk : forall k l, nth_error os k = Some (AStack l) -> exists s a, nth_error objs k = Some (OStack s) /\ the_stack objs k = Ok s /\
      nth_error ads k = Some a /\ chain h (stop s) a l /\ slen s = length l /\ NoDup a).
  { intros k l E. destruct (Obj k _ E) as (ob & a & Eo & Ea & R & ND). destruct ob; simpl in R; try contradiction.
    destruct R. exists s, a. splits; auto. unfold the_stack. now rewrite (get_ok _ _ _ Eo). }
  assert (Que : forall k l, nth_error os k = Some (AQueue l) -> exists s a, nth_error objs k = Some (OQueue s) /\ the_queue objs k = Ok s /\
      nth_error ads k = Some a /\ chain h (qfirst s) a l /\ qlen s = length l /\ (a <> [] -> qlast s = last_error a) /\ NoDup a).
  { intros k l E. destruct (Obj k _ E) as (ob & a & Eo & Ea & R & ND). destruct ob; simpl in R; try contradiction.
    destruct R as (? & ? & ?). exists q, a. splits; auto. unfold the_queue. now rewrite (get_ok _ _ _ Eo). }
  assert (Len : forall k a o0 l, nth_error ads k = Some a -> chain h o0 a l -> length l <= length h).
  { intros k a o0 l Ea C. rewrite <- (chain_len _ _ _ _ C). apply NoDup_bound.
    - destruct (concat_at ads k a Ea) as (l1 & l2 & Eads & _). rewrite Eads, concat_app in I4. simpl in I4.
      apply NoDup_app_iff in I4 as (_ & H & _). apply NoDup_app_iff in H. tauto.
    - intros y Hy. destruct (chain_lt _ _ _ _ _ C Hy) as [c Hc]. eapply nth_lt; eauto. }
  assert (Lt : forall k (ob : obj), nth_error objs k = Some ob -> k < length objs) by (intros; eapply nth_lt; eauto).
  destruct AC as [os|os|os k d l E|os k l E|os k l E|os k l E|os k l E|os k l E|os k d l E|os k l E|os k l E|os k l E|os k l E|os k l E]; cbn [call].
  - eexists _, (ads ++ [[]]). split; [reflexivity|]. split; simpl; rewrite ?app_length; auto.
    + intros k o0 a x. rewrite !nth_app_end, I1, I2. destruct (k =? length os); [|eauto].
      intros [= <-] [= <-] [= <-]. simpl. split; auto. constructor.
    + rewrite concat_app. simpl. rewrite app_nil_r. auto.
    + intros a. rewrite concat_app. simpl. rewrite app_nil_r. auto.
  - eexists _, (ads ++ [[]]). split; [reflexivity|]. split; simpl; rewrite ?app_length; auto.
    + intros k o0 a x. rewrite !nth_app_end, I1, I2. destruct (k =? length os); [|eauto].
      intros [= <-] [= <-] [= <-]. simpl. splits; auto; try constructor; congruence.
    + rewrite concat_app. simpl. rewrite app_nil_r. auto.
    + intros a. rewrite concat_app. simpl. rewrite app_nil_r. auto.
  - destruct (Stk k l E) as (s & a & Eo & -> & Ea & C & Hs & ND). cbn [bind stack_push alloc]. rewrite set_ok by eauto. cbn [bind].
    assert (Hfr : ~ In (length h) a). { intros Hi. destruct (chain_lt _ _ _ _ _ C Hi) as [c Hc]. apply nth_lt in Hc. lia. }
    eexists _, (upd ads k (length h :: a)). split; [reflexivity|].
    eapply Inv_upd with (a := a); eauto.
    + constructor; auto.
    + intros y [<-|Hy]; auto. right. apply nth_error_None. auto.
    + intros y Hy Hy'. simpl in Hy'. rewrite nth_app_end. rewrite (proj2 (Nat.eqb_neq _ _)) by (intros ->; tauto). auto.
    + intros y Hy Hy'. exfalso. apply Hy'. simpl; auto.
    + intros y [<-|Hy].
      * rewrite nth_app_end, Nat.eqb_refl. eauto.
      * destruct (chain_lt _ _ _ _ _ C Hy) as [c Hc]. exists c. rewrite nth_app_end.
        rewrite (proj2 (Nat.eqb_neq _ _)) by (intros ->; apply nth_lt in Hc; lia). auto.
    + simpl. split; [|lia]. change (d :: l) with (cdata (mkCell d (stop s)) :: l). econstructor.
      * rewrite nth_app_end, Nat.eqb_refl. auto.
      * cbn [cnext]. eapply chain_frame; [|exact C]. intros y Hy. rewrite nth_app_end.
        rewrite (proj2 (Nat.eqb_neq _ _)) by (intros ->; tauto). auto.
  - destruct (Stk k l E) as (s & a & Eo & -> & Ea & C & Hs & ND). cbn [bind]. unfold stack_pop.
    inversion C as [Et E1 E2|a0 c ads' l' Ec C' Et E1 E2]; subst.
    + cbn [bind]. rewrite set_ok by eauto. cbn [bind]. eexists _, ads. split; [reflexivity|].
      rewrite (upd_same objs k) by auto. simpl tl. rewrite (upd_same os k) by auto. auto.
    + rewrite (load_ok _ _ _ Ec). cbn [bind]. rewrite (free_ok _ _ _ Ec). cbn [bind]. rewrite Hs. cbn [length dec bind].
      rewrite set_ok by eauto. cbn [bind hd_or tl]. eexists _, (upd ads k ads'). split; [reflexivity|].
      inversion ND as [|? ? Hn ND']; subst. assert (La : a0 < length h) by (eapply nth_lt; eauto).
      eapply Inv_upd with (a := a0 :: ads'); eauto.
      * intros y Hy. simpl; auto.
      * intros y Hy _. apply nth_upd_neq. intros ->. apply Hy; simpl; auto.
      * intros y [<-|Hy] Hy'; [|tauto]. apply nth_upd_eq; auto.
      * intros y Hy. rewrite nth_upd_neq by (intros ->; tauto). eapply chain_lt; eauto.
      * simpl. split; auto. eapply chain_frame; [|exact C']. intros y Hy. apply nth_upd_neq. intros ->; tauto.
  - destruct (Stk k l E) as (s & a & Eo & -> & Ea & C & Hs & ND). cbn [bind]. unfold stack_top.
    exists (h, objs), ads. split; auto. inversion C as [Et E1 E2|a0 c ads' l' Ec C' Et E1 E2]; subst; auto.
    rewrite (load_ok _ _ _ Ec). reflexivity.
  - destruct (Stk k l E) as (s & a & Eo & -> & Ea & C & Hs & ND). cbn [bind]. unfold stack_empty.
    exists (h, objs), ads. split; auto. rewrite (chain_empty _ _ _ _ C). auto.
  - destruct (Stk k l E) as (s & a & Eo & -> & Ea & C & Hs & ND). cbn [bind].
    destruct (stack_clear_ok l (length h) h s a C ND Hs) as (h' & -> & L & F1 & F2); [eauto|]. cbn [bind].
    rewrite set_ok by eauto. cbn [bind]. eexists _, (upd ads k []). split; [reflexivity|].
    eapply Inv_upd with (a := a); eauto.
    + constructor.
    + simpl; tauto.
    + simpl; tauto.
    + simpl. split; auto. constructor.
  - destruct (Stk k l E) as (s & a & Eo & -> & Ea & C & Hs & ND). cbn [bind].
    destruct (stack_clear_ok l (length h) h s a C ND Hs) as (h' & -> & L & F1 & F2); [eauto|]. cbn [bind].
    rewrite set_ok by eauto. cbn [bind]. eexists _, (upd ads k []). split; [reflexivity|].
    eapply Inv_upd with (a := a); eauto.
    + constructor.
    + simpl; tauto.
    + simpl; tauto.
    + simpl. auto.
  - destruct (Que k l E) as (s & a & Eo & -> & Ea & C & Hs & Hl & ND). cbn [bind]. unfold queue_enqueue, alloc.
    assert (Hfr : ~ In (length h) a). { intros Hi. destruct (chain_lt _ _ _ _ _ C Hi) as [c Hc]. apply nth_lt in Hc. lia. }
    unfold queue_empty. destruct (snoc_cases a) as [->|(a1 & b & ->)].
    + inversion C as [Et E1 E2|]; subst. cbn [bind]. rewrite set_ok by eauto. cbn [bind].
      eexists _, (upd ads k [length h]). split; [reflexivity|].
      eapply Inv_upd with (a := []); eauto.
      * constructor; auto.
      * intros y [<-|[]]. right. apply nth_error_None. auto.
      * intros y _ Hy'. rewrite nth_app_end. rewrite (proj2 (Nat.eqb_neq _ _)); auto. intros ->; apply Hy'; simpl; auto.
      * intros y [].
      * intros y [<-|[]]. rewrite nth_app_end, Nat.eqb_refl. eauto.
      * simpl. splits; auto; [|simpl in Hs; lia]. change [d] with [cdata (mkCell d None)]. econstructor.
        rewrite nth_app_end, Nat.eqb_refl. reflexivity. constructor.
    + assert (Hb : In b (a1 ++ [b])) by (apply in_app_iff; simpl; auto).
      destruct (chain_lt _ _ _ _ _ C Hb) as [c Ec]. assert (Lb : b < length h) by (eapply nth_lt; eauto).
      destruct (qfirst s) as [f0|] eqn:Ef; [|inversion C; destruct a1; discriminate].
      rewrite (Hl ltac:(destruct a1; discriminate)), last_error_snoc. cbn [deref bind].
      assert (Ec' : nth_error (h ++ [Some (mkCell d None)]) b = Some (Some c)).
      { rewrite nth_app_end. rewrite (proj2 (Nat.eqb_neq _ _)) by lia. auto. }
      unfold store. rewrite !(load_ok _ _ _ Ec'). cbn [bind]. rewrite set_ok by (eapply nth_lt; eauto). cbn [bind].
      rewrite set_ok by eauto. cbn [bind]. eexists _, (upd ads k ((a1 ++ [b]) ++ [length h])). split; [reflexivity|].
      eapply Inv_upd with (a := a1 ++ [b]); eauto.
      * apply NoDup_app_iff. splits; auto. constructor; auto. constructor. intros y Hy [<-|[]]. auto.
      * intros y. rewrite in_app_iff. intros [Hy|[<-|[]]]; auto. right. apply nth_error_None; auto.
      * intros y Hy Hy'. rewrite nth_upd_neq by (intros ->; auto). rewrite nth_app_end.
        rewrite (proj2 (Nat.eqb_neq _ _)); auto. intros ->; apply Hy'. apply in_app_iff; simpl; auto.
      * intros y Hy Hy'. exfalso. apply Hy'. apply in_app_iff; auto.
      * intros y Hy. destruct (Nat.eq_dec y b) as [->|Hyb].
        -- eexists. apply nth_upd_eq. eapply nth_lt; eauto.
        -- rewrite nth_upd_neq by auto. apply in_app_iff in Hy as [Hy|[<-|[]]].
           ++ destruct (chain_lt _ _ _ _ _ C Hy) as [cy Hc]. exists cy. rewrite nth_app_end.
              rewrite (proj2 (Nat.eqb_neq _ _)) by (intros ->; apply nth_lt in Hc; lia). auto.
           ++ rewrite nth_app_end, Nat.eqb_refl. eauto.
      * simpl. splits.
        -- apply chain_snoc; auto.
        -- rewrite app_length. simpl. lia.
        -- intros _. now rewrite last_error_snoc.
  - destruct (Que k l E) as (s & a & Eo & -> & Ea & C & Hs & Hl & ND). cbn [bind]. unfold queue_dequeue.
    inversion C as [Et E1 E2|a0 c ads' l' Ec C' Et E1 E2]; subst.
    + cbn [bind]. rewrite set_ok by eauto. cbn [bind]. eexists _, ads. split; [reflexivity|].
      rewrite (upd_same objs k) by auto. simpl tl. rewrite (upd_same os k) by auto. auto.
    + rewrite (load_ok _ _ _ Ec). cbn [bind]. rewrite (free_ok _ _ _ Ec). cbn [bind]. rewrite Hs. cbn [length dec bind].
      rewrite set_ok by eauto. cbn [bind hd_or tl]. eexists _, (upd ads k ads'). split; [reflexivity|].
      inversion ND as [|? ? Hn ND']; subst. assert (La : a0 < length h) by (eapply nth_lt; eauto).
      eapply Inv_upd with (a := a0 :: ads'); eauto.
      * intros y Hy. simpl; auto.
      * intros y Hy _. apply nth_upd_neq. intros ->. apply Hy; simpl; auto.
      * intros y [<-|Hy] Hy'; [|tauto]. apply nth_upd_eq; auto.
      * intros y Hy. rewrite nth_upd_neq by (intros ->; tauto). eapply chain_lt; eauto.
      * simpl. splits; auto.
        -- eapply chain_frame; [|exact C']. intros y Hy. apply nth_upd_neq. intros ->; tauto.
        -- intros Hne. rewrite Hl by discriminate. now rewrite last_error_cons.
  - destruct (Que k l E) as (s & a & Eo & -> & Ea & C & Hs & Hl & ND). cbn [bind]. unfold queue_first.
    exists (h, objs), ads. split; auto. inversion C as [Et E1 E2|a0 c ads' l' Ec C' Et E1 E2]; subst; auto.
    rewrite (load_ok _ _ _ Ec). reflexivity.
  - destruct (Que k l E) as (s & a & Eo & -> & Ea & C & Hs & Hl & ND). cbn [bind]. unfold queue_empty.
    exists (h, objs), ads. split; auto. rewrite (chain_empty _ _ _ _ C). auto.
  - destruct (Que k l E) as (s & a & Eo & -> & Ea & C & Hs & Hl & ND). cbn [bind].
    destruct (queue_clear_ok l (length h) h s a C ND Hs) as (h' & -> & L & F1 & F2); [eauto|]. cbn [bind].
    rewrite set_ok by eauto. cbn [bind]. eexists _, (upd ads k []). split; [reflexivity|].
    eapply Inv_upd with (a := a); eauto.
    + constructor.
    + simpl; tauto.
    + simpl; tauto.
    + simpl. splits; auto; try constructor; congruence.
  - destruct (Que k l E) as (s & a & Eo & -> & Ea & C & Hs & Hl & ND). cbn [bind].
    destruct (queue_clear_ok l (length h) h s a C ND Hs) as (h' & -> & L & F1 & F2); [eauto|]. cbn [bind].
    rewrite set_ok by eauto. cbn [bind]. eexists _, (upd ads k []). split; [reflexivity|].
    eapply Inv_upd with (a := a); eauto.
    + constructor.
    + simpl; tauto.
    + simpl; tauto.
    + simpl. auto.
Qed.

Lemma Inv_init : Inv ([], []) [] [].
Proof.
  split; simpl; auto; try constructor.
  - intros [|k] o a x; discriminate.
  - intros [c H]. destruct a; discriminate.
  - tauto.
Qed.

Lemma chain_content h o a x : rep h o a x -> length a = length (content x) /\ recorded o = alen x.
Proof.
  destruct o, x; simpl; try contradiction.
  - intros [C H]. apply chain_len in C. split; congruence.
  - intros (C & H & _). apply chain_len in C. split; congruence.
  - intros ->. auto.
Qed.

Lemma live_positions h l : NoDup l -> (forall a, (exists c, nth_error h a = Some (Some c)) <-> In a l) -> live h = length l.
Proof.
  intros ND H. unfold live.
  assert (G : forall h0 n, exists l0, NoDup l0 /\ (forall a, In a l0 <-> exists c b, a = n + b /\ nth_error h0 b = Some (Some (c : @cell X))) /\
      length (filter (fun c : option cell => match c with Some _ => true | None => false end) h0) = length l0).
  { induction h0 as [|[c|] h0 IH]; intros n.
    - exists []. splits; auto; [constructor|]. intros a. split; [intros []|]. intros (c & b & _ & E). destruct b; discriminate.
    - destruct (IH (n + 1)) as (l0 & N0 & H0 & L0). exists (n :: l0). splits.
      + constructor; auto. intros Hi. apply H0 in Hi as (_ & b & E & _). lia.
      + intros a. simpl. rewrite H0. split.
        * intros [<-|(c' & b & -> & E)]. exists c, 0. split; auto. exists c', (S b). split; auto. lia.
        * intros (c' & [|b] & -> & E); [left; lia|right]. exists c', b. split; auto. lia.
      + simpl. auto.
    - destruct (IH (n + 1)) as (l0 & N0 & H0 & L0). exists l0. splits; auto.
      intros a. rewrite H0. split.
      * intros (c' & b & -> & E). exists c', (S b). split; auto. lia.
      * intros (c' & [|b] & -> & E); [discriminate|]. exists c', b. split; auto. lia. }
  destruct (G h 0) as (l0 & N0 & H0 & ->). apply Permutation_length. apply NoDup_Permutation; auto.
  intros a. rewrite H0, <- H. simpl. split.
  - intros (c & b & -> & E). eauto.
  - intros (c & E). exists c, a. auto.
Qed.

(** ** C24 *)
Theorem datastruct_refines ops rs os : acalls [] ops rs os ->
  exists h objs, calls null ([], []) ops = Ok (rs, (h, objs)) /\ length objs = length os /\
    (forall k o x, nth_error objs k = Some o -> nth_error os k = Some x -> recorded o = alen x) /\
    live h = length (concat (map content os)).
Proof.
  intros AC.
  assert (G : forall st os0 ads, Inv st os0 ads -> forall ops rs os, acalls os0 ops rs os ->
     exists st' ads', calls null st ops = Ok (rs, st') /\ Inv st' os ads').
  { intros st os0 ads I ops0 rs0 os1 A. revert st ads I. induction A as [|os0 o r os' ops0 rs0 os'' H A IH]; intros st ads I.
    - exists st, ads. auto.
    - destruct (call_ok _ _ _ _ _ _ I H) as (st1 & ads1 & E1 & I1). destruct (IH _ _ I1) as (st2 & ads2 & E2 & I2).
      exists st2, ads2. split; auto. cbn [calls]. rewrite E1. cbn [bind]. rewrite E2. reflexivity. }
  destruct (G _ _ _ Inv_init _ _ _ AC) as ([h objs] & ads & E & I). exists h, objs. pose proof I as [I1 I2 I3 I4 I5]. simpl in *.
  splits; auto.
  - intros k o x Eo Ex. destruct (nth_ex ads k) as [a Ea]. { apply nth_lt in Ex. lia. }
    eapply chain_content. eapply I3; eauto.
  - rewrite (live_positions h (concat ads)); auto. clear - I1 I2 I3.
    assert (F : forall objs ads os, length objs = length os -> length ads = length os ->
      (forall k o a x, nth_error objs k = Some o -> nth_error ads k = Some a -> nth_error os k = Some x -> rep h o a x) ->
      length (concat ads) = length (concat (map content os))).
    { induction objs0 as [|o objs0 IH]; intros [|a ads0] [|x os0] L1 L2 R; simpl in *; try discriminate; auto.
      rewrite !app_length. f_equal.
      - destruct (chain_content h o a x); auto. apply (R 0); auto.
      - apply IH; try lia. intros k. apply (R (S k)). }
    eapply F; eauto.
Qed.

(** Every call on existing objects of the right kind is covered by the specification. *)
Theorem acall_total os o : (forall k, In k (match o with
    | SPush k _ | SPop k | STop k | SEmpty k | SClear k | SFree k => [k] | _ => [] end) -> exists l, nth_error os k = Some (AStack l)) ->
  (forall k, In k (match o with
    | QEnq k _ | QDeq k | QFirst k | QEmpty k | QClear k | QFree k => [k] | _ => [] end) -> exists l, nth_error os k = Some (AQueue l)) ->
  exists r os', acall os o r os'.
Proof.
  intros HS HQ. destruct o as [| |k d|k|k|k|k|k|k d|k|k|k|k|k]; simpl in HS, HQ;
    try (destruct (HS k ltac:(auto)) as [l E]); try (destruct (HQ k ltac:(auto)) as [l E]); eexists _, _; econstructor; eauto.
Qed.
End Spec.

(** RunLib.v -- loops that compare an element with its successor: the runs of equal keys of a list. *)
From Coq Require Import List Arith Lia Bool Sorting.Sorted Sorting.Permutation.
From Verif Require Import Base ListLib.
Import ListNotations.
Local Open Scope nat_scope.

Definition keqb (a b : nat * nat) : bool := (fst a =? fst b) && (snd a =? snd b).
Lemma keqb_spec a b : reflect (a = b) (keqb a b).
Proof.
  destruct a as [a a'], b as [b b']. unfold keqb; simpl.
  destruct (Nat.eqb_spec a b), (Nat.eqb_spec a' b'); simpl; constructor; congruence.
Qed.
Lemma keqb_eq a b : keqb a b = true <-> a = b.
Proof. destruct (keqb_spec a b); split; congruence. Qed.

(** Lexicographic order. *)
Definition lek (a b : nat * nat) : Prop := fst a < fst b \/ (fst a = fst b /\ snd a <= snd b).
Lemma lek_trans a b c : lek a b -> lek b c -> lek a c.
Proof. unfold lek. lia. Qed.
Lemma lek_anti a b : lek a b -> lek b a -> a = b.
Proof. destruct a, b. unfold lek; simpl. intros. f_equal; lia. Qed.

Definition isempty {X} (l : list X) : bool := match l with [] => true | _ => false end.

Section Runs.
Context {X : Type} (key : X -> nat * nat).

Fixpoint runs (l : list X) : list (list X) :=
  match l with
  | [] => []
  | e :: l =>
      match runs l with
      | (f :: r) :: rs => if keqb (key e) (key f) then (e :: f :: r) :: rs else [e] :: (f :: r) :: rs
      | rs => [e] :: rs
      end
  end.

Lemma runs_concat l : concat (runs l) = l.
Proof.
  induction l as [|e l IH]; simpl; auto. destruct (runs l) as [|[|f r] rs]; simpl in *; try congruence.
  destruct (keqb (key e) (key f)); simpl; congruence.
Qed.
Lemma runs_nonempty l r : In r (runs l) -> r <> [].
Proof.
  revert r. induction l as [|e l IH]; intros r; simpl; [tauto|].
  destruct (runs l) as [|[|f q] rs] eqn:E; simpl.
  - intros [<-|[]]. discriminate.
  - exfalso. apply (IH []); auto. left; auto.
  - destruct (keqb (key e) (key f)); simpl; intros [<-|H]; try discriminate; apply IH; simpl; auto.
Qed.
Lemma runs_head e l : exists r rs, runs (e :: l) = (e :: r) :: rs.
Proof.
  simpl. destruct (runs l) as [|[|f q] rs]; simpl; eauto. destruct (keqb (key e) (key f)); eauto.
Qed.
Lemma runs_key l r e f : In r (runs l) -> In e r -> In f r -> key e = key f.
Proof.
  revert r e f. induction l as [|x l IH]; intros r e f; simpl; [tauto|].
  destruct (runs l) as [|[|g q] rs] eqn:E; simpl.
  - intros [<-|[]] [<-|[]] [<-|[]]. auto.
  - intros [<-|H]; [|apply IH; simpl; auto]. intros [<-|[]] [<-|[]]. auto.
  - destruct (keqb_spec (key x) (key g)) as [K|K]; simpl.
    + intros [<-|H]; [|apply IH; simpl; auto].
      assert (G : forall y, In y (g :: q) -> key x = key y).
      { intros y Hy. rewrite K. apply (IH (g :: q)); simpl; auto. }
      intros [<-|He] [<-|Hf]; auto. { symmetry; auto. } rewrite <- (G e He); auto.
    + intros [<-|H]; [|apply IH; simpl; auto]. intros [<-|[]] [<-|[]]. auto.
Qed.

Definition ksorted (l : list X) : Prop := StronglySorted (fun a b => lek (key a) (key b)) l.

Lemma runs_apart l : ksorted l ->
  ForallOrdPairs (fun r r' => forall e f, In e r -> In f r' -> key e <> key f) (runs l).
Proof.
  induction l as [|x l IH]; intros S; simpl; [constructor|].
  inversion S as [|? ? S' F]; subst. specialize (IH S'). rewrite Forall_forall in F.
  pose proof (runs_concat l) as C.
  destruct (runs l) as [|[|g q] rs] eqn:E.
  - repeat constructor.
  - exfalso. apply (runs_nonempty l []); auto. rewrite E. left; auto.
  - simpl in C. destruct (keqb_spec (key x) (key g)) as [K|K].
    + inversion IH as [|? ? F' IH']; subst. constructor; auto.
      rewrite Forall_forall in *. intros r Hr e f [<-|He] Hf; [|eapply F'; eauto].
      rewrite K. eapply F'; eauto. left; auto.
    + constructor; auto. rewrite Forall_forall. intros r Hr e f [<-|[]] Hf.
      assert (Fg : lek (key g) (key f)).
      { assert (Hl : In f l). { rewrite <- C. destruct Hr as [<-|Hr].
          - destruct Hf as [<-|Hf]; [left; auto|]. right. apply in_or_app; auto.
          - right. apply in_or_app. right. apply in_concat. eauto. }
        rewrite <- C in S', Hl. inversion S' as [|? ? _ Fg]; subst. rewrite Forall_forall in Fg.
        destruct Hl as [<-|Hl]; auto. right; auto. }
      assert (Fx : lek (key x) (key g)). { apply F. rewrite <- C. left; auto. }
      intros H. rewrite H in *. apply K. apply lek_anti; auto.
Qed.

(** Elements of a sorted list with equal keys are in the same run. *)
Lemma runs_same l e f : ksorted l -> In e l -> In f l -> key e = key f ->
  exists r, In r (runs l) /\ In e r /\ In f r.
Proof.
  intros S He Hf K. rewrite <- (runs_concat l) in He, Hf.
  apply in_concat in He as (r & Hr & He). apply in_concat in Hf as (r' & Hr' & Hf).
  destruct (ForallOrdPairs_In (runs_apart l S) _ _ Hr Hr') as [->|[R|R]]; eauto.
  - destruct (R e f He Hf K).
  - destruct (R f e Hf He). auto.
Qed.
Lemma FOP_mid {Y} (R : Y -> Y -> Prop) a x b : ForallOrdPairs R (a ++ x :: b) ->
  (forall y, In y a -> R y x) /\ (forall y, In y b -> R x y).
Proof.
  induction a as [|c a IH]; cbn [app]; intros H; inversion H as [|? ? F H']; subst; rewrite Forall_forall in F.
  - split; auto. intros y [].
  - destruct (IH H') as [I1 I2]. split; auto. intros y [<-|Hy]; auto. apply F. apply in_or_app; cbn; auto.
Qed.
(** A run is made of all elements with its key. *)
Lemma runs_filter l r e : ksorted l -> In r (runs l) -> In e r -> r = filter (fun f => keqb (key f) (key e)) l.
Proof.
  intros S Hr He. pose proof (runs_apart l S) as AP.
  assert (K : forall f, In f r -> key f = key e) by (intros f Hf; eapply runs_key; eauto).
  apply in_split in Hr as (a & b & E). rewrite E in AP. apply FOP_mid in AP as [A1 A2].
  rewrite <- (runs_concat l), E, concat_app. cbn [concat]. rewrite !filter_app.
  assert (NO : forall rs, (forall r' f, In r' rs -> In f r' -> key f <> key e) -> filter (fun f => keqb (key f) (key e)) (concat rs) = []).
  { intros rs H. induction rs as [|r' rs IH]; auto. cbn [concat]. rewrite filter_app, IH by (intros; eapply H; eauto; right; auto).
    rewrite app_nil_r. assert (G : forall f, In f r' -> key f <> key e) by (intros; eapply H; eauto; left; auto).
    clear - G. induction r' as [|f r' IH]; auto. cbn [filter]. destruct (keqb_spec (key f) (key e)); [destruct (G f); cbn; auto|].
    apply IH. intros; apply G; cbn; auto. }
  rewrite NO by (intros r' f H1 H2; apply (A1 r' H1 f e H2 He)).
  rewrite NO by (intros r' f H1 H2 XX; apply (A2 r' H1 e f He H2); auto).
  rewrite app_nil_r. cbn [app]. clear - K. induction r as [|f r IH]; auto. cbn [filter].
  destruct (keqb_spec (key f) (key e)) as [_|XX]; [|destruct XX; apply K; cbn; auto]. f_equal. apply IH. intros; apply K; cbn; auto.
Qed.
Lemma runs_in l r e : In r (runs l) -> In e r -> In e l.
Proof. intros H He. rewrite <- (runs_concat l). apply in_concat. eauto. Qed.

(** ** Loops with a look at the next element *)
Context {S : Type}.
Variables opn cls : S -> nat -> X -> res S.

Fixpoint look (z : X) (i : nat) (l : list X) (s : S) : res S :=
  match l with
  | [] => Ok s
  | e :: r => do s' <- (if negb (keqb (key e) (key (hd z r))) || isempty r then cls s i e else opn s i e);
              look z (i + 1) r s'
  end.
Fixpoint do_run (i : nat) (r : list X) (s : S) : res S :=
  match r with
  | [] => Ok s
  | e :: r' => if isempty r' then cls s i e else do s' <- opn s i e; do_run (i + 1) r' s'
  end.
Fixpoint runs_do (i : nat) (rs : list (list X)) (s : S) : res S :=
  match rs with
  | [] => Ok s
  | r :: rs => do s' <- do_run i r s; runs_do (i + length r) rs s'
  end.

Lemma bind_assoc {B C D} (m : res B) (f : B -> res C) (g : C -> res D) :
  bind (bind m f) g = bind m (fun x => bind (f x) g).
Proof. destruct m; auto. Qed.
Lemma bind_ret {B} (m : res B) : bind m (fun x => Ok x) = m.
Proof. destruct m; auto. Qed.

Lemma look_runs z i l s : look z i l s = runs_do i (runs l) s.
Proof.
  revert i s. induction l as [|e l IH]; intros i s; auto. cbn [look].
  destruct l as [|g l].
  - cbn [hd isempty runs runs_do do_run]. rewrite orb_true_r. cbn [look]. auto.
  - destruct (runs_head g l) as (q & rs & E).
    assert (E2 : runs (e :: g :: l) = if keqb (key e) (key g) then (e :: g :: q) :: rs else [e] :: (g :: q) :: rs).
    { change (runs (e :: g :: l)) with (match runs (g :: l) with
      | (f :: r) :: rs => if keqb (key e) (key f) then (e :: f :: r) :: rs else [e] :: (f :: r) :: rs
      | rs => [e] :: rs end). now rewrite E. }
    rewrite E2. cbn [hd isempty]. rewrite orb_false_r. destruct (keqb (key e) (key g)); cbn [negb].
    + cbn [runs_do]. change (do_run i (e :: g :: q) s) with (do s' <- opn s i e; do_run (i + 1) (g :: q) s').
      rewrite bind_assoc. destruct (opn s i e) as [s'|]; auto. cbn [bind]. rewrite IH, E. cbn [runs_do].
      replace (i + length (e :: g :: q)) with (i + 1 + length (g :: q)) by (simpl; lia). auto.
    + cbn [runs_do]. cbn [do_run isempty]. destruct (cls s i e); auto. cbn [bind]. rewrite IH, E. auto.
Qed.

Lemma foldM_look_from (body : S -> nat -> res S) z l0 l s :
  (forall s i e, nth_error (l0 ++ l) i = Some e -> length l0 <= i ->
     body s i = if negb (keqb (key e) (key (nth (i + 1) (l0 ++ l) z))) || (i =? length (l0 ++ l) - 1)
                then cls s i e else opn s i e) ->
  foldM body s (seq (length l0) (length l)) = look z (length l0) l s.
Proof.
  revert l0 s. induction l as [|e l IH]; intros l0 s H; auto. cbn [length seq foldM look].
  rewrite (H s (length l0) e).
  2: { rewrite nth_error_app2, Nat.sub_diag by lia. auto. }
  2: lia.
  rewrite app_nth2 by lia. replace (length l0 + 1 - length l0) with 1 by lia.
  replace (nth 1 (e :: l) z) with (hd z l) by (destruct l; auto).
  replace (length l0 =? length (l0 ++ e :: l) - 1) with (isempty l).
  2: { rewrite app_length. cbn [length]. destruct l; cbn [isempty length]; symmetry; [apply Nat.eqb_eq|apply Nat.eqb_neq]; lia. }
  match goal with |- bind ?m _ = _ => destruct m as [s'|]; auto end. cbn [bind].
  specialize (IH (l0 ++ [e]) s'). rewrite app_length in IH. cbn [length] in IH.
  rewrite <- IH. { now rewrite Nat.add_1_r. }
  intros s0 i e' E' Hi. rewrite <- app_assoc in *. apply H; auto. lia.
Qed.
Lemma foldM_look (body : S -> nat -> res S) z l s :
  (forall s i e, nth_error l i = Some e ->
     body s i = if negb (keqb (key e) (key (nth (i + 1) l z))) || (i =? length l - 1)
                then cls s i e else opn s i e) ->
  foldM body s (seq 0 (length l)) = runs_do 0 (runs l) s.
Proof. intros H. rewrite <- (look_runs z). apply (foldM_look_from body z [] l s). intros; apply H; auto. Qed.

(** Invariant over the runs. *)
Lemma runs_do_inv (I : list (list X) -> S -> Prop) rs s :
  I [] s ->
  (forall done r rest s, rs = done ++ r :: rest -> I done s ->
     exists s', do_run (length (concat done)) r s = Ok s' /\ I (done ++ [r]) s') ->
  exists s', runs_do 0 rs s = Ok s' /\ I rs s'.
Proof.
  intros H0 Hs.
  assert (G : forall rest done s, rs = done ++ rest -> I done s ->
    exists s', runs_do (length (concat done)) rest s = Ok s' /\ I rs s').
  { induction rest as [|r rest IH]; intros done s0 E Hi; cbn [runs_do].
    - rewrite app_nil_r in E. subst. eauto.
    - destruct (Hs done r rest s0 E Hi) as (s1 & E1 & H1). rewrite E1. cbn [bind].
      destruct (IH (done ++ [r]) s1) as (s2 & E2 & H2); auto. { rewrite <- app_assoc. auto. }
      exists s2. split; auto. rewrite concat_app, app_length in E2. cbn [concat] in E2. rewrite app_nil_r in E2. auto. }
  apply (G rs [] s); auto.
Qed.

End Runs.

(** BtwCount.v -- counting shortest paths. *)
From Coq Require Import List Arith Lia ZArith Bool QArith Qcanon Permutation.
From Verif Require Import Base Num ListLib NatSum QcSum IoModel GraphModel GraphSpec GraphProof BfsModel BfsProof BtwSpec.
Import ListNotations.
Local Open Scope nat_scope.

Section Count.
Context {A : Type}.
Variable g : net A.
Hypothesis W : wf_net g.
Notation N := (length g).

Definition wk (n s t : nat) : nat := length (walks_to g n s t).
Lemma nbrs_in i j : In j (nbrs g i) -> i < N /\ j < N.
Proof. intros H. split; [|eapply nbrs_lt; eauto]. unfold nbrs in H. destruct (nth_error g i) eqn:E; [eapply nth_lt; eauto|destruct H]. Qed.
Lemma walks_shape n : forall s p, In p (walks g n s) -> exists q, p = s :: q /\ length q = n.
Proof.
  induction n as [|n IH]; cbn [walks]; intros s p H.
  - destruct H as [<-|[]]. exists []. auto.
  - apply in_flat_map in H as (u & _ & H). apply in_map_iff in H as (p' & <- & H). destruct (IH _ _ H) as (q & -> & L). exists (u :: q). cbn. auto.
Qed.
Lemma filter_flat {X Y} (c : Y -> bool) (h : X -> list Y) l : filter c (flat_map h l) = flat_map (fun x => filter c (h x)) l.
Proof. induction l as [|x l IH]; cbn [flat_map]; auto. rewrite filter_app. now rewrite IH. Qed.
Lemma filter_map_comp {X Y} (c : Y -> bool) (h : X -> Y) l : filter c (map h l) = map h (filter (fun x => c (h x)) l).
Proof. induction l as [|x l IH]; cbn; auto. destruct (c (h x)); cbn; now rewrite IH. Qed.
Lemma ends_cons t s n u p : In p (walks g n u) -> ends_at t (s :: p) = ends_at t p.
Proof. intros H. destruct (walks_shape _ _ _ H) as (q & -> & _). cbn [ends_at]. f_equal. clear H. revert u; induction q as [|y q IH]; intros u; auto. change (last (y :: q) s = last (y :: q) u). clear IH. revert y; induction q as [|z q IH]; intros y; auto. exact (IH z). Qed.
Lemma walks_to_S n s t : walks_to g (S n) s t = flat_map (fun u => map (cons s) (walks_to g n u t)) (nbrs g s).
Proof.
  unfold walks_to. cbn [walks]. rewrite filter_flat. clear. induction (nbrs g s) as [|u l IH]; cbn [flat_map]; auto. rewrite IH. f_equal.
  rewrite filter_map_comp. f_equal. apply filter_ext_in. intros p H. eapply ends_cons; eauto.
Qed.
Lemma wk_0 s t : wk 0 s t = if s =? t then 1 else 0.
Proof. unfold wk, walks_to. cbn. now destruct (s =? t). Qed.
Lemma wk_S n s t : wk (S n) s t = lsum (fun u => wk n u t) (nbrs g s).
Proof. unfold wk. rewrite walks_to_S, length_flat. apply lsum_ext. intros u _. apply map_length. Qed.

Definition lk (u w : nat) : nat := if mem w (nbrs g u) then 1 else 0.
Lemma lsum_nbrs f s : lsum f (nbrs g s) = lsum (fun u => lk s u * f u) (seq 0 N).
Proof.
  assert (P : Permutation (nbrs g s) (filter (fun u => mem u (nbrs g s)) (seq 0 N))).
  { apply NoDup_Permutation; [apply (wf_nodup g W)|apply NoDup_filter, seq_NoDup|]. intros u. rewrite filter_In, mem_In, in_seq. split; [|tauto]. intros H. pose proof (nbrs_in _ _ H). split; [lia|auto]. }
  rewrite (lsum_perm _ _ _ P), lsum_filter. apply lsum_ext. intros u _. unfold lk. destruct (mem u (nbrs g s)); lia.
Qed.
(** The last step instead of the first. *)
Lemma wk_last n : forall s t, s < N -> wk (S n) s t = lsum (fun u => wk n s u * lk u t) (seq 0 N).
Proof.
  induction n as [|n IH]; intros s t Hs.
  - rewrite wk_S, lsum_nbrs.
    transitivity (lk s t).
    + destruct (lt_dec t N) as [Ht|Ht].
      * rewrite (lsum_ext _ (fun u => if u =? t then lk s t else 0)).
        -- replace (seq 0 N) with (seq 0 t ++ t :: seq (S t) (N - S t)) by (rewrite <- (seq_app t 1) || (replace (t :: seq (S t) (N - S t)) with (seq t (N - t)) by (replace (N - t) with (S (N - S t)) by lia; reflexivity); rewrite <- seq_app; f_equal; lia)).
           rewrite lsum_app. cbn [lsum]. rewrite Nat.eqb_refl. rewrite !lsum_0; [lia| |]; intros u Hu; apply in_seq in Hu; destruct (Nat.eqb_spec u t); auto; lia.
        -- intros u _. rewrite wk_0. destruct (Nat.eqb_spec u t) as [->|]; lia.
      * rewrite lsum_0; [|intros u Hu; apply in_seq in Hu; rewrite wk_0; destruct (Nat.eqb_spec u t); lia].
        unfold lk. destruct (mem_spec t (nbrs g s)) as [H|]; auto. apply nbrs_in in H. lia.
    + symmetry. replace (seq 0 N) with (seq 0 s ++ s :: seq (S s) (N - S s)) by (replace (s :: seq (S s) (N - S s)) with (seq s (N - s)) by (replace (N - s) with (S (N - S s)) by lia; reflexivity); rewrite <- seq_app; f_equal; lia).
      rewrite lsum_app. cbn [lsum]. rewrite wk_0, Nat.eqb_refl. rewrite !lsum_0; [lia| |]; intros u Hu; apply in_seq in Hu; rewrite wk_0; destruct (Nat.eqb_spec s u); lia.
  - rewrite wk_S, lsum_nbrs. rewrite (lsum_ext _ (fun x => lsum (fun u => lk s x * (wk n x u * lk u t)) (seq 0 N))).
    2: { intros x Hx. apply in_seq in Hx. rewrite IH by lia. now rewrite lsum_scal. }
    rewrite lsum_swap. apply lsum_ext. intros u Hu. rewrite wk_S, lsum_nbrs, Nat.mul_comm, <- lsum_scal. apply lsum_ext. intros x _. lia.
Qed.
Lemma wk_path n : forall s t, s < N -> (0 < wk n s t <-> path g n s t).
Proof.
  induction n as [|n IH]; intros s t Hs.
  - rewrite wk_0. split.
    + destruct (Nat.eqb_spec s t) as [->|]; [|lia]. intros _. now constructor.
    + intros H. inversion H; subst. rewrite Nat.eqb_refl. lia.
  - rewrite wk_last by auto. split.
    + intros H. assert (X : exists u, In u (seq 0 N) /\ 0 < wk n s u * lk u t).
      { clear - H. induction (seq 0 N) as [|u l IH]; cbn [lsum] in H; [lia|]. destruct (Nat.eq_dec (wk n s u * lk u t) 0) as [E|E].
        - destruct IH as (u' & H1 & H2); [lia|]. exists u'. split; [right|]; auto.
        - exists u. split; [left; auto|lia]. }
      destruct X as (u & _ & Hu). apply path_S with u; [apply IH; auto; lia|]. unfold lk in Hu. destruct (mem_spec t (nbrs g u)); auto; lia.
    + intros H. inversion H as [|? ? u ? H1 H2]; subst. apply IH in H1; auto. pose proof (nbrs_in _ _ H2) as [Hu _].
      assert (IN : In u (seq 0 N)) by (apply in_seq; lia). apply in_split in IN as (a & b & ->). rewrite lsum_app. cbn [lsum]. unfold lk at 2. rewrite (proj2 (mem_In _ _) H2). lia.
Qed.

(** ** Distances *)
Lemma path_lt n s t : path g n s t -> s < N /\ t < N.
Proof. induction 1 as [|d i j k P IH H]; [auto|]. pose proof (nbrs_in _ _ H). tauto. Qed.
Lemma distance_pred n s t : distance g s t (S n) -> exists u, distance g s u n /\ In t (nbrs g u).
Proof.
  intros [P M]. inversion P as [|? ? u ? H1 H2]; subst. exists u. split; auto. split; auto. intros d' P'. specialize (M (S d') (path_S g _ _ _ _ P' H2)). lia.
Qed.
Lemma distance_fun s t n m : distance g s t n -> distance g s t m -> n = m.
Proof. intros [P1 M1] [P2 M2]. apply M1 in P2. apply M2 in P1. lia. Qed.
Lemma distance_bound n : forall s t, distance g s t n -> n < N.
Proof.
  assert (G : forall s t, distance g s t n -> exists l, length l = S n /\ NoDup l /\ forall x, In x l -> x < N /\ exists k, k <= n /\ distance g s x k).
  { induction n as [|n IH]; intros s t D.
    - exists [t]. splits; auto; [repeat constructor; simpl; tauto|]. intros x [<-|[]]. split; [apply (path_lt 0 s t); apply D|eauto].
    - destruct (distance_pred _ _ _ D) as (u & Du & Hu). destruct (IH _ _ Du) as (l & L & ND & H). exists (t :: l). splits; [simpl; lia| |].
      + constructor; auto. intros X. destruct (H _ X) as (_ & k & Hk & Dk). pose proof (distance_fun _ _ _ _ D Dk). lia.
      + intros x [<-|Hx]; [split; [apply nbrs_in in Hu; tauto|eauto]|]. destruct (H _ Hx) as (H1 & k & Hk & Dk). split; auto. exists k. split; auto. }
  intros s t D. destruct (G s t D) as (l & L & ND & H).
  assert (length l <= length (seq 0 N)) by (apply NoDup_incl_length; auto; intros x Hx; apply in_seq; destruct (H x Hx); lia). rewrite seq_length in *. lia.
Qed.
Lemma exists_distance n s t : path g n s t -> exists d, distance g s t d.
Proof.
  induction n as [n IH] using lt_wf_ind. intros P. assert (Hs := proj1 (path_lt _ _ _ P)).
  destruct (existsb (fun m => 0 <? wk m s t) (seq 0 n)) eqn:E.
  - apply existsb_exists in E as (m & Hm & E). apply in_seq in Hm. apply Nat.ltb_lt, wk_path in E; auto. apply (IH m); auto. lia.
  - exists n. split; auto. intros d' P'. destruct (le_lt_dec n d') as [|H]; auto. assert (X : existsb (fun m => 0 <? wk m s t) (seq 0 n) = true); [|congruence].
    apply existsb_exists. exists d'. split; [apply in_seq; lia|]. apply Nat.ltb_lt, wk_path; auto.
Qed.
Lemma dist_spec s t n : s < N -> (dist g s t = Some n <-> distance g s t n).
Proof.
  intros Hs. unfold dist.
  assert (C : forall m, (match walks_to g m s t with [] => false | _ => true end) = true <-> path g m s t).
  { intros m. rewrite <- wk_path by auto. unfold wk. destruct (walks_to g m s t); simpl; split; intros; try discriminate; auto; lia. }
  assert (G : forall k a, (forall m, m < a -> ~ path g m s t) -> (find (fun n => match walks_to g n s t with [] => false | _ => true end) (seq a k) = Some n <-> distance g s t n /\ n < a + k)).
  { induction k as [|k IH]; intros a Ha; cbn [seq find].
    - split; [discriminate|]. intros [[P _] H]. destruct (Ha n); auto. lia.
    - destruct (match walks_to g a s t with [] => false | _ => true end) eqn:E.
      + apply C in E. split.
        * intros [= <-]. split; [|lia]. split; auto. intros d' P'. destruct (le_lt_dec a d'); auto. destruct (Ha d'); auto.
        * intros [[P M] H]. f_equal. specialize (M _ E). destruct (Nat.eq_dec a n); auto. destruct (Ha n); auto. lia.
      + rewrite IH. { replace (S a + k) with (a + S k) by lia. tauto. } intros m Hm. destruct (Nat.eq_dec m a) as [->|]; [|apply Ha; lia]. intros P. apply C in P. congruence. }
  rewrite G by (intros; lia). split; [tauto|]. intros D. split; auto. apply (distance_bound _ _ _ D).
Qed.
End Count.

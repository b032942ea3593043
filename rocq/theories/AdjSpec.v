(** AdjSpec.v -- what an adjacency array means: rows, links, symmetry, connectivity. *)
From Coq Require Import List Arith Lia.
From Verif Require Import Base ListLib PartModel.
Import ListNotations.
Local Open Scope nat_scope.

Section Spec.
Context {A : Type}.

(** Well-formed for N nodes: N+1 row starts, increasing, inside both arrays, all neighbours below N. *)
Record adj_ok (adj : adja A) (N : nat) : Prop := {
  ao_N : aN adj = N;
  ao_idx : length (aidx adj) = N + 1;
  ao_mono : forall i a b, nth_error (aidx adj) i = Some a -> nth_error (aidx adj) (i + 1) = Some b -> a <= b;
  ao_nb : forall i a b k, nth_error (aidx adj) i = Some a -> nth_error (aidx adj) (i + 1) = Some b ->
            a <= k -> k < b -> exists j, nth_error (anb adj) k = Some j /\ j < N;
  ao_str : forall i a b k, nth_error (aidx adj) i = Some a -> nth_error (aidx adj) (i + 1) = Some b ->
            a <= k -> k < b -> exists w, nth_error (astr adj) k = Some w
}.

(** The row of node [i]: pairs (neighbour, weight) in storage order. *)
Definition row (adj : adja A) (i : nat) : list (nat * A) :=
  match nth_error (aidx adj) i, nth_error (aidx adj) (i + 1) with
  | Some a, Some b => combine (firstn (b - a) (skipn a (anb adj))) (firstn (b - a) (skipn a (astr adj)))
  | _, _ => []
  end.

(** [j] is listed in the row of [i]. *)
Definition adjacent (adj : adja A) (i j : nat) : Prop := In j (map fst (row adj i)).

(** Reachable along listed links. *)
Inductive connected (adj : adja A) : nat -> nat -> Prop :=
| conn_refl i : connected adj i i
| conn_step i j k : connected adj i j -> adjacent adj j k -> connected adj i k.

Definition sym_adj (adj : adja A) : Prop := forall i j, adjacent adj i j -> adjacent adj j i.

Lemma connected_trans adj i j k : connected adj i j -> connected adj j k -> connected adj i k.
Proof. intros H1 H2. revert H1. induction H2 as [|a b c H2 IH Ha]; intros H1; auto. apply conn_step with b; auto. Qed.
Lemma connected_sym adj i j : sym_adj adj -> connected adj i j -> connected adj j i.
Proof.
  intros S H. induction H as [|i j k H IH Ha]; [constructor|].
  eapply connected_trans; [|exact IH]. eapply conn_step; [constructor|]. apply S; auto.
Qed.

(** Row access in terms of [row]. *)
Lemma firstn_skipn_nth {B} (l : list B) a n k : k < n -> nth_error (firstn n (skipn a l)) k = nth_error l (a + k).
Proof.
  revert l n k. induction a as [|a IH]; intros l n k H.
  - simpl. clear -H. revert n k H. induction l as [|x l IH]; intros [|n] [|k] H; simpl; auto; try lia. apply IH. lia.
  - destruct l; simpl; [|apply IH; auto]. rewrite firstn_nil. destruct k; auto.
Qed.

Lemma row_nth adj N i a b : adj_ok adj N -> nth_error (aidx adj) i = Some a -> nth_error (aidx adj) (i + 1) = Some b ->
  length (row adj i) = b - a /\
  forall k, k < b - a -> exists j w, nth_error (row adj i) k = Some (j, w) /\
     nth_error (anb adj) (a + k) = Some j /\ nth_error (astr adj) (a + k) = Some w /\ j < N.
Proof.
  intros H Ha Hb. pose proof (ao_mono _ _ H i a b Ha Hb) as Hm.
  assert (L1 : length (firstn (b - a) (skipn a (anb adj))) = b - a).
  { destruct (Nat.eq_dec (b - a) 0) as [->|]; auto. rewrite firstn_length, skipn_length.
    destruct (ao_nb _ _ H i a b (b - 1) Ha Hb) as (j & Ej & _); [lia|lia|]. apply nth_lt in Ej. lia. }
  assert (L2 : length (firstn (b - a) (skipn a (astr adj))) = b - a).
  { destruct (Nat.eq_dec (b - a) 0) as [->|]; auto. rewrite firstn_length, skipn_length.
    destruct (ao_str _ _ H i a b (b - 1) Ha Hb) as (j & Ej); [lia|lia|]. apply nth_lt in Ej. lia. }
  unfold row. rewrite Ha, Hb. split.
  - rewrite combine_length. lia.
  - intros k Hk.
    destruct (ao_nb _ _ H i a b (a + k) Ha Hb) as (j & Ej & Hj); [lia|lia|].
    destruct (ao_str _ _ H i a b (a + k) Ha Hb) as (w & Ew); [lia|lia|].
    exists j, w. splits; auto.
    rewrite <- (firstn_skipn_nth (anb adj) a (b - a) k) in Ej by auto.
    rewrite <- (firstn_skipn_nth (astr adj) a (b - a) k) in Ew by auto.
    revert Ej Ew. generalize (firstn (b - a) (skipn a (anb adj))) as l1. generalize (firstn (b - a) (skipn a (astr adj))) as l2.
    clear. intros l2 l1. revert l2 k. induction l1 as [|x l1 IH]; intros [|y l2] [|k]; simpl; try discriminate.
    + intros [= ->] [= ->]. auto.
    + apply IH.
Qed.

Lemma idx_ex adj N i : adj_ok adj N -> i < N ->
  exists a b, nth_error (aidx adj) i = Some a /\ nth_error (aidx adj) (i + 1) = Some b.
Proof.
  intros H Hi. destruct (nth_ex (aidx adj) i) as [a Ea]. { rewrite (ao_idx _ _ H). lia. }
  destruct (nth_ex (aidx adj) (i + 1)) as [b Eb]. { rewrite (ao_idx _ _ H). lia. }
  eauto.
Qed.

Lemma row_lt adj N i j w : adj_ok adj N -> In (j, w) (row adj i) -> j < N /\ i < N.
Proof.
  intros H Hin. apply In_nth_error in Hin as [k Ek].
  destruct (nth_error (aidx adj) i) as [a|] eqn:Ea.
  2: { unfold row in Ek. rewrite Ea in Ek. destruct k; discriminate. }
  destruct (nth_error (aidx adj) (i + 1)) as [b|] eqn:Eb.
  2: { unfold row in Ek. rewrite Ea, Eb in Ek. destruct k; discriminate. }
  destruct (row_nth adj N i a b H Ea Eb) as [L G].
  destruct (G k) as (j' & w' & E' & _ & _ & Hj). { rewrite <- L. eapply nth_lt; eauto. }
  rewrite Ek in E'. injection E' as -> ->. split; auto.
  apply nth_lt in Eb. rewrite (ao_idx _ _ H) in Eb. lia.
Qed.

Lemma adjacent_lt adj N i j : adj_ok adj N -> adjacent adj i j -> j < N /\ i < N.
Proof. intros H Ha. apply in_map_iff in Ha as ((j' & w) & E & Hin). simpl in E. subst. eapply row_lt; eauto. Qed.

(** The C loop over a row is a fold over the pairs of the row. *)
Lemma row_fold_eq {S} (adj : adja A) N i (body : S -> nat -> res S) (f : S -> nat * A -> res S) s :
  adj_ok adj N -> i < N ->
  (forall s k j w, nth_error (anb adj) k = Some j -> nth_error (astr adj) k = Some w -> j < N ->
     In (j, w) (row adj i) -> body s k = f s (j, w)) ->
  row_fold adj i body s = foldM f s (row adj i).
Proof.
  intros H Hi Hb. destruct (idx_ex _ _ _ H Hi) as (a & b & Ea & Eb).
  unfold row_fold. rewrite (get_ok _ _ _ Ea). cbn [bind]. rewrite (get_ok _ _ _ Eb). cbn [bind].
  destruct (row_nth adj N i a b H Ea Eb) as [L G]. rewrite <- L.
  assert (Hb' : forall s n j w, nth_error (row adj i) n = Some (j, w) -> body s (a + n) = f s (j, w)).
  { intros s0 n j w En. apply nth_lt in En as Hn. rewrite L in Hn. destruct (G n Hn) as (j' & w' & E' & K1 & K2 & K3).
    rewrite En in E'. injection E' as <- <-. apply Hb; auto. eapply nth_error_In; eauto. }
  clear - Hb'. revert a s Hb'. generalize (row adj i) as l. induction l as [|[j w] l IH]; intros a s Hb'; simpl; auto.
  rewrite <- (Hb' s 0 j w eq_refl), Nat.add_0_r. destruct (body s a) as [s'|e]; simpl; auto.
  apply IH. intros s0 n j' w' En. rewrite <- (Hb' s0 (Datatypes.S n) j' w' En). f_equal. lia.
Qed.

End Spec.

(** UnitNet.v -- networks given by their lists of neighbours, for concrete cases. *)
From Coq Require Import List Arith Lia Bool Ascii.
From Verif Require Import Base ListLib IoModel GraphModel GraphSpec GraphProof FillProof.
Import ListNotations.
Local Open Scope nat_scope.

Section Unit.
Context {A : Type} {ops : NumOps A}.
Definition name_of (i : nat) : label := repeat "x"%char i.
Definition unit_link (j : nat) : link A := mkLink j (name_of j) 0 (Some j) n0 n1.
Definition unit_row (rows : list (list nat)) (i : nat) : list nat := nth i rows [].
Definition unit_node rows (i : nat) : gnode A := mkNode (name_of i) i 0 (map unit_link (unit_row rows i)) None n0 0 n0.
Definition unit_net (rows : list (list nat)) : net A := map (unit_node rows) (seq 0 (length rows)).

Fixpoint nodupb (l : list nat) : bool := match l with [] => true | x :: l => negb (mem x l) && nodupb l end.
Definition rows_ok (rows : list (list nat)) : bool := forallb (fun r => nodupb r && forallb (fun j => j <? length rows) r) rows.
Definition rows_sym (rows : list (list nat)) : bool :=
  forallb (fun i => negb (mem i (unit_row rows i)) && forallb (fun j => mem i (unit_row rows j)) (unit_row rows i)) (seq 0 (length rows)).

Lemma nodupb_NoDup l : nodupb l = true -> NoDup l.
Proof. induction l as [|x l IH]; cbn [nodupb]; intros H; constructor; apply andb_true_iff in H as [H1 H2]; auto. intros X. apply mem_In in X. rewrite X in H1. discriminate. Qed.
Lemma unit_length rows : length (unit_net rows) = length rows.
Proof. unfold unit_net. now rewrite map_length, seq_length. Qed.
Lemma unit_nth rows i : nth_error (unit_net rows) i = if i <? length rows then Some (unit_node rows i) else None.
Proof. apply nth_map_seq. Qed.
Lemma unit_targets l : targets (map unit_link l) = l.
Proof. induction l as [|x l IH]; cbn; auto. f_equal. exact IH. Qed.
Lemma unit_nbrs rows i : nbrs (unit_net rows) i = unit_row rows i.
Proof.
  unfold nbrs. rewrite unit_nth. destruct (Nat.ltb_spec i (length rows)) as [H|H]; [apply unit_targets|]. unfold unit_row. now rewrite nth_overflow.
Qed.
Lemma row_ok rows i : rows_ok rows = true -> NoDup (unit_row rows i) /\ forall j, In j (unit_row rows i) -> j < length rows.
Proof.
  intros H. unfold rows_ok in H. rewrite forallb_forall in H. unfold unit_row. destruct (nth_in_or_default i rows []) as [IN|E].
  - apply H in IN. apply andb_true_iff in IN as [H1 H2]. split; [now apply nodupb_NoDup|]. rewrite forallb_forall in H2. intros j Hj. now apply Nat.ltb_lt, H2.
  - rewrite E. split; [constructor|]. intros j [].
Qed.
Lemma unit_wf rows : rows_ok rows = true -> wf_net (unit_net rows).
Proof.
  intros H. constructor.
  - intros i n E. rewrite unit_nth in E. destruct (i <? length rows); [|discriminate]. now injection E as <-.
  - intros i n l E IN. rewrite unit_nth in E. destruct (i <? length rows); [|discriminate]. injection E as <-. cbn in IN. apply in_map_iff in IN as (j & <- & Hj).
    apply row_ok in Hj; auto. exists j, (unit_node rows j). splits; auto. rewrite unit_nth. apply Nat.ltb_lt in Hj. now rewrite Hj.
  - intros i. rewrite unit_nbrs. now apply row_ok.
  - intros i n E. rewrite unit_nth in E. destruct (i <? length rows); [|discriminate]. injection E as <-. auto.
Qed.
Lemma unit_weight_in l j : weight_in (map unit_link l) j = if mem j l then Some n1 else None.
Proof.
  unfold weight_in. induction l as [|x l IH]; cbn; auto. rewrite (Nat.eqb_sym j x). destruct (x =? j); cbn; auto.
Qed.
Lemma unit_weight rows i j : weight (unit_net rows) i j = if mem j (unit_row rows i) then Some n1 else None.
Proof.
  unfold weight. rewrite unit_nth. destruct (Nat.ltb_spec i (length rows)) as [H|H]; [apply unit_weight_in|]. unfold unit_row. now rewrite nth_overflow.
Qed.
Lemma unit_undirected rows : rows_ok rows = true -> rows_sym rows = true -> undirected (unit_net rows).
Proof.
  intros H S. unfold rows_sym in S. rewrite forallb_forall in S.
  assert (L : forall i j, In j (unit_row rows i) -> i < length rows). { intros i j. unfold unit_row. destruct (lt_dec i (length rows)); auto. rewrite nth_overflow by lia. intros []. }
  assert (S1 : forall i j, In j (unit_row rows i) -> In i (unit_row rows j)).
  { intros i j Hj. specialize (S i). rewrite in_seq in S. specialize (L _ _ Hj). apply andb_true_iff in S as [_ S]; [|lia]. rewrite forallb_forall in S. apply mem_In, S, Hj. }
  constructor.
  - now apply unit_wf.
  - intros i Hi. rewrite unit_nbrs in Hi. specialize (S i). rewrite in_seq in S. pose proof (L _ _ Hi). apply andb_true_iff in S as [S _]; [|lia]. apply mem_In in Hi. rewrite Hi in S. discriminate.
  - intros i j. rewrite !unit_weight. destruct (mem_spec j (unit_row rows i)) as [Hm|Hm], (mem_spec i (unit_row rows j)) as [Hn|Hn]; auto; exfalso; auto.
Qed.
End Unit.

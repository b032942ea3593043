(** PairSum.v -- sums over unordered pairs: adding a node to a set of nodes. *)
From Coq Require Import List Arith ZArith Bool QArith Qcanon Lia.
From Verif Require Import Base Num ListLib NatSum QcSum GraphModel GraphSpec GroupModel GroupSpec.
Import ListNotations.
Local Open Scope nat_scope.

Section Pairs.
Variable N : nat.
Implicit Types f : nat -> nat -> Qc.

Lemma pair_sum_ext f h : (forall i j, i < j -> j < N -> f i j = h i j) -> pair_sum N f = pair_sum N h.
Proof.
  intros H. unfold pair_sum. apply Qsum_ext. intros i Hi. apply Qsum_ext. intros j Hj. apply in_seq in Hj.
  destruct (Nat.ltb_spec i j); auto. apply H; lia.
Qed.
Lemma pair_sum_add f h : pair_sum N (fun i j => f i j + h i j)%Qc = (pair_sum N f + pair_sum N h)%Qc.
Proof.
  unfold pair_sum. rewrite <- Qsum_add. apply Qsum_ext. intros i _. rewrite <- Qsum_add. apply Qsum_ext. intros j _. destruct (i <? j); [auto|reflexivity].
Qed.
Lemma pair_sum_0 f : (forall i j, i < j -> j < N -> f i j = 0%Qc) -> pair_sum N f = 0%Qc.
Proof.
  intros H. unfold pair_sum. apply Qsum_0. intros i Hi. apply Qsum_0. intros j Hj. apply in_seq in Hj. destruct (Nat.ltb_spec i j); auto. apply H; lia.
Qed.
Lemma Qsum_at (f : nat -> Qc) v : v < N -> Qsum (fun i => if i =? v then f i else 0%Qc) (seq 0 N) = f v.
Proof. intros H. apply Qsum_single; [apply seq_NoDup|apply in_seq; lia]. Qed.

(** The pairs with an end at [v]. *)
Lemma pair_star f v : v < N -> (forall i j, f i j = f j i) ->
  pair_sum N (fun i j => if (i =? v) || (j =? v) then f i j else 0%Qc) = Qsum (fun j => if j =? v then 0%Qc else f v j) (seq 0 N).
Proof.
  intros Hv Hs.
  rewrite (pair_sum_ext _ (fun i j => (if i =? v then f i j else 0) + (if j =? v then f i j else 0))%Qc).
  2: { intros i j Hi Hj. destruct (Nat.eqb_spec i v), (Nat.eqb_spec j v); simpl; try lia; ring. }
  rewrite pair_sum_add. unfold pair_sum.
  rewrite (Qsum_ext _ (fun i => if i =? v then Qsum (fun j => if i <? j then f i j else 0%Qc) (seq 0 N) else 0%Qc)).
  2: { intros i _. destruct (i =? v); auto. apply Qsum_0. intros j _. destruct (i <? j); auto. }
  rewrite (Qsum_at (fun i => Qsum (fun j => if i <? j then f i j else 0%Qc) (seq 0 N)) v Hv).
  rewrite (Qsum_ext (fun i => Qsum (fun j => if i <? j then if j =? v then f i j else 0%Qc else 0%Qc) (seq 0 N)) (fun i => if i <? v then f i v else 0%Qc)).
  2: { intros i _. rewrite <- (Qsum_at (fun j => if i <? j then f i j else 0%Qc) v Hv). apply Qsum_ext. intros j _. destruct (j =? v), (i <? j); auto. }
  rewrite <- Qsum_add. apply Qsum_ext. intros j _. rewrite (Hs j v).
  destruct (Nat.ltb_spec v j), (Nat.ltb_spec j v), (Nat.eqb_spec j v); try lia; ring.
Qed.

(** Restrictions to a set of nodes. *)
Definition s_in f (S : list nat) := pair_sum N (fun i j => if mem i S && mem j S then f i j else 0%Qc).
Definition s_tot f (S : list nat) := pair_sum N (fun i j => if mem i S || mem j S then f i j else 0%Qc).
Definition s_out f (S : list nat) := pair_sum N (fun i j => if xorb (mem i S) (mem j S) then f i j else 0%Qc).
Definition s_to f (v : nat) (S : list nat) := Qsum (fun j => if mem j S then f v j else 0%Qc) (seq 0 N).
Definition s_deg f (v : nat) := Qsum (f v) (seq 0 N).

Variable f : nat -> nat -> Qc.
Hypothesis fsym : forall i j, f i j = f j i.
Hypothesis floop : forall i, f i i = 0%Qc.

Lemma s_ext S S' : (forall i, mem i S = mem i S') -> s_in f S = s_in f S' /\ s_tot f S = s_tot f S' /\ s_out f S = s_out f S'.
Proof. intros H. unfold s_in, s_tot, s_out. splits; apply pair_sum_ext; intros i j _ _; now rewrite !H. Qed.

Lemma mem_snoc i S v : mem i (S ++ [v]) = mem i S || (i =? v).
Proof. rewrite mem_app. simpl. now rewrite orb_false_r. Qed.

Lemma s_in_add S v : v < N -> mem v S = false -> s_in f (S ++ [v]) = (s_in f S + s_to f v S)%Qc.
Proof.
  intros Hv Hm. unfold s_in, s_to.
  rewrite (Qsum_ext (fun j => if mem j S then f v j else 0%Qc) (fun j => if j =? v then 0%Qc else if mem v S || mem j S then f v j else 0%Qc)).
  2: { intros j _. rewrite Hm. simpl. destruct (Nat.eqb_spec j v) as [->|]; auto. now rewrite Hm. }
  rewrite <- (pair_star (fun i j => if mem i S || mem j S then f i j else 0%Qc) v Hv) by (intros; rewrite orb_comm, fsym; auto).
  rewrite <- pair_sum_add. apply pair_sum_ext. intros i j Hij Hj. rewrite !mem_snoc.
  destruct (Nat.eqb_spec i v) as [->|]; destruct (Nat.eqb_spec j v) as [->|]; try lia; rewrite ?Hm, ?orb_false_r, ?orb_true_r; simpl.
  - destruct (mem j S); simpl; ring.
  - destruct (mem i S); simpl; ring.
  - destruct (mem i S && mem j S); simpl; ring.
Qed.
Lemma s_tot_add S v : v < N -> mem v S = false -> s_tot f (S ++ [v]) = (s_tot f S + (s_deg f v - s_to f v S))%Qc.
Proof.
  intros Hv Hm. unfold s_tot, s_to, s_deg. rewrite <- Qsum_sub.
  rewrite (Qsum_ext (fun x => f v x - (if mem x S then f v x else 0))%Qc (fun j => if j =? v then 0%Qc else if negb (mem v S || mem j S) then f v j else 0%Qc)).
  2: { intros j _. rewrite Hm. simpl. destruct (Nat.eqb_spec j v) as [->|]; [rewrite Hm, floop; ring|]. destruct (mem j S); simpl; ring. }
  rewrite <- (pair_star (fun i j => if negb (mem i S || mem j S) then f i j else 0%Qc) v Hv) by (intros; rewrite orb_comm, fsym; auto).
  rewrite <- pair_sum_add. apply pair_sum_ext. intros i j Hij Hj. rewrite !mem_snoc.
  destruct (Nat.eqb_spec i v) as [->|]; destruct (Nat.eqb_spec j v) as [->|]; try lia; rewrite ?Hm, ?orb_false_r, ?orb_true_r; simpl.
  - destruct (mem j S); simpl; ring.
  - destruct (mem i S); simpl; ring.
  - destruct (mem i S || mem j S); simpl; ring.
Qed.
Lemma s_out_eq S : s_out f S = (s_tot f S - s_in f S)%Qc.
Proof.
  assert (H : (s_out f S + s_in f S = s_tot f S)%Qc).
  { unfold s_out, s_in, s_tot. rewrite <- pair_sum_add. apply pair_sum_ext. intros i j _ _. destruct (mem i S), (mem j S); simpl; ring. }
  rewrite <- H. ring.
Qed.
Lemma s_empty : s_in f [] = 0%Qc /\ s_tot f [] = 0%Qc /\ s_out f [] = 0%Qc.
Proof. unfold s_in, s_tot, s_out. splits; apply pair_sum_0; intros; reflexivity. Qed.
(** Twice the inside plus the outside is the sum of the degrees. *)
Lemma s_degrees S : (s_tot f S + s_in f S)%Qc = Qsum (fun i => if mem i S then s_deg f i else 0%Qc) (seq 0 N).
Proof.
  unfold s_tot, s_in. rewrite <- pair_sum_add.
  rewrite (pair_sum_ext _ (fun i j => (if mem i S then f i j else 0) + (if mem j S then f i j else 0))%Qc).
  2: { intros i j _ _. destruct (mem i S), (mem j S); simpl; ring. }
  rewrite pair_sum_add. unfold pair_sum at 2. rewrite Qsum_swap. unfold pair_sum. rewrite <- Qsum_add. apply Qsum_ext. intros i Hi.
  destruct (mem i S).
  - unfold s_deg. rewrite <- Qsum_add. apply Qsum_ext. intros j Hj. rewrite (fsym j i).
    destruct (Nat.ltb_spec i j), (Nat.ltb_spec j i); try lia; try ring. assert (i = j) by lia. subst. rewrite floop. ring.
  - assert (E : forall b : nat -> bool, Qsum (fun j => if b j then 0%Qc else 0%Qc) (seq 0 N) = 0%Qc) by (intros; apply Qsum_0; intros j _; destruct (b j); auto).
    rewrite (E (fun j => i <? j)), (E (fun j => j <? i)). ring.
Qed.
End Pairs.

(** Counting as summing ones. *)
Lemma pair_count_Qc N p : Qc_of_nat (pair_count N p) = pair_sum N (fun i j => if p i j then 1%Qc else 0%Qc).
Proof.
  unfold pair_count, pair_sum. generalize (seq 0 N) at 2 4. intros l. induction l as [|i l IH]; [reflexivity|]. cbn [lsum Qsum]. rewrite Qc_of_nat_add, IH. f_equal.
  clear. induction (seq 0 N) as [|j m IH]; [reflexivity|]. rewrite count_cons, Qc_of_nat_add, IH. cbn [Qsum]. f_equal. destruct (i <? j), (p i j); reflexivity.
Qed.
Lemma count_Qc {X} (p : X -> bool) l : Qc_of_nat (count p l) = Qsum (fun x => if p x then 1%Qc else 0%Qc) l.
Proof. induction l as [|x l IH]; [reflexivity|]. rewrite count_cons, Qc_of_nat_add, IH. cbn [Qsum]. f_equal. destruct (p x); reflexivity. Qed.

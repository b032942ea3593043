(** RecDecor.v -- the decorrelation step of src/missing.c and src/recommend.c: how it follows from the ten decay times. *)
From Coq Require Import List Arith ZArith Bool QArith Qcanon Qround Lia.
From Verif Require Import Base Num ListLib NatSum QcSum GroupModel ToolsModel ToolsProof MissModel MissStep MissRun RecModel RecSetup RecRun.
Import ListNotations.
Local Open Scope nat_scope.

(** Mean and standard deviation; the values at most two standard deviations from the mean; their mean. *)
Definition mean_of (l : list Qc) : Qc := (Qsum (fun x => x) l / Qc_of_nat (length l))%Qc.
Section Rule.
Variables ex sq : Qc -> Qc.
#[local] Instance opsD : NumOps Qc := Qc_ops ex sq.
Definition deviation (l : list Qc) : Qc := if Qc_eq_dec (variance l) 0 then 0%Qc else sq (variance l).
Definition usual (l : list Qc) : list Qc := filter (fun x => negb (Qc_ltb (Q2Qc (2 # 1)) (Qc_abs (x - mean_of l) / deviation l))) l.
Definition slower (l1 l2 : list Qc) : list Qc := if Qclt_le_dec (mean_of l2) (mean_of l1) then l1 else l2.
Definition whole (x : Qc) : nat := Z.to_nat (Qfloor (this x)).

Lemma drop_sum (f : Qc -> bool) l : forall r n, fold_left (fun '(result, norm) d => if f d then (nsub result d, norm) else (result, norm + 1)) l (r, n) =
  ((r - Qsum (fun x => x) l + Qsum (fun x => x) (filter (fun x => negb (f x)) l))%Qc, n + length (filter (fun x => negb (f x)) l)).
Proof.
  induction l as [|x l IH]; intros r n; cbn [fold_left filter]; [f_equal; [simpl; ring|simpl; lia]|]. destruct (f x); cbn [negb]; rewrite IH; cbn [nsub opsD Qc_ops Qsum length]; f_equal; try ring; lia.
Qed.
Lemma trimmed (l : list Qc) : length l = 10 -> fold_left (fun '(result, norm) d =>
    if nltb (nofQ (2 # 1)) (ndiv (nabs (nsub d (mean_of l))) (deviation l)) then (nsub result d, norm) else (result, norm + 1)) l (nmul (mean_of l) (nofnat 10), 0) =
  (Qsum (fun x => x) (usual l), length (usual l)).
Proof.
  intros Hl. rewrite (drop_sum (fun d => nltb (nofQ (2 # 1)) (ndiv (nabs (nsub d (mean_of l))) (deviation l)))). f_equal. change (nmul (mean_of l) (nofnat 10)) with (mean_of l * Qc_of_nat 10)%Qc.
  assert (E : (mean_of l * Qc_of_nat 10)%Qc = Qsum (fun x => x) l) by (unfold mean_of; rewrite Hl; field; discriminate). rewrite E. fold (usual l). change (Qsum (fun x => x) l - Qsum (fun x => x) l + Qsum (fun x => x) (usual l) = Qsum (fun x => x) (usual l))%Qc. ring.
Qed.
Lemma mean_ten (l : list Qc) : length l = 10 -> mean l 10 = Ok (mean_of l).
Proof. intros Hl. refine (eq_trans (mean_spec ex sq l 10 _) _); [lia|]. rewrite firstn_all2 by lia. unfold mean_of. now rewrite Hl. Qed.
Lemma dev_ten (l : list Qc) : length l = 10 -> stddev l 10 = Ok (deviation l).
Proof. intros Hl. refine (eq_trans (stddev_spec ex sq l 10 _ _) _); [lia|lia|]. rewrite firstn_all2 by lia. reflexivity. Qed.

(** [l] is measured: estimates are made one after the other until [k] of them are not negative; the others are forgotten. *)
Inductive measured {S X} (one : S -> res (X * S)) (bad : X -> Prop) : nat -> S -> list X -> S -> Prop :=
| ms_done s : measured one bad 0 s [] s
| ms_keep k s x s1 l s2 : one s = Ok (x, s1) -> ~ bad x -> measured one bad k s1 l s2 -> measured one bad (Datatypes.S k) s (x :: l) s2
| ms_drop k s x s1 l s2 : one s = Ok (x, s1) -> bad x -> measured one bad (Datatypes.S k) s1 l s2 -> measured one bad (Datatypes.S k) s l s2.
Lemma measured_length {S X} (one : S -> res (X * S)) bad k s l s' : measured one bad k s l s' -> length l = k.
Proof. induction 1; cbn [length]; auto. Qed.

Variable logf : nat -> Qc.
Variable lnchoose : nat -> nat -> Qc.
Variable lnfact : nat -> Qc.
Variable mutual : gpart Qc -> gpart Qc -> Qc.
Variable decay_of : nat -> nat -> Qc -> nat -> Qc -> Qc.
Variables lcsize lfsize : nat.
Variable linC : Qc.
Definition negative (x : Qc) : Prop := (x < 0)%Qc.
(** src/missing.c: the mean of the usual ones of ten decay times that are not negative, rounded down. *)
Theorem miss_step nnod nlist glist tabf st n st' :
  GetDecorrelationStep logf lnchoose lnfact mutual decay_of lcsize lfsize linC nnod nlist glist tabf st = Ok (n, st') ->
  exists l, measured (decor_one logf lnchoose lnfact mutual decay_of lcsize lfsize linC nnod nlist glist tabf) negative 10 st l st' /\ n = whole (mean_of (usual l)).
Proof.
  unfold GetDecorrelationStep. set (one := decor_one logf lnchoose lnfact mutual decay_of lcsize lfsize linC nnod nlist glist tabf).
  assert (X : forall fuel k d s d' s', decor_reps logf lnchoose lnfact mutual decay_of lcsize lfsize linC fuel nnod nlist glist tabf k d s = Ok (d', s') -> exists l, measured one negative k s l s' /\ d' = d ++ l).
  { induction fuel as [|f IH]; intros [|k] d s d' s' E; cbn [decor_reps] in E; try discriminate E; try (injection E as <- <-; exists []; split; [constructor|now rewrite app_nil_r]).
    fold one in E. destruct (one s) as [[x s1]|e] eqn:E1; [|discriminate E]. cbn [bind] in E. destruct (nltb x n0) eqn:Eb.
    - destruct (IH (Datatypes.S k) _ _ _ _ E) as (l & H & ->). exists l. split; auto. eapply ms_drop; eauto. now apply Qc_ltb_true in Eb.
    - destruct (IH k _ _ _ _ E) as (l & H & ->). exists (x :: l). split; [|rewrite <- app_assoc; reflexivity]. eapply ms_keep; eauto. apply Qc_ltb_false in Eb. apply Qcle_not_lt. exact Eb. }
  destruct (decor_reps _ _ _ _ _ _ _ _ _ _ _ _ _ _ _ _) as [[d s1]|e] eqn:E1; [|discriminate]. cbn [bind]. intros E. destruct (X _ _ _ _ _ _ E1) as (l & H & ->). cbn [app] in *. pose proof (measured_length _ _ _ _ _ _ H) as Hl.
  rewrite (mean_ten _ Hl) in E. cbn [bind] in E. rewrite (dev_ten _ Hl) in E. cbn [bind] in E. rewrite (trimmed _ Hl) in E. injection E as <- <-. exists l. split; auto.
Qed.
(** src/recommend.c: two series of ten; the one with the larger mean decides; rounded to the nearest integer. *)
Definition unusable (xy : Qc * Qc) : Prop := (fst xy < 0 \/ snd xy < 0)%Qc.
Theorem rec_step K tabf charge st n st' :
  GetDecorrelationStep2 lnfact mutual decay_of lfsize K tabf charge st = Ok (n, st') ->
  exists l, measured (decor_one2 lnfact mutual decay_of lfsize K tabf charge) unusable 10 st l st' /\
    n = whole (mean_of (usual (slower (map fst l) (map snd l))) + Q2Qc (1 # 2))%Qc.
Proof.
  unfold GetDecorrelationStep2. set (one := decor_one2 lnfact mutual decay_of lfsize K tabf charge).
  assert (X : forall fuel k d1 d2 s d1' d2' s', decor_reps2 lnfact mutual decay_of lfsize K tabf charge fuel k d1 d2 s = Ok (d1', d2', s') ->
     exists l, measured one unusable k s l s' /\ d1' = d1 ++ map fst l /\ d2' = d2 ++ map snd l).
  { induction fuel as [|f IH]; intros [|k] d1 d2 s d1' d2' s' E; cbn [decor_reps2] in E; try discriminate E; try (injection E as <- <- <-; exists []; split; [constructor|cbn [map]; now rewrite !app_nil_r]).
    fold one in E. destruct (one s) as [[[x y] s1]|e] eqn:E1; [|discriminate E]. cbn [bind] in E. destruct (nltb x n0 || nltb y n0) eqn:Eb.
    - destruct (IH (Datatypes.S k) _ _ _ _ _ _ E) as (l & H & -> & ->). exists l. split; auto. eapply ms_drop; eauto. apply orb_prop in Eb as [Eb|Eb]; [left|right]; now apply Qc_ltb_true in Eb.
    - destruct (IH k _ _ _ _ _ _ E) as (l & H & -> & ->). exists ((x, y) :: l). split; [|cbn [map fst snd]; rewrite <- !app_assoc; auto]. apply orb_false_elim in Eb as [E2 E3]. apply Qc_ltb_false in E2. apply Qc_ltb_false in E3.
      eapply ms_keep; eauto. intros [H1|H1]; [apply (Qcle_not_lt _ _ E2 H1)|apply (Qcle_not_lt _ _ E3 H1)]. }
  destruct (decor_reps2 _ _ _ _ _ _ _ _ _ _ _ _) as [[[d1 d2] s1]|e] eqn:E1; [|discriminate]. cbn [bind]. intros E. destruct (X _ _ _ _ _ _ _ _ E1) as (l & H & -> & ->). cbn [app] in *. pose proof (measured_length _ _ _ _ _ _ H) as Hl.
  assert (L1 : length (map fst l) = 10) by now rewrite map_length. assert (L2 : length (map snd l) = 10) by now rewrite map_length.
  rewrite (mean_ten _ L1) in E. cbn [bind] in E. rewrite (mean_ten _ L2) in E. cbn [bind] in E. exists l. unfold slower.
  assert (EB : nltb (mean_of (map snd l)) (mean_of (map fst l)) = if Qclt_le_dec (mean_of (map snd l)) (mean_of (map fst l)) then true else false).
  { destruct (Qclt_le_dec _ _) as [C|C]; [now apply Qc_ltb_true|now apply Qc_ltb_false]. }
  rewrite EB in E. destruct (Qclt_le_dec _ _) as [C|C].
  - rewrite (dev_ten _ L1) in E. cbn [bind] in E. rewrite (trimmed _ L1) in E. injection E as <- <-. split; auto.
  - rewrite (dev_ten _ L2) in E. cbn [bind] in E. rewrite (trimmed _ L2) in E. injection E as <- <-. split; auto.
Qed.
End Rule.

(** ToolsProof.v -- the tables, statistics, combinatorics and line counts of src/tools.c. *)
From Coq Require Import List Arith ZArith QArith Qcanon Qround Ascii Lia Bool Permutation Factorial.
From Verif Require Import Base Num ListLib QcSum FillProof NatSum MatLib IoModel IoSpec IoProof ToolsModel.
Import ListNotations.
Local Open Scope nat_scope.

Section Any.
Context {A : Type} {ops : NumOps A}.

(** A query of the table of logarithms of binomial coefficients. *)
Definition lc_table (f : nat -> nat -> A) (size : nat) (tab : list (list A)) : Prop :=
  length tab = size /\ forall r, r < size -> exists row, nth_error tab r = Some row /\ length row = size /\
    forall l x, nth_error row l = Some x -> x = nofQ (-1 # 1) \/ x = f r l.

Lemma lc_init f size : lc_table f size (InitializeFastLogChoose size).
Proof.
  unfold InitializeFastLogChoose. split; [apply repeat_length|]. intros r Hr. exists (repeat (nofQ (-1 # 1)) size).
  rewrite repeat_length. splits; auto; [now apply nth_repeat_lt|]. intros l x E. left. apply nth_error_In, repeat_spec in E. auto.
Qed.

Lemma lc_query f size tab r l : nltb (nofQ (-1 # 1)) n0 = true -> lc_table f size tab -> l <= r ->
  exists tab', FastLogChoose f r l tab size = Ok (f r l, tab') /\ lc_table f size tab'.
Proof.
  intros Hneg [Ht Hr] Hl. unfold FastLogChoose. destruct (Nat.ltb_spec r size) as [Lr|Lr].
  2: { exists tab. split; auto. split; auto. }
  destruct (Hr r Lr) as (row & E & L & Hrow). destruct (nth_ex row l) as [x Ex]; [lia|].
  unfold get2. rewrite (get_ok _ _ _ E). cbn [bind]. rewrite (get_ok _ _ _ Ex). cbn [bind].
  destruct (nltb x n0) eqn:Ec.
  - unfold set2. rewrite (get_ok _ _ _ E). cbn [bind]. rewrite set_ok by lia. cbn [bind]. rewrite set_ok by lia. cbn [bind].
    erewrite (get_ok (upd tab r _)) by (apply nth_upd_eq; lia). cbn [bind]. erewrite get_ok by (apply nth_upd_eq; lia). cbn [bind].
    eexists. split; [reflexivity|]. split; [now rewrite length_upd|]. intros r' Lr'. rewrite nth_upd. destruct (Nat.eqb_spec r' r) as [->|]; simpl; auto.
    rewrite (proj2 (Nat.ltb_lt _ _)) by lia. eexists. split; [reflexivity|]. rewrite length_upd. split; auto. intros l' y. rewrite nth_upd.
    destruct (Nat.eqb_spec l' l) as [->|]; simpl; eauto. rewrite (proj2 (Nat.ltb_lt _ _)) by lia. intros K; injection K as <-. auto.
  - cbn [bind]. rewrite (get_ok _ _ _ E). cbn [bind]. rewrite (get_ok _ _ _ Ex). cbn [bind]. exists tab. split; [|split; auto].
    destruct (Hrow l x Ex) as [-> | ->]; [congruence|auto].
Qed.

(** Any sequence of queries. *)
Theorem lc_history f size : nltb (nofQ (-1 # 1)) n0 = true -> forall qs : list (nat * nat), (forall r l, In (r, l) qs -> l <= r) ->
  exists tab, foldM (fun '(out, tab) '(r, l) => do (x, tab) <- FastLogChoose f r l tab size; Ok (out ++ [x], tab)) ([], InitializeFastLogChoose size) qs
    = Ok (map (fun '(r, l) => f r l) qs, tab).
Proof.
  intros Hneg qs Hq.
  destruct (foldM_inv (fun done '(out, tab) => out = map (fun '(r, l) => f r l) done /\ lc_table f size tab)
    (fun '(out, tab) '(r, l) => do (x, tab) <- FastLogChoose f r l tab size; Ok (out ++ [x], tab)) qs ([], InitializeFastLogChoose size)) as ([out tab] & E & -> & _).
  - split; auto using lc_init.
  - intros done [r l] rest [out tab] -> [-> Ht]. destruct (lc_query f size tab r l Hneg Ht) as (tab' & -> & Ht').
    { apply Hq, in_or_app. simpl; auto. }
    cbn [bind]. eexists. split; [reflexivity|]. split; auto. now rewrite map_app.
  - exists tab. exact E.
Qed.

(** A query above the diagonal may be outside the table. *)
Theorem lc_oob f size tab r l : lc_table f size tab -> r < size -> size <= l -> FastLogChoose f r l tab size = Err UB_oob.
Proof.
  intros [Ht Hr] Lr Ll. unfold FastLogChoose. rewrite (proj2 (Nat.ltb_lt _ _) Lr). destruct (Hr r Lr) as (row & E & L & _).
  unfold get2. rewrite (get_ok _ _ _ E). cbn [bind]. unfold get. rewrite (proj2 (nth_error_None _ _)); auto. lia.
Qed.

Theorem table_value (f : nat -> A) size r : FastTable f r (InitializeTable f size) size = Ok (f r).
Proof.
  unfold FastTable, InitializeTable. destruct (Nat.ltb_spec r size) as [H|H]; auto. unfold get. rewrite nth_map_seq. now rewrite (proj2 (Nat.ltb_lt _ _) H).
Qed.

(** The geometric draw: the number of draws above [p] before the first one that is not. *)
Theorem geometric_spec p ds v rest : geometric_dist_val p ds = Ok (v, rest) <->
  exists before u, ds = before ++ u :: rest /\ length before = v /\ Forall (fun x => nltb p x = true) before /\ nltb p u = false.
Proof.
  revert v rest. induction ds as [|u ds IH]; intros v rest; simpl.
  - split; [discriminate|]. intros ([|? ?] & u & E & _); discriminate.
  - destruct (nltb p u) eqn:Eu.
    + split.
      * intros H. apply bind_Ok in H as ([v' rest'] & H & E). injection E as <- <-. apply IH in H as (b & x & -> & <- & Hb & Hx).
        exists (u :: b), x. splits; simpl; auto. lia.
      * intros (b & x & E & <- & Hb & Hx). destruct b as [|y b]; simpl in E; injection E as <- E.
        -- congruence.
        -- inversion Hb; subst. assert (G : geometric_dist_val p (b ++ x :: rest) = Ok (length b, rest)) by (apply IH; eauto 10).
           rewrite G. simpl. do 2 f_equal. lia.
    + split.
      * intros E; injection E as <- <-. exists [], u. auto.
      * intros (b & x & E & <- & Hb & Hx). destruct b as [|y b]; simpl in E; injection E as <- E; subst; auto.
        inversion Hb; congruence.
Qed.
End Any.

(** * Factorials *)
Lemma fact_nat_spec a : (Z.of_nat (fact a) < 2 ^ 63)%Z -> fact_nat a = Ok (Z.of_nat (fact a)).
Proof.
  induction a as [|a IH]; intros H; auto. change (fact (S a)) with (S a * fact a) in *.
  assert (Hle : fact a <= S a * fact a) by lia. cbn [fact_nat]. rewrite IH by lia. cbn [bind].
  rewrite <- Nat2Z.inj_mul. rewrite (proj2 (Z.ltb_lt _ _) H). reflexivity.
Qed.
Lemma fact_nat_over a : (2 ^ 63 <= Z.of_nat (fact a))%Z -> fact_nat a = Err Wrap.
Proof.
  induction a as [|a IH]; intros H; [simpl in H; lia|]. cbn [fact_nat].
  destruct (Z.lt_ge_cases (Z.of_nat (fact a)) (2 ^ 63)) as [L|L].
  - rewrite fact_nat_spec by auto. cbn [bind]. change (fact (S a)) with (S a * fact a) in H. rewrite <- Nat2Z.inj_mul.
    rewrite (proj2 (Z.ltb_ge _ _) H). reflexivity.
  - now rewrite IH.
Qed.
Fixpoint zfact (n : nat) : Z := match n with 0 => 1%Z | S m => (Z.of_nat n * zfact m)%Z end.
Lemma zfact_fact n : zfact n = Z.of_nat (fact n).
Proof. induction n as [|n IH]; auto. cbn [zfact]. rewrite IH. change (fact (S n)) with (S n * fact n). lia. Qed.

(** 20! is the largest factorial that fits a long int. *)
Theorem fact_long_spec a : fact_long a = if (a <? 0)%Z then Err Diverge else if (a <=? 20)%Z then Ok (Z.of_nat (fact (Z.to_nat a))) else Err Wrap.
Proof.
  unfold fact_long. destruct (Z.ltb_spec a 0) as [|H]; auto. destruct (Z.leb_spec a 20) as [H1|H1].
  - apply fact_nat_spec. assert (G : (Z.of_nat (fact (Z.to_nat a)) <= Z.of_nat (fact 20))%Z) by (apply inj_le, fact_le; lia).
    eapply Z.le_lt_trans; [exact G|]. rewrite <- zfact_fact. vm_compute. reflexivity.
  - apply fact_nat_over. assert (G : (Z.of_nat (fact 21) <= Z.of_nat (fact (Z.to_nat a)))%Z) by (apply inj_le, fact_le; lia).
    eapply Z.le_trans; [|exact G]. rewrite <- zfact_fact. vm_compute. discriminate.
Qed.

(** * Lines *)
Lemma fgets_short cap : forall l rest, ~ In nl l -> length l < cap -> fgets cap (l ++ nl :: rest) = (l ++ [nl], rest).
Proof.
  induction cap as [|cap IH]; intros l rest Hn Hl; [lia|]. destruct l as [|c l]; cbn [fgets app].
  - unfold ascii_eqb. rewrite Ascii.eqb_refl. reflexivity.
  - unfold ascii_eqb. destruct (Ascii.eqb_spec c nl) as [->|Hc]; [exfalso; apply Hn; simpl; auto|].
    rewrite IH; auto; [intros K; apply Hn; simpl; auto|simpl in Hl; lia].
Qed.
Lemma fgets_long cap : forall l rest, ~ In nl l -> cap <= length l -> fgets cap (l ++ rest) = (firstn cap l, skipn cap l ++ rest).
Proof.
  induction cap as [|cap IH]; intros l rest Hn Hl; [destruct l; reflexivity|]. destruct l as [|c l]; [simpl in Hl; lia|]. cbn [fgets app firstn skipn].
  unfold ascii_eqb. destruct (Ascii.eqb_spec c nl) as [->|Hc]; [exfalso; apply Hn; simpl; auto|].
  rewrite IH; auto; [intros K; apply Hn; simpl; auto|simpl in Hl; lia].
Qed.
Lemma fgets_end cap : forall l, ~ In nl l -> length l <= cap -> fgets cap l = (l, []).
Proof.
  induction cap as [|cap IH]; intros l Hn Hl; [destruct l; [reflexivity|simpl in Hl; lia]|]. destruct l as [|c l]; auto. cbn [fgets].
  unfold ascii_eqb. destruct (Ascii.eqb_spec c nl) as [->|Hc]; [exfalso; apply Hn; simpl; auto|].
  rewrite IH; auto; [intros K; apply Hn; simpl; auto|simpl in Hl; lia].
Qed.

(** Readings needed for a line of [k] characters (with its newline). *)
Definition chunks (k : nat) : nat := Nat.div (k + 998) 999.
Lemma chunks_add k : chunks (999 + k) = 1 + chunks k.
Proof. unfold chunks. replace (999 + k + 998) with (k + 998 + 1 * 999) by lia. rewrite Nat.div_add by lia. lia. Qed.
Lemma chunks_small k : 0 < k <= 999 -> chunks k = 1.
Proof. intros H. unfold chunks. symmetry. apply (Nat.div_unique _ 999 1 (k - 1)); lia. Qed.

Local Opaque fgets chunks.
Lemma count_line fuel : forall n b s, ~ In nl b -> length b < fuel ->
  exists f', count_lines fuel n (b ++ nl :: s) = count_lines f' (n + chunks (length b + 1)) s /\ fuel <= f' + chunks (length b + 1) /\ fuel <= f' + length b + 1.
Proof.
  induction fuel as [|f IH]; intros n b s Hn Hf; [lia|]. cbn [count_lines].
  destruct (Nat.lt_ge_cases (length b) 999) as [H|H].
  - rewrite fgets_short by auto. rewrite chunks_small by lia. exists f. destruct (b ++ [nl]) eqn:E; [destruct b; discriminate|]. splits; auto; lia.
  - rewrite fgets_long by auto. destruct (firstn 999 b) eqn:E.
    { apply (f_equal (@length _)) in E. rewrite firstn_length_le in E by lia. discriminate. }
    destruct (IH (n + 1) (skipn 999 b) s) as (f' & E1 & H1 & H2).
    { intros K. apply Hn. rewrite <- (firstn_skipn 999 b). apply in_or_app; auto. }
    { rewrite skipn_length. lia. }
    exists f'. rewrite E1. rewrite skipn_length in *. replace (length b + 1) with (999 + (length b - 999 + 1)) by lia. rewrite chunks_add. splits; try lia. f_equal. lia.
Qed.
Lemma count_last fuel : forall n b, ~ In nl b -> length b < fuel -> count_lines fuel n b = Ok (n + chunks (length b)).
Proof.
  induction fuel as [|f IH]; intros n b Hn Hf; [lia|]. cbn [count_lines].
  destruct (Nat.lt_ge_cases (length b) 999) as [H|H].
  - rewrite fgets_end by (auto; lia). destruct b as [|c b]; [now rewrite Nat.add_0_r|]. simpl in Hf, H. rewrite IH; [|intros []|simpl; lia]. rewrite (chunks_small (length (c :: b))) by (simpl; lia).
    change (chunks (length (@nil ascii))) with 0. f_equal. lia.
  - replace b with (b ++ []) at 1 by apply app_nil_r. rewrite fgets_long by auto. rewrite app_nil_r. destruct (firstn 999 b) eqn:E.
    { apply (f_equal (@length _)) in E. rewrite firstn_length_le in E by lia. discriminate. }
    rewrite IH.
    + f_equal. rewrite skipn_length. replace (length b) with (999 + (length b - 999)) at 2 by lia. rewrite chunks_add. lia.
    + intros K. apply Hn. rewrite <- (firstn_skipn 999 b). apply in_or_app; auto.
    + rewrite skipn_length. lia.
Qed.

Theorem CountLines_spec file lines : lines_of file lines -> CountLinesInFile file = Ok (lsum (fun l => chunks (length l)) lines).
Proof.
  intros (full & last & -> & -> & Hf & Hl). unfold CountLinesInFile. rewrite concat_app.
  assert (G : forall full, (forall l, In l full -> exists b, l = b ++ [nl] /\ ~ In nl b) -> forall fuel n, length (concat full) + length (concat last) < fuel ->
    count_lines fuel n (concat full ++ concat last) = Ok (n + lsum (fun l => chunks (length l)) (full ++ last))).
  { clear Hf. induction full0 as [|l full0 IH]; intros Hf fuel n Hn; cbn [concat app].
    - destruct Hl as [->|(l & -> & _ & Hl)].
      + simpl. rewrite count_last; [|intros []|simpl in *; lia]. reflexivity.
      + cbn [concat lsum] in *. rewrite app_nil_r in *. rewrite count_last; auto.
    - destruct (Hf l (or_introl eq_refl)) as (b & -> & Hb). cbn [concat] in Hn. rewrite !app_length in Hn. simpl length in Hn.
      rewrite <- !app_assoc. cbn [app]. destruct (count_line fuel n b (concat full0 ++ concat last) Hb) as (f' & -> & H1 & H2); [lia|].
      rewrite IH; [|intros; apply Hf; simpl; auto|lia]. f_equal. cbn [app lsum]. rewrite app_length. simpl length. lia. }
  rewrite G; auto. rewrite app_length. lia.
Qed.

(** * Binomial coefficients *)
Fixpoint binom (n k : nat) : nat :=
  match k, n with
  | 0, _ => 1
  | S k', 0 => 0
  | S k', S n' => binom n' k' + binom n' k
  end.
Lemma binom_0 n : binom n 0 = 1. Proof. destruct n; reflexivity. Qed.
Lemma binom_big n : forall k, n < k -> binom n k = 0.
Proof. induction n as [|n IH]; intros [|k] H; try lia; simpl; auto. rewrite !IH by lia. auto. Qed.
Lemma binom_diag n : binom n n = 1.
Proof. induction n as [|n IH]; auto. cbn [binom]. rewrite IH, binom_big by lia. auto. Qed.
Lemma binom_absorb n : forall k, S k * binom (S n) (S k) = S n * binom n k.
Proof.
  induction n as [|n IH]; intros k.
  - destruct k as [|k]; [reflexivity|]. simpl. lia.
  - change (binom (S (S n)) (S k)) with (binom (S n) k + binom (S n) (S k)). rewrite Nat.mul_add_distr_l, IH.
    destruct k as [|k].
    + rewrite !binom_0. lia.
    + pose proof (IH k) as H. change (binom (S n) (S k)) with (binom n k + binom n (S k)) in *. lia.
Qed.
Lemma binom_sym a : forall b, binom (a + b) a = binom (a + b) b.
Proof.
  induction a as [|a IH]; intros b; [rewrite binom_0; symmetry; apply binom_diag|]. induction b as [|b IHb].
  - rewrite Nat.add_0_r, binom_0. apply binom_diag.
  - cbn [binom Nat.add]. rewrite (Nat.add_comm (binom (a + S b) b)). f_equal.
    + rewrite IH. reflexivity.
    + replace (a + S b) with (S a + b) by lia. rewrite IHb. auto.
Qed.

Lemma fold_left_ext {S X} (f h : S -> X -> S) l : (forall s x, In x l -> f s x = h s x) -> forall s, fold_left f l s = fold_left h l s.
Proof. induction l as [|x l IH]; simpl; intros H s; auto. rewrite H by auto. apply IH. auto. Qed.
Lemma firstn_snoc {X} (l : list X) i x : nth_error l i = Some x -> firstn (S i) l = firstn i l ++ [x].
Proof. revert i. induction l as [|y l IH]; intros [|i] E; simpl in *; try discriminate; [congruence|]. now rewrite <- IH. Qed.

Section Exact.
Variables ex sq : Qc -> Qc.
#[local] Instance opsT : NumOps Qc := Qc_ops ex sq.

Lemma floor_half n : nfloor (Qc_of_nat n + Q2Qc (1 # 2))%Qc = n.
Proof.
  unfold nfloor, opsT, Qc_ops. rewrite <- (Nat2Z.id n) at 2. f_equal.
  assert (E : (this (Qc_of_nat n + Q2Qc (1 # 2))%Qc == inject_Z (Z.of_nat n) + (1 # 2))%Q).
  { unfold Qcplus, Qc_of_nat. cbn [this Q2Qc]. rewrite !Qred_correct. reflexivity. }
  rewrite E. unfold Qfloor, inject_Z, Qplus. cbn [Qnum Qden]. symmetry. apply (Z.div_unique _ _ _ 1); lia.
Qed.

Lemma accum_spec m k : fold_left (fun acc i => nmul acc (ndiv (nofnat (m + i)) (nofnat i))) (seq 1 k) n1 = Qc_of_nat (binom (m + k) k).
Proof.
  induction k as [|k IH].
  - simpl. rewrite Nat.add_0_r, binom_0. reflexivity.
  - rewrite seq_S, fold_left_app, IH. cbn [fold_left]. change (1 + k) with (S k). rewrite Nat.add_succ_r.
    pose proof (binom_absorb (m + k) k) as H. apply (f_equal Qc_of_nat) in H. rewrite !Qc_of_nat_mul in H.
    change (nmul (Qc_of_nat (binom (m + k) k)) (ndiv (nofnat (S (m + k))) (nofnat (S k)))) with (Qc_of_nat (binom (m + k) k) * (Qc_of_nat (S (m + k)) / Qc_of_nat (S k)))%Qc.
    assert (Hk : (Qc_of_nat (S k) <> 0)%Qc). { intros K. apply (Qc_of_nat_inj (S k) 0) in K. lia. }
    apply (f_equal (fun x => x / Qc_of_nat (S k))%Qc) in H. transitivity (Qc_of_nat (S k) * Qc_of_nat (binom (S (m + k)) (S k)) / Qc_of_nat (S k))%Qc.
    + rewrite H. field. auto.
    + field. auto.
Qed.

Theorem Choose_spec n k : Choose (Z.of_nat n) (Z.of_nat k) = Qc_of_nat (binom n k).
Proof.
  unfold Choose. destruct (Z.ltb_spec (Z.of_nat n) (Z.of_nat k)) as [H|H]; [now rewrite binom_big by lia|].
  set (k' := if (Z.quot (Z.of_nat n) 2 <? Z.of_nat k)%Z then (Z.of_nat n - Z.of_nat k)%Z else Z.of_nat k).
  assert (Hk : k' = Z.of_nat k \/ k' = (Z.of_nat n - Z.of_nat k)%Z) by (unfold k'; destruct (_ <? _)%Z; auto).
  set (c := Z.to_nat k'). assert (Hc : k' = Z.of_nat c) by (unfold c; lia). assert (Hcn : c <= n) by lia.
  assert (Hb : binom n c = binom n k).
  { destruct Hk as [E|E]; [f_equal; lia|]. replace n with (c + k) by lia. apply binom_sym. }
  rewrite (fold_left_ext _ (fun acc i => nmul acc (ndiv (nofnat (n - c + i)) (nofnat i)))).
  - rewrite accum_spec. replace (n - c + c) with n by lia. rewrite Hb. change (nofnat (nfloor (Qc_of_nat (binom n k) + Q2Qc (1 # 2))%Qc) = Qc_of_nat (binom n k)). rewrite floor_half. reflexivity.
  - intros acc i _. do 3 f_equal. lia.
Qed.

(** * Statistics *)
Lemma sum_data (f : Qc -> Qc) (data : list Qc) N : N <= length data ->
  foldM (fun m i => do x <- get data i; Ok (m + f x)%Qc) 0%Qc (seq 0 N) = Ok (Qsum f (firstn N data)).
Proof.
  intros H. destruct (foldM_seq (fun i m => m = Qsum f (firstn i data)) (fun m i => do x <- get data i; Ok (m + f x)%Qc) N 0%Qc) as (m & E & ->); auto.
  intros i m Hi ->. destruct (nth_ex data i) as [x Ex]; [lia|]. rewrite (get_ok _ _ _ Ex). cbn [bind]. eexists. split; [reflexivity|].
  rewrite Nat.add_1_r, (firstn_snoc _ _ _ Ex), Qsum_app. simpl. ring.
Qed.
Theorem mean_spec data N : N <= length data -> mean data N = Ok (Qsum (fun x => x) (firstn N data) / Qc_of_nat N)%Qc.
Proof. intros H. unfold mean. pose proof (sum_data (fun x => x) data N H) as E. change (foldM (fun m i => do x <- get data i; Ok (nadd m x)) n0 (seq 0 N) = Ok (Qsum (fun x => x) (firstn N data))) in E. rewrite E. reflexivity. Qed.

Lemma Qc_neq_S n : 0 < n -> (Qc_of_nat n <> 0)%Qc.
Proof. intros H K. apply (Qc_of_nat_inj n 0) in K. lia. Qed.
Lemma Qc_sqr_nonneg (x : Qc) : (0 <= x * x)%Qc.
Proof.
  destruct (Qclt_le_dec x 0) as [H|H].
  - replace (x * x)%Qc with ((- x) * (- x))%Qc by ring. assert (0 <= - x)%Qc by (apply Qclt_le_weak in H; apply Qcopp_le_compat in H; exact H).
    replace 0%Qc with (0 * - x)%Qc by ring. now apply Qcmult_le_compat_r.
  - replace 0%Qc with (0 * x)%Qc by ring. now apply Qcmult_le_compat_r.
Qed.

(** The variance of the data. *)
Definition variance (l : list Qc) : Qc :=
  let m := (Qsum (fun x => x) l / Qc_of_nat (length l))%Qc in (Qsum (fun x => (x - m) * (x - m)) l / Qc_of_nat (length l))%Qc.
Lemma variance_nonneg l : l <> [] -> (0 <= variance l)%Qc.
Proof.
  intros H. unfold variance. assert (Hl : 0 < length l) by (destruct l; simpl; [congruence|lia]).
  unfold Qcdiv. replace 0%Qc with (0 * / Qc_of_nat (length l))%Qc by ring. apply Qcmult_le_compat_r.
  - apply Qsum_nonneg. intros; apply Qc_sqr_nonneg.
  - apply Qclt_le_weak. apply Qcnot_le_lt. intros K.
    assert (Hp : (0 < Qc_of_nat (length l))%Qc) by now apply Qc_of_nat_pos.
    assert (E : (Qc_of_nat (length l) * / Qc_of_nat (length l) = 1)%Qc) by (field; now apply Qc_neq_S).
    assert (K2 : (/ Qc_of_nat (length l) * Qc_of_nat (length l) <= 0 * Qc_of_nat (length l))%Qc) by (apply Qcmult_le_compat_r; auto using Qclt_le_weak).
    rewrite Qcmult_comm, E, Qcmult_0_l in K2. apply K2. reflexivity.
Qed.
Lemma variance_alt l : l <> [] ->
  variance l = (Qsum (fun x => x * x) l / Qc_of_nat (length l) - (Qsum (fun x => x) l / Qc_of_nat (length l)) * (Qsum (fun x => x) l / Qc_of_nat (length l)))%Qc.
Proof.
  intros H. unfold variance. assert (Hl : 0 < length l) by (destruct l; simpl; [congruence|lia]). set (m := (Qsum (fun x => x) l / Qc_of_nat (length l))%Qc).
  rewrite (Qsum_ext _ (fun x => (x * x - (1 + 1) * m * x) + m * m)%Qc) by (intros; ring).
  rewrite Qsum_add, Qsum_sub, Qsum_scal, Qsum_const.
  replace (Qsum (fun x => x) l) with (m * Qc_of_nat (length l))%Qc by (unfold m; field; now apply Qc_neq_S). field. now apply Qc_neq_S.
Qed.
(** The standard deviation: the square root of the variance (0 for variance 0). *)
Theorem stddev_spec data N : 0 < N -> N <= length data ->
  stddev data N = Ok (if Qc_eq_dec (variance (firstn N data)) 0 then 0%Qc else sq (variance (firstn N data))).
Proof.
  intros HN H. unfold stddev. set (l := firstn N data). assert (Ll : length l = N) by (unfold l; rewrite firstn_length_le; auto). assert (Hne : l <> []) by (intros K; rewrite K in Ll; simpl in Ll; lia).
  assert (E : foldM (fun '(m, m2) i => do x <- get data i; Ok (nadd m x, nadd m2 (nmul x x))) (n0, n0) (seq 0 N) = Ok (Qsum (fun x => x) l, Qsum (fun x => x * x)%Qc l)).
  { destruct (foldM_seq (fun i '(m, m2) => m = Qsum (fun x => x) (firstn i data) /\ m2 = Qsum (fun x => x * x)%Qc (firstn i data))
      (fun '(m, m2) i => do x <- get data i; Ok (nadd m x, nadd m2 (nmul x x))) N (n0, n0)) as ([m m2] & -> & -> & ->); auto.
    intros i [m m2] Hi [-> ->]. destruct (nth_ex data i) as [x Ex]; [lia|]. rewrite (get_ok _ _ _ Ex). cbn [bind]. eexists. split; [reflexivity|].
    rewrite Nat.add_1_r, (firstn_snoc _ _ _ Ex), !Qsum_app. simpl. split; ring. }
  rewrite E. cbn [bind].
  match goal with |- context [nltb n0 ?v] => assert (Ev : v = variance l) by (rewrite variance_alt, Ll by auto; reflexivity) end.
  rewrite Ev. unfold nltb, nsqrt, opsT, Qc_ops. cbn [n0]. destruct (Qc_ltb 0 (variance l)) eqn:Eb.
  - apply Qc_ltb_true in Eb. destruct (Qc_eq_dec _ _) as [K|K]; auto. rewrite K in Eb. apply Qclt_not_eq in Eb. congruence.
  - apply Qc_ltb_false in Eb. destruct (Qc_eq_dec _ _) as [K|K]; auto. destruct K. apply Qcle_antisym; auto using variance_nonneg.
Qed.

Theorem max_spec data N : 0 < N -> N <= length data ->
  exists m, max_d data N = Ok m /\ In m (firstn N data) /\ forall x, In x (firstn N data) -> (x <= m)%Qc.
Proof.
  intros HN H. unfold max_d. destruct (nth_ex data 0) as [x0 E0]; [lia|]. rewrite (get_ok _ _ _ E0). cbn [bind].
  destruct (foldM_inv (fun done m => In m (firstn (1 + length done) data) /\ forall x, In x (firstn (1 + length done) data) -> (x <= m)%Qc)
    (fun m i => do x <- get data i; Ok (if nltb m x then x else m)) (seq 1 (N - 1)) x0) as (m & E & Hm1 & Hm2).
  - destruct data; [discriminate|]. injection E0 as ->. simpl. split; auto. intros x [->|[]]. apply Qcle_refl.
  - intros done i rest m Eq [H1 H2]. pose proof (seq_split _ _ _ _ _ Eq) as (_ & -> & _ & Hd). 
    assert (Hi : 1 + length done < N). { apply (f_equal (@length _)) in Eq. rewrite seq_length, app_length in Eq. simpl in Eq. lia. }
    destruct (nth_ex data (1 + length done)) as [x Ex]; [lia|]. rewrite (get_ok _ _ _ Ex). cbn [bind]. eexists. split; [reflexivity|].
    rewrite app_length. simpl length. replace (1 + (length done + 1)) with (S (1 + length done)) by lia. rewrite (firstn_snoc _ _ _ Ex).
    change (nltb m x) with (Qc_ltb m x). destruct (Qc_ltb m x) eqn:Eb.
    + apply Qc_ltb_true in Eb. split; [apply in_or_app; simpl; auto|]. intros y Hy. apply in_app_or in Hy as [Hy|[<-|[]]]; [|apply Qcle_refl].
      eapply Qcle_trans; [apply H2; auto|now apply Qclt_le_weak].
    + apply Qc_ltb_false in Eb. split; [apply in_or_app; auto|]. intros y Hy. apply in_app_or in Hy as [Hy|[<-|[]]]; auto.
  - rewrite seq_length in *. replace (1 + (N - 1)) with N in * by lia. eauto.
Qed.
Theorem min_spec data N : 0 < N -> N <= length data ->
  exists m, min_d data N = Ok m /\ In m (firstn N data) /\ forall x, In x (firstn N data) -> (m <= x)%Qc.
Proof.
  intros HN H. unfold min_d. destruct (nth_ex data 0) as [x0 E0]; [lia|]. rewrite (get_ok _ _ _ E0). cbn [bind].
  destruct (foldM_inv (fun done m => In m (firstn (1 + length done) data) /\ forall x, In x (firstn (1 + length done) data) -> (m <= x)%Qc)
    (fun m i => do x <- get data i; Ok (if nltb x m then x else m)) (seq 1 (N - 1)) x0) as (m & E & Hm1 & Hm2).
  - destruct data; [discriminate|]. injection E0 as ->. simpl. split; auto. intros x [->|[]]. apply Qcle_refl.
  - intros done i rest m Eq [H1 H2]. pose proof (seq_split _ _ _ _ _ Eq) as (_ & -> & _ & Hd). 
    assert (Hi : 1 + length done < N). { apply (f_equal (@length _)) in Eq. rewrite seq_length, app_length in Eq. simpl in Eq. lia. }
    destruct (nth_ex data (1 + length done)) as [x Ex]; [lia|]. rewrite (get_ok _ _ _ Ex). cbn [bind]. eexists. split; [reflexivity|].
    rewrite app_length. simpl length. replace (1 + (length done + 1)) with (S (1 + length done)) by lia. rewrite (firstn_snoc _ _ _ Ex).
    change (nltb x m) with (Qc_ltb x m). destruct (Qc_ltb x m) eqn:Eb.
    + apply Qc_ltb_true in Eb. split; [apply in_or_app; simpl; auto|]. intros y Hy. apply in_app_or in Hy as [Hy|[<-|[]]]; [|apply Qcle_refl].
      eapply Qcle_trans; [now apply Qclt_le_weak, Eb|apply H2; auto].
    + apply Qc_ltb_false in Eb. split; [apply in_or_app; auto|]. intros y Hy. apply in_app_or in Hy as [Hy|[<-|[]]]; auto.
  - rewrite seq_length in *. replace (1 + (N - 1)) with N in * by lia. eauto.
Qed.

(** Harmonic numbers. *)
Theorem harmonic_spec size : 0 < size -> exists t, InitializeHarmonicList size = Ok t /\ length t = size /\
  forall i, i < size -> nth_error t i = Some (Qsum (fun j => 1 / Qc_of_nat j) (seq 1 i))%Qc.
Proof.
  intros H. unfold InitializeHarmonicList. rewrite set_ok by (rewrite repeat_length; lia). cbn [bind].
  destruct (foldM_inv (fun done t => length t = size /\ forall i, i <= length done -> i < size -> nth_error t i = Some (Qsum (fun j => 1 / Qc_of_nat j) (seq 1 i))%Qc)
    (fun t i => do x <- get t (i - 1); set t i (nadd x (ndiv (nofQ (1 # 1)) (nofnat i)))) (seq 1 (size - 1)) (upd (repeat n0 size) 0 n0)) as (t & E & Lt & Ht).
  - rewrite length_upd, repeat_length. split; auto. intros i Hi Hs. simpl in Hi. assert (i = 0) as -> by lia. rewrite nth_upd_eq; auto. now rewrite repeat_length.
  - intros done i rest t Eq [Lt Ht]. pose proof (seq_split _ _ _ _ _ Eq) as (_ & -> & _ & Hd).
    assert (Hi : 1 + length done < size). { apply (f_equal (@length _)) in Eq. rewrite seq_length, app_length in Eq. simpl in Eq. lia. }
    replace (1 + length done - 1) with (length done) by lia. rewrite (get_ok _ _ _ (Ht (length done) (le_n _) ltac:(lia))). cbn [bind].
    rewrite set_ok by lia. eexists. split; [reflexivity|]. rewrite length_upd. split; auto. intros k Hk Hs. rewrite app_length in Hk. simpl in Hk. rewrite nth_upd.
    destruct (Nat.eqb_spec k (1 + length done)) as [->|Hne]; cbn [andb].
    + rewrite (proj2 (Nat.ltb_lt _ _)) by lia. f_equal. change (seq 1 (1 + length done)) with (seq 1 (S (length done))). rewrite (seq_S (length done) 1), Qsum_app. cbn [Qsum]. change (1 + length done) with (S (length done)). change (nadd ?a ?b) with (a + b)%Qc. change (ndiv ?a ?b) with (a / b)%Qc. change (nofnat (S (length done))) with (Qc_of_nat (S (length done))). change (nofQ (1 # 1)) with 1%Qc. ring.
    + apply Ht; lia.
  - exists t. rewrite seq_length in Ht. splits; auto. intros i Hi. apply Ht; lia.
Qed.
End Exact.

(** Properties5.v -- tools: C35, C45, C46, C47. *)
From Coq Require Import List Arith Ascii String Lia Bool ZArith QArith Qcanon.
From Coq Require Import Floats.SpecFloat.
From Verif Require Import Base Num ListLib QcSum NatSum IoModel IoSpec ToolsModel ToolsProof Refute.
Import ListNotations.
Local Open Scope nat_scope.

Section Generic.
Context {A : Type} {ops : NumOps A}.

(** C35: whatever has been asked before, the table of binomial coefficients answers with the direct value and stays inside. *)
Theorem C35_choose (f : nat -> nat -> A) size : nltb (nofQ (-1 # 1)) n0 = true ->
  forall qs : list (nat * nat), (forall r l, In (r, l) qs -> l <= r) ->
  exists tab, foldM (fun '(out, tab) '(r, l) => do (x, tab) <- FastLogChoose f r l tab size; Ok (out ++ [x], tab)) ([], InitializeFastLogChoose size) qs
    = Ok (map (fun '(r, l) => f r l) qs, tab).
Proof. exact (lc_history f size). Qed.

(** C35: the logarithm, factorial and gamma tables. *)
Theorem C35_table (f : nat -> A) size r : FastTable f r (InitializeTable f size) size = Ok (f r).
Proof. exact (table_value f size r). Qed.

(** C35: beyond the stated range (l >= size > r) the first query reads outside the table. *)
Theorem C35_out_of_range_refuted (f : nat -> nat -> A) size r l : r < size -> size <= l ->
  FastLogChoose f r l (InitializeFastLogChoose size) size = Err UB_oob.
Proof. exact (lc_oob f size _ r l (lc_init f size)). Qed.

(** C47: the geometric draw counts the draws above p before the first one that is not. *)
Theorem C47_geometric p ds v rest : geometric_dist_val p ds = Ok (v, rest) <->
  exists before u, ds = before ++ u :: rest /\ List.length before = v /\ Forall (fun x : A => nltb p x = true) before /\ nltb p u = false.
Proof. exact (geometric_spec p ds v rest). Qed.
End Generic.

(** C47: lines of a file: right as long as no line has more than 999 characters, its newline included. *)
Theorem C47_lines file lines : lines_of file lines -> (forall l, In l lines -> List.length l <= 999) ->
  CountLinesInFile file = Ok (List.length lines).
Proof.
  intros H Hl. rewrite (CountLines_spec _ _ H). f_equal. assert (G : forall l, In l lines -> chunks (List.length l) = 1).
  { intros l Il. apply chunks_small. split; [|auto]. destruct l; [|simpl; lia]. exfalso. destruct H as (full & last & -> & _ & Hf & Hlast).
    apply in_app_or in Il as [Il|Il].
    - destruct (Hf _ Il) as ([|] & E & _); discriminate.
    - destruct Hlast as [->|(l & -> & Hn & _)]; [destruct Il|]. destruct Il as [->|[]]. congruence. }
  clear H Hl. induction lines as [|l lines IH]; auto. cbn [lsum List.length]. rewrite G by (simpl; auto). rewrite IH; auto. intros; apply G; simpl; auto.
Qed.
(** C47: a longer line is counted once per 999 characters. *)
Theorem C47_long_lines file lines : lines_of file lines -> CountLinesInFile file = Ok (lsum (fun l => Nat.div (List.length l + 998) 999) lines).
Proof. exact (CountLines_spec file lines). Qed.
Theorem C47_long_line_refuted : exists file lines, lines_of file lines /\ CountLinesInFile file <> Ok (List.length lines).
Proof.
  exists (repeat "a"%char 1000), [repeat "a"%char 1000].
  assert (H : lines_of (repeat "a"%char 1000) [repeat "a"%char 1000]).
  { exists [], [repeat "a"%char 1000]. splits; auto; [intros l []|].
    right. eexists. split; [reflexivity|]. split; [intros K; apply (f_equal (@List.length _)) in K; rewrite repeat_length in K; discriminate|].
    intros K. apply repeat_spec in K. discriminate. }
  split; auto. rewrite (C47_long_lines _ _ H). vm_compute. discriminate.
Qed.

(** C46: factorials. *)
Theorem C46_fact a : fact_long a = if (a <? 0)%Z then Err Diverge else if (a <=? 20)%Z then Ok (Z.of_nat (fact (Z.to_nat a))) else Err Wrap.
Proof. exact (fact_long_spec a). Qed.

Section Exact.
Variables ex sq : Qc -> Qc.
#[local] Instance opsP5 : NumOps Qc := Qc_ops ex sq.

(** C46: binomial coefficients (Pascal's triangle). *)
Theorem C46_choose n k : Choose (Z.of_nat n) (Z.of_nat k) = Qc_of_nat (binom n k).
Proof. exact (Choose_spec ex sq n k). Qed.

(** C45: statistics. *)
Theorem C45_mean data N : N <= List.length data -> mean data N = Ok (Qsum (fun x => x) (firstn N data) / Qc_of_nat N)%Qc.
Proof. exact (mean_spec ex sq data N). Qed.
Theorem C45_stddev data N : 0 < N -> N <= List.length data ->
  stddev data N = Ok (if Qc_eq_dec (variance (firstn N data)) 0 then 0%Qc else sq (variance (firstn N data))).
Proof. exact (stddev_spec ex sq data N). Qed.
Theorem C45_max data N : 0 < N -> N <= List.length data ->
  exists m, max_d data N = Ok m /\ In m (firstn N data) /\ forall x, In x (firstn N data) -> (x <= m)%Qc.
Proof. exact (max_spec ex sq data N). Qed.
Theorem C45_min data N : 0 < N -> N <= List.length data ->
  exists m, min_d data N = Ok m /\ In m (firstn N data) /\ forall x, In x (firstn N data) -> (m <= x)%Qc.
Proof. exact (min_spec ex sq data N). Qed.
Theorem C45_harmonic size : 0 < size -> exists t, InitializeHarmonicList size = Ok t /\ List.length t = size /\
  forall i, i < size -> nth_error t i = Some (Qsum (fun j => 1 / Qc_of_nat j) (seq 1 i))%Qc.
Proof. exact (harmonic_spec ex sq size). Qed.
End Exact.

(** * Witnesses *)
#[local] Instance ops0 : NumOps Qc := Qc_ops ex0 sq0.
(** The hypothesis on the marker -1 holds in exact and in IEEE arithmetic. *)
Example marker_Qc : nltb (nofQ (-1 # 1)) n0 = true. Proof. reflexivity. Qed.
Example marker_float : @nltb _ (SF_ops (fun x => x)) (@nofQ _ (SF_ops (fun x => x)) (-1 # 1)) (@n0 _ (SF_ops (fun x => x))) = true. Proof. vm_compute. reflexivity. Qed.
(** Queries inside and outside the table, repeated. *)
Example lc_run :
  match foldM (fun '(out, tab) '(r, l) => do (x, tab) <- FastLogChoose (fun r l => Qc_of_nat (binom r l)) r l tab 5; Ok (out ++ [x], tab))
     ([], InitializeFastLogChoose 5) [(4, 2); (4, 2); (7, 3); (3, 3)] with
  | Ok (out, _) => out = map Qc_of_nat [6; 6; 35; 1] | Err _ => False end.
Proof. vm_compute. reflexivity. Qed.
Example lines_met : lines_of (list_ascii_of_string "ab" ++ [nl] ++ [nl] ++ list_ascii_of_string "c")
    [list_ascii_of_string "ab" ++ [nl]; [nl]; list_ascii_of_string "c"] /\
  CountLinesInFile (list_ascii_of_string "ab" ++ [nl] ++ [nl] ++ list_ascii_of_string "c") = Ok 3.
Proof.
  split; [|vm_compute; reflexivity]. exists [list_ascii_of_string "ab" ++ [nl]; [nl]], [list_ascii_of_string "c"]. splits; auto.
  - intros l [<-|[<-|[]]]; [exists (list_ascii_of_string "ab")|exists []]; split; auto; simpl; intuition discriminate.
  - right. eexists. split; [reflexivity|]. split; [discriminate|]. simpl. intuition discriminate.
Qed.
Example geometric_met : geometric_dist_val (Q2Qc (1 # 2)) [Q2Qc (3 # 4); Q2Qc (2 # 3); Q2Qc (1 # 4); 0%Qc] = Ok (2, [0%Qc]).
Proof. reflexivity. Qed.
Example choose_met : Choose 7 5 = Qc_of_nat 21 /\ binom 7 5 = 21. Proof. split; vm_compute; reflexivity. Qed.
Definition data4 : list Qc := map Qc_of_nat [2; 4; 4; 6].
Example statistics_met :
  match mean data4 4, max_d data4 4, min_d data4 4 with Ok m, Ok a, Ok b => this m = 4%Q /\ this a = 6%Q /\ this b = 2%Q | _, _, _ => False end /\
  this (variance data4) = 2%Q.
Proof. vm_compute. splits; reflexivity. Qed.

Print Assumptions C35_choose.
Print Assumptions C35_table.
Print Assumptions C35_out_of_range_refuted.
Print Assumptions C45_mean.
Print Assumptions C45_stddev.
Print Assumptions C45_max.
Print Assumptions C45_min.
Print Assumptions C45_harmonic.
Print Assumptions C46_fact.
Print Assumptions C46_choose.
Print Assumptions C47_geometric.
Print Assumptions C47_lines.
Print Assumptions C47_long_lines.
Print Assumptions C47_long_line_refuted.

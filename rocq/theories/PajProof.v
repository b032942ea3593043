(** PajProof.v -- what the file in Pajek format says about the network. *)
From Coq Require Import List Arith Bool Ascii Lia.
From Verif Require Import Base ListLib IoModel GraphModel GraphSpec GraphProof GraphRand NetCopy RecAux NetModel PajModel.
Import ListNotations.
Local Open Scope nat_scope.

Section Paj.
Context {A : Type} {ops : NumOps A}.

Definition rows_at (g : net A) (weighted symmetric : bool) (i : nat) : list (nat * nat * option A) :=
  map (fun j => (S i, S j, if weighted then weight g i j else None)) (filter (fun j => negb symmetric || (i <=? j)) (nbrs g i)).
Lemma pajek_rows_ok g weighted symmetric i : wf_net g -> i < length g -> pajek_rows g weighted symmetric i = Ok (rows_at g weighted symmetric i).
Proof.
  intros W Hi. destruct (nth_ex g i Hi) as [n En]. unfold pajek_rows. rewrite (get_ok _ _ _ En). cbn [bind]. pose proof (wf_num g W i n En) as Ei.
  set (h := fun l : link A => match lref l with Some j => if negb symmetric || (i <=? j) then [(S i, S j, if weighted then weight g i j else None)] else [] | None => [] end).
  rewrite (mapM_ok _ h).
  - cbn [bind]. f_equal. unfold rows_at, nbrs. rewrite En. clear En Ei. induction (gadj n) as [|l ls IH]; auto. cbn [map concat targets flat_map]. rewrite filter_app, map_app. rewrite IH. f_equal. unfold h. destruct (lref l) as [j|]; auto. cbn [filter]. destruct (_ || _); reflexivity.
  - intros l Hl. destruct (wf_link g W i n l En Hl) as (j & m & E1 & E2 & _). unfold h. rewrite E1. cbn [deref bind]. rewrite (get_ok _ _ _ E2). cbn [bind]. rewrite Ei, (wf_num g W j m E2).
    assert (Hw : weight g i j = Some (lweight l)). { unfold weight. rewrite En. apply weight_in_at; auto. pose proof (wf_nodup g W i) as N. unfold nbrs in N. now rewrite En in N. }
    rewrite Hw, !Nat.add_1_r. reflexivity.
Qed.
Lemma nodes_numbered (g : net A) : forall k, (forall i n, nth_error g i = Some n -> gnum n = k + i) -> map (fun n => (gnum n + 1, glabel n)) g = combine (seq (S k) (length g)) (map glabel g).
Proof.
  induction g as [|n g IH]; intros k H; auto. cbn [map length seq combine]. f_equal.
  - f_equal. rewrite (H 0 n eq_refl). lia.
  - apply IH. intros i m E. rewrite (H (S i) m E). lia.
Qed.
Theorem Pajek_ok g weighted symmetric : wf_net g ->
  FPrintPajekFile g weighted symmetric = Ok (mkPaj (length g) (combine (seq 1 (length g)) (map glabel g)) (negb symmetric) (flat_map (rows_at g weighted symmetric) (seq 0 (length g)))).
Proof.
  intros W. unfold FPrintPajekFile. rewrite (mapM_ok _ (rows_at g weighted symmetric)).
  - cbn [bind]. rewrite flat_map_concat_map. rewrite (nodes_numbered g 0); [reflexivity|]. intros i n E. apply (wf_num g W i n E).
  - intros i Hi. apply in_seq in Hi. apply pajek_rows_ok; auto. lia.
Qed.
Lemma nbrs_in (g : net A) i j : wf_net g -> In j (nbrs g i) -> i < length g.
Proof. intros W H. unfold nbrs in H. destruct (nth_error g i) eqn:E; [|destruct H]. apply nth_error_Some. congruence. Qed.
Lemma rows_In (g : net A) (weighted symmetric : bool) a b w : wf_net g -> In (a, b, w) (flat_map (rows_at g weighted symmetric) (seq 0 (length g))) <->
  exists i j x, a = S i /\ b = S j /\ weight g i j = Some x /\ w = (if weighted then Some x else None) /\ (symmetric = true -> i <= j).
Proof.
  intros W. rewrite in_flat_map. split.
  - intros (i & _ & H). apply in_map_iff in H as (j & E & H). apply filter_In in H as [H K]. apply nbrs_weight in H. destruct (weight g i j) as [x|] eqn:Ew; [|congruence]. injection E as E1 E2 E3. exists i, j, x. splits; auto. intros ->. cbn in K. now apply Nat.leb_le in K.
  - intros (i & j & x & -> & -> & Ew & -> & K). assert (Hn : In j (nbrs g i)) by (apply nbrs_weight; congruence). exists i. split; [apply in_seq; pose proof (nbrs_in g i j W Hn); lia|]. apply in_map_iff. exists j. rewrite Ew. split; auto. apply filter_In. split; auto. destruct symmetric; auto. cbn. apply Nat.leb_le. auto.
Qed.
Lemma rows_once (g : net A) weighted symmetric : wf_net g -> NoDup (map fst (flat_map (rows_at g weighted symmetric) (seq 0 (length g)))).
Proof.
  intros W. replace (map fst (flat_map (rows_at g weighted symmetric) (seq 0 (length g)))) with (flat_map (fun i => map (fun j => (S i, S j)) (filter (fun j => negb symmetric || (i <=? j)) (nbrs g i))) (seq 0 (length g))).
  - apply NoDup_flat; [apply seq_NoDup| |].
    + intros i _. apply FinFun.Injective_map_NoDup; [intros x y E; congruence|]. apply NoDup_filter. apply (wf_nodup g W).
    + intros i i' y _ _ H1 H2. apply in_map_iff in H1 as (j & E1 & _). apply in_map_iff in H2 as (j' & E2 & _). congruence.
  - induction (seq 0 (length g)) as [|i l IH]; auto. cbn [flat_map]. rewrite map_app, <- IH. f_equal. unfold rows_at. rewrite map_map. reflexivity.
Qed.
Theorem Degrees_ok (g : net A) : wf_net g -> exists g', FPrintDegrees g = Ok (map (fun i => (match nth_error g i with Some n => glabel n | None => [] end, degree g i)) (seq 0 (length g)), g') /\ same_links g g'.
Proof.
  intros W. unfold FPrintDegrees.
  assert (H : forall l out g0, same_links g g0 -> (forall i, In i l -> i < length g) ->
    exists g', foldM (fun '(out, g) i => do n <- get g i; do (d, g) <- NodeDegree g i; Ok (out ++ [(glabel n, d)], g)) (out, g0) l =
      Ok (out ++ map (fun i => (match nth_error g i with Some n => glabel n | None => [] end, degree g i)) l, g') /\ same_links g g').
  { induction l as [|i l IH]; intros out g0 Hs Hl; cbn [foldM map].
    - exists g0. rewrite app_nil_r. auto.
    - pose proof Hs as (W0 & S0 & N0 & _). assert (Li : i < length g0) by (rewrite <- (same_nodes_length _ _ S0); apply Hl; simpl; auto).
      destruct (NodeDegree_spec g0 i W0 Li) as (g1 & E1 & Hs1). destruct (nth_ex g0 i Li) as [n En]. rewrite (get_ok _ _ _ En). cbn [bind]. rewrite E1. cbn [bind]. rewrite (same_links_degree g g0 i Hs).
      destruct (nth_ex g i (Hl i (or_introl eq_refl))) as [m Em]. rewrite Em. assert (EL : glabel n = glabel m).
      { clear -S0 En Em. unfold same_nodes in S0. revert i En Em. induction S0 as [|x y l l' Hxy _ IH]; intros [|i] En Em; try discriminate; cbn in *; [|eauto]. assert (x = m) by congruence. assert (y = n) by congruence. subst. symmetry. apply Hxy. }
      rewrite EL. destruct (IH (out ++ [(glabel m, degree g i)]) g1) as (g' & E & Hs'); [eapply same_links_trans; eauto|intros x Hx; apply Hl; simpl; auto|]. exists g'. split; auto. rewrite E. rewrite <- app_assoc. reflexivity. }
  destruct (H (seq 0 (length g)) [] g (same_links_refl g W)) as (g' & E & Hs); [intros i Hi; apply in_seq in Hi; lia|]. exists g'. split; auto.
Qed.
End Paj.

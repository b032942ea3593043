(** ProjExact.v -- exact arithmetic: the projected network of a bipartite edge list. *)
From Coq Require Import List Arith Lia Bool ZArith QArith Qcanon Sorting.Sorted Sorting.Permutation.
From Verif Require Import Base Num ListLib QcSum PartModel FillModel PartSpec AdjSpec ModSpec PartInv FillProof EdgeListProof EdgeListExact
  RolesBounds CoreExact ProjModel ProjSpec RunLib ProjProof ProjThms.
Import ListNotations.
Local Open Scope nat_scope.

(** ** Sorted lists *)
Section Sorted.
Context {A : Type} {ops : NumOps A}.
Lemma compare_le (a b : Edge A) : (EdgeCompare a b <= 0)%Z <-> lek (pairk a) (pairk b).
Proof.
  unfold EdgeCompare, lek, pairk; cbn [fst snd].
  destruct (Nat.ltb_spec (enode2 a) (enode2 b)), (Nat.ltb_spec (enode2 b) (enode2 a)),
    (Nat.ltb_spec (enode1 a) (enode1 b)), (Nat.ltb_spec (enode1 b) (enode1 a)); split; intros; try lia.
Qed.
Lemma sorted_pairk (l : list (Edge A)) : StronglySorted (fun a b => (EdgeCompare a b <= 0)%Z) l -> ksorted pairk l.
Proof.
  unfold ksorted. induction 1 as [|x l S IH F]; constructor; auto. rewrite Forall_forall in *. intros y Hy. apply compare_le; auto.
Qed.
Lemma sorted_teamk (l : list (Edge A)) : ksorted pairk l -> ksorted teamk l.
Proof.
  unfold ksorted. induction 1 as [|x l S IH F]; constructor; auto. rewrite Forall_forall in *. intros y Hy. specialize (F y Hy).
  unfold lek, pairk, teamk in *. cbn [fst snd] in *. lia.
Qed.
(** In a sorted list without repetitions the later of two members of a team has the larger number. *)
Lemma tp_in (r : list (Edge A)) x y : In (x, y) (tp r) -> exists l1 l2 l3, r = l1 ++ y :: l2 ++ x :: l3.
Proof.
  induction r as [|e r IH] using rev_ind; [intros []|]. rewrite tp_snoc, in_app_iff. intros [H|H].
  - destruct (IH H) as (l1 & l2 & l3 & ->). exists l1, l2, (l3 ++ [e]). rewrite <- !app_assoc. cbn. now rewrite <- !app_assoc.
  - apply in_map_iff in H as (y' & [= -> ->] & H). apply in_split in H as (l1 & l2 & ->). exists l1, l2, []. now rewrite <- app_assoc.
Qed.
Lemma tp_mem (r : list (Edge A)) x y : In (x, y) (tp r) -> In x r /\ In y r.
Proof.
  intros H. destruct (tp_in r x y H) as (l1 & l2 & l3 & ->). split; rewrite !in_app_iff; cbn; rewrite ?in_app_iff; cbn; auto.
Qed.
Lemma tp_or (r : list (Edge A)) x y : In x r -> In y r -> x <> y -> In (x, y) (tp r) \/ In (y, x) (tp r).
Proof.
  induction r as [|e r IH] using rev_ind; [intros []|]. rewrite tp_snoc, !in_app_iff. intros [Hx|[<-|[]]] [Hy|[<-|[]]] Hne; try congruence.
  - destruct (IH Hx Hy Hne); auto.
  - right. right. apply in_map; auto.
  - left. right. apply in_map; auto.
Qed.
Lemma ksorted_later {X} (key : X -> nat * nat) l1 y l2 x l3 : ksorted key (l1 ++ y :: l2 ++ x :: l3) -> lek (key y) (key x).
Proof.
  unfold ksorted. induction l1 as [|a l1 IH]; cbn [app].
  - intros H. inversion H as [|? ? _ F]; subst. rewrite Forall_forall in F. apply F. rewrite in_app_iff. cbn; auto.
  - intros H. inversion H; subst. auto.
Qed.
End Sorted.

Section Exact.
Variables ex sq : Qc -> Qc.
#[local] Instance opsJ : NumOps Qc := Qc_ops ex sq.
Variable qsort : list (Edge Qc) -> list (Edge Qc).
Hypothesis HQ : sorts qsort.
Implicit Types (es : list (nat * nat * Qc)).

Lemma HQp : forall l, Permutation l (qsort l).
Proof. intros l. apply HQ. Qed.
Notation ed := (sorted_edges qsort).
Notation prj := (projected qsort).
Notation lnk := (links qsort).

Lemma ed_in es e : In e (ed es) <-> In (enode1 e, enode2 e, estr e) es.
Proof.
  unfold sorted_edges. split; intros H.
  - apply (Permutation_in _ (Permutation_sym (HQp _))) in H. apply in_map_iff in H as ([[a b] w] & <- & H). auto.
  - apply (Permutation_in _ (HQp _)). apply in_map_iff. exists (enode1 e, enode2 e, estr e). split; auto. destruct e; auto.
Qed.
Lemma ed_sorted es : ksorted teamk (ed es).
Proof. apply sorted_teamk, sorted_pairk. apply HQ. Qed.
Lemma ed_nodup es : once es -> NoDup (map pairk (ed es)).
Proof.
  intros H. unfold sorted_edges. apply (Permutation_NoDup (Permutation_map pairk (HQp _))). rewrite map_map.
  unfold once in H. assert (E : map (fun x => pairk (toE x)) es = map (fun p : nat * nat => (snd p, fst p)) (map fst es)).
  { rewrite map_map. apply map_ext. intros [[a b] w]. auto. }
  rewrite E. apply FinFun.Injective_map_NoDup; auto. intros [a b] [c d] [= -> ->]. auto.
Qed.

(** The pairs found in the teams. *)
Lemma team_pair es x y : once es -> In (x, y) (flat_map tp (runs teamk (ed es))) ->
  In x (ed es) /\ In y (ed es) /\ enode2 x = enode2 y /\ (enode1 y < enode1 x)%nat.
Proof.
  intros O H. apply in_flat_map in H as (r & Hr & H). destruct (tp_mem r x y H) as [Hx Hy].
  pose proof (runs_key teamk _ r x y Hr Hx Hy) as K. unfold teamk in K. injection K as K.
  splits; auto; try (eapply runs_in; eauto).
  destruct (tp_in r x y H) as (l1 & l2 & l3 & El). apply in_split in Hr as (rs1 & rs2 & Er).
  assert (EE : ed es = (concat rs1 ++ l1) ++ y :: l2 ++ x :: (l3 ++ concat rs2)).
  { rewrite <- (runs_concat teamk (ed es)), Er, concat_app. cbn [concat]. rewrite El, <- !app_assoc. cbn. rewrite <- !app_assoc. reflexivity. }
  pose proof (sorted_pairk _ (proj2 (HQ (map toE es)))) as S. fold (ed es) in S. pose proof (ed_nodup es O) as ND. rewrite EE in S, ND.
  apply ksorted_later in S. unfold lek, pairk in S. cbn [fst snd] in S.
  rewrite !map_app in ND. cbn [map] in ND. rewrite map_app in ND. cbn [map] in ND.
  assert (enode1 x <> enode1 y).
  { intros X. apply NoDup_remove_2 in ND. apply ND. rewrite !in_app_iff. right. right. left. unfold pairk. now rewrite X, K. }
  lia.
Qed.
Lemma team_pair_ex es x y : In x (ed es) -> In y (ed es) -> enode2 x = enode2 y -> x <> y ->
  In (x, y) (flat_map tp (runs teamk (ed es))) \/ In (y, x) (flat_map tp (runs teamk (ed es))).
Proof.
  intros Hx Hy E Hne. destruct (runs_same teamk (ed es) x y (ed_sorted es) Hx Hy) as (r & Hr & H1 & H2).
  { unfold teamk. now rewrite E. }
  destruct (tp_or r x y H1 H2 Hne); [left|right]; apply in_flat_map; eauto.
Qed.
Lemma prj_in es e : In e (prj es) <-> exists x, In x (flat_map tp (runs teamk (ed es))) /\ e = mk2 x.
Proof.
  unfold projected. split.
  - intros H. apply (Permutation_in _ (Permutation_sym (HQp _))) in H. apply in_map_iff in H as (x & <- & H). eauto.
  - intros (x & H & ->). apply (Permutation_in _ (HQp _)). apply in_map; auto.
Qed.
Lemma prj_ok es : once es -> Forall (pr_ok (numN es)) (prj es).
Proof.
  intros O. rewrite Forall_forall. intros e H. apply prj_in in H as ([x y] & H & ->). destruct (team_pair es x y O H) as (Hx & Hy & K & L).
  apply ed_in in Hx, Hy. unfold pr_ok, mk2. cbn [enode1 enode2 fst snd]. splits; [lia| |]; eapply numN_lt; eauto.
Qed.
Lemma prj_shares es e : once es -> In e (prj es) -> shares es (enode1 e) (enode2 e).
Proof.
  intros O H. apply prj_in in H as ([x y] & H & ->). destruct (team_pair es x y O H) as (Hx & Hy & K & L).
  apply ed_in in Hx, Hy. unfold mk2. cbn [enode1 enode2 fst snd]. exists (enode2 x), (estr x), (estr y). rewrite K in *. auto.
Qed.

(** The links. *)
Lemma link_in es i j : once es ->
  ((exists w, In (i, j, w) (lnk es)) \/ (exists w, In (j, i, w) (lnk es))) <-> i <> j /\ shares es i j.
Proof.
  intros O.
  assert (K : forall i j, (exists w, In (i, j, w) (lnk es)) <-> exists e, In e (prj es) /\ enode1 e = i /\ enode2 e = j).
  { intros a b. unfold links, classes. split.
    - intros (w & H). apply in_map_iff in H as (r & E & Hr). destruct r as [|e r]; [exfalso; eapply runs_nonempty; eauto|].
      cbn [class] in E. injection E as <- <- _. exists e. splits; auto. eapply runs_in; eauto. left; auto.
    - intros (e & He & <- & <-). rewrite <- (runs_concat pairk (prj es)) in He. apply in_concat in He as (r & Hr & He).
      destruct r as [|x r]; [destruct He|]. exists (rsum (x :: r)). apply in_map_iff. exists (x :: r). split; auto.
      cbn [class]. pose proof (runs_key pairk _ _ x e Hr (or_introl eq_refl) He) as X. unfold pairk in X. injection X as -> ->. auto. }
  rewrite !K. split.
  - intros [(e & He & <- & <-)|(e & He & <- & <-)]; (split; [apply (proj1 (Forall_forall _ _) (prj_ok es O)) in He; destruct He; auto|]).
    + apply prj_shares; auto.
    + destruct (prj_shares es e O He) as (t & v & w & H1 & H2). exists t, w, v; auto.
  - intros (Hne & t & v & w & H1 & H2).
    assert (E1 : In (mkEdge i t v) (ed es)) by (apply ed_in; auto). assert (E2 : In (mkEdge j t w) (ed es)) by (apply ed_in; auto).
    destruct (team_pair_ex es _ _ E1 E2) as [H|H]; auto; [congruence| |].
    + left. exists (mk2 (mkEdge i t v, mkEdge j t w)). splits; auto. apply prj_in. eauto.
    + right. exists (mk2 (mkEdge j t w, mkEdge i t v)). splits; auto. apply prj_in. eauto.
Qed.
Lemma link_gt es i j w : once es -> In (i, j, w) (lnk es) -> (j < i)%nat.
Proof.
  intros O H. unfold links, classes in H. apply in_map_iff in H as (r & E & Hr). destruct r as [|e r]; [exfalso; eapply runs_nonempty; eauto|].
  cbn [class] in E. injection E as <- <- _. assert (He : In e (prj es)) by (eapply runs_in; eauto; left; auto).
  apply prj_in in He as ([x y] & He & ->). destruct (team_pair es x y O He) as (_ & _ & _ & L). auto.
Qed.
Lemma link_nodup es : once es -> no_duplicates (lnk es).
Proof.
  intros O l1 a b w l2 a' b' w' E H.
  assert (G1 : (b < a)%nat). { apply (link_gt es a b w O). rewrite E, in_app_iff. cbn; auto. }
  assert (G2 : (b' < a')%nat). { apply (link_gt es a' b' w' O). rewrite E, in_app_iff. cbn; auto. }
  intros [[-> ->]|[-> ->]]; [|lia].
  pose proof (runs_apart pairk (prj es) (sorted_pairk _ (proj2 (HQ _)))) as AP. unfold links, classes in E.
  apply map_eq_app in E as (q1 & q2 & Eq & _ & E2). rewrite Eq in AP.
  destruct q2 as [|r q2]; [discriminate|]. cbn [map] in E2. injection E2 as Er E2.
  assert (AP2 : ForallOrdPairs (fun r r' => forall e f, In e r -> In f r' -> pairk e <> pairk f) (r :: q2)).
  { clear - AP. induction q1; auto. inversion AP; auto. }
  inversion AP2 as [|? ? F _]; subst. rewrite Forall_forall in F. apply in_map_iff in H as (r' & Er' & Hr').
  assert (R1 : In r (runs pairk (prj es))) by (rewrite Eq, in_app_iff; cbn; auto).
  assert (R2 : In r' (runs pairk (prj es))) by (rewrite Eq, in_app_iff; cbn; auto).
  destruct r as [|e r]; [exact (runs_nonempty pairk _ _ R1 eq_refl)|]. destruct r' as [|f r']; [exact (runs_nonempty pairk _ _ R2 eq_refl)|].
  cbn [class] in Er, Er'. injection Er as <- <- _. injection Er' as X1 X2 _.
  apply (F _ Hr' e f); try (left; auto). unfold pairk. congruence.
Qed.

(** ** Sums *)
Local Open Scope Qc_scope.
Lemma rsum_sum (r : list (Edge Qc)) : rsum r = Qsum estr r.
Proof.
  unfold rsum. cbn [n0 opsJ Qc_ops]. assert (G : forall a, fold_left nadd (map estr r) a = a + Qsum estr r).
  { induction r as [|e r IH]; intros a; cbn [map fold_left Qsum]; [ring|]. rewrite IH. cbn [nadd opsJ Qc_ops]. ring. }
  rewrite G. ring.
Qed.
Definition on_pair (i j a b : nat) : bool := (Nat.eqb a i && Nat.eqb b j) || (Nat.eqb a j && Nat.eqb b i).
Lemma classes_sum i j (rs : list (list (Edge Qc))) : (forall r e f, In r rs -> In e r -> In f r -> pairk e = pairk f) ->
  pair_weight (classes rs) i j = Qsum (fun e => if on_pair i j (enode1 e) (enode2 e) then estr e else 0) (concat rs).
Proof.
  induction rs as [|r rs IH]; intros H; cbn [classes map concat]; [reflexivity|]. unfold pair_weight in *. cbn [Qsum]. fold (classes rs).
  rewrite IH by (intros; eapply H; eauto; right; auto). rewrite Qsum_app. f_equal.
  destruct r as [|e r]; [cbn; destruct (_ || _); reflexivity|]. cbn [class]. rewrite rsum_sum.
  rewrite (Qsum_ext (fun e0 => if on_pair i j (enode1 e0) (enode2 e0) then estr e0 else 0) (fun e0 => if on_pair i j (enode1 e) (enode2 e) then estr e0 else 0)).
  - unfold on_pair. destruct (_ || _); auto. symmetry. apply Qsum_0; auto.
  - intros f Hf. assert (K : pairk e = pairk f) by (eapply H; eauto; left; auto). unfold pairk in K. injection K as -> ->. auto.
Qed.
Lemma tp_sum (g : Edge Qc -> Edge Qc -> Qc) (r : list (Edge Qc)) : (forall x, In x r -> g x x = 0) ->
  Qsum (fun x => Qsum (fun y => g x y) r) r = Qsum (fun p => g (fst p) (snd p) + g (snd p) (fst p)) (tp r).
Proof.
  induction r as [|e r IH] using rev_ind; intros H; [reflexivity|]. rewrite tp_snoc, !Qsum_app, Qsum_map. cbn [Qsum fst snd].
  rewrite <- IH by (intros; apply H; apply in_or_app; auto).
  rewrite (Qsum_ext (fun x => Qsum (fun y => g x y) (r ++ [e])) (fun x => Qsum (fun y => g x y) r + g x e)).
  2: { intros x _. rewrite Qsum_app. cbn [Qsum]. ring. }
  rewrite Qsum_add, Qsum_app. cbn [Qsum]. rewrite (H e) by (apply in_or_app; cbn; auto). rewrite Qsum_add. change (fun y : Edge Qc => g e y) with (g e). ring.
Qed.
Lemma runs_sum (g : Edge Qc -> Edge Qc -> Qc) (rs : list (list (Edge Qc))) :
  ForallOrdPairs (fun r r' => forall e f, In e r -> In f r' -> g e f = 0 /\ g f e = 0) rs ->
  Qsum (fun x => Qsum (fun y => g x y) (concat rs)) (concat rs) = Qsum (fun r => Qsum (fun x => Qsum (fun y => g x y) r) r) rs.
Proof.
  induction 1 as [|r rs F _ IH]; [reflexivity|]. cbn [concat Qsum]. rewrite Qsum_app, <- IH. rewrite Forall_forall in F. f_equal.
  - apply Qsum_ext. intros x Hx. rewrite Qsum_app. rewrite (Qsum_0 _ (concat rs)). { ring. }
    intros y Hy. apply in_concat in Hy as (r' & Hr' & Hy). apply (F r' Hr' x y); auto.
  - apply Qsum_ext. intros x Hx. rewrite Qsum_app. rewrite (Qsum_0 _ r). { ring. }
    intros y Hy. apply in_concat in Hx as (r' & Hr' & Hx). apply (F r' Hr' y x); auto.
Qed.

(** A double sum over the rows of a function that is zero across teams is a sum over the teams. *)
Lemma ed_sum es (g : Edge Qc -> Qc) : Qsum g (ed es) = Qsum (fun x => g (toE x)) es.
Proof. unfold sorted_edges. rewrite <- (Qsum_perm g _ _ (HQp _)). apply Qsum_map. Qed.

Lemma co_weight_links es i j : once es -> i <> j -> pair_weight (lnk es) i j = co_weight es i j.
Proof.
  intros O Hne. unfold links. rewrite classes_sum by (intros; eapply runs_key; eauto). rewrite runs_concat.
  unfold projected. rewrite <- (Qsum_perm _ _ _ (HQp _)). unfold pairs_of. rewrite Qsum_map, Qsum_flat.
  set (g := fun x y : Edge Qc => if Nat.eqb (enode1 x) i && Nat.eqb (enode1 y) j && Nat.eqb (enode2 x) (enode2 y) then estr x * estr y else 0).
  transitivity (Qsum (fun x => Qsum (fun y => g x y) (ed es)) (ed es)).
  - assert (EC : Qsum (fun x => Qsum (fun y => g x y) (ed es)) (ed es) =
      Qsum (fun x => Qsum (fun y => g x y) (concat (runs teamk (ed es)))) (concat (runs teamk (ed es)))) by now rewrite runs_concat.
    rewrite EC, runs_sum.
    + apply Qsum_ext. intros r Hr. rewrite tp_sum.
      * apply Qsum_ext. intros [x y] H. destruct (tp_mem r x y H) as [Hx Hy].
        pose proof (runs_key teamk _ r x y Hr Hx Hy) as K. unfold teamk in K. injection K as K.
        unfold mk2, on_pair, g. cbn [fst snd enode1 enode2 estr nmul opsJ Qc_ops]. rewrite K, Nat.eqb_refl, !andb_true_r.
        destruct (Nat.eqb_spec (enode1 x) i) as [E1|], (Nat.eqb_spec (enode1 y) j) as [E2|], (Nat.eqb_spec (enode1 x) j) as [E3|], (Nat.eqb_spec (enode1 y) i) as [E4|];
          cbn [andb orb]; try congruence; ring.
      * intros x _. unfold g. destruct (Nat.eqb_spec (enode1 x) i) as [->|]; auto. rewrite (proj2 (Nat.eqb_neq i j)) by auto. auto.
    + pose proof (runs_apart teamk (ed es) (ed_sorted es)) as AP. revert AP. generalize (runs teamk (ed es)). induction 1 as [|r rs F AP IH]; constructor; auto.
      rewrite Forall_forall in *. intros r' Hr' e f He Hf. specialize (F r' Hr' e f He Hf).
      assert (X : enode2 e <> enode2 f) by (intros X; apply F; unfold teamk; now rewrite X).
      unfold g. rewrite (proj2 (Nat.eqb_neq (enode2 e) _)), (proj2 (Nat.eqb_neq (enode2 f) _)) by auto. rewrite !andb_false_r. auto.
  - rewrite ed_sum. unfold co_weight. apply Qsum_ext. intros [[a t] v] _. rewrite ed_sum. apply Qsum_ext. intros [[b u] w] _. reflexivity.
Qed.

(** The normalisations. *)
Lemma run_team es r e : In r (runs teamk (ed es)) -> In e r -> rsum r = team_weight es (enode2 e) /\ length r = team_size es (enode2 e).
Proof.
  intros Hr He. pose proof (runs_filter teamk (ed es) r e (ed_sorted es) Hr He) as E. split.
  - rewrite rsum_sum, E, Qsum_filter, ed_sum. unfold team_weight. apply Qsum_ext. intros [[a t] w] _. cbn [toE fst snd].
    rewrite <- teamk_eqb. reflexivity.
  - rewrite E. change (length (filter ?f ?l)) with (count f l). unfold team_size, count.
    rewrite <- (map_length toE (filter _ es)). apply Permutation_length.
    transitivity (filter (fun f => keqb (teamk f) (teamk e)) (map toE es)).
    + unfold sorted_edges. assert (G : forall l l' : list (Edge Qc), Permutation l l' -> Permutation (filter (fun f => keqb (teamk f) (teamk e)) l) (filter (fun f => keqb (teamk f) (teamk e)) l')).
      { induction 1 as [|x l l' _ IH|x y l|l l' l'' _ IH1 _ IH2]; cbn [filter]; auto.
        - destruct (keqb (teamk x) (teamk e)); auto.
        - destruct (keqb (teamk x) (teamk e)), (keqb (teamk y) (teamk e)); auto. constructor.
        - etransitivity; eauto. }
      apply G. symmetry. apply HQp.
    + clear. induction es as [|[[a t] w] es IH]; auto. cbn [map filter toE fst snd]. rewrite <- teamk_eqb. cbn [enode2].
      destruct (Nat.eqb t (enode2 e)); cbn [map]; auto.
Qed.
Lemma runs_teams es : exists f : list (Edge Qc) -> nat, Permutation (map f (runs teamk (ed es))) (team_list es) /\
  forall r, In r (runs teamk (ed es)) -> exists e, In e r /\ f r = enode2 e.
Proof.
  exists (fun r => match r with [] => 0%nat | e :: _ => enode2 e end).
  assert (H2 : forall r, In r (runs teamk (ed es)) -> exists e, In e r /\ (match r with [] => 0%nat | e :: _ => enode2 e end) = enode2 e).
  { intros r Hr. destruct r as [|e r]; [exfalso; eapply runs_nonempty; eauto|]. exists e. split; auto. left; auto. }
  split; auto. apply NoDup_Permutation.
  - pose proof (runs_apart teamk (ed es) (ed_sorted es)) as AP. revert AP H2. generalize (runs teamk (ed es)) as rs. induction rs as [|r rs IH]; intros AP H2; cbn [map]; constructor.
    + inversion AP as [|? ? F _]; subst. rewrite Forall_forall in F. intros X. apply in_map_iff in X as (r' & X & Hr').
      destruct (H2 r) as (e & He & Ee); [left; auto|]. destruct (H2 r') as (e' & He' & Ee'); [right; auto|].
      apply (F r' Hr' e e' He He'). unfold teamk. congruence.
    + apply IH; [inversion AP; auto|]. intros; apply H2; right; auto.
  - apply NoDup_nodup.
  - intros t. unfold team_list. rewrite nodup_In, !in_map_iff. split.
    + intros (r & <- & Hr). destruct (H2 r Hr) as (e & He & ->). assert (Hed : In e (ed es)) by (eapply runs_in; eauto). apply ed_in in Hed. eexists. split; [|exact Hed]. auto.
    + intros ([[a u] w] & <- & H). cbn [fst snd]. assert (Hed : In (mkEdge a u w) (ed es)) by (apply ed_in; auto).
      rewrite <- (runs_concat teamk (ed es)) in Hed. apply in_concat in Hed as (r & Hr & Hed). exists r. split; auto.
      destruct (H2 r Hr) as (e & He & ->). pose proof (runs_key teamk _ r e _ Hr He Hed) as K. unfold teamk in K. injection K as K. auto.
Qed.
Lemma fac1_norm es : fac1_of (runs teamk (ed es)) = norm1 es.
Proof.
  unfold fac1_of. cbn [nadd n0 opsJ Qc_ops]. rewrite Qsum_fold. unfold norm1. destruct (runs_teams es) as (f & P & Hf).
  rewrite <- (Qsum_perm _ _ _ P), Qsum_map, Qcplus_0_l. apply Qsum_ext. intros r Hr. destruct (Hf r Hr) as (e & He & ->).
  destruct (run_team es r e Hr He) as [E1 E2]. unfold team_fac. rewrite E1, E2. reflexivity.
Qed.
Lemma fac2_norm es : fac2_of (runs teamk (ed es)) = norm2 es.
Proof.
  unfold fac2_of. cbn [nadd n0 opsJ Qc_ops]. rewrite Qsum_fold, Qcplus_0_l. unfold norm2.
  rewrite (Qsum_ext _ (fun r => Qsum estr r)) by (intros; apply rsum_sum).
  transitivity (Qsum estr (ed es)).
  - rewrite <- (runs_concat teamk (ed es)) at 2. generalize (runs teamk (ed es)). induction l as [|r rs IH]; auto. cbn [Qsum concat]. rewrite Qsum_app, IH. auto.
  - rewrite ed_sum. apply Qsum_ext. intros [[a t] w] _. auto.
Qed.
Lemma wsum_weight es i s : wsum (ed es) i s = s + actor_weight es i.
Proof.
  unfold wsum, actor_weight. transitivity (s + Qsum (fun e => if Nat.eqb (enode1 e) i then estr e else 0) (ed es)).
  - generalize (ed es). intros l. revert s. induction l as [|e l IH]; intros s; cbn [fold_left Qsum]; [ring|]. rewrite IH. cbn [nadd opsJ Qc_ops].
    destruct (Nat.eqb (enode1 e) i); ring.
  - f_equal. rewrite ed_sum. apply Qsum_ext. intros [[a t] w] _. auto.
Qed.

(** ** The projected network *)
Lemma row_incident es (f : Qc) i : map (fun '(j, w) => (j, nmul w (ndiv n1 f))) (plain (lnk es) i) = incident f (lnk es) i.
Proof.
  unfold plain, incident. generalize (lnk es). induction l as [|[[a b] w] l IH]; auto. cbn [flat_map]. rewrite map_app, IH. f_equal.
  assert (E : nmul w (ndiv n1 f) = ndiv w f) by (cbn [nmul ndiv n1 opsJ Qc_ops]; unfold Qcdiv; ring).
  destruct (Nat.eqb a i); cbn [map]; [now rewrite E|]. destruct (Nat.eqb b i); cbn [map]; [now rewrite E|]. auto.
Qed.
Lemma sum_length {X} (f : nat -> list X) (C : list (nat * nat * Qc)) n : (forall i, (i < n)%nat -> length (f i) = degree_of C i) ->
  list_sum (map (fun i => length (f i)) (seq 0 n)) = offset C n.
Proof.
  induction n as [|n IH]; intros H; auto. rewrite seq_S, map_app, list_sum_app, IH by (intros; apply H; lia). cbn [map list_sum fold_right plus offset].
  rewrite H by lia. lia.
Qed.

Theorem Project_exact es z1 z2 : once es -> ~ shares es (enode1 z2) (enode2 z2) ->
  exists E p adj, ProjectBipartEdgeList qsort (Some 0) (Some z1) (Some z2) es = Ok (E, p, adj) /\
    (adj_ok adj (numN es) /\ aE adj = E /\ (2 * E)%nat = list_sum (map (fun i => length (row adj i)) (seq 0 (numN es)))) /\
    (fresh p /\ pN p = numN es /\ pM p = numN es) /\
    (sym_adj adj /\ sym_w adj /\ loop_free adj /\ simple_rows adj) /\
    (forall i j, adjacent adj i j <-> i <> j /\ shares es i j) /\
    (forall i j, i <> j -> aw adj i j = co_weight es i j / norm1 es) /\
    (forall i, (i < numN es)%nat -> kk p i = actor_weight es i / norm2 es) /\
    (forall i, (i < numN es)%nat -> row adj i = incident (norm1 es) (lnk es) i).
Proof.
  intros O Hz. pose proof (prj_ok es O) as HP.
  destruct (Project_ok qsort HQp es z1 z2 HP) as (p0 & p & adj & E & E0 & PS & OK & AE & IX & ROW).
  { intros e He X. apply Hz. apply prj_shares in He; auto. unfold pairk in X. injection X as <- <-. auto. }
  rewrite fac1_norm in ROW. rewrite fac2_norm in PS.
  destruct (classes_ok (numN es) (prj es) HP) as [NL IR]. fold (lnk es) in NL, IR.
  assert (ROW' : forall i, (i < numN es)%nat -> row adj i = incident (norm1 es) (lnk es) i) by (intros i Hi; rewrite ROW by auto; apply row_incident).
  assert (ROW0 : forall i, (numN es <= i)%nat -> row adj i = []).
  { intros i Hi. destruct (row adj i) as [|[j w] l] eqn:Er; auto. destruct (row_lt adj (numN es) i j w OK); [rewrite Er; left; auto|]. lia. }
  assert (PW0 : forall i j, (numN es <= i)%nat -> pair_weight (lnk es) i j = 0).
  { intros i j Hi. apply Qsum_0. intros [[a b] w] Hin. unfold in_range in IR. rewrite Forall_forall in IR.
    destruct (IR _ Hin) as [Ha Hb]. rewrite (proj2 (Nat.eqb_neq a i)), (proj2 (Nat.eqb_neq b i)) by lia. rewrite andb_false_r. reflexivity. }
  assert (AW : forall i j, aw adj i j = pair_weight (lnk es) i j / norm1 es).
  { intros i j. unfold aw. destruct (lt_dec i (numN es)) as [Hi|Hi].
    - rewrite ROW' by auto. apply incident_pair; auto.
    - rewrite ROW0, PW0 by lia. unfold Qcdiv. cbn [Qsum]. ring. }
  assert (ADJ : forall i j, adjacent adj i j <-> i <> j /\ shares es i j).
  { intros i j. rewrite <- (link_in es i j O). split.
    - intros H. apply in_map_iff in H as ([j' w] & Hj & H). cbn in Hj. subst j'. destruct (row_lt adj (numN es) i j w OK H) as [_ Hi].
      rewrite ROW' in H by auto. apply in_incident in H as (a & b & v & Hin & _ & [[-> ->]|[-> ->]]); eauto.
    - intros H. assert (X : exists a b v, In (a, b, v) (lnk es) /\ ((a = i /\ b = j) \/ (b = i /\ a = j))).
      { destruct H as [[w H]|[w H]]; [exists i, j, w|exists j, i, w]; auto. }
      destruct X as (a & b & v & Hin & Hab). unfold no_loops, in_range in NL, IR. rewrite Forall_forall in NL, IR. specialize (NL _ Hin). destruct (IR _ Hin). cbn in NL.
      apply in_map_iff. exists (j, v / norm1 es). split; auto. rewrite ROW' by (destruct Hab as [[-> ->]|[-> ->]]; auto). eapply incident_in; eauto. }
  destruct (CreatePartition_fresh (numN es) (numN es) (le_n _)) as (q & Eq & F0 & N0 & M0 & G0). rewrite E0 in Eq. injection Eq as <-.
  destruct PS as (P1 & P2 & P3 & P4 & P5 & P6).
  exists (length (lnk es)), p, adj. splits; auto; try congruence.
  - rewrite (sum_length (row adj) (lnk es)). 2: { intros i Hi. rewrite ROW' by auto. apply incident_length. } symmetry. apply (offset_total (numN es)); auto.
  - destruct F0 as [F1 F2 F3 F4 F5]. constructor; try congruence.
    + intros i nd En. apply nth_lt in En as Hl. destruct (nth_ex (pnodes p0) i) as [nd0 En0]; [lia|]. rewrite (P6 i nd0 En0) in En. injection En as <-. cbn. apply (F3 i); auto.
    + intros m md Em. rewrite P4 in Em. apply F4; auto.
  - intros i j H. apply ADJ. apply ADJ in H as [Hne (t & v & w & H1 & H2)]. split; auto. exists t, w, v; auto.
  - intros i j. rewrite !AW. now rewrite pair_weight_sym.
  - intros i H. apply ADJ in H. tauto.
  - intros i. destruct (lt_dec i (numN es)); [|rewrite ROW0 by lia; constructor]. rewrite ROW' by auto. apply incident_nodup; auto. apply link_nodup; auto.
  - intros i j Hne. rewrite AW, co_weight_links; auto.
  - intros i Hi. destruct (nth_ex (pnodes p0) i) as [nd End]. { rewrite (fr_N _ F0). lia. }
    unfold kk, strength. rewrite (P6 i nd End). cbn [option_map nstr set_nstr nmul ndiv n1 opsJ Qc_ops]. rewrite wsum_weight.
    destruct (G0 i Hi) as [_ Gs]. unfold strength in Gs. rewrite End in Gs. cbn in Gs. injection Gs as ->. unfold Qcdiv. ring.
Qed.

(** ** Totals *)
Definition teams_sq es : Qc := Qsum (fun t => team_weight es t * team_weight es t) (team_list es).
Definition weights_sq es : Qc := Qsum (fun x => snd x * snd x) es.
Lemma links_total es : once es -> (1 + 1) * total_weight (lnk es) = teams_sq es - weights_sq es.
Proof.
  intros O.
  assert (T : total_weight (lnk es) = Qsum (fun r => Qsum (fun x => estr (mk2 x)) (tp r)) (runs teamk (ed es))).
  { unfold links, total_weight, classes. rewrite Qsum_map.
    rewrite (Qsum_ext _ (fun r => Qsum estr r)).
    2: { intros r Hr. destruct r as [|e r]; [exfalso; eapply runs_nonempty; eauto|]. cbn [class]. apply rsum_sum. }
    transitivity (Qsum estr (prj es)).
    - rewrite <- (runs_concat pairk (prj es)) at 2. generalize (runs pairk (prj es)). induction l as [|r rs IH]; auto. cbn [Qsum concat]. rewrite Qsum_app, IH. auto.
    - unfold projected. rewrite <- (Qsum_perm _ _ _ (HQp _)). unfold pairs_of. rewrite Qsum_map, Qsum_flat. auto. }
  assert (R : forall r, In r (runs teamk (ed es)) -> (1 + 1) * Qsum (fun x => estr (mk2 x)) (tp r) = rsum r * rsum r - Qsum (fun e => estr e * estr e) r).
  { intros r Hr. rewrite rsum_sum.
    set (g := fun x y : Edge Qc => if keqb (pairk x) (pairk y) then 0 else estr x * estr y).
    transitivity (Qsum (fun x => Qsum (fun y => g x y) r) r).
    - rewrite tp_sum. 2: { intros x _. unfold g. now rewrite (proj2 (keqb_eq _ _) eq_refl). }
      rewrite <- Qsum_scal. apply Qsum_ext. intros [x y] H.
      destruct (team_pair es x y O) as (_ & _ & _ & L). { apply in_flat_map; eauto. }
      unfold g, mk2. cbn [fst snd estr nmul opsJ Qc_ops].
      destruct (keqb_spec (pairk x) (pairk y)) as [X|]; [unfold pairk in X; injection X; lia|].
      destruct (keqb_spec (pairk y) (pairk x)) as [X|]; [unfold pairk in X; injection X; lia|]. ring.
    - assert (ND : NoDup (map pairk r)).
      { pose proof (ed_nodup es O) as ND. rewrite <- (runs_concat teamk (ed es)) in ND. apply in_split in Hr as (a & b & Eab). rewrite Eab, concat_app in ND. cbn [concat] in ND.
        rewrite !map_app in ND. apply NoDup_app_iff in ND as (_ & ND & _). apply NoDup_app_iff in ND as (ND & _ & _). auto. }
      rewrite <- Qsum_scal_r. rewrite <- Qsum_sub. apply Qsum_ext. intros x Hx. rewrite <- Qsum_scal.
      clear - Hx ND. unfold g. induction r as [|y r IH]; [destruct Hx|]. cbn [map] in ND. inversion ND as [|? ? NI ND']; subst. cbn [Qsum].
      destruct Hx as [->|Hx].
      + rewrite (proj2 (keqb_eq _ _) eq_refl). rewrite (Qsum_ext (fun y => if keqb (pairk x) (pairk y) then 0 else estr x * estr y) (fun y => estr x * estr y)); [ring|].
        intros y Hy. destruct (keqb_spec (pairk x) (pairk y)) as [X|]; auto. destruct NI. rewrite X. apply in_map; auto.
      + rewrite IH by auto. destruct (keqb_spec (pairk x) (pairk y)) as [X|]; [destruct NI; rewrite <- X; apply in_map; auto|]. ring. }
  rewrite T, <- Qsum_scal. rewrite (Qsum_ext _ _ _ R), Qsum_sub. f_equal.
  - unfold teams_sq. destruct (runs_teams es) as (f & P & Hf). rewrite <- (Qsum_perm _ _ _ P), Qsum_map. apply Qsum_ext. intros r Hr.
    destruct (Hf r Hr) as (e & He & ->). destruct (run_team es r e Hr He) as [-> _]. auto.
  - unfold weights_sq. transitivity (Qsum (fun e => estr e * estr e) (ed es)).
    + rewrite <- (runs_concat teamk (ed es)) at 2. generalize (runs teamk (ed es)). induction l as [|r rs IH]; auto. cbn [Qsum concat]. rewrite Qsum_app, IH. auto.
    + rewrite ed_sum. apply Qsum_ext. intros [[a t] w] _. auto.
Qed.
Lemma links_sum es : once es -> Qsum (fun i => Qsum snd (incident (norm1 es) (lnk es) i)) (seq 0 (numN es)) = (teams_sq es - weights_sq es) / norm1 es.
Proof.
  intros O. destruct (classes_ok (numN es) (prj es) (prj_ok es O)) as [NL IR]. fold (lnk es) in NL, IR.
  rewrite (Qsum_ext _ (fun i => node_weight (lnk es) i * / norm1 es)) by (intros i _; apply (incident_sum ex sq); auto).
  rewrite Qsum_scal_r, handshake by auto. rewrite links_total by auto. auto.
Qed.
Lemma actors_sum es : Qsum (actor_weight es) (seq 0 (numN es)) = norm2 es.
Proof.
  unfold actor_weight, norm2. rewrite Qsum_swap. apply Qsum_ext. intros [[a t] w] H. cbn [fst snd].
  rewrite (Qsum_ext _ (fun i => if Nat.eqb i a then w else 0)). { apply (Qsum_single (fun _ => w)); [apply seq_NoDup|]. apply in_seq. apply numN_lt in H. lia. }
  intros i _. now rewrite Nat.eqb_sym.
Qed.
End Exact.

(** ** Unit weights, positive weights *)
Section Units.
Local Open Scope Qc_scope.
Implicit Types (es : list (nat * nat * Qc)).

Lemma count_sum es t : Qc_of_nat (team_size es t) = Qsum (fun x => if Nat.eqb (snd (fst x)) t then 1 else 0) es.
Proof.
  unfold team_size. induction es as [|x es IH]; [reflexivity|]. rewrite count_cons, Qc_of_nat_add, IH. cbn [Qsum].
  destruct (Nat.eqb (snd (fst x)) t); reflexivity.
Qed.
Lemma team_split (f : nat * nat * Qc -> Qc) es :
  Qsum f es = Qsum (fun t => Qsum (fun x => if Nat.eqb (snd (fst x)) t then f x else 0) es) (team_list es).
Proof.
  rewrite Qsum_swap. apply Qsum_ext. intros x Hx. rewrite (Qsum_ext _ (fun t => if Nat.eqb t (snd (fst x)) then f x else 0)).
  - symmetry. apply (Qsum_single (fun _ => f x)); [apply NoDup_nodup|]. unfold team_list. apply nodup_In. apply (in_map (fun x => snd (fst x))); auto.
  - intros t _. now rewrite Nat.eqb_sym.
Qed.
Lemma team_size_pos es t : In t (team_list es) -> (0 < team_size es t)%nat.
Proof.
  unfold team_list. rewrite nodup_In, in_map_iff. intros (x & <- & H). unfold team_size. apply (count_pos _ _ x); auto. apply Nat.eqb_refl.
Qed.
Lemma units_weight es t : units es -> team_weight es t = Qc_of_nat (team_size es t).
Proof. intros U. rewrite count_sum. apply Qsum_ext. intros x Hx. now rewrite (U x Hx). Qed.
Lemma units_norm1 es : units es -> norm1 es = Qsum (fun t => Qc_of_nat (team_size es t) * (Qc_of_nat (team_size es t) - 1)) (team_list es).
Proof.
  intros U. apply Qsum_ext. intros t Ht. rewrite units_weight by auto. f_equal. f_equal.
  apply team_size_pos, Qc_of_nat_pos in Ht. unfold Qcdiv. rewrite Qcmult_inv_r; auto. intros X. rewrite X in Ht. discriminate Ht.
Qed.
Lemma units_total es : units es -> teams_sq es - weights_sq es = norm1 es.
Proof.
  intros U. rewrite units_norm1 by auto. unfold teams_sq, weights_sq. rewrite (team_split (fun x => snd x * snd x) es), <- Qsum_sub. apply Qsum_ext. intros t _.
  rewrite units_weight by auto. rewrite (Qsum_ext _ (fun x => if Nat.eqb (snd (fst x)) t then 1 else 0)).
  - rewrite <- count_sum. ring.
  - intros x Hx. rewrite (U x Hx). destruct (Nat.eqb (snd (fst x)) t); ring.
Qed.

Lemma count_filter_len {X} (f : X -> bool) l : count f l = length (filter f l).
Proof. reflexivity. Qed.
Lemma Qsum_if (f : nat * nat * Qc -> Qc) (c : nat * nat * Qc -> bool) l : Qsum (fun x => if c x then f x else 0) l = Qsum f (filter c l).
Proof. induction l as [|x l IH]; auto. cbn [Qsum filter]. destruct (c x); cbn [Qsum]; rewrite IH; ring. Qed.
(** Whatever the weights, the total link weight is at most one. *)
Lemma total_le es : teams_sq es - weights_sq es <= norm1 es.
Proof.
  unfold teams_sq, weights_sq. rewrite (team_split (fun x => snd x * snd x) es), <- Qsum_sub. apply Qsum_le. intros t Ht.
  set (c := fun x : nat * nat * Qc => Nat.eqb (snd (fst x)) t).
  change (team_weight es t * team_weight es t - Qsum (fun x => if c x then snd x * snd x else 0) es <= team_weight es t * (team_weight es t - team_weight es t / Qc_of_nat (team_size es t))).
  rewrite Qsum_if. apply team_size_pos, Qc_of_nat_pos in Ht. pose proof (cauchy snd (filter c es)) as H.
  rewrite <- count_filter_len in H. change (count c es) with (team_size es t) in H. rewrite <- (Qsum_if snd c) in H. change (Qsum (fun x => if c x then snd x else 0) es) with (team_weight es t) in H.
  set (s := team_weight es t) in *. set (q := Qsum (fun x => snd x * snd x) (filter c es)) in *. set (n := Qc_of_nat (team_size es t)) in *.
  assert (Hn : n <> 0) by (intros X; rewrite X in Ht; discriminate Ht).
  apply (Qcmult_lt_0_le_reg_r _ _ n); auto. apply Qcle_minus_iff.
  replace (s * (s - s / n) * n + - ((s * s - q) * n)) with (n * q - s * s) by (field; auto).
  apply Qcle_minus_iff in H. exact H.
Qed.
Lemma positive_norm es : positive es -> (forall x, In x es -> (2 <= team_size es (snd (fst x)))%nat) -> es <> [] -> 0 < norm1 es.
Proof.
  intros P T NE. assert (X : forall t, In t (team_list es) -> 0 < team_weight es t * (team_weight es t - team_weight es t / Qc_of_nat (team_size es t))).
  { intros t Ht. assert (H2 : (2 <= team_size es t)%nat). { unfold team_list in Ht. rewrite nodup_In, in_map_iff in Ht. destruct Ht as (x & <- & H). auto. }
    assert (W : 0 < team_weight es t).
    { unfold team_list in Ht. rewrite nodup_In, in_map_iff in Ht. destruct Ht as (x & <- & H). unfold team_weight. apply in_split in H as (a & b & ->).
      rewrite Qsum_app. cbn [Qsum]. rewrite Nat.eqb_refl.
      assert (N : forall l, (forall y, In y l -> In y (a ++ x :: b)) -> 0 <= Qsum (fun y : nat * nat * Qc => if Nat.eqb (snd (fst y)) (snd (fst x)) then snd y else 0) l).
      { intros l Hl. apply Qsum_nonneg. intros y Hy. destruct (Nat.eqb (snd (fst y)) (snd (fst x))); [|apply Qcle_refl]. apply Qclt_le_weak, P, Hl; auto. }
      pose proof (N a (fun y H => in_or_app _ _ y (or_introl H))) as Na. pose proof (N b (fun y H => in_or_app a (x :: b) y (or_intror (or_intror H)))) as Nb.
      pose proof (P x (in_or_app a (x :: b) x (or_intror (or_introl eq_refl)))) as Px.
      eapply Qclt_le_trans; [exact Px|]. apply Qcle_minus_iff.
      match goal with |- 0 <= ?g => replace g with (Qsum (fun y : nat * nat * Qc => if Nat.eqb (snd (fst y)) (snd (fst x)) then snd y else 0) a + Qsum (fun y : nat * nat * Qc => if Nat.eqb (snd (fst y)) (snd (fst x)) then snd y else 0) b) by ring end.
      replace 0 with (0 + 0) by ring. apply Qcplus_le_compat; auto. }
    set (s := team_weight es t) in *. set (n := Qc_of_nat (team_size es t)) in *.
    assert (Hn : 0 < n) by (apply Qc_of_nat_pos; lia). assert (Hn1 : 0 < n - 1).
    { assert (X1 : 1 < n) by (change 1 with (Qc_of_nat 1); apply Qc_of_nat_lt; lia). apply (proj1 (Qclt_minus_iff _ _)) in X1. exact X1. }
    assert (Hn0 : n <> 0) by (intros Y; rewrite Y in Hn; discriminate Hn).
    replace (s * (s - s / n)) with (s * s * (n - 1) * / n) by (field; auto).
    assert (PM : forall u v, 0 < u -> 0 < v -> 0 < u * v). { intros u v Hu Hv. replace 0 with (0 * v) by ring. apply Qcmult_lt_compat_r; auto. }
    apply PM; [apply PM; auto|]. apply Qcnot_le_lt. intros Y. apply (Qcmult_le_compat_r _ _ n) in Y; [|apply Qclt_le_weak; auto].
    rewrite Qcmult_inv_l, Qcmult_0_l in Y by auto. apply Y. reflexivity. }
  assert (L : exists t, In t (team_list es)).
  { destruct es as [|x es']; [congruence|]. exists (snd (fst x)). unfold team_list. apply nodup_In. left; auto. }
  unfold norm1. destruct L as [t Ht]. apply in_split in Ht as (a & b & E). rewrite E in X |- *. rewrite Qsum_app. cbn [Qsum].
  match goal with |- 0 < Qsum ?f a + (?y + Qsum ?f b) =>
    assert (Na : 0 <= Qsum f a) by (apply Qsum_nonneg; intros z Hz; apply Qclt_le_weak, X, in_or_app; auto);
    assert (Nb : 0 <= Qsum f b) by (apply Qsum_nonneg; intros z Hz; apply Qclt_le_weak, X, in_or_app; right; right; auto);
    assert (Py : 0 < y) by (apply X, in_or_app; right; left; auto);
    eapply Qclt_le_trans; [exact Py|]; apply Qcle_minus_iff; replace (Qsum f a + (y + Qsum f b) + - y) with (Qsum f a + Qsum f b) by ring end.
  replace 0 with (0 + 0) by ring. apply Qcplus_le_compat; auto.
Qed.
End Units.

(** ** Modularity of the projected network *)
Section Modularity.
Variables (ex sq : Qc -> Qc) (qsort : list (Edge Qc) -> list (Edge Qc)) (HQ : sorts qsort).
#[local] Instance opsK : NumOps Qc := Qc_ops ex sq.
Local Open Scope Qc_scope.
Theorem Project_modularity es z1 z2 E p adj q : once es -> ~ shares es (enode1 z2) (enode2 z2) ->
  ProjectBipartEdgeList qsort (Some 0) (Some z1) (Some z2) es = Ok (E, p, adj) ->
  valid q -> pN q = numN es -> (forall i, strength q i = strength p i) ->
  PartitionModularity q adj false = Ok (Qsum (fun i => Qsum (fun j =>
    if negb (Nat.eqb i j) && together q i j then co_weight es i j / norm1 es - (actor_weight es i / norm2 es) * (actor_weight es j / norm2 es) else 0)
    (seq 0 (numN es))) (seq 0 (numN es))).
Proof.
  intros O Hz E0 V Nq S. destruct (Project_exact ex sq qsort HQ es z1 z2 O Hz) as (E' & p' & adj' & E1 & (OK & _) & _ & (_ & SW & _ & SR) & _ & AW & KK & _).
  change (opsJ ex sq) with opsK in E1. rewrite E0 in E1. injection E1 as <- <- <-.
  transitivity (Ok (modularity q adj)); [apply (modularity_computed ex sq q adj false); rewrite ?Nq; auto|]. f_equal. unfold modularity. rewrite Nq. apply Qsum_ext. intros i Hi. apply Qsum_ext. intros j Hj. apply in_seq in Hi, Hj.
  destruct (Nat.eqb_spec i j) as [|Hij]; cbn [negb andb]; auto. destruct (together q i j); auto.
  assert (K : forall i, (i < numN es)%nat -> kk q i = actor_weight es i / norm2 es). { intros k Hk. rewrite <- KK by auto. unfold kk. now rewrite S. }
  rewrite AW, !K by (auto; lia). auto.
Qed.

Lemma numN_actors {A} (es : list (nat * nat * A)) : numN es = actors es.
Proof.
  destruct es as [|x es]; auto. cbn [actors]. revert x. induction es as [|y es IH]; intros [[a b] w].
  - cbn. lia.
  - change (numN ((a, b, w) :: y :: es)) with (Nat.max (a + 1) (numN (y :: es))). rewrite IH. cbn [map fold_right fst]. lia.
Qed.
Theorem Project_actors es z1 z2 : once es -> ~ shares es (enode1 z2) (enode2 z2) ->
  exists E p adj, ProjectBipartEdgeList qsort (Some 0) (Some z1) (Some z2) es = Ok (E, p, adj) /\
    (adj_ok adj (actors es) /\ aE adj = E /\ (2 * E)%nat = list_sum (map (fun i => length (row adj i)) (seq 0 (actors es)))) /\
    (fresh p /\ pN p = actors es /\ pM p = actors es) /\
    (sym_adj adj /\ sym_w adj /\ loop_free adj /\ simple_rows adj) /\
    (forall i j, adjacent adj i j <-> i <> j /\ shares es i j) /\
    (forall i j, i <> j -> aw adj i j = co_weight es i j / norm1 es) /\
    (forall i, (i < actors es)%nat -> kk p i = actor_weight es i / norm2 es).
Proof.
  intros O Hz. destruct (Project_exact ex sq qsort HQ es z1 z2 O Hz) as (E & p & adj & H1 & H2 & H3 & H4 & H5 & H6 & H7 & _).
  exists E, p, adj. rewrite <- numN_actors. splits; auto; try tauto; apply H2.
Qed.
Theorem Project_total es z1 z2 E p adj : once es -> ~ shares es (enode1 z2) (enode2 z2) ->
  ProjectBipartEdgeList qsort (Some 0) (Some z1) (Some z2) es = Ok (E, p, adj) ->
  (0 < norm1 es -> Qsum (fun i => Qsum snd (row adj i)) (seq 0 (pN p)) <= 1) /\
  (norm1 es <> 0 -> units es -> Qsum (fun i => Qsum snd (row adj i)) (seq 0 (pN p)) = 1) /\
  (norm2 es <> 0 -> Qsum (kk p) (seq 0 (pN p)) = 1).
Proof.
  intros O Hz E0. destruct (Project_exact ex sq qsort HQ es z1 z2 O Hz) as (E' & p' & adj' & E1 & _ & (_ & NP & _) & _ & _ & _ & KK & ROW).
  change (opsJ ex sq) with opsK in E1. rewrite E0 in E1. injection E1 as <- <- <-. rewrite NP.
  assert (T : Qsum (fun i => Qsum snd (row adj i)) (seq 0 (numN es)) = (teams_sq es - weights_sq es) / norm1 es).
  { rewrite <- (links_sum ex sq qsort HQ es O). apply Qsum_ext. intros i Hi. apply in_seq in Hi. rewrite ROW by lia. auto. }
  rewrite T. splits.
  - intros Hp. apply Qc_div_le_1; auto. apply total_le.
  - intros Hn U. rewrite units_total by auto. unfold Qcdiv. apply Qcmult_inv_r; auto.
  - intros Hn. rewrite (Qsum_ext _ (fun i => actor_weight es i * / norm2 es)).
    + rewrite Qsum_scal_r, actors_sum. apply Qcmult_inv_r; auto.
    + intros i Hi. apply in_seq in Hi. rewrite KK by lia. auto.
Qed.
Theorem Project_modularity_of es z1 z2 E p adj q : once es -> ~ shares es (enode1 z2) (enode2 z2) ->
  ProjectBipartEdgeList qsort (Some 0) (Some z1) (Some z2) es = Ok (E, p, adj) ->
  valid q -> pN q = pN p -> (forall i, strength q i = strength p i) ->
  PartitionModularity q adj false = Ok (Qsum (fun i => Qsum (fun j =>
    if negb (Nat.eqb i j) && together q i j then co_weight es i j / norm1 es - (actor_weight es i / norm2 es) * (actor_weight es j / norm2 es) else 0)
    (seq 0 (pN p))) (seq 0 (pN p))).
Proof.
  intros O Hz E0 V Nq S. destruct (Project_exact ex sq qsort HQ es z1 z2 O Hz) as (E' & p' & adj' & E1 & _ & (_ & NP & _) & _).
  change (opsJ ex sq) with opsK in E1. rewrite E0 in E1. injection E1 as <- <- <-. rewrite NP in *.
  eapply Project_modularity; eauto.
Qed.
Theorem units_norms es : units es ->
  norm1 es = Qsum (fun t => Qc_of_nat (team_size es t) * (Qc_of_nat (team_size es t) - 1)) (team_list es) /\ norm2 es = Qc_of_nat (length es).
Proof.
  intros U. split; [apply units_norm1; auto|]. unfold norm2. rewrite (Qsum_ext _ (fun _ => 1) es U), Qsum_const. ring.
Qed.
End Modularity.

(** NetNeig.v -- BuildNetFromGroupNeig sends every link to the first node. *)
From Coq Require Import List Arith Lia Ascii Bool QArith.
From Verif Require Import Base Num ListLib IoModel IoSpec IoProof GraphModel GraphSpec GraphProof BipartModel BipartSpec BipartRen BipartMem BipartFile BipartCopy NetModel NetSpec NetBuild NetPrint NetCopy.
Import ListNotations.
Local Open Scope nat_scope.

Section Neig.
Context {A : Type} {ops : NumOps A}.
Implicit Types (g c : net A).

Definition softnet c := places c /\ forall n l, In n c -> In l (gadj n) -> lnode l = 0.
Lemma add_soft g c i n : nth_error g i = Some n -> softnet c -> length (glabel n) < 100 -> NoDup (map llabel (gadj n)) ->
  exists c', (do n <- get g i; do (k, c) <- CreateNodeGraph c (glabel n);
    upd_node c k (fun m => CopyAdjacencyList n (mkNode (glabel m) (gnum m) (gstate n) (gadj m) (ggroup n) (gdvar m) (gdeg m) (gstr m)))) = Ok c' /\ softnet c' /\ length c' = S (length c).
Proof.
  intros En [P S0] L ND. rewrite (get_ok _ _ _ En). cbn [bind]. rewrite Create_last by auto. cbn [bind]. rewrite upd_last, CopyAdjacencyList_ok by auto. eexists. split; [reflexivity|]. split; [split|].
  - apply places_snoc; auto.
  - intros x l Hx Hl. apply in_app_or in Hx as [Hx|[<-|[]]]; [eauto|]. cbn in Hl. apply in_map_iff in Hl as (l0 & <- & _). reflexivity.
  - rewrite app_length. cbn. lia.
Qed.
Lemma nlist_ok c : places c -> foldM (fun a i => do n <- get c i; set a (gnum n) (Some i)) (repeat None (length c)) (seq 0 (length c)) = Ok (map Some (seq 0 (length c))).
Proof.
  intros P. assert (G : forall k i, i + k = length c -> foldM (fun a i => do n <- get c i; set a (gnum n) (Some i)) (map Some (seq 0 i) ++ repeat None k) (seq i k) = Ok (map Some (seq 0 (length c)))).
  { induction k as [|k IH]; intros i E; cbn [seq foldM repeat]. { rewrite app_nil_r. now replace i with (length c) by lia. }
    destruct (nth_ex c i) as [n En]; [lia|]. rewrite (get_ok _ _ _ En). cbn [bind]. rewrite (P _ _ En), set_ok by (rewrite app_length, map_length, seq_length; cbn; lia). cbn [bind].
    rewrite <- (IH (S i)) by lia. f_equal. rewrite seq_S, map_app, <- app_assoc. cbn [map app].
    assert (U : forall (pre : list (option nat)) x y post, upd (pre ++ x :: post) (length pre) y = pre ++ y :: post) by (induction pre as [|z pre IHp]; intros; cbn; auto; now rewrite IHp).
    pose proof (U (map Some (seq 0 i)) None (Some i) (repeat None k)) as Ui. rewrite map_length, seq_length in Ui. exact Ui. }
  apply (G (length c) 0). lia.
Qed.
Theorem BuildNetFromGroupNeig_star g cells is : wf_net g -> NoDup (map glabel g) -> (forall n, In n g -> length (glabel n) < 100) -> Forall2 (cell_at g) cells is ->
  exists c, BuildNetFromGroupNeig g cells = Ok c /\ (cells <> [] -> c <> []) /\ (forall x y, In y (nbrs c x) -> y = 0).
Proof.
  intros W D L F.
  set (add := fun (c : net A) i => do n <- get g i; do (k, c) <- CreateNodeGraph c (glabel n); upd_node c k (fun m => CopyAdjacencyList n (mkNode (glabel m) (gnum m) (gstate n) (gadj m) (ggroup n) (gdvar m) (gdeg m) (gstr m)))).
  assert (Hadd : forall i n c, nth_error g i = Some n -> softnet c -> exists c', add c i = Ok c' /\ softnet c' /\ length c' = S (length c)).
  { intros i n c En Sc. apply (add_soft g c i n); auto; [apply L; eapply nth_error_In; eauto|eapply link_labels; eauto]. }
  set (nb := fun (n : gnode A) c (l : link A) => do j <- deref (lref l); do m <- get g j; match ggroup n, ggroup m with None, None => Ok c | Some x, Some y => if x =? y then Ok c else add c j | _, _ => add c j end).
  assert (Hnb : forall i n ls c, nth_error g i = Some n -> (forall l, In l ls -> In l (gadj n)) -> softnet c -> exists c', foldM (nb n) c ls = Ok c' /\ softnet c' /\ length c <= length c').
  { intros i n. induction ls as [|l ls IH]; intros c En Hl Sc; cbn [foldM]; [eauto|]. destruct (wf_link _ W i n l En) as (j & m & E2 & E3 & E4 & E5); [apply Hl; simpl; auto|].
    assert (St : exists c1, nb n c l = Ok c1 /\ softnet c1 /\ length c <= length c1).
    { unfold nb. rewrite E2. cbn [deref bind]. rewrite (get_ok _ _ _ E3). cbn [bind]. destruct (Hadd j m c E3 Sc) as (c1 & Ea & S1 & L1).
      destruct (ggroup n) as [x|], (ggroup m) as [y|]; try (destruct (x =? y)); try (exists c1; splits; auto; lia); exists c; auto. }
    destruct St as (c1 & -> & S1 & L1). cbn [bind]. destruct (IH c1 En) as (c2 & E & S2 & L2); auto; [intros; apply Hl; simpl; auto|]. exists c2. splits; auto; lia. }
  assert (Hc : forall cs js c, Forall2 (cell_at g) cs js -> softnet c -> exists c', foldM (fun c p => do i <- deref (lref p); do n <- get g i; do c <- add c i; foldM (nb n) c (gadj n)) c cs = Ok c' /\ softnet c' /\ length c + length cs <= length c').
  { induction cs as [|p cs IH]; intros js c F0 Sc; inversion F0 as [|? i ? js' (E & Hi & El) F']; subst; cbn [foldM length]. { exists c. splits; auto; lia. }
    rewrite E. cbn [deref bind]. destruct (nth_ex g i Hi) as [n En]. rewrite (get_ok _ _ _ En). cbn [bind]. destruct (Hadd i n c En Sc) as (c1 & -> & S1 & L1). cbn [bind].
    destruct (Hnb i n (gadj n) c1 En) as (c2 & -> & S2 & L2); auto. cbn [bind]. destruct (IH js' c2 F' S2) as (c3 & E3 & S3 & L3). exists c3. splits; auto; lia. }
  destruct (Hc cells is [] F) as (c & Ec & [P S0] & Lc). { split; [intros [|i] n E; discriminate|intros n l []]. } change (BuildNetFromGroupNeig g cells) with (do c <- foldM (fun c p => do i <- deref (lref p); do n <- get g i; do c <- add c i; foldM (nb n) c (gadj n)) [] cells; RewireAdjacencyByNum (CleanAdjacencies c)).
  rewrite Ec. cbn [bind]. unfold RewireAdjacencyByNum.
  assert (P1 : places (CleanAdjacencies c)). { intros x n E. unfold CleanAdjacencies in E. rewrite nth_error_map in E. destruct (nth_error c x) as [m|] eqn:Em; [|discriminate]. injection E as <-. cbn. auto. }
  assert (S1 : forall n l, In n (CleanAdjacencies c) -> In l (gadj n) -> lnode l = 0). { intros n l Hn Hl. unfold CleanAdjacencies in Hn. apply in_map_iff in Hn as (m & <- & Hm). cbn in Hl. apply filter_In in Hl as [Hl _]. eauto. }
  assert (Lc1 : length (CleanAdjacencies c) = length c) by apply map_length.
  rewrite nlist_ok by auto. cbn [bind].
  destruct (CleanAdjacencies c) as [|n0' c0] eqn:Ecl. { cbn. eexists. splits; [reflexivity| |intros [|x] y H; destruct H]. intros Hne. destruct cells; [congruence|]. cbn in *. lia. }
  rewrite <- Ecl in *. assert (Z : nth_error (CleanAdjacencies c) 0 = Some n0') by now rewrite Ecl.
  rewrite (mapM_ok _ (fun n => reset_cache (set_gadj (map (fun l => mkLink (lnode l) (glabel n0') (lstatus l) (Some 0) (lbtw l) (lweight l)) (gadj n)) n))).
  2: { intros n Hn. rewrite (mapM_ok _ (fun l => mkLink (lnode l) (glabel n0') (lstatus l) (Some 0) (lbtw l) (lweight l))); auto. intros l Hl. rewrite (S1 n l Hn Hl). rewrite (get_ok _ 0 (Some 0)).
       - cbn [deref bind]. rewrite (get_ok _ _ _ Z). reflexivity.
       - rewrite nth_error_map, nth_seq. rewrite (proj2 (Nat.ltb_lt _ _) (nth_lt _ _ _ Z)). reflexivity. }
  eexists. splits; [reflexivity| |].
  - intros _. rewrite Ecl. discriminate.
  - intros x y Hy. unfold nbrs in Hy. rewrite nth_error_map in Hy. destruct (nth_error (CleanAdjacencies c) x) as [n|]; [|destruct Hy]. cbn in Hy. apply targets_In in Hy as (l & Hl & El). apply in_map_iff in Hl as (l0 & <- & _). cbn in El. congruence.
Qed.
End Neig.

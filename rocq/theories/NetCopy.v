(** NetCopy.v -- copying networks and cutting parts out of them. *)
From Coq Require Import List Arith Lia Ascii Bool QArith.
From Verif Require Import Base Num ListLib IoModel IoSpec IoProof GraphModel GraphSpec GraphProof BipartModel BipartSpec BipartRen BipartMem BipartFile BipartCopy NetModel NetSpec NetBuild NetPrint.
Import ListNotations.
Local Open Scope nat_scope.

Lemma mapM_ok {X Y} (f : X -> res Y) h l : (forall x, In x l -> f x = Ok (h x)) -> mapM f l = Ok (map h l).
Proof. induction l as [|x l IH]; intros H; auto. cbn [mapM]. rewrite H by (simpl; auto). cbn [bind]. rewrite IH by (intros; apply H; simpl; auto). reflexivity. Qed.
Lemma mapM_err {X Y} (f : X -> res Y) e l : (forall x, In x l -> (exists y, f x = Ok y) \/ f x = Err e) -> (exists x, In x l /\ f x = Err e) -> mapM f l = Err e.
Proof.
  induction l as [|x l IH]; intros H (y & Hy & Ey); [destruct Hy|]. cbn [mapM]. destruct (H x) as [[z Ez]|Ez]; [simpl; auto| |now rewrite Ez].
  rewrite Ez. cbn [bind]. destruct Hy as [->|Hy]; [congruence|]. rewrite IH; eauto. intros; apply H; simpl; auto.
Qed.

Lemma flat_map_ext_in' {X Y} (f h : X -> list Y) l : (forall x, In x l -> f x = h x) -> flat_map f l = flat_map h l.
Proof. intros H. rewrite !flat_map_concat_map. f_equal. now apply map_ext_in. Qed.

Section Copy.
Context {A : Type} {ops : NumOps A}.
Implicit Types (g c : net A) (n : gnode A) (l : link A).

(** ** Adding links by label *)
Definition soft l : link A := mkLink 0 (llabel l) (lstatus l) None n0 (lweight l).
Lemma soft_link_new aw w st lab ls : ~ In lab (map (@llabel A) ls) -> soft_link aw w st lab ls = (ls ++ [mkLink 0 lab st None n0 w], true).
Proof.
  induction ls as [|l ls IH]; intros H; auto. cbn [soft_link]. destruct (label_eqb (llabel l) lab) eqn:E.
  - apply label_eqb_eq in E. destruct H. simpl. auto.
  - rewrite IH; auto. intros Hi. apply H. simpl. auto.
Qed.
Lemma CopyAdjacencyList_ok n m : gadj m = [] -> NoDup (map llabel (gadj n)) -> CopyAdjacencyList n m = set_gadj (map soft (gadj n)) m.
Proof.
  intros E ND. unfold CopyAdjacencyList.
  assert (G : forall ls m, NoDup (map llabel (gadj m) ++ map llabel ls) -> fold_left (fun n l => snd (AddAdjacencySoft n (llabel l) true false (lweight l) (lstatus l))) ls m = set_gadj (gadj m ++ map soft ls) m).
  { induction ls as [|l ls IH]; intros m0 H; cbn [fold_left map]. { rewrite app_nil_r. now destruct m0. }
    unfold AddAdjacencySoft at 2. rewrite andb_false_r, soft_link_new. 2: { cbn [map] in H. apply NoDup_remove_2 in H. intros Hi. apply H. apply in_or_app. auto. }
    cbn [snd]. rewrite IH; cbn [set_gadj gadj]; [now rewrite <- app_assoc|]. rewrite map_app. cbn [map llabel]. rewrite <- app_assoc. exact H. }
  rewrite G; rewrite E; auto.
Qed.

(** ** The dictionary of labels *)
Definition places g := forall i n, nth_error g i = Some n -> gnum n = i.
Lemma dict_places g : places g -> NoDup (map glabel g) -> whole g (MakeLabelDict g) (map glabel g).
Proof.
  intros P D. unfold whole. replace (length g) with (length (map glabel g)) by apply map_length. apply side_place; auto.
  - intros x lab E. rewrite nth_error_map in E. destruct (nth_error g x) as [n|] eqn:En; [|discriminate]. cbn in E. injection E as <-. exists n. splits; auto.
  - unfold MakeLabelDict. now rewrite map_length.
Qed.
Lemma dict_nth g i n : places g -> NoDup (map glabel g) -> nth_error g i = Some n -> dict_find (MakeLabelDict g) (glabel n) = Some i.
Proof. intros P D E. apply (sd_find _ _ _ _ (dict_places g P D)). split; [apply in_seq; apply nth_lt in E; lia|]. eapply label_of_nth; eauto. Qed.
Lemma dict_some g lab i : places g -> NoDup (map glabel g) -> dict_find (MakeLabelDict g) lab = Some i -> exists n, nth_error g i = Some n /\ glabel n = lab.
Proof.
  intros P D E. apply (sd_find _ _ _ _ (dict_places g P D)) in E as [Hi E]. apply in_seq in Hi. destruct (nth_ex g i) as [n En]; [lia|]. exists n. split; auto. now rewrite <- (label_of_nth _ _ _ En).
Qed.
Lemma dict_none g lab : places g -> NoDup (map glabel g) -> dict_find (MakeLabelDict g) lab = None <-> ~ In lab (map glabel g).
Proof.
  intros P D. split.
  - intros E Hi. apply in_map_iff in Hi as (n & <- & Hn). apply In_nth_error in Hn as [i En]. rewrite (dict_nth g i n P D En) in E. discriminate.
  - intros H. destruct (dict_find (MakeLabelDict g) lab) as [i|] eqn:E; auto. destruct H. apply dict_some in E as (n & En & <-); auto. apply in_map. eapply nth_error_In; eauto.
Qed.

(** ** Making soft links hard *)
Definition place g l : link A :=
  let j := match dict_find (MakeLabelDict g) (llabel l) with Some j => j | None => 0 end in mkLink j (llabel l) (lstatus l) (Some j) (lbtw l) (lweight l).
Lemma Rewire_ok g : places g -> NoDup (map glabel g) -> (forall n l, In n g -> In l (gadj n) -> In (llabel l) (map glabel g)) ->
  RewireAdjacencyByLabel g = Ok (map (fun n => reset_cache (set_gadj (map (place g) (gadj n)) n)) g).
Proof.
  intros P D H. unfold RewireAdjacencyByLabel. apply mapM_ok. intros n Hn. rewrite (mapM_ok _ (place g)); auto. intros l Hl. unfold place.
  destruct (dict_find (MakeLabelDict g) (llabel l)) as [j|] eqn:E.
  - cbn [deref bind]. destruct (dict_some _ _ _ P D E) as (m & Em & _). rewrite (get_ok _ _ _ Em). cbn [bind]. now rewrite (P _ _ Em).
  - apply dict_none in E; auto. destruct E. eauto.
Qed.

(** ** Copying the nodes *)
Lemma link_labels g i n : wf_net g -> NoDup (map glabel g) -> nth_error g i = Some n -> NoDup (map llabel (gadj n)).
Proof.
  intros W D E. assert (H : map llabel (gadj n) = map (label_of g) (nbrs g i)).
  { rewrite (nbrs_eq _ _ _ E). pose proof (wf_link g W i n) as L. specialize (fun l => L l E). revert L. induction (gadj n) as [|l ls IH]; intros L; auto.
    destruct (L l) as (j & m & E1 & E2 & E3 & E4); [simpl; auto|]. unfold targets. cbn. rewrite E1. cbn. rewrite (label_of_nth _ _ _ E2), E4. f_equal. apply IH. intros; apply L; simpl; auto. }
  rewrite H. pose proof (wf_nodup g W i) as ND. assert (Hs : forall j, In j (nbrs g i) -> j < length g) by (intros j Hj; apply nbrs_lt in Hj; tauto).
  clear H. induction (nbrs g i) as [|j js IH]; cbn; constructor; inversion ND as [|? ? N1 N2]; subst.
  - intros H. apply in_map_iff in H as (k & Ek & Hk). apply (labels_inj g) in Ek; auto; try (apply Hs; simpl; auto). subst. auto.
  - apply IH; auto. intros; apply Hs; simpl; auto.
Qed.
(** One node of the copy. *)
Lemma Create_last c lab : places c -> length lab < 100 -> CreateNodeGraph c lab = Ok (length c, c ++ [bare lab (length c)]).
Proof.
  intros P L. unfold CreateNodeGraph, store_label, max_label. rewrite (proj2 (Nat.ltb_lt _ _) L). cbn [check bind]. destruct c as [|n c] using rev_ind; [reflexivity|].
  rewrite rev_app_distr. cbn [rev app]. rewrite (P (length c) n) by (rewrite nth_error_app2, Nat.sub_diag by lia; reflexivity). rewrite app_length. reflexivity.
Qed.
Lemma places_snoc c n : places c -> gnum n = length c -> places (c ++ [n]).
Proof. intros P E i m Ei. apply nth_snoc in Ei as [Ei|[-> ->]]; auto. Qed.
Lemma upd_last c n (f : gnode A -> gnode A) : upd_node (c ++ [n]) (length c) f = Ok (c ++ [f n]).
Proof.
  unfold upd_node. rewrite (get_ok _ _ n) by (rewrite nth_error_app2, Nat.sub_diag by lia; reflexivity). cbn [bind]. rewrite set_ok by (rewrite app_length; simpl; lia). f_equal.
  induction c as [|x c IH]; auto. cbn. now rewrite IH.
Qed.
Definition half (k : nat) (p : label * gnode A * option nat) : gnode A :=
  let '(lab, n, grp) := p in mkNode lab k (gstate n) (map soft (gadj n)) grp (gdvar n) 0 n0.
Fixpoint halves (k : nat) (ps : list (label * gnode A * option nat)) : net A :=
  match ps with [] => [] | p :: ps' => half k p :: halves (S k) ps' end.
Lemma halves_nth ps : forall k x, nth_error (halves k ps) x = option_map (half (k + x)) (nth_error ps x).
Proof. induction ps as [|p ps IH]; intros k [|x]; auto; cbn; [now rewrite Nat.add_0_r|]. rewrite IH. now rewrite Nat.add_succ_r. Qed.
Lemma halves_snoc ps p : forall k, halves k (ps ++ [p]) = halves k ps ++ [half (k + length ps) p].
Proof. induction ps as [|q ps IH]; intros k; cbn; [now rewrite Nat.add_0_r|]. now rewrite IH, Nat.add_succ_r. Qed.
Lemma halves_length ps : forall k, length (halves k ps) = length ps.
Proof. induction ps; intros k; cbn; auto. Qed.
Lemma halves_labels ps : forall k, map glabel (halves k ps) = map (fun p => fst (fst p)) ps.
Proof. induction ps as [|[[a b] d] ps IH]; intros k; cbn; f_equal; auto. Qed.
Lemma halves_places ps : places (halves 0 ps).
Proof. intros i n E. rewrite halves_nth in E. destruct (nth_error ps i) as [[[a b] d]|]; [|discriminate]. cbn in E. injection E as <-. auto. Qed.
Lemma half_step (c : net A) lab n (grp : gnode A -> option nat) ps : c = halves 0 ps -> length lab < 100 -> NoDup (map llabel (gadj n)) ->
  (do (p, c) <- CreateNodeGraph c lab; upd_node c p (fun m => CopyAdjacencyList n (mkNode (glabel m) (gnum m) (gstate n) (gadj m) (grp m) (gdvar n) (gdeg m) (gstr m)))) =
  Ok (halves 0 (ps ++ [(lab, n, grp (bare lab (length ps)))])).
Proof.
  intros -> L ND. rewrite Create_last by (auto; apply halves_places). cbn [bind]. rewrite upd_last, halves_length, CopyAdjacencyList_ok by auto. rewrite halves_snoc. reflexivity.
Qed.

(** ** CopyNetwork *)
Lemma copy_nodes g : forall rest ps, (forall n, In n rest -> length (glabel n) < 100 /\ NoDup (map llabel (gadj n))) ->
  foldM (fun c n => do (p, c) <- CreateNodeGraph c (glabel n);
    upd_node c p (fun m => CopyAdjacencyList n (mkNode (glabel m) (gnum m) (gstate n) (gadj m) (ggroup n) (gdvar n) (gdeg m) (gstr m)))) (halves 0 ps) rest =
  Ok (halves 0 (ps ++ map (fun n => (glabel n, n, ggroup n)) rest)).
Proof.
  induction rest as [|n rest IH]; intros ps H; cbn [foldM map]; [now rewrite app_nil_r|]. destruct (H n) as [H1 H2]; [simpl; auto|].
  rewrite (half_step _ (glabel n) n (fun _ => ggroup n) ps) by auto. cbn [bind]. rewrite IH by (intros; apply H; simpl; auto). now rewrite <- app_assoc.
Qed.
Theorem CopyNetwork_copy g : wf_net g -> NoDup (map glabel g) -> (forall n, In n g -> length (glabel n) < 100) -> CopyNetwork g = Ok (net_copy g).
Proof.
  intros W D L. unfold CopyNetwork. change (@nil (gnode A)) with (halves 0 []) at 1. rewrite copy_nodes by (auto; intros n Hn; split; auto; apply In_nth_error in Hn as [i E]; eapply link_labels; eauto).
  cbn [bind app]. set (ps := map (fun n => (glabel n, n, ggroup n)) g). assert (El : map glabel (halves 0 ps) = map glabel g) by (unfold ps; rewrite halves_labels, map_map; reflexivity).
  assert (P : places (halves 0 ps)) by apply halves_places. assert (D' : NoDup (map glabel (halves 0 ps))) by (rewrite El; auto).
  assert (At : forall x, nth_error (halves 0 ps) x = option_map (fun n => half x (glabel n, n, ggroup n)) (nth_error g x)) by (intros x; rewrite halves_nth; unfold ps; rewrite nth_error_map; destruct (nth_error g x); auto).
  rewrite Rewire_ok; auto.
  - f_equal. unfold net_copy. apply nth_ext_eq. intros i. rewrite !nth_error_map, At. destruct (nth_error g i) as [n|] eqn:E; auto. cbn. f_equal. unfold reset_cache, set_gadj. cbn. rewrite (wf_num _ W i n E). f_equal.
    rewrite map_map. apply map_ext_in. intros l Hl. destruct (wf_link _ W i n l E Hl) as (j & m & E1 & E2 & E3 & E4). unfold place, link_copy, soft. cbn.
    assert (F : dict_find (MakeLabelDict (halves 0 ps)) (llabel l) = Some j). { rewrite E4. change (glabel m) with (glabel (half j (glabel m, m, ggroup m))). apply dict_nth; auto. rewrite At, E2. auto. }
    rewrite F, E1, E3. auto.
  - intros n l Hn Hl. rewrite El. apply In_nth_error in Hn as [i Ei]. rewrite At in Ei. destruct (nth_error g i) as [m|] eqn:E; [|discriminate]. cbn in Ei. injection Ei as <-. cbn in Hl. apply in_map_iff in Hl as (l0 & <- & Hl).
    destruct (wf_link _ W i m l0 E Hl) as (j & k & E1 & E2 & E3 & E4). cbn. rewrite E4. apply in_map. eapply nth_error_In; eauto.
Qed.
Lemma net_copy_nth g i : nth_error (net_copy g) i = option_map (fun n => mkNode (glabel n) (gnum n) (gstate n) (map link_copy (gadj n)) (ggroup n) (gdvar n) 0 n0) (nth_error g i).
Proof. apply nth_error_map. Qed.
Lemma targets_copy ls : targets (map link_copy ls) = targets ls.
Proof. unfold targets. rewrite flat_map_concat_map, map_map, <- flat_map_concat_map. reflexivity. Qed.
Lemma weight_in_copy ls j : weight_in (map link_copy ls) j = weight_in ls j.
Proof. induction ls as [|l ls IH]; auto. cbn [map]. rewrite !weight_in_cons, IH. reflexivity. Qed.
Lemma net_copy_nbrs g i : nbrs (net_copy g) i = nbrs g i.
Proof. unfold nbrs. rewrite net_copy_nth. destruct (nth_error g i) as [n|]; auto. cbn. apply targets_copy. Qed.
Lemma net_copy_weight g i j : weight (net_copy g) i j = weight g i j.
Proof. unfold weight. rewrite net_copy_nth. destruct (nth_error g i) as [n|]; auto. cbn. apply weight_in_copy. Qed.
Lemma net_copy_wf g : wf_net g -> wf_net (net_copy g).
Proof.
  intros W. split.
  - intros i n E. rewrite net_copy_nth in E. destruct (nth_error g i) as [m|] eqn:Em; [|discriminate]. injection E as <-. cbn. eapply wf_num; eauto.
  - intros i n l E Hl. rewrite net_copy_nth in E. destruct (nth_error g i) as [m|] eqn:Em; [|discriminate]. injection E as <-. cbn in Hl. apply in_map_iff in Hl as (l0 & <- & Hl).
    destruct (wf_link _ W i m l0 Em Hl) as (j & k & E1 & E2 & E3 & E4). do 2 eexists. splits; [exact E1|rewrite net_copy_nth, E2; reflexivity|auto|auto].
  - intros i. rewrite net_copy_nbrs. apply (wf_nodup _ W).
  - intros i n E. rewrite net_copy_nth in E. destruct (nth_error g i) as [m|] eqn:Em; [|discriminate]. injection E as <-. auto.
Qed.
Lemma net_copy_labels g : map glabel (net_copy g) = map glabel g.
Proof. unfold net_copy. rewrite map_map. reflexivity. Qed.
Lemma net_copy_length g : length (net_copy g) = length g.
Proof. apply map_length. Qed.

(** ** RenumberNodes of a network in order *)
Lemma renumber_self g : places g -> map (fun p => set_gnum (fst p) (snd p)) (combine (seq 0 (length g)) g) = g.
Proof.
  intros P. apply nth_ext_eq. intros i. rewrite nth_error_map. destruct (nth_error g i) as [n|] eqn:E.
  - rewrite (nth_combine (seq 0 (length g)) g i i n) by (auto; rewrite nth_seq, (proj2 (Nat.ltb_lt _ _) (nth_lt _ _ _ E)); auto). cbn. rewrite <- (P _ _ E) at 1. now destruct n.
  - rewrite (proj2 (nth_error_None _ _)); auto. rewrite combine_length, seq_length, Nat.min_id. now apply nth_error_None.
Qed.
Lemma RenumberNodes_wf g : wf_net g -> RenumberNodes g = Ok g.
Proof.
  intros W. unfold RenumberNodes. rewrite renumber_self by exact (wf_num _ W). rewrite (mapM_ok _ (fun n => n)); [now rewrite map_id|].
  intros n Hn. apply In_nth_error in Hn as [i E]. rewrite (mapM_ok _ (fun l => l)); [rewrite map_id; now destruct n|].
  intros l Hl. destruct (wf_link _ W i n l E Hl) as (j & m & E1 & E2 & E3 & E4). rewrite E1. cbn [deref bind]. rewrite (get_ok _ _ _ E2). cbn [bind]. rewrite (wf_num _ W _ _ E2). destruct l. cbn in *. congruence.
Qed.

(** ** The part of a network on some of its nodes *)
Definition shrink g (ks : list nat) l : list (link A) :=
  match lref l with
  | Some j => match shift ks j with Some k => [mkLink k (llabel l) (lstatus l) (Some k) n0 (lweight l)] | None => [] end
  | None => []
  end.
Lemma shift_spec ks j k : NoDup ks -> shift ks j = Some k <-> nth_error ks k = Some j.
Proof.
  unfold shift. intros ND. assert (G : forall pos, NoDup ks -> forall k, (fix find pos ks := match ks with [] => None | k :: ks' => if k =? j then Some pos else find (pos + 1) ks' end) pos ks = Some k <-> pos <= k /\ nth_error ks (k - pos) = Some j).
  { clear k ND. induction ks as [|x ks IH]; intros pos ND k. { split; [discriminate|]. intros [_ H]. destruct (k - pos); discriminate. }
    inversion ND as [|? ? N1 N2]; subst. destruct (Nat.eqb_spec x j) as [->|N].
    - split; [intros [= <-]; now rewrite Nat.sub_diag|]. intros [L H]. destruct (k - pos) as [|y] eqn:Ek; [f_equal; lia|]. destruct N1. eapply nth_error_In; eauto.
    - rewrite IH by auto. split.
      + intros [L H]. split; [lia|]. replace (k - pos) with (S (k - (pos + 1))) by lia. auto.
      + intros [L H]. destruct (k - pos) as [|y] eqn:Ek; [cbn in H; congruence|]. split; [lia|]. now replace (k - (pos + 1)) with y by lia. }
  rewrite (G 0 ND k). rewrite Nat.sub_0_r. split; [tauto|]. split; auto; lia.
Qed.
Lemma shift_none ks j : NoDup ks -> shift ks j = None <-> ~ In j ks.
Proof.
  intros ND. split.
  - intros E H. apply In_nth_error in H as [k H]. apply shift_spec in H; auto. congruence.
  - intros H. destruct (shift ks j) as [k|] eqn:E; auto. apply shift_spec in E; auto. destruct H. eapply nth_error_In; eauto.
Qed.
(** A network whose nodes have the labels of [ks] and the links of [g] between them is the part on [ks]. *)
Lemma induced_by g ks c : wf_net g -> NoDup ks -> length c = length ks ->
  (forall x i n, nth_error ks x = Some i -> nth_error g i = Some n -> exists m, nth_error c x = Some m /\ glabel m = glabel n /\ gnum m = x /\ (gdeg m = 0 \/ gdeg m = length (gadj m)) /\
     exists f : link A -> A, gadj m = flat_map (fun l => map (fun l' => mkLink (lnode l') (llabel l') (lstatus l') (lref l') (f l) (lweight l')) (shrink g ks l)) (gadj n)) ->
  (forall i, In i ks -> i < length g) -> induced g ks c.
Proof.
  intros W ND Len H Hk.
  assert (Src : forall x m, nth_error c x = Some m -> exists i n, nth_error ks x = Some i /\ nth_error g i = Some n).
  { intros x m E. destruct (nth_ex ks x) as [i Ei]; [rewrite <- Len; eapply nth_lt; eauto|]. destruct (nth_ex g i) as [n En]; [apply Hk; eapply nth_error_In; eauto|]. eauto. }
  assert (Tg : forall (f : link A -> A) ls, targets (flat_map (fun l => map (fun l' => mkLink (lnode l') (llabel l') (lstatus l') (lref l') (f l) (lweight l')) (shrink g ks l)) ls) = flat_map (fun j => match shift ks j with Some k => [k] | None => [] end) (targets ls)).
  { intros f. induction ls as [|l ls IH]; auto. cbn [flat_map]. rewrite targets_app, IH. unfold shrink at 1. unfold targets at 3. cbn [flat_map]. destruct (lref l) as [j|]; cbn [flat_map app]; auto. fold (targets ls). destruct (shift ks j); reflexivity. }
  split.
  - split.
    + intros x m E. destruct (Src x m E) as (i & n & Ei & En). destruct (H x i n Ei En) as (m' & Em & _ & N & _). congruence.
    + intros x m l E Hl. destruct (Src x m E) as (i & n & Ei & En). destruct (H x i n Ei En) as (m' & Em & _ & _ & _ & f & Ea). assert (m' = m) by congruence. subst m'. rewrite Ea in Hl. apply in_flat_map in Hl as (l0 & Hl0 & Hl).
      destruct (wf_link _ W i n l0 En Hl0) as (j & mj & E1 & E2 & E3 & E4). unfold shrink in Hl. rewrite E1 in Hl. destruct (shift ks j) as [k|] eqn:Es; [|destruct Hl]. destruct Hl as [<-|[]]. cbn.
      apply shift_spec in Es; auto. destruct (H k j mj Es E2) as (mk & Emk & Lk & _). exists k, mk. splits; auto. congruence.
    + intros x. unfold nbrs. destruct (nth_error c x) as [m|] eqn:E; [|constructor]. destruct (Src x m E) as (i & n & Ei & En). destruct (H x i n Ei En) as (m' & Em & _ & _ & _ & f & Ea). assert (m' = m) by congruence. subst m'. rewrite Ea, Tg.
      pose proof (wf_nodup _ W i) as N. rewrite (nbrs_eq _ _ _ En) in N. apply NoDup_flat_map; auto.
      * intros j _. destruct (shift ks j); repeat constructor; auto.
      * intros j j' y _ _ Hy Hy'. destruct (shift ks j) as [k|] eqn:Es; [|destruct Hy]. destruct (shift ks j') as [k'|] eqn:Es'; [|destruct Hy']. destruct Hy as [<-|[]], Hy' as [->|[]]. apply shift_spec in Es, Es'; auto. congruence.
    + intros x m E. destruct (Src x m E) as (i & n & Ei & En). destruct (H x i n Ei En) as (m' & Em & _ & _ & Dg & _). congruence.
  - apply nth_ext_eq. intros x. rewrite !nth_error_map. destruct (nth_error c x) as [m|] eqn:E.
    + destruct (Src x m E) as (i & n & Ei & En). destruct (H x i n Ei En) as (m' & Em & L & _). rewrite Ei. cbn. rewrite (label_of_nth _ _ _ En). congruence.
    + rewrite (proj2 (nth_error_None ks x)); auto. rewrite <- Len. now apply nth_error_None.
  - intros x y i j Ei Ej. destruct (nth_ex g i) as [n En]; [apply Hk; eapply nth_error_In; eauto|]. destruct (H x i n Ei En) as (m & Em & _ & _ & _ & f & Ea). rewrite (weight_eq _ _ _ _ Em), (weight_eq _ _ _ _ En), Ea.
    assert (Hw : forall l, In l (gadj n) -> exists j, lref l = Some j) by (intros l Hl; destruct (wf_link _ W i n l En Hl) as (q & _ & E1 & _); eauto). clear Ea. induction (gadj n) as [|l ls IH]; auto.
    destruct (Hw l) as [q Eq]; [simpl; auto|]. cbn [flat_map]. unfold shrink at 1. rewrite weight_in_cons, Eq. cbn [eq_ref]. destruct (Nat.eqb_spec q j) as [->|Nq].
    + rewrite (proj2 (shift_spec ks j y ND) Ej). cbn [map app]. rewrite weight_in_cons. cbn [lref eq_ref lweight]. now rewrite Nat.eqb_refl.
    + destruct (shift ks q) as [k|] eqn:Es; cbn [map app]; [|apply IH; intros; apply Hw; simpl; auto]. rewrite weight_in_cons. cbn [lref eq_ref]. rewrite (proj2 (Nat.eqb_neq k y)); [apply IH; intros; apply Hw; simpl; auto|].
      intros ->. apply shift_spec in Es; auto. congruence.
Qed.

(** ** BuildNetFromGroup *)
Lemma group_nodes g : wf_net g -> NoDup (map glabel g) -> (forall n, In n g -> length (glabel n) < 100) -> forall cells is ps, Forall2 (cell_at g) cells is ->
  foldM (fun c p => do (i, c) <- CreateNodeGraph c (llabel p);
    do r <- deref (lref p); do n <- get g r;
    upd_node c i (fun m => CopyAdjacencyList n (mkNode (glabel m) (gnum m) (gstate n) (gadj m) (ggroup m) (gdvar n) (gdeg m) (gstr m)))) (halves 0 ps) cells =
  Ok (halves 0 (ps ++ map (fun i => (label_of g i, node_at g i, None)) is)).
Proof.
  intros W D L. induction cells as [|p cells IH]; intros js ps F; inversion F as [|? i ? is' (E & Hi & El) F']; subst; cbn [foldM map]; [now rewrite app_nil_r|].
  destruct (nth_ex g i Hi) as [n En]. assert (Ll : llabel p = glabel n) by (rewrite El; eapply label_of_nth; eauto).
  pose proof (half_step (halves 0 ps) (llabel p) n (@ggroup A) ps eq_refl) as St. rewrite Create_last in *; [|apply halves_places| |apply halves_places|]; try (rewrite Ll; apply L; eapply nth_error_In; eauto).
  cbn [bind] in *. rewrite E. cbn [deref bind]. rewrite (get_ok _ _ _ En). cbn [bind]. rewrite St; [|rewrite Ll; apply L; eapply nth_error_In; eauto|eapply link_labels; eauto]. cbn [bind].
  rewrite (IH is') by auto. rewrite <- app_assoc. cbn. rewrite (node_at_ok _ _ _ En), El. reflexivity.
Qed.
Lemma filter_flat {X Y} (keep : X -> bool) (f : X -> Y) (xs : list X) : map f (filter keep xs) = flat_map (fun x => if keep x then [f x] else []) xs.
Proof. induction xs as [|x xs IH]; auto. cbn. destruct (keep x); cbn; now rewrite IH. Qed.
Theorem BuildNetFromGroup_induced g cells is : wf_net g -> NoDup (map glabel g) -> (forall n, In n g -> length (glabel n) < 100) ->
  Forall2 (cell_at g) cells is -> NoDup is -> exists c, BuildNetFromGroup g cells = Ok c /\ induced g is c /\ (forall n, In n c -> ggroup n = None).
Proof.
  intros W D L F ND. unfold BuildNetFromGroup. change (@nil (gnode A)) with (halves 0 []) at 1. rewrite (group_nodes g W D L cells is []) by auto. cbn [bind app].
  set (ps := map (fun i => (label_of g i, node_at g i, @None nat)) is). set (h := halves 0 ps).
  assert (Hk : forall i, In i is -> i < length g) by (clear - F; induction F as [|p i cs is (E & Hi & El) F IH]; intros j Hj; [destruct Hj|destruct Hj as [<-|Hj]; auto]).
  assert (P : places h) by apply halves_places.
  assert (El : map glabel h = map (label_of g) is) by (unfold h, ps; rewrite halves_labels, map_map; reflexivity).
  assert (D' : NoDup (map glabel h)).
  { rewrite El. clear - ND Hk D. induction is as [|i is IH]; cbn; constructor; inversion ND as [|? ? N1 N2]; subst.
    - intros H. apply in_map_iff in H as (j & E & Hj). apply (labels_inj g) in E; auto; try (apply Hk; simpl; auto). subst. auto.
    - apply IH; auto. intros; apply Hk; simpl; auto. }
  assert (At : forall x i n, nth_error is x = Some i -> nth_error g i = Some n -> nth_error h x = Some (mkNode (glabel n) x (gstate n) (map soft (gadj n)) None (gdvar n) 0 n0)).
  { intros x i n Ei En. unfold h. rewrite halves_nth. unfold ps. rewrite nth_error_map, Ei. cbn. rewrite (node_at_ok _ _ _ En), (label_of_nth _ _ _ En). reflexivity. }
  assert (Fd : forall j m, nth_error g j = Some m -> dict_find (MakeLabelDict h) (glabel m) = shift is j).
  { intros j m Ej. destruct (shift is j) as [k|] eqn:Es.
    - apply shift_spec in Es; auto. pose proof (At k j m Es Ej) as Ek. apply (dict_nth h k _ P D') in Ek. exact Ek.
    - apply shift_none in Es; auto. apply dict_none; auto. rewrite El. intros H. apply in_map_iff in H as (i & Ei & Hi). rewrite <- (label_of_nth _ _ _ Ej) in Ei. apply (labels_inj g) in Ei; auto; [subst; auto|eapply nth_lt; eauto]. }
  set (c1 := CleanAdjacencies h).
  assert (L1 : map glabel c1 = map glabel h) by (unfold c1, CleanAdjacencies; rewrite map_map; reflexivity).
  assert (N1 : forall x, nth_error c1 x = option_map (fun n => reset_cache (set_gadj (filter (fun l => match dict_find (MakeLabelDict h) (llabel l) with Some _ => true | None => false end) (gadj n)) n)) (nth_error h x)) by (intros x; apply nth_error_map).
  assert (M1 : MakeLabelDict c1 = MakeLabelDict h) by (unfold MakeLabelDict; rewrite L1; unfold c1, CleanAdjacencies; now rewrite map_length).
  assert (P1 : places c1) by (intros x n E; rewrite N1 in E; destruct (nth_error h x) as [m|] eqn:Em; [|discriminate]; injection E as <-; cbn; auto).
  rewrite Rewire_ok; auto; [|rewrite L1; auto|].
  2: { intros n l Hn Hl. rewrite L1. unfold c1, CleanAdjacencies in Hn. apply in_map_iff in Hn as (m & <- & Hm). cbn in Hl. apply filter_In in Hl as [_ Hl]. destruct (dict_find (MakeLabelDict h) (llabel l)) as [j|] eqn:Ej; [|discriminate].
       apply dict_some in Ej as (q & Eq & <-); auto. apply in_map. eapply nth_error_In; eauto. }
  cbn [bind]. set (c2 := map _ c1).
  assert (I : induced g is c2).
  { apply induced_by; auto.
    - unfold c2, c1, CleanAdjacencies, h. rewrite !map_length, halves_length. unfold ps. apply map_length.
    - intros x i n Ei En. pose proof (At x i n Ei En) as Eh. eexists. split; [unfold c2; rewrite nth_error_map, N1, Eh; reflexivity|]. cbn. splits; auto. exists (fun _ => n0).
      rewrite filter_flat, flat_map_concat_map, map_map, <- flat_map_concat_map. apply flat_map_ext_in'. intros l Hl. destruct (wf_link _ W i n l En Hl) as (j & m & E1 & E2 & E3 & E4).
      unfold place, shrink. rewrite M1. cbn. rewrite E4, (Fd _ _ E2), E1. destruct (shift is j); auto. }
  pose proof (RenumberNodes_wf c2 (in_wf _ _ _ I)) as Rn. exists c2. splits; auto.
  intros n Hn. apply In_nth_error in Hn as [x E]. unfold c2 in E. rewrite nth_error_map, N1 in E. unfold h in E. rewrite halves_nth in E. unfold ps in E. rewrite nth_error_map in E. destruct (nth_error is x); [|discriminate]. injection E as <-. reflexivity.
Qed.
End Copy.

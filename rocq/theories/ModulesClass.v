(** ModulesClass.v -- the fraction of correctly classified nodes (C39). *)
From Coq Require Import List Arith ZArith Bool QArith Qcanon Lia.
From Verif Require Import Base Num ListLib GraphModel GraphSpec GroupModel GroupSpec ModulesModel ModulesSpec.
Import ListNotations.
Local Open Scope nat_scope.

Section Any.
Context {A : Type} {ops : NumOps A}.
Implicit Types (P Q : gpart A) (G : grp A).

Lemma size_sum P : (forall G, In G P -> psize G = Z.of_nat (length (pnodes G))) -> forall z, fold_left (fun s G => (s + psize G)%Z) P z = (z + Z.of_nat (length (flat_map pnodes P)))%Z.
Proof.
  induction P as [|G P IH]; intros H z; cbn [fold_left flat_map]; [simpl; lia|]. rewrite IH by (intros; apply H; simpl; auto). rewrite (H G), app_length by (simpl; auto). lia.
Qed.
Lemma size_total P : (forall G, In G P -> psize G = Z.of_nat (length (pnodes G))) -> PartitionSize P = Z.of_nat (length (flat_map pnodes P)).
Proof. intros H. unfold PartitionSize. rewrite size_sum by auto. lia. Qed.

(** Never more nodes are counted than there are. *)
Lemma count_node_le group m (ns : list (link A)) : forall c c', foldM (cc_node group m) c ns = Ok c' -> (c <= c' <= c + Z.of_nat (length ns))%Z.
Proof.
  induction ns as [|l ns IH]; intros c c' E; cbn [foldM] in E; [injection E as <-; simpl; lia|].
  destruct (cc_node group m c l) as [c1|] eqn:E1; cbn [bind] in E; [|discriminate]. apply IH in E. unfold cc_node in E1. destruct (node_at group l) as [x|]; cbn [bind] in E1; [|discriminate].
  injection E1 as <-. cbn [length]. destruct (x =? m)%Z; lia.
Qed.
Lemma count_le group map : forall (P : gpart A) n c n' c', (forall G, In G P -> psize G = Z.of_nat (length (pnodes G))) -> foldM (cc_count group map) (n, c) P = Ok (n', c') ->
  (n' = n + Z.of_nat (length (flat_map pnodes P)) /\ c <= c' <= c + Z.of_nat (length (flat_map pnodes P)))%Z.
Proof.
  induction P as [|G P IH]; intros n c n' c' H E; cbn [foldM flat_map] in E |- *; [injection E as <- <-; simpl; lia|].
  destruct (cc_count group map (n, c) G) as [[n1 c1]|] eqn:E1; cbn [bind] in E; [|discriminate]. apply IH in E; [|intros; apply H; simpl; auto]. unfold cc_count in E1. rewrite (H G) in E1 by (simpl; auto). rewrite app_length.
  destruct (get map (plabel G)) as [m|]; cbn [bind] in E1; [|discriminate]. destruct (-1 <? m)%Z.
  - destruct (foldM (cc_node group m) c (pnodes G)) as [c2|] eqn:E2; cbn [bind] in E1; [|discriminate]. injection E1 as <- <-. apply count_node_le in E2. lia.
  - injection E1 as <- <-. lia.
Qed.
Theorem classified_counts ref act x : (forall G, In G ref -> psize G = Z.of_nat (length (pnodes G))) -> (forall G, In G act -> psize G = Z.of_nat (length (pnodes G))) ->
  CorrectlyClassified ref act = Ok x -> exists c, c <= length (flat_map pnodes act) /\ x = ndiv (zA (Z.of_nat c)) (zA (Z.of_nat (length (flat_map pnodes ref) + length (flat_map pnodes act)))).
Proof.
  intros Hr Ha E. unfold CorrectlyClassified in E. cbv zeta in E. rewrite size_total in E by auto.
  destruct (check _ _); cbn [bind] in E; [|discriminate]. destruct (foldM cc_group _ _) as [group|]; cbn [bind] in E; [|discriminate].
  destruct (foldM (cc_map _ _) _ _) as [[[sc ms] map]|]; cbn [bind] in E; [|discriminate]. destruct (drop_doubles _ _ _) as [map'|]; cbn [bind] in E; [|discriminate].
  destruct (foldM (cc_count _ _) _ _) as [[n c]|] eqn:E1; cbn [bind] in E; [|discriminate]. apply count_le in E1; auto. destruct E1 as [-> Hc]. injection E as <-.
  exists (Z.to_nat c). split; [lia|]. rewrite Z2Nat.id, Nat2Z.inj_add by lia. reflexivity.
Qed.

(** Identical partitions. *)
Lemma get_some {X} (l : list X) i x : nth_error l i = Some x -> get l i = Ok x.
Proof. intros H. unfold get. now rewrite H. Qed.
Lemma repeat_nth {X} (x : X) n i : i < n -> nth_error (repeat x n) i = Some x.
Proof. revert i. induction n as [|n IH]; intros [|i] H; simpl; try lia; auto. apply IH. lia. Qed.
Lemma foldM_const {X Y} (f : X -> Y -> res X) s L : (forall y, In y L -> f s y = Ok s) -> foldM f s L = Ok s.
Proof. induction L as [|y L IH]; intros H; [reflexivity|]. cbn [foldM]. rewrite H by (simpl; auto). cbn [bind]. apply IH. intros; apply H; simpl; auto. Qed.
Section Id.
Variables (n : nat) (P : gpart A).
Hypothesis NB : numbering n P.

Lemma group_step G : (forall l, In l (pnodes G) -> lnode l < n /\ lref l <> None) -> NoDup (map lnode (pnodes G)) -> forall v, length v = n ->
  exists v', cc_group v G = Ok v' /\ length v' = n /\ (forall l, In l (pnodes G) -> nth_error v' (lnode l) = Some (Z.of_nat (plabel G))) /\
    (forall i, ~ In i (map lnode (pnodes G)) -> nth_error v' i = nth_error v i).
Proof.
  intros HR ND v Hv. unfold cc_group.
  destruct (foldM_inv (fun done v' => length v' = n /\ (forall l, In l done -> nth_error v' (lnode l) = Some (Z.of_nat (plabel G))) /\ (forall i, ~ In i (map lnode done) -> nth_error v' i = nth_error v i))
    (fun group l => match lref l with None => Err UB_oob | Some _ => set group (lnode l) (Z.of_nat (plabel G)) end) (pnodes G) v) as (v' & E & K1 & K2 & K3).
  - splits; auto. intros l [].
  - intros done l rest v1 El (K1 & K2 & K3). destruct (HR l) as [Hl Hr]; [rewrite El; apply in_app_iff; simpl; auto|]. destruct (lref l); [|congruence].
    rewrite set_ok by lia. eexists; split; [reflexivity|]. rewrite length_upd. splits; auto.
    + intros l' H. rewrite nth_upd. destruct (Nat.eqb_spec (lnode l') (lnode l)) as [E|E]; cbn [andb].
      * rewrite (proj2 (Nat.ltb_lt _ _)) by lia. reflexivity.
      * apply in_app_iff in H. destruct H as [H|[<-|[]]]; [auto|congruence].
    + intros i Hi. rewrite map_app, in_app_iff in Hi. rewrite nth_upd_neq; [apply K3; tauto|]. intros E. apply Hi. right. simpl. auto.
  - exists v'. splits; auto.
Qed.
Lemma groups_right : exists v, foldM cc_group (repeat (-1)%Z n) P = Ok v /\ forall G l, In G P -> In l (pnodes G) -> nth_error v (lnode l) = Some (Z.of_nat (plabel G)).
Proof.
  destruct (foldM_inv (fun done v => length v = n /\ forall G l, In G done -> In l (pnodes G) -> nth_error v (lnode l) = Some (Z.of_nat (plabel G))) cc_group P (repeat (-1)%Z n)) as (v & E & K1 & K2).
  - split; [apply repeat_length|]. intros G l [].
  - intros done G rest v EP (K1 & K2). pose proof (nb_once _ _ NB) as ND. rewrite EP, flat_map_app in ND. cbn [flat_map] in ND. apply NoDup_app_iff in ND. destruct ND as (_ & ND & DJ).
    apply NoDup_app_iff in ND. destruct ND as (ND & _ & _).
    assert (HG : In G P) by (rewrite EP; apply in_app_iff; simpl; auto).
    destruct (group_step G (fun l Hl => nb_range _ _ NB G l HG Hl) ND v K1) as (v' & E & L & I1 & I2). exists v'. splits; auto.
    intros G' l H Hl. apply in_app_iff in H. destruct H as [H|[<-|[]]]; [|auto]. rewrite I2; [auto|].
    intros Hi. apply (DJ (lnode l)); [apply in_flat_map; exists G'; split; auto; now apply in_map|]. apply in_app_iff. auto.
  - exists v. auto.
Qed.
Variable v : list Z.
Hypothesis HV : forall G l, In G P -> In l (pnodes G) -> nth_error v (lnode l) = Some (Z.of_nat (plabel G)).

Lemma node_at_ok G l : In G P -> In l (pnodes G) -> node_at v l = Ok (Z.of_nat (plabel G)).
Proof. intros HG Hl. unfold node_at. destruct (nb_range _ _ NB G l HG Hl) as [_ H]. destruct (lref l); [|congruence]. apply get_some. auto. Qed.
Lemma score_ok G : In G P -> forall ns s c, incl ns (pnodes G) -> nth_error s (plabel G) = Some c -> foldM (cc_score v) s ns = Ok (upd s (plabel G) (c + Z.of_nat (length ns))%Z).
Proof.
  intros HG. induction ns as [|l ns IH]; intros s c Hi Hs; cbn [foldM length].
  - rewrite upd_same; auto. rewrite Hs. f_equal. lia.
  - unfold cc_score at 1. rewrite (node_at_ok G l HG) by (apply Hi; simpl; auto). cbn [bind]. unfold label_at. rewrite (proj2 (Z.ltb_ge _ _)), Nat2Z.id by lia.
    rewrite (get_some _ _ _ Hs). cbn [bind]. assert (plabel G < length s) by (apply nth_error_Some; congruence). rewrite set_ok by auto. cbn [bind].
    rewrite (IH _ (c + 1)%Z); [|intros x Hx; apply Hi; simpl; auto|apply nth_upd_eq; auto].
    f_equal. rewrite upd_upd. f_equal. lia.
Qed.
Lemma best_other G s ms mp m : nth_error ms (plabel G) = Some m -> (0 <= m)%Z -> forall L, (forall G1, In G1 L -> nth_error s (plabel G1) = Some 0%Z) ->
  foldM (cc_best G) (s, ms, mp) L = Ok (s, ms, mp).
Proof.
  intros Hm H0. induction L as [|G1 L IH]; intros HL; [reflexivity|]. cbn [foldM]. unfold cc_best at 1. pose proof (HL G1 (or_introl eq_refl)) as H1.
  rewrite (get_some _ _ _ H1). cbn [bind]. rewrite (get_some _ _ _ Hm). cbn [bind]. rewrite (proj2 (Z.ltb_ge m 0)) by lia. cbn [bind].
  rewrite set_ok by (apply nth_error_Some; congruence). cbn [bind]. rewrite upd_same by auto. apply IH. intros; apply HL; simpl; auto.
Qed.
Lemma map_ok : exists ms mp, foldM (cc_map P v) (repeat 0%Z n, repeat 0%Z n, repeat (-1)%Z n) P = Ok (repeat 0%Z n, ms, mp) /\ length ms = n /\ length mp = n /\
  forall G, In G P -> nth_error mp (plabel G) = Some (if length (pnodes G) =? 0 then (-1)%Z else Z.of_nat (plabel G)).
Proof.
  destruct (foldM_inv (fun done st => let '(s, ms, mp) := st in s = repeat 0%Z n /\ length ms = n /\ length mp = n /\
     (forall G, In G done -> nth_error mp (plabel G) = Some (if length (pnodes G) =? 0 then (-1)%Z else Z.of_nat (plabel G))) /\
     (forall i, i < n -> ~ In i (map plabel done) -> nth_error mp i = Some (-1)%Z /\ nth_error ms i = Some 0%Z)) (cc_map P v) P (repeat 0%Z n, repeat 0%Z n, repeat (-1)%Z n)) as ([[s ms] mp] & E & -> & L1 & L2 & K & _).
  - rewrite !repeat_length. splits; auto; [intros G []|]. intros i Hi _. split; apply repeat_nth; auto.
  - intros done G rest [[s ms] mp] EP (-> & L1 & L2 & K1 & K2). assert (HG : In G P) by (rewrite EP; apply in_app_iff; simpl; auto). pose proof (nb_below _ _ NB G HG) as Hb.
    pose proof (nb_labels _ _ NB) as ND. rewrite EP, map_app in ND. cbn [map] in ND. assert (NDd : ~ In (plabel G) (map plabel done)) by (intros H; apply NoDup_remove_2 in ND; apply ND; apply in_app_iff; auto).
    destruct (K2 _ Hb NDd) as [M1 M2]. unfold cc_map. rewrite (score_ok G HG (pnodes G) _ 0%Z) by (try apply incl_refl; apply repeat_nth; auto). cbn [bind].
    destruct (in_split G P HG) as (A1 & B1 & EQ). pose proof (nb_labels _ _ NB) as ND2. rewrite EQ, map_app in ND2. cbn [map] in ND2. apply NoDup_remove_2 in ND2. rewrite in_app_iff in ND2.
    assert (Z0 : forall x, forall G1, In G1 A1 \/ In G1 B1 -> nth_error (upd (repeat 0%Z n) (plabel G) x) (plabel G1) = Some 0%Z).
    { intros x G1 HG1. rewrite nth_upd_neq; [apply repeat_nth, (nb_below _ _ NB); rewrite EQ; apply in_app_iff; simpl; tauto|]. intros E. apply ND2. rewrite E. destruct HG1; [left|right]; now apply in_map. }
    assert (F : forall st, foldM (cc_best G) st P = do st <- foldM (cc_best G) st A1; do st <- cc_best G st G; foldM (cc_best G) st B1) by (intros st; rewrite EQ, foldM_app; reflexivity).
    rewrite F. rewrite (best_other G _ ms mp 0%Z) by (auto; lia). cbn [bind]. unfold cc_best at 1. rewrite (get_some _ _ (0 + Z.of_nat (length (pnodes G)))%Z) by (apply nth_upd_eq; rewrite repeat_length; auto). cbn [bind].
    rewrite (get_some _ _ _ M2). cbn [bind]. assert (US : forall x, upd (upd (repeat 0%Z n) (plabel G) x) (plabel G) 0%Z = repeat 0%Z n) by (intros x; rewrite upd_upd; apply upd_same, repeat_nth; auto).
    assert (ZB : forall G1, In G1 B1 -> nth_error (repeat 0%Z n) (plabel G1) = Some 0%Z) by (intros G1 H; apply repeat_nth, (nb_below _ _ NB); rewrite EQ; apply in_app_iff; simpl; tauto).
    destruct (Nat.eqb_spec (length (pnodes G)) 0) as [E0|E0].
    + rewrite (proj2 (Z.ltb_ge _ _)) by lia. cbn [bind]. rewrite set_ok by (rewrite length_upd, repeat_length; auto). cbn [bind]. rewrite US, (best_other G _ ms mp 0%Z) by (auto; lia).
      eexists; split; [reflexivity|]. cbv beta iota. splits; auto.
      * intros G' H. apply in_app_iff in H. destruct H as [H|[<-|[]]]; auto. rewrite M1. rewrite E0. reflexivity.
      * intros i Hi Hn. apply K2; auto. intros Hx. apply Hn. rewrite map_app, in_app_iff. auto.
    + rewrite (proj2 (Z.ltb_lt _ _)) by lia. rewrite set_ok by lia. cbn [bind]. rewrite set_ok by lia. cbn [bind]. rewrite set_ok by (rewrite length_upd, repeat_length; auto). cbn [bind]. rewrite US.
      rewrite (best_other G _ _ _ (0 + Z.of_nat (length (pnodes G)))%Z) by (try apply nth_upd_eq; auto; lia).
      eexists; split; [reflexivity|]. cbv beta iota. rewrite !length_upd. splits; auto.
      * intros G' H. apply in_app_iff in H. destruct H as [H|[<-|[]]].
        -- rewrite nth_upd_neq; [auto|]. intros Ex. apply NDd. rewrite Ex. now apply in_map.
        -- rewrite nth_upd_eq by lia. rewrite (proj2 (Nat.eqb_neq _ _) E0). reflexivity.
      * intros i Hi Hn. rewrite map_app, in_app_iff in Hn. cbn in Hn. rewrite !nth_upd_neq by tauto. apply K2; auto.
  - exists ms, mp. splits; auto.
Qed.
Lemma drop_none ms mp : length ms = n -> length mp = n -> (forall G, In G P -> nth_error mp (plabel G) = Some (if length (pnodes G) =? 0 then (-1)%Z else Z.of_nat (plabel G))) ->
  forall L, incl L P -> NoDup (map plabel L) -> drop_doubles ms mp L = Ok mp.
Proof.
  intros L1 L2 K. induction L as [|G L IH]; intros HI ND; [reflexivity|]. cbn [drop_doubles]. inversion ND as [|? ? Hn ND']; subst.
  assert (HG : In G P) by (apply HI; simpl; auto). pose proof (nb_below _ _ NB G HG) as Hb.
  rewrite foldM_const.
  - cbn [bind]. apply IH; auto. intros x Hx; apply HI; simpl; auto.
  - intros G2 H2. assert (HG2 : In G2 P) by (apply HI; right; auto). pose proof (nb_below _ _ NB G2 HG2) as Hb2.
    assert (NE : plabel G <> plabel G2) by (intros E; apply Hn; rewrite E; apply in_map; auto).
    rewrite (get_some _ _ _ (K G HG)). cbn [bind]. rewrite (get_some _ _ _ (K G2 HG2)). cbn [bind].
    match goal with |- context [(?a =? ?b)%Z] => destruct (Z.eqb_spec a b) as [EQ|EQ] end; [|reflexivity].
    assert (EG : nth_error mp (plabel G) = Some (-1)%Z /\ nth_error mp (plabel G2) = Some (-1)%Z).
    { rewrite !K by auto. destruct (length (pnodes G) =? 0), (length (pnodes G2) =? 0); auto; lia. }
    destruct EG as [EG1 EG2]. destruct (nth_ex ms (plabel G)) as [x Hx]; [lia|]. destruct (nth_ex ms (plabel G2)) as [y Hy]; [lia|].
    rewrite (get_some _ _ _ Hx). cbn [bind]. rewrite (get_some _ _ _ Hy). cbn [bind].
    destruct (y <? x)%Z; rewrite set_ok by lia; rewrite upd_same by auto; reflexivity.
Qed.
Lemma node_all G : In G P -> forall ns c, incl ns (pnodes G) -> foldM (cc_node v (Z.of_nat (plabel G))) c ns = Ok (c + Z.of_nat (length ns))%Z.
Proof.
  intros HG. induction ns as [|l ns IH]; intros c Hi; cbn [foldM length]; [f_equal; lia|]. unfold cc_node at 1. rewrite (node_at_ok G l HG) by (apply Hi; simpl; auto). cbn [bind].
  rewrite Z.eqb_refl, IH by (intros x Hx; apply Hi; simpl; auto). f_equal. lia.
Qed.
Lemma count_all mp : (forall G, In G P -> nth_error mp (plabel G) = Some (if length (pnodes G) =? 0 then (-1)%Z else Z.of_nat (plabel G))) ->
  forall L m c, incl L P -> foldM (cc_count v mp) (m, c) L = Ok ((m + Z.of_nat (length (flat_map pnodes L)))%Z, (c + Z.of_nat (length (flat_map pnodes L)))%Z).
Proof.
  intros K. induction L as [|G L IH]; intros m c HI; cbn [foldM flat_map]; [simpl; do 2 f_equal; lia|]. assert (HG : In G P) by (apply HI; simpl; auto).
  assert (E : cc_count v mp (m, c) G = Ok ((m + Z.of_nat (length (pnodes G)))%Z, (c + Z.of_nat (length (pnodes G)))%Z)).
  { unfold cc_count. rewrite (get_some _ _ _ (K G HG)), (nb_size _ _ NB G HG). cbn [bind]. destruct (Nat.eqb_spec (length (pnodes G)) 0) as [E0|E0].
    - rewrite (proj2 (Z.ltb_ge _ _)) by lia. do 2 f_equal; lia.
    - rewrite (proj2 (Z.ltb_lt _ _)) by lia. rewrite (node_all G HG) by apply incl_refl. reflexivity. }
  rewrite E. cbn [bind]. rewrite IH by (intros x Hx; apply HI; simpl; auto). rewrite app_length. do 2 f_equal; lia.
Qed.
End Id.
Theorem classified_self n P : numbering n P -> CorrectlyClassified P P = Ok (ndiv (zA (Z.of_nat n)) (zA (Z.of_nat (n + n)))).
Proof.
  intros NB. unfold CorrectlyClassified. cbv zeta. rewrite size_total by apply (nb_size _ _ NB). rewrite (nb_all _ _ NB). rewrite (proj2 (Z.leb_le _ _)) by lia. cbn [check bind]. rewrite Nat2Z.id.
  destruct (groups_right n P NB) as (v & E & HV). rewrite E. cbn [bind]. destruct (map_ok n P NB v HV) as (ms & mp & E2 & L1 & L2 & K). rewrite E2. cbn [bind].
  rewrite (drop_none n P NB ms mp L1 L2 K P) by (try apply incl_refl; apply (nb_labels _ _ NB)). cbn [bind]. rewrite (count_all n P NB v HV mp K P) by apply incl_refl. cbn [bind].
  rewrite (nb_all _ _ NB), Z.add_0_l, Nat2Z.inj_add. reflexivity.
Qed.
End Any.

Section Exact.
Variables ex sq : Qc -> Qc.
#[local] Instance opsC : NumOps Qc := Qc_ops ex sq.

Lemma zA_Qc z : zA z = Q2Qc (inject_Z z).
Proof. reflexivity. Qed.
Lemma Qdiv_le a b : (0 < b)%Z -> (2 * a <= b)%Z -> (Q2Qc (inject_Z a) / Q2Qc (inject_Z b) <= Q2Qc (1 # 2))%Qc.
Proof.
  intros Hb H. unfold Qcle. cbn [this Q2Qc Qcdiv Qcmult Qcinv]. rewrite !Qred_correct. apply Qle_shift_div_r.
  - unfold Qlt. cbn. lia.
  - unfold Qle, Qmult, inject_Z. cbn [Qnum Qden]. lia.
Qed.
Theorem classified_half (ref act : gpart Qc) x : (forall G, In G ref -> psize G = Z.of_nat (length (pnodes G))) -> (forall G, In G act -> psize G = Z.of_nat (length (pnodes G))) ->
  length (flat_map pnodes ref) = length (flat_map pnodes act) -> 0 < length (flat_map pnodes act) -> CorrectlyClassified ref act = Ok x -> (x <= Q2Qc (1 # 2))%Qc.
Proof.
  intros Hr Ha EL Hp E. destruct (classified_counts ref act x Hr Ha E) as (c & Hc & ->). apply Qdiv_le; lia.
Qed.
Theorem classified_self_half (P : gpart Qc) n : 0 < n -> numbering n P -> CorrectlyClassified P P = Ok (Q2Qc (1 # 2)).
Proof.
  intros Hn NB. rewrite (classified_self n P NB). f_equal. change (Q2Qc (inject_Z (Z.of_nat n)) / Q2Qc (inject_Z (Z.of_nat (n + n))) = Q2Qc (1 # 2))%Qc.
  apply Qc_is_canon. cbn [this Q2Qc Qcdiv Qcmult Qcinv]. rewrite !Qred_correct. unfold Qeq, Qdiv, Qmult, Qinv, inject_Z. cbn [Qnum Qden].
  destruct (Z.of_nat (n + n)) eqn:E; try lia. cbn [Qnum Qden]. lia.
Qed.
End Exact.

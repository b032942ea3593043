(** RolesProof.v -- PartitionRolesMetrics in exact arithmetic. *)
From Coq Require Import List Arith Lia Bool QArith Qcanon.
From Verif Require Import Base Num ListLib QcSum PartModel PartSpec AdjSpec ModSpec PartInv EnergyForm ExactProof.
Import ListNotations.
Local Open Scope nat_scope.
Local Open Scope Qc_scope.

(** ** Specification *)
(** Weight of the links of node [i] that end in module [m]. *)
Definition to_module (p : partition Qc) (adj : adja Qc) (i m : nat) : Qc :=
  Qsum (fun x => match group p (fst x) with Some g => if Nat.eqb g m then snd x else 0 | None => 0 end) (row adj i).
(** Weight of all links of node [i]. *)
Definition out_strength (adj : adja Qc) (i : nat) : Qc := Qsum snd (row adj i).
(** Sum over the nodes that report module [m]. *)
Definition over_module (p : partition Qc) (m : nat) (f : nat -> Qc) : Qc :=
  Qsum (fun i => match group p i with Some g => if Nat.eqb g m then f i else 0 | None => 0 end) (seq 0 (pN p)).
(** Number of nodes that report module [m]. *)
Definition module_size (p : partition Qc) (m : nat) : nat :=
  length (filter (fun i => match group p i with Some g => Nat.eqb g m | None => false end) (seq 0 (pN p))).
(** Mean and (population) variance of the within-module strengths of module [m]. *)
Definition module_mean p adj m : Qc := over_module p m (fun i => to_module p adj i m) / Qc_of_nat (module_size p m).
Definition module_var p adj m : Qc :=
  over_module p m (fun i => (to_module p adj i m - module_mean p adj m) * (to_module p adj i m - module_mean p adj m))
  / Qc_of_nat (module_size p m).

(** ** Array loops *)
Lemma accum_spec (M N : nat) (g : nat -> nat) (x : nat -> Qc) (body : list Qc -> nat -> res (list Qc)) :
  (forall i, (i < N)%nat -> (g i < M)%nat) ->
  (forall a i, (i < N)%nat -> length a = M -> body a i = (do v <- get a (g i); set a (g i) (v + x i))) ->
  exists a, foldM body (repeat 0 M) (seq 0 N) = Ok a /\ length a = M /\
    forall m, (m < M)%nat -> nth_error a m = Some (Qsum (fun i => if Nat.eqb (g i) m then x i else 0) (seq 0 N)).
Proof.
  intros Hg Hb.
  destruct (foldM_seq (fun k a => length a = M /\ forall m, (m < M)%nat ->
     nth_error a m = Some (Qsum (fun i => if Nat.eqb (g i) m then x i else 0) (seq 0 k))) body N (repeat 0 M))
     as (a & E & HL & H); eauto 6.
  - split; [apply repeat_length|]. intros m Hm. rewrite (nth_error_nth' _ 0) by (rewrite repeat_length; auto).
    now rewrite nth_repeat.
  - intros i a Hi [HL H]. rewrite Hb by auto. specialize (Hg i Hi). rewrite (get_ok _ _ _ (H _ Hg)). cbn [bind].
    rewrite set_ok by lia. eexists. split; [reflexivity|]. split; [now rewrite length_upd|].
    intros m Hm. rewrite Nat.add_1_r, seq_S, Qsum_app. cbn [Qsum plus].
    destruct (Nat.eqb_spec (g i) m) as [<-|Hne].
    + rewrite nth_upd_eq by lia. f_equal. ring.
    + rewrite nth_upd_neq by auto. rewrite H by auto. f_equal. ring.
Qed.

Lemma mapinto_spec (n : nat) (f : nat -> Qc -> Qc) (body : list Qc -> nat -> res (list Qc)) a0 : length a0 = n ->
  (forall a i, (i < n)%nat -> length a = n -> body a i = (do v <- get a i; set a i (f i v))) ->
  exists a, foldM body a0 (seq 0 n) = Ok a /\ length a = n /\
    forall i, (i < n)%nat -> nth_error a i = option_map (f i) (nth_error a0 i).
Proof.
  intros HL0 Hb.
  destruct (foldM_seq (fun k a => length a = n /\ forall i, nth_error a i = if Nat.ltb i k then option_map (f i) (nth_error a0 i) else nth_error a0 i)
     body n a0) as (a & E & HL & H); auto.
  - intros i a Hi [HL H]. rewrite Hb by auto. destruct (nth_ex a0 i) as [v Ev]; [lia|].
    pose proof (H i) as Hv. rewrite Nat.ltb_irrefl, Ev in Hv. rewrite (get_ok _ _ _ Hv). cbn [bind]. rewrite set_ok by lia.
    eexists. split; [reflexivity|]. split; [now rewrite length_upd|]. intros j. rewrite nth_upd.
    destruct (Nat.eqb_spec j i) as [->|Hne].
    + rewrite (proj2 (Nat.ltb_lt _ _)) by lia. cbn [andb]. rewrite (proj2 (Nat.ltb_lt _ _)) by lia. now rewrite Ev.
    + cbn [andb]. rewrite H. destruct (Nat.ltb_spec j i); destruct (Nat.ltb_spec j (i + 1)); auto; lia.
  - exists a. splits; auto. intros i Hi. rewrite H. rewrite (proj2 (Nat.ltb_lt _ _)) by lia. auto.
Qed.

Section Roles.
Variables ex sq : Qc -> Qc.
#[local] Instance opsR : NumOps Qc := Qc_ops ex sq.
Implicit Types p : partition Qc.

Lemma to_module_gof p ls adj i m : WF p ls -> adj_ok adj (pN p) ->
  to_module p adj i m = Qsum (fun x => if Nat.eqb (gof p (fst x)) m then snd x else 0) (row adj i).
Proof.
  intros W HA. apply Qsum_ext. intros [j w] Hin. destruct (row_lt _ _ _ _ _ HA Hin) as [Hj _]. cbn [fst snd].
  now rewrite (group_gof p ls j W Hj).
Qed.

Lemma over_module_ls p ls m f : WF p ls -> over_module p m f = Qsum f (ls m).
Proof.
  intros W. rewrite (Qsum_ls f p ls m W). apply Qsum_ext. intros i Hi. apply in_seq in Hi.
  rewrite (group_gof p ls i W) by lia. reflexivity.
Qed.

Lemma over_module_gof p ls m f : WF p ls ->
  over_module p m f = Qsum (fun i => if Nat.eqb (gof p i) m then f i else 0) (seq 0 (pN p)).
Proof. intros W. rewrite (over_module_ls p ls m f W). apply Qsum_ls; auto. Qed.

Lemma module_size_ls p ls m : WF p ls -> module_size p m = length (ls m).
Proof.
  intros W. apply Qc_of_nat_inj. unfold module_size.
  rewrite <- (Qcmult_1_r (Qc_of_nat (length (ls m)))), <- (Qsum_const 1 (ls m)).
  rewrite <- (Qcmult_1_r (Qc_of_nat (length (filter _ _)))), <- (Qsum_const 1 (filter _ _)), Qsum_filter.
  rewrite (Qsum_ls (fun _ => 1) p ls m W). apply Qsum_ext. intros i Hi. apply in_seq in Hi.
  rewrite (group_gof p ls i W) by lia. reflexivity.
Qed.

(** ** The table of strengths from nodes to modules *)
Lemma cell_lt i m N M : (i < N)%nat -> (m < M)%nat -> (i + N * m < N * M)%nat.
Proof. intros. nia. Qed.
Lemma cell_eq N i m i' m' : (i < N)%nat -> (i' < N)%nat -> (i + N * m = i' + N * m')%nat -> i = i' /\ m = m'.
Proof. intros. assert (m = m') by nia. subst. lia. Qed.

Lemma strength_table_spec p ls adj : WF p ls -> adj_ok adj (pN p) ->
  exists tab, strength_table p adj = Ok tab /\ length tab = (pN p * pM p)%nat /\
   forall i m, (i < pN p)%nat -> (m < pM p)%nat -> nth_error tab (i + pN p * m) = Some (to_module p adj i m).
Proof.
  intros W HA. unfold strength_table. rewrite (ao_N _ _ HA). set (N := pN p) in *. set (M := pM p) in *.
  destruct (foldM_seq (fun k tab => length tab = (N * M)%nat /\ forall i m, (i < N)%nat -> (m < M)%nat ->
      nth_error tab (i + N * m) = Some (if Nat.ltb i k then to_module p adj i m else 0))
     (fun tab i => row_fold adj i (fun tab j =>
      do k <- get (anb adj) j; do nd <- get (pnodes p) k; do old <- get tab (i + N * nmod nd)%nat;
      do s <- get (astr adj) j; set tab (i + N * nmod nd)%nat (nadd old s)) tab) N (repeat n0 (N * M)))
    as (tab & E & HL & H).
  - split; [apply repeat_length|]. intros i m Hi Hm.
    rewrite (nth_error_nth' _ 0) by (rewrite repeat_length; apply cell_lt; auto). now rewrite nth_repeat.
  - intros i tab Hi [HL H].
    rewrite (row_fold_eq adj N i _ (fun tab x => do old <- get tab (i + N * gof p (fst x))%nat; set tab (i + N * gof p (fst x))%nat (old + snd x)) tab); auto.
    2: { intros s k j w Ej Ew Hj _. rewrite (get_ok _ _ _ Ej). cbn [bind].
         destruct (wf_node _ _ _ W Hj) as (nj & Enj & _). rewrite (get_ok _ _ _ Enj). cbn [bind fst snd].
         rewrite (gof_node _ _ _ Enj). destruct (get s (i + N * nmod nj)); cbn [bind]; auto.
         rewrite (get_ok _ _ _ Ew). reflexivity. }
    destruct (foldM_inv (fun done t => length t = (N * M)%nat /\ forall i' m, (i' < N)%nat -> (m < M)%nat ->
       nth_error t (i' + N * m) = Some (if Nat.ltb i' i then to_module p adj i' m else
          if Nat.eqb i' i then Qsum (fun x => if Nat.eqb (gof p (fst x)) m then snd x else 0) done else 0))
       (fun tab x => do old <- get tab (i + N * gof p (fst x))%nat; set tab (i + N * gof p (fst x))%nat (old + snd x)) (row adj i) tab)
       as (tab' & E' & HL' & H').
    + split; auto. intros i' m Hi' Hm. rewrite H by auto. destruct (Nat.ltb_spec i' i); auto.
      destruct (Nat.eqb_spec i' i); auto.
    + intros done [j w] rest t El [HLt Ht]. cbn [fst snd].
      assert (Hj : (j < N)%nat). { destruct (row_lt adj N i j w HA); auto. rewrite El, in_app_iff. simpl; auto. }
      assert (Hg : (gof p j < M)%nat).
      { destruct (wf_node _ _ _ W Hj) as (nj & Enj & _). rewrite (gof_node _ _ _ Enj). apply (wf_range _ _ W _ _ Enj). }
      specialize (Ht i (gof p j) Hi Hg) as Hc. rewrite Nat.ltb_irrefl, Nat.eqb_refl in Hc.
      rewrite (get_ok _ _ _ Hc). cbn [bind]. rewrite set_ok by (rewrite HLt; apply cell_lt; auto).
      eexists. split; [reflexivity|]. split; [now rewrite length_upd|].
      intros i' m Hi' Hm. rewrite Qsum_app. cbn [Qsum fst snd].
      destruct (Nat.eq_dec (i + N * gof p j) (i' + N * m)) as [Eq|Nq].
      * rewrite <- Eq. apply cell_eq in Eq as [<- <-]; auto. rewrite nth_upd_eq by (rewrite HLt; apply cell_lt; auto).
        rewrite Nat.ltb_irrefl, !Nat.eqb_refl. f_equal. ring.
      * rewrite nth_upd_neq by auto. rewrite Ht by auto. destruct (Nat.ltb i' i); auto.
        destruct (Nat.eqb_spec i' i) as [->|]; auto. destruct (Nat.eqb_spec (gof p j) m) as [<-|]; [congruence|]. f_equal. ring.
    + exists tab'. split; auto. split; auto. intros i' m Hi' Hm. rewrite H' by auto.
      destruct (Nat.ltb_spec i' i); destruct (Nat.ltb_spec i' (i + 1)); auto; try lia.
      * destruct (Nat.eqb_spec i' i) as [->|]; [|lia]. f_equal. symmetry. apply (to_module_gof p ls); auto.
      * destruct (Nat.eqb_spec i' i); auto; lia.
  - exists tab. splits; auto. intros i m Hi Hm. rewrite H by auto. now rewrite (proj2 (Nat.ltb_lt _ _) Hi).
Qed.

(** ** Connectivity *)
Definition zscore p adj (i m : nat) : Qc :=
  if Qc_eq_dec (sq (module_var p adj m)) 0 then 0
  else (to_module p adj i m - module_mean p adj m) / sq (module_var p adj m).

Lemma connectivity_spec p ls adj tab : WF p ls -> adj_ok adj (pN p) ->
  length tab = (pN p * pM p)%nat ->
  (forall i m, (i < pN p)%nat -> (m < pM p)%nat -> nth_error tab (i + pN p * m) = Some (to_module p adj i m)) ->
  exists conn, connectivity_of p adj tab = Ok conn /\ length conn = pN p /\
    forall i, (i < pN p)%nat -> nth_error conn i = Some (zscore p adj i (gof p i)).
Proof.
  intros W HA HT Htab. unfold connectivity_of. rewrite (ao_N _ _ HA). set (N := pN p) in *. set (M := pM p) in *.
  assert (Hnode : forall i, (i < N)%nat -> exists nd, get (pnodes p) i = Ok nd /\ nmod nd = gof p i /\ (gof p i < M)%nat).
  { intros i Hi. destruct (wf_node _ _ _ W Hi) as (nd & En & _). exists nd. rewrite (gof_node _ _ _ En). splits; auto.
    - apply get_ok; auto.
    - apply (wf_range _ _ W _ _ En). }
  assert (Hmod : forall j, (j < M)%nat -> exists md, get (pmods p) j = Ok md /\ msize md = module_size p j).
  { intros j Hj. destruct (wf_module _ _ _ W Hj) as (md & Em & _). exists md. split; [apply get_ok; auto|].
    rewrite (wf_size _ _ W _ _ Em). symmetry. apply module_size_ls; auto. }
  destruct (accum_spec M N (gof p) (fun i => to_module p adj i (gof p i)) (fun mean i =>
      do nd <- get (pnodes p) i; do x <- get tab (i + N * nmod nd)%nat; do m <- get mean (nmod nd);
      set mean (nmod nd) (nadd m x))) as (a1 & E1 & L1 & H1).
  { intros i Hi. destruct (Hnode i Hi) as (nd & _ & _ & H); auto. }
  { intros a i Hi La. destruct (Hnode i Hi) as (nd & En & Eg & Hg). rewrite En. cbn [bind]. rewrite Eg.
    rewrite (get_ok _ _ _ (Htab i (gof p i) Hi Hg)). cbn [bind]. reflexivity. }
  change (repeat n0 M) with (repeat 0 M). rewrite E1. cbn [bind].
  destruct (mapinto_spec M (fun j v => v / Qc_of_nat (module_size p j)) (fun mean j =>
      do md <- get (pmods p) j; do m <- get mean j; set mean j (ndiv m (nofnat (msize md)))) a1 L1) as (a2 & E2 & L2 & H2).
  { intros a i Hi La. destruct (Hmod i Hi) as (md & Em & Es). rewrite Em. cbn [bind]. rewrite Es. reflexivity. }
  rewrite E2. cbn [bind].
  assert (Hmean : forall m, (m < M)%nat -> nth_error a2 m = Some (module_mean p adj m)).
  { intros m Hm. rewrite H2, H1 by auto. cbn [option_map]. unfold module_mean. rewrite (over_module_gof p ls) by auto.
    do 2 f_equal. apply Qsum_ext. intros i Hi. destruct (Nat.eqb_spec (gof p i) m) as [->|]; auto. }
  destruct (accum_spec M N (gof p) (fun i => (to_module p adj i (gof p i) - module_mean p adj (gof p i)) *
       (to_module p adj i (gof p i) - module_mean p adj (gof p i))) (fun std i =>
      do nd <- get (pnodes p) i; do x <- get tab (i + N * nmod nd)%nat; do m <- get a2 (nmod nd); do s <- get std (nmod nd);
      set std (nmod nd) (nadd s (nmul (nsub x m) (nsub x m))))) as (a3 & E3 & L3 & H3).
  { intros i Hi. destruct (Hnode i Hi) as (nd & _ & _ & H); auto. }
  { intros a i Hi La. destruct (Hnode i Hi) as (nd & En & Eg & Hg). rewrite En. cbn [bind]. rewrite Eg.
    rewrite (get_ok _ _ _ (Htab i (gof p i) Hi Hg)). cbn [bind]. rewrite (get_ok _ _ _ (Hmean _ Hg)). cbn [bind]. reflexivity. }
  rewrite E3. cbn [bind].
  destruct (mapinto_spec M (fun j v => sq (v / Qc_of_nat (module_size p j))) (fun std j =>
      do md <- get (pmods p) j; do s <- get std j; set std j (nsqrt (ndiv s (nofnat (msize md))))) a3 L3) as (a4 & E4 & L4 & H4).
  { intros a i Hi La. destruct (Hmod i Hi) as (md & Em & Es). rewrite Em. cbn [bind]. rewrite Es. reflexivity. }
  rewrite E4. cbn [bind].
  assert (Hstd : forall m, (m < M)%nat -> nth_error a4 m = Some (sq (module_var p adj m))).
  { intros m Hm. rewrite H4, H3 by auto. cbn [option_map]. unfold module_var. rewrite (over_module_gof p ls) by auto.
    do 3 f_equal. apply Qsum_ext. intros i Hi. destruct (Nat.eqb_spec (gof p i) m) as [->|]; auto. }
  destruct (mapinto_spec N (fun i _ => zscore p adj i (gof p i)) (fun conn i =>
      do nd <- get (pnodes p) i; do x <- get tab (i + N * nmod nd)%nat; do m <- get a2 (nmod nd); do s <- get a4 (nmod nd);
      set conn i (if neqb s n0 then n0 else ndiv (nsub x m) s)) (repeat n0 N)) as (a5 & E5 & L5 & H5).
  { apply repeat_length. }
  { intros a i Hi La. destruct (Hnode i Hi) as (nd & En & Eg & Hg). rewrite En. cbn [bind]. rewrite Eg.
    rewrite (get_ok _ _ _ (Htab i (gof p i) Hi Hg)). cbn [bind]. rewrite (get_ok _ _ _ (Hmean _ Hg)). cbn [bind].
    rewrite (get_ok _ _ _ (Hstd _ Hg)). cbn [bind]. destruct (nth_ex a i) as [v Ev]; [lia|]. rewrite (get_ok _ _ _ Ev). cbn [bind].
    unfold zscore. cbn [neqb n0 opsR Qc_ops]. destruct (Qc_eq_dec _ _); reflexivity. }
  exists a5. splits; auto. intros i Hi. rewrite H5 by auto.
  rewrite (nth_error_nth' _ 0) by (rewrite repeat_length; auto). reflexivity.
Qed.

(** ** Participation *)
Lemma to_module_total p ls adj i : WF p ls -> adj_ok adj (pN p) ->
  Qsum (to_module p adj i) (seq 0 (pM p)) = out_strength adj i.
Proof.
  intros W HA. rewrite (Qsum_ext _ (fun m => Qsum (fun x => if Nat.eqb (gof p (fst x)) m then snd x else 0) (row adj i))).
  2: { intros; apply (to_module_gof p ls); auto. }
  rewrite Qsum_swap. apply Qsum_ext. intros [j w] Hin. destruct (row_lt _ _ _ _ _ HA Hin) as [Hj _]. cbn [fst snd].
  rewrite (Qsum_ext _ (fun m => if Nat.eqb m (gof p j) then w else 0)).
  - apply (Qsum_single (fun _ => w)). apply seq_NoDup. apply in_seq.
    destruct (wf_node _ _ _ W Hj) as (nj & Enj & _). rewrite (gof_node _ _ _ Enj). pose proof (wf_range _ _ W _ _ Enj). lia.
  - intros m _. now rewrite Nat.eqb_sym.
Qed.

Definition participation_value p adj i (start : Qc) : Qc :=
  if Nat.eqb (length (row adj i)) 0 then 0
  else 1 - (start + Qsum (fun m => to_module p adj i m * to_module p adj i m) (seq 0 (pM p)))
           / (out_strength adj i * out_strength adj i).

Lemma participation_spec p ls adj tab init : WF p ls -> adj_ok adj (pN p) ->
  length tab = (pN p * pM p)%nat -> length init = pN p ->
  (forall i m, (i < pN p)%nat -> (m < pM p)%nat -> nth_error tab (i + pN p * m) = Some (to_module p adj i m)) ->
  exists part, participation_of p adj tab init = Ok part /\ length part = pN p /\
    forall i, (i < pN p)%nat -> nth_error part i = option_map (participation_value p adj i) (nth_error init i).
Proof.
  intros W HA HT HI Htab. unfold participation_of. rewrite (ao_N _ _ HA). set (N := pN p) in *. set (M := pM p) in *.
  match goal with |- exists part, foldM ?f _ _ = _ /\ _ =>
   destruct (mapinto_spec N (fun i v => participation_value p adj i v) f init HI) as (a & E & L & H); eauto end.
  intros a i Hi La. destruct (idx_ex _ _ _ HA Hi) as (s & e & Es & Ee).
  rewrite (get_ok _ _ _ Es). cbn [bind]. rewrite (get_ok _ _ _ Ee). cbn [bind].
  destruct (row_nth adj N i s e HA Es Ee) as [Lr _]. pose proof (ao_mono _ _ HA _ _ _ Es Ee) as Hmono.
  destruct (nth_ex a i) as [v Ev]; [lia|]. rewrite (get_ok _ _ _ Ev). cbn [bind]. unfold participation_value. rewrite Lr.
  destruct (Nat.eqb_spec s e) as [->|Hne].
  { rewrite Nat.sub_diag. reflexivity. }
  rewrite (proj2 (Nat.eqb_neq (e - s) 0)) by lia.
  match goal with |- context [foldM ?f ?st (seq 0 M)] =>
   destruct (foldM_seq (fun k '(b, str) => length b = N /\
      str = Qsum (to_module p adj i) (seq 0 k) /\
      b = upd a i (v + Qsum (fun m => to_module p adj i m * to_module p adj i m) (seq 0 k))) f M st)
    as ([b str] & E' & Lb & Hs & Hb) end.
  - splits; auto. cbn [seq Qsum]. rewrite Qcplus_0_r. now rewrite upd_same.
  - intros k [b str] Hk (Lb & Hs & Hb). rewrite (get_ok _ _ _ (Htab i k Hi Hk)). cbn [bind].
    assert (Hbi : nth_error b i = Some (v + Qsum (fun m => to_module p adj i m * to_module p adj i m) (seq 0 k))).
    { rewrite Hb, nth_upd_eq by lia. auto. }
    rewrite (get_ok _ _ _ Hbi). cbn [bind]. rewrite set_ok by lia. cbn [bind]. eexists. split; [reflexivity|]. cbv beta iota.
    rewrite Nat.add_1_r, seq_S, !Qsum_app. cbn [Qsum plus]. splits.
    + now rewrite length_upd.
    + rewrite Hs. cbn [nadd opsR Qc_ops]. ring.
    + rewrite Hb, upd_upd. f_equal. cbn [nadd nmul opsR Qc_ops]. ring.
  - rewrite E'. cbn [bind].
    assert (Hbi : nth_error b i = Some (v + Qsum (fun m => to_module p adj i m * to_module p adj i m) (seq 0 M))).
    { rewrite Hb, nth_upd_eq by lia. auto. }
    rewrite (get_ok _ _ _ Hbi). cbn [bind]. rewrite !set_ok by lia. rewrite Hb, upd_upd, Hs.
    unfold M. rewrite (to_module_total p ls adj i W HA). reflexivity.
Qed.

Theorem PartitionRolesMetrics_exact p ls adj init : WF p ls -> adj_ok adj (pN p) -> length init = pN p ->
  exists conn part, PartitionRolesMetrics p adj init = Ok (conn, part) /\
    length conn = pN p /\ length part = pN p /\
    (forall i, (i < pN p)%nat -> nth_error conn i = Some (zscore p adj i (gof p i))) /\
    (forall i, (i < pN p)%nat -> nth_error part i = option_map (participation_value p adj i) (nth_error init i)).
Proof.
  intros W HA HI. unfold PartitionRolesMetrics.
  destruct (strength_table_spec p ls adj W HA) as (tab & E1 & L1 & H1). rewrite E1. cbn [bind].
  destruct (connectivity_spec p ls adj tab W HA L1 H1) as (conn & E2 & L2 & H2). rewrite E2. cbn [bind].
  destruct (participation_spec p ls adj tab init W HA L1 HI H1) as (part & E3 & L3 & H3). rewrite E3. cbn [bind].
  eauto 10.
Qed.

End Roles.

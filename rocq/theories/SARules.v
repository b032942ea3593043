(** SARules.v -- the rules the annealing follows: acceptance of movements, bookkeeping of the best partition, and that
    the redrawing loops can always end. *)
From Coq Require Import List Arith Lia Bool QArith Qcanon.
From Verif Require Import Base Num ListLib PartModel MoveModel SAModel PartSpec AdjSpec PartInv MergeProof RolesBounds.
Import ListNotations.
Local Open Scope nat_scope.

Section Rules.
Context {A : Type} {ops : NumOps A}.
Implicit Types (p : partition A) (ds : list A).

(** ** Acceptance (specification) *)
(** A change of gain [d] at temperature [T] is accepted at once if it does not lower the energy; otherwise one number is
    drawn and compared with exp(d/T).  [used] are the numbers drawn for the decision. *)
Inductive decision (d T : A) : list A -> bool -> Prop :=
| dec_better : nleb n0 d = true -> decision d T [] true
| dec_lucky u : nleb n0 d = false -> nltb u (nexp (ndiv d T)) = true -> decision d T [u] true
| dec_refused u : nleb n0 d = false -> nltb u (nexp (ndiv d T)) = false -> decision d T [u] false.

(** [index u n]: the number below [n] chosen by the draw [u]. *)
Definition index (u : A) (n : nat) : nat := nfloor (nmul u (nofnat n)).

Lemma metropolis_decision d T ds b ds' : metropolis d T ds = Ok (b, ds') -> exists used, ds = used ++ ds' /\ decision d T used b.
Proof.
  unfold metropolis. destruct (nleb n0 d) eqn:E; intros H.
  - injection H as <- <-. exists []. split; auto. now constructor.
  - destruct ds as [|u ds]; cbn in H; [discriminate|]. injection H as <- <-. exists [u]. split; auto.
    destruct (nltb u _) eqn:F; constructor; auto.
Qed.

Lemma pick_newg_rule M o ds g ds' : pick_newg M o ds = Ok (g, ds') ->
  exists skipped u, ds = skipped ++ u :: ds' /\ Forall (fun x => index x M = o) skipped /\ g = index u M /\ g <> o.
Proof.
  revert g. induction ds as [|u ds IH]; intros g H; cbn [pick_newg] in H; [discriminate|].
  change (rng_index u M) with (index u M) in H. destruct (Nat.eqb_spec (index u M) o) as [E|E].
  - apply IH in H as (sk & v & -> & F & -> & N). exists (u :: sk), v. splits; auto.
  - injection H as <- <-. exists [], u. splits; auto.
Qed.

Lemma pick_other_rule p g1 ds g ds' : pick_other p g1 ds = Ok (g, ds') ->
  exists skipped u, ds = skipped ++ u :: ds' /\ Forall (fun x => group p (index x (pN p)) = Some g1) skipped /\
    group p (index u (pN p)) = Some g /\ g <> g1.
Proof.
  revert g. induction ds as [|u ds IH]; intros g H; cbn [pick_other] in H; [discriminate|].
  change (rng_index u (pN p)) with (index u (pN p)) in H. unfold get in H.
  destruct (nth_error (pnodes p) (index u (pN p))) as [nd|] eqn:En; cbn [bind] in H; [|discriminate].
  assert (G : group p (index u (pN p)) = Some (nmod nd)) by (unfold group; now rewrite En).
  destruct (Nat.eqb_spec (nmod nd) g1) as [E|E].
  - apply IH in H as (sk & v & -> & F & Gv & N). exists (u :: sk), v. splits; auto. constructor; auto. congruence.
  - injection H as <- <-. exists [], u. splits; auto.
Qed.

(** The module has exactly one member, by its own size field. *)
Definition size_of p (m : nat) : option nat := option_map msize (nth_error (pmods p) m).

Lemma pick_split_rule p ds g ds' : pick_split p ds = Ok (g, ds') ->
  exists skipped u, ds = skipped ++ u :: ds' /\
    Forall (fun x => exists m, group p (index x (pN p)) = Some m /\ size_of p m = Some 1) skipped /\
    group p (index u (pN p)) = Some g /\ size_of p g <> Some 1.
Proof.
  revert g. induction ds as [|u ds IH]; intros g H; cbn [pick_split] in H; [discriminate|].
  change (rng_index u (pN p)) with (index u (pN p)) in H. unfold get in H.
  destruct (nth_error (pnodes p) (index u (pN p))) as [nd|] eqn:En; cbn [bind] in H; [|discriminate].
  assert (G : group p (index u (pN p)) = Some (nmod nd)) by (unfold group; now rewrite En).
  destruct (nth_error (pmods p) (nmod nd)) as [md|] eqn:Em; cbn [bind] in H; [|discriminate].
  assert (Z : size_of p (nmod nd) = Some (msize md)) by (unfold size_of; now rewrite Em).
  destruct (Nat.eqb_spec (msize md) 1) as [E|E].
  - apply IH in H as (sk & v & -> & F & Gv & N). exists (u :: sk), v. splits; auto. constructor; auto. exists (nmod nd). split; congruence.
  - injection H as <- <-. exists [], u. splits; auto. congruence.
Qed.

(** ** One individual movement *)
Theorem individual_rule adj T p E ds p' E' ds' : individual_move adj T (p, E) ds = Ok (p', E', ds') ->
  exists u skipped v used old d b,
    ds = u :: skipped ++ v :: used ++ ds' /\
    group p (index u (pN p)) = Some old /\
    Forall (fun x => index x (pM p) = old) skipped /\ index v (pM p) <> old /\
    dEChangeModule (index u (pN p)) (index v (pM p)) p adj = Ok d /\ decision d T used b /\
    (b = true -> ChangeModule (index u (pN p)) (index v (pM p)) p = Ok p' /\ E' = nadd E d) /\
    (b = false -> p' = p /\ E' = E).
Proof.
  unfold individual_move. destruct ds as [|u ds]; cbn [draw bind]; [discriminate|]. intros H.
  change (rng_index u (pN p)) with (index u (pN p)) in H. unfold get in H.
  destruct (nth_error (pnodes p) (index u (pN p))) as [nd|] eqn:En; cbn [bind] in H; [|discriminate].
  destruct (pick_newg _ _ _) as [[g d1]|] eqn:Ep; cbn [bind] in H; [|discriminate].
  apply pick_newg_rule in Ep as (sk & v & -> & F & -> & N).
  destruct (dEChangeModule _ _ _ _) as [d|] eqn:Ed; cbn [bind] in H; [|discriminate].
  destruct (metropolis _ _ _) as [[b d2]|] eqn:Em; cbn [bind] in H; [|discriminate].
  apply metropolis_decision in Em as (used & -> & D).
  exists u, sk, v, used, (nmod nd), d, b. destruct b.
  - destruct (ChangeModule _ _ _) as [q|] eqn:Ec; cbn [bind] in H; [|discriminate]. injection H as <- <- <-.
    splits; auto; try discriminate. unfold group. now rewrite En.
  - injection H as <- <- <-. splits; auto; try discriminate. unfold group. now rewrite En.
Qed.

(** ** One merge attempt *)
Theorem merge_rule adj T p E ds p' E' ds' : merge_move adj T (p, E) ds = Ok (p', E', ds') ->
  exists u g1, group p (index u (pN p)) = Some g1 /\
  ((pM p <= pnempty p + 1 /\ ds = u :: ds' /\ p' = p /\ E' = E) \/
   (pnempty p + 1 < pM p /\ exists skipped v g2 used d b,
      ds = u :: skipped ++ v :: used ++ ds' /\
      Forall (fun x => group p (index x (pN p)) = Some g1) skipped /\ group p (index v (pN p)) = Some g2 /\ g2 <> g1 /\
      dEMergeModules g1 g2 p adj = Ok d /\ decision d T used b /\
      (b = true -> MergeModules g1 g2 p = Ok p' /\ E' = nadd E d) /\
      (b = false -> p' = p /\ E' = E))).
Proof.
  unfold merge_move. destruct ds as [|u ds]; cbn [draw bind]; [discriminate|]. intros H.
  change (rng_index u (pN p)) with (index u (pN p)) in H. unfold get in H.
  destruct (nth_error (pnodes p) (index u (pN p))) as [nd|] eqn:En; cbn [bind] in H; [|discriminate].
  assert (G : group p (index u (pN p)) = Some (nmod nd)) by (unfold group; now rewrite En).
  destruct (pM p) as [|M1] eqn:EM; cbn [dec bind] in H; [discriminate|].
  exists u, (nmod nd). split; auto. destruct (Nat.ltb_spec (pnempty p) M1) as [L|L].
  - right. split; [lia|].
    destruct (pick_other _ _ _) as [[g d1]|] eqn:Ep; cbn [bind] in H; [|discriminate].
    apply pick_other_rule in Ep as (sk & v & -> & F & Gv & N).
    destruct (dEMergeModules _ _ _ _) as [d|] eqn:Ed; cbn [bind] in H; [|discriminate].
    destruct (metropolis _ _ _) as [[b d2]|] eqn:Em; cbn [bind] in H; [|discriminate].
    apply metropolis_decision in Em as (used & -> & D).
    exists sk, v, g, used, d, b. destruct b.
    + destruct (MergeModules _ _ _) as [q|] eqn:Ec; cbn [bind] in H; [|discriminate]. injection H as <- <- <-.
      splits; auto; discriminate.
    + injection H as <- <- <-. splits; auto; discriminate.
  - left. injection H as <- <- <-. splits; auto. lia.
Qed.

(** ** One split attempt.  [empty] is the first module of size 0. *)
Definition first_empty_module p (e : nat) : Prop :=
  size_of p e = Some 0 /\ forall m, m < e -> exists k, size_of p m = Some (S k).

Lemma first_empty_rule p e : first_empty (pmods p) 0 = Ok e -> first_empty_module p e.
Proof.
  assert (K : forall (l : list (module A)) j e, first_empty l j = Ok e -> j <= e /\ option_map msize (nth_error l (e - j)) = Some 0 /\
     forall m, m < e - j -> exists k, option_map msize (nth_error l m) = Some (S k)).
  { induction l as [|md l IH]; intros j e0 H; cbn [first_empty] in H; [discriminate|].
    destruct (Nat.eqb_spec (msize md) 0) as [Z|Z].
    - injection H as <-. rewrite Nat.sub_diag. cbn. splits; auto. intros; lia.
    - apply IH in H as (H1 & H2 & H3). splits; try lia.
      + replace (e0 - j) with (S (e0 - (j + 1))) by lia. exact H2.
      + intros [|m] Hm.
        * cbn. exists (msize md - 1). f_equal. lia.
        * cbn. apply H3. lia. }
  intros H. apply K in H as (_ & H1 & H2). rewrite Nat.sub_0_r in *. split; auto.
Qed.

Theorem split_rule adj Ti T proba limit p E ds p' E' ds' : split_move adj Ti T proba limit (p, E) ds = Ok (p', E', ds') ->
  (pnempty p = 0 /\ p' = p /\ E' = E /\ ds' = ds) \/
  (pnempty p <> 0 /\ exists e skipped v w t q ds1,
     first_empty_module p e /\ ds = skipped ++ v :: w :: ds1 /\
     Forall (fun x => exists m, group p (index x (pN p)) = Some m /\ size_of p m = Some 1) skipped /\
     group p (index v (pN p)) = Some t /\ size_of p t <> Some 1 /\
     exists ds2,
     ((nltb w proba = true /\ exists c q1 dsc, SplitModuleByComponent t e p adj ds1 = Ok (c, q1, dsc) /\
         ((c = 1 /\ SplitModuleSA t e Ti T (nofQ (95 # 100)%Q) limit q1 adj dsc = Ok (q, ds2)) \/
          (c <> 1 /\ q = q1 /\ ds2 = dsc))) \/
      (nltb w proba = false /\ SplitModuleSA t e Ti T (nofQ (95 # 100)%Q) limit p adj ds1 = Ok (q, ds2))) /\
     (((size_of q t = Some 0 \/ size_of q e = Some 0) /\ p' = q /\ E' = E /\ ds' = ds2) \/
      (size_of q t <> Some 0 /\ size_of q e <> Some 0 /\ exists d used b,
         dEMergeModules t e q adj = Ok d /\ ds2 = used ++ ds' /\ decision (nopp d) T used b /\
         (b = true -> p' = q /\ E' = nadd E (nopp d)) /\
         (b = false -> MergeModules t e q = Ok p' /\ E' = E)))).
Proof.
  unfold split_move. destruct (Nat.eqb_spec (pnempty p) 0) as [Z|Z]; intros H.
  { left. injection H as <- <- <-. auto. }
  right. split; auto.
  destruct (first_empty _ _) as [e|] eqn:Ee; cbn [bind] in H; [|discriminate]. apply first_empty_rule in Ee.
  destruct (pick_split _ _) as [[t d1]|] eqn:Ep; cbn [bind] in H; [|discriminate].
  apply pick_split_rule in Ep as (sk & v & -> & F & G & N).
  destruct d1 as [|w d1]; cbn [draw bind] in H; [discriminate|].
  destruct (if nltb w proba then _ else _) as [[[c q1] dsc]|] eqn:Ec; cbn [bind] in H; [|discriminate].
  destruct (if c =? 1 then _ else _) as [[q ds2]|] eqn:Es; cbn [bind] in H; [|discriminate].
  unfold get in H.
  destruct (nth_error (pmods q) t) as [tm|] eqn:Et; cbn [bind] in H; [|discriminate].
  destruct (nth_error (pmods q) e) as [em|] eqn:Eem; cbn [bind] in H; [|discriminate].
  exists e, sk, v, w, t, q, d1. splits; auto. exists ds2. split.
  - destruct (nltb w proba).
    + left. split; auto. exists c, q1, dsc. split; auto. destruct (Nat.eqb_spec c 1) as [->|Hc]; [left|right]; auto.
      injection Es as <- <-. auto.
    + right. split; auto. injection Ec as <- <- <-. auto.
  - unfold size_of. rewrite Et, Eem. cbn [option_map].
    destruct (Nat.eqb_spec (msize tm) 0) as [Z1|Z1]; cbn [orb] in H.
    { left. injection H as <- <- <-. rewrite Z1. auto. }
    destruct (Nat.eqb_spec (msize em) 0) as [Z2|Z2]; cbn [orb] in H.
    { left. injection H as <- <- <-. rewrite Z2. auto. }
    right. splits; try congruence.
    destruct (dEMergeModules _ _ _ _) as [d|] eqn:Ed; cbn [bind] in H; [|discriminate].
    destruct (metropolis _ _ _) as [[b d2]|] eqn:Em; cbn [bind] in H; [|discriminate].
    apply metropolis_decision in Em as (used & -> & D). exists d, used, b. destruct b.
    + injection H as <- <- <-. splits; auto; discriminate.
    + destruct (MergeModules _ _ _) as [q2|] eqn:Ecm; cbn [bind] in H; [|discriminate]. injection H as <- <- <-.
      splits; auto; discriminate.
Qed.

(** ** The redrawing loops can always end: some node (module) ends them *)
Theorem other_module_exists p old : 2 <= pM p -> exists m, m < pM p /\ m <> old.
Proof. intros H. destruct (Nat.eq_dec old 0) as [->|Hn]; [exists 1|exists 0]; lia. Qed.

Lemma counts p : valid p -> pnempty p + count (fun md => negb (msize md =? 0)) (pmods p) = pM p.
Proof.
  intros V. rewrite (valid_nempty _ V), <- (valid_M _ V). clear V. unfold count.
  induction (pmods p) as [|md l IH]; cbn [filter length]; auto. destruct (msize md =? 0); cbn [negb length]; lia.
Qed.

Theorem merge_partner_exists p n g1 : valid p -> group p n = Some g1 -> pnempty p + 1 < pM p ->
  exists n2 g2, n2 < pN p /\ group p n2 = Some g2 /\ g2 <> g1.
Proof.
  intros V G H. apply valid_WF in V as W. pose proof (counts p V) as C.
  assert (HC : 2 <= count (fun md => negb (msize md =? 0)) (pmods p)) by lia.
  assert (K : exists m md, nth_error (pmods p) m = Some md /\ msize md <> 0 /\ m <> g1).
  { clear -HC. revert g1 HC. induction (pmods p) as [|md l IH]; intros g1 HC; [unfold count in HC; cbn in HC; lia|].
    rewrite count_cons in HC. destruct g1 as [|g1].
    - destruct (msize md =? 0) eqn:Z; cbn [negb] in HC.
      + assert (K : exists m md', nth_error l m = Some md' /\ msize md' <> 0).
        { clear -HC. induction l as [|x l IH]; [unfold count in HC; cbn in HC; lia|]. rewrite count_cons in HC.
          destruct (Nat.eqb_spec (msize x) 0) as [Zx|Zx]; cbn [negb] in HC.
          - destruct IH as (m & md' & E & N); [lia|]. exists (S m), md'. auto.
          - exists 0, x. auto. }
        destruct K as (m & md' & E & N). exists (S m), md'. splits; auto.
      + assert (HC' : 1 <= count (fun md0 : module A => negb (msize md0 =? 0)) l) by lia.
        assert (K : exists m md', nth_error l m = Some md' /\ msize md' <> 0).
        { clear -HC'. induction l as [|x l IH]; [unfold count in HC'; cbn in HC'; lia|]. rewrite count_cons in HC'.
          destruct (Nat.eqb_spec (msize x) 0) as [Zx|Zx]; cbn [negb] in HC'.
          - destruct IH as (m & md' & E & N); [lia|]. exists (S m), md'. auto.
          - exists 0, x. auto. }
        destruct K as (m & md' & E & N). exists (S m), md'. splits; auto.
    - destruct (Nat.eqb_spec (msize md) 0) as [Z|Z]; cbn [negb] in HC.
      + destruct (IH g1) as (m & md' & E & N & Ne); [lia|]. exists (S m), md'. splits; auto.
      + exists 0, md. splits; auto. }
  destruct K as (m & md & Em & Nz & Ne).
  destruct (valid_lists _ V _ _ Em) as (l & _ & _ & L & _ & I).
  destruct l as [|i l]; [cbn in L; congruence|]. exists i, m.
  assert (Gi : group p i = Some m) by (apply I; left; auto). splits; auto.
  unfold group in Gi. rewrite <- (valid_N _ V). apply nth_error_Some. destruct (nth_error (pnodes p) i); discriminate.
Qed.

(** With no more modules than nodes, an empty module implies a module with two nodes. *)
Theorem splittable_exists p : valid p -> 0 < pN p -> pM p <= pN p -> pnempty p <> 0 ->
  exists n g k, n < pN p /\ group p n = Some g /\ size_of p g = Some k /\ 2 <= k.
Proof.
  intros V HN HMN HE. pose proof (counts p V) as C.
  assert (K : exists m md, nth_error (pmods p) m = Some md /\ 2 <= msize md).
  { destruct (Exists_dec (fun md : module A => 2 <= msize md) (pmods p)) as [X|X].
    { intros md. destruct (le_lt_dec 2 (msize md)); [left|right]; auto. lia. }
    - apply Exists_exists in X as (md & Hin & Hm). apply In_nth_error in Hin as [m Em]. eauto.
    - exfalso.
      (* every node lies in a distinct non-empty module *)
      assert (S : forall m md, nth_error (pmods p) m = Some md -> msize md <= 1).
      { intros m md Em. destruct (le_lt_dec 2 (msize md)); [|lia]. exfalso. apply X. apply Exists_exists.
        exists md. split; auto. eapply nth_error_In; eauto. }
      set (f := fun i => match group p i with Some g => g | None => 0 end).
      set (ne := filter (fun m => match nth_error (pmods p) m with Some md => negb (msize md =? 0) | None => false end) (seq 0 (pM p))).
      assert (Lne : length ne = count (fun md => negb (msize md =? 0)) (pmods p)).
      { unfold ne. rewrite <- (valid_M _ V). clear. unfold count.
        induction (pmods p) as [|md l IH] using rev_ind; [reflexivity|].
        rewrite app_length, seq_app, !filter_app, !app_length. cbn [length seq plus filter]. f_equal.
        - rewrite <- IH. f_equal. apply filter_ext_in. intros m Hm. apply in_seq in Hm.
          rewrite nth_error_app1 by lia. reflexivity.
        - rewrite nth_error_app2, Nat.sub_diag by lia. cbn. destruct (negb _); reflexivity. }
      assert (Hinj : pN p <= length ne).
      { rewrite <- (seq_length (pN p) 0). rewrite <- (map_length f). apply NoDup_incl_length.
        - assert (ND : forall a b, In a (seq 0 (pN p)) -> In b (seq 0 (pN p)) -> f a = f b -> a = b).
          { intros a b Ha Hb Hf. apply in_seq in Ha, Hb. unfold f in Hf.
            assert (EX : forall i, i < pN p -> exists g md, group p i = Some g /\ nth_error (pmods p) g = Some md).
            { intros i Hi. rewrite <- (valid_N _ V) in Hi. apply nth_error_Some in Hi. destruct (nth_error (pnodes p) i) as [nd|] eqn:En; [|congruence].
              exists (nmod nd). pose proof (valid_range _ V _ _ En) as R. rewrite <- (valid_M _ V) in R. apply nth_error_Some in R.
              destruct (nth_error (pmods p) (nmod nd)) as [md|] eqn:Em; [|congruence]. exists md. split; auto. unfold group. now rewrite En. }
            destruct (EX a) as (g & md & Ga & Em); [lia|]. destruct (EX b) as (g' & md' & Gb & _); [lia|].
            rewrite Ga, Gb in Hf. subst g'. destruct (valid_lists _ V _ _ Em) as (l & _ & _ & L & _ & I).
            pose proof (S _ _ Em) as S1. apply I in Ga, Gb. destruct l as [|x [|y l]]; cbn in *; try lia; intuition congruence. }
          revert ND. generalize (seq_NoDup (pN p) 0). induction (seq 0 (pN p)) as [|x l IH]; intros Hnd HI; cbn; constructor.
          + intros Hin. apply in_map_iff in Hin as (y & E & Hy). apply NoDup_cons_iff in Hnd as [Hn _]. apply Hn.
            rewrite <- (HI y x); auto; [right; auto|left; auto].
          + apply IH; [now apply NoDup_cons_iff in Hnd|]. intros a b Ha Hb. apply HI; right; auto.
        - intros g Hg. apply in_map_iff in Hg as (i & <- & Hi). apply in_seq in Hi. unfold ne, f.
          assert (Hi' : i < length (pnodes p)) by (rewrite (valid_N _ V); lia). apply nth_error_Some in Hi'.
          destruct (nth_error (pnodes p) i) as [nd|] eqn:En; [|congruence].
          assert (Gi : group p i = Some (nmod nd)) by (unfold group; now rewrite En). rewrite Gi.
          pose proof (valid_range _ V _ _ En) as R. apply filter_In. split; [apply in_seq; lia|].
          rewrite <- (valid_M _ V) in R. apply nth_error_Some in R. destruct (nth_error (pmods p) (nmod nd)) as [md|] eqn:Em; [|congruence].
          destruct (valid_lists _ V _ _ Em) as (l & _ & _ & L & _ & I). apply I in Gi. destruct l; [destruct Gi|]. cbn in L. rewrite <- L. reflexivity. }
      lia. }
  destruct K as (m & md & Em & Hm). destruct (valid_lists _ V _ _ Em) as (l & _ & _ & L & _ & I).
  destruct l as [|i l]; [cbn in L; lia|]. assert (Gi : group p i = Some m) by (apply I; left; auto).
  exists i, m, (msize md). splits; auto.
  - unfold group in Gi. rewrite <- (valid_N _ V). apply nth_error_Some. destruct (nth_error (pnodes p) i); discriminate.
  - unfold size_of. now rewrite Em.
Qed.

(** ** The log of a run: energies at the checkpoints where the energy changed noticeably *)
Definition changed (E prevE : A) : bool :=
  negb ((nltb (ndiv (nabs (nsub E prevE)) (nabs prevE)) (nofQ (1 # 1000000)%Q)) || nltb (nabs prevE) (nofQ (1 # 1000000)%Q)).

(** [temperature_run T st ds st' ds' log]: the temperature loop started in state [st] at temperature [T] ends in [st'], and
    [log] lists the partition and energy after each temperature step with a noticeable change. *)
Inductive temperature_run (adj : adja A) (nind ncol : nat) (Ti Tf Ts proba : A) (limit : nat) :
  A -> sastate -> list A -> sastate -> list A -> list (partition A * A) -> Prop :=
| run_cold T st ds : nltb Tf T = false -> temperature_run adj nind ncol Ti Tf Ts proba limit T st ds st ds []
| run_stop T st ds p1 E1 d1 p2 E2 d2 st' log : nltb Tf T = true ->
    repeatM (individual_move adj T) nind (spart st, sE st) ds = Ok (p1, E1, d1) ->
    repeatM (collective_move adj Ti T proba limit) ncol (p1, E1) d1 = Ok (p2, E2, d2) ->
    sa_checkpoint limit (mkSA p2 E2 (sprevE st) (sbest st) (sbestE st) (snochange st)) = Ok (inl st') ->
    log = (if changed E2 (sprevE st) then [(p2, E2)] else []) ->
    temperature_run adj nind ncol Ti Tf Ts proba limit T st ds st' d2 log
| run_more T st ds p1 E1 d1 p2 E2 d2 st1 st' ds' log : nltb Tf T = true ->
    repeatM (individual_move adj T) nind (spart st, sE st) ds = Ok (p1, E1, d1) ->
    repeatM (collective_move adj Ti T proba limit) ncol (p1, E1) d1 = Ok (p2, E2, d2) ->
    sa_checkpoint limit (mkSA p2 E2 (sprevE st) (sbest st) (sbestE st) (snochange st)) = Ok (inr st1) ->
    temperature_run adj nind ncol Ti Tf Ts proba limit (nmul T Ts) st1 d2 st' ds' log ->
    temperature_run adj nind ncol Ti Tf Ts proba limit T st ds st' ds'
      ((if changed E2 (sprevE st) then [(p2, E2)] else []) ++ log).

Lemma sa_loop_run adj nind ncol Ti Tf Ts proba limit fuel T st ds st' ds' :
  sa_loop adj nind ncol Ti Tf Ts proba limit fuel T st ds = Ok (st', ds') ->
  exists log, temperature_run adj nind ncol Ti Tf Ts proba limit T st ds st' ds' log.
Proof.
  revert T st ds. induction fuel as [|fuel IH]; intros T st ds H; cbn [sa_loop] in H; [discriminate|].
  destruct (nltb Tf T) eqn:ET; [|injection H as <- <-; exists []; now constructor].
  destruct (repeatM (individual_move adj T) _ _ _) as [[[p1 E1] d1]|] eqn:R1; cbn [bind] in H; [|discriminate].
  destruct (repeatM (collective_move adj Ti T proba limit) _ _ _) as [[[p2 E2] d2]|] eqn:R2; cbn [bind] in H; [|discriminate].
  destruct (sa_checkpoint _ _) as [[s1|s1]|] eqn:RC; cbn [bind] in H; try discriminate.
  - injection H as <- <-. eexists. eapply run_stop; eauto.
  - apply IH in H as [log H]. eexists. eapply run_more; eauto.
Qed.
End Rules.

Section Best.
Variables ex sq : Qc -> Qc.
#[local] Instance opsBest : NumOps Qc := Qc_ops ex sq.
Local Open Scope Qc_scope.

(** [b] is the best of the recorded energies. *)
Definition is_best (log : list (partition Qc * Qc)) (best : option (partition Qc)) (bestE : option Qc) : Prop :=
  match bestE with
  | None => log = [] /\ best = None
  | Some b => exists p c, In (p, b) log /\ best = Some c /\ CopyPartitionStruct p = Ok c /\ forall q e, In (q, e) log -> e <= b
  end.

Lemma checkpoint_best limit p E prev best bestE nc r log : is_best log best bestE ->
  sa_checkpoint limit (mkSA p E prev best bestE nc) = Ok r ->
  let st := match r with inl s => s | inr s => s end in
  is_best (log ++ (if changed E prev then [(p, E)] else [])) (sbest st) (sbestE st).
Proof.
  intros HB H. unfold sa_checkpoint in H. cbn [sE sprevE sbest sbestE snochange spart] in H.
  assert (EC : changed E prev = negb (no_change E prev)) by reflexivity.
  destruct (no_change E prev) eqn:NC.
  - rewrite EC. cbn [negb]. rewrite app_nil_r.
    destruct (Nat.eqb (nc + 1) limit).
    + destruct (match bestE with None => true | Some b => _ end).
      * injection H as <-. exact HB.
      * destruct bestE as [b|]; cbn [deref bind] in H; [|discriminate]. destruct best as [bp|]; cbn [deref bind] in H; [|discriminate].
        destruct (CopyPartitionStruct bp) as [c|]; cbn [bind] in H; [|discriminate]. injection H as <-. exact HB.
    + injection H as <-. exact HB.
  - rewrite EC. cbn [negb].
    destruct bestE as [b|]; [destruct (nltb b E) eqn:LT|].
    + destruct (CopyPartitionStruct p) as [c|] eqn:Ec; cbn [bind] in H; [|discriminate]. injection H as <-. cbn.
      destruct HB as (p0 & c0 & Hin & -> & _ & HM). exists p, c. splits; auto.
      * apply in_or_app. right. left. auto.
      * intros q e Hq. apply in_app_or in Hq as [Hq|[Hq|[]]].
        -- apply HM in Hq. apply Qc_ltb_spec in LT. eapply Qcle_trans; [exact Hq|]. now apply Qclt_le_weak.
        -- injection Hq as <- <-. apply Qcle_refl.
    + injection H as <-. cbn. destruct HB as (p0 & c0 & Hin & -> & C0 & HM). exists p0, c0. splits; auto.
      * apply in_or_app. auto.
      * intros q e Hq. apply in_app_or in Hq as [Hq|[Hq|[]]]; [eauto|]. injection Hq as <- <-. now apply Qc_ltb_false in LT.
    + destruct (CopyPartitionStruct p) as [c|] eqn:Ec; cbn [bind] in H; [|discriminate]. injection H as <-. cbn.
      destruct HB as [-> ->]. exists p, c. splits; auto.
      * apply in_or_app. right. left. auto.
      * intros q e [Hq|[]]. injection Hq as <- <-. apply Qcle_refl.
Qed.

Lemma run_best adj nind ncol Ti Tf Ts proba limit T st ds st' ds' log log0 :
  temperature_run adj nind ncol Ti Tf Ts proba limit T st ds st' ds' log ->
  is_best log0 (sbest st) (sbestE st) -> is_best (log0 ++ log) (sbest st') (sbestE st').
Proof.
  intros H. revert log0. induction H; intros log0 HB.
  - now rewrite app_nil_r.
  - subst log. exact (checkpoint_best _ _ _ _ _ _ _ _ _ HB H2).
  - rewrite app_assoc. apply IHtemperature_run. exact (checkpoint_best _ _ _ _ _ _ _ _ _ HB H2).
Qed.

(** What GeneralSA hands back is a copy of a recorded partition with the largest recorded energy; the null pointer exactly if
    nothing was recorded. *)
Theorem GeneralSA_best p adj fac Ti Tf Ts proba limit ds best bestE ds' :
  GeneralSA p adj fac Ti Tf Ts proba limit ds = Ok (best, bestE, ds') ->
  exists st log,
    temperature_run adj (individual_movements fac (pN p)) (collective_movements fac (pN p)) Ti Tf Ts proba limit Ti
      (mkSA p n0 n0 None None 0) ds st ds' log /\ is_best log best bestE.
Proof.
  unfold GeneralSA. intros H. destruct (sa_loop _ _ _ _ _ _ _ _ _ _ _ _) as [[st d]|] eqn:R; cbn [bind] in H; [|discriminate].
  injection H as <- <- <-. apply sa_loop_run in R as [log R]. exists st, log. split; auto.
  exact (run_best _ _ _ _ _ _ _ _ _ _ _ _ _ _ [] R (conj eq_refl eq_refl)).
Qed.
End Best.

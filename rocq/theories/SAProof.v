(** SAProof.v -- the annealing of src/sannealing.c: safety and an invariant that follows every accepted, rejected and
    restarted movement. *)
From Coq Require Import List Arith Lia Bool QArith.
From Verif Require Import Base ListLib PartModel MoveModel SAModel PartSpec AdjSpec PartInv ChangeProof MergeProof
  Steps CopyProof SplitProof EnergyForm.
Import ListNotations.
Local Open Scope nat_scope.

(** A run that ends normally with a result satisfying [Q], or uses up the given random numbers. *)
Definition safe {X} (m : res X) (Q : X -> Prop) : Prop :=
  match m with Ok x => Q x | Err e => e = RngOut end.

Lemma safe_bind {X Y} (m : res X) (f : X -> res Y) (Q : X -> Prop) (R : Y -> Prop) :
  safe m Q -> (forall x, Q x -> safe (f x) R) -> safe (bind m f) R.
Proof. destruct m; simpl; auto. Qed.
Lemma safe_impl {X} (m : res X) (Q R : X -> Prop) : safe m Q -> (forall x, Q x -> R x) -> safe m R.
Proof. destruct m; simpl; auto. Qed.

Section SA.
Context {A : Type} {ops : NumOps A}.
Implicit Types p q : partition A.

(** The random number generator returns numbers below 1: an index drawn among [n] is below [n]. *)
Definition good_draw (u : A) : Prop := forall n, 0 < n -> nfloor (nmul u (nofnat n)) < n.

(** Two partitions of the same nodes that put the same nodes together. *)
Definition same_grouping p q : Prop := forall i j, group p i = group p j <-> group q i = group q j.

Variable adj : adja A.
Variable p0 : partition A.
Variable ls0 : nat -> list nat.
Hypothesis W0 : WF p0 ls0.
Hypothesis HA : adj_ok adj (pN p0).
Hypothesis HS : sym_adj adj.
Hypothesis HN : 0 < pN p0.
Hypothesis HMN : pM p0 <= pN p0.

Variable J : partition A -> A -> Prop.
Hypothesis J_change : forall p E n m nd d p', steps p0 p -> J p E -> nth_error (pnodes p) n = Some nd ->
  m < pM p -> m <> nmod nd -> dEChangeModule n m p adj = Ok d -> ChangeModule n m p = Ok p' -> J p' (nadd E d).
Hypothesis J_merge : forall p E a b d p', steps p0 p -> J p E -> a < pM p -> b < pM p -> a <> b ->
  dEMergeModules a b p adj = Ok d -> MergeModules a b p = Ok p' -> J p' (nadd E d).
Hypothesis J_unmerge : forall p E a b d p', steps p0 p -> J p' E -> a < pM p -> b < pM p -> a <> b ->
  dEMergeModules a b p adj = Ok d -> MergeModules a b p = Ok p' -> J p (nadd E (nopp d)).
Hypothesis J_same : forall p q E, steps p0 p -> steps p0 q -> same_grouping p q -> J p E -> J q E.

Lemma steps0_WF p : steps p0 p -> exists ls, WF p ls /\ pN p = pN p0 /\ pM p = pM p0.
Proof. intros H. destruct (steps_WF _ _ _ W0 H) as (ls & W & N & M & _). eauto. Qed.

Lemma M_pos : 0 < pM p0.
Proof.
  destruct (wf_node _ _ _ W0 HN) as (nd & E & _ & H & _). lia.
Qed.

Lemma draw_safe (ds : list A) : Forall good_draw ds ->
  safe (draw ds) (fun '(u, ds') => good_draw u /\ Forall good_draw ds').
Proof. intros H. destruct ds; simpl; auto. inversion H; auto. Qed.

Lemma metropolis_safe dE T ds : Forall good_draw ds ->
  safe (metropolis dE T ds) (fun '(_, ds') => Forall good_draw ds').
Proof.
  intros H. unfold metropolis. destruct (nleb n0 dE); [simpl; auto|].
  eapply safe_bind; [apply draw_safe; auto|]. intros [u ds'] [_ Hd]. simpl. auto.
Qed.

Lemma pick_newg_safe M oldg ds : 0 < M -> Forall good_draw ds ->
  safe (pick_newg M oldg ds) (fun '(g, ds') => g < M /\ g <> oldg /\ Forall good_draw ds').
Proof.
  intros HM H. induction H as [|u ds Hu H IH]; simpl; auto.
  destruct (Nat.eqb_spec (rng_index u M) oldg); auto. simpl. splits; auto. apply Hu; auto.
Qed.

Lemma pick_node p ls u : WF p ls -> 0 < pN p -> good_draw u ->
  exists nd, nth_error (pnodes p) (rng_index u (pN p)) = Some nd /\ nmod nd < pM p /\ ls (nmod nd) <> [].
Proof.
  intros W Hp Hu. destruct (wf_node _ _ _ W (Hu (pN p) Hp)) as (nd & E & _ & H1 & H2). exists nd. splits; auto.
  intros Z. rewrite Z in H2. auto.
Qed.

Lemma pick_other_safe p ls g1 ds : WF p ls -> 0 < pN p -> Forall good_draw ds ->
  safe (pick_other p g1 ds) (fun '(g, ds') => g < pM p /\ g <> g1 /\ Forall good_draw ds').
Proof.
  intros W Hp H. induction H as [|u ds Hu H IH]; simpl; auto.
  destruct (pick_node p ls u W Hp Hu) as (nd & E & H1 & _). rewrite (get_ok _ _ _ E). cbn [bind].
  destruct (Nat.eqb_spec (nmod nd) g1); auto. simpl. splits; auto.
Qed.

Lemma pick_split_safe p ls ds : WF p ls -> 0 < pN p -> Forall good_draw ds ->
  safe (pick_split p ds) (fun '(g, ds') => g < pM p /\ ls g <> [] /\ Forall good_draw ds').
Proof.
  intros W Hp H. induction H as [|u ds Hu H IH]; simpl; auto.
  destruct (pick_node p ls u W Hp Hu) as (nd & E & H1 & H2). rewrite (get_ok _ _ _ E). cbn [bind].
  destruct (wf_module _ _ _ W H1) as (md & Em & _). rewrite (get_ok _ _ _ Em). cbn [bind].
  destruct (Nat.eqb_spec (msize md) 1); auto. simpl. splits; auto.
Qed.

Lemma first_empty_ok (mods : list (module A)) : forall j,
  0 < length (filter (fun md => msize md =? 0) mods) ->
  exists k md, first_empty mods j = Ok (j + k) /\ nth_error mods k = Some md /\ msize md = 0.
Proof.
  induction mods as [|md mods IH]; simpl; intros j H; [lia|].
  destruct (Nat.eqb_spec (msize md) 0) as [E|].
  - exists 0, md. rewrite Nat.add_0_r. auto.
  - destruct (IH (j + 1) H) as (k & md' & E & H1 & H2). exists (S k), md'. splits; auto. rewrite E. f_equal. lia.
Qed.

Lemma individual_safe T p E ds : steps p0 p -> J p E -> Forall good_draw ds ->
  safe (individual_move adj T (p, E) ds)
       (fun '(p', E', ds') => steps p0 p' /\ J p' E' /\ Forall good_draw ds').
Proof.
  intros St HJ Hd. destruct (steps0_WF p St) as (ls & W & N & M). pose proof M_pos as HMp.
  unfold individual_move. eapply safe_bind; [apply draw_safe; auto|]. intros [u ds1] [Hu Hd1].
  destruct (pick_node p ls u W) as (nd & En & Hnd & _); [lia|auto|]. rewrite (get_ok _ _ _ En). cbn [bind].
  eapply safe_bind; [apply (pick_newg_safe (pM p) (nmod nd)); [lia|exact Hd1]|]. intros [newg ds2] (Hg & Hne & Hd2).
  rewrite <- N in HA.
  destruct (dEChangeModule_form p ls adj _ newg nd W HA En Hg) as (mo & mn & _ & _ & EdE).
  destruct (dEChangeModule (rng_index u (pN p)) newg p adj) as [dE|] eqn:EE; [|discriminate]. clear EdE. cbn [bind].
  eapply safe_bind; [apply metropolis_safe; auto|]. intros [ok ds3] Hd3.
  destruct ok; [|simpl; auto].
  destruct (ChangeModule_spec p ls _ newg nd W En Hg) as (p' & Ep & W' & _). rewrite Ep. cbn [bind safe].
  splits; auto.
  - apply nth_lt in En as Hlt. rewrite (wf_N _ _ W) in Hlt. eapply steps_change; eauto.
  - eapply J_change; eauto.
Qed.

Lemma merge_safe T p E ds : steps p0 p -> J p E -> Forall good_draw ds ->
  safe (merge_move adj T (p, E) ds)
       (fun '(p', E', ds') => steps p0 p' /\ J p' E' /\ Forall good_draw ds').
Proof.
  intros St HJ Hd. destruct (steps0_WF p St) as (ls & W & N & M). pose proof M_pos as HMp.
  unfold merge_move. eapply safe_bind; [apply draw_safe; auto|]. intros [u ds1] [Hu Hd1].
  destruct (pick_node p ls u W) as (nd & En & Hnd & _); [lia|auto|]. rewrite (get_ok _ _ _ En). cbn [bind].
  destruct (pM p) as [|M1] eqn:EM; [lia|]. cbn [dec bind]. destruct (pnempty p <? M1); [|simpl; auto].
  eapply safe_bind; [apply (pick_other_safe p ls (nmod nd)); [auto|lia|exact Hd1]|]. intros [g2 ds2] (Hg & Hne & Hd2).
  rewrite <- EM in *. rewrite <- N in HA.
  destruct (dEMergeModules_form p ls adj (nmod nd) g2 W HA Hnd Hg) as (ma & mb & _ & _ & EdE).
  destruct (dEMergeModules (nmod nd) g2 p adj) as [dE|] eqn:EE.
  2: { destruct (if _ <? _ then _ else _); discriminate. }
  clear EdE. cbn [bind].
  eapply safe_bind; [apply metropolis_safe; auto|]. intros [ok ds3] Hd3.
  destruct ok; [|simpl; auto].
  assert (Hne' : nmod nd <> g2) by auto.
  destruct (MergeModules_spec p ls _ g2 W Hne' Hnd Hg) as (p' & ls' & Ep & W' & _). rewrite Ep. cbn [bind safe].
  splits; auto.
  - eapply steps_merge with (a := nmod nd) (b := g2); eauto.
  - eapply J_merge with (a := nmod nd) (b := g2); eauto.
Qed.

(** ** SplitModuleSA *)
Lemma list_members_ok p ls m md : WF p ls -> nth_error (pmods p) m = Some md ->
  list_members p (mfirst md) (msize md) = Ok (ls m).
Proof.
  intros W Em. assert (Hm : m < pM p). { rewrite <- (wf_M _ _ W). eapply nth_lt; eauto. }
  destruct (wf_module _ _ _ W Hm) as (md' & Em' & _ & Sz & Fi & _ & D). rewrite Em in Em'. injection Em' as <-.
  rewrite Fi, Sz. unfold list_members.
  assert (L : length (ls m) <= length (pnodes p)).
  { rewrite (wf_N _ _ W). apply NoDup_bound; [apply (wf_nodup _ _ W)|]. intros x Hx. eapply wf_in_lt; eauto. }
  destruct (walkM_list (fun (_ : list nat * nat) i => next_of p i)
    (fun '(ind, k) i => do nd <- get (pnodes p) i; do ind <- set ind k (nid nd); Ok (ind, k + 1))
    (fun done st => snd st = length done /\ fst st = done ++ repeat 0 (length (ls m) - length done))
    (ls m) (length (pnodes p)) (repeat 0 (length (ls m)), 0) L) as ([ind k] & E & H1 & H2).
  - simpl. rewrite Nat.sub_0_r. auto.
  - intros done i rest [ind k] El [H1 H2]. simpl in H1, H2. subst.
    rewrite El in D. destruct (dll_node _ _ _ _ D) as (nd & End & _ & Enx).
    rewrite (get_ok _ _ _ End). cbn [bind]. rewrite (wf_nid _ _ W _ _ End).
    assert (El' : length (ls m) = length done + S (length rest)) by (rewrite El, app_length; reflexivity).
    rewrite set_ok.
    2: { rewrite app_length, repeat_length. lia. }
    eexists. splits; [reflexivity| | |].
    + simpl. rewrite app_length. simpl. lia.
    + simpl. replace (length (ls m) - length done) with (S (length rest)) by lia. simpl repeat.
      rewrite upd_app_mid, <- app_assoc. rewrite app_length. simpl. do 3 f_equal. lia.
    + unfold next_of. rewrite (get_ok _ _ _ End). cbn [bind]. now rewrite Enx.
  - rewrite E. cbn [bind]. simpl in H2. rewrite H2, Nat.sub_diag. simpl. now rewrite app_nil_r.
Qed.

(** Nodes of [L] are in [t] or [e], all others where they were in [p]. *)
Definition confined p q (L : list nat) (t e : nat) : Prop :=
  (forall i, In i L -> group q i = Some t \/ group q i = Some e) /\ (forall i, ~ In i L -> group q i = group p i).

Lemma confined_change p q q' L t e i m : confined p q L t e -> In i L -> (m = t \/ m = e) ->
  (forall k, group q' k = if k =? i then Some m else group q k) -> confined p q' L t e.
Proof.
  intros [C1 C2] Hi Hm G. split; intros k Hk; rewrite G; destruct (Nat.eqb_spec k i) as [->|]; auto.
  - destruct Hm; subst; auto.
  - tauto.
Qed.

Lemma random_split_safe p L t e ds : steps p0 p -> e < pM p0 -> (forall i, In i L -> i < pN p0) ->
  confined p p L t e -> Forall good_draw ds ->
  safe (random_split e L p ds) (fun '(q, ds') => steps p q /\ confined p q L t e /\ Forall good_draw ds').
Proof.
  intros St He HL HC Hd. unfold random_split.
  apply (foldM_safe (fun _ '(q, ds') => steps p q /\ confined p q L t e /\ Forall good_draw ds') _ (fun e => e = RngOut)).
  - splits; auto. constructor.
  - intros done i rest [q ds1] El (Sq & Cq & Hd1).
    assert (Hi : In i L) by (rewrite El, in_app_iff; simpl; auto).
    destruct (steps0_WF q (steps_trans _ _ _ St Sq)) as (lq & Wq & Nq & Mq).
    destruct ds1 as [|u ds2]; cbn [draw bind]; auto. inversion Hd1; subst.
    destruct (nltb u (nofQ (1 # 2))); auto.
    assert (Hiq : i < pN q) by (rewrite Nq; auto).
    destruct (wf_node _ _ _ Wq Hiq) as (nd & End & _).
    assert (Heq : e < pM q) by lia.
    destruct (ChangeModule_spec q lq i e nd Wq End Heq) as (q' & E' & _ & _ & _ & G' & _). rewrite E'. cbn [bind].
    splits; auto.
    + eapply steps_change; eauto.
    + eapply confined_change; eauto.
Qed.

Lemma split_sa_loop_safe p L t e Tf Ts limit :
  steps p0 p -> t < pM p0 -> e < pM p0 -> (forall i, In i L -> i < pN p0) -> L <> [] ->
  forall fuel T nochange q ds, steps p q -> confined p q L t e -> Forall good_draw ds ->
  safe (split_sa_loop t e (length L) Tf Ts limit L adj fuel T nochange q ds)
       (fun '(q', ds') => steps p q' /\ confined p q' L t e /\ Forall good_draw ds').
Proof.
  intros St Ht He HL HLn. induction fuel as [|fuel IH]; intros T nc q ds Sq Cq Hd; cbn [split_sa_loop]; [reflexivity|].
  destruct (nltb Tf T); [|simpl; auto].
  eapply safe_bind; [apply draw_safe; auto|]. intros [u ds1] [Hu Hd1].
  assert (Hlen : 0 < length L) by (destruct L; simpl; [congruence|lia]).
  destruct (nth_ex L (rng_index u (length L)) (Hu _ Hlen)) as [nodeid Ei]. rewrite (get_ok _ _ _ Ei). cbn [bind].
  apply nth_error_In in Ei.
  destruct (steps0_WF q (steps_trans _ _ _ St Sq)) as (lq & Wq & Nq & Mq).
  assert (Hiq : nodeid < pN q) by (rewrite Nq; auto).
  destruct (wf_node _ _ _ Wq Hiq) as (nd & End & _). rewrite (get_ok _ _ _ End). cbn [bind].
  set (newg := if nmod nd =? t then e else t).
  assert (Hng : newg = t \/ newg = e) by (unfold newg; destruct (_ =? _); auto).
  assert (Hgq : newg < pM q) by (destruct Hng as [Hng|Hng]; rewrite Hng; lia).
  rewrite <- Nq in HA.
  destruct (dEChangeModule_form q lq adj nodeid newg nd Wq HA End Hgq) as (mo & mn & _ & _ & EdE). rewrite EdE. cbn [bind].
  eapply safe_bind; [apply metropolis_safe; auto|]. intros [ok ds2] Hd2.
  destruct (ChangeModule_spec q lq nodeid newg nd Wq End Hgq) as (q' & E' & _ & _ & _ & G' & _).
  eapply (safe_bind _ _ (fun q1 => steps p q1 /\ confined p q1 L t e)).
  - destruct ok; [|simpl; auto]. rewrite E'. simpl. split.
    + eapply steps_change; eauto.
    + eapply confined_change; eauto.
  - intros q1 [S1 C1]. destruct (nltb _ _).
    + destruct (_ <? _); [simpl; auto|]. apply IH; auto.
    + apply IH; auto.
Qed.

Lemma SplitModuleSA_safe p ls t e Ti Tf Ts limit ds : steps p0 p -> WF p ls -> t < pM p0 -> e < pM p0 -> ls t <> [] ->
  Forall good_draw ds ->
  safe (SplitModuleSA t e Ti Tf Ts limit p adj ds)
       (fun '(q, ds') => steps p q /\ confined p q (ls t) t e /\ Forall good_draw ds').
Proof.
  intros St W Ht He Hne Hd. destruct (steps0_WF p St) as (_ & _ & N & M).
  assert (Ht' : t < pM p) by lia.
  destruct (wf_module _ _ _ W Ht') as (tm & Etm & _ & Sz & _). unfold SplitModuleSA.
  rewrite (get_ok _ _ _ Etm). cbn [bind]. rewrite (list_members_ok p ls t tm W Etm). cbn [bind].
  assert (HL : forall i, In i (ls t) -> i < pN p0). { intros i Hi. rewrite <- N. eapply wf_in_lt; eauto. }
  eapply safe_bind.
  - apply (random_split_safe p (ls t) t e ds); auto. split; auto. intros i Hi. left. apply (wf_mem _ _ W); auto.
  - intros [q ds1] (S1 & C1 & Hd1). rewrite Sz. apply split_sa_loop_safe; auto.
Qed.

(** ** The split half of a collective movement *)
Lemma confined_same_merge p ls q t e : WF p ls -> ls e = [] -> t <> e -> confined p q (ls t) t e ->
  forall i j, group p i = group p j <->
     (group q i = group q j \/
      ((group q i = Some t \/ group q i = Some e) /\ (group q j = Some t \/ group q j = Some e))).
Proof.
  intros W He Hte [C1 C2] i j.
  assert (Fe : forall k, group p k <> Some e) by (intros k Hk; apply (wf_mem _ _ W) in Hk; rewrite He in Hk; auto).
  assert (Gt : forall k, In k (ls t) <-> group p k = Some t) by (intros; apply (wf_mem _ _ W)).
  destruct (in_dec Nat.eq_dec i (ls t)) as [Hi|Hi]; destruct (in_dec Nat.eq_dec j (ls t)) as [Hj|Hj].
  - pose proof (C1 i Hi). pose proof (C1 j Hj). apply Gt in Hi, Hj. rewrite Hi, Hj. tauto.
  - pose proof (C1 i Hi) as Q. pose proof (C2 j Hj) as Q2. pose proof (Fe j) as Q3. rewrite Gt in Hi, Hj. rewrite Q2, Hi.
    split; intros H; [symmetry in H; tauto|].
    exfalso. destruct H as [H|[_ [H|H]]]; try tauto. destruct Q as [Q|Q]; rewrite Q in H; symmetry in H; tauto.
  - pose proof (C1 j Hj) as Q. pose proof (C2 i Hi) as Q2. pose proof (Fe i) as Q3. rewrite Gt in Hi, Hj. rewrite Q2, Hj.
    split; intros H; [tauto|].
    exfalso. destruct H as [H|[[H|H] _]]; try tauto. destruct Q as [Q|Q]; rewrite Q in H; tauto.
  - pose proof (C2 i Hi) as Q. pose proof (C2 j Hj) as Q2. rewrite Gt in Hi, Hj. pose proof (Fe i). pose proof (Fe j).
    rewrite Q, Q2. split; auto. intros [H'|[[H'|H'] _]]; tauto.
Qed.

Lemma confined_one_sided p ls q lq t e : WF p ls -> WF q lq -> ls e = [] -> t <> e -> confined p q (ls t) t e ->
  lq t = [] \/ lq e = [] -> same_grouping p q.
Proof.
  intros W Wq He Hte C Hz i j. rewrite (confined_same_merge p ls q t e W He Hte C).
  assert (Z : forall k m, lq m = [] -> group q k <> Some m).
  { intros k m Hm Hk. apply (wf_mem _ _ Wq) in Hk. rewrite Hm in Hk. auto. }
  split; auto. intros [|[Hi Hj]]; auto.
  destruct Hz as [Hz|Hz]; pose proof (Z i _ Hz); pose proof (Z j _ Hz);
    destruct Hi as [Hi|Hi]; destruct Hj as [Hj|Hj]; try congruence; tauto.
Qed.

Lemma split_safe Ti T proba limit p E ds : steps p0 p -> J p E -> Forall good_draw ds ->
  safe (split_move adj Ti T proba limit (p, E) ds)
       (fun '(p', E', ds') => steps p0 p' /\ J p' E' /\ Forall good_draw ds').
Proof.
  intros St HJ Hd. destruct (steps0_WF p St) as (ls & W & N & M). pose proof M_pos as HMp.
  unfold split_move. destruct (Nat.eqb_spec (pnempty p) 0) as [|Hnz]; [simpl; auto|].
  destruct (first_empty_ok (pmods p) 0) as (e & me & Ee & Eme & Sze).
  { pose proof (WF_valid _ _ W) as V. rewrite (valid_nempty _ V) in Hnz. lia. }
  rewrite Ee. cbn [bind]. simpl in Ee |- *.
  assert (He : e < pM p). { rewrite <- (wf_M _ _ W). eapply nth_lt; eauto. }
  assert (Hle : ls e = []).
  { destruct (wf_module _ _ _ W He) as (md & Em & _ & Sz & _). rewrite Eme in Em. injection Em as <-.
    rewrite Sze in Sz. destruct (ls e); auto; discriminate. }
  eapply safe_bind; [apply (pick_split_safe p ls ds); [auto|lia|auto]|]. intros [t ds1] (Ht & Hlt & Hd1).
  assert (Hte : t <> e) by congruence.
  eapply safe_bind; [apply draw_safe; auto|]. intros [u ds2] [_ Hd2].
  (* the split by component *)
  eapply (safe_bind _ _ (fun '(c, q, ds') => steps p q /\ confined p q (ls t) t e /\ (c = 1 -> q = p) /\ Forall good_draw ds')).
  { assert (Cp : confined p p (ls t) t e).
    { split; auto. intros i Hi. left. apply (wf_mem _ _ W); auto. }
    destruct (nltb u proba).
    2: { simpl. splits; auto. constructor. }
    rewrite <- N in HA.
    pose proof (SplitModuleByComponent_spec adj p ls t W HA HS e ds2 Ht He) as S.
    destruct (SplitModuleByComponent t e p adj ds2) as [[[c q] ds3]|er] eqn:ES; simpl; auto.
    destruct S as (lq & comp & Wq & Sq & Nq & Mq & Om & _ & _ & _ & _ & Hc1 & _). splits; auto.
    - split; intros i Hi.
      + apply (wf_mem _ _ W) in Hi. destruct (Om i) as [->|[_ ->]]; auto.
      + destruct (Om i) as [->|[H _]]; auto. exfalso. apply Hi. apply (wf_mem _ _ W). auto.
    - intros ->. apply Hc1. lia.
    - clear - ES Hd2. unfold SplitModuleByComponent in ES.
      apply bind_Ok in ES as (tm & _ & ES). apply bind_Ok in ES as ([[c' st'] ds'] & ES1 & ES2).
      apply bind_Ok in ES2 as (q' & _ & ES2). injection ES2 as -> -> ->.
      revert ES1. generalize (length (pnodes p)) as fuel. generalize (mfirst tm) as cur.
      match goal with |- context [split_walk _ _ _ _ _ 0 ?x ds2] => generalize x as st end. generalize 0 as k.
      intros k st cur fuel. revert Hd2 k st cur. generalize ds2 as ds. induction fuel as [|fuel IH]; intros ds Hd2 k st cur H; simpl in H.
      + destruct cur; [destruct (_ =? _); [|discriminate]|]; congruence.
      + destruct cur as [i|]; [|congruence]. destruct (_ =? _); [congruence|].
        apply bind_Ok in H as (nd & _ & H). apply bind_Ok in H as (v & _ & H).
        destruct v; cbn [bind] in H; [eapply IH; eauto|].
        apply bind_Ok in H as ([[c1 st1] ds1] & H1 & H2).
        apply bind_Ok in H1 as (vs & _ & H1). apply bind_Ok in H1 as ([side ds4] & Hps & H1).
        apply bind_Ok in H1 as (stk & _ & H1). apply bind_Ok in H1 as (st5 & _ & H1). injection H1 as <- <- <-.
        eapply IH; [|exact H2]. unfold pick_side in Hps. destruct (_ =? 1); [congruence|]. destruct (_ =? 2); [congruence|].
        apply bind_Ok in Hps as ([u ds6] & Hdr & Hps). injection Hps as _ <-.
        destruct ds; simpl in Hdr; [discriminate|]. injection Hdr as <- <-. inversion Hd2; auto. }
  intros [[c q] ds3] (Sq & Cq & Hc1 & Hd3).
  (* the nested annealing *)
  eapply (safe_bind _ _ (fun '(q, ds') => steps p q /\ confined p q (ls t) t e /\ Forall good_draw ds')).
  { destruct (Nat.eqb_spec c 1) as [Hc|]; [|simpl; auto]. rewrite (Hc1 Hc).
    apply SplitModuleSA_safe; auto; lia. }
  clear q ds3 Sq Cq Hc1 Hd3. intros [q ds3] (Sq & Cq & Hd3).
  assert (Sq0 := steps_trans _ _ _ St Sq). destruct (steps0_WF q Sq0) as (lq & Wq & Nq & Mq).
  assert (Htq : t < pM q) by lia. assert (Heq : e < pM q) by lia.
  destruct (wf_module _ _ _ Wq Htq) as (tm & Etm & _ & Szt & _).
  destruct (wf_module _ _ _ Wq Heq) as (em & Eem & _ & Sz2 & _).
  rewrite (get_ok _ _ _ Etm). cbn [bind]. rewrite (get_ok _ _ _ Eem). cbn [bind]. rewrite Szt, Sz2.
  destruct ((length (lq t) =? 0) || (length (lq e) =? 0)) eqn:Ez.
  { simpl. splits; auto. apply (J_same p q E); auto. apply (confined_one_sided p ls q lq t e); auto.
    apply orb_prop in Ez as [Ez|Ez]; apply Nat.eqb_eq, length_zero_iff_nil in Ez; auto. }
  rewrite <- Nq in HA.
  destruct (dEMergeModules_form q lq adj t e Wq HA Htq Heq) as (ma & mb & _ & _ & EdE).
  destruct (dEMergeModules t e q adj) as [d|] eqn:EE.
  2: { destruct (if _ <? _ then _ else _); discriminate. }
  clear EdE. cbn [bind].
  destruct (MergeModules_spec q lq t e Wq Hte Htq Heq) as (r & lr & Er & Wr & Nr & Mr & _ & Gr & _).
  assert (Sr : steps p0 r) by (eapply steps_merge with (a := t) (b := e); eauto).
  assert (Jr : J r E).
  { apply (J_same p r E); auto. intros i j. rewrite Gr. apply (confined_same_merge p ls); auto. }
  eapply safe_bind; [apply metropolis_safe; auto|]. intros [ok ds4] Hd4.
  destruct ok.
  - simpl. splits; auto. eapply J_unmerge with (a := t) (b := e); eauto.
  - rewrite Er. simpl. splits; auto.
Qed.

Lemma collective_safe Ti T proba limit p E ds : steps p0 p -> J p E -> Forall good_draw ds ->
  safe (collective_move adj Ti T proba limit (p, E) ds)
       (fun '(p', E', ds') => steps p0 p' /\ J p' E' /\ Forall good_draw ds').
Proof.
  intros St HJ Hd. unfold collective_move. eapply safe_bind; [apply merge_safe; eauto|].
  intros [[p' E'] ds'] (S' & J' & D'). apply split_safe; auto.
Qed.

Lemma repeatM_safe (f : partition A * A -> list A -> res (partition A * A * list A)) k :
  (forall p E ds, steps p0 p -> J p E -> Forall good_draw ds ->
     safe (f (p, E) ds) (fun '(p', E', ds') => steps p0 p' /\ J p' E' /\ Forall good_draw ds')) ->
  forall p E ds, steps p0 p -> J p E -> Forall good_draw ds ->
  safe (repeatM f k (p, E) ds) (fun '((p', E'), ds') => steps p0 p' /\ J p' E' /\ Forall good_draw ds').
Proof.
  intros Hf. induction k as [|k IH]; intros p E ds St HJ Hd; cbn [repeatM]; [simpl; auto|].
  eapply safe_bind; [apply Hf; auto|]. intros [[p' E'] ds'] (S' & J' & D'). apply IH; auto.
Qed.

(** State between two temperature steps: the current partition and, if there is one, the saved best partition. *)
Record SAInv (st : sastate) : Prop := {
  sv_steps : steps p0 (spart st);
  sv_J : J (spart st) (sE st);
  sv_best : match sbest st, sbestE st with
            | Some b, Some e => steps p0 b /\ J b e
            | None, None => True
            | _, _ => False
            end
}.

Lemma copy_steps p : steps p0 p -> CopyPartitionStruct p = Ok p.
Proof.
  intros St. destruct (steps0_WF p St) as (ls & W & N & M). apply (CopyPartition_spec p ls); auto. lia.
Qed.

Lemma checkpoint_safe limit st : SAInv st ->
  exists r, sa_checkpoint limit st = Ok r /\ match r with inl st' => SAInv st' | inr st' => SAInv st' end.
Proof.
  intros [S1 J1 B]. unfold sa_checkpoint. destruct st as [p E pE b bE nc]. cbn in *.
  destruct (no_change E pE).
  - destruct (_ =? limit).
    + destruct bE as [e|]; destruct b as [b|]; try tauto.
      * destruct B as [SB JB]. destruct (nleb e (nadd E EPSILON_MOD)).
        -- eexists; split; [reflexivity|]. constructor; cbn; auto.
        -- cbn [deref bind]. rewrite (copy_steps b SB). cbn [bind]. eexists; split; [reflexivity|]. constructor; cbn; auto.
      * eexists; split; [reflexivity|]. constructor; cbn; auto.
    + eexists; split; [reflexivity|]. constructor; cbn; auto.
  - destruct (match bE with None => true | Some b0 => nltb b0 E end).
    + rewrite (copy_steps p S1). cbn [bind]. eexists; split; [reflexivity|]. constructor; cbn; auto.
    + eexists; split; [reflexivity|]. constructor; cbn; auto.
Qed.

Lemma sa_loop_safe nind ncol Ti Tf Ts proba limit : forall fuel T st ds, SAInv st -> Forall good_draw ds ->
  safe (sa_loop adj nind ncol Ti Tf Ts proba limit fuel T st ds) (fun '(st', ds') => SAInv st' /\ Forall good_draw ds').
Proof.
  induction fuel as [|fuel IH]; intros T st ds HI Hd; cbn [sa_loop]; [reflexivity|].
  destruct (nltb Tf T); [|simpl; auto]. pose proof HI as [S1 J1 B].
  eapply safe_bind; [apply repeatM_safe; auto; intros; apply individual_safe; auto|].
  intros [[p1 E1] ds1] (S2 & J2 & D2).
  eapply safe_bind; [apply repeatM_safe; auto; intros; apply collective_safe; auto|].
  intros [[p2 E2] ds2] (S3 & J3 & D3).
  destruct (checkpoint_safe limit (mkSA p2 E2 (sprevE st) (sbest st) (sbestE st) (snochange st))) as (r & Er & HR).
  { constructor; cbn; auto. }
  rewrite Er. cbn [bind]. destruct r as [st'|st']; [simpl; auto|]. apply IH; auto.
Qed.

Theorem GeneralSA_safe fac Ti Tf Ts proba limit ds : J p0 n0 -> Forall good_draw ds ->
  safe (GeneralSA p0 adj fac Ti Tf Ts proba limit ds)
    (fun '(best, bestE, _) => match best, bestE with
       | Some b, Some e => steps p0 b /\ J b e
       | None, None => True
       | _, _ => False
       end).
Proof.
  intros J0 Hd. unfold GeneralSA. eapply safe_bind.
  - apply sa_loop_safe; [|exact Hd]. constructor; cbn; auto. constructor.
  - intros [st ds'] [[_ _ B] _]. simpl. auto.
Qed.

End SA.

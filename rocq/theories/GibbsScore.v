(** GibbsScore.v -- the scores of GibbsLinkScore (src/missing.c 2401-2585), GibbsLinkScoreMB and ORGibbsLinkScoreMB (src/multiblock.c
    1725-1936, 2361-2552) and GibbsLinkScoreMB_OD (src/only_deg.c 1088-1284). *)
From Coq Require Import List Arith ZArith Bool QArith Qcanon Lia.
From Verif Require Import Base Num ListLib NatSum QcSum GraphModel GraphSpec GraphProof GroupModel GroupSpec PairSum GroupProof GroupExact MatLib
  ToolsModel ToolsProof ModulesModel SAProof MissModel MissSpec MissSets MissStep MissRun MissScore MissExact MbModel MbSpec MbStep MbRun MbExact MbScore GibbsModel GibbsSpec GibbsSets GibbsStep GibbsRun GibbsExact.
From Verif Require RecSpec.
Import ListNotations.
Local Open Scope nat_scope.

Section Score.
Variables ex sq : Qc -> Qc.
Hypothesis ex_pos : forall x, (0 < ex x)%Qc.
Local Instance rops : NumOps Qc := Qc_ops ex sq.
Variable ln : Qc -> Qc.
Variable lnchoose : nat -> nat -> Qc.
Variable lnfact : nat -> Qc.
Variables lcsize lfsize : nat.
Variable linC : Qc.
Variable kd : kind.
Variable deg : bool.
Hypothesis plain : deg = false -> kd = OD.
Hypothesis ln1 : ln 1%Qc = 0%Qc.
Hypothesis choose00 : lnchoose 0 0 = 0%Qc.
Variable g0 : net Qc.
Hypothesis U0 : undirected g0.
Let N := length g0.
Notation HE := (heat_energy ln lnchoose lnfact linC kd deg g0).
Notation ident := (ident g0).
Notation sweeps := (RecSpec.power (gsweep ex HE)).
Notation off := (offset ln lnchoose lnfact linC kd deg g0).

Definition gs_err (hsize : nat) (d0 : list Qc) (e : err) : Prop :=
  e = RngOut \/ e = Diverge \/ (e = UB_oob /\ (~ Forall (fun u => (0 < u)%Qc) d0 \/ (deg = true /\ hsize < choose2 N + 3))) \/
  (e = UB_uninit /\ 0 < N /\ exists n t, sweeps n (alone N, d0) t /\ filled (fst t) = 1).
Theorem GibbsLinkScore_any hsize nIter ds : 0 < hsize -> Forall unit_draw ds ->
  ends (gs_err hsize (skipn N ds)) (GibbsLinkScore_on ln lnchoose lnfact lcsize lfsize linC kd deg hsize g0 nIter ds)
    (fun '(m, st) => exists rounds s1 ss, 5 <= rounds /\ sweeps (20 * rounds) (alone N, skipn N ds) s1 /\ RecSpec.visits (gsweep ex HE) s1 ss (abs (mpart st), mds st) /\ length ss = nIter /\
       (forall s, In s ss -> assigned N (fst s)) /\ assigned N (abs (mpart st)) /\ table_exact g0 (abs (mpart st)) (mG2G st) /\
       mH st = (HE (abs (mpart st)) + off)%Qc /\ (0 < nIter -> mat N N m (mb_average kd g0 (map fst ss)))).
Proof.
  intros Hs HD. unfold GibbsLinkScore_on. fold N.
  assert (EH : exists hl, (if deg then InitializeHarmonicList hsize else Ok []) = Ok hl /\ (deg = true -> length hl = hsize) /\ forall i, i < length hl -> nth_error hl i = Some (Qsum (fun j => 1 / Qc_of_nat j) (seq 1 i))%Qc).
  { destruct deg.
    - destruct (harmonic_spec ex sq hsize Hs) as (hl & EH & Lh & Hh). exists hl. splits; auto. intros i Hi. apply Hh. lia.
    - exists []. splits; auto; [discriminate|]. intros i Hi. cbn in Hi. lia. }
  destruct EH as (hl & EH & Lh & Hhl). rewrite EH. clear EH. cbn [bind].
  eapply (ends_weaken (all_err ex ln lnchoose lnfact linC kd deg g0 hl ds)).
  2: { intros e [->|[->|[(-> & K)|K]]]; unfold gs_err; auto 6. right; right; left. split; auto. destruct K as [K|(K1 & K2)]; auto. right. split; auto. rewrite <- (Lh K1). exact K2. }
  eapply ends_bind.
  { eapply ends_weaken; [apply (gb_setup_ok ex sq ln lnchoose lnfact lcsize linC kd deg plain ln1 choose00 g0 U0 hl Hhl ds HD)|]. apply setup_all. }
  intros [[nl gl] s0] (-> & -> & I0 & EA & ED).
  pose proof (gb_rest_ok ex sq ex_pos ln lnchoose lnfact lcsize lfsize linC kd deg plain ln1 choose00 g0 U0 hl Hhl ds nIter s0 I0 EA ED) as HR. fold N in HR.
  match type of HR with ends _ (bind ?a _) _ => destruct a as [s1|e] eqn:ET end.
  2: { match goal with |- ends _ (bind ?a _) _ => assert (ET' : a = Err e) by exact ET; rewrite ET' end. exact HR. }
  match goal with |- ends _ (bind ?a _) _ => assert (ET' : a = Ok s1) by exact ET; rewrite ET' end. cbn [bind] in *.
  eapply ends_bind; [exact HR|]. intros [st m] (I & warm & t1 & ss & P0 & P1 & V1 & LS & HF & Hm). cbn [ends].
  pose proof (gn_p _ _ _ _ _ _ _ _ _ _ _ _ _ I) as PI. pose proof (pi_as _ _ _ PI) as HA. fold N in HA.
  exists warm, t1, ss. splits; auto.
  - intros s K. rewrite Forall_forall in HF. now apply HF.
  - apply I.
  - rewrite (gn_H _ _ _ _ _ _ _ _ _ _ _ _ _ I). rewrite <- (heat_ok ln lnchoose lnfact linC kd deg plain g0 _ HA). reflexivity.
  - intros Hn. assert (LM : length (map fst ss) = nIter) by (now rewrite map_length).
    assert (HmD : mat N N (map (map (fun x => ndiv x (nofnat nIter))) m) (fun i j => if i =? j then 0%Qc else (Qsum (fun M => mb_score kd g0 M i j) (map fst ss) / Qc_of_nat nIter)%Qc)).
    { eapply mat_ext; [eapply mat_map; exact Hm|]. intros i j _ _. cbn [ndiv nofnat rops Qc_ops]. unfold mb_summed. destruct (i =? j); auto. unfold Qcdiv. apply Qcmult_0_l. }
    unfold mb_average. rewrite LM. clear plain I PI HR ET ET' I0. destruct kd; auto. eapply mat_ext; [eapply mat_map; exact HmD|]. intros i j _ _. cbn [nsub nofQ rops Qc_ops]. destruct (i =? j); [apply Qc_is_canon; reflexivity|reflexivity].
Qed.
End Score.

(** GibbsModel.v -- the Gibbs samplers of src/missing.c (GibbsLinkScoreStep ... GibbsLinkScore, 2002-2585), src/multiblock.c
    (GibbsLinkScoreStepMB ... GibbsLinkScoreMB, 1307-1936; ORGibbsLinkScoreStepMB ... ORGibbsLinkScoreMB, 1943-2552) and
    src/only_deg.c (GibbsLinkScoreStepMB_OD ... GibbsLinkScoreMB_OD, 670-1284).

    The four families are the same text up to the terms of the energy.  [deg = false] and [kd = OD] is src/missing.c, where there
    are no harmonic numbers and no degeneracies; with [deg = true], [kd] is AND, OR or OD as in MbModel.v.

    State, partitions, parameters and conventions are those of MissModel.v and MbModel.v.  The variables of
    GibbsLinkScoreStep that the code for the empty group reads, but only a destination other than the node's own group sets
    (noldg, n2oldg, oldg2oldg, effectng), and the array dH start uninitialised at each call.  What is printed is left out, with
    the energies computed to be printed; release of memory is left out. *)
From Coq Require Import List Arith ZArith Bool QArith.
From Verif Require Import Base MatLib IoModel GraphModel GroupModel ModulesModel ToolsModel MissModel MbModel.
Import ListNotations.
Local Open Scope nat_scope.

Section Gibbs.
Context {A : Type} {ops : NumOps A}.
Variable ln : A -> A.
Variable lnchoose : nat -> nat -> A.
Variable lnfact : nat -> A.
Variables lcsize lfsize : nat.
Variable linC : A.
Variable kd : kind.
Variable deg : bool.
Notation term := (mb_term ln lnchoose lcsize kd).

(** src/missing.c 2158-2171, 2253-2266; src/multiblock.c 1472-1481, 1573-1582, 2108-2117, 2209-2218; src/only_deg.c 835-844,
    936-945: the correction for labelled groups. *)
Definition gb_labels (nnod : nat) (tabf : list A) (no nw : Z) (eff : nat) (dH : A) : res A :=
  if deg then mb_labels ln lnfact lfsize kd nnod tabf no nw eff dH else mc_labels lnfact lfsize nnod tabf no nw eff dH.

(** What the loop over destinations leaves in noldg, n2oldg, oldg2oldg, effectng. *)
Definition gb_loc : Type := (Z * Z * Z * nat)%type.

(** src/missing.c 2065-2171; src/multiblock.c 1366-1481, 2002-2117; src/only_deg.c 729-844: the change of energy of moving
    [node] from the group at [ko] to the group at [kw]. *)
Definition gb_change (nnod : nat) (tabf hl : list A) (g : net A) (P : gpart A) (G2G : list (list Z)) (slg : list nat) (tab : list (list A)) (n2g : list (option Z)) (node ko kw : nat)
    : res (A * list (list A) * list (option Z) * gb_loc) :=
  do Go <- get P ko;
  do Gw <- get P kw;
  let no := psize Go in
  let nw := psize Gw in
  let dH := n0 in
  let dH := if (no =? 1)%Z then nsub dH linC else dH in
  let dH := if (nw =? 0)%Z then nadd dH linC else dH in
  do n2o <- NLinksToGroup g node (plabel Go);
  do n2w <- NLinksToGroup g node (plabel Gw);
  do w2o <- NG2GLinks g P kw ko;
  do (dt, n2g, eff) <- foldM (mb_group ln lnchoose lcsize kd g P hl G2G node Go Gw (Z.of_nat n2o) (Z.of_nat n2w) (Z.of_nat w2o)) ((dH, tab), n2g, 0) slg;
  do dH <- gb_labels nnod tabf no nw eff (fst dt);
  Ok (dH, snd dt, n2g, (no, Z.of_nat n2o, pin Go, eff)).

(** src/missing.c 2060-2179; src/multiblock.c 1361-1490, 1997-2126; src/only_deg.c 724-853: one destination.  The state is
    (norm, dH), LogChooseList, n2gList and the variables. *)
Definition gb_dest (nnod : nat) (glist : list (option nat)) (tabf hl : list A) (g : net A) (P : gpart A) (G2G : list (list Z)) (slg : list nat) (node o ko : nat)
    (s : A * list (option A) * list (list A) * list (option Z) * option gb_loc) (w : nat) : res (A * list (option A) * list (list A) * list (option Z) * option gb_loc) :=
  let '(norm, dHs, tab, n2g, loc) := s in
  do kw <- get glist w;
  do kw <- deref kw;
  if w =? o then
    do dHs <- set dHs w (Some n0);
    Ok (nadd norm (nexp (nopp n0)), dHs, tab, n2g, loc)
  else
    do (d, tab, n2g, l) <- gb_change nnod tabf hl g P G2G slg tab n2g node ko kw;
    do dHs <- set dHs w (Some d);
    Ok (nadd norm (nexp (nopp d)), dHs, tab, n2g, Some l).

(** src/missing.c 2182-2251; src/multiblock.c 1493-1571, 2129-2207; src/only_deg.c 856-934: one group, for the change of energy
    of moving to an empty group. *)
Definition gb_empty_group (P : gpart A) (hl : list A) (G2G : list (list Z)) (n2g : list (option Z)) (Go : grp A) (no n2o oin : Z)
    (d : A * list (list A)) (k : nat) : res (A * list (list A)) :=
  do G <- get P k;
  if (0 <? psize G)%Z then
    if plabel G =? plabel Go then
      do d <- term false hl d (Z.quot (no * (no - 1)) 2) oin;
      do d <- term true hl d (Z.quot ((no - 1) * (no - 2)) 2) (oin - n2o);
      do d <- term false hl d (0 * no)%Z 0%Z;
      term true hl d ((0 + 1) * (no - 1))%Z (0 + n2o - 0)%Z
    else
      do y <- get n2g (plabel G);
      do n2 <- written y;
      do o2g <- get2 G2G (plabel Go) (plabel G);
      let ng := psize G in
      do d <- term false hl d (no * ng)%Z o2g;
      do d <- term true hl d ((no - 1) * ng)%Z (o2g - n2)%Z;
      do d <- term false hl d (0 * ng)%Z 0%Z;
      term true hl d ((0 + 1) * ng)%Z (0 + n2)%Z
  else Ok d.
(** src/missing.c 2181-2266 and the same lines of the others: dHempty. *)
Definition gb_empty (nnod : nat) (tabf hl : list A) (P : gpart A) (G2G : list (list Z)) (slg : list nat) (tab : list (list A)) (n2g : list (option Z)) (ko : nat) (loc : option gb_loc)
    : res (A * list (list A)) :=
  do Go <- get P ko;
  do (no, n2o, oin, eff) <- (match loc with Some l => Ok l | None => Err UB_uninit end);
  let d := n0 in
  let d := if (no =? 1)%Z then nsub d linC else d in
  let d := nadd d linC in
  do (d, tab) <- foldM (gb_empty_group P hl G2G n2g Go no n2o oin) (d, tab) slg;
  do d <- gb_labels nnod tabf no 0%Z eff d;
  Ok (d, tab).

(** src/missing.c 2280-2286; src/multiblock.c 1596-1602, 2232-2238; src/only_deg.c 959-965: walk along the shortlist until the sum
    reaches the dice.  Reading past the end of the shortlist reads entries never written. *)
Fixpoint gb_walk (dHs : list (option A)) (dice cum : A) (last : option nat) (slg : list nat) : res nat :=
  if nltb cum dice then
    match slg with
    | [] => Err UB_uninit
    | w :: slg =>
        do x <- get dHs w;
        match x with
        | Some x => gb_walk dHs dice (nadd cum (nexp (nopp x))) (Some w) slg
        | None => Err UB_uninit
        end
    end
  else match last with Some w => Ok w | None => Err UB_oob end.

(** src/missing.c 2053-2307; src/multiblock.c 1354-1623, 1990-2259; src/only_deg.c 717-986: the move of one node.  The state is the
    sampler, the shortlist, dH and the variables. *)
Definition gb_move (nnod : nat) (nlist glist : list (option nat)) (tabf hl : list A) (s : mc A * list nat * list (option A) * option gb_loc) (move : nat)
    : res (mc A * list nat * list (option A) * option gb_loc) :=
  let '(st, slg, dHs, loc) := s in
  do node <- get nlist move;
  do node <- deref node;
  do n <- get (mnet st) node;
  do o <- (match ggroup n with Some o => Ok o | None => Err UB_oob end);
  do ko <- get glist o;
  do ko <- deref ko;
  do (norm, dHs, tab, n2g, loc) <- foldM (gb_dest nnod glist tabf hl (mnet st) (mpart st) (mG2G st) slg node o ko) (n0, dHs, mtab st, mn2g st, loc) slg;
  do (dHempty, tab) <- gb_empty nnod tabf hl (mpart st) (mG2G st) slg tab n2g ko loc;
  let rest := nmul (nexp (nopp dHempty)) (nofnat (nnod - length slg)) in
  let norm := nadd norm rest in
  do (u, ds) <- draw (mds st);
  let dice := nmul norm u in
  do (w, kw, dHs) <- (if nltb (nsub norm (nmul (nofnat (nnod - length slg)) (nexp (nopp dHempty)))) dice then
      do k <- deref (GetEmptyGroup (mpart st));
      do G <- get (mpart st) k;
      do dHs <- set dHs (plabel G) (Some dHempty);
      Ok (plabel G, k, dHs)
    else
      do w <- gb_walk dHs dice n0 None slg;
      do k <- get glist w;
      do k <- deref k;
      Ok (w, k, dHs));
  do (_, gp) <- MoveNode (mnet st, mpart st) node ko kw;
  do x <- get dHs w;
  do x <- (match x with Some x => Ok x | None => Err UB_uninit end);
  do G2G <- foldM (g2g_step n2g o w) (mG2G st) slg;
  do slg <- (if existsb (Nat.eqb w) slg then Ok slg else do _ <- check (length slg <? nnod) UB_oob; Ok (slg ++ [w]));
  Ok (mkMC (fst gp) (snd gp) (nadd (mH st) x) G2G n2g tab ds, slg, dHs, loc).

(** src/missing.c 2007-2312, GibbsLinkScoreStep; src/multiblock.c 1308-1629, GibbsLinkScoreStepMB; 1944-2265,
    ORGibbsLinkScoreStepMB; src/only_deg.c 671-992, GibbsLinkScoreStepMB_OD. *)
Definition GibbsLinkScoreStep (nnod : nat) (nlist glist : list (option nat)) (tabf hl : list A) (st : mc A) : res (mc A) :=
  let slg := map plabel (filter (fun G => (0 <? psize G)%Z) (mpart st)) in
  do _ <- check (length slg <=? nnod) UB_oob;
  do (st, _, _, _) <- foldM (gb_move nnod nlist glist tabf hl) (st, slg, repeat None nnod, None) (seq 0 nnod);
  Ok st.

(** src/missing.c 2320-2393, GibbsThermalizeLinkScore; src/multiblock.c 1637-1717, GibbsThermalizeLSMCMB; 2273-2353,
    ORGibbsThermalizeLSMCMB; src/only_deg.c 1000-1080, GibbsThermalizeLSMCMB_OD.  EPSILON is 1e-6. *)
Definition gb_therm_step (nnod : nat) (nlist glist : list (option nat)) (tabf hl : list A) (sh : mc A * list A) (_ : nat) : res (mc A * list A) :=
  do st <- GibbsLinkScoreStep nnod nlist glist tabf hl (fst sh);
  Ok (st, snd sh ++ [mH st]).
Fixpoint gb_therm_loop (fuel : nat) (nnod : nat) (nlist glist : list (option nat)) (tabf hl : list A) (m0 s0 : A) (eq : nat) (st : mc A) : res (mc A) :=
  match fuel with
  | 0 => Err Diverge
  | S f =>
      do (st, hs) <- foldM (gb_therm_step nnod nlist glist tabf hl) (st, []) (seq 0 20);
      do m1 <- mean hs 20;
      do s1 <- stddev hs 20;
      let q := nsqrt (nofnat 20) in
      if nltb (nsub (nsub m0 (ndiv s0 q)) (nadd m1 (ndiv s1 q))) (nofQ (1 # 1000000)) then
        if eq + 1 <? 5 then gb_therm_loop f nnod nlist glist tabf hl m0 s0 (eq + 1) st else Ok st
      else gb_therm_loop f nnod nlist glist tabf hl m1 s1 0 st
  end.
Definition GibbsThermalizeLinkScore (nnod : nat) (nlist glist : list (option nat)) (tabf hl : list A) (st : mc A) : res (mc A) :=
  gb_therm_loop (length (mds st) + 12) nnod nlist glist tabf hl (nofQ (10000000000 # 1)) (nofQ (1 # 10000000000)) 0 st.

(** src/missing.c 2440-2445; src/multiblock.c 1778-1783, 2414-2419; src/only_deg.c 1141-1146: a number is drawn and not used; every
    node goes to the group with its number. *)
Definition gb_place (glist : list (option nat)) (s : (net A * gpart A) * list A) (i : nat) : res ((net A * gpart A) * list A) :=
  let '(gp, ds) := s in
  do (_, ds) <- draw ds;
  do n <- get (fst gp) i;
  do k <- get glist (gnum n);
  do k <- deref k;
  do gp <- AddNodeToGroup gp k i;
  Ok (gp, ds).
(** src/missing.c 2458-2459 calls PartitionH; src/multiblock.c 1798 PartitionHMB and 2434 ORPartitionHMB; src/only_deg.c 1161 calls
    PartitionHMB of src/multiblock.c, not PartitionHMB_OD. *)
Definition gb_energy (hl : list A) (g : net A) (P : gpart A) : res A :=
  if deg then PartitionHMB ln lnchoose lnfact linC (match kd with OR => OR | _ => AND end) hl g P
  else PartitionH (fun n => ln (nofnat n)) lnchoose lnfact linC g P.
Definition gb_setup (g : net A) (hl : list A) (ds : list A) : res (list (option nat) * list (option nat) * mc A) :=
  let nnod := length g in
  do (nlist, glist, P) <- foldM map_node (repeat None nnod, repeat None nnod, []) (combine (seq 0 nnod) g);
  let g := ResetNetGroup g in
  do (gp, ds) <- foldM (gb_place glist) ((g, P), ds) (seq 0 nnod);
  let '(g, P) := gp in
  do G2G <- foldM (g2g_row g P glist nnod) (repeat (repeat 0%Z nnod) nnod) (seq 0 nnod);
  do H <- gb_energy hl g P;
  Ok (nlist, glist, mkMC g P H G2G (repeat None nnod) (InitializeFastLogChoose lcsize) ds).

(** src/missing.c 2504-2561; src/multiblock.c 1833-1918, 2469-2532; src/only_deg.c 1196-1268: one step and the scores after it. *)
Definition gb_sample (nnod : nat) (nlist glist : list (option nat)) (tabf hl : list A) (sm : mc A * list (list A)) (_ : nat) : res (mc A * list (list A)) :=
  do st <- GibbsLinkScoreStep nnod nlist glist tabf hl (fst sm);
  do m <- foldM (mb_score_group kd nnod glist hl st) (snd sm) (seq 0 nnod);
  Ok (st, m).
(** src/missing.c 2401-2585, GibbsLinkScore; src/multiblock.c 1725-1936, GibbsLinkScoreMB; 2361-2552, ORGibbsLinkScoreMB;
    src/only_deg.c 1088-1284, GibbsLinkScoreMB_OD, with a table of [hsize] harmonic numbers (not used by GibbsLinkScore). *)
Definition GibbsLinkScore_on (hsize : nat) (g : net A) (nIter : nat) (ds : list A) : res (list (list A) * mc A) :=
  let nnod := length g in
  let tabf := InitializeTable lnfact lfsize in
  do hl <- (if deg then InitializeHarmonicList hsize else Ok []);
  do (nlist, glist, st) <- gb_setup g hl ds;
  do st <- GibbsThermalizeLinkScore nnod nlist glist tabf hl st;
  do (st, m) <- foldM (gb_sample nnod nlist glist tabf hl) (st, repeat (repeat n0 nnod) nnod) (seq 0 nIter);
  let m := map (map (fun x => ndiv x (nofnat nIter))) m in
  Ok (match kd with OR => map (map (fun x => nsub (nofQ (1 # 1)) x)) m | _ => m end, st).
(** HarmonicList = InitializeHarmonicList(1 + nnod * (nnod - 1) / 2). *)
Definition GibbsLinkScore (g : net A) (nIter : nat) (ds : list A) : res (list (list A) * mc A) :=
  GibbsLinkScore_on (1 + Nat.div (length g * (length g - 1)) 2) g nIter ds.
End Gibbs.

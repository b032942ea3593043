(** MbModel.v -- model of src/multiblock.c, lines 30-1285, and src/only_deg.c, lines 30-655: the link reliability for networks
    that are the conjunction or the disjunction of two layers, and the same sampler with the degeneracy term alone.

    The three families of functions are the same code with three expressions in place of one: with [AND] the definitions are
    PartitionHMB, LSMCStepMB, GetDecorrelationStepMB, ThermalizeLSMCMB and LinkScoreMB (src/multiblock.c 48-672), with [OR]
    the functions ORPartitionHMB ... ORLinkScoreMB (src/multiblock.c 678-1285), with [OD] the functions PartitionHMB_OD ...
    LinkScoreMB_OD (src/only_deg.c 48-655).

    Partitions, groups, network and state are those of GroupModel.v and MissModel.v.  The logarithm [ln], gsl_sf_lnchoose
    (LogChoose, src/tools.c 357-362) and gsl_sf_lnfact are parameters, and so are MutualInformation and CalculateDecay, whose
    values only decide how many steps are made.  The sizes of the tables of logarithms (500 and 10000) are parameters.
    Integers do not overflow.  A negative integer used as an index or as an argument of a logarithm is reported as [UB_oob],
    and so is a reading of HarmonicList outside the array.  What is printed is left out, with the energies computed to be
    printed; release of memory is left out. *)
From Coq Require Import List Arith ZArith Bool QArith.
From Verif Require Import Base MatLib IoModel GraphModel GroupModel ModulesModel ToolsModel MissModel.
Import ListNotations.
Local Open Scope nat_scope.

Inductive kind := AND | OR | OD.

(** src/multiblock.c 30, LOGDEGENERACY. *)
Definition LOGDEGENERACY : list Q :=
  [
   0 # 10; 0 # 10; 109861228866811 # 100000000000000; 27080502011 # 10000000000; 47273878187 # 10000000000; 70501225203 # 10000000000;
   96241042829 # 10000000000; 124123914513 # 10000000000; 153873302965 # 10000000000; 185278179713 # 10000000000; 218171996489 # 10000000000; 252419286042 # 10000000000;
   287907695492 # 10000000000; 32454252335 # 1000000000; 362242817678 # 10000000000; 400938550791 # 10000000000; 440568528741 # 10000000000; 481078805122 # 10000000000;
   52242145427 # 1000000000; 564553607847 # 10000000000; 607436687672 # 10000000000; 651035787022 # 10000000000; 695319165992 # 10000000000; 740257835705 # 10000000000;
   785825212602 # 10000000000; 83199682859 # 1000000000; 878750086171 # 10000000000; 926064050134 # 10000000000; 973919269199 # 10000000000; 102229762241 # 1000000000;
   107118218613 # 1000000000; 112055711822 # 1000000000; 117040755682 # 1000000000; 12207195314 # 100000000; 127147988427 # 1000000000; 132267620118 # 1000000000;
   137429674949 # 1000000000; 142633042317 # 1000000000; 147876669353 # 1000000000; 1531595565 # 10000000; 158480753534 # 1000000000; 163839355975 # 1000000000;
   169234501835 # 1000000000; 174665368673 # 1000000000; 180131170913 # 1000000000; 185631157403 # 1000000000; 191164609186 # 1000000000; 196730837457 # 1000000000;
   202329181691 # 1000000000; 207959007927 # 1000000000; 213619707184 # 1000000000; 219310694002 # 1000000000; 2250314051 # 10000000; 230781298124 # 1000000000;
   236559850499 # 1000000000; 242366558357 # 1000000000; 248200935543 # 1000000000; 254062512691 # 1000000000; 259950836364 # 1000000000; 265865468252 # 1000000000;
   271805984418 # 1000000000; 277771974602 # 1000000000; 283763041565 # 1000000000; 28977880047 # 100000000; 295818878313 # 1000000000; 301882913378 # 1000000000;
   307970554727 # 1000000000; 314081461726 # 1000000000; 320215303595 # 1000000000; 326371758979 # 1000000000; 333838111 # 1000000; 340085763 # 1000000;
   346354094 # 1000000; 352642816 # 1000000; 358951649 # 1000000; 365280322 # 1000000; 371628571 # 1000000; 377996137 # 1000000;
   384382770 # 1000000; 390788225 # 1000000; 397212264 # 1000000; 403654655 # 1000000; 410115171 # 1000000; 416593591 # 1000000;
   423089700 # 1000000; 429603286 # 1000000; 436134145 # 1000000; 442682075 # 1000000; 449246880 # 1000000; 455828368 # 1000000;
   462426352 # 1000000; 469040649 # 1000000; 475671079 # 1000000; 482317466 # 1000000; 488979641 # 1000000; 495657433 # 1000000;
   502350680 # 1000000; 509059219 # 1000000; 515782894 # 1000000; 522521550 # 1000000; 529275035 # 1000000; 536043202 # 1000000;
   542825904 # 1000000; 549623000 # 1000000; 556434349 # 1000000; 563259815 # 1000000; 570099263 # 1000000; 576952561 # 1000000;
   583819580 # 1000000; 590700193 # 1000000; 597594275 # 1000000; 604501703 # 1000000; 611422358 # 1000000; 618356120 # 1000000;
   625302875 # 1000000; 632262509 # 1000000; 639234908 # 1000000; 646219964 # 1000000; 653217567 # 1000000; 660227613 # 1000000;
   667249995 # 1000000; 674284612 # 1000000; 681331362 # 1000000; 688390146 # 1000000; 695460865 # 1000000; 702543425 # 1000000;
   709637729 # 1000000; 716743685 # 1000000; 723861201 # 1000000; 730990186 # 1000000; 738130552 # 1000000; 745282212 # 1000000;
   752445078 # 1000000; 759619067 # 1000000; 766804094 # 1000000; 774000077 # 1000000; 781206935 # 1000000; 788424588 # 1000000;
   795652957 # 1000000; 802891964 # 1000000; 810141534 # 1000000; 817401590 # 1000000; 824672058 # 1000000; 831952865 # 1000000;
   839243938 # 1000000; 846545207 # 1000000; 853856601 # 1000000; 861178050 # 1000000; 868509486 # 1000000; 875850842 # 1000000 ]%Q.
(** src/only_deg.c 30, LOGDEGENERACY_OD. *)
Definition LOGDEGENERACY_OD : list Q :=
  [
   0 # 10; 0 # 10; 109861228866811 # 100000000000000; 27080502011 # 10000000000; 47273878187 # 10000000000; 70501225203 # 10000000000;
   96241042829 # 10000000000; 124123914513 # 10000000000; 153873302965 # 10000000000; 185278179713 # 10000000000; 218171996489 # 10000000000; 252419286042 # 10000000000;
   287907695492 # 10000000000; 32454252335 # 1000000000; 362242817678 # 10000000000; 400938550791 # 10000000000; 440568528741 # 10000000000; 481078805122 # 10000000000;
   52242145427 # 1000000000; 564553607847 # 10000000000; 607436687672 # 10000000000; 651035787022 # 10000000000; 695319165992 # 10000000000; 740257835705 # 10000000000;
   785825212602 # 10000000000; 83199682859 # 1000000000; 878750086171 # 10000000000; 926064050134 # 10000000000; 973919269199 # 10000000000; 102229762241 # 1000000000;
   107118218613 # 1000000000; 112055711822 # 1000000000; 117040755682 # 1000000000; 12207195314 # 100000000; 127147988427 # 1000000000; 132267620118 # 1000000000;
   137429674949 # 1000000000; 142633042317 # 1000000000; 147876669353 # 1000000000; 1531595565 # 10000000; 158480753534 # 1000000000; 163839355975 # 1000000000;
   169234501835 # 1000000000; 174665368673 # 1000000000; 180131170913 # 1000000000; 185631157403 # 1000000000; 191164609186 # 1000000000; 196730837457 # 1000000000;
   202329181691 # 1000000000; 207959007927 # 1000000000; 213619707184 # 1000000000; 219310694002 # 1000000000; 2250314051 # 10000000; 230781298124 # 1000000000;
   236559850499 # 1000000000; 242366558357 # 1000000000; 248200935543 # 1000000000; 254062512691 # 1000000000; 259950836364 # 1000000000; 265865468252 # 1000000000;
   271805984418 # 1000000000; 277771974602 # 1000000000; 283763041565 # 1000000000; 28977880047 # 100000000; 295818878313 # 1000000000; 301882913378 # 1000000000;
   307970554727 # 1000000000; 314081461726 # 1000000000; 320215303595 # 1000000000; 326371758979 # 1000000000; 333838111 # 1000000; 340085763 # 1000000;
   346354094 # 1000000; 352642816 # 1000000; 358951649 # 1000000; 365280322 # 1000000; 371628571 # 1000000; 377996137 # 1000000;
   384382770 # 1000000; 390788225 # 1000000; 397212264 # 1000000; 403654655 # 1000000; 410115171 # 1000000; 416593591 # 1000000;
   423089700 # 1000000; 429603286 # 1000000; 436134145 # 1000000; 442682075 # 1000000; 449246880 # 1000000; 455828368 # 1000000;
   462426352 # 1000000; 469040649 # 1000000; 475671079 # 1000000; 482317466 # 1000000; 488979641 # 1000000; 495657433 # 1000000;
   502350680 # 1000000; 509059219 # 1000000; 515782894 # 1000000; 522521550 # 1000000; 529275035 # 1000000; 536043202 # 1000000;
   542825904 # 1000000; 549623000 # 1000000; 556434349 # 1000000; 563259815 # 1000000; 570099263 # 1000000; 576952561 # 1000000;
   583819580 # 1000000; 590700193 # 1000000; 597594275 # 1000000; 604501703 # 1000000; 611422358 # 1000000; 618356120 # 1000000;
   625302875 # 1000000; 632262509 # 1000000; 639234908 # 1000000; 646219964 # 1000000; 653217567 # 1000000; 660227613 # 1000000;
   667249995 # 1000000; 674284612 # 1000000; 681331362 # 1000000; 688390146 # 1000000; 695460865 # 1000000; 702543425 # 1000000;
   709637729 # 1000000; 716743685 # 1000000; 723861201 # 1000000; 730990186 # 1000000; 738130552 # 1000000; 745282212 # 1000000;
   752445078 # 1000000; 759619067 # 1000000; 766804094 # 1000000; 774000077 # 1000000; 781206935 # 1000000; 788424588 # 1000000;
   795652957 # 1000000; 802891964 # 1000000; 810141534 # 1000000; 817401590 # 1000000; 824672058 # 1000000; 831952865 # 1000000;
   839243938 # 1000000; 846545207 # 1000000; 853856601 # 1000000; 861178050 # 1000000; 868509486 # 1000000; 875850842 # 1000000 ]%Q.

Section Mb.
Context {A : Type} {ops : NumOps A}.
Variable ln : A -> A.
Variable lnchoose : nat -> nat -> A.
Variable lnfact : nat -> A.
Variable mutual : gpart A -> gpart A -> A.
Variable decay_of : nat -> nat -> A -> nat -> A -> A.
Variables lcsize lfsize : nat.
Variable linC : A.
Variable kd : kind.

(** src/multiblock.c 31-40, LogDegeneracy; src/only_deg.c 31-40, LogDegeneracy_OD. *)
Definition LogDegeneracy (n : nat) : res A :=
  if n <? 150 then do x <- get (match kd with OD => LOGDEGENERACY_OD | _ => LOGDEGENERACY end) n; Ok (nofQ x)
  else Ok (nmul (nmul (nofQ (14681 # 10000)) (nofnat n)) (nsub (ln (nofnat n)) (nofQ (1 # 1)))).

(** log(HarmonicList[r + 1] - HarmonicList[l]) (AND), log(HarmonicList[r + 1] - HarmonicList[r - l]) (OR), or nothing. *)
Definition harm (hl : list A) (r l : nat) : res (option A) :=
  match kd with
  | AND => do a <- get hl (r + 1); do b <- get hl l; Ok (Some (ln (nsub a b)))
  | OR => do a <- get hl (r + 1); do i <- nat_of (Z.of_nat r - Z.of_nat l); do b <- get hl i; Ok (Some (ln (nsub a b)))
  | OD => Ok None
  end.

(** src/multiblock.c 48-85, 678-715 and src/only_deg.c 48-83, PartitionHMB: one term, one pair of groups, one group, all
    groups. *)
Definition mb_add (hl : list A) (H : A) (r l : nat) : res A :=
  let H := nadd H (nadd (ln (nofnat (r + 1))) (lnchoose r l)) in
  do h <- harm hl r l;
  Ok (match h with Some y => nsub H y | None => H end).
Definition mb_ph_pair (g : net A) (P : gpart A) (hl : list A) (k1 : nat) (G1 : grp A) (H : A) (k2 : nat) : res A :=
  do G2 <- get P k2;
  if (0 <? psize G2)%Z then
    do r <- nat_of (psize G1 * psize G2);
    do l <- NG2GLinks g P k1 k2;
    mb_add hl H r l
  else Ok H.
Definition mb_ph_group (g : net A) (P : gpart A) (hl : list A) (st : A * Z * Z) (k : nat) : res (A * Z * Z) :=
  let '(H, nnod, ng) := st in
  do G <- get P k;
  if (0 <? psize G)%Z then
    do r <- nat_of (Z.quot (psize G * (psize G - 1)) 2);
    do l <- nat_of (pin G);
    do H <- mb_add hl H r l;
    do H <- foldM (mb_ph_pair g P hl k G) H (seq (k + 1) (length P - (k + 1)));
    Ok (H, (nnod + psize G)%Z, (ng + 1)%Z)
  else Ok st.
Definition PartitionHMB (hl : list A) (g : net A) (P : gpart A) : res A :=
  do (H, nnod, ng) <- foldM (mb_ph_group g P hl) (nadd n0 (nmul linC (nofnat (NNonEmptyGroups P))), 0%Z, 0%Z) (seq 0 (length P));
  do d <- nat_of (nnod - ng);
  do n <- nat_of ng;
  do y <- LogDegeneracy n;
  Ok (nsub (nsub H (lnfact d)) y).

(** dH -= log(r + 1) + FastLogChoose(r, l, ...); dH -= -log(...); and the same with +=. *)
Definition mb_term (plus : bool) (hl : list A) (st : A * list (list A)) (r l : Z) : res (A * list (list A)) :=
  do r <- nat_of r;
  do l <- nat_of l;
  do (x, tab) <- FastLogChoose lnchoose r l (snd st) lcsize;
  let x := nadd (ln (nofnat (r + 1))) x in
  let d := if plus then nadd (fst st) x else nsub (fst st) x in
  do h <- harm hl r l;
  Ok (match h with Some y => if plus then nadd d (nopp y) else nsub d (nopp y) | None => d end, tab).

(** src/multiblock.c 146-227, 776-857 and src/only_deg.c 144-225: one group.  The state is (dH, LogChooseList), n2gList,
    effectng. *)
Definition mb_group (g : net A) (P : gpart A) (hl : list A) (G2G : list (list Z)) (node : nat) (Go Gw : grp A) (n2o n2w w2o : Z)
    (st : (A * list (list A)) * list (option Z) * nat) (k : nat) : res ((A * list (list A)) * list (option Z) * nat) :=
  let '(d, n2g, eff) := st in
  do G <- get P k;
  let no := psize Go in
  let nw := psize Gw in
  if (0 <? psize G)%Z then
    do x <- NLinksToGroup g node (plabel G);
    do n2g <- set n2g (plabel G) (Some (Z.of_nat x));
    if plabel G =? plabel Go then
      do d <- mb_term false hl d (Z.quot (no * (no - 1)) 2) (pin Go);
      do d <- mb_term true hl d (Z.quot ((no - 1) * (no - 2)) 2) (pin Go - n2o);
      do d <- mb_term false hl d (nw * no) w2o;
      do d <- mb_term true hl d ((nw + 1) * (no - 1)) (w2o + n2o - n2w);
      Ok (d, n2g, eff + 1)
    else if plabel G =? plabel Gw then
      do d <- mb_term false hl d (Z.quot (nw * (nw - 1)) 2) (pin Gw);
      do d <- mb_term true hl d (Z.quot ((nw + 1) * nw) 2) (pin Gw + n2w);
      Ok (d, n2g, eff + 1)
    else
      do y <- get n2g (plabel G);
      do n2 <- written y;
      do o2g <- get2 G2G (plabel Go) (plabel G);
      do w2g <- get2 G2G (plabel Gw) (plabel G);
      let ng := psize G in
      do d <- mb_term false hl d (no * ng) o2g;
      do d <- mb_term true hl d ((no - 1) * ng) (o2g - n2);
      do d <- mb_term false hl d (nw * ng) w2g;
      do d <- mb_term true hl d ((nw + 1) * ng) (w2g + n2);
      Ok (d, n2g, eff + 1)
  else
    do n2g <- set n2g (plabel G) (Some 0%Z);
    Ok (d, n2g, eff).

(** src/multiblock.c 229-238, 859-868 and src/only_deg.c 227-236, the correction for labelled groups. *)
Definition mb_labels (nnod : nat) (tabf : list A) (no nw : Z) (eff : nat) (dH : A) : res A :=
  let to (e2 : Z) :=
    do a <- nat_of (Z.of_nat nnod - Z.of_nat eff);
    do x <- FastTable lnfact a tabf lfsize;
    do b <- nat_of (Z.of_nat nnod - e2);
    do y <- FastTable lnfact b tabf lfsize;
    do u <- LogDegeneracy eff;
    do e <- nat_of e2;
    do v <- LogDegeneracy e;
    Ok (nadd (nadd (nsub dH (nopp x)) (nopp y)) (nsub u v)) in
  if (no =? 1)%Z && negb (nw =? 0)%Z then to (Z.of_nat eff - 1)%Z
  else if negb (no =? 1)%Z && (nw =? 0)%Z then to (Z.of_nat eff + 1)%Z
  else Ok dH.

(** src/multiblock.c 129-238, 759-868 and src/only_deg.c 127-236: the change of energy of moving [node] from the group at
    [ko] to the group at [kw], with the tables it leaves. *)
Definition mb_change (nnod : nat) (tabf hl : list A) (st : mc A) (node : nat) (ko kw : nat) : res (A * list (list A) * list (option Z)) :=
  let g := mnet st in
  let P := mpart st in
  do Go <- get P ko;
  do Gw <- get P kw;
  let no := psize Go in
  let nw := psize Gw in
  let dH := n0 in
  let dH := if (no =? 1)%Z then nsub dH linC else dH in
  let dH := if (nw =? 0)%Z then nadd dH linC else dH in
  do n2o <- NLinksToGroup g node (plabel Go);
  do n2w <- NLinksToGroup g node (plabel Gw);
  do w2o <- NG2GLinks g P kw ko;
  do (dt, n2g, eff) <- foldM (mb_group g P hl (mG2G st) node Go Gw (Z.of_nat n2o) (Z.of_nat n2w) (Z.of_nat w2o)) ((dH, mtab st), mn2g st, 0) (seq 0 (length P));
  do dH <- mb_labels nnod tabf no nw eff (fst dt);
  Ok (dH, snd dt, n2g).

(** src/multiblock.c 117-253, 747-883 and src/only_deg.c 115-251: one attempt. *)
Definition mb_move (nnod : nat) (nlist glist : list (option nat)) (tabf hl : list A) (st : mc A) (_ : nat) : res (mc A) :=
  do (u, ds) <- draw (mds st);
  do node <- get nlist (nfloor (nmul u (nofnat nnod)));
  do node <- deref node;
  do n <- get (mnet st) node;
  do o <- (match ggroup n with Some o => Ok o | None => Err UB_oob end);
  do (w, ds) <- redraw nnod o ds;
  do ko <- get glist o;
  do kw <- get glist w;
  do ko <- deref ko;
  do kw <- deref kw;
  do (dH, tab, n2g) <- mb_change nnod tabf hl st node ko kw;
  do (acc, ds) <- accepts dH ds;
  if acc : bool then
    do (_, gp) <- MoveNode (mnet st, mpart st) node ko kw;
    do G2G <- foldM (g2g_step n2g o w) (mG2G st) (seq 0 nnod);
    Ok (mkMC (fst gp) (snd gp) (nadd (mH st) dH) G2G n2g tab ds)
  else Ok (mkMC (mnet st) (mpart st) (mH st) (mG2G st) n2g tab ds).

(** src/multiblock.c 93-254, LSMCStepMB; 723-884, ORLSMCStepMB; src/only_deg.c 91-252, LSMCStepMB_OD. *)
Definition LSMCStepMB (nnod : nat) (nlist glist : list (option nat)) (tabf hl : list A) (factor : nat) (st : mc A) : res (mc A) :=
  foldM (mb_move nnod nlist glist tabf hl) st (seq 0 (nnod * factor)).

(** src/multiblock.c 262-357, GetDecorrelationStepMB; 892-987, ORGetDecorrelationStepMB; src/only_deg.c 260-355,
    GetDecorrelationStepMB_OD: as in src/missing.c 330-423. *)
Definition mb_decor_step (nnod : nat) (nlist glist : list (option nat)) (tabf hl : list A) (ref : gpart A) (x1 : nat) (sy : mc A * A) (step : nat) : res (mc A * A) :=
  do st <- LSMCStepMB nnod nlist glist tabf hl 1 (fst sy);
  Ok (st, if step =? x1 then mutual ref (mpart st) else snd sy).
Definition mb_decor_one (nnod : nat) (nlist glist : list (option nat)) (tabf hl : list A) (st : mc A) : res (A * mc A) :=
  let x2 := Nat.div nnod 5 in
  let x1 := Nat.div x2 4 in
  do (g, ref) <- CopyPartition (mnet st) (mpart st);
  do (st, y1) <- foldM (mb_decor_step nnod nlist glist tabf hl ref x1) (mkMC g (mpart st) (mH st) (mG2G st) (mn2g st) (mtab st) (mds st), n0) (seq 0 (x2 + 1));
  let y2 := mutual ref (mpart st) in
  Ok (nmul (nofQ (2 # 1)) (decay_of nnod x1 y1 x2 y2), st).
Fixpoint mb_decor_reps (fuel : nat) (nnod : nat) (nlist glist : list (option nat)) (tabf hl : list A) (left : nat) (decays : list A) (st : mc A) : res (list A * mc A) :=
  match left with
  | 0 => Ok (decays, st)
  | S left' =>
      match fuel with
      | 0 => Err Diverge
      | S f =>
          do (d, st) <- mb_decor_one nnod nlist glist tabf hl st;
          if nltb d n0 then mb_decor_reps f nnod nlist glist tabf hl left decays st
          else mb_decor_reps f nnod nlist glist tabf hl left' (decays ++ [d]) st
      end
  end.
Definition GetDecorrelationStepMB (nnod : nat) (nlist glist : list (option nat)) (tabf hl : list A) (st : mc A) : res (nat * mc A) :=
  do (decays, st) <- mb_decor_reps (length (mds st) + 11) nnod nlist glist tabf hl 10 [] st;
  do m <- mean decays 10;
  do s <- stddev decays 10;
  let '(result, norm) := fold_left (fun '(result, norm) d =>
      if nltb (nofQ (2 # 1)) (ndiv (nabs (nsub d m)) s) then (nsub result d, norm) else (result, norm + 1)) decays (nmul m (nofnat 10), 0) in
  Ok (nfloor (ndiv result (nofnat norm)), st).

(** src/multiblock.c 364-441, ThermalizeLSMCMB; 994-1071, ORThermalizeLSMCMB; src/only_deg.c 362-439, ThermalizeLSMCMB_OD. *)
Definition mb_therm_step (nnod : nat) (nlist glist : list (option nat)) (tabf hl : list A) (decor : nat) (sh : mc A * list A) (_ : nat) : res (mc A * list A) :=
  do st <- LSMCStepMB nnod nlist glist tabf hl decor (fst sh);
  Ok (st, snd sh ++ [mH st]).
Fixpoint mb_therm_loop (fuel : nat) (nnod : nat) (nlist glist : list (option nat)) (tabf hl : list A) (decor : nat) (m0 s0 : A) (eq : nat) (st : mc A) : res (mc A) :=
  match fuel with
  | 0 => Err Diverge
  | S f =>
      do (st, hs) <- foldM (mb_therm_step nnod nlist glist tabf hl decor) (st, []) (seq 0 20);
      do m1 <- mean hs 20;
      do s1 <- stddev hs 20;
      let q := nsqrt (nofnat 20) in
      if nltb (nsub (nsub m0 (ndiv s0 q)) (nadd m1 (ndiv s1 q))) (nofQ (1 # 1000000)) then
        if eq + 1 <? 5 then mb_therm_loop f nnod nlist glist tabf hl decor m0 s0 (eq + 1) st else Ok st
      else mb_therm_loop f nnod nlist glist tabf hl decor m1 s1 0 st
  end.
Definition ThermalizeLSMCMB (nnod : nat) (nlist glist : list (option nat)) (tabf hl : list A) (decor : nat) (st : mc A) : res (mc A) :=
  mb_therm_loop (length (mds st) + 12) nnod nlist glist tabf hl decor (nofQ (10000000000 # 1)) (nofQ (1 # 10000000000)) 0 st.

(** src/multiblock.c 619-622, 637-640 (AND), 1230-1233, 1248-1251 (OR), src/only_deg.c 602, 621 (OD): what a pair of nodes
    gets from one partition. *)
Definition mb_ratio (hl : list A) (a r : nat) : res A :=
  do x <- get hl (r + 2);
  do y <- get hl (a + 1);
  do z <- get hl (r + 1);
  do t <- get hl a;
  Ok (ndiv (nmul (nofnat (a + 1)) (nsub x y)) (nmul (nofnat (r + 2)) (nsub z t))).
Definition mb_contrib (hl : list A) (l r : Z) : res A :=
  do l <- nat_of l;
  do r <- nat_of r;
  match kd with
  | AND => mb_ratio hl l r
  | OR => do a <- nat_of (Z.of_nat r - Z.of_nat l); mb_ratio hl a r
  | OD => Ok (ndiv (nofnat (l + 1)) (nofnat (r + 2)))
  end.
(** src/multiblock.c 612-654, 1223-1265 and src/only_deg.c 594-636: the pairs inside a group and between two groups. *)
Definition mb_score_other (nnod : nat) (glist : list (option nat)) (hl : list A) (st : mc A) (i : nat) (G1 : grp A) (m : list (list A)) (j : nat) : res (list (list A)) :=
  do G2 <- group_at glist (mpart st) j;
  if (0 <? psize G2)%Z then
    do l <- get2 (mG2G st) i j;
    do c <- mb_contrib hl l (psize G1 * psize G2);
    score_between c m (pnodes G1) (pnodes G2)
  else Ok m.
Definition mb_score_group (nnod : nat) (glist : list (option nat)) (hl : list A) (st : mc A) (m : list (list A)) (i : nat) : res (list (list A)) :=
  do G <- group_at glist (mpart st) i;
  if (0 <? psize G)%Z then
    do c <- mb_contrib hl (pin G) (Z.quot (psize G * (psize G - 1)) 2);
    do m <- score_in c m (pnodes G);
    foldM (mb_score_other nnod glist hl st i G) m (seq (i + 1) (nnod - (i + 1)))
  else Ok m.
Definition mb_sample (nnod : nat) (nlist glist : list (option nat)) (tabf hl : list A) (decor : nat) (sm : mc A * list (list A)) (_ : nat) : res (mc A * list (list A)) :=
  do st <- LSMCStepMB nnod nlist glist tabf hl decor (fst sm);
  do m <- foldM (mb_score_group nnod glist hl st) (snd sm) (seq 0 nnod);
  Ok (st, m).

(** src/multiblock.c 483-526, 1113-1156 and src/only_deg.c 482-525, the set-up. *)
Definition mb_setup (g : net A) (hl : list A) (ds : list A) : res (list (option nat) * list (option nat) * mc A) :=
  let nnod := length g in
  do (nlist, glist, P) <- foldM map_node (repeat None nnod, repeat None nnod, []) (combine (seq 0 nnod) g);
  let g := ResetNetGroup g in
  do (gp, ds) <- foldM (place_node nnod glist) ((g, P), ds) (seq 0 nnod);
  let '(g, P) := gp in
  do G2G <- foldM (g2g_row g P glist nnod) (repeat (repeat 0%Z nnod) nnod) (seq 0 nnod);
  do H <- PartitionHMB hl g P;
  Ok (nlist, glist, mkMC g P H G2G (repeat None nnod) (InitializeFastLogChoose lcsize) ds).

(** src/multiblock.c 449-672, LinkScoreMB; 1079-1285, ORLinkScoreMB; src/only_deg.c 448-655, LinkScoreMB_OD, with a table of
    [hsize] harmonic numbers.  [debug]: verbose_sw is 'd', and the origin of energies is not reset. *)
Definition LinkScoreMB_on (hsize : nat) (debug : bool) (g : net A) (nIter : nat) (ds : list A) : res (list (list A) * mc A) :=
  let nnod := length g in
  let tabf := InitializeTable lnfact lfsize in
  do hl <- InitializeHarmonicList hsize;
  do (nlist, glist, st) <- mb_setup g hl ds;
  do (decor, st) <- GetDecorrelationStepMB nnod nlist glist tabf hl st;
  do st <- ThermalizeLSMCMB nnod nlist glist tabf hl decor st;
  let st := if debug then st else mkMC (mnet st) (mpart st) n0 (mG2G st) (mn2g st) (mtab st) (mds st) in
  do (st, m) <- foldM (mb_sample nnod nlist glist tabf hl decor) (st, repeat (repeat n0 nnod) nnod) (seq 0 nIter);
  let m := map (map (fun x => ndiv x (nofnat nIter))) m in
  Ok (match kd with OR => map (map (fun x => nsub (nofQ (1 # 1)) x)) m | _ => m end, st).
(** src/multiblock.c 484, 1114 and src/only_deg.c 483: HarmonicList = InitializeHarmonicList(1 + nnod * (nnod - 1) / 2). *)
Definition LinkScoreMB (debug : bool) (g : net A) (nIter : nat) (ds : list A) : res (list (list A) * mc A) :=
  LinkScoreMB_on (1 + Nat.div (length g * (length g - 1)) 2) debug g nIter ds.
End Mb.

(** MissModel.v -- model of src/missing.c, lines 110-710: the energy of a partition, the Monte Carlo step that samples
    partitions, and the scores of the links.

    Partitions, groups and the network are those of GroupModel.v.  log, gsl_sf_lnchoose and gsl_sf_lnfact are parameters
    (applied to natural numbers, as in the code), and so are MutualInformation and CalculateDecay (a GSL root finder), whose
    values only decide how many steps are made.  The sizes of the two tables of logarithms (500 and 10000 in LinkScore) are
    parameters.  Integers do not overflow.  A negative integer used as an index or as an argument of a logarithm is reported
    as [UB_oob].  What is printed is left out; release of memory is left out. *)
From Coq Require Import List Arith ZArith Bool QArith.
From Verif Require Import Base MatLib IoModel GraphModel GroupModel ModulesModel ToolsModel.
Import ListNotations.
Local Open Scope nat_scope.

Definition nat_of (z : Z) : res nat := if (z <? 0)%Z then Err UB_oob else Ok (Z.to_nat z).
Definition written (o : option Z) : res Z := match o with Some z => Ok z | None => Err UB_uninit end.

Section Miss.
Context {A : Type} {ops : NumOps A}.
Variable logf : nat -> A.
Variable lnchoose : nat -> nat -> A.
Variable lnfact : nat -> A.
Variable mutual : gpart A -> gpart A -> A.
Variable decay_of : nat -> nat -> A -> nat -> A -> A.
Variables lcsize lfsize : nat.
Variable linC : A.

(** src/missing.c 110-140, PartitionH: one pair of groups, one group, all groups. *)
Definition ph_pair (g : net A) (P : gpart A) (k1 : nat) (G1 : grp A) (H : A) (k2 : nat) : res A :=
  do G2 <- get P k2;
  if (0 <? psize G2)%Z then
    do r <- nat_of (psize G1 * psize G2);
    do l <- NG2GLinks g P k1 k2;
    Ok (nadd H (nadd (logf (r + 1)) (lnchoose r l)))
  else Ok H.
Definition ph_group (g : net A) (P : gpart A) (st : A * Z * Z) (k : nat) : res (A * Z * Z) :=
  let '(H, nnod, ng) := st in
  do G <- get P k;
  if (0 <? psize G)%Z then
    do r <- nat_of (Z.quot (psize G * (psize G - 1)) 2);
    do l <- nat_of (pin G);
    let H := nadd H (nadd (logf (r + 1)) (lnchoose r l)) in
    do H <- foldM (ph_pair g P k G) H (seq (k + 1) (length P - (k + 1)));
    Ok (H, (nnod + psize G)%Z, (ng + 1)%Z)
  else Ok st.
Definition PartitionH (g : net A) (P : gpart A) : res A :=
  do (H, nnod, ng) <- foldM (ph_group g P) (nadd n0 (nmul linC (nofnat (NNonEmptyGroups P))), 0%Z, 0%Z) (seq 0 (length P));
  do d <- nat_of (nnod - ng);
  Ok (nsub H (lnfact d)).

(** The variables shared by the steps: network and partition, *H, G2G, n2gList (None for an entry never written: it comes
    from malloc, src/tools.c 75-87), LogChooseList, and the random numbers to come. *)
Record mc := mkMC { mnet : net A; mpart : gpart A; mH : A; mG2G : list (list Z); mn2g : list (option Z); mtab : list (list A); mds : list A }.

(** log(r + 1) + FastLogChoose(r, l, ...), added to or subtracted from dH. *)
Definition lterm (tab : list (list A)) (r l : Z) : res (A * list (list A)) :=
  do r <- nat_of r;
  do l <- nat_of l;
  do (x, tab) <- FastLogChoose lnchoose r l tab lcsize;
  Ok (nadd (logf (r + 1)) x, tab).
Definition minus_t (st : A * list (list A)) (r l : Z) : res (A * list (list A)) :=
  do (x, tab) <- lterm (snd st) r l; Ok (nsub (fst st) x, tab).
Definition plus_t (st : A * list (list A)) (r l : Z) : res (A * list (list A)) :=
  do (x, tab) <- lterm (snd st) r l; Ok (nadd (fst st) x, tab).

(** src/missing.c 216-288: one group of the shortlist.  The state is (dH, LogChooseList), n2gList, effectng. *)
Definition mc_group (g : net A) (P : gpart A) (glist : list (option nat)) (G2G : list (list Z)) (node : nat) (Go Gw : grp A) (n2o n2w w2o : Z)
    (st : (A * list (list A)) * list (option Z) * nat) (lab : nat) : res ((A * list (list A)) * list (option Z) * nat) :=
  let '(d, n2g, eff) := st in
  do k <- get glist lab;
  do k <- deref k;
  do G <- get P k;
  let no := psize Go in
  let nw := psize Gw in
  if (0 <? psize G)%Z then
    do x <- NLinksToGroup g node (plabel G);
    do n2g <- set n2g (plabel G) (Some (Z.of_nat x));
    if plabel G =? plabel Go then
      do d <- minus_t d (Z.quot (no * (no - 1)) 2) (pin Go);
      do d <- plus_t d (Z.quot ((no - 1) * (no - 2)) 2) (pin Go - n2o);
      do d <- minus_t d (nw * no) w2o;
      do d <- plus_t d ((nw + 1) * (no - 1)) (w2o + n2o - n2w);
      Ok (d, n2g, eff + 1)
    else if plabel G =? plabel Gw then
      do d <- minus_t d (Z.quot (nw * (nw - 1)) 2) (pin Gw);
      do d <- plus_t d (Z.quot ((nw + 1) * nw) 2) (pin Gw + n2w);
      Ok (d, n2g, eff + 1)
    else
      do y <- get n2g (plabel G);
      do n2 <- written y;
      do o2g <- get2 G2G (plabel Go) (plabel G);
      do w2g <- get2 G2G (plabel Gw) (plabel G);
      let ng := psize G in
      do d <- minus_t d (no * ng) o2g;
      do d <- plus_t d ((no - 1) * ng) (o2g - n2);
      do d <- minus_t d (nw * ng) w2g;
      do d <- plus_t d ((nw + 1) * ng) (w2g + n2);
      Ok (d, n2g, eff + 1)
  else
    do n2g <- set n2g (plabel G) (Some 0%Z);
    Ok (d, n2g, eff).

(** src/missing.c 290-298, the correction for labelled groups. *)
Definition mc_labels (nnod : nat) (tabf : list A) (no nw : Z) (eff : nat) (dH : A) : res A :=
  if (no =? 1)%Z && negb (nw =? 0)%Z then
    do a <- nat_of (Z.of_nat nnod - Z.of_nat eff);
    do x <- FastTable lnfact a tabf lfsize;
    do b <- nat_of (Z.of_nat nnod - (Z.of_nat eff - 1));
    do y <- FastTable lnfact b tabf lfsize;
    Ok (nadd (nsub dH (nopp x)) (nopp y))
  else if negb (no =? 1)%Z && (nw =? 0)%Z then
    do a <- nat_of (Z.of_nat nnod - Z.of_nat eff);
    do x <- FastTable lnfact a tabf lfsize;
    do b <- nat_of (Z.of_nat nnod - (Z.of_nat eff + 1));
    do y <- FastTable lnfact b tabf lfsize;
    Ok (nadd (nsub dH (nopp x)) (nopp y))
  else Ok dH.

(** src/missing.c 188-298: the change of energy of moving [node] from the group at [ko] to the group at [kw], with the
    tables it leaves. *)
Definition mc_change (nnod : nat) (glist : list (option nat)) (tabf : list A) (st : mc) (slg : list nat) (node : nat) (ko kw : nat) : res (A * list (list A) * list (option Z)) :=
  let g := mnet st in
  let P := mpart st in
  do Go <- get P ko;
  do Gw <- get P kw;
  let no := psize Go in
  let nw := psize Gw in
  let dH := n0 in
  let dH := if (no =? 1)%Z then nsub dH linC else dH in
  let dH := if (nw =? 0)%Z then nadd dH linC else dH in
  do n2o <- NLinksToGroup g node (plabel Go);
  do n2w <- NLinksToGroup g node (plabel Gw);
  do w2o <- NG2GLinks g P kw ko;
  do (dt, n2g, eff) <- foldM (mc_group g P glist (mG2G st) node Go Gw (Z.of_nat n2o) (Z.of_nat n2w) (Z.of_nat w2o)) ((dH, mtab st), mn2g st, 0) slg;
  do dH <- mc_labels nnod tabf no nw eff (fst dt);
  Ok (dH, snd dt, n2g).

(** src/missing.c 307-313, the update of G2G. *)
Definition g2g_step (n2g : list (option Z)) (o w : nat) (G2G : list (list Z)) (i : nat) : res (list (list Z)) :=
  do n <- get n2g i;
  do n <- written n;
  do x <- get2 G2G i o;
  do G2G <- set2 G2G i o (x - n)%Z;
  do x <- get2 G2G i o;
  do G2G <- set2 G2G o i x;
  do x <- get2 G2G i w;
  do G2G <- set2 G2G i w (x + n)%Z;
  do x <- get2 G2G i w;
  set2 G2G w i x.

(** src/missing.c 183-185: redraw until the number differs from [o]. *)
Fixpoint redraw (n o : nat) (ds : list A) : res (nat * list A) :=
  match ds with
  | [] => Err RngOut
  | u :: ds => let x := nfloor (nmul u (nofnat n)) in if x =? o then redraw n o ds else Ok (x, ds)
  end.

(** src/missing.c 301-302, the Metropolis rule. *)
Definition accepts (dH : A) (ds : list A) : res (bool * list A) :=
  if nleb dH n0 then Ok (true, ds) else do (u, ds) <- draw ds; Ok (nltb u (nexp (nopp dH)), ds).

(** src/missing.c 177-320: one attempt. *)
Definition mc_move (nnod : nat) (nlist glist : list (option nat)) (tabf : list A) (sts : mc * list nat) (_ : nat) : res (mc * list nat) :=
  let '(st, slg) := sts in
  do (u, ds) <- draw (mds st);
  do node <- get nlist (nfloor (nmul u (nofnat nnod)));
  do node <- deref node;
  do n <- get (mnet st) node;
  do o <- (match ggroup n with Some o => Ok o | None => Err UB_oob end);
  do (w, ds) <- redraw nnod o ds;
  do ko <- get glist o;
  do kw <- get glist w;
  do ko <- deref ko;
  do kw <- deref kw;
  do (dH, tab, n2g) <- mc_change nnod glist tabf st slg node ko kw;
  do (acc, ds) <- accepts dH ds;
  if acc : bool then
    do (_, gp) <- MoveNode (mnet st, mpart st) node ko kw;
    do G2G <- foldM (g2g_step n2g o w) (mG2G st) (seq 0 nnod);
    do slg <- (if existsb (Nat.eqb w) slg then Ok slg else do _ <- check (length slg <? nnod) UB_oob; Ok (slg ++ [w]));
    Ok (mkMC (fst gp) (snd gp) (nadd (mH st) dH) G2G n2g tab ds, slg)
  else Ok (mkMC (mnet st) (mpart st) (mH st) (mG2G st) n2g tab ds, slg).

(** src/missing.c 148-322, LinkScoreMCStep. *)
Definition LinkScoreMCStep (nnod : nat) (nlist glist : list (option nat)) (tabf : list A) (factor : nat) (st : mc) : res mc :=
  let slg := map plabel (filter (fun G => (0 <? psize G)%Z) (mpart st)) in
  do _ <- check (length slg <=? nnod) UB_oob;
  do (st, _) <- foldM (mc_move nnod nlist glist tabf) (st, slg) (seq 0 (nnod * factor));
  Ok st.

(** src/missing.c 330-423, GetDecorrelationStep: one estimate; estimates until ten are not negative; their mean without
    those further than two deviations.  [x1 <= x2], so y1 is always set.  The number returned is truncated to an integer. *)
Definition decor_step (nnod : nat) (nlist glist : list (option nat)) (tabf : list A) (ref : gpart A) (x1 : nat) (sy : mc * A) (step : nat) : res (mc * A) :=
  do st <- LinkScoreMCStep nnod nlist glist tabf 1 (fst sy);
  Ok (st, if step =? x1 then mutual ref (mpart st) else snd sy).
Definition decor_one (nnod : nat) (nlist glist : list (option nat)) (tabf : list A) (st : mc) : res (A * mc) :=
  let x2 := Nat.div nnod 5 in
  let x1 := Nat.div x2 4 in
  do (g, ref) <- CopyPartition (mnet st) (mpart st);
  do (st, y1) <- foldM (decor_step nnod nlist glist tabf ref x1) (mkMC g (mpart st) (mH st) (mG2G st) (mn2g st) (mtab st) (mds st), n0) (seq 0 (x2 + 1));
  let y2 := mutual ref (mpart st) in
  Ok (nmul (nofQ (2 # 1)) (decay_of nnod x1 y1 x2 y2), st).
Fixpoint decor_reps (fuel : nat) (nnod : nat) (nlist glist : list (option nat)) (tabf : list A) (left : nat) (decays : list A) (st : mc) : res (list A * mc) :=
  match left with
  | 0 => Ok (decays, st)
  | S left' =>
      match fuel with
      | 0 => Err Diverge
      | S f =>
          do (d, st) <- decor_one nnod nlist glist tabf st;
          if nltb d n0 then decor_reps f nnod nlist glist tabf left decays st
          else decor_reps f nnod nlist glist tabf left' (decays ++ [d]) st
      end
  end.
Definition GetDecorrelationStep (nnod : nat) (nlist glist : list (option nat)) (tabf : list A) (st : mc) : res (nat * mc) :=
  do (decays, st) <- decor_reps (length (mds st) + 11) nnod nlist glist tabf 10 [] st;
  do m <- mean decays 10;
  do s <- stddev decays 10;
  let '(result, norm) := fold_left (fun '(result, norm) d =>
      if nltb (nofQ (2 # 1)) (ndiv (nabs (nsub d m)) s) then (nsub result d, norm) else (result, norm + 1)) decays (nmul m (nofnat 10), 0) in
  Ok (nfloor (ndiv result (nofnat norm)), st).

(** src/missing.c 430-505, ThermalizeLinkScoreMC: twenty steps; repeat until five times in a row the energy has not
    decreased. *)
Definition therm_step (nnod : nat) (nlist glist : list (option nat)) (tabf : list A) (decor : nat) (sh : mc * list A) (_ : nat) : res (mc * list A) :=
  do st <- LinkScoreMCStep nnod nlist glist tabf decor (fst sh);
  Ok (st, snd sh ++ [mH st]).
Fixpoint therm_loop (fuel : nat) (nnod : nat) (nlist glist : list (option nat)) (tabf : list A) (decor : nat) (m0 s0 : A) (eq : nat) (st : mc) : res mc :=
  match fuel with
  | 0 => Err Diverge
  | S f =>
      do (st, hs) <- foldM (therm_step nnod nlist glist tabf decor) (st, []) (seq 0 20);
      do m1 <- mean hs 20;
      do s1 <- stddev hs 20;
      let q := nsqrt (nofnat 20) in
      if nltb (nsub (nsub m0 (ndiv s0 q)) (nadd m1 (ndiv s1 q))) (nofQ (1 # 1000000)) then
        if eq + 1 <? 5 then therm_loop f nnod nlist glist tabf decor m0 s0 (eq + 1) st else Ok st
      else therm_loop f nnod nlist glist tabf decor m1 s1 0 st
  end.
Definition ThermalizeLinkScoreMC (nnod : nat) (nlist glist : list (option nat)) (tabf : list A) (decor : nat) (st : mc) : res mc :=
  therm_loop (length (mds st) + 12) nnod nlist glist tabf decor (nofQ (10000000000 # 1)) (nofQ (1 # 10000000000)) 0 st.

(** src/missing.c 644-690: predA[a][b] += contrib; predA[b][a] += contrib, for the pairs inside a group and the pairs
    between two groups.  The conversions to float are left out. *)
Definition add_score (c : A) (m : list (list A)) (a b : nat) : res (list (list A)) :=
  do x <- get2 m a b;
  do m <- set2 m a b (nadd x c);
  do x <- get2 m b a;
  set2 m b a (nadd x c).
Fixpoint score_in (c : A) (m : list (list A)) (cells : list (link A)) : res (list (list A)) :=
  match cells with
  | [] => Ok m
  | p1 :: rest => do m <- foldM (fun m p2 => add_score c m (lnode p1) (lnode p2)) m rest; score_in c m rest
  end.
Definition score_between (c : A) (m : list (list A)) (cells1 cells2 : list (link A)) : res (list (list A)) :=
  foldM (fun m p1 => foldM (fun m p2 => add_score c m (lnode p1) (lnode p2)) m cells2) m cells1.
Definition contrib (l r : Z) : res A := do l <- nat_of (l + 1); do r <- nat_of (r + 2); Ok (ndiv (nofnat l) (nofnat r)).
Definition group_at (glist : list (option nat)) (P : gpart A) (i : nat) : res (grp A) := do k <- get glist i; do k <- deref k; get P k.
Definition score_other (nnod : nat) (glist : list (option nat)) (st : mc) (i : nat) (G1 : grp A) (m : list (list A)) (j : nat) : res (list (list A)) :=
  do G2 <- group_at glist (mpart st) j;
  if (0 <? psize G2)%Z then
    do l <- get2 (mG2G st) i j;
    do c <- contrib l (psize G1 * psize G2);
    score_between c m (pnodes G1) (pnodes G2)
  else Ok m.
Definition score_group (nnod : nat) (glist : list (option nat)) (st : mc) (m : list (list A)) (i : nat) : res (list (list A)) :=
  do G <- group_at glist (mpart st) i;
  if (0 <? psize G)%Z then
    do c <- contrib (pin G) (Z.quot (psize G * (psize G - 1)) 2);
    do m <- score_in c m (pnodes G);
    foldM (score_other nnod glist st i G) m (seq (i + 1) (nnod - (i + 1)))
  else Ok m.
Definition score_sample (nnod : nat) (nlist glist : list (option nat)) (tabf : list A) (decor : nat) (sm : mc * list (list A)) (_ : nat) : res (mc * list (list A)) :=
  do st <- LinkScoreMCStep nnod nlist glist tabf decor (fst sm);
  do m <- foldM (score_group nnod glist st) (snd sm) (seq 0 nnod);
  Ok (st, m).

(** src/missing.c 545-585, the set-up: lists of nodes and groups, one empty group per node, nodes placed at random, the
    links between groups. *)
Definition map_node (s : list (option nat) * list (option nat) * gpart A) (pn : nat * gnode A) : res (list (option nat) * list (option nat) * gpart A) :=
  let '(nlist, glist, P) := s in
  let '(pos, n) := pn in
  do nlist <- set nlist (gnum n) (Some pos);
  let '(k, P) := CreateGroup P (gnum n) in
  do glist <- set glist (gnum n) (Some k);
  Ok (nlist, glist, P).
Definition place_node (nnod : nat) (glist : list (option nat)) (s : (net A * gpart A) * list A) (i : nat) : res ((net A * gpart A) * list A) :=
  let '(gp, ds) := s in
  do (u, ds) <- draw ds;
  do k <- get glist (nfloor (nmul u (nofnat nnod)));
  do k <- deref k;
  do gp <- AddNodeToGroup gp k i;
  Ok (gp, ds).
Definition g2g_pair (g : net A) (P : gpart A) (glist : list (option nat)) (i : nat) (m : list (list Z)) (j : nat) : res (list (list Z)) :=
  do a <- get glist i;
  do a <- deref a;
  do b <- get glist j;
  do b <- deref b;
  do x <- NG2GLinks g P a b;
  do m <- set2 m j i (Z.of_nat x);
  set2 m i j (Z.of_nat x).
Definition g2g_row (g : net A) (P : gpart A) (glist : list (option nat)) (nnod : nat) (m : list (list Z)) (i : nat) : res (list (list Z)) :=
  do G <- group_at glist P i;
  do m <- set2 m i i (pin G);
  foldM (g2g_pair g P glist i) m (seq (i + 1) (nnod - (i + 1))).
(** [n2g] is what allocate_i_vec returns; the entries of the fresh G2G are all written before they are read. *)
Definition mc_setup (g : net A) (n2g : list (option Z)) (ds : list A) : res (list (option nat) * list (option nat) * mc) :=
  let nnod := length g in
  do (nlist, glist, P) <- foldM map_node (repeat None nnod, repeat None nnod, []) (combine (seq 0 nnod) g);
  let g := ResetNetGroup g in
  do (gp, ds) <- foldM (place_node nnod glist) ((g, P), ds) (seq 0 nnod);
  let '(g, P) := gp in
  do G2G <- foldM (g2g_row g P glist nnod) (repeat (repeat 0%Z nnod) nnod) (seq 0 nnod);
  do H <- PartitionH g P;
  Ok (nlist, glist, mkMC g P H G2G n2g (InitializeFastLogChoose lcsize) ds).

(** src/missing.c 513-710, LinkScore, with the fresh array [n2g]. *)
Definition LinkScore_on (g : net A) (n2g : list (option Z)) (nIter : nat) (ds : list A) : res (list (list A) * mc) :=
  let nnod := length g in
  let tabf := InitializeTable lnfact lfsize in
  do (nlist, glist, st) <- mc_setup g n2g ds;
  do (decor, st) <- GetDecorrelationStep nnod nlist glist tabf st;
  do st <- ThermalizeLinkScoreMC nnod nlist glist tabf decor st;
  do (st, m) <- foldM (score_sample nnod nlist glist tabf decor) (st, repeat (repeat n0 nnod) nnod) (seq 0 nIter);
  Ok (map (map (fun x => ndiv x (nofnat nIter))) m, st).
Definition LinkScore (g : net A) (nIter : nat) (ds : list A) : res (list (list A) * mc) :=
  LinkScore_on g (repeat None (length g)) nIter ds.
End Miss.
Arguments mc A : clear implicits.

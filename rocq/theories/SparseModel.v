(** SparseModel.v -- the Gibbs sampler for sparse networks, src/sparse_missing.c 38-638.

    The text is that of GibbsLinkScore (src/missing.c, GibbsModel.v) up to the terms of the energy, the groups without nodes, which
    are not skipped, and the scores.  State, partitions and conventions are those of GibbsModel.v: the field [mtab] is not used;
    [lngamma] is gsl_sf_lngamma for arguments above 0; glist[k] is the group at position k of the partition wherever it is read
    inside the loops over the shortlist.  The conversions to float in the scores are left out, as are printing and the release of
    memory. *)
From Coq Require Import List Arith ZArith Bool QArith.
From Verif Require Import Base MatLib IoModel GraphModel GroupModel ModulesModel ToolsModel MissModel MbModel GibbsModel.
Import ListNotations.
Local Open Scope nat_scope.

Section Sparse.
Context {A : Type} {ops : NumOps A}.
Variable lngamma : A -> A.
Variable lnfact : nat -> A.
Variables lgsize lfsize : nat.

(** src/tools.c 520-531, InitializeFastLogGamma.  For [x] = 0 the first call of gsl_sf_lngamma is at a pole, and the error handler
    of GSL ends the program: [DivZero].  (In this file [x] is never below 0.) *)
Definition lg_at (x : A) (i : nat) : A := lngamma (nadd (nofnat i) x).
Definition InitializeFastLogGamma (size : nat) (x : A) : res (list A) :=
  do _ <- check ((size =? 0) || nltb n0 x) DivZero;
  Ok (InitializeTable (lg_at x) size).
(** LogGammaListA, LogGammaListB, LogGammaListAB. *)
Definition sp_tabs : Type := (list A * list A * list A)%type.

Section Prior.
Variables a b : A.

(** src/sparse_missing.c 38-67, SparsePartitionH.  All groups count, also those without nodes. *)
Definition sp_gammas (r l : Z) : res A :=
  do r' <- nat_of r;
  do l' <- nat_of l;
  do m <- nat_of (r - l);
  Ok (nsub (nsub (lngamma (nadd (nadd (nofnat r') a) b)) (lngamma (nadd (nofnat l') a))) (lngamma (nadd (nofnat m) b))).
Definition sp_pair (g : net A) (P : gpart A) (k : nat) (G1 : grp A) (H : A) (k2 : nat) : res A :=
  do G2 <- get P k2;
  do l <- NG2GLinks g P k k2;
  do x <- sp_gammas (psize G1 * psize G2) (Z.of_nat l);
  Ok (nadd H x).
Definition sp_one (g : net A) (P : gpart A) (s : A * Z * Z) (k : nat) : res (A * Z * Z) :=
  let '(H, nnod, ng) := s in
  do G <- get P k;
  let ng := if (0 <? psize G)%Z then (ng + 1)%Z else ng in
  do x <- sp_gammas (Z.quot (psize G * (psize G - 1)) 2) (pin G);
  do H <- foldM (sp_pair g P k G) (nadd H x) (seq (k + 1) (length P - (k + 1)));
  Ok (H, (nnod + psize G)%Z, ng).
Definition SparsePartitionH (g : net A) (P : gpart A) : res A :=
  do (H, nnod, ng) <- foldM (sp_one g P) (n0, 0%Z, 0%Z) (seq 0 (length P));
  do d <- nat_of (nnod - ng);
  Ok (nsub H (lnfact d)).

(** FastLogGamma(r, ...AB, a+b) - FastLogGamma(l, ...A, a) - FastLogGamma(r-l, ...B, b), added to or subtracted from dH. *)
Definition sp_term (plus : bool) (tabs : sp_tabs) (d : A) (r l : Z) : res A :=
  let '(tA, tB, tAB) := tabs in
  do r' <- nat_of r;
  do l' <- nat_of l;
  do m <- nat_of (r - l);
  do x <- FastTable (lg_at (nadd a b)) r' tAB lgsize;
  do y <- FastTable (lg_at a) l' tA lgsize;
  do z <- FastTable (lg_at b) m tB lgsize;
  let t := nsub (nsub x y) z in
  Ok (if plus then nadd d t else nsub d t).

(** src/sparse_missing.c 142-197: one group of the shortlist.  The state is dH, n2gList, effectng. *)
Definition sp_group (tabs : sp_tabs) (g : net A) (P : gpart A) (G2G : list (list Z)) (node : nat) (Go Gw : grp A) (n2o n2w w2o : Z)
    (st : A * list (option Z) * nat) (k : nat) : res (A * list (option Z) * nat) :=
  let '(d, n2g, eff) := st in
  do G <- get P k;
  let no := psize Go in
  let nw := psize Gw in
  let eff := if (0 <? psize G)%Z then eff + 1 else eff in
  do x <- NLinksToGroup g node (plabel G);
  do n2g <- set n2g (plabel G) (Some (Z.of_nat x));
  if plabel G =? plabel Go then
    do d <- sp_term false tabs d (Z.quot (no * (no - 1)) 2) (pin Go);
    do d <- sp_term true tabs d (Z.quot ((no - 1) * (no - 2)) 2) (pin Go - n2o);
    do d <- sp_term false tabs d (nw * no) w2o;
    do d <- sp_term true tabs d ((nw + 1) * (no - 1)) (w2o + n2o - n2w);
    Ok (d, n2g, eff)
  else if plabel G =? plabel Gw then
    do d <- sp_term false tabs d (Z.quot (nw * (nw - 1)) 2) (pin Gw);
    do d <- sp_term true tabs d (Z.quot ((nw + 1) * nw) 2) (pin Gw + n2w);
    Ok (d, n2g, eff)
  else
    do y <- get n2g (plabel G);
    do n2 <- written y;
    do o2g <- get2 G2G (plabel Go) (plabel G);
    do w2g <- get2 G2G (plabel Gw) (plabel G);
    let ng := psize G in
    do d <- sp_term false tabs d (no * ng) o2g;
    do d <- sp_term true tabs d ((no - 1) * ng) (o2g - n2);
    do d <- sp_term false tabs d (nw * ng) w2g;
    do d <- sp_term true tabs d ((nw + 1) * ng) (w2g + n2);
    Ok (d, n2g, eff).

(** src/sparse_missing.c 131-212: the change of energy of moving [node] from the group at [ko] to the group at [kw]. *)
Definition sp_change (nnod : nat) (tabs : sp_tabs) (tabf : list A) (g : net A) (P : gpart A) (G2G : list (list Z)) (slg : list nat) (n2g : list (option Z)) (node ko kw : nat)
    : res (A * list (option Z) * gb_loc) :=
  do Go <- get P ko;
  do Gw <- get P kw;
  let no := psize Go in
  let nw := psize Gw in
  do n2o <- NLinksToGroup g node (plabel Go);
  do n2w <- NLinksToGroup g node (plabel Gw);
  do w2o <- NG2GLinks g P kw ko;
  do (d, n2g, eff) <- foldM (sp_group tabs g P G2G node Go Gw (Z.of_nat n2o) (Z.of_nat n2w) (Z.of_nat w2o)) (n0, n2g, 0) slg;
  do d <- mc_labels lnfact lfsize nnod tabf no nw eff d;
  Ok (d, n2g, (no, Z.of_nat n2o, pin Go, eff)).

(** src/sparse_missing.c 126-220: one destination. *)
Definition sp_dest (nnod : nat) (glist : list (option nat)) (tabs : sp_tabs) (tabf : list A) (g : net A) (P : gpart A) (G2G : list (list Z)) (slg : list nat) (node o ko : nat)
    (s : A * list (option A) * list (option Z) * option gb_loc) (w : nat) : res (A * list (option A) * list (option Z) * option gb_loc) :=
  let '(norm, dHs, n2g, loc) := s in
  do kw <- get glist w;
  do kw <- deref kw;
  if w =? o then
    do dHs <- set dHs w (Some n0);
    Ok (nadd norm (nexp (nopp n0)), dHs, n2g, loc)
  else
    do (d, n2g, l) <- sp_change nnod tabs tabf g P G2G slg n2g node ko kw;
    do dHs <- set dHs w (Some d);
    Ok (nadd norm (nexp (nopp d)), dHs, n2g, Some l).

(** src/sparse_missing.c 229-270: one group, for the change of energy of moving to an empty group. *)
Definition sp_empty_group (tabs : sp_tabs) (P : gpart A) (G2G : list (list Z)) (n2g : list (option Z)) (Go : grp A) (no n2o oin : Z) (d : A) (k : nat) : res A :=
  do G <- get P k;
  if plabel G =? plabel Go then
    do d <- sp_term false tabs d (Z.quot (no * (no - 1)) 2) oin;
    do d <- sp_term true tabs d (Z.quot ((no - 1) * (no - 2)) 2) (oin - n2o);
    do d <- sp_term false tabs d (0 * no)%Z 0%Z;
    sp_term true tabs d ((0 + 1) * (no - 1))%Z (0 + n2o - 0)%Z
  else
    do y <- get n2g (plabel G);
    do n2 <- written y;
    do o2g <- get2 G2G (plabel Go) (plabel G);
    let ng := psize G in
    do d <- sp_term false tabs d (no * ng)%Z o2g;
    do d <- sp_term true tabs d ((no - 1) * ng)%Z (o2g - n2)%Z;
    do d <- sp_term false tabs d (0 * ng)%Z 0%Z;
    sp_term true tabs d ((0 + 1) * ng)%Z (0 + n2)%Z.
(** src/sparse_missing.c 222-284: dHempty. *)
Definition sp_empty (nnod : nat) (tabs : sp_tabs) (tabf : list A) (P : gpart A) (G2G : list (list Z)) (slg : list nat) (n2g : list (option Z)) (ko : nat) (loc : option gb_loc) : res A :=
  do Go <- get P ko;
  do (no, n2o, oin, eff) <- (match loc with Some l => Ok l | None => Err UB_uninit end);
  do d <- foldM (sp_empty_group tabs P G2G n2g Go no n2o oin) n0 slg;
  mc_labels lnfact lfsize nnod tabf no 0%Z eff d.

(** src/sparse_missing.c 119-331: the move of one node. *)
Definition sp_move (nnod : nat) (nlist glist : list (option nat)) (tabs : sp_tabs) (tabf : list A) (s : mc A * list nat * list (option A) * option gb_loc) (move : nat)
    : res (mc A * list nat * list (option A) * option gb_loc) :=
  let '(st, slg, dHs, loc) := s in
  do node <- get nlist move;
  do node <- deref node;
  do n <- get (mnet st) node;
  do o <- (match ggroup n with Some o => Ok o | None => Err UB_oob end);
  do ko <- get glist o;
  do ko <- deref ko;
  do (norm, dHs, n2g, loc) <- foldM (sp_dest nnod glist tabs tabf (mnet st) (mpart st) (mG2G st) slg node o ko) (n0, dHs, mn2g st, loc) slg;
  do dHempty <- sp_empty nnod tabs tabf (mpart st) (mG2G st) slg n2g ko loc;
  let rest := nmul (nexp (nopp dHempty)) (nofnat (nnod - length slg)) in
  let norm := nadd norm rest in
  do (u, ds) <- draw (mds st);
  let dice := nmul norm u in
  do (w, kw, dHs) <- (if nltb (nsub norm (nmul (nofnat (nnod - length slg)) (nexp (nopp dHempty)))) dice then
      do k <- deref (GetEmptyGroup (mpart st));
      do G <- get (mpart st) k;
      do dHs <- set dHs (plabel G) (Some dHempty);
      Ok (plabel G, k, dHs)
    else
      do w <- gb_walk dHs dice n0 None slg;
      do k <- get glist w;
      do k <- deref k;
      Ok (w, k, dHs));
  do (_, gp) <- MoveNode (mnet st, mpart st) node ko kw;
  do x <- get dHs w;
  do x <- (match x with Some x => Ok x | None => Err UB_uninit end);
  do G2G <- foldM (g2g_step n2g o w) (mG2G st) slg;
  do slg <- (if existsb (Nat.eqb w) slg then Ok slg else do _ <- check (length slg <? nnod) UB_oob; Ok (slg ++ [w]));
  Ok (mkMC (fst gp) (snd gp) (nadd (mH st) x) G2G n2g (mtab st) ds, slg, dHs, loc).

(** src/sparse_missing.c 75-336, SparseGibbsLinkScoreStep. *)
Definition SparseGibbsLinkScoreStep (nnod : nat) (nlist glist : list (option nat)) (tabs : sp_tabs) (tabf : list A) (st : mc A) : res (mc A) :=
  let slg := map plabel (filter (fun G => (0 <? psize G)%Z) (mpart st)) in
  do _ <- check (length slg <=? nnod) UB_oob;
  do (st, _, _, _) <- foldM (sp_move nnod nlist glist tabs tabf) (st, slg, repeat None nnod, None) (seq 0 nnod);
  Ok st.

(** src/sparse_missing.c 344-424, SparseGibbsThermalizeLinkScore.  EPSILON is 1e-6. *)
Definition sp_therm_step (nnod : nat) (nlist glist : list (option nat)) (tabs : sp_tabs) (tabf : list A) (sh : mc A * list A) (_ : nat) : res (mc A * list A) :=
  do st <- SparseGibbsLinkScoreStep nnod nlist glist tabs tabf (fst sh);
  Ok (st, snd sh ++ [mH st]).
Fixpoint sp_therm_loop (fuel : nat) (nnod : nat) (nlist glist : list (option nat)) (tabs : sp_tabs) (tabf : list A) (m0 s0 : A) (eq : nat) (st : mc A) : res (mc A) :=
  match fuel with
  | 0 => Err Diverge
  | S f =>
      do (st, hs) <- foldM (sp_therm_step nnod nlist glist tabs tabf) (st, []) (seq 0 20);
      do m1 <- mean hs 20;
      do s1 <- stddev hs 20;
      let q := nsqrt (nofnat 20) in
      if nltb (nsub (nsub m0 (ndiv s0 q)) (nadd m1 (ndiv s1 q))) (nofQ (1 # 1000000)) then
        if eq + 1 <? 5 then sp_therm_loop f nnod nlist glist tabs tabf m0 s0 (eq + 1) st else Ok st
      else sp_therm_loop f nnod nlist glist tabs tabf m1 s1 0 st
  end.
Definition SparseGibbsThermalizeLinkScore (nnod : nat) (nlist glist : list (option nat)) (tabs : sp_tabs) (tabf : list A) (st : mc A) : res (mc A) :=
  sp_therm_loop (length (mds st) + 12) nnod nlist glist tabs tabf (nofQ (10000000000 # 1)) (nofQ (1 # 10000000000)) 0 st.

(** src/sparse_missing.c 480-519: the nodes, each in the group with its number, the table of links and the energy. *)
Definition sp_setup (g : net A) (ds : list A) : res (list (option nat) * list (option nat) * mc A) :=
  let nnod := length g in
  do (nlist, glist, P) <- foldM map_node (repeat None nnod, repeat None nnod, []) (combine (seq 0 nnod) g);
  let g := ResetNetGroup g in
  do (gp, ds) <- foldM (gb_place glist) ((g, P), ds) (seq 0 nnod);
  let '(g, P) := gp in
  do G2G <- foldM (g2g_row g P glist nnod) (repeat (repeat 0%Z nnod) nnod) (seq 0 nnod);
  do H <- SparsePartitionH g P;
  Ok (nlist, glist, mkMC g P H G2G (repeat None nnod) [] ds).

(** src/sparse_missing.c 581-616: the pairs inside a group and between two groups. *)
Definition sp_contrib (l r : Z) : res A :=
  do l <- nat_of l;
  do r <- nat_of r;
  Ok (ndiv (nadd (nofnat l) a) (nadd (nadd (nofnat r) a) b)).
Definition sp_score_other (nnod : nat) (glist : list (option nat)) (st : mc A) (i : nat) (G1 : grp A) (m : list (list A)) (j : nat) : res (list (list A)) :=
  do G2 <- group_at glist (mpart st) j;
  if (0 <? psize G2)%Z then
    do l <- get2 (mG2G st) i j;
    do c <- sp_contrib l (psize G1 * psize G2);
    score_between c m (pnodes G1) (pnodes G2)
  else Ok m.
Definition sp_score_group (nnod : nat) (glist : list (option nat)) (st : mc A) (m : list (list A)) (i : nat) : res (list (list A)) :=
  do G <- group_at glist (mpart st) i;
  if (0 <? psize G)%Z then
    do c <- sp_contrib (pin G) (Z.quot (psize G * (psize G - 1)) 2);
    do m <- score_in c m (pnodes G);
    foldM (sp_score_other nnod glist st i G) m (seq (i + 1) (nnod - (i + 1)))
  else Ok m.
Definition sp_sample (nnod : nat) (nlist glist : list (option nat)) (tabs : sp_tabs) (tabf : list A) (sm : mc A * list (list A)) (_ : nat) : res (mc A * list (list A)) :=
  do st <- SparseGibbsLinkScoreStep nnod nlist glist tabs tabf (fst sm);
  do m <- foldM (sp_score_group nnod glist st) (snd sm) (seq 0 nnod);
  Ok (st, m).

(** src/sparse_missing.c 467-636: all after the choice of betaA and betaB. *)
Definition sp_tables : res sp_tabs :=
  do tA <- InitializeFastLogGamma lgsize a;
  do tB <- InitializeFastLogGamma lgsize b;
  do tAB <- InitializeFastLogGamma lgsize (nadd a b);
  Ok (tA, tB, tAB).
Definition sp_run (g : net A) (nIter : nat) (ds : list A) : res (list (list A) * mc A) :=
  let nnod := length g in
  let tabf := InitializeTable lnfact lfsize in
  do tabs <- sp_tables;
  do (nlist, glist, st) <- sp_setup g ds;
  do st <- SparseGibbsThermalizeLinkScore nnod nlist glist tabs tabf st;
  do (st, m) <- foldM (sp_sample nnod nlist glist tabs tabf) (st, repeat (repeat n0 nnod) nnod) (seq 0 nIter);
  do _ <- SparsePartitionH (mnet st) (mpart st);
  Ok (map (map (fun x => ndiv x (nofnat nIter))) m, st).
End Prior.

(** src/sparse_missing.c 437, 462-465: the numbers of the prior.  For fewer than two nodes and for complete networks the code divides
    by 0 (the result is NaN or infinite): [DivZero]. *)
Definition sp_prior (g : net A) : res (A * A * net A) :=
  let nnod := length g in
  do (nlink, g) <- TotalNLinks g true;
  let pairs := nnod * (nnod - 1) in
  do _ <- check (negb (pairs =? 0)) DivZero;
  let density := ndiv (nmul (nofQ (2 # 1)) (nofnat nlink)) (nofnat pairs) in
  let betaB := nofQ (1 # 2) in
  let rest := nsub (nofQ (1 # 1)) density in
  do _ <- check (negb (neqb rest n0)) DivZero;
  Ok (ndiv (nmul density betaB) rest, betaB, g).
(** src/sparse_missing.c 431-638, SparseGibbsLinkScore. *)
Definition SparseGibbsLinkScore (g : net A) (nIter : nat) (ds : list A) : res (list (list A) * mc A) :=
  do (a, b, g) <- sp_prior g;
  sp_run a b g nIter ds.
End Sparse.

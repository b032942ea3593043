(** RecModel.v -- model of src/recommend.c: ratings, queries, and the two Monte Carlo samplers of pairs of partitions.

    The network of ratings is a two-sided network of BipartModel.v: all nodes sit in one memory.  The first partition groups
    the nodes of net1, the second those of net2.  log, gsl_sf_lnchoose, gsl_sf_lnfact, MutualInformation and CalculateDecay
    are parameters, as in MissModel.v, and so are the sizes of the tables of logarithms.  Integers do not overflow.  A
    negative integer used as an index or as an argument of a logarithm is reported as [UB_oob].  Release of memory and what is
    printed are left out. *)
From Coq Require Import List Arith ZArith Ascii Bool QArith.
From Verif Require Import Base MatLib IoModel GraphModel GroupModel NetModel ModulesModel ToolsModel BipartModel MissModel.
Import ListNotations.
Local Open Scope nat_scope.

Section Rec.
Context {A : Type} {ops : NumOps A}.

(** * Ratings and queries *)

(** src/recommend.c 55-60, CountUnobserved. *)
Definition CountUnobserved (b : binet A) : res (Z * binet A) :=
  do (t, b) <- NLinksBipart b;
  Ok ((Z.of_nat (length (bset1 b)) * Z.of_nat (length (bset2 b)) - Z.of_nat t)%Z, b).

(** src/recommend.h 23-28 and src/recommend.c 33-42: a query is a pair of pointers (the score, which stays -1, is left out).
    src/recommend.c 68-86, BuildUnobservedSet: writing more queries than were counted is out of bounds. *)
Definition BuildUnobservedSet (b : binet A) : res (list (nat * nat) * binet A) :=
  do (n, b) <- CountUnobserved b;
  do qs <- foldM (fun qs p => foldM (fun qs m =>
      do x <- IsThereLink (bmem b) p m;
      if x : bool then Ok qs
      else do _ <- check (Z.of_nat (length qs) <? n)%Z UB_oob; Ok (qs ++ [(p, m)])) qs (bset2 b)) [] (bset1 b);
  Ok (qs, b).

(** src/recommend.c 94-114, RemoveRatings: the list of links of [p] from position [t] on.  Every round removes a link or
    passes one. *)
Fixpoint remove_from (fuel : nat) (r : A) (p t : nat) (g : net A) : res (net A) :=
  match fuel with
  | 0 => Err Diverge
  | S f =>
      do n <- get g p;
      match nth_error (gadj n) t with
      | None => Ok g
      | Some l => if neqb (lweight l) r then do j <- deref (lref l); do g <- RemoveLink g p j true; remove_from f r p t g
                  else remove_from f r p (t + 1) g
      end
  end.
Definition RemoveRatings (b : binet A) (r : Z) : res (binet A) :=
  do g <- foldM (fun g p => do n <- get g p; remove_from (length (gadj n) + 1) (nofQ (r # 1)) p 0 g) (bmem b) (bset1 b);
  Ok (mkBi g (bset1 b) (bset2 b)).

(** src/recommend.c 136-140, ReadRecommenderObservations. *)
Definition ReadRecommenderObservations (scan_lf : list ascii -> option A) (file : list ascii) : res (option (binet A)) :=
  FBuildNetworkBipart scan_lf file true false.

(** MakeLabelDict (src/graph.c 350-367) of one of the two lists; the last node with a label is found. *)
Definition side_dict (g : net A) (s : list nat) : res dict :=
  foldM (fun d i => do n <- get g i; Ok ((glabel n, i) :: d)) [] s.
Definition last_of (s : list nat) : option nat := match rev s with [] => None | k :: _ => Some k end.
(** src/recommend.c 176-186: find the node of a label, or append one to the list. *)
Definition query_node (g : net A) (s : list nat) (lab : label) : res (nat * net A * list nat) :=
  do d <- side_dict g s;
  match GetNodeDict lab d with
  | Some p => Ok (p, g, s)
  | None => do (p, g) <- CreateNodeAt g (last_of s) lab; Ok (p, g, s ++ [p])
  end.
(** A %s conversion into a buffer that keeps what it holds if there is no word. *)
Definition scan_into (buf : option label) (s : list ascii) : res (option label * list ascii * bool) :=
  match scan_s s with
  | Some (w, s) => do w <- store_label w; Ok (Some w, s, true)
  | None => Ok (buf, [], false)
  end.
Definition held (buf : option label) : res label := match buf with Some l => Ok l | None => Err UB_uninit end.
(** src/recommend.c 157-206, ReadQueries.  The trees are rebuilt whenever a node is added, so each look-up sees the nodes
    there are. *)
Definition read_query (st : binet A * list (nat * nat) * option label * option label * list ascii) (_ : nat)
  : res (binet A * list (nat * nat) * option label * option label * list ascii) :=
  let '(b, qs, l1, l2, s) := st in
  do (l1, s, ok) <- scan_into l1 s;
  do (l2, s, _) <- (if ok : bool then scan_into l2 s else Ok (l2, s, false));
  do a <- held l1;
  do (p, g, s1) <- query_node (bmem b) (bset1 b) a;
  do c <- held l2;
  do (q, g, s2) <- query_node g (bset2 b) c;
  Ok (mkBi g s1 s2, qs ++ [(p, q)], l1, l2, s).
Definition ReadQueries (file : list ascii) (nQueries : nat) (b : binet A) : res (list (nat * nat) * binet A) :=
  do (b, qs, _, _, _) <- foldM read_query (b, [], None, None, file) (seq 0 nQueries);
  Ok (qs, b).

(** * Links between groups of two partitions *)

(** src/modules.c 836-847, NWeightLinksToGroup. *)
Definition NWeightLinksToGroup (g : net A) (i lab : nat) (w : A) : res nat :=
  do n <- get g i;
  foldM (fun c l =>
    if neqb (lweight l) w then do j <- deref (lref l); do m <- get g j; Ok (if in_group m lab then c + 1 else c)
    else Ok c) 0 (gadj n).
(** src/modules.c 911-924, NG2GLinks, and 932-945, NWeightG2GLinks, for groups of two different partitions (the test g1 == g2
    is then false). *)
Definition over_group (f : nat -> res nat) (G : grp A) : res nat :=
  foldM (fun c l => do i <- deref (lref l); do x <- f i; Ok (c + x)) 0 (pnodes G).
Definition links2 (g : net A) (G1 G2 : grp A) : res nat := over_group (fun i => NLinksToGroup g i (plabel G2)) G1.
Definition NWeightG2GLinks (g : net A) (G1 G2 : grp A) (w : A) : res nat := over_group (fun i => NWeightLinksToGroup g i (plabel G2) w) G1.

Variable logf : nat -> A.
Variable lnchoose : nat -> nat -> A.
Variable lnfact : nat -> A.
Variable mutual : gpart A -> gpart A -> A.
Variable decay_of : nat -> nat -> A -> nat -> A -> A.
Variables llsize lcsize lfsize : nat.

(** * Energies *)

(** src/recommend.c 227-264, H2State. *)
Definition h2_pair (g : net A) (G1 : grp A) (H : A) (G2 : grp A) : res A :=
  if (0 <? psize G2)%Z then
    do r <- links2 g G1 G2;
    do l <- NWeightG2GLinks g G1 G2 (nofnat 1);
    Ok (nadd H (nadd (logf (r + 1)) (lnchoose r l)))
  else Ok H.
Definition h2_group (g : net A) (P2 : gpart A) (st : A * Z * Z) (G1 : grp A) : res (A * Z * Z) :=
  let '(H, nnod, ng) := st in
  if (0 <? psize G1)%Z then do H <- foldM (h2_pair g G1) H P2; Ok (H, (nnod + psize G1)%Z, (ng + 1)%Z) else Ok st.
Definition size_step (st : Z * Z) (G : grp A) : Z * Z :=
  if (0 <? psize G)%Z then ((fst st + psize G)%Z, (snd st + 1)%Z) else st.
Definition H2State (g : net A) (P1 P2 : gpart A) : res A :=
  do (H, nnod1, ng1) <- foldM (h2_group g P2) (n0, 0%Z, 0%Z) P1;
  let '(nnod2, ng2) := fold_left size_step P2 (0%Z, 0%Z) in
  do d1 <- nat_of (nnod1 - ng1);
  do d2 <- nat_of (nnod2 - ng2);
  Ok (nsub H (nadd (lnfact d1) (lnfact d2))).

(** src/recommend.c 1070-1111, HKState. *)
Definition hk_pair (K : nat) (g : net A) (G1 : grp A) (H : A) (G2 : grp A) : res A :=
  do n <- links2 g G1 G2;
  do d <- nat_of (Z.of_nat n + Z.of_nat K - 1);
  foldM (fun H k => do nk <- NWeightG2GLinks g G1 G2 (nofnat k); Ok (nsub H (lnfact nk))) (nadd H (lnfact d)) (seq 0 K).
Definition hk_group (K : nat) (g : net A) (P2 : gpart A) (st : A * Z * Z) (G1 : grp A) : res (A * Z * Z) :=
  let '(H, nnod, ng) := st in
  do H <- foldM (hk_pair K g G1) H P2;
  Ok (H, (nnod + psize G1)%Z, if (0 <? psize G1)%Z then (ng + 1)%Z else ng).
Definition HKState (K : nat) (g : net A) (P1 P2 : gpart A) : res A :=
  do (H, nnod1, ng1) <- foldM (hk_group K g P2) (n0, 0%Z, 0%Z) P1;
  let '(nnod2, ng2) := fold_left size_step P2 (0%Z, 0%Z) in
  do d1 <- nat_of (nnod1 - ng1);
  do d2 <- nat_of (nnod2 - ng2);
  Ok (nsub H (nadd (lnfact d1) (lnfact d2))).

(** * The variables of the samplers *)

(** What belongs to one of the two sets of nodes: its number of nodes, the arrays of pointers to its nodes and its groups, its
    partition, the number of its groups with nodes, and, one for each rating, the tables node-to-group and group-to-group
    (for set 1: nnod1, nlist1, glist1, part1, ng1, N1G2, G1G2; for set 2: nnod2, ..., N2G1, G2G1).  MCStep2State, which has
    separate names for the tables of the ratings 0 and 1, has two of each. *)
Record side := mkSide {
  sn : nat; snl : list (option nat); sgl : list (option nat); sP : gpart A; sng : Z;
  sN : list (list (list Z)); sG : list (list (list Z)) }.
Record rec := mkRec { rnet : net A; r1 : side; r2 : side; rH : A; rtab : list (list A); rds : list A }.

(** The terms of the energy of a pair of groups with the given numbers of ratings 0, 1, ..., added to dH ([true]) or
    subtracted from it.  The table of FastLogChoose changes.
    src/recommend.c 365-368 and the like; 1202-1209 and the like. *)
Definition signed (s : bool) (d x : A) : A := if s then nadd d x else nsub d x.
Definition charge2 (tabl : list A) (s : bool) (st : A * list (list A)) (cs : list Z) : res (A * list (list A)) :=
  let '(d, tab) := st in
  match cs with
  | [c0; c1] =>
      do r <- nat_of (c0 + c1);
      do l <- nat_of c1;
      do x <- FastTable logf (r + 1) tabl llsize;
      do (y, tab) <- FastLogChoose lnchoose r l tab lcsize;
      Ok (signed s d (nadd x y), tab)
  | _ => Err UB_oob
  end.
Definition chargeK (K : nat) (tabf : list A) (s : bool) (st : A * list (list A)) (cs : list Z) : res (A * list (list A)) :=
  let '(d, tab) := st in
  do n <- nat_of (fold_left Z.add cs 0 + Z.of_nat K - 1)%Z;
  do x <- FastTable lnfact n tabf lfsize;
  do d <- foldM (fun d c => do c <- nat_of c; do x <- FastTable lnfact c tabf lfsize; Ok (signed s d (nopp x))) (signed s d x) cs;
  Ok (d, tab).

Section Step.
Variable K : nat.
Variable tabf : list A.
Variable charge : bool -> A * list (list A) -> list Z -> res (A * list (list A)).

(** The numbers of ratings 0, 1, ..., K-1 in a table. *)
Definition counts (T : list (list (list Z))) (a b : nat) : res (list Z) :=
  foldM (fun cs k => do m <- get T k; do x <- get2 m a b; Ok (cs ++ [x])) [] (seq 0 K).
(** src/recommend.c 360-376 (1197-1221), and 412-427 (1249-1273) with the other sign. *)
Definition charge_all (s : bool) (T : list (list (list Z))) (o w : nat) (st : A * list (list A)) (other : gpart A) : res (A * list (list A)) :=
  foldM (fun st G =>
    if (0 <? psize G)%Z then
      do c <- counts T o (plabel G);
      do st <- charge s st c;
      do c <- counts T w (plabel G);
      charge s st c
    else Ok st) st other.

(** T[k][i][j] += d. *)
Definition add3 (T : list (list (list Z))) (k i j : nat) (d : Z) : res (list (list (list Z))) :=
  do m <- get T k;
  do x <- get2 m i j;
  do m <- set2 m i j (x + d)%Z;
  set T k m.
(** src/recommend.c 385-394 (1231-1238): the links of node number [v] to the groups of the other set leave group [o] for group
    [w]; with [sg] = -1, 440-449 (1287-1294): they come back. *)
Definition shift_cell (sg : Z) (N : list (list (list Z))) (v o w i : nat) (st : list (list (list Z)) * list (list (list Z))) (k : nat)
  : res (list (list (list Z)) * list (list (list Z))) :=
  let '(T, Ti) := st in
  do m <- get N k;
  do x <- get2 m v i;
  do T <- add3 T k o i (- (sg * x))%Z;
  do T <- add3 T k w i (sg * x)%Z;
  do Ti <- add3 Ti k i o (- (sg * x))%Z;
  do Ti <- add3 Ti k i w (sg * x)%Z;
  Ok (T, Ti).
Definition shift_groups (sg : Z) (N : list (list (list Z))) (v o w : nat) (st : list (list (list Z)) * list (list (list Z))) (ngroup : nat)
  : res (list (list (list Z)) * list (list (list Z))) :=
  foldM (fun st i => foldM (shift_cell sg N v o w i) st (seq 0 K)) st (seq 0 ngroup).
(** src/recommend.c 395-408 (1239-1247) and 450-460 (1295-1303): the neighbours of the node.  MCStep2State makes the two
    tests, which exclude each other, one after the other. *)
Definition shift_link (sg : Z) (g : net A) (o w : nat) (Ni : list (list (list Z))) (l : link A) : res (list (list (list Z))) :=
  foldM (fun Ni k =>
    if neqb (lweight l) (nofnat k) then
      do j <- deref (lref l);
      do m <- get g j;
      do Ni <- add3 Ni k (gnum m) o (- sg)%Z;
      add3 Ni k (gnum m) w sg
    else Ok Ni) Ni (seq 0 K).

(** The labelled-groups correction. *)
Definition label_term (me : side) (ng : Z) : res A := do a <- nat_of (Z.of_nat (sn me) - ng); FastTable lnfact a tabf lfsize.

(** src/recommend.c 312-468 (1152-1311): one attempt in the set [me]; the number of the node and of the groups are drawn from
    the nodes of that set. *)
Definition attempt_in (g : net A) (me oth : side) (H : A) (tab : list (list A)) (ds : list A)
  : res (net A * side * side * A * list (list A) * list A) :=
  do (u, ds) <- draw ds;
  do p <- get (snl me) (nfloor (nmul u (nofnat (sn me))));
  do p <- deref p;
  do n <- get g p;
  do o <- (match ggroup n with Some o => Ok o | None => Err UB_oob end);
  do (w, ds) <- redraw (sn me) o ds;
  do ko <- get (sgl me) o;
  do kw <- get (sgl me) w;
  do ko <- deref ko;
  do kw <- deref kw;
  do (d, tab) <- charge_all false (sG me) o w (n0, tab) (sP oth);
  do Go <- get (sP me) ko;
  do Gw <- get (sP me) kw;
  do d <- (if (psize Go =? 1)%Z || (psize Gw =? 0)%Z then do x <- label_term me (sng me); Ok (nadd d x) else Ok d);
  do (_, (g, P)) <- MoveNode (g, sP me) p ko kw;
  do (T, Ti) <- shift_groups 1 (sN me) (gnum n) o w (sG me, sG oth) (sn oth);
  do Ni <- foldM (shift_link 1 g o w) (sN oth) (gadj n);
  do Go <- get P ko;
  do Gw <- get P kw;
  let ng := if (psize Go =? 0)%Z then (sng me - 1)%Z else sng me in
  let ng := if (psize Gw =? 1)%Z then (ng + 1)%Z else ng in
  do (d, tab) <- charge_all true T o w (d, tab) (sP oth);
  do d <- (if (psize Go =? 0)%Z || (psize Gw =? 1)%Z then do x <- label_term me ng; Ok (nsub d x) else Ok d);
  do (acc, ds) <- accepts d ds;
  if acc : bool then
    Ok (g, mkSide (sn me) (snl me) (sgl me) P ng (sN me) T, mkSide (sn oth) (snl oth) (sgl oth) (sP oth) (sng oth) Ni Ti, nadd H d, tab, ds)
  else
    do (_, (g, P)) <- MoveNode (g, P) p kw ko;
    do (T, Ti) <- shift_groups (-1) (sN me) (gnum n) o w (T, Ti) (sn oth);
    do Ni <- foldM (shift_link (-1) g o w) Ni (gadj n);
    do Go <- get P ko;
    do Gw <- get P kw;
    let ng := if (psize Go =? 1)%Z then (ng + 1)%Z else ng in
    let ng := if (psize Gw =? 0)%Z then (ng - 1)%Z else ng in
    Ok (g, mkSide (sn me) (snl me) (sgl me) P ng (sN me) T, mkSide (sn oth) (snl oth) (sgl oth) (sP oth) (sng oth) Ni Ti, H, tab, ds).

(** src/recommend.c 304-309 (1147-1150) and the choice of the set. *)
Definition set_ratio (a b : nat) : A :=
  let a := Z.of_nat a in let b := Z.of_nat b in ndiv (nofQ ((a * a - 1) # 1)) (nofQ ((a * a + b * b - 2) # 1)).
Definition rec_move (st : rec) (_ : nat) : res rec :=
  do (u, ds) <- draw (rds st);
  if nltb u (set_ratio (sn (r1 st)) (sn (r2 st))) then
    do (g, s1, s2, H, tab, ds) <- attempt_in (rnet st) (r1 st) (r2 st) (rH st) (rtab st) ds;
    Ok (mkRec g s1 s2 H tab ds)
  else
    do (g, s2, s1, H, tab, ds) <- attempt_in (rnet st) (r2 st) (r1 st) (rH st) (rtab st) ds;
    Ok (mkRec g s1 s2 H tab ds).
(** src/recommend.c 274-473, MCStep2State, and 1119-1316, MCStepKState. *)
Definition MCStep (factor : nat) (st : rec) : res rec := foldM rec_move st (seq 0 ((sn (r1 st) + sn (r2 st)) * factor)).

(** src/recommend.c 482-633, GetDecorrelationStep2State, and 1325-1479, GetDecorrelationStepKState: see GetDecorrelationStep
    in MissModel.v; here two partitions are followed, and the one with the larger mean decides. *)
Definition decor_step2 (ref1 ref2 : gpart A) (x1 : nat) (sy : rec * A * A) (step : nat) : res (rec * A * A) :=
  let '(st, y1, y2) := sy in
  do st <- MCStep 1 st;
  Ok (if step =? x1 then (st, mutual ref1 (sP (r1 st)), mutual ref2 (sP (r2 st))) else (st, y1, y2)).
Definition decay_side (nnod x1 : nat) (y1 : A) (x2 : nat) (y2 : A) : A :=
  if 1 <? nnod then nmul (nofQ (2 # 1)) (decay_of nnod x1 y1 x2 y2) else nofQ (1 # 1000000).
Definition decor_one2 (st : rec) : res (A * A * rec) :=
  let x2 := Nat.div (sn (r1 st) + sn (r2 st)) 5 in
  let x2 := if x2 <? 10 then 10 else x2 in
  let x1 := Nat.div x2 4 in
  do (g, ref1) <- CopyPartition (rnet st) (sP (r1 st));
  do (g, ref2) <- CopyPartition g (sP (r2 st));
  do (st, y11, y12) <- foldM (decor_step2 ref1 ref2 x1) (mkRec g (r1 st) (r2 st) (rH st) (rtab st) (rds st), n0, n0) (seq 0 (x2 + 1));
  Ok (decay_side (sn (r1 st)) x1 y11 x2 (mutual ref1 (sP (r1 st))), decay_side (sn (r2 st)) x1 y12 x2 (mutual ref2 (sP (r2 st))), st).
Fixpoint decor_reps2 (fuel left : nat) (d1 d2 : list A) (st : rec) : res (list A * list A * rec) :=
  match left with
  | 0 => Ok (d1, d2, st)
  | S left' =>
      match fuel with
      | 0 => Err Diverge
      | S f =>
          do (x, y, st) <- decor_one2 st;
          if nltb x n0 || nltb y n0 then decor_reps2 f left d1 d2 st
          else decor_reps2 f left' (d1 ++ [x]) (d2 ++ [y]) st
      end
  end.
Definition GetDecorrelationStep2 (st : rec) : res (nat * rec) :=
  do (d1, d2, st) <- decor_reps2 (length (rds st) + 11) 10 [] [] st;
  do m1 <- mean d1 10;
  do m2 <- mean d2 10;
  let '(m, ds) := if nltb m2 m1 then (m1, d1) else (m2, d2) in
  do s <- stddev ds 10;
  let '(result, norm) := fold_left (fun '(result, norm) d =>
      if nltb (nofQ (2 # 1)) (ndiv (nabs (nsub d m)) s) then (nsub result d, norm) else (result, norm + 1)) ds (nmul m (nofnat 10), 0) in
  Ok (nfloor (nadd (ndiv result (nofnat norm)) (nofQ (1 # 2))), st).
(** src/recommend.c 641-724, ThermalizeMC2State, 1487-1564, ThermalizeMCKState, and 2154-2222, GibbsThermalizeKState: twenty
    steps; repeat until five times in a row the energy has not decreased. *)
Definition therm_step2 (step : rec -> res rec) (sh : rec * list A) (_ : nat) : res (rec * list A) :=
  do st <- step (fst sh); Ok (st, snd sh ++ [rH st]).
Fixpoint therm_loop2 (fuel : nat) (step : rec -> res rec) (m0 s0 : A) (eq : nat) (st : rec) : res rec :=
  match fuel with
  | 0 => Err Diverge
  | S f =>
      do (st, hs) <- foldM (therm_step2 step) (st, []) (seq 0 20);
      do m1 <- mean hs 20;
      do s1 <- stddev hs 20;
      let q := nsqrt (nofnat 20) in
      if nltb (nsub m0 (ndiv s0 q)) (nadd m1 (ndiv s1 q)) then
        if eq + 1 <? 5 then therm_loop2 f step m0 s0 (eq + 1) st else Ok st
      else therm_loop2 f step m1 s1 0 st
  end.
Definition Thermalize (step : rec -> res rec) (st : rec) : res rec :=
  therm_loop2 (length (rds st) + 12) step (nofQ (10000000000 # 1)) (nofQ (1 # 10000000000)) 0 st.

(** * Gibbs sampling: src/recommend.c 1893-2146, GibbsStepKState *)

(** Numbers of ratings with those of the node added ([sg] = 1) or taken away ([sg] = -1). *)
Definition counts_with (sg : Z) (T N : list (list (list Z))) (a v b : nat) : res (list Z) :=
  foldM (fun cs k => do m <- get T k; do x <- get2 m a b; do m <- get N k; do y <- get2 m v b; Ok (cs ++ [(x + sg * y)%Z])) [] (seq 0 K).
(** The sum of a term over the groups with nodes of the shortlist of the other set. *)
Definition over_short (oth : side) (slgo : list nat) (f : A -> nat -> res A) : res A :=
  foldM (fun d lab => do k <- get (sgl oth) lab; do k <- deref k; do G <- get (sP oth) k;
                      if (0 <? psize G)%Z then f d (plabel G) else Ok d) n0 slgo.
Definition plus (d : A) (cs : list Z) : res A := do (d, _) <- charge true (d, []) cs; Ok d.
(** lines 2017-2024 and 2053-2057: the labelled-groups correction; gsl_sf_lnfact is called directly. *)
Definition label_change (me : side) (to : Z) : res A :=
  do a <- nat_of (Z.of_nat (sn me) - sng me);
  do b <- nat_of (Z.of_nat (sn me) - to);
  Ok (nsub (lnfact a) (lnfact b)).
(** lines 1990-2034: the change of energy for one group of the shortlist. *)
Definition gibbs_one (me oth : side) (slgo : list nat) (v o : nat) (Go : grp A) (dHoo dHno : A) (st : list (option A) * A) (w : nat)
  : res (list (option A) * A) :=
  let '(dH, norm) := st in
  do k <- get (sgl me) w;
  do k <- deref k;
  do Gw <- get (sP me) k;
  do dHon <- over_short oth slgo (fun d b => do c <- counts (sG me) w b; plus d c);
  do dHnn <- over_short oth slgo (fun d b => do c <- counts_with 1 (sG me) (sN me) w v b; plus d c);
  do sam <- (if (psize Go =? 1)%Z && (0 <? psize Gw)%Z then label_change me (sng me - 1)
             else if (1 <? psize Go)%Z && (psize Gw =? 0)%Z then label_change me (sng me + 1)
             else Ok n0);
  let x := if w =? o then n0 else nadd (nadd (nsub (nadd (nopp dHoo) dHno) dHon) dHnn) sam in
  do dH <- set dH w (Some x);
  Ok (dH, nadd norm (nexp (nopp x))).
(** lines 2084-2089: walk along the shortlist until the sum reaches the dice.  Reading past the end of the shortlist reads
    entries never written. *)
Fixpoint gibbs_walk (dH : list (option A)) (dice cum : A) (last : option nat) (slg : list nat) : res nat :=
  if nltb cum dice then
    match slg with
    | [] => Err UB_uninit
    | w :: slg =>
        do x <- get dH w;
        match x with
        | Some x => gibbs_walk dH dice (nadd cum (nexp (nopp x))) (Some w) slg
        | None => Err UB_uninit
        end
    end
  else match last with Some w => Ok w | None => Err UB_oob end.
(** lines 1950-2133: the move of one node; [dHsize] is the length of the array dH. *)
Definition gibbs_in (dHsize : nat) (g : net A) (me oth : side) (slg slgo : list nat) (p : option nat) (H : A) (ds : list A)
  : res (net A * side * side * list nat * A * list A) :=
  do p <- deref p;
  do n <- get g p;
  do o <- (match ggroup n with Some o => Ok o | None => Err UB_oob end);
  do ko <- get (sgl me) o;
  do ko <- deref ko;
  do Go <- get (sP me) ko;
  let v := gnum n in
  do dHoo <- over_short oth slgo (fun d b => do c <- counts (sG me) o b; plus d c);
  do dHno <- over_short oth slgo (fun d b => do c <- counts_with (-1) (sG me) (sN me) o v b; plus d c);
  do (dH, norm) <- foldM (gibbs_one me oth slgo v o Go dHoo dHno) (repeat None dHsize, n0) slg;
  do dHon <- over_short oth slgo (fun d b => do a <- nat_of (Z.of_nat K - 1); do x <- FastTable lnfact a tabf lfsize; Ok (nadd d x));
  do dHnn <- over_short oth slgo (fun d b => do c <- counts (sN me) v b; plus d c);
  do sam <- (if (1 <? psize Go)%Z then label_change me (sng me + 1) else Ok n0);
  let dHempty := nadd (nadd (nsub (nadd (nopp dHoo) dHno) dHon) dHnn) sam in
  let rest := nmul (nofnat (sn me - length slg)) (nexp (nopp dHempty)) in
  let norm := nadd norm rest in
  do (u, ds) <- draw ds;
  let dice := nmul norm u in
  do (w, slg, d) <- (if nltb (nsub norm rest) dice then
      do k <- deref (GetEmptyGroup (sP me));
      do G <- get (sP me) k;
      do _ <- check (plabel G <? dHsize) UB_oob;
      do slg <- (if existsb (Nat.eqb (plabel G)) slg then Ok slg else do _ <- check (length slg <? sn me) UB_oob; Ok (slg ++ [plabel G]));
      Ok (plabel G, slg, dHempty)
    else
      do w <- gibbs_walk dH dice n0 None slg;
      do x <- get dH w;
      match x with Some x => Ok (w, slg, x) | None => Err UB_uninit end);
  do kw <- get (sgl me) w;
  do kw <- deref kw;
  do (_, (g, P)) <- MoveNode (g, sP me) p ko kw;
  do (T, Ti) <- shift_groups 1 (sN me) v o w (sG me, sG oth) (sn oth);
  do Ni <- foldM (shift_link 1 g o w) (sN oth) (gadj n);
  do Go <- get P ko;
  do Gw <- get P kw;
  let ng := if o =? w then sng me
            else let ng := if (psize Go =? 0)%Z then (sng me - 1)%Z else sng me in if (psize Gw =? 1)%Z then (ng + 1)%Z else ng in
  Ok (g, mkSide (sn me) (snl me) (sgl me) P ng (sN me) T, mkSide (sn oth) (snl oth) (sgl oth) (sP oth) (sng oth) Ni Ti, slg, nadd H d, ds).
Definition shortlist (P : gpart A) (n : nat) : res (list nat) :=
  let slg := map plabel (filter (fun G => (0 <? psize G)%Z) P) in do _ <- check (length slg <=? n) UB_oob; Ok slg.
Definition gibbs_move (st : rec * list nat * list nat) (move : nat) : res (rec * list nat * list nat) :=
  let '(st, slg1, slg2) := st in
  let n1 := sn (r1 st) in
  let size := Nat.max n1 (sn (r2 st)) in
  if move <? n1 then
    do p <- get (snl (r1 st)) move;
    do (g, s1, s2, slg1, H, ds) <- gibbs_in size (rnet st) (r1 st) (r2 st) slg1 slg2 p (rH st) (rds st);
    Ok (mkRec g s1 s2 H (rtab st) ds, slg1, slg2)
  else
    do p <- get (snl (r2 st)) (move - n1);
    do (g, s2, s1, slg2, H, ds) <- gibbs_in size (rnet st) (r2 st) (r1 st) slg2 slg1 p (rH st) (rds st);
    Ok (mkRec g s1 s2 H (rtab st) ds, slg1, slg2).
Definition GibbsStep (st : rec) : res rec :=
  do slg1 <- shortlist (sP (r1 st)) (sn (r1 st));
  do slg2 <- shortlist (sP (r2 st)) (sn (r2 st));
  do (st, _, _) <- foldM gibbs_move (st, slg1, slg2) (seq 0 (sn (r1 st) + sn (r2 st)));
  Ok st.

(** * The scores *)

(** The queries are mapped to the copy of the network and, after the run, back to the original; the way back, which changes
    nothing else, is left out, and so are the messages and the files of traces and partitions. *)

(** src/recommend.c 797-809 (1614-1624, 2274-2284): the copy without the ratings of the queries, and the queries on it. *)
Definition move_query (d1 d2 : dict) (old : net A) (st : net A * list (nat * nat)) (q : nat * nat) : res (net A * list (nat * nat)) :=
  let '(g, qs) := st in
  do a <- get old (fst q);
  do c <- get old (snd q);
  do p <- deref (GetNodeDict (glabel a) d1);
  do m <- deref (GetNodeDict (glabel c) d2);
  do x <- IsThereLink g p m;
  do g <- (if x : bool then RemoveLink g p m true else Ok g);
  Ok (g, qs ++ [(p, m)]).
Definition clean_ratings (b : binet A) (qs : list (nat * nat)) : res (binet A * list (nat * nat)) :=
  do c <- CopyBipart b;
  do d1 <- side_dict (bmem c) (bset1 c);
  do d2 <- side_dict (bmem c) (bset2 c);
  do (g, qs) <- foldM (move_query d1 d2 (bmem b)) (bmem c, []) qs;
  Ok (mkBi g (bset1 c) (bset2 c), qs).

(** src/recommend.c 817-850 (1633-1664): lists of nodes and groups, one group per node. *)
Definition map_side (g : net A) (s : list nat) : res (list (option nat) * list (option nat) * gpart A) :=
  foldM (fun '(nl, gl, P) p =>
    do n <- get g p;
    do nl <- set nl (gnum n) (Some p);
    let '(k, P) := CreateGroup P (gnum n) in
    do gl <- set gl (gnum n) (Some k);
    Ok (nl, gl, P)) (repeat None (length s), repeat None (length s), []) s.
Definition reset_side (g : net A) (s : list nat) : res (net A) := foldM (fun g p => upd_node g p (set_ggroup None)) g s.
Definition place_side (gl : list (option nat)) (gp : net A * gpart A) (s : list nat) : res (net A * gpart A) :=
  foldM (fun '(g, P) p => do n <- get g p; do k <- get gl (gnum n); do k <- deref k; AddNodeToGroup (g, P) k p) gp s.
(** src/recommend.c 852-886 (1667-1693): the tables, filled entry by entry; [a] and [b] give the nodes or groups. *)
Definition fill_tables (n m : nat) (f : nat -> nat -> nat -> res nat) : res (list (list (list Z))) :=
  mapM (fun k => foldM (fun M i => foldM (fun M j => do x <- f k i j; set2 M i j (Z.of_nat x)) M (seq 0 m)) (repeat (repeat 0%Z m) n) (seq 0 n)) (seq 0 K).
Definition ptr_group (gl : list (option nat)) (P : gpart A) (i : nat) : res (grp A) := do k <- get gl i; do k <- deref k; get P k.
Definition ptr_node (nl : list (option nat)) (i : nat) : res nat := do p <- get nl i; deref p.
Definition rec_setup (energy : net A -> gpart A -> gpart A -> res A) (tab : list (list A)) (b : binet A) (ds : list A) : res rec :=
  let n := length (bset1 b) in
  let m := length (bset2 b) in
  do (nl1, gl1, P1) <- map_side (bmem b) (bset1 b);
  do (nl2, gl2, P2) <- map_side (bmem b) (bset2 b);
  do g <- reset_side (bmem b) (bset1 b);
  do (g, P1) <- place_side gl1 (g, P1) (bset1 b);
  do g <- reset_side g (bset2 b);
  do (g, P2) <- place_side gl2 (g, P2) (bset2 b);
  let gg := fun k i j => do G1 <- ptr_group gl1 P1 i; do G2 <- ptr_group gl2 P2 j; NWeightG2GLinks g G1 G2 (nofnat k) in
  do G12 <- fill_tables n m gg;
  do G21 <- fill_tables m n (fun k j i => gg k i j);
  do N12 <- fill_tables n m (fun k i j => do p <- ptr_node nl1 i; do G <- ptr_group gl2 P2 j; NWeightLinksToGroup g p (plabel G) (nofnat k));
  do N21 <- fill_tables m n (fun k j i => do p <- ptr_node nl2 j; do G <- ptr_group gl1 P1 i; NWeightLinksToGroup g p (plabel G) (nofnat k));
  do H <- energy g P1 P2;
  Ok (mkRec g (mkSide n nl1 gl1 P1 (Z.of_nat (NNonEmptyGroups P1)) N12 G12) (mkSide m nl2 gl2 P2 (Z.of_nat (NNonEmptyGroups P2)) N21 G21) H tab ds).

(** src/recommend.c 988-995 (1802-1811): what one sample adds to the score of a query, for each rating.  The conversions to
    float are left out. *)
Definition query_counts (st : rec) (q : nat * nat) : res (list Z) :=
  do a <- get (rnet st) (fst q);
  do c <- get (rnet st) (snd q);
  match ggroup a, ggroup c with
  | Some x, Some y => counts (sG (r1 st)) x y
  | _, _ => Err UB_oob
  end.
Definition query_terms (st : rec) (q : nat * nat) : res (list A) :=
  do cs <- query_counts st q;
  mapM (fun c => do a <- nat_of (c + 1); do b <- nat_of (fold_left Z.add cs 0 + Z.of_nat K); Ok (ndiv (nofnat a) (nofnat b)))%Z cs.
(** scores[q][k] += terms. *)
Definition add_scores (st : rec) (qs : list (nat * nat)) (scores : list (list A)) : res (list (list A)) :=
  mapM (fun '(q, old) => do ts <- query_terms st q; Ok (map (fun '(x, y) => nadd x y) (combine old ts))) (combine qs scores).
Definition zero_scores (qs : list (nat * nat)) : list (list A) := map (fun _ => repeat n0 K) qs.
(** src/recommend.c 940-1024 (1752-1840, 2392-2483): the loop over the samples.  [iter] counts up to [nIter]; if the energy has
    dropped too far ([low]) everything starts over, from one. *)
Definition set_H (H : A) (st : rec) : rec := mkRec (rnet st) (r1 st) (r2 st) H (rtab st) (rds st).
Fixpoint sample_loop (fuel : nat) (step : rec -> res rec) (low : A -> A -> bool) (reset : bool) (qs : list (nat * nat)) (nIter iter norm : nat) (H0 : A)
    (scores : list (list A)) (st : rec) : res (list (list A) * nat * rec) :=
  if iter <? nIter then
    match fuel with
    | 0 => Err Diverge
    | S f =>
        do st <- step st;
        let again := low H0 (rH st) in
        let iter := if again then 0 else iter in
        let norm := if again then 0 else norm in
        let scores := if again then zero_scores qs else scores in
        let H0 := if again then rH st else H0 in
        let st := if again && reset then set_H n0 st else st in
        do scores <- add_scores st qs scores;
        sample_loop f step low reset qs nIter (iter + 1) (norm + 1) H0 scores st
    end
  else Ok (scores, norm, st).
Definition score_all (step : rec -> res rec) (low : A -> A -> bool) (reset : bool) (qs : list (nat * nat)) (nIter : nat) (st : rec) : res (list (list A) * rec) :=
  do (scores, norm, st) <- sample_loop (length (rds st) + nIter + 2) step low reset qs nIter 0 0 (rH st) (zero_scores qs) st;
  Ok (map (map (fun x => ndiv x (nofnat norm))) scores, st).
End Step.

(** src/recommend.c 733-1058, MultiLinkScore2State.  The scores of rating 1 are returned; [debug] is verbose_sw == 'd'.
    decorStep is taken positive if given ([Some]). *)
Definition below (H0 H : A) : bool := nltb H (nofQ (-400 # 1)).
Definition dropped (H0 H : A) : bool := nltb (nofQ (400 # 1)) (nsub H0 H).
Definition run_as_given (K : nat) (charge : list A -> list A -> bool -> A * list (list A) -> list Z -> res (A * list (list A))) (energy : net A -> gpart A -> gpart A -> res A)
    (zero : bool) (c : binet A) (qs : list (nat * nat)) (nIter : nat) (decor : option nat) (ds : list A) : res (list (list A) * rec) :=
  let tabf := InitializeTable lnfact lfsize in
  let ch := charge (InitializeTable logf llsize) tabf in
  do st <- rec_setup K energy (InitializeFastLogChoose lcsize) c ds;
  do (decor, st) <- (match decor with Some d => Ok (d, st) | None => GetDecorrelationStep2 K tabf ch st end);
  do st <- Thermalize (MCStep K tabf ch decor) st;
  let st := if zero then set_H n0 st else st in
  score_all K (MCStep K tabf ch decor) below true qs nIter st.
Definition run_mc (K : nat) (charge : list A -> list A -> bool -> A * list (list A) -> list Z -> res (A * list (list A))) (energy : net A -> gpart A -> gpart A -> res A)
    (zero : bool) (b : binet A) (qs : list (nat * nat)) (nIter : nat) (decor : option nat) (ds : list A) : res (list (list A) * rec) :=
  do (c, qs) <- clean_ratings b qs;
  run_as_given K charge energy zero c qs nIter decor ds.
Definition MultiLinkScore2State (debug : bool) (b : binet A) (qs : list (nat * nat)) (nIter : nat) (decor : option nat) (ds : list A) : res (list A) :=
  do (scores, _) <- run_mc 2 (fun tabl _ => charge2 tabl) H2State (negb debug) b qs nIter decor ds;
  mapM (fun s => get s 1) scores.
(** src/conflict.c 34-309, AllLinkScore2State: the queries are all pairs, in order, and the ratings are left in; the rest is that of
    MultiLinkScore2State.  The scores are returned with their queries. *)
Definition all_queries (b : binet A) : list (nat * nat) := flat_map (fun p => map (fun q => (p, q)) (bset2 b)) (bset1 b).
Definition AllLinkScore2State (debug : bool) (b : binet A) (nIter : nat) (decor : option nat) (ds : list A) : res (list (nat * nat * A)) :=
  let qs := all_queries b in
  do (scores, _) <- run_as_given 2 (fun tabl _ => charge2 tabl) H2State (negb debug) b qs nIter decor ds;
  do scores <- mapM (fun s => get s 1) scores;
  Ok (combine qs scores).
(** src/recommend.c 1573-1877, MultiLinkScoreKState: one list of scores per query. *)
Definition MultiLinkScoreKState (K : nat) (b : binet A) (qs : list (nat * nat)) (nIter : nat) (decor : option nat) (ds : list A) : res (list (list A)) :=
  do (scores, _) <- run_mc K (fun _ => chargeK K) (HKState K) false b qs nIter decor ds; Ok scores.
(** src/recommend.c 2231-2520, GibbsMultiLinkScoreKState. *)
Definition GibbsMultiLinkScoreKState (K : nat) (b : binet A) (qs : list (nat * nat)) (nIter : nat) (ds : list A) : res (list (list A)) :=
  let tabf := InitializeTable lnfact lfsize in
  do (c, qs) <- clean_ratings b qs;
  do st <- rec_setup K (HKState K) [] c ds;
  do st <- Thermalize (GibbsStep K tabf (chargeK K tabf)) st;
  do (scores, _) <- score_all K (GibbsStep K tabf (chargeK K tabf)) dropped false qs nIter st;
  Ok scores.
End Rec.
Arguments rec A : clear implicits.
Arguments side A : clear implicits.

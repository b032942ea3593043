(** KsModel.v -- model of the K-state sampler of src/missing.c 1307-1988: links with values 0, 1, ..., K-1 inside one network.

    The state of the sampler is that of RecModel.v with one side only: [r1] holds the nodes, the groups and the tables N2G and
    G2G, [r2] is empty and no table of FastLogChoose is kept.  gsl_sf_lnfact, MutualInformation and CalculateDecay are
    parameters and so is the size of the table of log-factorials, as in RecModel.v.  Integers do not overflow.  A negative
    integer used as an index or as an argument of a logarithm is reported as [UB_oob].  Release of memory, what is printed and the
    files scores.tmp and part.tmp are left out. *)
From Coq Require Import List Arith ZArith Bool QArith.
From Verif Require Import Base MatLib GraphModel GroupModel NetModel ModulesModel ToolsModel MissModel RecModel.
Import ListNotations.
Local Open Scope nat_scope.

Section Ks.
Context {A : Type} {ops : NumOps A}.
Variable lnfact : nat -> A.
Variable mutual : gpart A -> gpart A -> A.
Variable decay_of : nat -> nat -> A -> nat -> A -> A.
Variable lfsize : nat.
Variable K : nat.

(** src/modules.c 932-945, NWeightG2GLinks, for groups that may be the same. *)
Definition NWeightG2G (g : net A) (P : gpart A) (k1 k2 : nat) (w : A) : res nat :=
  do G1 <- get P k1;
  do G2 <- get P k2;
  do c <- NWeightG2GLinks g G1 G2 w;
  Ok (if k1 =? k2 then Nat.div c 2 else c).

(** src/missing.c 1326-1333: the term of a pair of groups. *)
Definition ls_pair (g : net A) (P : gpart A) (k1 : nat) (H : A) (k2 : nat) : res A :=
  do n <- NG2GLinks g P k1 k2;
  do m <- nat_of (Z.of_nat n + Z.of_nat K - 1)%Z;
  foldM (fun H k => do nk <- NWeightG2G g P k1 k2 (nofnat k); Ok (nsub H (lnfact nk))) (nadd H (lnfact m)) (seq 0 K).
(** src/missing.c 1319-1335: one group with itself and those after it. *)
Definition ls_group (g : net A) (P : gpart A) (st : A * Z * Z) (k1 : nat) : res (A * Z * Z) :=
  let '(H, nnod, ng) := st in
  do G <- get P k1;
  do H <- foldM (ls_pair g P k1) H (seq k1 (length P - k1));
  Ok (H, (nnod + psize G)%Z, if (0 <? psize G)%Z then (ng + 1)%Z else ng).
(** src/missing.c 1307-1342, LSHKState. *)
Definition LSHKState (g : net A) (P : gpart A) : res A :=
  do (H, nnod, ng) <- foldM (ls_group g P) (n0, 0%Z, 0%Z) (seq 0 (length P));
  do a <- nat_of (nnod - ng);
  Ok (nsub H (lnfact a)).

Section Step.
Variable tabf : list A.

(** src/missing.c 1397-1403 and the like: the terms of a pair of groups, those of the values first. *)
Definition ks_charge (s : bool) (d : A) (cs : list Z) : res A :=
  do d <- foldM (fun d c => do c <- nat_of c; do x <- FastTable lnfact c tabf lfsize; Ok (signed s d (nopp x))) d cs;
  do n <- nat_of (fold_left Z.add cs 0 + Z.of_nat K - 1)%Z;
  do x <- FastTable lnfact n tabf lfsize;
  Ok (signed s d x).
(** src/missing.c 1394-1415 and, with the other sign, 1448-1469: groups without members are not left out. *)
Definition ks_charges (s : bool) (T : list (list (list Z))) (o w : nat) (d : A) (P : gpart A) : res A :=
  foldM (fun d G =>
    do c <- counts K T o (plabel G);
    do d <- ks_charge s d c;
    if plabel G =? o then Ok d
    else do c <- counts K T w (plabel G); ks_charge s d c) d P.

(** T[k][i'][j'] = T[k][i][j]. *)
Definition copy3 (T : list (list (list Z))) (k i j i' j' : nat) : res (list (list (list Z))) :=
  do m <- get T k;
  do x <- get2 m i j;
  do m <- set2 m i' j' x;
  set T k m.
(** src/missing.c 1424-1431; with [sg] = -1, 1484-1491. *)
Definition ks_cell (sg : Z) (N : list (list (list Z))) (v o w i : nat) (T : list (list (list Z))) (k : nat) : res (list (list (list Z))) :=
  do m <- get N k;
  do x <- get2 m v i;
  do T <- add3 T k o i (- (sg * x))%Z;
  do T <- add3 T k w i (sg * x)%Z;
  do T <- copy3 T k o i i o;
  copy3 T k w i i w.
Definition ks_shift (sg : Z) (N : list (list (list Z))) (v o w : nat) (T : list (list (list Z))) (ngroup : nat) : res (list (list (list Z))) :=
  foldM (fun T i => foldM (ks_cell sg N v o w i) T (seq 0 K)) T (seq 0 ngroup).

(** src/missing.c 1380-1503: one move. *)
Definition ks_move (st : rec A) (_ : nat) : res (rec A) :=
  let me := r1 st in
  do (u, ds) <- draw (rds st);
  do p <- get (snl me) (nfloor (nmul u (nofnat (sn me))));
  do p <- deref p;
  do n <- get (rnet st) p;
  do o <- (match ggroup n with Some o => Ok o | None => Err UB_oob end);
  do (w, ds) <- redraw (sn me) o ds;
  do ko <- get (sgl me) o;
  do kw <- get (sgl me) w;
  do ko <- deref ko;
  do kw <- deref kw;
  do d <- ks_charges false (sG me) o w n0 (sP me);
  do Go <- get (sP me) ko;
  do Gw <- get (sP me) kw;
  do d <- (if (psize Go =? 1)%Z || (psize Gw =? 0)%Z then do x <- label_term lnfact lfsize tabf me (sng me); Ok (nadd d x) else Ok d);
  do (_, (g, P)) <- MoveNode (rnet st, sP me) p ko kw;
  do T <- ks_shift 1 (sN me) (gnum n) o w (sG me) (sn me);
  do N <- foldM (shift_link K 1 g o w) (sN me) (gadj n);
  do Go <- get P ko;
  do Gw <- get P kw;
  let ng := if (psize Go =? 0)%Z then (sng me - 1)%Z else sng me in
  let ng := if (psize Gw =? 1)%Z then (ng + 1)%Z else ng in
  do d <- ks_charges true T o w d P;
  do d <- (if (psize Go =? 0)%Z || (psize Gw =? 1)%Z then do x <- label_term lnfact lfsize tabf me ng; Ok (nsub d x) else Ok d);
  do (acc, ds) <- accepts d ds;
  if acc : bool then Ok (mkRec g (mkSide (sn me) (snl me) (sgl me) P ng N T) (r2 st) (nadd (rH st) d) (rtab st) ds)
  else
    do (_, (g, P)) <- MoveNode (g, P) p kw ko;
    do T <- ks_shift (-1) N (gnum n) o w T (sn me);
    do N <- foldM (shift_link K (-1) g o w) N (gadj n);
    do Go <- get P ko;
    do Gw <- get P kw;
    let ng := if (psize Go =? 1)%Z then (ng + 1)%Z else ng in
    let ng := if (psize Gw =? 0)%Z then (ng - 1)%Z else ng in
    Ok (mkRec g (mkSide (sn me) (snl me) (sgl me) P ng N T) (r2 st) (rH st) (rtab st) ds).
(** src/missing.c 1352-1505, LSMCStepKState. *)
Definition LSMCStepKState (factor : nat) (st : rec A) : res (rec A) := foldM ks_move st (seq 0 (sn (r1 st) * factor)).

(** src/missing.c 1514-1629, LSGetDecorrelationStepKState: as GetDecorrelationStep in MissModel.v, with every estimate doubled. *)
Definition ks_decor_step (ref : gpart A) (x1 : nat) (sy : rec A * A) (step : nat) : res (rec A * A) :=
  let '(st, y1) := sy in
  do st <- LSMCStepKState 1 st;
  Ok (if step =? x1 then (st, mutual ref (sP (r1 st))) else (st, y1)).
Definition ks_decor_one (st : rec A) : res (A * rec A) :=
  let x2 := Nat.div (sn (r1 st)) 5 in
  let x2 := if x2 <? 10 then 10 else x2 in
  let x1 := Nat.div x2 4 in
  do (g, ref) <- CopyPartition (rnet st) (sP (r1 st));
  do (st, y1) <- foldM (ks_decor_step ref x1) (mkRec g (r1 st) (r2 st) (rH st) (rtab st) (rds st), n0) (seq 0 (x2 + 1));
  Ok (nmul (nofQ (2 # 1)) (decay_of (sn (r1 st)) x1 y1 x2 (mutual ref (sP (r1 st)))), st).
Fixpoint ks_decor_reps (fuel left : nat) (decay : list A) (st : rec A) : res (list A * rec A) :=
  match left with
  | 0 => Ok (decay, st)
  | S left' =>
      match fuel with
      | 0 => Err Diverge
      | S f =>
          do (x, st) <- ks_decor_one st;
          if nltb x n0 then ks_decor_reps f left decay st else ks_decor_reps f left' (decay ++ [x]) st
      end
  end.
Definition LSGetDecorrelationStepKState (st : rec A) : res (nat * rec A) :=
  do (decay, st) <- ks_decor_reps (length (rds st) + 11) 10 [] st;
  do m <- mean decay 10;
  do s <- stddev decay 10;
  let '(result, norm) := fold_left (fun '(result, norm) d =>
      if nltb (nofQ (2 # 1)) (ndiv (nabs (nsub d m)) s) then (nsub result d, norm) else (result, norm + 1)) decay (nmul m (nofnat 10), 0) in
  Ok (nfloor (nadd (ndiv result (nofnat norm)) (nofQ (1 # 2))), st).
(** src/missing.c 1637-1716, LSThermalizeMCKState: the loop is that of RecModel.v. *)
Definition LSThermalizeMCKState (factor : nat) (st : rec A) : res (rec A) := Thermalize (LSMCStepKState factor) st.
End Step.

(** src/missing.c 1783-1794: all pairs of nodes; writing more of them than were counted is out of bounds. *)
Definition ks_queries (n : nat) : res (list (nat * nat)) :=
  let qs := flat_map (fun p => map (fun q => (p, q)) (seq (p + 1) (n - (p + 1)))) (seq 0 n) in
  do _ <- check (length qs <=? Nat.div (n * (n - 1)) 2) UB_oob;
  Ok qs.
(** src/missing.c 1812-1821: every number is written to both places. *)
Definition ks_fill (n : nat) (f : nat -> nat -> nat -> res nat) : res (list (list (list Z))) :=
  mapM (fun k => foldM (fun M i => foldM (fun M j =>
    do x <- f k i j; do M <- set2 M j i (Z.of_nat x); set2 M i j (Z.of_nat x)) M (seq 0 n)) (repeat (repeat 0%Z n) n) (seq 0 n)) (seq 0 K).
(** src/missing.c 1766-1840: the set-up, with each node alone in a group. *)
Definition ks_setup (g : net A) (ds : list A) : res (rec A) :=
  let n := length g in
  do (nl, gl, P) <- map_side g (seq 0 n);
  do g <- reset_side g (seq 0 n);
  do (g, P) <- place_side gl (g, P) (seq 0 n);
  do G2G <- ks_fill n (fun k i j => do a <- get gl i; do b <- get gl j; do a <- deref a; do b <- deref b; NWeightG2G g P a b (nofnat k));
  do N2G <- fill_tables K n n (fun k i j => do p <- ptr_node nl i; do G <- ptr_group gl P j; NWeightLinksToGroup g p (plabel G) (nofnat k));
  do H <- LSHKState g P;
  Ok (mkRec g (mkSide n nl gl P (Z.of_nat (NNonEmptyGroups P)) N2G G2G) (mkSide 0 [] [] [] 0%Z [] []) H [] ds).

(** src/missing.c 1727-1988, LSMultiLinkScoreKState.  [decor]: decorStep, if it is positive; [debug]: verbose_sw is 'd'.  One list of scores per
    query; the score of value k is score[k][q].  The conversions to float are left out. *)
Definition LSMultiLinkScoreKState (debug : bool) (g : net A) (nIter : nat) (decor : option nat) (ds : list A) : res (list (nat * nat * list A) * rec A) :=
  let tabf := InitializeTable lnfact lfsize in
  do qs <- ks_queries (length g);
  do st <- ks_setup g ds;
  do (decor, st) <- (match decor with Some d => Ok (d, st) | None => LSGetDecorrelationStepKState tabf st end);
  do st <- LSThermalizeMCKState tabf decor st;
  let st := if debug then st else set_H n0 st in
  do (scores, st) <- score_all K (LSMCStepKState tabf decor) below true qs nIter st;
  Ok (combine qs scores, st).
End Ks.

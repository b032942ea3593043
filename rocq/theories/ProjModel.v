(** ProjModel.v -- model of ProjectBipartEdgeList, src/fillpartitions.c 112-258. *)
From Coq Require Import List Arith ZArith QArith.
From Verif Require Import Base PartModel FillModel.
Import ListNotations.
Local Open Scope nat_scope.

Section Model.
Context {A : Type} {ops : NumOps A}.

(** src/fillpartitions.h 31-35, struct Edge. *)
Record Edge := mkEdge { enode1 : nat; enode2 : nat; estr : A }.

(** src/fillpartitions.c 112-129, EdgeCompare. *)
Definition EdgeCompare (p1 p2 : Edge) : Z :=
  let y1 := enode2 p1 in
  let y2 := enode2 p2 in
  if y1 <? y2 then (-1)%Z
  else if y2 <? y1 then 1%Z
  else
    let y1 := enode1 p1 in
    let y2 := enode1 p2 in
    if y1 <? y2 then (-1)%Z
    else if y2 <? y1 then 1%Z
    else 0%Z.

(** Read of [l[i+1]] for an array of exactly [length l] elements.  Lines 166, 186, 212 and 239 read one element past
    the end in the last round; [past] is what that memory holds, [None] if reading it is an error. *)
Definition next (l : list Edge) (past : option Edge) (i : nat) : res Edge :=
  match nth_error l (i + 1) with
  | Some e => Ok e
  | None => if i + 1 =? length l then match past with Some e => Ok e | None => Err UB_oob end else Err UB_oob
  end.

(** src/fillpartitions.c 143-151: the edges, and the number of nodes (one more than the largest).  Numbers are
    unbounded. *)
Definition pj_read (es : list (nat * nat * A)) : nat * list Edge :=
  fold_left (fun '(N, ed) '(a, b, w) => (if N <? a + 1 then a + 1 else N, ed ++ [mkEdge a b w])) es (0, []).

(** State of the loop of lines 162-174: degree, Emax, strength, fac1, fac2 and the partition.  [strength] is declared
    without a value (line 157): [None] until it is first set. *)
Record pj_acc := mkAcc { jdeg : nat; jEmax : nat; jstr : option A; jfac1 : A; jfac2 : A; jpart : partition A }.

(** src/fillpartitions.c 162-174, one round. *)
Definition pj_count (ed : list Edge) (past : option Edge) (s : pj_acc) (i : nat) : res pj_acc :=
  let degree := jdeg s + 1 in
  do e <- get ed i;
  do st <- match jstr s with Some x => Ok x | None => Err UB_uninit end;
  let st := nadd st (estr e) in
  do p <- upd_node (jpart s) (enode1 e) (fun nd => set_nstr (nadd (nstr nd) (estr e)) nd);
  do e' <- next ed past i;
  if negb (enode2 e =? enode2 e') || (i =? length ed - 1) then
    Ok (mkAcc 0 (jEmax s + degree * (degree - 1) / 2) (Some n0)
         (nadd (jfac1 s) (nmul st (nsub st (ndiv st (nofnat degree))))) (nadd (jfac2 s) st) p)
  else Ok (mkAcc degree (jEmax s) (Some st) (jfac1 s) (jfac2 s) p).

(** src/fillpartitions.c 187-200: one pair of members of a team.  Both branches of line 189 do the same.  [projected]
    has Emax elements, [None] until written. *)
Definition pj_pair (ed : list Edge) (x : nat) (s : list (option Edge) * nat) (y : nat) : res (list (option Edge) * nat) :=
  let '(pr, j) := s in
  do ex <- get ed x;
  do ey <- get ed y;
  let e := if enode1 ex <? enode1 ey then mkEdge (enode1 ex) (enode1 ey) (nmul (estr ex) (estr ey))
           else mkEdge (enode1 ex) (enode1 ey) (nmul (estr ex) (estr ey)) in
  do pr <- set pr j (Some e);
  Ok (pr, j + 1).

(** src/fillpartitions.c 184-204, one round: the state is (projected, j) and x0.  [degree] is not used here. *)
Definition pj_team (ed : list Edge) (past : option Edge) (s : list (option Edge) * nat * nat) (i : nat)
  : res (list (option Edge) * nat * nat) :=
  let '(pr, j, x0) := s in
  do e <- get ed i;
  do e' <- next ed past i;
  if negb (enode2 e =? enode2 e') || (i =? length ed - 1) then
    do (pr, j) <- foldM (fun s x => foldM (pj_pair ed x) s (seq x0 (x - x0))) (pr, j) (seq x0 (i + 1 - x0));
    Ok (pr, j, i + 1)
  else Ok (pr, j, x0).

(** The first [j] elements of [projected] are sorted (line 207) and must have been written. *)
Fixpoint pj_written (l : list (option Edge)) : res (list Edge) :=
  match l with
  | [] => Ok []
  | Some e :: l => do r <- pj_written l; Ok (e :: r)
  | None :: _ => Err UB_uninit
  end.

(** src/fillpartitions.c 210-218: degrees of the nodes and number of different pairs; [E] is an int counted down from j. *)
Definition pj_degree (pr : list Edge) (past : option Edge) (s : list nat * nat) (i : nat) : res (list nat * nat) :=
  let '(deg, E) := s in
  do e <- get pr i;
  do e' <- next pr past i;
  if negb (EdgeCompare e e' =? 0)%Z || (i =? length pr - 1) then
    do d <- get deg (enode1 e);
    do deg <- set deg (enode1 e) (d + 1);
    do d <- get deg (enode2 e);
    do deg <- set deg (enode2 e) (d + 1);
    Ok (deg, E)
  else do E <- dec E; Ok (deg, E).

(** src/fillpartitions.c 222-229: the row starts, in adj->idx and in the working copy. *)
Definition pj_index (deg : list nat) (s : list nat * list nat * nat) (i : nat) : res (list nat * list nat * nat) :=
  let '(idx, aidx, k) := s in
  do idx <- set idx i k;
  do aidx <- set aidx i k;
  do d <- get deg i;
  Ok (idx, aidx, k + d).

(** src/fillpartitions.c 233-244, one round: the state is (neighbors, strength, idx). *)
Definition pj_fill (pr : list Edge) (past : option Edge) (s : list nat * list A * list nat) (i : nat)
  : res (list nat * list A * list nat) :=
  let '(nb, st, idx) := s in
  do e <- get pr i;
  do k <- get idx (enode1 e);
  do x <- get st k;
  do st <- set st k (nadd x (estr e));
  do k <- get idx (enode2 e);
  do x <- get st k;
  do st <- set st k (nadd x (estr e));
  do e' <- next pr past i;
  if negb (EdgeCompare e e' =? 0)%Z then
    do k <- get idx (enode1 e);
    do nb <- set nb k (enode2 e);
    do k <- get idx (enode2 e);
    do nb <- set nb k (enode1 e);
    do k <- get idx (enode1 e);
    do idx <- set idx (enode1 e) (k + 1);
    do k <- get idx (enode2 e);
    do idx <- set idx (enode2 e) (k + 1);
    Ok (nb, st, idx)
  else Ok (nb, st, idx).

(** src/fillpartitions.c 246-253: scale the strengths of the nodes and of the stored links. *)
Definition pj_scale (aidx : list nat) (fac1 fac2 : A) (s : partition A * list A) (i : nat) : res (partition A * list A) :=
  let '(p, st) := s in
  do p <- upd_node p i (fun nd => set_nstr (nmul (nstr nd) fac2) nd);
  do a <- get aidx i;
  do b <- get aidx (i + 1);
  do st <- foldM (fun st k => do x <- get st k; set st k (nmul x fac1)) st (seq a (b - a));
  Ok (p, st).

(** src/fillpartitions.c 131-258, ProjectBipartEdgeList.  [qsort] is the library's sort for EdgeCompare, [s0] the
    content of the uninitialised variable of line 157, [past1] and [past2] the memory after the arrays [ed] and
    [projected]; if fewer than Emax elements of [projected] were written, the next one is uninitialised.  The working arrays are released before the return. *)
Definition ProjectBipartEdgeList (qsort : list Edge -> list Edge) (s0 : option A) (past1 past2 : option Edge)
    (es : list (nat * nat * A)) : res (nat * partition A * adja A) :=
  let (N, ed) := pj_read es in
  let ed := qsort ed in
  do p <- CreatePartition N N;
  do s <- foldM (pj_count ed past1) (mkAcc 0 0 s0 n0 n0 p) (seq 0 (length ed));
  let fac1 := ndiv n1 (jfac1 s) in
  let fac2 := ndiv n1 (jfac2 s) in
  do (pr, j, _) <- foldM (pj_team ed past1) (repeat None (jEmax s), 0, 0) (seq 0 (length ed));
  do written <- pj_written (firstn j pr);
  let past2 := if j =? length pr then past2 else None in
  let pr := qsort written in
  do (deg, E) <- foldM (pj_degree pr past2) (repeat 0 N, j) (seq 0 (length pr));
  let adj := CreateAdjaArray N E in
  do (idx, aidx, _) <- foldM (pj_index deg) (repeat 0 N, aidx adj, 0) (seq 0 N);
  do (nb, st, _) <- foldM (pj_fill pr past2) (anb adj, astr adj, idx) (seq 0 (length pr));
  do (p, st) <- foldM (pj_scale aidx fac1 fac2) (jpart s, st) (seq 0 N);
  Ok (E, p, mkAdja N E aidx nb st).

End Model.
Arguments Edge : clear implicits.

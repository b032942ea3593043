(** NetcartoModel.v -- model of netcarto/main_netcarto.c 166-252 (the program after its options are read) and of
    TabularOutput, src/io.c 214-231. *)
From Coq Require Import List Arith ZArith QArith Ascii Bool.
From Verif Require Import Base PartModel FillModel SAModel IoModel ProjModel.
Import ListNotations.
Local Open Scope nat_scope.

Section Model.
Context {A : Type} {ops : NumOps A}.

(** One printed row: label, module, connectivity, participation, role (the number after the R). *)
Record trow := mkRow { t_label : label; t_module : nat; t_z : A; t_P : A; t_role : nat }.

(** src/io.c 214-231, TabularOutput: the rows as data.  The layout (%-30s, tabs) and the rounding of %f are left out. *)
Definition TabularOutput (labels : list label) (p : partition A) (connectivity participation : list A) : res (list trow) :=
  foldM (fun out i =>
    do P <- get participation i;
    do z <- get connectivity i;
    let rolenb := GetRole P z + 1 in
    do l <- get labels i;
    do nd <- get (pnodes p) i;
    Ok (out ++ [mkRow l (nmod nd) z P rolenb])) [] (seq 0 (pN p)).

(** The options of main_netcarto.c 92-146 that matter: -w, -b, -t, -r, -i, -c, -C; [oread] is the text of the file of -p.
    The values are those after the switch; Ngroups is 0 because no option sets it. *)
Record options := mkOpt {
  oweighted : bool; obipartite : bool; oinvert : bool; oroles : bool; ofac : A; oTs : A; oproba : A;
  oread : option (list ascii)
}.

(** What the program prints: lines 243-252. *)
Record report := mkReport { rmod : A; rdiag : A; rtable : option (list trow); rtext : option (list ascii) }.

(** The first [E] cells of the three arrays filled by EdgeListFileInput. *)
Definition cell {X} (b : buf X) (i : nat) : res X := do o <- get b i; match o with Some x => Ok x | None => Err UB_uninit end.
Definition edges_in (inp : @edge_input A) : res (list (nat * nat * A)) :=
  foldM (fun l k => do a <- cell (ei_in inp) k; do b <- cell (ei_out inp) k; do w <- cell (ei_w inp) k; Ok (l ++ [(a, b, w)])) [] (seq 0 (eiE inp)).
Definition labels_in (inp : @edge_input A) : res (list label) :=
  foldM (fun l k => do x <- cell (ei_labels inp) k; Ok (l ++ [x])) [] (seq 0 (eiN inp)).

(** main_netcarto.c 168-183: the network.  The code of EdgeListFileInput is stored in [err] and not looked at: after a
    failure N is read uninitialised (line 172).  [s0], [past1], [past2] and [qsort] as in ProjectBipartEdgeList. *)
Definition nc_input (scan_lf : list ascii -> option A) (qsort : list (Edge A) -> list (Edge A)) (s0 : option A) (past1 past2 : option (Edge A))
    (o : options) (file : list ascii) : res (partition A * adja A * list label * nat) :=
  do inp <- EdgeListFileInput scan_lf (oweighted o) ((if obipartite o then 1 else 0) + (if oinvert o then 1 else 0)) file;
  match inp with
  | None => Err UB_uninit
  | Some inp =>
      do es <- edges_in inp;
      do labels <- labels_in inp;
      let N := eiN inp in
      if negb (obipartite o) then
        do p <- CreatePartition N N;
        do (adj, p) <- EdgeListToAdjaArray es (CreateAdjaArray N (eiE inp)) p true;
        Ok (p, adj, labels, N)
      else
        do (_, p, adj) <- ProjectBipartEdgeList qsort s0 past1 past2 es;
        Ok (p, adj, labels, N)
  end.

(** main_netcarto.c 189-215: the partition, by annealing or from a file.  CompressPartition gets what GeneralSA returns, which may be
    null.  Ti is 1/N and Tf is 1e-200. *)
Definition nc_partition (o : options) (p : partition A) (adj : adja A) (labels : list label) (N : nat) (ds : list A) : res (partition A * list A) :=
  match oread o with
  | None =>
      let Ti := ndiv n1 (nofnat N) in
      let Tf := nofQ (1 # (Pos.pow 10 200))%Q in
      do (p, _) <- AssignNodesToModules p [];
      do (best, _, ds) <- GeneralSA p adj (ofac o) Ti Tf (oTs o) (oproba o) 25 ds;
      do p <- deref best;
      do p <- CompressPartition p;
      Ok (p, ds)
  | Some text =>
      do (p, _) <- AssignNodesToModulesFromFile text p labels;
      Ok (p, ds)
  end.

(** main_netcarto.c 217-252: both modularities, and the table or the clusters. *)
Definition nc_report (o : options) (p : partition A) (adj : adja A) (labels : list label) : res report :=
  do m <- PartitionModularity p adj false;
  do d <- PartitionModularity p adj true;
  if oroles o then
    do (conn, part) <- PartitionRolesMetrics p adj (repeat n0 (pN p));
    do t <- TabularOutput labels p conn part;
    Ok (mkReport m d (Some t) None)
  else
    do t <- ClusteringOutput p labels;
    Ok (mkReport m d None (Some t)).

(** main_netcarto.c 166-252. *)
Definition netcarto (scan_lf : list ascii -> option A) (qsort : list (Edge A) -> list (Edge A)) (s0 : option A) (past1 past2 : option (Edge A))
    (o : options) (file : list ascii) (ds : list A) : res report :=
  do (p, adj, labels, N) <- nc_input scan_lf qsort s0 past1 past2 o file;
  do (p, _) <- nc_partition o p adj labels N ds;
  nc_report o p adj labels.
End Model.
Arguments trow : clear implicits.
Arguments options : clear implicits.
Arguments report : clear implicits.

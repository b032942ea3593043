(** TeamModel.v -- src/bipartite.c: random two-sided networks with modules. *)
From Coq Require Import List Arith Bool QArith.
From Verif Require Import Base ToolsModel.
Import ListNotations.
Local Open Scope nat_scope.

Section Team.
Context {A : Type} {ops : NumOps A}.

(** src/bipartite.c 163-296, BuildModularBipartiteNetwork.  Agents and teams are numbers from 0 (their labels are A1, A2, ... and B1, B2, ...).  A team is its inGroup, [None] for -1, and the list of the agents linked to it in the order in which the links are made: both directions are made together and only after IsThereLink has answered 0, so IsThereLink(list1[t], list2[i]) is membership of t in the list.  Allocation does not fail. *)
Record team := mkTeam { tcol : option nat; tagents : list nat }.

(** src/bipartite.c 195-203: the module of each agent and the first agent of each module. *)
Fixpoint modules_of (i : nat) (sizes : list nat) : list nat :=
  match sizes with [] => [] | s :: sizes' => repeat i s ++ modules_of (i + 1) sizes' end.
Fixpoint starts_of (s1 : nat) (sizes : list nat) : list nat :=
  match sizes with [] => [] | s :: sizes' => s1 :: starts_of (s1 + s) sizes' end.
(** src/bipartite.c 229-235: the color from col_prob; [k] is teamcol + 1. *)
Fixpoint pick_color (dice cum : A) (col_prob : list A) (k : nat) : res (option nat) :=
  if nltb cum dice then match col_prob with [] => Err UB_oob | x :: cp => pick_color dice (nadd cum x) cp (k + 1) end
  else Ok (match k with 0 => None | S c => Some c end).
(** src/bipartite.c 228-239: the color of a team. *)
Definition team_color (nmod : nat) (col_prob : option (list A)) (ds : list A) : res (option nat * list A) :=
  do (u, ds) <- draw ds;
  match col_prob with
  | Some cp => do c <- pick_color u n0 cp 0; Ok (c, ds)
  | None => Ok (Some (nfloor (nmul u (nofnat nmod))), ds)
  end.
(** src/bipartite.c 243-250: the size of a team.  [mmin] is [None] if it is negative; mmax is not negative. *)
Definition team_size (mmin : option nat) (mmax : nat) (geom_p : A) (ds : list A) : res (nat * list A) :=
  match mmin with
  | None => geometric_dist_val geom_p ds
  | Some lo => if mmax =? lo then Ok (lo, ds)
      else do (u, ds) <- draw ds; Ok (nfloor (nadd (nmul u (nsub (nofnat (mmax + 1)) (nofnat lo))) (nofnat lo)), ds)
  end.
(** src/bipartite.c 257-260 and 263-265: agents [lo], [lo]+1, ... ([n] of them) are drawn until one is not in the team; list1 has [s1] entries. *)
Fixpoint pick_agent (s1 lo n : nat) (agents : list nat) (ds : list A) : res (nat * list A) :=
  match ds with
  | [] => Err RngOut
  | u :: ds =>
      let t := lo + nfloor (nmul u (nofnat n)) in
      if t <? s1 then if existsb (Nat.eqb t) agents then pick_agent s1 lo n agents ds else Ok (t, ds)
      else Err UB_oob
  end.
(** src/bipartite.c 254-273: one spot of a team. *)
Definition spot (sizes : list nat) (p : A) (col : option nat) (st : list nat * nat * list A) (j : nat) : res (list nat * nat * list A) :=
  let '(agents, n_team_col, ds) := st in
  let s1 := length (modules_of 0 sizes) in
  do (u, ds) <- draw ds;
  do own <- if nltb u p then (do c <- match col with Some c => Ok c | None => Err UB_oob end; do s <- get sizes c; Ok (if n_team_col <? s then Some (c, s) else None)) else Ok None;
  match own with
  | Some (c, s) =>
      do lo <- get (starts_of 0 sizes) c;
      do (t, ds) <- pick_agent s1 lo s agents ds;
      Ok (agents ++ [t], n_team_col + 1, ds)
  | None =>
      do (t, ds) <- pick_agent s1 0 s1 agents ds;
      do c <- get (modules_of 0 sizes) t;
      Ok (agents ++ [t], if match col with Some c' => c =? c' | None => false end then n_team_col + 1 else n_team_col, ds)
  end.
(** src/bipartite.c 222-274: one team. *)
Definition one_team (sizes : list nat) (col_prob : option (list A)) (mmin : option nat) (mmax : nat) (geom_p p : A) (st : list team * list A) (i : nat) : res (list team * list A) :=
  let '(teams, ds) := st in
  do (col, ds) <- team_color (length sizes) col_prob ds;
  do (m, ds) <- team_size mmin mmax geom_p ds;
  do (agents, _, ds) <- foldM (spot sizes p col) ([], 0, ds) (seq 0 m);
  Ok (teams ++ [mkTeam col agents], ds).
(** src/bipartite.c 152-296: the modules of the agents and the teams.  [sizes] is modSizes, or nmod copies of nodpermod if it is NULL. *)
Definition BuildModularBipartiteNetwork (sizes : list nat) (col_prob : option (list A)) (S2 : nat) (mmin : option nat) (mmax : nat) (geom_p p : A) (ds : list A) : res (list nat * list team * list A) :=
  do (teams, ds) <- foldM (one_team sizes col_prob mmin mmax geom_p p) ([], ds) (seq 0 S2);
  Ok (modules_of 0 sizes, teams, ds).
End Team.

(** MoveModel.v -- model of src/movements.c. *)
From Coq Require Import List Arith ZArith QArith.
From Verif Require Import Base PartModel.
Import ListNotations.
Local Open Scope nat_scope.

Section Model.
Context {A : Type} {ops : NumOps A}.

(** src/movements.c 19-42, dEChangeModule. *)
Definition dEChangeModule (nodeid newModuleid : nat) (p : partition A) (adj : adja A) : res A :=
  do nd <- get (pnodes p) nodeid;
  let old := nmod nd in
  do oldm <- get (pmods p) old;
  do newm <- get (pmods p) newModuleid;
  do dE <- row_fold adj nodeid (fun dE i =>
      do j <- get (anb adj) i;
      do nj <- get (pnodes p) j;
      if nmod nj =? old then do s <- get (astr adj) i; Ok (nsub dE s)
      else if nmod nj =? newModuleid then do s <- get (astr adj) i; Ok (nadd dE s)
      else Ok dE) n0;
  let dE := nadd dE (nmul (nstr nd) (nsub (nsub (mstr oldm) (nstr nd)) (mstr newm))) in
  Ok (nmul (nofnat 2) dE).

(** src/movements.c 55-92, dEMergeModules. *)
Definition dEMergeModules (id1 id2 : nat) (p : partition A) (adj : adja A) : res A :=
  do m1 <- get (pmods p) id1;
  do m2 <- get (pmods p) id2;
  let '(small, idlarge) := if msize m2 <? msize m1 then (m2, id1) else (m1, id2) in
  do dE <- walkM (fun _ i => next_of p i)
      (fun dE i =>
         do nd <- get (pnodes p) i;
         row_fold adj (nid nd) (fun dE k =>
           do j <- get (anb adj) k;
           do nj <- get (pnodes p) j;
           if nmod nj =? idlarge then do s <- get (astr adj) k; Ok (nadd dE s) else Ok dE) dE)
      (length (pnodes p)) (mfirst small) n0;
  Ok (nmul (nofnat 2) (nsub dE (nmul (mstr m1) (mstr m2)))).

(** src/movements.c 111-124: bookkeeping of node, modules and partition.  [nd] is the node as read at line 105 and
    [old] the module id read at line 106. *)
Definition cm_book (nodeId newModuleId old : nat) (nd : node A) (p : partition A) : res (partition A) :=
  do newm <- get (pmods p) newModuleId;
  do p <- upd_node p nodeId (set_nmod (mid newm));                        (* 111 *)
  do p <- upd_mod p old (fun m => set_mstr (nsub (mstr m) (nstr nd)) m);  (* 114 *)
  do oldm <- get (pmods p) old;
  do sz <- dec (msize oldm);                                              (* 115 *)
  do p <- upd_mod p old (set_msize sz);
  let p := if sz =? 0 then set_nempty (pnempty p + 1) p else p in         (* 116-119 *)
  do newm <- get (pmods p) newModuleId;
  do p <- (if msize newm =? 0                                             (* 120-122 *)
           then do ne <- dec (pnempty p); Ok (set_nempty ne p) else Ok p);
  do p <- upd_mod p newModuleId (fun m => set_mstr (nadd (mstr m) (nstr nd)) m);   (* 123 *)
  upd_mod p newModuleId (fun m => set_msize (msize m + 1) m).             (* 124 *)

(** src/movements.c 130-137: take the node out of its list. *)
Definition cm_unlink (nodeId old : nat) (p : partition A) : res (partition A) :=
  do nd <- get (pnodes p) nodeId;
  do p <- match nprev nd with                                             (* 130-133 *)
          | Some a => upd_node p a (set_nnext (nnext nd))
          | None => upd_mod p old (set_mfirst (nnext nd))
          end;
  do nd <- get (pnodes p) nodeId;
  match nnext nd with                                                     (* 134-137 *)
  | Some b => upd_node p b (set_nprev (nprev nd))
  | None => upd_mod p old (set_mlast (nprev nd))
  end.

(** src/movements.c 140-146: put the node in front of its new list. *)
Definition cm_push (nodeId newModuleId : nat) (p : partition A) : res (partition A) :=
  do newm <- get (pmods p) newModuleId;
  do p <- upd_node p nodeId (set_nnext (mfirst newm));                    (* 140 *)
  do p <- upd_node p nodeId (set_nprev None);                             (* 141 *)
  do p <- match mfirst newm with                                          (* 142-145 *)
          | Some c => upd_node p c (set_nprev (Some nodeId))
          | None => upd_mod p newModuleId (set_mlast (Some nodeId))
          end;
  upd_mod p newModuleId (set_mfirst (Some nodeId)).                       (* 146 *)

(** src/movements.c 101-147, ChangeModule, statement by statement. *)
Definition ChangeModule (nodeId newModuleId : nat) (p : partition A) : res (partition A) :=
  do nd <- get (pnodes p) nodeId;                                         (* 105-106 *)
  do _ <- get (pmods p) (nmod nd);                                        (* 107 *)
  do p <- cm_book nodeId newModuleId (nmod nd) nd p;                      (* 108-124 *)
  do p <- cm_unlink nodeId (nmod nd) p;                                   (* 130-137 *)
  cm_push nodeId newModuleId p.                                           (* 140-146 *)

(** src/movements.c 160-199, MergeModules.  [small] and [large] are the module array indices the two
    C pointers refer to. *)
Definition MergeModules (id1 id2 : nat) (p : partition A) : res (partition A) :=
  do m1 <- get (pmods p) id1;
  do m2 <- get (pmods p) id2;
  if (msize m1 =? 0) || (msize m2 =? 0) then Ok p                         (* 168-169 *)
  else
  let '(small, large) := if msize m2 <? msize m1 then (id2, id1) else (id1, id2) in  (* 173-179 *)
  do sm <- get (pmods p) small;
  do lg <- get (pmods p) large;
  do p <- walkM (fun p i => next_of p i) (fun p i => upd_node p i (set_nmod (mid lg)))
            (length (pnodes p)) (mfirst sm) p;                            (* 181-182 *)
  let p := set_nempty (pnempty p + 1) p in                                (* 185 *)
  do sm <- get (pmods p) small;
  do p <- upd_mod p large (fun m => set_msize (msize m + msize sm) m);    (* 188 *)
  do p <- upd_mod p small (set_msize 0);                                  (* 189 *)
  do sm <- get (pmods p) small;
  do p <- upd_mod p large (fun m => set_mstr (nadd (mstr m) (mstr sm)) m);(* 190 *)
  do p <- upd_mod p small (set_mstr n0);                                  (* 191 *)
  do sm <- get (pmods p) small;
  do lg <- get (pmods p) large;
  do lf <- deref (mfirst lg);
  do p <- upd_node p lf (set_nprev (mlast sm));                           (* 194 *)
  do sl <- deref (mlast sm);
  do p <- upd_node p sl (set_nnext (mfirst lg));                          (* 195 *)
  do p <- upd_mod p large (set_mfirst (mfirst sm));                       (* 196 *)
  do p <- upd_mod p small (set_mlast None);                               (* 197 *)
  upd_mod p small (set_mfirst None).                                      (* 198 *)

(** src/movements.h 53-57, struct Stack, and src/movements.c 298-343.  [items] holds [maxsize] cells; [top] is the
    number of used cells (C keeps it minus one).  A value popped from the C stack is returned as int and
    compared with -1; the model returns [None] for that value. *)
Record bstack := mkStack { smax : nat; stop : nat; sitems : list nat }.
Definition CreateStack (N : nat) : bstack := mkStack N 0 (repeat 0 N).
Definition AddToStack (v : nat) (s : bstack) : res bstack :=
  do it <- set (sitems s) (stop s) v; Ok (mkStack (smax s) (stop s + 1) it).
Definition PopFromStack (s : bstack) : res (option nat * bstack) :=
  match stop s with
  | O => Ok (None, s)
  | S t => do v <- get (sitems s) t; Ok (Some v, mkStack (smax s) t (sitems s))
  end.

(** State of the traversal in src/movements.c 226-238. *)
Record trav := mkTrav {
  tvisit : list bool;     (* visited *)
  tstack : bstack;        (* to_visit *)
  tmove : bstack;         (* to_move *)
  tfind : nat             (* to_find *)
}.

(** src/movements.c 271-279: push the unvisited neighbours of [j]. *)
Definition push_neighbors (adj : adja A) (j : nat) (st : trav) : res trav :=
  row_fold adj j (fun st i =>
      do k <- get (anb adj) i;
      do v <- get (tvisit st) k;
      if v then Ok st
      else
        do vis <- set (tvisit st) k true;
        do stk <- AddToStack k (tstack st);
        Ok (mkTrav vis stk (tmove st) (tfind st))) st.

(** src/movements.c 260-281: [while ((j = Pop) != -1 && to_find)].  Each round pops an element and each node is pushed
    at most once, so [fuel] = N + 1 rounds are enough; more would be an infinite loop. *)
Fixpoint traverse (target : nat) (p : partition A) (adj : adja A) (add_to_empty : bool)
         (fuel : nat) (st : trav) : res trav :=
  match fuel with
  | O => Err Diverge
  | S f =>
      do (o, stk) <- PopFromStack (tstack st);
      let st := mkTrav (tvisit st) stk (tmove st) (tfind st) in
      match o with
      | None => Ok st
      | Some j =>
          if tfind st =? 0 then Ok st else
          do nd <- get (pnodes p) j;
          do st <- (if nmod nd =? target then
                      do fi <- dec (tfind st);
                      do mv <- (if add_to_empty then AddToStack j (tmove st) else Ok (tmove st));
                      Ok (mkTrav (tvisit st) (tstack st) mv fi)
                    else Ok st);
          do st <- push_neighbors adj j st;
          traverse target p adj add_to_empty f st
      end
  end.

(** src/movements.c 249-254: which module the new component goes to; one draw from the third on. *)
Definition pick_side (components : nat) (ds : list A) : res (bool * list A) :=
  if components =? 1 then Ok (false, ds)
  else if components =? 2 then Ok (true, ds)
  else do (u, ds) <- draw ds; Ok (nltb (nofQ (1 # 2)%Q) u, ds).

(** src/movements.c 241-283, the loop over the members of the target module. *)
Fixpoint split_walk (target : nat) (p : partition A) (adj : adja A) (fuel : nat) (cur : option nat)
         (components : nat) (st : trav) (ds : list A) : res (nat * trav * list A) :=
  match cur with
  | None => Ok (components, st, ds)
  | Some i =>
      if tfind st =? 0 then Ok (components, st, ds) else
      match fuel with
      | O => Err Diverge
      | S f =>
          do nd <- get (pnodes p) i;
          do v <- get (tvisit st) (nid nd);
          do (components, st, ds) <-
            (if v then Ok (components, st, ds)
             else
               do vis <- set (tvisit st) (nid nd) true;
               let components := components + 1 in
               do (side, ds) <- pick_side components ds;
               do stk <- AddToStack (nid nd) (tstack st);
               do st <- traverse target p adj side (S (pN p)) (mkTrav vis stk (tmove st) (tfind st));
               Ok (components, st, ds));
          split_walk target p adj f (nnext nd) components st ds
      end
  end.

(** src/movements.c 286-287: empty the to_move stack. *)
Fixpoint move_all (empty : nat) (fuel : nat) (s : bstack) (p : partition A) : res (partition A) :=
  match fuel with
  | O => Err Diverge
  | S f =>
      do (o, s) <- PopFromStack s;
      match o with
      | None => Ok p
      | Some i => do p <- ChangeModule i empty p; move_all empty f s p
      end
  end.

(** src/movements.c 220-293, SplitModuleByComponent. *)
Definition SplitModuleByComponent (target empty : nat) (p : partition A) (adj : adja A) (ds : list A)
  : res (nat * partition A * list A) :=
  do tm <- get (pmods p) target;
  let st := mkTrav (repeat false (pN p)) (CreateStack (pN p)) (CreateStack (msize tm)) (msize tm) in
  do (components, st, ds) <- split_walk target p adj (length (pnodes p)) (mfirst tm) 0 st ds;
  do p <- move_all empty (S (stop (tmove st))) (tmove st) p;
  Ok (components, p, ds).

End Model.

(** NetModel.v -- model of src/graph.c and src/modules.c: reading, writing, copying, joining and cutting networks.  Conventions
    of GraphModel.v: a pointer to a node is its position; search trees by label are dictionaries whose newest entry counts. *)
From Coq Require Import List Arith Ascii Bool.
From Verif Require Import Base IoModel GraphModel.
Import ListNotations.
Local Open Scope nat_scope.

Fixpoint mapM {X Y} (f : X -> res Y) (l : list X) : res (list Y) :=
  match l with [] => Ok [] | x :: l' => do y <- f x; do r <- mapM f l'; Ok (y :: r) end.

Section Net.
Context {A : Type} {ops : NumOps A}.
Notation net := (net A).
Notation gnode := (gnode A).
Notation link := (link A).

(** src/graph.c 567-596: find the node of a label, or add a new one at the end. *)
Definition intern (g : net) (d : dict) (lab : label) : res (nat * net * dict) :=
  match dict_find d lab with
  | Some p => Ok (p, g, d)
  | None => do (p, g) <- CreateNodeGraph g lab; Ok (p, g, (lab, p) :: d)
  end.
(** src/graph.c 598-602: the link of a line, both ways if [symmetric]. *)
Definition net_line (auto_link add_weight symmetric : bool) (g : net) (d : dict) (l1 l2 : label) (w : A) : res (net * dict) :=
  do (p, g, d) <- intern g d l1;
  do (q, g, d) <- intern g d l2;
  do (_, g) <- AddAdjacency g p q auto_link add_weight w 0;
  if symmetric && negb (p =? q) then do (_, g) <- AddAdjacency g q p auto_link add_weight w 0; Ok (g, d) else Ok (g, d).
Fixpoint net_lines (scan_lf : list ascii -> option A) (weighted auto_link add_weight symmetric : bool) (g : net) (d : dict) (ls : list (list ascii)) : res (option net) :=
  match ls with
  | [] => Ok (Some g)
  | line :: ls' =>
      do r <- scan_line scan_lf weighted line;
      match r with
      | None => Ok None
      | Some (l1, l2, w) =>
          do (g, d) <- net_line auto_link add_weight symmetric g d l1 l2 w;
          net_lines scan_lf weighted auto_link add_weight symmetric g d ls'
      end
  end.
(** src/graph.c 533-611, FBuildNetwork.  [None]: a line has too few fields and the function returns NULL. *)
Definition FBuildNetwork (scan_lf : list ascii -> option A) (file : list ascii) (weighted auto_link add_weight symmetric : bool) : res (option net) :=
  net_lines scan_lf weighted auto_link add_weight symmetric [] [] (getlines file).

(** strcmp(a, b) <= 0: characters are compared as unsigned numbers. *)
Fixpoint strcmp_le (a b : label) : bool :=
  match a, b with
  | [], _ => true
  | _ :: _, [] => false
  | x :: a', y :: b' => if nat_of_ascii x <? nat_of_ascii y then true else if nat_of_ascii y <? nat_of_ascii x then false else strcmp_le a' b'
  end.
(** src/graph.c 636-662, FPrintNetAdjacencyList.  [show] is the conversion %g. *)
Definition FPrintNetAdjacencyList (show : A -> list ascii) (g : net) (weighted symmetric : bool) : res (list ascii) :=
  foldM (fun out n =>
    foldM (fun out l =>
      do j <- deref (lref l);
      do m <- get g j;
      if negb symmetric || strcmp_le (glabel n) (glabel m)
      then Ok (out ++ glabel n ++ [" "%char] ++ glabel m ++ (if weighted then [" "%char] ++ show (lweight l) else []) ++ [nl])
      else Ok out) out (gadj n)) [] g.

(** src/graph.c 193-220: walk to the link with a label, or to the end.  A new soft link has number 0 (calloc) and no reference. *)
Fixpoint soft_link (add_weight : bool) (w : A) (status : nat) (lab : label) (ls : list link) : list link * bool :=
  match ls with
  | [] => ([mkLink 0 lab status None n0 w], true)
  | l :: ls' =>
      if label_eqb (llabel l) lab then
        if add_weight then (mkLink (lnode l) (llabel l) (lstatus l) (lref l) (lbtw l) (nadd (lweight l) w) :: ls', true) else (ls, false)
      else let '(r, b) := soft_link add_weight w status lab ls' in (l :: r, b)
  end.
(** src/graph.c 178-223, AddAdjacencySoft. *)
Definition AddAdjacencySoft (n : gnode) (lab : label) (auto_link add_weight : bool) (w : A) (status : nat) : bool * gnode :=
  if label_eqb (glabel n) lab && negb auto_link then (false, n)
  else let '(ls, r) := soft_link add_weight w status lab (gadj n) in (r, set_gadj ls n).
(** src/graph.c 301-311, CopyAdjacencyList. *)
Definition CopyAdjacencyList (nori ndes : gnode) : gnode :=
  fold_left (fun n l => snd (AddAdjacencySoft n (llabel l) true false (lweight l) (lstatus l))) (gadj nori) ndes.
(** src/graph.c 350-367, MakeLabelDict: the last node of a label is kept. *)
Definition MakeLabelDict (g : net) : dict := rev (combine (map glabel g) (seq 0 (length g))).
(** src/graph.c 229-257, RewireAdjacencyByLabel. *)
Definition RewireAdjacencyByLabel (g : net) : res net :=
  let d := MakeLabelDict g in
  mapM (fun n =>
    do ls <- mapM (fun l =>
      do j <- deref (dict_find d (llabel l));
      do m <- get g j;
      Ok (mkLink (gnum m) (llabel l) (lstatus l) (Some j) (lbtw l) (lweight l))) (gadj n);
    Ok (reset_cache (set_gadj ls n))) g.
(** src/graph.c 263-295, RewireAdjacencyByNum. *)
Definition RewireAdjacencyByNum (g : net) : res net :=
  do nlist <- foldM (fun a i => do n <- get g i; set a (gnum n) (Some i)) (repeat None (length g)) (seq 0 (length g));
  mapM (fun n =>
    do ls <- mapM (fun l =>
      do r <- get nlist (lnode l);
      do j <- deref r;
      do m <- get g j;
      Ok (mkLink (lnode l) (glabel m) (lstatus l) (Some j) (lbtw l) (lweight l))) (gadj n);
    Ok (reset_cache (set_gadj ls n))) g.
(** src/graph.c 316-344, CopyNetwork. *)
Definition CopyNetwork (g : net) : res net :=
  do c <- foldM (fun c n =>
    do (p, c) <- CreateNodeGraph c (glabel n);
    upd_node c p (fun m => CopyAdjacencyList n (mkNode (glabel m) (gnum m) (gstate n) (gadj m) (ggroup n) (gdvar n) (gdeg m) (gstr m)))) [] g;
  RewireAdjacencyByLabel c.
(** src/graph.c 1251-1273, RenumberNodes. *)
Definition RenumberNodes (g : net) : res net :=
  let g := map (fun p => set_gnum (fst p) (snd p)) (combine (seq 0 (length g)) g) in
  mapM (fun n =>
    do ls <- mapM (fun l =>
      do j <- deref (lref l);
      do m <- get g j;
      Ok (mkLink (gnum m) (llabel l) (lstatus l) (lref l) (lbtw l) (lweight l))) (gadj n);
    Ok (set_gadj ls n)) g.
(** src/graph.c 875-913, CleanAdjacencies. *)
Definition CleanAdjacencies (g : net) : net :=
  let d := MakeLabelDict g in
  map (fun n => reset_cache (set_gadj (filter (fun l => match dict_find d (llabel l) with Some _ => true | None => false end) (gadj n)) n)) g.
(** src/graph.c 843-868, RemoveIsolatedNodes.  Releasing nodes moves the others up in the list: [shift] gives the new positions.
    A pointer to a released node is read by RenumberNodes. *)
Definition shift (kept : list nat) (j : nat) : option nat :=
  (fix find pos ks := match ks with [] => None | k :: ks' => if k =? j then Some pos else find (pos + 1) ks' end) 0 kept.
Definition RemoveIsolatedNodes (g : net) : res (nat * net) :=
  do (kept, g) <- foldM (fun '(kept, g) i => do (k, g) <- NodeDegree g i; Ok (if k =? 0 then kept else kept ++ [i], g)) ([], g) (seq 0 (length g));
  do rest <- mapM (fun i =>
    do n <- get g i;
    do ls <- mapM (fun l =>
      do j <- deref (lref l);
      match shift kept j with
      | Some k => Ok (mkLink (lnode l) (llabel l) (lstatus l) (Some k) (lbtw l) (lweight l))
      | None => Err UB_free
      end) (gadj n);
    Ok (set_gadj ls n)) kept;
  do rest <- RenumberNodes rest;
  Ok (length g - length kept, rest).
(** src/modules.c 1057-1084, BuildNetFromGroup.  [cells] is the node list of the group. *)
Definition BuildNetFromGroup (g : net) (cells : list link) : res net :=
  do c <- foldM (fun c p =>
    do (i, c) <- CreateNodeGraph c (llabel p);
    do r <- deref (lref p);
    do n <- get g r;
    upd_node c i (fun m => CopyAdjacencyList n (mkNode (glabel m) (gnum m) (gstate n) (gadj m) (ggroup m) (gdvar n) (gdeg m) (gstr m)))) [] cells;
  let c := CleanAdjacencies c in
  do c <- RewireAdjacencyByLabel c;
  RenumberNodes c.
(** src/modules.c 1092-1140, BuildNetFromGroupNeig.  IsThereNode compares the address of a label of [g] with those of the new
    nodes, so it never finds one. *)
Definition BuildNetFromGroupNeig (g : net) (cells : list link) : res net :=
  let add c i := 
    do n <- get g i;
    do (k, c) <- CreateNodeGraph c (glabel n);
    upd_node c k (fun m => CopyAdjacencyList n (mkNode (glabel m) (gnum m) (gstate n) (gadj m) (ggroup n) (gdvar m) (gdeg m) (gstr m))) in
  do c <- foldM (fun c p =>
    do i <- deref (lref p);
    do n <- get g i;
    do c <- add c i;
    foldM (fun c l =>
      do j <- deref (lref l);
      do m <- get g j;
      match ggroup n, ggroup m with
      | None, None => Ok c
      | Some x, Some y => if x =? y then Ok c else add c j
      | _, _ => add c j
      end) c (gadj n)) [] cells;
  RewireAdjacencyByNum (CleanAdjacencies c).
(** src/graph.c 3205-3237, AddTwoNetworks. *)
Definition AddTwoNetworks (ga gb : net) : res net :=
  do s <- CopyNetwork ga;
  let d := MakeLabelDict ga in
  do s <- foldM (fun s n => match dict_find d (glabel n) with None => do (_, s) <- CreateNodeGraph s (glabel n); Ok s | Some _ => Ok s end) s gb;
  let d := MakeLabelDict s in
  foldM (fun s n =>
    foldM (fun s l =>
      do j <- deref (lref l);
      do m <- get gb j;
      do p <- deref (dict_find d (glabel n));
      do q <- deref (dict_find d (glabel m));
      do (_, s) <- AddAdjacency s p q true false n1 0;
      Ok s) s (gadj n)) s gb.
(** src/graph.c 3087-3196, CompareTwoNetworks: the counts of nodes, common nodes, links between common nodes and common links, and
    the four quotients. *)
Record comparison := mkCmp { nA_nod : nat; nB_nod : nat; ncom_nod : nat; p_nAB : A; p_nBA : A; nA_lin : nat; nB_lin : nat; ncom_lin : nat; p_lAB : A; p_lBA : A }.
Definition count_links (g : net) (d : dict) (f : nat -> nat -> res nat) : res nat :=
  foldM (fun k n =>
    foldM (fun k l =>
      do j <- deref (lref l);
      do m <- get g j;
      match dict_find d (glabel n), dict_find d (glabel m) with
      | Some x, Some y => do c <- f x y; Ok (k + c)
      | _, _ => Ok k
      end) k (gadj n)) 0 g.
Definition CompareTwoNetworks (ga gb : net) : res comparison :=
  let da := MakeLabelDict ga in
  let db := MakeLabelDict gb in
  let na := length ga in
  let nb := length gb in
  let nc := length (filter (fun n => match dict_find da (glabel n) with Some _ => true | None => false end) gb) in
  do la <- count_links ga db (fun _ _ => Ok 1);
  do lc <- count_links ga db (fun x y => do r <- IsThereLink gb x y; Ok (if r then 1 else 0));
  do lb <- count_links gb da (fun _ _ => Ok 1);
  let la := Nat.div la 2 in
  let lb := Nat.div lb 2 in
  let lc := Nat.div lc 2 in
  Ok (mkCmp na nb nc (ndiv (nofnat nc) (nofnat nb)) (ndiv (nofnat nc) (nofnat na)) la lb lc (ndiv (nofnat lc) (nofnat lb)) (ndiv (nofnat lc) (nofnat la))).
End Net.

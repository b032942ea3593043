(** DataModel.v -- model of src/datastruct.c: linked stacks and queues on a heap of cells.
    The heap is the list of cells ever allocated; a freed cell holds [None].  Reading or writing a freed cell is UB_free.
    A [void *] element is a value of type [X] with a distinguished null.  calloc always succeeds. *)
From Coq Require Import List Arith.
From Verif Require Import Base.
Import ListNotations.
Local Open Scope nat_scope.

Section Data.
Context {X : Type} (null : X).

(** src/datastruct.h, struct stack_node and struct queue_node. *)
Record cell := mkCell { cdata : X; cnext : option nat }.
Definition heap := list (option cell).
Definition load (h : heap) (a : nat) : res cell :=
  do c <- get h a; match c with Some c => Ok c | None => Err UB_free end.
Definition store (h : heap) (a : nat) (c : cell) : res heap := do _ <- load h a; set h a (Some c).
Definition free (h : heap) (a : nat) : res heap := do _ <- load h a; set h a None.
Definition alloc (h : heap) (c : cell) : nat * heap := (length h, h ++ [Some c]).

(** src/datastruct.h, struct stack and struct queue. *)
Record stack := mkStack { stop : option nat; slen : nat }.
Record queue := mkQueue { qfirst : option nat; qlast : option nat; qlen : nat }.

(** src/datastruct.c 23-32 and 143-153. *)
Definition stack_create : stack := mkStack None 0.
Definition queue_create : queue := mkQueue None None 0.

(** src/datastruct.c 39-46. *)
Definition stack_empty (s : stack) : bool := match stop s with None => true | Some _ => false end.

(** src/datastruct.c 53-65. *)
Definition stack_push (h : heap) (s : stack) (d : X) : heap * stack :=
  let '(a, h) := alloc h (mkCell d (stop s)) in (h, mkStack (Some a) (slen s + 1)).

(** src/datastruct.c 72-89. *)
Definition stack_pop (h : heap) (s : stack) : res (X * heap * stack) :=
  match stop s with
  | None => Ok (null, h, s)
  | Some a =>
      do c <- load h a;
      do h <- free h a;
      do n <- dec (slen s);
      Ok (cdata c, h, mkStack (cnext c) n)
  end.

(** src/datastruct.c 96-103. *)
Definition stack_top (h : heap) (s : stack) : res X :=
  match stop s with None => Ok null | Some a => do c <- load h a; Ok (cdata c) end.

(** src/datastruct.c 110-116.  Each round frees a cell, so the number of cells bounds the rounds. *)
Fixpoint stack_clear (fuel : nat) (h : heap) (s : stack) : res (heap * stack) :=
  if stack_empty s then Ok (h, s)
  else match fuel with
       | 0 => Err Diverge
       | S f => do (_, h, s) <- stack_pop h s; stack_clear f h s
       end.

(** src/datastruct.c 160-167. *)
Definition queue_empty (q : queue) : bool := match qfirst q with None => true | Some _ => false end.

(** src/datastruct.c 174-194. *)
Definition queue_enqueue (h : heap) (q : queue) (d : X) : res (heap * queue) :=
  let '(a, h) := alloc h (mkCell d None) in
  if queue_empty q then Ok (h, mkQueue (Some a) (Some a) (qlen q + 1))
  else
    do b <- deref (qlast q);
    do c <- load h b;
    do h <- store h b (mkCell (cdata c) (Some a));
    Ok (h, mkQueue (qfirst q) (Some a) (qlen q + 1)).

(** src/datastruct.c 201-218; [last] is left as it is. *)
Definition queue_dequeue (h : heap) (q : queue) : res (X * heap * queue) :=
  match qfirst q with
  | None => Ok (null, h, q)
  | Some a =>
      do c <- load h a;
      do h <- free h a;
      do n <- dec (qlen q);
      Ok (cdata c, h, mkQueue (cnext c) (qlast q) n)
  end.

(** src/datastruct.c 225-232. *)
Definition queue_first (h : heap) (q : queue) : res X :=
  match qfirst q with None => Ok null | Some a => do c <- load h a; Ok (cdata c) end.

(** src/datastruct.c 239-245. *)
Fixpoint queue_clear (fuel : nat) (h : heap) (q : queue) : res (heap * queue) :=
  if queue_empty q then Ok (h, q)
  else match fuel with
       | 0 => Err Diverge
       | S f => do (_, h, q) <- queue_dequeue h q; queue_clear f h q
       end.

(** A program using several stacks and queues that share one heap. *)
Inductive obj := OStack (s : stack) | OQueue (q : queue) | OFreed.
Inductive op :=
| NewStack | NewQueue
| SPush (k : nat) (d : X) | SPop (k : nat) | STop (k : nat) | SEmpty (k : nat) | SClear (k : nat) | SFree (k : nat)
| QEnq (k : nat) (d : X) | QDeq (k : nat) | QFirst (k : nat) | QEmpty (k : nat) | QClear (k : nat) | QFree (k : nat).
Inductive out := Ptr (d : X) | Bool (b : bool) | Unit.

Definition the_stack (objs : list obj) (k : nat) : res stack :=
  do o <- get objs k; match o with OStack s => Ok s | _ => Err UB_free end.
Definition the_queue (objs : list obj) (k : nat) : res queue :=
  do o <- get objs k; match o with OQueue q => Ok q | _ => Err UB_free end.

(** One call.  stack_free and queue_free: src/datastruct.c 123-129 and 252-258. *)
Definition call (st : heap * list obj) (o : op) : res (out * (heap * list obj)) :=
  let '(h, objs) := st in
  match o with
  | NewStack => Ok (Unit, (h, objs ++ [OStack stack_create]))
  | NewQueue => Ok (Unit, (h, objs ++ [OQueue queue_create]))
  | SPush k d => do s <- the_stack objs k; let '(h, s) := stack_push h s d in do objs <- set objs k (OStack s); Ok (Unit, (h, objs))
  | SPop k => do s <- the_stack objs k; do (d, h, s) <- stack_pop h s; do objs <- set objs k (OStack s); Ok (Ptr d, (h, objs))
  | STop k => do s <- the_stack objs k; do d <- stack_top h s; Ok (Ptr d, (h, objs))
  | SEmpty k => do s <- the_stack objs k; Ok (Bool (stack_empty s), (h, objs))
  | SClear k => do s <- the_stack objs k; do (h, s) <- stack_clear (length h) h s; do objs <- set objs k (OStack s); Ok (Unit, (h, objs))
  | SFree k => do s <- the_stack objs k; do (h, s) <- stack_clear (length h) h s; do objs <- set objs k OFreed; Ok (Unit, (h, objs))
  | QEnq k d => do q <- the_queue objs k; do (h, q) <- queue_enqueue h q d; do objs <- set objs k (OQueue q); Ok (Unit, (h, objs))
  | QDeq k => do q <- the_queue objs k; do (d, h, q) <- queue_dequeue h q; do objs <- set objs k (OQueue q); Ok (Ptr d, (h, objs))
  | QFirst k => do q <- the_queue objs k; do d <- queue_first h q; Ok (Ptr d, (h, objs))
  | QEmpty k => do q <- the_queue objs k; Ok (Bool (queue_empty q), (h, objs))
  | QClear k => do q <- the_queue objs k; do (h, q) <- queue_clear (length h) h q; do objs <- set objs k (OQueue q); Ok (Unit, (h, objs))
  | QFree k => do q <- the_queue objs k; do (h, q) <- queue_clear (length h) h q; do objs <- set objs k OFreed; Ok (Unit, (h, objs))
  end.

Fixpoint calls (st : heap * list obj) (os : list op) : res (list out * (heap * list obj)) :=
  match os with
  | [] => Ok ([], st)
  | o :: os' => do (r, st) <- call st o; do (rs, st) <- calls st os'; Ok (r :: rs, st)
  end.
End Data.

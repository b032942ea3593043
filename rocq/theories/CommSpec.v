(** CommSpec.v -- communities by simulated annealing, stated on colourings: a list that gives every node a community. *)
From Coq Require Import List Arith ZArith Bool QArith Qcanon Qround.
From Verif Require Import Base Num ListLib NatSum QcSum IoSpec GraphModel GraphSpec GroupModel GroupSpec ModulesSpec MissSpec RecSpec.
Import ListNotations.
Local Open Scope nat_scope.

Definition among (c : list nat) (i j : nat) : bool := colour c i =? colour c j.
(** The sum over the ordered pairs of one colour, the pairs (i, i) included, of f_ij / L - k_i k_j / L^2. *)
Definition pair_value (n : nat) (f : nat -> nat -> Qc) (L : Qc) (c : list nat) : Qc :=
  Qsum (fun i => Qsum (fun j => if among c i j then (f i j / L - node_sum n f i * node_sum n f j / (L * L))%Qc else 0%Qc) (seq 0 n)) (seq 0 n).
(** Modularity of a colouring of the nodes of a network. *)
Definition quality (g : net Qc) (c : list nat) : Qc := pair_modularity (length g) (unit_weight g) (among c).
(** All nodes of colour [a] get colour [b]. *)
Definition repaint (a b : nat) (c : list nat) : list nat := map (fun x => if x =? a then b else x) c.
(** Draws strictly between 0 and 1. *)
Definition inner (u : Qc) : Prop := (0 < u /\ u < 1)%Qc.
(** How often: [fac * k], rounded down, but at least [least]. *)
Definition times (fac : Qc) (k least : nat) : nat := Nat.max least (Z.to_nat (Qfloor (this (fac * Qc_of_nat k)%Qc))).
Definition tiny : Qc := Q2Qc (1 # 1000000).

Section Annealing.
Variable ex : Qc -> Qc.
(** The rule of Metropolis for maxima: a change by [d] at temperature [T] is made, or not; a draw is used if [d] is negative. *)
Inductive climb (T d : Qc) : list Qc -> bool -> list Qc -> Prop :=
| cl_up ds : (0 <= d)%Qc -> climb T d ds true ds
| cl_down u ds : (d < 0)%Qc -> (u < ex (d / T))%Qc -> climb T d (u :: ds) true ds
| cl_stay u ds : (d < 0)%Qc -> (ex (d / T) <= u)%Qc -> climb T d (u :: ds) false ds.

Variable g : net Qc.
Let N := length g.

(** * Two halves of a set of nodes [ms] *)
Section Halves.
Variable ms : list nat.
(** Colourings of positions in [ms] by 0 and 1.  The value uses the number of links inside [ms], not twice that number. *)
Definition half_weight (x y : nat) : Qc := unit_weight g (nth x ms 0) (nth y ms 0).
Definition half_value (h : list nat) : Qc := pair_value (length ms) half_weight (Qc_of_nat (links_in g ms)) h.
Inductive flip_one (T : Qc) : list nat * list Qc -> list nat * list Qc -> Prop :=
| fl h u ds b ds' : let v := selects (length ms) u in let h' := upd h v (1 - colour h v) in
    climb T (half_value h' - half_value h)%Qc ds b ds' -> flip_one T (h, u :: ds) (if b then h' else h, ds').
Inductive chills (Tf Ts : Qc) : Qc -> list nat * list Qc -> list nat * list Qc -> Prop :=
| cs_stop T s : (T <= Tf)%Qc -> chills Tf Ts T s s
| cs_go T s s1 s2 : (Tf < T)%Qc -> power (flip_one T) (length ms) s s1 -> chills Tf Ts (T * Ts)%Qc s1 s2 -> chills Tf Ts T s s2.
(** [ms] has two parts without links between them. *)
Definition apart : Prop := exists p : nat -> bool, (exists x, In x ms /\ p x = true) /\ (exists y, In y ms /\ p y = false) /\
  forall x y, In x ms -> In y ms -> linked g x y = true -> p x = p y.
Inductive anneals2 (Ti Tf Ts : Qc) : list Qc -> list nat -> list Qc -> Prop :=
| a2_links us ds h rest : length us = length ms -> 0 < links_in g ms -> chills Tf Ts Ti (map (selects 2) us, ds) (h, rest) -> anneals2 Ti Tf Ts (us ++ ds) h rest
| a2_none us ds : length us = length ms -> links_in g ms = 0 -> anneals2 Ti Tf Ts (us ++ ds) (map (selects 2) us) ds.
(** Annealing; or, half of the time if [ms] falls apart, two halves without links between them, neither of them empty. *)
Inductive halved (Ti Tf Ts : Qc) : list Qc -> list nat -> list Qc -> Prop :=
| hv_whole ds h rest : ~ apart -> anneals2 Ti Tf Ts ds h rest -> halved Ti Tf Ts ds h rest
| hv_anyway u ds h rest : apart -> (Q2Qc (1 # 2) <= u)%Qc -> anneals2 Ti Tf Ts ds h rest -> halved Ti Tf Ts (u :: ds) h rest
| hv_parts u us h rest : apart -> (u < Q2Qc (1 # 2))%Qc -> length h = length ms -> Forall (fun x => x < 2) h -> In 0 h -> In 1 h ->
    (forall x y, x < length ms -> y < length ms -> linked g (nth x ms 0) (nth y ms 0) = true -> colour h x = colour h y) -> halved Ti Tf Ts (u :: us ++ rest) h rest.
End Halves.

(** * Moves, for [K] colours *)
Variable K : nat.
Definition cstate : Type := (list nat * list Qc)%type.
(** A node takes another colour. *)
Inductive one (T : Qc) : cstate -> cstate -> Prop :=
| on c u ds w ds1 b ds2 : let v := selects N u in picks K (colour c v) ds w ds1 -> climb T (quality g (upd c v w) - quality g c)%Qc ds1 b ds2 ->
    one T (c, u :: ds) (if b then upd c v w else c, ds2).
(** Draw nodes until one has not colour [a]. *)
Inductive meets (c : list nat) (a : nat) : list Qc -> nat -> list Qc -> Prop :=
| me_now u ds : colour c (selects N u) <> a -> meets c a (u :: ds) (colour c (selects N u)) ds
| me_next u ds b ds' : colour c (selects N u) = a -> meets c a ds b ds' -> meets c a (u :: ds) b ds'.
(** Two communities become one. *)
Inductive unite (T : Qc) : cstate -> cstate -> Prop :=
| un_all c u ds : (forall i, i < N -> colour c i = colour c (selects N u)) -> unite T (c, u :: ds) (c, ds)
| un_two c u ds b ds1 acc ds2 : let a := colour c (selects N u) in meets c a ds b ds1 -> climb T (quality g (repaint a b c) - quality g c)%Qc ds1 acc ds2 ->
    unite T (c, u :: ds) (if acc then repaint a b c else c, ds2).
(** Colouring [c1] is [c] but for the nodes [ms] of colour [a], of which those in half 0 have the colour [e]. *)
Record divided (c : list nat) (a e : nat) (ms h c1 : list nat) : Prop := {
  dv_nodup : NoDup ms;
  dv_nodes : forall i, In i ms <-> i < N /\ colour c i = a;
  dv_len : length c1 = length c;
  dv_half : forall x, x < length ms -> colour c1 (nth x ms 0) = if colour h x =? 0 then e else a;
  dv_rest : forall i, i < N -> colour c i <> a -> colour c1 i = colour c i
}.
(** If some colour is not in use, the community of a node is divided.  If that makes the modularity smaller the rule is applied
    the other way round: the halves are united again, with the new colour, if the draw exceeds the exponential. *)
Inductive divide (Ti T : Qc) : cstate -> cstate -> Prop :=
| di_full c u ds : (forall k, k < K -> In k c) -> divide Ti T (c, u :: ds) (c, ds)
| di_better c u ds e ms h c1 ds1 : let a := colour c (selects N u) in e < K -> ~ In e c -> (forall k, k < e -> In k c) ->
    halved ms Ti T (Q2Qc (95 # 100)) ds h ds1 -> divided c a e ms h c1 -> (quality g c <= quality g c1)%Qc -> divide Ti T (c, u :: ds) (c1, ds1)
| di_worse c u ds e ms h c1 u' ds1 : let a := colour c (selects N u) in e < K -> ~ In e c -> (forall k, k < e -> In k c) ->
    halved ms Ti T (Q2Qc (95 # 100)) ds h (u' :: ds1) -> divided c a e ms h c1 -> (quality g c1 < quality g c)%Qc ->
    (u' <= ex ((quality g c1 - quality g c) / T))%Qc -> divide Ti T (c, u :: ds) (c1, ds1)
| di_back c u ds e ms h c1 u' ds1 : let a := colour c (selects N u) in e < K -> ~ In e c -> (forall k, k < e -> In k c) ->
    halved ms Ti T (Q2Qc (95 # 100)) ds h (u' :: ds1) -> divided c a e ms h c1 -> (quality g c1 < quality g c)%Qc ->
    (ex ((quality g c1 - quality g c) / T) < u')%Qc -> divide Ti T (c, u :: ds) (repaint a e c, ds1).
Inductive both (Ti T : Qc) : cstate -> cstate -> Prop := bo s1 s2 s3 : unite T s1 s2 -> divide Ti T s2 s3 -> both Ti T s1 s3.
(** All moves at one temperature: [n1] single moves, then [n2] pairs of the others if [collective]. *)
Inductive turn (Ti : Qc) (collective : bool) (n1 n2 : nat) (T : Qc) : cstate -> cstate -> Prop :=
| tu s1 s2 s3 : power (one T) n1 s1 s2 -> (if collective then power (both Ti T) n2 s2 s3 else s3 = s2) -> turn Ti collective n1 n2 T s1 s3.

(** * The whole run *)
(** The change against the last temperature is small.  Before the first one 0 stands for the modularity. *)
Definition last_quality (o : option (list nat)) : Qc := match o with Some c => quality g c | None => 0%Qc end.
Definition best_quality (o : option (list nat)) : Qc := match o with Some c => quality g c | None => Q2Qc (-100 # 1) end.
Definition still (last : option (list nat)) (c : list nat) : Prop :=
  (Qc_abs (quality g c - last_quality last) / Qc_abs (last_quality last) < tiny \/ Qc_abs (last_quality last) < tiny)%Qc.
(** Count the temperatures without change; at 25 of them the run goes back to the best colouring so far, if that is better. *)
Inductive settle (last : option (list nat)) (count : nat) (best : option (list nat)) (c : list nat) : list nat -> nat -> Prop :=
| se_count : still last c -> ~ (count + 1 = 25 /\ (quality g c + tiny < best_quality best)%Qc) -> settle last count best c c (count + 1)
| se_back b : still last c -> count + 1 = 25 -> best = Some b -> (quality g c + tiny < quality g b)%Qc -> settle last count best c b 0
| se_change : ~ still last c -> settle last count best c c 0.
Inductive better (best : option (list nat)) (c : list nat) : option (list nat) -> Prop :=
| be_new : (best_quality best < quality g c)%Qc -> better best c (Some c)
| be_old : (quality g c <= best_quality best)%Qc -> better best c best.
Inductive cools (Ti Tf Ts : Qc) (collective : bool) (n1 n2 : nat) : Qc -> option (list nat) -> nat -> option (list nat) -> cstate -> cstate -> nat -> option (list nat) -> Prop :=
| co_stop T last count best s : ((T <= Tf)%Qc \/ 25 <= count) -> cools Ti Tf Ts collective n1 n2 T last count best s s count best
| co_go T last count best s c1 ds1 c2 count2 best2 s' count' best' : (Tf < T)%Qc -> count < 25 -> turn Ti collective n1 n2 T s (c1, ds1) ->
    settle last count best c1 c2 count2 -> better best c2 best2 -> cools Ti Tf Ts collective n1 n2 (T * Ts)%Qc (Some c2) count2 best2 (c2, ds1) s' count' best' ->
    cools Ti Tf Ts collective n1 n2 T last count best s s' count' best'.
End Annealing.

(** The start: every node has its own colour, or a random one of [ngroup] colours. *)
Inductive sets_out (N ngroup : nat) : bool -> list Qc -> nat -> list nat -> list Qc -> Prop :=
| so_own ds : sets_out N ngroup true ds N (seq 0 N) ds
| so_random us ds : length us = N -> sets_out N ngroup false (us ++ ds) ngroup (map (selects ngroup) us) ds.
(** From the draws [ds] to the colouring [c]; [count] and [best] as they are at the end. *)
Inductive anneals (ex : Qc -> Qc) (g : net Qc) (Ti Tf Ts fac : Qc) (ngroup : nat) (own collective : bool) : list Qc -> list nat -> list Qc -> nat -> option (list nat) -> Prop :=
| an ds K c0 ds0 c rest count best : sets_out (length g) ngroup own ds K c0 ds0 ->
    cools ex g K Ti Tf Ts collective (times fac (length g * length g) 10) (times fac (length g) 2) Ti None 0 None (c0, ds0) (c, rest) count best ->
    anneals ex g Ti Tf Ts fac ngroup own collective ds c rest count best.
(** The groups of [P] are the colours in use. *)
Record depicts (g g' : net Qc) (P : gpart Qc) (c : list nat) : Prop := {
  de_un : undirected g';
  de_same : same_but_group g g';
  de_map : mapped g' P;
  de_home : forall i, i < length g -> home (abs P) i = Some (colour c i);
  de_full : forall G, In G P -> members G <> []
}.

(** RecSpec.v -- the recommender of src/recommend.c, stated on colourings: two lists that give each person and each item a group. *)
From Coq Require Import List Arith ZArith Ascii Bool QArith Qcanon.
From Verif Require Import Base Num ListLib NatSum QcSum IoSpec GraphModel GraphSpec BipartModel BipartSpec MissSpec.
Import ListNotations.
Local Open Scope nat_scope.

(** The group of [i]; the number of members of a group; the number of groups with members. *)
Definition colour (c : list nat) (i : nat) : nat := nth i c 0.
Definition csize (c : list nat) (k : nat) : nat := count (fun x => x =? k) c.
Definition used (c : list nat) : nat := count (fun k => 0 <? csize c k) (seq 0 (length c)).
(** As many groups as elements. *)
Definition coloured (c : list nat) : Prop := Forall (fun x => x < length c) c.

(** [R k i j]: person [i] has given item [j] the rating [k]. *)
Section Tally.
Variable R : nat -> nat -> nat -> bool.
(** How many ratings [k] person [i] has given to the items of group [b]; the persons of group [a] to the items of group [b]. *)
Definition given (c2 : list nat) (k i b : nat) : nat := count (fun j => (colour c2 j =? b) && R k i j) (seq 0 (length c2)).
Definition tally (c1 c2 : list nat) (k a b : nat) : nat := lsum (fun i => if colour c1 i =? a then given c2 k i b else 0) (seq 0 (length c1)).
Definition tallies (K : nat) (c1 c2 : list nat) (a b : nat) : list nat := map (fun k => tally c1 c2 k a b) (seq 0 K).
End Tally.
(** The same ratings seen from the items. *)
Definition flip (R : nat -> nat -> nat -> bool) : nat -> nat -> nat -> bool := fun k j i => R k i j.

(** The ratings stored in a network: links between the nodes of two lists, with the rating as weight. *)
Definition ratings {A} {ops : NumOps A} (g : net A) (s1 s2 : list nat) (k i j : nat) : bool :=
  match nth_error s1 i, nth_error s2 j with
  | Some p, Some q => match weight g p q with Some w => neqb w (nofnat k) | None => false end
  | _, _ => false
  end.
(** Every rating is one of 0, 1, ..., K-1. *)
Definition in_range (K : nat) (b : binet Qc) : Prop := forall i j w, weight (bmem b) i j = Some w -> exists k, k < K /\ w = Qc_of_nat k.

(** A query of two nodes asks about person [i] and item [j]; the ratings without those of the queries. *)
Definition located (s1 s2 : list nat) (q ij : nat * nat) : Prop := nth_error s1 (fst ij) = Some (fst q) /\ nth_error s2 (snd ij) = Some (snd q).
Definition asked (pos : list (nat * nat)) (i j : nat) : bool := existsb (fun ij => (fst ij =? i) && (snd ij =? j)) pos.
Definition hide (pos : list (nat * nat)) (R : nat -> nat -> nat -> bool) : nat -> nat -> nat -> bool := fun k i j => R k i j && negb (asked pos i j).

(** Energies.  [cost] of the numbers of ratings 0, 1, ... between two groups. *)
Section Energy.
Variable logf : nat -> Qc.
Variable lnchoose : nat -> nat -> Qc.
Variable lnfact : nat -> Qc.
Definition cost2 (cs : list nat) : Qc :=
  match cs with [c0; c1] => (logf (c0 + c1 + 1) + lnchoose (c0 + c1) c1)%Qc | _ => 0%Qc end.
Definition costK (K : nat) (cs : list nat) : Qc := (lnfact (lsum (fun c => c) cs + K - 1) - Qsum lnfact cs)%Qc.
Variable K : nat.
Variable cost : list nat -> Qc.
Variable R : nat -> nat -> nat -> bool.
(** One term for every pair of groups, and the corrections for the labels. *)
Definition renergy (c1 c2 : list nat) : Qc :=
  (Qsum (fun a => Qsum (fun b => cost (tallies R K c1 c2 a b)) (seq 0 (length c2))) (seq 0 (length c1))
   - lnfact (length c1 - used c1) - lnfact (length c2 - used c2))%Qc.
End Energy.

(** The two colourings and the random numbers still to come; [n] steps in a row; states seen after one step, two steps, ... *)
Definition rstate (A : Type) : Type := (list nat * list nat * list A)%type.
Inductive power {S} (Q : S -> S -> Prop) : nat -> S -> S -> Prop :=
| pw_0 s : power Q 0 s s
| pw_S n s t u : power Q n s t -> Q t u -> power Q (Datatypes.S n) s u.
Inductive visits {S} (Q : S -> S -> Prop) : S -> list S -> S -> Prop :=
| vi_0 s : visits Q s [] s
| vi_S s l t u : visits Q s l t -> Q t u -> visits Q s (l ++ [u]) u.

(** The Metropolis algorithm for one of the two colourings, and for both. *)
Section Metropolis.
Variable ex : Qc -> Qc.
Inductive changes (E : list nat -> Qc) (c : list nat) : list Qc -> list nat -> list Qc -> Prop :=
| ch_down u ds w ds' : let v := selects (length c) u in picks (length c) (colour c v) ds w ds' ->
    (E (upd c v w) <= E c)%Qc -> changes E c (u :: ds) (upd c v w) ds'
| ch_up u ds w u' ds' : let v := selects (length c) u in picks (length c) (colour c v) ds w (u' :: ds') ->
    (E c < E (upd c v w))%Qc -> (u' < ex (E c - E (upd c v w)))%Qc -> changes E c (u :: ds) (upd c v w) ds'
| ch_stay u ds w u' ds' : let v := selects (length c) u in picks (length c) (colour c v) ds w (u' :: ds') ->
    (E c < E (upd c v w))%Qc -> (ex (E c - E (upd c v w)) <= u')%Qc -> changes E c (u :: ds) c ds'.
Variable E : list nat -> list nat -> Qc.
(** The chance to move a person. *)
Definition share (n m : nat) : Qc := ((Qc_of_nat (n * n) - 1) / (Qc_of_nat (n * n) + Qc_of_nat (m * m) - Qc_of_nat 2))%Qc.
Inductive rattempt : rstate Qc -> rstate Qc -> Prop :=
| ra_person u ds c1 c2 c1' ds' : (u < share (length c1) (length c2))%Qc -> changes (fun c => E c c2) c1 ds c1' ds' -> rattempt (c1, c2, u :: ds) (c1', c2, ds')
| ra_item u ds c1 c2 c2' ds' : (share (length c1) (length c2) <= u)%Qc -> changes (fun c => E c1 c) c2 ds c2' ds' -> rattempt (c1, c2, u :: ds) (c1, c2', ds').
End Metropolis.

(** The estimate of the chance of rating [k] from the tallies of the two groups of a query. *)
Definition estimate (cs : list nat) (k : nat) : Qc :=
  (Qc_of_nat (nth k cs O + 1) / Qc_of_nat (lsum (fun c => c) cs + length cs))%Qc.

(** Gibbs sampling ("heat bath").  The weight of putting [v] into group [w]; a number [u] between 0 and 1 is scaled by the sum of
    all weights and the groups of a list [ks], the known groups, are passed until the sum of their weights reaches it; if it never
    does, the first empty group is taken. *)
Section Heat.
Variable ex : Qc -> Qc.
Definition boltz (E : list nat -> Qc) (c : list nat) (v w : nat) : Qc := ex (E c - E (upd c v w))%Qc.
Definition boltz_all (E : list nat -> Qc) (c : list nat) (v : nat) : Qc := Qsum (boltz E c v) (seq 0 (length c)).
Inductive heats (E : list nat -> Qc) (c : list nat) (v : nat) : list nat -> Qc -> nat -> Prop :=
| he_known pre w post u : (Qsum (boltz E c v) pre < u * boltz_all E c v)%Qc -> (u * boltz_all E c v <= Qsum (boltz E c v) pre + boltz E c v w)%Qc ->
    heats E c v (pre ++ w :: post) u w
| he_new ks u w : (Qsum (boltz E c v) ks < u * boltz_all E c v)%Qc -> w < length c -> csize c w = 0 -> (forall k, k < w -> 0 < csize c k) ->
    heats E c v ks u w.
Definition known (ks : list nat) (w : nat) : list nat := if existsb (Nat.eqb w) ks then ks else ks ++ [w].
(** A colouring, the known groups and the random numbers still to come. *)
Definition hstate : Type := (list nat * list nat * list Qc)%type.
Inductive regroup (E : list nat -> Qc) (v : nat) : hstate -> hstate -> Prop :=
| regroup_intro c ks u ds w : heats E c v ks u w -> regroup E v (c, ks, u :: ds) (upd c v w, known ks w, ds).
Inductive chain {S} (Q : nat -> S -> S -> Prop) : list nat -> S -> S -> Prop :=
| chain_nil s : chain Q [] s s
| chain_cons v l s t u : Q v s t -> chain Q l t u -> chain Q (v :: l) s u.
Definition listed (c : list nat) : list nat := filter (fun k => 0 <? csize c k) (seq 0 (length c)).
(** All persons in turn, then all items in turn. *)
Definition sweep (E : list nat -> list nat -> Qc) (s t : rstate Qc) : Prop :=
  let '(c1, c2, ds) := s in let '(c1', c2', ds') := t in
  exists ds1 ks1 ks2, chain (regroup (fun c => E c c2)) (seq 0 (length c1)) (c1, listed c1, ds) (c1', ks1, ds1) /\
    chain (regroup (fun c => E c1' c)) (seq 0 (length c2)) (c2, listed c2, ds1) (c2', ks2, ds').
End Heat.

(** The pairs of a person and an item without a rating, person by person; a rating with every [r] left out. *)
Definition unrated {A} (b : binet A) : list (nat * nat) :=
  filter (fun '(p, m) => match weight (bmem b) p m with None => true | Some _ => false end) (list_prod (bset1 b) (bset2 b)).
Definition without {A} (hit : A -> bool) (w : option A) : option A := match w with Some x => if hit x then None else Some x | None => None end.
(** A text that asks the pairs [qs] of words one after the other; anything may follow. *)
Inductive asks : list ascii -> list (list ascii * list ascii) -> Prop :=
| asks_end s : asks s []
| asks_pair s1 a s2 c s qs : (forall x, In x (s1 ++ s2) -> blank x) -> s2 <> [] -> word a -> word c -> (forall x t, s = x :: t -> blank x) ->
    asks s qs -> asks (s1 ++ a ++ s2 ++ c ++ s) ((a, c) :: qs).

(** The labels of the two sides. *)
Section Labels.
Context {A : Type}.
Implicit Types b : binet A.
Definition labs1 b := map (label_of (bmem b)) (bset1 b).
Definition labs2 b := map (label_of (bmem b)) (bset2 b).
(** Nodes have been appended; the links are those there were. *)
Record grown b b' : Prop := {
  gr_mem : exists l, bmem b' = bmem b ++ l;
  gr_1 : exists l, bset1 b' = bset1 b ++ l;
  gr_2 : exists l, bset2 b' = bset2 b ++ l;
  gr_weight : forall i j, weight (bmem b') i j = weight (bmem b) i j }.
(** A node of one side under the label that was asked. *)
Definition answers b (pq : nat * nat) (ac : list ascii * list ascii) : Prop :=
  In (fst pq) (bset1 b) /\ label_of (bmem b) (fst pq) = fst ac /\ In (snd pq) (bset2 b) /\ label_of (bmem b) (snd pq) = snd ac.
End Labels.

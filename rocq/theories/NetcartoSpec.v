(** NetcartoSpec.v -- what a cartography of a network is, in terms of labels: no model function, no node numbers. *)
From Coq Require Import List Arith Bool QArith Qcanon Ascii.
From Verif Require Import Base Num ListLib QcSum IoModel IoSpec RolesBounds NetcartoModel.
Import ListNotations.
Local Open Scope nat_scope.

Section Spec.
Local Open Scope Qc_scope.
(** Weight of the link between two labels, weight of a label. *)
Variable lw : label -> label -> Qc.
Variable lk : label -> Qc.
(** Labels with their modules. *)
Variable G : list (label * nat).

Definition other (x : label) (r : label * nat) : bool := negb (eqb_label x (fst r)).
(** Modularity: pairs of different labels in one module; and with the pairs of a label with itself. *)
Definition mod_value : Qc :=
  Qsum (fun r => Qsum (fun r' => if other (fst r) r' && Nat.eqb (snd r) (snd r') then lw (fst r) (fst r') - lk (fst r) * lk (fst r') else 0) G) G.
Definition diag_value : Qc := mod_value - Qsum (fun r => lk (fst r) * lk (fst r)) G.
(** Weight of the links of a label into a module, and of all its links. *)
Definition into (x : label) (m : nat) : Qc := Qsum (fun r => if other x r && Nat.eqb (snd r) m then lw x (fst r) else 0) G.
Definition links_of (x : label) : Qc := Qsum (fun r => if other x r then lw x (fst r) else 0) G.
(** Mean and variance over the members of a module of the weight into the module. *)
Definition members_of (m : nat) : list (label * nat) := filter (fun r => Nat.eqb (snd r) m) G.
Definition mean_into (m : nat) : Qc := Qsum (fun r => into (fst r) m) (members_of m) / Qc_of_nat (length (members_of m)).
Definition var_into (m : nat) : Qc :=
  Qsum (fun r => (into (fst r) m - mean_into m) * (into (fst r) m - mean_into m)) (members_of m) / Qc_of_nat (length (members_of m)).
(** The modules are numbered 0 .. M-1, each with a member. *)
Definition modules_are (M : nat) : Prop :=
  (forall r, In r G -> (snd r < M)%nat) /\ (forall m, (m < M)%nat -> exists r, In r G /\ snd r = m).
End Spec.

(** The two values a node is given, and its role. *)
Record described_row (sq : Qc -> Qc) (lw : label -> label -> Qc) (G : list (label * nat)) (M : nat) (r : trow Qc) : Prop := {
  dr_P : t_P r = if Qc_eq_dec (links_of lw G (t_label r)) 0 then 0%Qc
    else (1 - Qsum (fun m => into lw G (t_label r) m * into lw G (t_label r) m) (seq 0 M) / (links_of lw G (t_label r) * links_of lw G (t_label r)))%Qc;
  dr_z : t_z r = if Qc_eq_dec (sq (var_into lw G (t_module r))) 0 then 0%Qc
    else ((into lw G (t_label r) (t_module r) - mean_into lw G (t_module r)) / sq (var_into lw G (t_module r)))%Qc;
  dr_role : exists k, t_role r = S k /\ role_box (t_P r) (t_z r) k
}.

(** A report is a cartography of the network with labels [L] if there is a grouping [G] of all the labels, which the table or the text
    shows, such that the numbers are those of [G]. *)
Definition shown_text (G : list (label * nat)) (M : nat) : list ascii :=
  concat (map (fun m => concat (map (fun r => fst r ++ ["009"%char]) (members_of G m)) ++ ["010"%char]) (seq 0 M)).
Record cartography (sq : Qc -> Qc) (lw : label -> label -> Qc) (lk : label -> Qc) (L : list label) (roles : bool) (G : list (label * nat)) (r : report Qc) : Prop := {
  ct_labels : map fst G = L;
  ct_mod : rmod r = mod_value lw lk G;
  ct_diag : rdiag r = diag_value lw lk G;
  ct_shown : exists M, modules_are G M /\
    if roles then exists t, rtable r = Some t /\ rtext r = None /\ map (fun x => (t_label x, t_module x)) t = G /\ forall x, In x t -> described_row sq lw G M x
    else rtable r = None /\ exists G', rtext r = Some (shown_text G' M) /\ Permutation.Permutation G G'
}.

(** The network of a file: lines (a, b, w).  Divisor: twice the total weight. *)
Section Lines.
Local Open Scope Qc_scope.
Implicit Types es : list (label * label * Qc).
Definition line_weight es (x y : label) : Qc :=
  Qsum (fun e => if (eqb_label (fst (fst e)) x && eqb_label (snd (fst e)) y) || (eqb_label (fst (fst e)) y && eqb_label (snd (fst e)) x) then snd e else 0) es.
Definition label_weight es (x : label) : Qc := Qsum (fun e => if eqb_label (fst (fst e)) x || eqb_label (snd (fst e)) x then snd e else 0) es.
Definition twice_total es : Qc := (1 + 1) * Qsum snd es.
(** Every line joins two different labels, no two lines join the same two labels, weights are positive. *)
Definition good_lines es : Prop :=
  (forall a b w, In (a, b, w) es -> a <> b /\ 0 < w) /\
  (forall l1 a b w l2 a' b' w', es = l1 ++ (a, b, w) :: l2 -> In (a', b', w') l2 -> ~ ((a' = a /\ b' = b) \/ (a' = b /\ b' = a))).

(** The bipartite network of a file: lines (actor, team, weight). *)
Definition mate_weight es (x y : label) : Qc :=
  Qsum (fun e => Qsum (fun e' => if eqb_label (fst (fst e)) x && eqb_label (fst (fst e')) y && eqb_label (snd (fst e)) (snd (fst e')) then snd e * snd e' else 0) es) es.
Definition actor_total es (x : label) : Qc := Qsum (fun e => if eqb_label (fst (fst e)) x then snd e else 0) es.
Definition size_of es (t : label) : nat := length (filter (fun e => eqb_label (snd (fst e)) t) es).
Definition total_of es (t : label) : Qc := Qsum (fun e => if eqb_label (snd (fst e)) t then snd e else 0) es.
Definition mates_norm es : Qc :=
  Qsum (fun t => total_of es t * (total_of es t - total_of es t / Qc_of_nat (size_of es t))) (numbered (map (fun e => snd (fst e)) es)).
Definition good_rows es : Prop := NoDup (map fst es) /\ (forall a b w, In (a, b, w) es -> 0 < w).
End Lines.

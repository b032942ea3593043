(** Properties18.v -- removing and adding random links: C89 to C91. *)
From Coq Require Import List Arith Lia ZArith Bool QArith Qcanon.
From Verif Require Import Base Num ListLib IoModel GraphModel GraphSpec GraphProof GraphRand Refute UnitNet LinkModel LinkSpec LinkMain.
Import ListNotations.
Local Open Scope nat_scope.

Section Links.
Context {A : Type} {ops : NumOps A}.
Implicit Types g : net A.

(** C89: the links at the places drawn are removed, the others and their weights stay; draws that repeat a place are passed over. *)
Theorem C89_remove (symmetric : bool) g nLinks ds : (if symmetric then undirected g else wf_net g) -> Forall (fun d => d < length (links_of symmetric g)) ds ->
  match RemoveRandomLinks g nLinks symmetric ds with
  | Ok (g', ds') => exists used R, ds = used ++ ds' /\ distinct used = nLinks /\ needed used /\ drawn symmetric g used R /\ length R = nLinks /\
      (if symmetric then undirected g' else wf_net g') /\ same_nodes g g' /\
      (forall a b, among symmetric R a b -> weight g' a b = None) /\ (forall a b, ~ among symmetric R a b -> weight g' a b = weight g a b) /\
      length (links_of symmetric g') + nLinks = length (links_of symmetric g)
  | Err e => e = RngOut /\ distinct ds < nLinks
  end.
Proof. exact (remove_random_links symmetric g nLinks ds). Qed.
(** The list the draws point into holds every link exactly once. *)
Theorem C89_list (symmetric : bool) g : (if symmetric then undirected g else wf_net g) ->
  NoDup (links_of symmetric g) /\ (forall a b, In (a, b) (links_of symmetric g) <-> In b (nbrs g a) /\ (symmetric = true -> a <= b)) /\
  sum_deg g = (if symmetric then 2 else 1) * length (links_of symmetric g).
Proof. exact (links_list symmetric g). Qed.
(** More links than there are: no sequence of draws lets the program end. *)
Theorem C89_too_many (symmetric : bool) g nLinks ds : (if symmetric then undirected g else wf_net g) -> Forall (fun d => d < length (links_of symmetric g)) ds ->
  length (links_of symmetric g) < nLinks -> RemoveRandomLinks g nLinks symmetric ds = Err RngOut.
Proof. exact (remove_too_many symmetric g nLinks ds). Qed.

(** C90: the pairs of draws that are two different nodes not linked become links of weight one, nothing else changes. *)
Theorem C90_add g nLinks symmetric ds : undirected g -> Forall (fun d => d < length g) ds ->
  match AddRandomLinks g nLinks symmetric ds with
  | Ok (g', ds') => exists ps R, ds = flat ps ++ ds' /\ accepted (fun a b => In b (nbrs g a)) ps R /\ needed_pair ps R /\ length R = nLinks /\
      NoDup R /\ (forall a b, In (a, b) R -> a <> b /\ ~ In b (nbrs g a) /\ ~ In (b, a) R) /\
      undirected g' /\ same_nodes g g' /\ (forall a b, among true R a b -> weight g' a b = Some n1) /\ (forall a b, ~ among true R a b -> weight g' a b = weight g a b) /\
      length (edges g') = length (edges g) + nLinks
  | Err e => e = RngOut
  end.
Proof. exact (add_random_links g nLinks symmetric ds). Qed.
Theorem C90_too_many g nLinks symmetric ds : undirected g -> Forall (fun d => d < length g) ds ->
  length g * (length g - 1) < 2 * (length (edges g) + nLinks) -> AddRandomLinks g nLinks symmetric ds = Err RngOut.
Proof. exact (add_too_many g nLinks symmetric ds). Qed.
End Links.

(** * Concrete cases *)
#[local] Instance ops18e : NumOps Qc := Qc_ops ex0 sq0.
(** A square with a diagonal. *)
Definition rows18 : list (list nat) := [[1; 2; 3]; [0; 2]; [1; 0; 3]; [2; 0]].
Definition arcs18 : list (list nat) := [[1; 2]; [1; 3]; [0]; []].
Example net18 : undirected (unit_net (A := Qc) rows18) /\ wf_net (unit_net (A := Qc) arcs18).
Proof. split; [apply unit_undirected|apply unit_wf]; reflexivity. Qed.
Example links18 : links_of true (unit_net (A := Qc) rows18) = [(0, 1); (0, 2); (0, 3); (1, 2); (2, 3)] /\ links_of false (unit_net (A := Qc) arcs18) = [(0, 1); (0, 2); (1, 1); (1, 3); (2, 0)].
Proof. vm_compute. auto. Qed.
Definition neighbours (r : res (net Qc * list nat)) : option (list (list nat) * list nat) := match r with Ok (g, ds) => Some (map (nbrs g) (seq 0 (length g)), ds) | Err _ => None end.
Example remove18 : neighbours (RemoveRandomLinks (unit_net (A := Qc) rows18) 2 true [3; 3; 0; 1]) = Some ([[2; 3]; []; [0; 3]; [2; 0]], [1]) /\
  neighbours (RemoveRandomLinks (unit_net (A := Qc) arcs18) 3 false [0; 2; 0; 1; 4]) = Some ([[]; [3]; [0]; []], [4]).
Proof. vm_compute. auto. Qed.
Example add18 : neighbours (AddRandomLinks (unit_net (A := Qc) rows18) 1 true [0; 1; 2; 2; 3; 1; 0]) = Some ([[1; 2; 3]; [0; 2; 3]; [1; 0; 3]; [2; 0; 1]], [0]).
Proof. vm_compute. auto. Qed.

(** C91 is false: AddRandomLinks does not look at symmetric_sw, every link asked for is added in both directions. *)
Definition C91_statement : Prop := forall (g g' : net Qc) nLinks ds ds', wf_net g -> Forall (fun d => d < length g) ds ->
  AddRandomLinks g nLinks false ds = Ok (g', ds') -> sum_deg g' = sum_deg g + nLinks.
Theorem C91_add_directed_refuted : ~ C91_statement.
Proof.
  intros H. set (g := unit_net (A := Qc) [[1]; []; []]). destruct (AddRandomLinks g 1 false [1; 2]) as [[g' ds']|e] eqn:E; [|vm_compute in E; discriminate].
  assert (W : wf_net g) by (apply unit_wf; reflexivity). assert (F : Forall (fun d => d < length g) [1; 2]) by (repeat constructor). specialize (H g g' 1 [1; 2] ds' W F E).
  assert (X : sum_deg g' = 3) by (revert E; vm_compute; intros E; injection E as <- <-; reflexivity). rewrite X in H. vm_compute in H. discriminate.
Qed.

Print Assumptions C89_remove.
Print Assumptions C89_list.
Print Assumptions C89_too_many.
Print Assumptions C90_add.
Print Assumptions C90_too_many.
Print Assumptions C91_add_directed_refuted.

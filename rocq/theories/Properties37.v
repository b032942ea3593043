(** Properties37.v -- giving back the memory of a network (C184). *)
From Coq Require Import List Arith Bool Lia.
From Verif Require Import Base ListLib DisposeModel DisposeProof.
Import ListNotations.
Local Open Scope nat_scope.

(** C184: with the blocks of a network all different, RemoveGraph gives back each of them once, reads none after that, and leaves all other memory as it is. *)
Theorem C184_removed (h : mem) root own fuel : nodes h (Some root) own -> NoDup own -> length own <= fuel ->
  exists h', RemoveGraph fuel h root = Ok h' /\ (forall a, In a own -> h' a = None) /\ forall a, ~ In a own -> h' a = h a.
Proof. intros N D F. destruct (RemoveGraph_ok h (Some root) own N D fuel root eq_refl F) as (h' & E & W). exists h'. split; [exact E|]. split; intros a; apply W. Qed.
(** C184: the same for a network with two sides. *)
Theorem C184_removed_two_sided (h : mem) p a b own1 own2 fuel : h p = Some (CBi (Some a) (Some b)) -> nodes h (Some a) own1 -> nodes h (Some b) own2 -> NoDup (own1 ++ own2 ++ [p]) -> length own1 <= fuel -> length own2 <= fuel ->
  exists h', RemoveBipart fuel h p = Ok h' /\ (forall x, In x (own1 ++ own2 ++ [p]) -> h' x = None) /\ forall x, ~ In x (own1 ++ own2 ++ [p]) -> h' x = h x.
Proof. intros E A B D F1 F2. destruct (RemoveBipart_ok h p a b own1 own2 fuel E A B D F1 F2) as (h' & R & W). exists h'. split; [exact R|]. split; intros x; apply W. Qed.
(** C185: an empty pair of networks as CreateBipart makes it has no first network to remove. *)
Theorem C185_empty_refuted (h : mem) p fuel : h p = Some (CBi None None) -> RemoveBipart fuel h p = Err UB_null.
Proof. intros E. unfold RemoveBipart. rewrite E. reflexivity. Qed.

(** The hypotheses are met: the header at 0, a node at 1 with its label at 2, the header of its links at 3 and a link to itself at 4 with its label at 5; the block at 9 is not of the network. *)
Definition small : mem := fun a => nth a [Some (CNode None None (Some 1)); Some (CNode (Some 2) (Some 3) None); Some CText; Some (CLis None (Some 4)); Some (CLis (Some 5) None); Some CText; None; None; None; Some CText] None.
Example small_met : nodes small (Some 0) [0; 2; 3; 5; 4; 1] /\ NoDup [0; 2; 3; 5; 4; 1] /\ match RemoveGraph 6 small 0 with Ok h => map h (seq 0 10) | Err _ => [] end = repeat None 9 ++ [Some CText].
Proof.
  split; [|split; [repeat constructor; cbn; lia|reflexivity]].
  apply (nodes_cons small 0 None None (Some 1) [] [2; 3; 5; 4; 1]); [reflexivity|exact I|constructor|].
  apply (nodes_cons small 1 (Some 2) (Some 3) None [3; 5; 4] []); [reflexivity|reflexivity| |constructor].
  apply (chain_cons small 3 None (Some 4) [5; 4]); [reflexivity|exact I|]. apply (chain_cons small 4 (Some 5) None []); [reflexivity|reflexivity|constructor].
Qed.
Example pair_met : let h := fun a => nth a [Some (CNode None None None); Some (CNode None None None); Some (CBi (Some 0) (Some 1))] None in
  nodes h (Some 0) [0] /\ nodes h (Some 1) [1] /\ NoDup ([0] ++ [1] ++ [2]) /\ match RemoveBipart 1 h 2 with Ok h => map h (seq 0 3) | Err _ => [] end = [None; None; None].
Proof. cbn zeta. split; [apply (nodes_cons _ 0 None None None [] []); try constructor|]. split; [apply (nodes_cons _ 1 None None None [] []); try constructor|]. split; [repeat constructor; cbn; lia|reflexivity]. Qed.

Print Assumptions C184_removed.
Print Assumptions C184_removed_two_sided.
Print Assumptions C185_empty_refuted.
Print Assumptions small_met.
Print Assumptions pair_met.

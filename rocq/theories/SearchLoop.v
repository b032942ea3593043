(** SearchLoop.v -- the loop of tsearch and the insertion. *)
From Coq Require Import List Arith Lia ZArith Bool Sorted Permutation.
From Verif Require Import Base ListLib SearchModel SearchSpec SearchProof.
Import ListNotations.
Local Open Scope nat_scope.

Section Order.
Context {K : Type}.
Variable compar : K -> K -> Z.
Hypothesis GC : good_compar compar.
Notation lt := (fun a b : nat * K => (compar (snd a) (snd b) < 0)%Z).
Notation ctx := (list (@frame K)).
Implicit Types c : ctx.
Implicit Types t : tree K.

Fixpoint pre c : list (nat * K) := match c with [] => [] | f :: c => pre c ++ (if fd f then [] else elems (fs f) ++ [(fi f, fk f)]) end.
Fixpoint post c : list (nat * K) := match c with [] => [] | f :: c => (if fd f then (fi f, fk f) :: elems (fs f) else []) ++ post c end.
Definition all c t := pre c ++ elems t ++ post c.
Definition toprb c : bool := match c with f :: _ => fc f | [] => false end.
Fixpoint cbal c (n N : nat) : Prop :=
  match c with
  | [] => n = N
  | f :: c => balanced (fs f) n /\ (if fc f then isred (fs f) = false /\ toprb c = false /\ cbal c n N else cbal c (S n) N)
  end.
Lemma all_plug c : forall t, elems (plug c t) = all c t.
Proof.
  unfold all. induction c as [|f c IH]; intros t; cbn [plug pre post]; [now rewrite app_nil_r|]. rewrite IH. unfold close. destruct (fd f); cbn [elems app].
  - rewrite app_nil_r. repeat (rewrite <- !app_assoc; cbn [app]). reflexivity.
  - repeat (rewrite <- !app_assoc; cbn [app]). reflexivity.
Qed.
Lemma ids_plug c : forall t, Permutation (ids (plug c t)) (cids c ++ ids t).
Proof.
  induction c as [|f c IH]; intros t; cbn [plug cids app]; auto. rewrite IH. unfold close. destruct (fd f); cbn [ids].
  - rewrite (Permutation_app_comm (cids c)). cbn. constructor. rewrite <- !app_assoc. rewrite (Permutation_app_comm (ids t)). rewrite <- !app_assoc. reflexivity.
  - rewrite (Permutation_app_comm (cids c)). cbn. constructor. rewrite <- !app_assoc. apply Permutation_app_head. apply Permutation_app_comm.
Qed.
Lemma bal_plug c : forall t n N, cbal c n N -> balanced t n -> (toprb c = true -> isred t = false) -> balanced (plug c t) N.
Proof.
  induction c as [|f c IH]; intros t n N; cbn [cbal plug toprb]; [intros ->; auto|]. intros [Hs Hc] Ht Hr. destruct f as [d i k b s]. cbn in *. unfold close. cbn [fd fi fk fc fs].
  destruct b.
  - destruct Hc as (R1 & R2 & Hc). specialize (Hr eq_refl). apply (IH _ n N); auto; [|intros Hx; congruence]. destruct d; cbn; auto.
  - apply (IH _ (S n) N); auto; [|intros _; destruct d; auto]. destruct d; cbn; eauto.
Qed.

(** The invariant that does not depend on the memory.  [s]: no two red nodes in a row at the hole. *)
Record J (s : bool) (key : K) c t : Prop := {
  j_nodup : NoDup (cids c ++ ids t);
  j_sorted : StronglySorted lt (all c t);
  j_pre : forall x, In x (pre c) -> (0 < compar key (snd x))%Z;
  j_post : forall x, In x (post c) -> (compar key (snd x) < 0)%Z;
  j_bal : exists n N, cbal c n N /\ balanced t n;
  j_red : s = true -> toprb c = true -> isred t = false
}.

Lemma ss_app (l1 l2 : list (nat * K)) : StronglySorted lt (l1 ++ l2) <-> StronglySorted lt l1 /\ StronglySorted lt l2 /\ (forall a b, In a l1 -> In b l2 -> lt a b).
Proof.
  induction l1 as [|a l1 IH]; cbn [app].
  - split; [intros H; split; [constructor|split; [auto|intros ? ? []]]|tauto].
  - split.
    + intros H. inversion H as [|? ? H1 H2]; subst. apply IH in H1 as (A & B & C). rewrite Forall_forall in H2. split; [constructor; auto; apply Forall_forall; intros; apply H2; apply in_or_app; auto|].
      split; auto. intros x y [->|Hx] Hy; [apply H2; apply in_or_app; auto|auto].
    + intros (H1 & H2 & H3). inversion H1 as [|? ? A B]; subst. constructor; [apply IH; split; [auto|split; [auto|intros; apply H3; [right|]; auto]]|]. apply Forall_forall. intros x Hx. apply in_app_or in Hx as [Hx|Hx].
      * rewrite Forall_forall in B. auto.
      * apply H3; auto. left. auto.
Qed.
Lemma gt_lt a b : (0 < compar a b)%Z -> (compar b a < 0)%Z.
Proof. intros H. now apply (gc_anti _ GC). Qed.
Lemma lt_gt a b : (compar a b < 0)%Z -> (0 < compar b a)%Z.
Proof. intros H. now apply (gc_anti _ GC). Qed.

Lemma J_left key c i k b l r : J true key c (T i k b l r) -> (compar key k < 0)%Z -> J true key (F true i k b r :: c) l.
Proof.
  intros [ND SS P Q (n & N & HB & Ht) R] Hlt. constructor.
  - eapply Permutation_NoDup; [|exact ND]. cbn [cids fi fs ids].
    apply (Permutation_count_occ Nat.eq_dec). intros y. repeat (rewrite !count_occ_app || cbn [count_occ app] || rewrite <- !app_assoc). repeat (match goal with |- context [Nat.eq_dec ?a ?b] => destruct (Nat.eq_dec a b) end); lia.
  - unfold all in *. cbn [pre post fd fi fk fs elems] in *. rewrite app_nil_r. repeat (rewrite <- !app_assoc in *; cbn [app] in *). exact SS.
  - cbn [pre fd]. rewrite app_nil_r. auto.
  - cbn [post fd fi fk fs]. intros x Hx. apply in_app_or in Hx as [[<-|Hx]|Hx]; auto.
    unfold all in SS. cbn [elems] in SS. apply ss_app in SS as (_ & SS & _). rewrite <- app_assoc in SS. apply ss_app in SS as (_ & SS & _). cbn [app] in SS. inversion SS as [|? ? _ SF]; subst. rewrite Forall_forall in SF.
    eapply (gc_trans _ GC); [exact Hlt|]. apply (SF x). apply in_or_app. auto.
  - destruct b.
    + destruct Ht as (H1 & H2 & H3 & H4). exists n, N. split; auto. cbn. cj; auto. destruct (toprb c) eqn:Et; auto.
    + destruct Ht as (m & -> & H1 & H2). exists m, N. split; auto. cbn. auto.
  - intros _. cbn. intros ->. destruct Ht as (H1 & H2 & H3 & H4). auto.
Qed.
Lemma J_right key c i k b l r : J true key c (T i k b l r) -> (0 < compar key k)%Z -> J true key (F false i k b l :: c) r.
Proof.
  intros [ND SS P Q (n & N & HB & Ht) R] Hlt. constructor.
  - eapply Permutation_NoDup; [|exact ND]. cbn [cids fi fs ids].
    apply (Permutation_count_occ Nat.eq_dec). intros y. repeat (rewrite !count_occ_app || cbn [count_occ app] || rewrite <- !app_assoc). repeat (match goal with |- context [Nat.eq_dec ?a ?b] => destruct (Nat.eq_dec a b) end); lia.
  - unfold all in *. cbn [pre post fd fi fk fs elems] in *. repeat (rewrite <- !app_assoc in *; cbn [app] in *). exact SS.
  - cbn [pre fd fi fk fs]. intros x Hx. apply in_app_or in Hx as [Hx|Hx]; auto. apply in_app_or in Hx as [Hx|[<-|[]]]; auto.
    unfold all in SS. cbn [elems] in SS. apply ss_app in SS as (_ & SS & _). rewrite <- app_assoc in SS. apply ss_app in SS as (_ & _ & SS). apply lt_gt. eapply (gc_trans _ GC); [|apply gt_lt; exact Hlt]. apply (SS x (i, k)); auto. left. auto.
  - cbn [post fd app]. auto.
  - destruct b.
    + destruct Ht as (H1 & H2 & H3 & H4). exists n, N. split; auto. cbn. cj; auto. destruct (toprb c) eqn:Et; auto.
    + destruct Ht as (m & -> & H1 & H2). exists m, N. split; auto. cbn. auto.
  - intros _. cbn. intros ->. destruct Ht as (H1 & H2 & H3 & H4). auto.
Qed.
Lemma J_weak key c t s : J s key c t -> J false key c t.
Proof. intros [A B C D E0 R]. constructor; auto. discriminate. Qed.
Lemma J_strong key c t : J false key c t -> (toprb c = true -> isred t = false) -> J true key c t.
Proof. intros [A B C D E0 R] H. constructor; auto. Qed.
Lemma J_split key c i k b l r : J true key c (T i k b l r) -> isred l = true -> isred r = true -> J false key c (T i k true (blacken l) (blacken r)).
Proof.
  intros [ND SS P Q (n & N & HB & Ht) R] Rl Rr. constructor; auto.
  - cbn [ids]. rewrite !blacken_ids. exact ND.
  - unfold all in *. cbn [elems] in *. rewrite !blacken_elems. exact SS.
  - exists n, N. split; auto. destruct l as [|il kl [|] ll lr]; try discriminate. destruct r as [|ir kr [|] rl rr]; try discriminate. destruct b; [cbn in Ht; destruct Ht as (_ & _ & Hx & _); discriminate|].
    destruct Ht as (m & -> & H1 & H2). cbn in *. destruct H1 as (? & ? & _), H2 as (? & ? & _). splits; eauto.
Qed.
Lemma J_insert key c q : J true key c E -> ~ In q (cids c) -> J false key c (T q key true E E).
Proof.
  intros [ND SS P Q (n & N & HB & Ht) R] Hq. constructor; auto; try discriminate.
  - cbn in *. rewrite app_nil_r in ND. apply (Permutation_NoDup (l := q :: cids c)); [apply Permutation_cons_append|]. constructor; auto.
  - unfold all in *. cbn [elems app] in *. apply ss_app in SS as (S1 & S2 & S3). apply ss_app. split; auto. split.
    + constructor; auto. apply Forall_forall. intros x Hx. apply Q. auto.
    + intros a b Ha [<-|Hb]; auto. apply gt_lt. apply P. auto.
  - exists n, N. split; auto. cbn in *. auto.
Qed.
Lemma J_rot key d1 d2 p kp s1 gp kg (c2 : bool) s2 rest i k l r :
  J false key (F d1 p kp true s1 :: F d2 gp kg c2 s2 :: rest) (T i k true l r) -> isred s2 = false ->
  c2 = false /\ J true key (rot_ctx d1 d2 p kp s1 gp kg s2 rest) (rot_tree d1 d2 p kp s1 gp kg s2 i k l r) /\
  all (rot_ctx d1 d2 p kp s1 gp kg s2 rest) (rot_tree d1 d2 p kp s1 gp kg s2 i k l r) = all (F d1 p kp true s1 :: F d2 gp kg c2 s2 :: rest) (T i k true l r).
Proof.
  intros [ND SS P Q (n & N & HB & Ht) R] R2. cbn [cbal fs fc toprb] in HB. destruct HB as (B1 & R1 & -> & B2 & HB). split; auto.
  assert (EA : all (rot_ctx d1 d2 p kp s1 gp kg s2 rest) (rot_tree d1 d2 p kp s1 gp kg s2 i k l r) = all (F d1 p kp true s1 :: F d2 gp kg false s2 :: rest) (T i k true l r)).
  { unfold all, rot_ctx, rot_tree. destruct d1, d2; cbn [Bool.eqb pre post fd fi fk fs elems app]; repeat (rewrite ?app_nil_r, <- ?app_assoc; cbn [app]); reflexivity. }
  split; [|exact EA]. constructor.
  - eapply Permutation_NoDup; [|exact ND]. unfold rot_ctx, rot_tree.
    apply (Permutation_count_occ Nat.eq_dec). intros y. destruct d1, d2; cbn [Bool.eqb cids fi fs ids]; repeat (rewrite !count_occ_app || cbn [count_occ app] || rewrite <- !app_assoc); repeat (match goal with |- context [Nat.eq_dec ?a ?b] => destruct (Nat.eq_dec a b) end); lia.
  - rewrite EA. exact SS.
  - intros x Hx. unfold rot_ctx in Hx. destruct d1, d2; cbn [Bool.eqb pre fd fi fk fs elems] in *; apply P; repeat (rewrite !in_app_iff in * || cbn [In] in *); tauto.
  - intros x Hx. unfold rot_ctx in Hx. destruct d1, d2; cbn [Bool.eqb post fd fi fk fs elems] in *; apply Q; repeat (rewrite !in_app_iff in * || cbn [In] in *); tauto.
  - cbn in Ht. destruct Ht as (H1 & H2 & H3 & H4). unfold rot_ctx, rot_tree. destruct d1, d2; cbn [Bool.eqb].
    + exists n, N. cbn. splits; auto.
    + exists (S n), N. split; auto. exists n. cbn. splits; auto.
    + exists (S n), N. split; auto. exists n. cbn. splits; auto.
    + exists n, N. cbn. splits; auto.
  - intros _. unfold rot_ctx, rot_tree. destruct d1, d2; cbn [Bool.eqb toprb fc isred]; auto; discriminate.
Qed.

(** ** maybe_split_for_insert *)
Lemma split_load (h : theap K) c i k b l r : here h c (T i k b l r) ->
  load h (cell_of c) = Ok (Some i) /\ load h (CRight i) = Ok (ptr r) /\ load h (CLeft i) = Ok (ptr l) /\
  (match ptr r, ptr l with Some a, Some b => do x <- red_at h a; if x then red_at h b else Ok false | _, _ => Ok false end) = Ok (isred r && isred l).
Proof.
  intros (v & Hc & -> & n & En & Ek & Ec & Hl & Hr). split; [now apply load_ctx|]. rewrite (load_L h i n En), (load_R h i n En). rewrite (root_ptr _ _ _ Hl), (root_ptr _ _ _ Hr). split; auto. split; auto.
  destruct r as [|ir kr cr rl rr]; cbn [ptr isred andb]; auto. destruct l as [|il kl cl ll lr]; cbn [ptr isred]; [now rewrite andb_false_r|].
  destruct Hr as (_ & nr & Er & _ & Cr & _), Hl as (_ & nl & El & _ & Cl & _). rewrite (red_ok h _ _ Er), (red_ok h _ _ El). cbn [bind]. rewrite Cr, Cl. destruct cr; auto.
Qed.
Lemma split_no (h : theap K) c i k b l r pp gpp p_r gp_r : here h c (T i k b l r) -> isred l && isred r = false ->
  maybe_split_for_insert h (cell_of c) pp gpp p_r gp_r false = Ok h.
Proof.
  intros H HR. destruct (split_load _ _ _ _ _ _ _ H) as (L1 & L2 & L3 & L4). unfold maybe_split_for_insert. rewrite L1. cbn [bind deref]. rewrite L2, L3. cbn [bind]. rewrite L4. cbn [bind orb]. rewrite andb_comm, HR. reflexivity.
Qed.
Definition valid c (pp : option cell) (r : Z) : Prop := match c with [] => pp = None | f :: c0 => pp = Some (cell_of c0) /\ sign_ok (fd f) r end.
Lemma split_top (h : theap K) c i k b l r pp gpp p_r gp_r mode : here h c (T i k b l r) -> NoDup (cids c ++ ids (T i k b l r)) -> mode || (isred l && isred r) = true ->
  toprb c = false -> valid c pp p_r ->
  exists h', maybe_split_for_insert h (cell_of c) pp gpp p_r gp_r mode = Ok h' /\ here h' c (T i k true (blacken l) (blacken r)) /\ length (hnodes h') = length (hnodes h).
Proof.
  intros H ND HR HT HV. destruct (split_load _ _ _ _ _ _ _ H) as (L1 & L2 & L3 & L4). unfold maybe_split_for_insert. rewrite L1. cbn [bind deref]. rewrite L2, L3. cbn [bind]. rewrite L4. cbn [bind orb]. rewrite (andb_comm (isred r)), HR.
  destruct (paint _ _ _ _ _ _ _ H ND) as (h1 & h2 & h3 & E1 & E2 & E3 & H3 & LL). rewrite E1. cbn [bind]. rewrite E2. cbn [bind]. rewrite E3. cbn [bind].
  exists h3. split; [|auto]. destruct c as [|f c]; cbn [valid toprb] in *; [now subst pp|]. destruct HV as [-> _].
  destruct H3 as (v & Hc & _). cbn [ctxrep] in Hc. destruct Hc as [(nf & Ef & _ & Cf & _) Hc]. rewrite (load_ctx _ _ _ Hc). cbn [bind deref]. rewrite (red_ok h3 _ _ Ef). cbn [bind]. now rewrite Cf, HT.
Qed.
Lemma split_rot (h : theap K) d1 d2 p kp s1 gp kg s2 rest i k b l r pp gpp p_r gp_r mode :
  let c := F d1 p kp true s1 :: F d2 gp kg false s2 :: rest in
  here h c (T i k b l r) -> NoDup (cids c ++ ids (T i k b l r)) -> mode || (isred l && isred r) = true -> valid c pp p_r -> valid (F d2 gp kg false s2 :: rest) gpp gp_r ->
  exists h', maybe_split_for_insert h (cell_of c) pp gpp p_r gp_r mode = Ok h' /\
    here h' (rot_ctx d1 d2 p kp s1 gp kg s2 rest) (rot_tree d1 d2 p kp s1 gp kg s2 i k (blacken l) (blacken r)) /\ length (hnodes h') = length (hnodes h).
Proof.
  intros c H ND HR HV HV2. destruct (split_load _ _ _ _ _ _ _ H) as (L1 & L2 & L3 & L4). unfold maybe_split_for_insert. rewrite L1. cbn [bind deref]. rewrite L2, L3. cbn [bind]. rewrite L4. cbn [bind orb]. rewrite (andb_comm (isred r)), HR.
  destruct (paint _ _ _ _ _ _ _ H ND) as (h1 & h2 & h3 & E1 & E2 & E3 & H3 & LL). rewrite E1. cbn [bind]. rewrite E2. cbn [bind]. rewrite E3. cbn [bind].
  destruct HV as [-> V1], HV2 as [-> V2]. cbn [fd] in *.
  assert (Hs : load h3 (cell_of (F d2 gp kg false s2 :: rest)) = Ok (Some p) /\ red_at h3 p = Ok true /\ load h3 (cell_of rest) = Ok (Some gp)).
  { destruct H3 as (v & Hc & _). destruct Hc as [(np & Ep & _ & Cp & _) Hc]. cbn [fi fc] in *. split; [now apply load_ctx|]. split; [rewrite (red_ok h3 _ _ Ep); now rewrite Cp|]. destruct Hc as [_ Hc]. cbn [fi] in Hc. now apply load_ctx. }
  destruct Hs as (Hs1 & Hs2 & Hs3). rewrite Hs1. cbn [bind deref]. rewrite Hs2. cbn [bind]. rewrite Hs3. cbn [bind deref].
  destruct (rotate_ok h3 d1 d2 p kp s1 gp kg s2 rest i k (blacken l) (blacken r) p_r gp_r H3) as (h' & E' & H' & L'); auto.
  - cbn [ids] in *. rewrite !blacken_ids. exact ND.
  - exists h'. split; [exact E'|]. split; auto. congruence.
Qed.

(** ** The loop *)
Definition quiet t : Prop := match t with E => False | T _ _ c l r => c = false /\ isred l = false /\ isred r = false end.
Definition sibblack c : Prop := match c with [] => False | f :: _ => isred (fs f) = false end.
Definition phase (key : K) (m : nat) c t (pp gpp : option cell) (p_r gp_r : Z) : Prop :=
  match m with
  | 0 => valid c pp p_r /\ valid (tl c) gpp gp_r /\ (isred t = true -> sibblack c) /\ (toprb c = true -> sibblack (tl c))
  | 1 => c <> [] /\ valid c pp p_r /\ quiet t
  | _ => exists i k b l r, t = T i k b l r /\ (((compar key k < 0)%Z /\ quiet l) \/ ((0 < compar key k)%Z /\ quiet r))
  end.
Definition size t := length (ids t).
Definition msr (key : K) (m : nat) t : nat :=
  match m, t with
  | S (S _), T _ k _ l r => 3 * size (if (compar key k <? 0)%Z then l else r) + 1
  | _, _ => 3 * size t
  end.
(** What is known when the place of the new node has been reached. *)
Definition at_leaf (key : K) (h' : theap K) c (nextp rootp : cell) (pp : option cell) (r p_r : Z) : Prop :=
  exists f c0, c = f :: c0 /\ here h' c E /\ J true key c E /\ nextp = cell_of c /\ rootp = cell_of c0 /\ sign_ok (fd f) r /\ (fc f = true -> valid c0 pp p_r /\ sibblack c0).

Lemma tsearch_loop_ok : forall fuel key (h : theap K) c t m pp gpp p_r gp_r, t <> E -> here h c t -> J true key c t -> phase key m c t pp gpp p_r gp_r -> msr key m t <= fuel ->
  match tsearch_loop compar fuel key h (cell_of c) pp gpp p_r gp_r with
  | Ok (inl (q, h')) => exists c' t' k, here h' c' t' /\ J true key c' t' /\ all c' t' = all c t /\ In (q, k) (elems t') /\ compar key k = 0%Z /\ length (hnodes h') = length (hnodes h)
  | Ok (inr (h', nextp, rootp, pp', r, p_r')) => exists c', at_leaf key h' c' nextp rootp pp' r p_r' /\ all c' E = all c t /\ length (hnodes h') = length (hnodes h)
  | Err _ => False
  end.
Proof.
  induction fuel as [|fuel IH]; intros key h c t m pp gpp p_r gp_r HE HH HJ HP HF; (destruct t as [|i k b l r]; [congruence|]).
  { exfalso. destruct m as [|[|m]]; cbn in HF; lia. }
  cbn [tsearch_loop]. destruct (split_load _ _ _ _ _ _ _ HH) as (L1 & L2 & L3 & L4). rewrite L1. cbn [bind deref].
  assert (Hn : exists n, get (hnodes h) i = Ok n /\ tkey n = k). { destruct HH as (v & _ & _ & n & En & Ek & _). exists n. split; auto. now apply get_ok. }
  destruct Hn as (n & En & Ek). rewrite En. cbn [bind]. rewrite Ek.
  destruct (Z.eqb_spec (compar key k) 0) as [E0|N0].
  { exists c, (T i k b l r), k. split; auto. split; auto. split; auto. split; [cbn; apply in_or_app; right; left; auto|auto]. }
  (* going down to the next node *)
  assert (DOWN : forall (h1 : theap K) c1 b1 l1 r1 m1, here h1 c1 (T i k b1 l1 r1) -> J true key c1 (T i k b1 l1 r1) -> all c1 (T i k b1 l1 r1) = all c (T i k b l r) -> length (hnodes h1) = length (hnodes h) ->
    let d := (compar key k <? 0)%Z in let f := F d i k b1 (if d then r1 else l1) in let t1 := if d then l1 else r1 in
    (t1 <> E -> phase key m1 (f :: c1) t1 (Some (cell_of c)) pp (compar key k) p_r /\ msr key m1 t1 <= fuel) ->
    (t1 = E -> c1 = c /\ (b1 = true -> valid c pp p_r /\ sibblack c)) ->
    match (do v <- load h1 (if (compar key k <? 0)%Z then CLeft i else CRight i); match v with
       | Some _ => tsearch_loop compar fuel key h1 (if (compar key k <? 0)%Z then CLeft i else CRight i) (Some (cell_of c)) pp (compar key k) p_r
       | None => Ok (inr (h1, if (compar key k <? 0)%Z then CLeft i else CRight i, cell_of c, pp, compar key k, p_r)) end)
    with
    | Ok (inl (q, h')) => exists c' t' k1, here h' c' t' /\ J true key c' t' /\ all c' t' = all c (T i k b l r) /\ In (q, k1) (elems t') /\ compar key k1 = 0%Z /\ length (hnodes h') = length (hnodes h)
    | Ok (inr (h', nextp, rootp, pp', r0, p_r')) => exists c', at_leaf key h' c' nextp rootp pp' r0 p_r' /\ all c' E = all c (T i k b l r) /\ length (hnodes h') = length (hnodes h)
    | Err _ => False
    end).
  { intros h1 c1 b1 l1 r1 m1 H1 J1 A1 Len d f t1 HN HL.
    assert (ST : here h1 (f :: c1) t1 /\ J true key (f :: c1) t1 /\ all (f :: c1) t1 = all c1 (T i k b1 l1 r1) /\ (if (compar key k <? 0)%Z then CLeft i else CRight i) = cell_of (f :: c1) /\ sign_ok (fd f) (compar key k)).
    { subst f t1 d. destruct (Z.ltb_spec (compar key k) 0).
      - cj; auto; [now apply here_left|now apply J_left|]. unfold all. cbn [pre post fd fi fk fs elems]. rewrite app_nil_r. now repeat (rewrite <- !app_assoc; cbn [app]).
      - assert (0 < compar key k)%Z by lia. cj; auto; [now apply here_right|now apply J_right|]. unfold all. cbn [pre post fd fi fk fs elems app]. now repeat (rewrite <- !app_assoc; cbn [app]). }
    destruct ST as (SH & SJ & SA & SC & SS). rewrite SC.
    assert (SL : load h1 (cell_of (f :: c1)) = Ok (ptr t1)). { destruct SH as (v & Hc & Hv). rewrite (load_ctx _ _ _ Hc). f_equal. eapply root_ptr; eauto. }
    rewrite SL. cbn [bind]. destruct t1 as [|i1 k1 b0 l0 r0] eqn:Et; cbn [ptr].
    - destruct (HL eq_refl) as (Hc & Hv). exists (f :: c1). split; [|split; [rewrite SA; auto|auto]]. exists f, c1. split; auto. split; auto. split; auto. split; auto. subst c1. split; auto.
    - destruct (HN ltac:(discriminate)) as [HP1 HM]. specialize (IH key h1 (f :: c1) (T i1 k1 b0 l0 r0) m1 (Some (cell_of c)) pp (compar key k) p_r ltac:(discriminate) SH SJ HP1 HM).
      destruct (tsearch_loop compar fuel key h1 (cell_of (f :: c1)) (Some (cell_of c)) pp (compar key k) p_r) as [[[q h']|[[[[[h' nextp] rootp] pp'] r'] p_r']]|e]; auto.
      + destruct IH as (c' & t' & k' & I1 & I2 & I3 & I4 & I5 & I6). exists c', t', k'. rewrite I3, SA, I6. cj; auto.
      + destruct IH as (c' & I1 & I2 & I3). exists c'. rewrite I2, SA, I3. cj; auto. }
  assert (SG : forall (c1 : ctx) b1 l1 r1, valid (F (compar key k <? 0)%Z i k b1 (if (compar key k <? 0)%Z then r1 else l1) :: c1) (Some (cell_of c1)) (compar key k)).
  { intros c1 b1 l1 r1. split; auto. cbn [fd]. destruct (Z.ltb_spec (compar key k) 0); cbn; lia. }
  assert (SZ : size (T i k b l r) = S (size l + size r)) by (unfold size; cbn [ids length]; now rewrite app_length).
  assert (BAL := j_bal _ _ _ _ HJ). destruct BAL as (nb & NB & _ & Bt).
  destruct m as [|[|m]].
  - (* no recent split *)
    cbn [phase] in HP. destruct HP as (V1 & V2 & P1 & P2). destruct (isred l && isred r) eqn:HR.
    + apply andb_true_iff in HR as [Rl Rr]. assert (b = false). { destruct b; auto. cbn in Bt. destruct Bt as (_ & _ & Hx & _). congruence. } subst b.
      assert (QL : quiet (blacken l)). { destruct l as [|il kl [|] ll lr]; try discriminate. cbn in Bt. destruct Bt as (m0 & _ & (_ & _ & ? & ?) & _). cbn. auto. }
      assert (QR : quiet (blacken r)). { destruct r as [|ir kr [|] rl rr]; try discriminate. cbn in Bt. destruct Bt as (m0 & _ & _ & (_ & _ & ? & ?)). cbn. auto. }
      pose proof (J_split _ _ _ _ _ _ _ HJ Rl Rr) as JS.
      assert (SB : size (blacken l) = size l /\ size (blacken r) = size r) by (unfold size; now rewrite !blacken_ids). destruct SB as [SBl SBr].
      assert (AS : all c (T i k true (blacken l) (blacken r)) = all c (T i k false l r)) by (unfold all; cbn [elems]; now rewrite !blacken_elems).
      cbn [msr] in HF.
      assert (NEb : forall t, quiet (blacken t) -> blacken t <> E) by (intros t Hq He; rewrite He in Hq; exact Hq).
      destruct (toprb c) eqn:TR.
      * specialize (P2 eq_refl). destruct c as [|[d1 p kp c1 s1] [|[d2 gp kg c2 s2] rest]]; try (cbn in P2; tauto); try (cbn in TR; discriminate). cbn [toprb fc] in TR. subst c1. cbn [tl sibblack fs] in P2.
        destruct (J_rot _ _ _ _ _ _ _ _ _ _ _ _ _ _ _ JS P2) as (-> & JR & AR).
        destruct (split_rot h d1 d2 p kp s1 gp kg s2 rest i k false l r pp gpp p_r gp_r false HH) as (h1 & E1 & H1 & LL); auto; [apply (j_nodup _ _ _ _ HJ)|cbn; now rewrite Rl, Rr|]. rewrite E1. cbn [bind].
        rewrite AS in AR. destruct (Bool.bool_dec d1 d2) as [->|Nd].
        -- (* zig-zig *)
           unfold rot_ctx, rot_tree in *. rewrite Bool.eqb_reflx in *. apply (DOWN h1 _ true (blacken l) (blacken r) 1 H1 JR AR LL).
           ++ intros _. split.
              ** split; [discriminate|]. split; [|destruct (compar key k <? 0)%Z; auto]. apply (SG (F d2 p kp false (if d2 then T gp kg true s1 s2 else T gp kg true s2 s1) :: rest)).
              ** cbn [msr]. destruct (compar key k <? 0)%Z; lia.
           ++ intros Hx. exfalso. destruct (compar key k <? 0)%Z; [exact (NEb _ QL Hx)|exact (NEb _ QR Hx)].
        -- (* zig-zag *)
           pose proof (j_pre _ _ _ _ JS) as PRE. pose proof (j_post _ _ _ _ JS) as POST. cbn [pre post fd fi fk fs] in PRE, POST.
           unfold rot_ctx, rot_tree in *. rewrite (proj2 (Bool.eqb_false_iff d1 d2) Nd) in *.
           destruct d1.
           ++ destruct d2; [congruence|]. assert (G1 : (0 < compar key kg)%Z) by (apply (PRE (gp, kg)); rewrite !in_app_iff; cbn [In]; tauto). assert (G2 : (compar key kp < 0)%Z) by (apply (POST (p, kp)); rewrite !in_app_iff; cbn [In]; tauto).
              apply (DOWN h1 _ false _ _ 2 H1 JR AR LL).
              ** intros _. destruct (compar key k <? 0)%Z; (split; [do 5 eexists; split; [reflexivity|]; tauto|]); cbn [msr].
                 --- rewrite (proj2 (Z.ltb_ge (compar key kg) 0)) by lia. lia.
                 --- rewrite (proj2 (Z.ltb_lt (compar key kp) 0)) by lia. lia.
              ** destruct (compar key k <? 0)%Z; discriminate.
           ++ destruct d2; [|congruence]. assert (G1 : (compar key kg < 0)%Z) by (apply (POST (gp, kg)); rewrite !in_app_iff; cbn [In]; tauto). assert (G2 : (0 < compar key kp)%Z) by (apply (PRE (p, kp)); rewrite !in_app_iff; cbn [In]; tauto).
              apply (DOWN h1 _ false _ _ 2 H1 JR AR LL).
              ** intros _. destruct (compar key k <? 0)%Z; (split; [do 5 eexists; split; [reflexivity|]; tauto|]); cbn [msr].
                 --- rewrite (proj2 (Z.ltb_ge (compar key kp) 0)) by lia. lia.
                 --- rewrite (proj2 (Z.ltb_lt (compar key kg) 0)) by lia. lia.
              ** destruct (compar key k <? 0)%Z; discriminate.
      * destruct (split_top h c i k false l r pp gpp p_r gp_r false HH) as (h1 & E1 & H1 & LL); auto; [apply (j_nodup _ _ _ _ HJ)|cbn; now rewrite Rl, Rr|]. rewrite E1. cbn [bind].
        apply (DOWN h1 c true (blacken l) (blacken r) 1 H1); auto; [apply J_strong; auto; congruence| |].
        -- intros _. split; [split; [discriminate|]; split; [apply SG|destruct (compar key k <? 0)%Z; auto]|]. cbn [msr]. destruct (compar key k <? 0)%Z; lia.
        -- intros Hx. exfalso. destruct (compar key k <? 0)%Z; [exact (NEb _ QL Hx)|exact (NEb _ QR Hx)].
    + rewrite (split_no _ _ _ _ _ _ _ pp gpp p_r gp_r HH HR). cbn [bind]. cbn [msr] in HF. apply (DOWN h c b l r 0 HH HJ); auto.
      * intros HN. split.
        -- split; [apply SG|]. split; [exact V1|]. split; [|exact P1]. intros Hr. cbn [sibblack fs]. destruct (compar key k <? 0)%Z; rewrite Hr in HR; [exact HR|now rewrite andb_true_r in HR].
        -- cbn [msr]. destruct (compar key k <? 0)%Z; lia.
  - (* one level after a split *)
    cbn [phase] in HP. destruct HP as (NC & V1 & Hb & Rl & Rr). subst b. assert (HR : isred l && isred r = false) by now rewrite Rl.
    rewrite (split_no _ _ _ _ _ _ _ pp gpp p_r gp_r HH HR). cbn [bind]. cbn [msr] in HF. apply (DOWN h c false l r 0 HH HJ); auto.
    + intros HN. split.
      * split; [apply SG|]. split; [exact V1|]. split; [|cbn; discriminate]. intros Hr. destruct (compar key k <? 0)%Z; congruence.
      * cbn [msr]. destruct (compar key k <? 0)%Z; lia.
    + intros _. split; [auto|discriminate].
  - (* two levels after a split *)
    cbn [phase] in HP. destruct HP as (i' & k' & b' & l' & r' & Eq & HP). injection Eq as <- <- <- <- <-.
    assert (QB : forall t, quiet t -> isred t = false /\ t <> E) by (intros [|? ? ? ? ?]; cbn; [tauto|]; intros (-> & _); split; [auto|discriminate]).
    assert (HR : isred l && isred r = false). { destruct HP as [[_ HQ]|[_ HQ]]; destruct (QB _ HQ) as [-> _]; auto using andb_false_r. }
    rewrite (split_no _ _ _ _ _ _ _ pp gpp p_r gp_r HH HR). cbn [bind]. cbn [msr] in HF.
    assert (HQ : quiet (if (compar key k <? 0)%Z then l else r)). { destruct (Z.ltb_spec (compar key k) 0); destruct HP as [[? ?]|[? ?]]; auto; lia. }
    apply (DOWN h c b l r 1 HH HJ); auto.
    + intros HN. split; [split; [discriminate|]; split; [apply SG|exact HQ]|]. cbn [msr]. lia.
    + intros Hx. exfalso. apply QB in HQ as [_ HQ]. contradiction.
Qed.


Lemma J_holds key (h : theap K) c t : here h c t -> J true key c t -> holds compar h (plug c t) /\ elems (plug c t) = all c t.
Proof.
  intros HH [ND SS P Q (n & N & HB & Ht) R]. split; [|apply all_plug]. constructor.
  - now apply here_plug.
  - eapply Permutation_NoDup; [symmetry; apply ids_plug|exact ND].
  - unfold sorted. now rewrite all_plug.
  - exists N. eapply bal_plug; eauto.
Qed.
Lemma rep_bound (h : theap K) t : forall p, rep h p t -> forall j, In j (ids t) -> j < length (hnodes h).
Proof.
  induction t as [|i k b l IHl r IHr]; intros p; cbn [rep ids]; [intros _ j []|]. intros (_ & n & En & _ & _ & Hl & Hr) j [<-|Hj]; [eapply nth_lt; eauto|]. apply in_app_or in Hj as [Hj|Hj]; eauto.
Qed.
Lemma here_bound (h : theap K) c t : here h c t -> forall j, In j (cids c ++ ids t) -> j < length (hnodes h).
Proof.
  intros H j Hj. apply here_plug in H. eapply rep_bound; [exact H|]. eapply Permutation_in; [symmetry; apply ids_plug|auto].
Qed.
Lemma new_node (h : theap K) key c : here h c E -> NoDup (cids c) ->
  exists h', store (mkH (hroot h) (hnodes h ++ [mkT key None None true])) (cell_of c) (Some (length (hnodes h))) = Ok h' /\ here h' c (T (length (hnodes h)) key true E E) /\ length (hnodes h') = S (length (hnodes h)).
Proof.
  intros H ND. pose proof (here_bound _ _ _ H) as HB. cbn [ids] in HB. rewrite app_nil_r in HB. destruct H as (v & Hc & Hv). set (h0 := mkH (hroot h) (hnodes h ++ [mkT key None None true])).
  assert (Hc0 : ctxrep h0 c v). { eapply ctxrep_frame; [exact Hc|reflexivity|]. intros j Hj. unfold node_at. cbn. apply nth_error_app1. auto. }
  destruct (store_ctx h0 c v (Some (length (hnodes h))) Hc0 ND) as (h' & E' & Hc' & HJ & HL). exists h'. split; auto. split.
  - exists (Some (length (hnodes h))). split; auto. cbn. split; auto. exists (mkT key None None true). cj; auto.
    change (node_at h' (length (hnodes h)) = Some (mkT key None None true)). rewrite HJ.
    + unfold node_at, h0. cbn. rewrite nth_error_app2 by lia. now rewrite Nat.sub_diag.
    + intros Hx. apply HB in Hx. lia.
  - rewrite HL. unfold h0. cbn. rewrite app_length. cbn. lia.
Qed.
Lemma cell_neq (f : @frame K) c0 : ~ In (fi f) (cids c0) -> cell_eqb (cell_of (f :: c0)) (cell_of c0) = false.
Proof.
  intros H. destruct c0 as [|g c0]; cbn [cell_of]; [destruct (fd f); auto|]. cbn [cids] in H. assert (fi f =? fi g = false) by (apply Nat.eqb_neq; intros Hx; apply H; left; auto). destruct (fd f), (fd g); cbn; auto.
Qed.
Lemma tsearch_new_ok key (h : theap K) c nextp rootp pp r p_r : at_leaf key h c nextp rootp pp r p_r ->
  exists h' c' t', tsearch_new key h nextp rootp pp r p_r = Ok (length (hnodes h), h') /\ here h' c' t' /\ J true key c' t' /\ all c' t' = pre c ++ (length (hnodes h), key) :: post c /\ length (hnodes h') = S (length (hnodes h)).
Proof.
  intros (f & c0 & -> & HH & HJ & -> & -> & Hs & Hr). unfold tsearch_new. pose proof (j_nodup _ _ _ _ HJ) as ND. cbn [ids] in ND. rewrite app_nil_r in ND.
  pose proof (here_bound _ _ _ HH) as HB. cbn [ids] in HB. rewrite app_nil_r in HB.
  destruct (new_node h key (f :: c0) HH ND) as (h1 & E1 & H1 & L1). rewrite E1. cbn [bind]. rewrite cell_neq by (cbn [cids] in ND; apply NoDup_cons_iff in ND as [ND _]; rewrite in_app_iff in ND; tauto).
  assert (NQ : ~ In (length (hnodes h)) (cids (f :: c0))) by (intros Hx; apply HB in Hx; lia).
  pose proof (J_insert _ _ _ HJ NQ) as JI. assert (V : valid (f :: c0) (Some (cell_of c0)) r) by (split; auto).
  destruct (fc f) eqn:Ef.
  - destruct (Hr eq_refl) as [V2 SB]. destruct c0 as [|[d2 gp kg c2 s2] rest]; [destruct SB|]. destruct f as [d1 p kp c1 s1]. cbn [fc] in Ef. subst c1. cbn [sibblack fs] in SB.
    destruct (J_rot _ _ _ _ _ _ _ _ _ _ _ _ _ _ _ JI SB) as (-> & JR & AR).
    destruct (split_rot h1 d1 d2 p kp s1 gp kg s2 rest _ key true E E (Some (cell_of (F d2 gp kg false s2 :: rest))) pp r p_r true H1) as (h2 & E2 & H2 & L2); auto; [apply (j_nodup _ _ _ _ JI)|].
    rewrite E2. cbn [bind]. do 3 eexists. split; [reflexivity|]. split; [exact H2|]. split; [exact JR|]. split; [|congruence]. cbn [blacken]. rewrite AR. reflexivity.
  - destruct (split_top h1 (f :: c0) _ key true E E (Some (cell_of c0)) pp r p_r true H1) as (h2 & E2 & H2 & L2); auto; [apply (j_nodup _ _ _ _ JI)|].
    rewrite E2. cbn [bind]. do 3 eexists. split; [reflexivity|]. split; [exact H2|]. split; [apply J_strong; [exact JI|cbn; congruence]|]. split; [reflexivity|congruence].
Qed.
Lemma holds_J key (h : theap K) t : holds compar h t -> isred t = false -> here h [] t /\ J true key [] t.
Proof.
  intros [A B C (n & D)] R. split; [now apply here_plug|]. constructor; cbn; auto; try tauto; [|eauto]. unfold all. cbn. rewrite app_nil_r. exact C.
Qed.
Lemma size_bound (h : theap K) t p : rep h p t -> NoDup (ids t) -> size t <= length (hnodes h).
Proof.
  intros H ND. unfold size. rewrite <- (seq_length (length (hnodes h)) 0). apply NoDup_incl_length; auto. intros j Hj. apply in_seq. pose proof (rep_bound _ _ _ H j Hj). lia.
Qed.

Theorem tsearch_ok (h : theap K) t key : holds compar h t ->
  match tsearch compar key h with
  | Ok (q, h') => exists t', holds compar h' t' /\
      ((exists k, In (q, k) (elems t) /\ compar key k = 0%Z /\ elems t' = elems t /\ length (hnodes h') = length (hnodes h)) \/
       ((forall i k, In (i, k) (elems t) -> compar key k <> 0%Z) /\ q = length (hnodes h) /\
        exists l1 l2, elems t = l1 ++ l2 /\ elems t' = l1 ++ (q, key) :: l2 /\ length (hnodes h') = S (length (hnodes h))))
  | Err _ => False
  end.
Proof.
  intros HO. unfold tsearch. pose proof (ho_rep _ _ _ HO) as HR. destruct t as [|i k b l r].
  - cbn in HR. rewrite HR. unfold tsearch_new. cbn. exists (T (length (hnodes h)) key true E E). split.
    + constructor; cbn.
      * split; auto. eexists. split; [rewrite nth_error_app2, Nat.sub_diag by lia; reflexivity|]. cj; auto.
      * constructor; [auto|constructor].
      * unfold sorted. cbn. constructor; constructor.
      * exists 0. auto.
    + right. split; [tauto|]. split; auto. exists [], []. rewrite app_length. cbn. cj; auto. lia.
  - assert (ND := ho_nodup _ _ _ HO). destruct (colour h [] i k b false l r) as (h1 & E1 & H1 & L1); [apply here_plug; exact HR|exact ND|]. cbn [rep] in HR. destruct HR as [HR _]. rewrite HR, E1. cbn [bind].
    assert (HO1 : holds compar h1 (T i k false l r)). { constructor; [now apply here_plug in H1|exact ND|exact (ho_sorted _ _ _ HO)|]. destruct (ho_balanced _ _ _ HO) as (n & Hn). destruct b; [|exists n; auto]. destruct Hn as (? & ? & _). exists (S n). exists n. auto. }
    destruct (holds_J key _ _ HO1 eq_refl) as [_ J1].
    assert (SZ : size (T i k false l r) <= length (hnodes h1)) by (eapply size_bound; [apply (ho_rep _ _ _ HO1)|exact ND]).
    pose proof (tsearch_loop_ok (3 * length (hnodes h1) + 1) key h1 [] (T i k false l r) 0 None None 0 0 ltac:(discriminate) H1 J1) as L. cbn [cell_of] in L.
    specialize (L ltac:(cbn; cj; auto; discriminate) ltac:(cbn [msr]; lia)).
    assert (AE : all [] (T i k false l r) = elems (T i k b l r)) by (unfold all; cbn [pre post app]; now rewrite app_nil_r).
    destruct (tsearch_loop compar (3 * length (hnodes h1) + 1) key h1 CRoot None None 0 0) as [[[q h']|[[[[[h' nextp] rootp] pp'] r'] p_r']]|e]; auto; cbn [bind].
    + destruct L as (c' & t' & k' & L2 & L3 & L4 & L5 & L6 & L7). destruct (J_holds _ _ _ _ L2 L3) as [G1 G2]. exists (plug c' t'). split; auto. left. exists k'. rewrite G2, L4, AE. split; [|split; auto; split; auto; congruence].
      rewrite <- AE, <- L4. unfold all. rewrite !in_app_iff. auto.
    + destruct L as (c' & L2 & L3 & L4). destruct (tsearch_new_ok _ _ _ _ _ _ _ _ L2) as (h2 & c2 & t2 & E2 & H2 & J2 & A2 & N2). rewrite E2.
      destruct (J_holds _ _ _ _ H2 J2) as [G1 G2]. exists (plug c2 t2). split; auto. right. rewrite AE in L3. assert (L5 : all c' E = pre c' ++ post c') by reflexivity. rewrite L5 in L3. clear L5. destruct L2 as (f & c0 & Ec & _ & JL & _).
      split; [|split; [congruence|]].
      * intros j kj Hj. rewrite <- L3 in Hj. apply in_app_or in Hj as [Hj|Hj]; [apply (j_pre _ _ _ _ JL) in Hj|apply (j_post _ _ _ _ JL) in Hj]; cbn in Hj; lia.
      * exists (pre c'), (post c'). split; auto. rewrite G2. split; [exact A2|congruence].
Qed.
End Order.


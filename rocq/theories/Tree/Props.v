(** C33: tree nodes. *)
From Verif Require Import Lib.Base Lib.Lists Tree.Model Tree.Spec Tree.Proofs Tree.Trees Tree.Copy.
From Coq Require Import List Arith Bool ZArith Lia.
Import ListNotations.
Open Scope nat_scope.

(** After any history of creations, moves and destructions on existing nodes,
    the next such call is well defined. *)
Theorem tree_calls_defined {D} (h : heap D) o :
  reachable h -> legal h o -> exists h', step h o = Ok h'.
Proof. intros R L. destruct (good_step h o (reachable_good h R) L) as (h' & E & _). eauto. Qed.

(** The child lists and the parent pointers agree: children() of [p] lists
    exactly the nodes whose parent() is [p], each once. *)
Theorem tree_links_agree {D} (h : heap D) p :
  reachable h -> live h p ->
  exists cs, children h p = Ok cs /\ NoDup cs /\ forall c, In c cs <-> parent h c = Ok (Some p).
Proof.
  intros R L. destruct (reachable_good h R) as (K & V). apply live_lk in L as (nd & L).
  exists (K p). split; [exact (inv_children _ h K p nd V L)|]. split; [exact (inv_nodup _ _ _ V p nd L)|].
  intros c. rewrite parent_lk. split.
  - intros J. destruct (inv_down _ _ _ V p nd c L J) as (_ & cn & Lc & Pc). eauto.
  - intros (cn & Lc & Pc). exact (proj2 (inv_up _ _ _ V c cn p Lc (fun f => f) Pc)).
Qed.

(** No parent pointer dangles. *)
Theorem tree_parent_live {D} (h : heap D) n p :
  reachable h -> parent h n = Ok (Some p) -> live h p.
Proof.
  intros R P. destruct (reachable_good h R) as (K & V). apply parent_lk in P as (nd & L & P).
  apply live_lk. exact (proj1 (inv_up _ _ _ V n nd p L (fun f => f) P)).
Qed.

Definition same_payload {D} (h h' : heap D) (m : nat) : Prop :=
  match get h m, get h' m with
  | Ok a, Ok b => ndata a = ndata b
  | UB _, UB _ => True
  | _, _ => False
  end.

(** set_parent moves the node, in front of the new parent's children, and
    touches nothing else. *)
Theorem set_parent_moves {D} (h : heap D) n p h' :
  reachable h -> live h n -> live_opt h p -> set_parent h n p = Ok h' ->
  parent h' n = Ok p /\
  (forall m, m <> n -> parent h' m = parent h m) /\
  (forall m, same_payload h h' m) /\
  forall q cs, children h q = Ok cs ->
    children h' q = Ok (if is p (Some q) then n :: remove Nat.eq_dec n cs else remove Nat.eq_dec n cs).
Proof.
  intros R L Lp E. destruct (reachable_good h R) as (K & V). apply live_lk in L as (nd & L).
  destruct (set_parent_ok _ h K n nd p V L (fun f => f) Lp) as (h1 & E1 & V1 & Len & C).
  rewrite E1 in E. injection E as <-.
  assert (Par : forall m, parent h1 m = if Nat.eqb m n then Ok p else parent h m).
  { intros m. specialize (C m). unfold parent. rewrite !get_lk.
    destruct (Nat.eqb_spec m n) as [Hm|Hm]; [subst m|].
    - rewrite L in C. destruct (lk h1 n) as [b|]; [|destruct C]. cbn [bind].
      destruct C as (_ & ->). reflexivity.
    - destruct (lk h m) as [a|], (lk h1 m) as [b|]; try tauto; cbn [bind].
      destruct C as (_ & ->). reflexivity. }
  split; [rewrite Par, Nat.eqb_refl; reflexivity|]. split; [|split].
  - intros m Hm. rewrite Par. apply Nat.eqb_neq in Hm. rewrite Hm. reflexivity.
  - intros m. specialize (C m). unfold same_payload. rewrite !get_lk.
    destruct (lk h m) as [a|], (lk h1 m) as [b|]; try tauto. symmetry. tauto.
  - intros q cs Hq. pose proof Hq as Hq'. apply children_inv in Hq' as (qd & Lq & _).
    rewrite (inv_children _ h K q qd V Lq) in Hq. injection Hq as <-.
    specialize (C q). rewrite Lq in C. destruct (lk h1 q) as [b|] eqn:Lb; [|destruct C].
    rewrite (inv_children _ h1 _ q b V1 Lb). reflexivity.
Qed.

(** A new node is a cell that was never used; it has no children and becomes
    the first child of its parent.  Nothing else changes. *)
Theorem new_node_adds {D} (h : heap D) p d h' n :
  reachable h -> live_opt h p -> new_node h p d = Ok (h', n) ->
  ~ live h n /\ parent h' n = Ok p /\ children h' n = Ok [] /\
  (exists nd, get h' n = Ok nd /\ ndata nd = d) /\
  (forall m, m <> n -> parent h' m = parent h m /\ same_payload h h' m) /\
  forall q cs, children h q = Ok cs -> children h' q = Ok (if is p (Some q) then n :: cs else cs).
Proof.
  intros R Lp E. destruct (reachable_good h R) as (K & V).
  destruct (new_ok _ h K p d V Lp (fun f => f)) as (h1 & E1 & Len & V1 & (nd & Ln & Dn & Pn) & Old).
  rewrite E1 in E. injection E as <- <-.
  assert (Dead : forall a, lk h (length h) = Some a -> False).
  { intros a La. pose proof (lk_lt _ _ _ La). lia. }
  split; [intros L; apply live_lk in L as (a & La); exact (Dead a La)|].
  split; [apply parent_lk; eauto|].
  split.
  { rewrite (inv_children _ h1 _ _ nd V1 Ln). unfold created, fresh_kids. rewrite Nat.eqb_refl.
    destruct p as [q|]; [|reflexivity]. cbn [is]. destruct (Nat.eqb_spec q (length h)) as [->|]; [|reflexivity].
    exfalso. cbn [live_opt] in Lp. apply live_lk in Lp as (a & La). exact (Dead a La). }
  split; [exists nd; split; [apply get_ok; exact Ln|exact Dn]|]. split.
  - intros m Hm. specialize (Old m Hm). unfold same_payload, parent. rewrite !get_lk.
    destruct (lk h m) as [a|], (lk h1 m) as [b|]; try tauto; cbn [bind].
    destruct Old as (-> & ->). auto.
  - intros q cs Hq. pose proof Hq as Hq'. apply children_inv in Hq' as (qd & Lq & _).
    rewrite (inv_children _ h K q qd V Lq) in Hq. injection Hq as <-.
    assert (Hm : q <> length h) by (intros ->; exact (Dead qd Lq)).
    pose proof (Old q Hm) as O. rewrite Lq in O. destruct (lk h1 q) as [b|] eqn:Lb; [|destruct O].
    rewrite (inv_children _ h1 _ q b V1 Lb). unfold created, fresh_kids.
    apply Nat.eqb_neq in Hm. rewrite Hm. reflexivity.
Qed.

(** Destroying a node takes it out of its parent's list and makes its children
    roots.  Nothing else changes. *)
Theorem destroy_removes {D} (h : heap D) n h' :
  reachable h -> live h n -> destroy h n = Ok h' ->
  ~ live h' n /\
  (forall m, m <> n -> same_payload h h' m) /\
  (forall m q, m <> n -> parent h m = Ok q -> parent h' m = Ok (if is q (Some n) then None else q)) /\
  forall q cs, q <> n -> children h q = Ok cs -> children h' q = Ok (remove Nat.eq_dec n cs).
Proof.
  intros R L E. destruct (reachable_good h R) as (K & V). apply live_lk in L as (nd & L).
  destruct (destroy_ok h K n nd V L) as (h1 & E1 & Len & V1 & Ln & Old).
  rewrite E1 in E. injection E as <-.
  split; [intros X; apply live_lk in X as (a & La); congruence|]. split; [|split].
  - intros m Hm. specialize (Old m Hm). unfold same_payload. rewrite !get_lk.
    destruct (lk h m) as [a|], (lk h1 m) as [b|]; try tauto. symmetry. tauto.
  - intros m q Hm P. apply parent_lk in P as (a & La & <-). specialize (Old m Hm). rewrite La in Old.
    destruct (lk h1 m) as [b|] eqn:Lb; [|destruct Old]. apply parent_lk. exists b. tauto.
  - intros q cs Hm Hq. pose proof Hq as Hq'. apply children_inv in Hq' as (qd & Lq & _).
    rewrite (inv_children _ h K q qd V Lq) in Hq. injection Hq as <-.
    specialize (Old q Hm). rewrite Lq in Old. destruct (lk h1 q) as [b|] eqn:Lb; [|destruct Old].
    exact (inv_children _ h1 _ q b V1 Lb).
Qed.

(** Writing the payload of a node changes nothing but that payload. *)
Theorem set_data_writes {D} (h : heap D) n d h' :
  reachable h -> live h n -> set_data h n d = Ok h' ->
  data h' n = Ok d /\ (forall m, m <> n -> data h' m = data h m) /\
  (forall m, parent h' m = parent h m) /\ (forall m, children h' m = children h m).
Proof.
  intros R L E. destruct (reachable_good h R) as (K & V). apply live_lk in L as (nd & L).
  destruct (set_data_ok _ h K n nd d V L) as (h1 & E1 & Len & V1 & Ln & Lm). rewrite E1 in E. injection E as <-.
  split; [|split; [|split]].
  - unfold data. rewrite get_lk, Ln. reflexivity.
  - intros m H. unfold data. rewrite !get_lk, Lm by exact H. reflexivity.
  - intros m. unfold parent. rewrite !get_lk. destruct (Nat.eq_dec m n) as [->|H]; [rewrite Ln, L; reflexivity|].
    rewrite Lm by exact H. reflexivity.
  - intros m. destruct (lk h m) as [a|] eqn:La.
    + rewrite (inv_children _ h K m a V La). destruct (Nat.eq_dec m n) as [->|H].
      * exact (inv_children _ h1 K n _ V1 Ln).
      * rewrite <- Lm in La by exact H. exact (inv_children _ h1 K m a V1 La).
    + destruct (Nat.eq_dec m n) as [->|H]; [congruence|]. unfold children. rewrite !get_lk, Lm, La by exact H. reflexivity.
Qed.

(** ** Queries, as long as no node was moved below itself *)

(** ancestry() lists the node and all its ancestors once, from the root down,
    each the parent of the next. *)
Theorem ancestry_lists_ancestors {D} (h : heap D) n :
  grown h -> live h n ->
  exists l, ancestry h n = Ok l /\ NoDup l /\ (forall a, In a l <-> above h a n) /\
    (exists l', l = l' ++ [n]) /\
    (forall r l', l = r :: l' -> parent h r = Ok None) /\
    (forall l1 a b l2, l = l1 ++ a :: b :: l2 -> parent h b = Ok (Some a)).
Proof.
  intros G L. destruct (grown_path h G n L) as (l & P). exists (rev l).
  split; [exact (ancestry_path h n l P)|].
  split; [apply NoDup_rev, (path_nodup h n l P)|].
  split; [intros a; rewrite <- in_rev; exact (path_above h n l P a)|].
  split; [destruct (path_head h n l P) as (l' & ->); exists (rev l'); reflexivity|].
  split.
  - intros r l' E. pose proof (path_prefix h n l P [] r l' E) as X. cbn [rev] in X.
    inversion X as [|? ? ? ? X']; subst; [assumption|]. inversion X'.
  - intros l1 a b l2 E.
    assert (E' : rev l = (l1 ++ [a]) ++ b :: l2) by (rewrite <- app_assoc; exact E).
    pose proof (path_prefix h n l P (l1 ++ [a]) b l2 E') as X. rewrite rev_app_distr in X. cbn [rev app] in X.
    inversion X as [|? q ? Q X']; subst.
    destruct (path_head h q _ X') as (l' & [= -> _]). exact Q.
Qed.

(** root() is the only node above without a parent. *)
Theorem root_is_top {D} (h : heap D) n :
  grown h -> live h n ->
  exists r, root h n = Ok r /\ above h r n /\ parent h r = Ok None.
Proof.
  intros G L. destruct (grown_path h G n L) as (l & P). unfold root.
  destruct (root_path h n l P (S (length h))) as (r & R & I & Q).
  { pose proof (path_length h n l P). lia. }
  exists r. split; [exact R|]. split; [apply (path_above h n l P); exact I|exact Q].
Qed.

Theorem is_ancestor_of_correct {D} (h : heap D) a n :
  grown h -> live h n ->
  exists b, is_ancestor_of h a n = Ok b /\ (b = true <-> above h a n /\ a <> n).
Proof.
  intros G L. destruct (grown_path h G n L) as (l & P). unfold is_ancestor_of.
  destruct (is_anc_path h a n l P (S (length h))) as (b & R & W).
  { pose proof (path_length h n l P). lia. }
  exists b. split; [exact R|]. rewrite W, <- (path_above h n l P).
  pose proof (path_nodup h n l P) as N. destruct (path_head h n l P) as (l' & ->). cbn [tl In].
  inversion N; subst. split; [|intros [[->|J] Hn]; [congruence|exact J]].
  intros J. split; [auto|]. intros ->. contradiction.
Qed.

(** last_common_ancestor() is above both nodes and below every other node that
    is; none exists when there is no node above both. *)
Theorem last_common_ancestor_correct {D} (h : heap D) this n :
  grown h -> live h this -> live h n ->
  exists r, last_common_ancestor h this n = Ok r /\
    match r with
    | Some a => above h a n /\ above h a this /\
                forall b, above h b n -> above h b this -> above h b a
    | None => forall b, ~ (above h b n /\ above h b this)
    end.
Proof.
  intros G L1 L2. destruct (grown_path h G n L2) as (l1 & P1).
  destruct (grown_path h G this L1) as (l2 & P2).
  destruct (lca_path h this n l1 l2 P1 P2) as (r & R & W). exists r. split; [exact R|].
  destruct r as [a|].
  - destruct W as (A1 & A2 & la & Pa & B).
    split; [apply (path_above h n l1 P1); exact A1|].
    split; [apply (path_above h this l2 P2); exact A2|].
    intros b B1 B2. apply (path_above h a la Pa). apply B.
    + apply (path_above h n l1 P1). exact B1.
    + apply (path_above h this l2 P2). exact B2.
  - intros b (B1 & B2). apply (W b). split.
    + apply (path_above h n l1 P1). exact B1.
    + apply (path_above h this l2 P2). exact B2.
Qed.

(** Every node is the root of a finite tree made of the nodes below it, each
    once. *)
Theorem tree_below {D} (h : heap D) n :
  grown h -> live h n ->
  exists t, tree_at h n t /\ NoDup (ids t) /\ forall m, In m (ids t) <-> above h n m.
Proof.
  intros G L. destruct (tree_exists h n G L) as (t & Ht). exists t.
  pose proof (reachable_good h (grown_reachable h G)) as Gd.
  pose proof (grown_path h G n L) as (l & P). split; [exact Ht|].
  split; [exact (tree_nodup h t Gd n l P Ht)|]. apply tree_above; eauto.
Qed.

Theorem num_offsprings_counts {D} (h : heap D) n t :
  grown h -> tree_at h n t -> num_offsprings h n = Ok (length (ids t) - 1).
Proof.
  intros G Ht. rewrite ids_length. apply num_ok; [exact Ht|].
  pose proof (tree_fits h n t G Ht). lia.
Qed.

(** The pre-order traversal from a root visits its tree, each node before its
    children and these in order, and announces each descent and return. *)
Theorem pre_order_from_root {D} (h : heap D) n t :
  grown h -> tree_at h n t -> parent h n = Ok None ->
  pre_order_traverse h n = Ok (pre_events t).
Proof.
  intros G Ht P. unfold pre_order_traverse.
  destruct (reachable_good h (grown_reachable h G)) as (K & V). apply parent_lk in P as (nd & L & P).
  rewrite (pre_ok h _ n [] [t]).
  - cbn [flat_map]. rewrite app_nil_r. reflexivity.
  - constructor; [exact Ht|constructor].
  - cbn [seg]. split; [reflexivity|]. exists nd. split; [exact L|].
    exact (inv_root _ _ _ V n nd L (or_introl P)).
  - rewrite fsize_cons. pose proof (tree_fits h n t G Ht). cbn [fsize fold_right]. lia.
Qed.

Theorem breadth_first_by_level {D} (h : heap D) n t :
  grown h -> tree_at h n t -> breadth_first_traverse h n = Ok (level_order t).
Proof.
  intros G Ht. unfold breadth_first_traverse, level_order.
  assert (E : tid t = n) by (inversion Ht; reflexivity).
  pose proof (bfs_ok h (S (length h)) [] [t]) as X. cbn [app map flat_map] in X. rewrite E in X.
  rewrite X.
  - rewrite fsize_cons. cbn [fsize fold_right]. rewrite Nat.add_0_r. reflexivity.
  - constructor.
  - constructor; [rewrite E; exact Ht|constructor].
  - rewrite fsize_cons. cbn [fsize fold_right]. pose proof (tree_fits h n t G Ht). lia.
Qed.

(** ** Copying and deleting whole trees *)

(** A clone is a new tree with the same payload, but the children of each node
    in the opposite order; the old nodes keep all they had, except that the
    parent gets the clone as its first child. *)
Theorem clone_copies {D} (h : heap D) n p t d :
  grown h -> tree_at h n t -> payload h t d -> live_opt h p ->
  (forall q, p = Some q -> ~ above h n q) ->
  exists h' m t', clone h n p = Ok (h', m) /\ grown h' /\
    tree_at h' m t' /\ payload h' t' (mirror d) /\ parent h' m = Ok p /\
    (forall x, In x (ids t') -> ~ live h x) /\
    (forall q, live h q -> parent h' q = parent h q /\ same_payload h h' q) /\
    (forall q cs, children h q = Ok cs -> children h' q = Ok (if is p (Some q) then m :: cs else cs)).
Proof.
  intros G Ht Pd Lp Np.
  pose proof (reachable_good h (grown_reachable h G)) as Gd. pose proof Gd as (K & V).
  destruct (tree_at_kt _ h K t V n Ht) as (E & Kt & Lv).
  assert (Ln : live h n).
  { apply live_lk. apply Lv. rewrite <- E. destruct t; left; reflexivity. }
  destruct (clone_ok (S (length h)) t h K p d V Kt Pd Lp) as
    (h' & K' & t' & R & V' & Et & Kt' & Pd' & It' & (md & Lm & Pm) & Len & Dead & Keep).
  { intros q Hq J. apply (Np q Hq). apply (tree_above h n t Gd (grown_path h G n Ln) Ht). exact J. }
  { pose proof (tree_fits h n t G Ht). lia. }
  rewrite E in R. exists h', (length h), t'. split; [exact R|].
  split; [exact (proj1 (clone_grown _ _ _ _ _ _ R G Lp))|].
  split; [rewrite <- Et; apply (kt_tree_at _ h' K' t' V' Kt'); intros q J; exact (payload_live h' t' _ Pd' q J)|].
  split; [exact Pd'|]. split; [apply parent_lk; eauto|]. split; [|split].
  - intros x J X. apply live_lk in X as (a & La). pose proof (lk_lt _ _ _ La). pose proof (It' x J). lia.
  - intros q Lq. apply live_lk in Lq as (a & La). destruct (Keep q a La) as (_ & b & Lb & Db & Pb).
    unfold parent, same_payload. rewrite !get_lk, La, Lb. cbn [bind]. rewrite Pb. auto.
  - intros q cs Hq. pose proof Hq as Hq'. apply children_inv in Hq' as (qd & Lq & _).
    rewrite (inv_children _ h K q qd V Lq) in Hq. injection Hq as <-.
    destruct (Keep q qd Lq) as (EK & b & Lb & _).
    rewrite (inv_children _ h' K' q b V' Lb), EK. reflexivity.
Qed.

(** recursive_delete destroys exactly the nodes of the tree. *)
Theorem recursive_delete_exact {D} (h : heap D) n :
  grown h -> live h n ->
  exists h', recursive_delete h n = Ok h' /\ grown h' /\
    (forall m, live h' m <-> live h m /\ ~ above h n m) /\
    (forall m, live h' m -> parent h' m = parent h m /\ same_payload h h' m) /\
    (forall q cs, live h' q -> children h q = Ok cs -> children h' q = Ok (remove Nat.eq_dec n cs)).
Proof.
  intros G Ln. destruct (tree_below h n G Ln) as (t & Ht & ND & Ab).
  pose proof (reachable_good h (grown_reachable h G)) as Gd. pose proof Gd as (K & V).
  destruct (tree_at_kt _ h K t V n Ht) as (E & Kt & Lv).
  destruct (delete_ok (S (length h)) t h K V Kt Lv ND) as (h' & K' & R & V' & Dead & Keep).
  { pose proof (tree_fits h n t G Ht). lia. }
  rewrite E in *. exists h'. split; [exact R|]. split; [exact (delete_grown _ _ _ _ R G)|].
  assert (X : forall m, live h' m -> ~ In m (ids t)).
  { intros m L J. apply live_lk in L as (a & La). rewrite (Dead m J) in La. discriminate. }
  split; [|split].
  - intros m. split.
    + intros L. pose proof (X m L) as N. split; [|rewrite <- Ab; exact N].
      specialize (Keep m N). apply live_lk in L as (b & Lb). rewrite Lb in Keep. apply live_lk.
      destruct (lk h m) as [a|]; [eauto|destruct Keep].
    + intros (L & N). rewrite <- Ab in N. specialize (Keep m N). apply live_lk in L as (a & La).
      rewrite La in Keep. apply live_lk. destruct (lk h' m) as [b|]; [eauto|destruct Keep].
  - intros m L. specialize (Keep m (X m L)). apply live_lk in L as (b & Lb).
    unfold parent, same_payload. rewrite !get_lk. rewrite Lb in *.
    destruct (lk h m) as [a|]; [|destruct Keep]. cbn [bind]. destruct Keep as (-> & -> & _). auto.
  - intros q cs L Hq. specialize (Keep q (X q L)). pose proof Hq as Hq'. apply children_inv in Hq' as (qd & Lq & _).
    rewrite (inv_children _ h K q qd V Lq) in Hq. injection Hq as <-.
    rewrite Lq in Keep. destruct (lk h' q) as [b|] eqn:Lb; [|destruct Keep].
    rewrite (inv_children _ h' K' q b V' Lb). destruct Keep as (_ & _ & ->). reflexivity.
Qed.

(** ** What does not hold *)

(** Moving a node below itself is accepted; from then on ancestry() of every
    node on the cycle never returns. *)
Theorem tree_stays_acyclic_refuted {D} (h : heap D) n p :
  reachable h -> above h n p -> live h n ->
  exists h', set_parent h n (Some p) = Ok h' /\
    forall x, above h n x -> above h x p -> ancestry h' x = UB NoTerm.
Proof.
  intros R A Ln. pose proof (above_live h n p A) as Lp.
  destruct (tree_calls_defined h (SetParent n (Some p)) R (conj Ln Lp)) as (h' & E). cbn [step] in E.
  exists h'. split; [exact E|].
  destruct (set_parent_moves h n (Some p) h' R Ln Lp E) as (P1 & P2 & _).
  intros x Ax Bx. unfold ancestry. rewrite (cycle_walk h h' n p A P1 P2 _ x Ax Bx). reflexivity.
Qed.

(** Cloning a node below itself never returns. *)
Theorem clone_into_itself_refuted {D} (h : heap D) n :
  reachable h -> live h n -> clone h n (Some n) = UB NoTerm.
Proof. intros R L. apply clone_self; [apply reachable_good, R|exact L]. Qed.

(** The pre-order traversal from a node that is not a root goes on with its
    later siblings, which are not below it. *)
Theorem pre_order_stays_below_refuted {D} (h : heap D) p a c b ts :
  grown h -> children h p = Ok (a ++ c :: b) -> trees_at h (c :: b) ts ->
  pre_order_traverse h c = Ok (flat_map pre_events ts).
Proof.
  intros G C Ts. pose proof C as C'. apply children_inv in C' as (nd & L & S & _).
  apply seg_app in S as (x & _ & S). apply (pre_ok h _ c b ts Ts).
  - cbn [seg] in S |- *. destruct S as (_ & S). split; [reflexivity|exact S].
  - assert (Lp : live h p) by (apply live_lk; eauto).
    destruct (tree_exists h p G Lp) as (t & Ht). pose proof (tree_fits h p t G Ht) as F.
    destruct t as [p' us]. apply tree_at_inv in Ht as (-> & cs & C2 & Us). rewrite C in C2. injection C2 as <-.
    rewrite tsize_eq in F. apply trees_at_forall2 in Us, Ts.
    assert (Fs : fsize ts <= fsize us).
    { apply Forall2_app_inv_l in Us as (u1 & u2 & _ & U2 & ->). rewrite fsize_app.
      replace u2 with ts; [lia|].
      assert (Det : forall t n, tree_at h n t -> forall t', tree_at h n t' -> t = t').
      { clear. induction t as [n' ts IH] using tree_ind'. intros n Ht t' Ht'.
        destruct t' as [n'' ts']. apply tree_at_inv in Ht as (-> & cs & C & T1).
        apply tree_at_inv in Ht' as (-> & cs' & C' & T2). rewrite C in C'. injection C' as <-.
        f_equal. apply trees_at_forall2 in T1, T2. clear C. revert ts' T2 IH.
        induction T1 as [|c t cs ts Ht _ IHl]; intros ts' T2 IH; inversion T2; subst; [reflexivity|].
        inversion IH; subst. f_equal; eauto. }
      clear - Ts U2 Det. revert u2 U2. induction Ts as [|c0 t0 cs ts Ht _ IHl]; intros u2 U2; inversion U2; subst; [reflexivity|].
      f_equal; eauto. }
    lia.
Qed.

(** ** A concrete tree *)

(** A root 0 with children 2 and 1, and node 1 with children 4 and 3. *)
Fixpoint grow (ops : list (option nat * nat)) (h : heap nat) : res (heap nat) :=
  match ops with
  | [] => Ok h
  | (p, d) :: ops => '(h, _) <- new_node h p d ;; grow ops h
  end.

Definition five : heap nat :=
  match grow [(None, 10); (Some 0, 11); (Some 0, 12); (Some 1, 13); (Some 1, 14)] [] with
  | Ok h => h
  | _ => []
  end.

Example five_grown : grown five.
Proof.
  assert (N : forall (h : heap nat) p d, grown h -> live_opt h p ->
     grown (match new_node h p d with Ok (h', _) => h' | _ => [] end)).
  { intros h p d G L.
    destruct (tree_calls_defined h (New p d) (grown_reachable h G) L) as (h' & E).
    cbn [step] in E. destruct (new_node h p d) as [(h1 & m)| |] eqn:En; try discriminate.
    exact (proj1 (new_grown _ _ _ _ _ En G L)). }
  set (h1 := match new_node (@nil (option (node nat))) None 10 with Ok (h', _) => h' | _ => [] end).
  assert (G1 : grown h1) by (apply N; [constructor|exact I]).
  set (h2 := match new_node h1 (Some 0) 11 with Ok (h', _) => h' | _ => [] end).
  assert (G2 : grown h2) by (apply N; [exact G1|eexists; reflexivity]).
  set (h3 := match new_node h2 (Some 0) 12 with Ok (h', _) => h' | _ => [] end).
  assert (G3 : grown h3) by (apply N; [exact G2|eexists; reflexivity]).
  set (h4 := match new_node h3 (Some 1) 13 with Ok (h', _) => h' | _ => [] end).
  assert (G4 : grown h4) by (apply N; [exact G3|eexists; reflexivity]).
  pose proof (N h4 (Some 1) 14 G4) as X. apply X. eexists; reflexivity.
Qed.

Example five_queries :
  children five 0 = Ok [2; 1] /\ children five 1 = Ok [4; 3] /\ parent five 3 = Ok (Some 1) /\
  ancestry five 3 = Ok [0; 1; 3] /\ root five 4 = Ok 0 /\ is_ancestor_of five 0 3 = Ok true /\
  last_common_ancestor five 3 4 = Ok (Some 1) /\ last_common_ancestor five 2 4 = Ok (Some 0) /\
  num_offsprings five 0 = Ok 4 /\
  pre_order_traverse five 0 =
    Ok [Visit 0; Down 0; Visit 2; Visit 1; Down 1; Visit 4; Visit 3; Up 1; Up 0] /\
  breadth_first_traverse five 0 = Ok [0; 2; 1; 4; 3].
Proof. vm_compute. repeat split. Qed.

Example five_above : above five 0 3 /\ ~ above five 2 3.
Proof.
  split.
  - eapply above_parent; [reflexivity|]. eapply above_parent; [reflexivity|]. apply above_self. eexists. reflexivity.
  - intros A. destruct (is_ancestor_of_correct five 2 3 five_grown) as (b & R & W); [eexists; reflexivity|].
    vm_compute in R. injection R as <-. destruct W as (_ & W).
    assert (X : false = true) by (apply W; split; [exact A|discriminate]). discriminate.
Qed.

(** The traversal from node 2 also visits its sibling 1 and what is below. *)
Example pre_order_leaves_subtree :
  pre_order_traverse five 2 = Ok [Visit 2; Visit 1; Down 1; Visit 4; Visit 3; Up 1].
Proof. reflexivity. Qed.

(** post_order_traverse is not a post-order: it visits the later siblings of a
    node before the node. *)
Definition visits (l : list event) : list nat :=
  flat_map (fun e => match e with Visit n => [n] | _ => [] end) l.

Fixpoint post_nodes (t : tree) : list nat :=
  match t with T n ts => flat_map post_nodes ts ++ [n] end.

Theorem post_order_refuted :
  exists (h : heap nat) n t l, grown h /\ parent h n = Ok None /\ tree_at h n t /\
    post_order_traverse h n = Ok l /\ visits l <> post_nodes t.
Proof.
  destruct (tree_exists five 0 five_grown) as (t & Ht); [eexists; reflexivity|].
  exists five, 0, t. eexists. split; [exact five_grown|]. split; [reflexivity|]. split; [exact Ht|].
  split; [reflexivity|].
  assert (E : t = T 0 [T 2 []; T 1 [T 4 []; T 3 []]]).
  { destruct t as [n ts]. apply tree_at_inv in Ht as (-> & cs & C & Ts). vm_compute in C. injection C as <-.
    inversion Ts as [|? ? t2 ts1 H2 Ts1]; subst. inversion Ts1 as [|? ? t1 ts2 H1 Ts2]; subst. inversion Ts2; subst.
    destruct t2 as [n2 k2]. apply tree_at_inv in H2 as (-> & cs & C & Tk). vm_compute in C. injection C as <-.
    inversion Tk; subst.
    destruct t1 as [n1 k1]. apply tree_at_inv in H1 as (-> & cs & C & Tj). vm_compute in C. injection C as <-.
    inversion Tj as [|? ? t4 ts4 H4 Ts4]; subst. inversion Ts4 as [|? ? t3 ts3 H3 Ts3]; subst. inversion Ts3; subst.
    destruct t4 as [n4 k4]. apply tree_at_inv in H4 as (-> & cs & C & T4). vm_compute in C. injection C as <-.
    inversion T4; subst.
    destruct t3 as [n3 k3]. apply tree_at_inv in H3 as (-> & cs & C & T3). vm_compute in C. injection C as <-.
    inversion T3; subst. reflexivity. }
  subst t. vm_compute. discriminate.
Qed.

(** A clone of the root, with the children in the opposite order. *)
Example clone_reverses :
  exists h', clone five 0 None = Ok (h', 5) /\ children h' 5 = Ok [7; 6] /\
    map (fun n => match get h' n with Ok nd => ndata nd | _ => 0 end) [5; 7; 6] = [10; 11; 12] /\
    map (fun n => match get five n with Ok nd => ndata nd | _ => 0 end) [0; 2; 1] = [10; 12; 11].
Proof. eexists. split; [reflexivity|]. vm_compute. repeat split. Qed.

Example delete_subtree :
  exists h', recursive_delete five 1 = Ok h' /\ children h' 0 = Ok [2] /\ get h' 3 = UB BadIter.
Proof. eexists. split; [reflexivity|]. vm_compute. repeat split. Qed.

Example cycle_accepted :
  exists h', set_parent five 0 (Some 3) = Ok h' /\ ancestry h' 3 = UB NoTerm.
Proof. eexists. split; reflexivity. Qed.

Print Assumptions tree_calls_defined.
Print Assumptions tree_links_agree.
Print Assumptions tree_parent_live.
Print Assumptions set_parent_moves.
Print Assumptions set_data_writes.
Print Assumptions new_node_adds.
Print Assumptions destroy_removes.
Print Assumptions ancestry_lists_ancestors.
Print Assumptions root_is_top.
Print Assumptions is_ancestor_of_correct.
Print Assumptions last_common_ancestor_correct.
Print Assumptions tree_below.
Print Assumptions num_offsprings_counts.
Print Assumptions pre_order_from_root.
Print Assumptions breadth_first_by_level.
Print Assumptions clone_copies.
Print Assumptions recursive_delete_exact.
Print Assumptions tree_stays_acyclic_refuted.
Print Assumptions clone_into_itself_refuted.
Print Assumptions pre_order_stays_below_refuted.
Print Assumptions post_order_refuted.

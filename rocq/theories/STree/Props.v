(** C34: spatial trees. *)
From Verif Require Import Lib.Base Lib.Lists STree.Model STree.Spec STree.Geom STree.Grid STree.Proofs STree.Build STree.Insert STree.Total.
From Coq Require Import List Arith Bool ZArith QArith Lqa Lia Permutation.
Import ListNotations.

(** However the tree was built, a point query returns exactly the primitives
    added whose box and shape contain the point, each as often as it was added. *)
Theorem spatial_contains_all_exact pbox pcontains t xs p :
  built pbox t xs ->
  Permutation (contains_all pbox pcontains p t)
    (filter (fun x => contains_pt (pbox x) p && pcontains x p) xs).
Proof.
  intros B. destruct (built_ok pbox t xs B) as (P & _ & _ & M). rewrite contains_all_ok by exact P.
  apply filter_perm. exact M.
Qed.

(** The single point query finds a primitive exactly if there is one. *)
Theorem spatial_contains_one_exact pbox pcontains t xs p :
  built pbox t xs ->
  match contains_one pbox pcontains p t with
  | Some x => In x xs /\ contains_pt (pbox x) p = true /\ pcontains x p = true
  | None => forall x, In x xs -> contains_pt (pbox x) p && pcontains x p = false
  end.
Proof.
  intros B. destruct (built_ok pbox t xs B) as (P & _ & _ & M). pose proof (contains_one_ok pbox pcontains (fun _ _ => true) p t P) as H.
  destruct (contains_one pbox pcontains p t).
  - destruct H as (J & H). split; [|exact H]. eapply Permutation_in; eauto.
  - intros x J. apply H. eapply Permutation_in; [apply Permutation_sym; exact M|exact J].
Qed.

(** A box query returns exactly the primitives whose box meets the query. *)
Theorem spatial_intersects_all_exact pbox t xs q :
  built pbox t xs ->
  Permutation (intersects_all pbox q t) (filter (fun x => intersects (pbox x) q) xs).
Proof.
  intros B. destruct (built_ok pbox t xs B) as (P & _ & _ & M). rewrite intersects_all_ok by exact P.
  apply filter_perm. exact M.
Qed.

(** overlap_pairs reports every unordered pair of different overlapping
    primitives once, and no other pair: there is an order of the primitives in
    which the result is the overlapping ones among all pairs of that order. *)
Theorem spatial_overlap_pairs_exact pbox pintersects t xs :
  built pbox t xs ->
  exists l, Permutation l xs /\
    Permutation (overlap_pairs pbox pintersects t)
      (filter (fun '(x, y) => negb (Nat.eqb y x) && intersects (pbox y) (pbox x) && pintersects y x) (pairs l)).
Proof.
  intros B. destruct (built_ok pbox t xs B) as (P & R & _ & M). exists (contents t). split; [exact M|].
  rewrite (overlap_pairs_ok pbox pintersects t P R).
  rewrite (filter_ext (meet pbox pintersects) (fun '(x, y) => negb (Nat.eqb y x) && intersects (pbox y) (pbox x) && pintersects y x));
    [apply Permutation_refl|]. intros (x, y). reflexivity.
Qed.

(** Every node that is split has exactly the quadrants of its box as the boxes
    of its children, and every primitive stored in a node is inside its box. *)
Theorem spatial_tree_shape pbox t xs path n :
  built pbox t xs -> at_path path t = Some n ->
  (tkids n = [] \/ Forall2 (Forall2 (fun i j => fst i == fst j /\ snd i == snd j)) (map tbox (tkids n)) (split_bbox (tbox n))) /\
  Forall (fun e => contains (tbox n) (pbox (prim e)) = true) (tlist n).
Proof.
  intros B A. destruct (built_ok pbox t xs B) as (P & R & _ & _).
  pose proof (at_regular path t n R A) as Rn. pose proof (at_placed pbox path t n P A) as Pn. destruct n as [b l ks]. split.
  - apply regular_node in Rn. apply Rn.
  - apply Forall_forall. intros e J. apply (placed_in _ _ Pn). cbn [elems]. apply in_app_iff. auto.
Qed.

Lemma at_tight pbox p : forall t n, tight pbox t -> at_path p t = Some n -> tight pbox n.
Proof.
  induction p as [|i p IH]; intros t n P A; cbn [at_path] in A; [congruence|].
  destruct (nth_error (tkids t) i) as [k|] eqn:E; [|discriminate]. eapply IH; [|exact A].
  destruct t as [b l ks]. apply tight_node in P as (_ & Pk). rewrite Forall_forall in Pk. apply Pk. eapply nth_error_In; eauto.
Qed.

(** Without level limits a primitive is in the deepest node whose box holds it:
    no quadrant of the box of its node would hold it. *)
Theorem spatial_tree_deepest pbox t xs path n e q :
  built_free pbox t xs -> at_path path t = Some n -> In e (tlist n) -> In q (split_bbox (tbox n)) ->
  contains q (pbox (prim e)) = false.
Proof.
  intros B A J Jq. destruct (built_free_ok pbox t xs B) as (T & _). pose proof (at_tight pbox path t n T A) as Tn.
  destruct n as [b l ks]. apply tight_node in Tn as (Tn & _). apply Tn; assumption.
Qed.

(** Without level limits, adding a primitive with an interior ends in success,
    if it is inside the box of the tree or not too far away: the box around
    both is less than 2^31 - 1 times as wide as the box of the tree. *)
Theorem spatial_add_ends pbox t xs x :
  built_free pbox t xs -> solid (tbox t) -> solid (pbox x) -> length (tbox t) = length (pbox x) ->
  (contains (tbox t) (pbox x) = true \/
   Forall2 (fun i s => size s + size i <= inject_Z (2 ^ 31) * size i) (tbox t) (grow (tbox t) (pbox x))) ->
  exists n, forall fuel, (n <= fuel)%nat ->
    exists t', add pbox fuel t x (-1) = Ok t' /\ built_free pbox t' (x :: xs).
Proof.
  intros B So Sx L H. destruct (built_ok pbox t xs (built_free_built _ _ _ B)) as (P & R & _ & _).
  destruct (built_free_ok pbox t xs B) as (_ & F).
  destruct (add_total pbox t x P R F So Sx L H) as (n & Hn). exists n. intros fuel Lf. destruct (Hn fuel Lf) as (t' & E).
  exists t'. split; [exact E|]. econstructor; eauto.
Qed.

(** ** A tree in the plane, grown twice *)

Definition pb (x : nat) : box :=
  nth x [ [(1, 2); (1, 2)]; [(1, 3); (5, 7)]; [(3, 5); (3, 5)]; [(9, 10); (-4, -3)]; [(1 # 2, 3 # 2); (3 # 2, 5 # 2)] ] [].

Definition plane : res tree := add_all pb 20 (new_tree [(0, 8); (0, 8)]) [0; 1; 2; 3; 4]%nat (-1).

Example plane_built : exists t, plane = Ok t /\ built_free pb t [4; 3; 2; 1; 0]%nat /\
  solid (tbox t) /\
  contains_all pb (fun _ _ => true) [5 # 4; 7 # 4] t = [0; 4]%nat /\
  contains_one pb (fun _ _ => true) [19 # 2; -7 # 2] t = Some 3%nat /\
  intersects_all pb [(2, 4); (4, 6)] t = [1; 2]%nat /\
  overlap_pairs pb (fun _ _ => true) t = [(4, 0)]%nat.
Proof.
  destruct plane as [t| |] eqn:E; [|vm_compute in E; discriminate..].
  exists t. split; [reflexivity|]. split.
  - unfold plane in E. cbn [add_all] in E.
    destruct (add pb 20 (new_tree [(0, 8); (0, 8)]) 0 (-1)) as [t0| |] eqn:E0; cbn [bind] in E; try discriminate.
    destruct (add pb 20 t0 1 (-1)) as [t1| |] eqn:E1; cbn [bind] in E; try discriminate.
    destruct (add pb 20 t1 2 (-1)) as [t2| |] eqn:E2; cbn [bind] in E; try discriminate.
    destruct (add pb 20 t2 3 (-1)) as [t3| |] eqn:E3; cbn [bind] in E; try discriminate.
    destruct (add pb 20 t3 4 (-1)) as [t4| |] eqn:E4; cbn [bind] in E; try discriminate.
    injection E as <-. do 5 (eapply free_add; [|eassumption]). constructor. repeat constructor; discriminate.
  - vm_compute in E. injection E as <-. split; [|vm_compute; repeat split; reflexivity].
    split; [discriminate|]. repeat constructor.
Qed.

(** ** What does not hold *)

Definition q1 (x : nat) : box :=
  nth x [ [(1, 3 # 2)]; [(2, 5 # 2)]; [(3, 7 # 2)]; [(-1, -1)]; [(1000000000000, 1000000000001)] ] [].

(** Level limits: one primitive added with limit 0 and one with limit 1, both in
    the first half of the tree.  The second call does not return: it moves the
    two past each other for ever. *)
Theorem spatial_add_with_limits_returns_refuted :
  exists t, add q1 10 (new_tree [(0, 8)]) 0 0 = Ok t /\
    forall fuel, add q1 fuel t 1 1 = UB NoTerm.
Proof.
  destruct (add q1 10 (new_tree [(0, 8)]) 0 0) as [t| |] eqn:E; [|vm_compute in E; discriminate..].
  exists t. split; [reflexivity|]. vm_compute in E. injection E as <-.
  set (ta := Node [(0, 8)] [] [Node [(0 # 4, 8 # 2)] [Elem 0 true; Elem 1 true] []; Node [(8 # 2, 32 # 4)] [] []]).
  set (tb := Node [(0, 8)] [] [Node [(0 # 4, 8 # 2)] [Elem 1 true; Elem 0 true] []; Node [(8 # 2, 32 # 4)] [] []]).
  assert (L : forall fuel, relocate q1 fuel [] [0%nat] 1 ta = UB NoTerm /\ relocate q1 fuel [] [0%nat] 1 tb = UB NoTerm).
  { induction fuel as [|fuel IH]; [split; reflexivity|]. destruct fuel as [|fuel]; [split; reflexivity|]. destruct IH as (IHa & IHb). split.
    - exact IHb.
    - exact IHa. }
  destruct fuel as [|fuel]; [reflexivity|]. destruct fuel as [|fuel]; [reflexivity|]. destruct fuel as [|fuel]; [reflexivity|].
  destruct (L (S (S fuel))) as (La & _). exact La.
Qed.

(** Two primitives kept at the root by a limit, then one without limit that
    splits the root: only one of the two is moved down; the other stays at the
    root although a child holds it. *)
Theorem spatial_limits_keep_deepest_refuted :
  exists t, add_all q1 10 (new_tree [(0, 8)]) [0; 1]%nat 0 = Ok t /\
  exists t' k, add q1 10 t 2 (-1) = Ok t' /\
    In (Elem 0 true) (tlist t') /\ nth_error (tkids t') 0 = Some k /\ contains (tbox k) (q1 0) = true.
Proof.
  eexists. split; [reflexivity|]. eexists. eexists. split; [vm_compute; reflexivity|].
  split; [left; reflexivity|]. split; reflexivity.
Qed.

(** A primitive without an interior outside the box of the tree: the null node
    is used. *)
Theorem spatial_add_point_outside_refuted :
  forall fuel, (3 <= fuel)%nat -> add q1 fuel (new_tree [(0, 8)]) 3 (-1) = UB NullDeref.
Proof.
  intros fuel L. destruct fuel as [|[|[|fuel]]]; try lia. reflexivity.
Qed.

(** A tree made from such primitives only. *)
Theorem spatial_tree_of_points_refuted pbox fuel x xs lim :
  empty (pbox x) = true -> Forall (fun y => empty (pbox y) = true) xs ->
  of_prims pbox (S fuel) (x :: xs) lim = UB NullDeref.
Proof.
  intros E F. assert (X : fold_left (fun b y => grow b (pbox y)) (x :: xs) [] = []).
  { assert (G : Forall (fun y => empty (pbox y) = true) (x :: xs)) by (constructor; assumption). clear E F.
    induction G as [|y ys Ey _ IH]; [reflexivity|]. cbn [fold_left]. unfold grow at 2. rewrite Ey. exact IH. }
  unfold of_prims. rewrite X. cbn [add_all]. unfold add. cbn [leaf tbox is_nil negb andb contains].
  unfold grow_root, grow_bbox_on_grid. cbn [leaf tbox]. rewrite E. reflexivity.
Qed.

(** A primitive far away: the shift count passes the width of an int. *)
Theorem spatial_add_far_refuted :
  forall fuel, add q1 fuel (new_tree [(0, 8)]) 4 (-1) = UB Overflow.
Proof. intros fuel. reflexivity. Qed.

Print Assumptions spatial_contains_all_exact.
Print Assumptions spatial_contains_one_exact.
Print Assumptions spatial_intersects_all_exact.
Print Assumptions spatial_overlap_pairs_exact.
Print Assumptions spatial_tree_shape.
Print Assumptions spatial_tree_deepest.
Print Assumptions spatial_add_ends.
Print Assumptions plane_built.
Print Assumptions spatial_add_with_limits_returns_refuted.
Print Assumptions spatial_limits_keep_deepest_refuted.
Print Assumptions spatial_add_point_outside_refuted.
Print Assumptions spatial_tree_of_points_refuted.
Print Assumptions spatial_add_far_refuted.

(** Spatial trees: queries and insertion. *)
From Verif Require Import Lib.Base Lib.Lists STree.Model STree.Spec STree.Geom STree.Grid.
From Coq Require Import List Arith Bool ZArith QArith Lqa Lia Permutation.
Import ListNotations.

Section Proofs.
Context (pbox : nat -> box) (pcontains : nat -> list Q -> bool) (pintersects : nat -> nat -> bool).

Section Ind.
Variable P : tree -> Prop.
Hypothesis H : forall b l ks, Forall P ks -> P (Node b l ks).
Fixpoint tree_ind' (t : tree) : P t :=
  match t with
  | Node b l ks => H b l ks ((fix go ks : Forall P ks :=
      match ks with
      | [] => Forall_nil P
      | t :: ks => Forall_cons t (tree_ind' t) (go ks)
      end) ks)
  end.
End Ind.

(** All elements. *)
Fixpoint elems (t : tree) : list elem :=
  match t with Node _ l ks => l ++ flat_map elems ks end.

Definition contents (t : tree) : list nat := map prim (elems t).

(** Every element is inside all boxes around it. *)
Fixpoint placed (t : tree) : Prop :=
  (forall e, In e (elems t) -> contains (tbox t) (pbox (prim e)) = true) /\
  match t with Node _ _ ks => fold_right (fun k P => placed k /\ P) True ks end.

(** The children are the quadrants. *)
Fixpoint regular (t : tree) : Prop :=
  match t with Node b _ ks =>
    (ks = [] \/ Forall2 (Forall2 same) (map tbox ks) (split_bbox b)) /\
    fold_right (fun k P => regular k /\ P) True ks
  end.

Lemma fold_and {A} (P : A -> Prop) l : fold_right (fun k Q => P k /\ Q) True l <-> Forall P l.
Proof.
  induction l as [|a l IH]; cbn [fold_right]; [split; auto|]. rewrite IH. split.
  - intros (H1 & H2). constructor; auto.
  - intros H. inversion H. auto.
Qed.

Lemma placed_node b l ks : placed (Node b l ks) <->
  (forall e, In e (elems (Node b l ks)) -> contains b (pbox (prim e)) = true) /\ Forall placed ks.
Proof. cbn [placed tbox]. rewrite fold_and. reflexivity. Qed.

Lemma regular_node b l ks : regular (Node b l ks) <->
  (ks = [] \/ Forall2 (Forall2 same) (map tbox ks) (split_bbox b)) /\ Forall regular ks.
Proof. cbn [regular]. rewrite fold_and. reflexivity. Qed.

Lemma placed_in t : placed t -> forall e, In e (elems t) -> contains (tbox t) (pbox (prim e)) = true.
Proof. destruct t. rewrite placed_node. tauto. Qed.

(** ** Queries *)

Lemma fold_rev {B} (f : tree -> list B) ks : forall r,
  Permutation (fold_left (fun r k => f k ++ r) ks r) (flat_map f ks ++ r).
Proof.
  induction ks as [|k ks IH]; intros r; cbn [fold_left flat_map app]; [apply Permutation_refl|].
  rewrite IH, <- app_assoc. rewrite Permutation_app_swap_app. apply Permutation_refl.
Qed.

Lemma filter_flat_map {A B} (f : B -> bool) (g : A -> list B) l :
  filter f (flat_map g l) = flat_map (fun a => filter f (g a)) l.
Proof. induction l; cbn [flat_map]; [reflexivity|]. rewrite filter_app. congruence. Qed.

Lemma map_flat_map {A B C} (f : B -> C) (g : A -> list B) l :
  map f (flat_map g l) = flat_map (fun a => map f (g a)) l.
Proof. induction l; cbn [flat_map]; [reflexivity|]. rewrite map_app. congruence. Qed.

Lemma flat_map_perm {A B} (f g : A -> list B) l :
  Forall (fun a => Permutation (f a) (g a)) l -> Permutation (flat_map f l) (flat_map g l).
Proof. induction 1; cbn [flat_map]; [constructor|]. apply Permutation_app; assumption. Qed.

Lemma filter_none {A} (f : A -> bool) l : (forall a, In a l -> f a = false) -> filter f l = [].
Proof.
  induction l as [|a l IH]; intros H; [reflexivity|]. cbn [filter].
  rewrite (H a) by (left; reflexivity). apply IH. intros b J. apply H. right. exact J.
Qed.

(** A query that prunes with [ok] and tests with [test]. *)
Lemma query_ok (q : tree -> list nat) (ok : box -> bool) (test : elem -> bool) :
  (forall b l ks, q (Node b l ks) =
     if ok b then fold_left (fun r k => q k ++ r) ks [] ++ map prim (filter test l) else []) ->
  (forall b e, contains b (pbox (prim e)) = true -> test e = true -> ok b = true) ->
  forall t, placed t -> Permutation (q t) (map prim (filter test (elems t))).
Proof.
  intros E Pr. induction t as [b l ks IH] using tree_ind'. intros P. rewrite E. pose proof P as P0.
  apply placed_node in P as (P & Pk).
  destruct (ok b) eqn:Ob.
  - cbn [elems]. rewrite filter_app, map_app, filter_flat_map, map_flat_map.
    rewrite fold_rev, app_nil_r. rewrite Permutation_app_comm. apply Permutation_app_head.
    apply flat_map_perm. rewrite Forall_forall in *. intros k J. auto.
  - rewrite filter_none; [constructor|]. intros e J. specialize (P e J).
    destruct (test e) eqn:T; [|reflexivity]. rewrite (Pr b e P T) in Ob. discriminate.
Qed.

Lemma map_filter_prim f l : map prim (filter (fun e => f (prim e)) l) = filter f (map prim l).
Proof.
  induction l as [|e l IH]; [reflexivity|]. cbn [filter map]. destruct (f (prim e)); cbn [map]; congruence.
Qed.

Lemma contains_all_ok p t : placed t ->
  Permutation (contains_all pbox pcontains p t)
    (filter (fun x => contains_pt (pbox x) p && pcontains x p) (contents t)).
Proof.
  intros P. unfold contents. rewrite <- map_filter_prim.
  apply (query_ok (contains_all pbox pcontains p) (fun b => contains_pt b p)); [reflexivity| |exact P].
  cbn beta. intros b e C T. apply andb_true_iff in T as (T & _). eapply contains_pt_mono; eauto.
Qed.

Lemma intersects_all_ok q t : placed t ->
  Permutation (intersects_all pbox q t) (filter (fun x => intersects (pbox x) q) (contents t)).
Proof.
  intros P. unfold contents. rewrite <- (map_filter_prim (fun x => intersects (pbox x) q)).
  apply (query_ok (intersects_all pbox q) (fun b => intersects b q)); [reflexivity| |exact P].
  cbn beta. intros b e C T. eapply intersects_mono; eauto.
Qed.

Lemma hd_app {A} (l m : list A) : hd_error (l ++ m) = match hd_error l with Some x => Some x | None => hd_error m end.
Proof. destruct l; reflexivity. Qed.

Lemma contains_one_hd p t : contains_one pbox pcontains p t = hd_error (contains_all pbox pcontains p t).
Proof.
  induction t as [b l ks IH] using tree_ind'. cbn [contains_one contains_all].
  destruct (contains_pt b p); [|reflexivity]. rewrite hd_app.
  assert (X : forall r q, r = hd_error q ->
    fold_left (fun r k => match contains_one pbox pcontains p k with Some x => Some x | None => r end) ks r
    = hd_error (fold_left (fun r k => contains_all pbox pcontains p k ++ r) ks q)).
  { induction IH as [|k ks Ek _ IHk]; intros r q Hr; cbn [fold_left]; [exact Hr|]. apply IHk.
    rewrite hd_app, Ek, Hr. reflexivity. }
  rewrite (X None [] eq_refl).
  destruct (hd_error (fold_left _ ks [])); [reflexivity|].
  clear. induction l as [|e l IH]; [reflexivity|]. cbn [find filter]. destruct (hit pbox pcontains p e); [reflexivity|exact IH].
Qed.

Lemma contains_one_ok p t : placed t ->
  match contains_one pbox pcontains p t with
  | Some x => In x (contents t) /\ contains_pt (pbox x) p = true /\ pcontains x p = true
  | None => forall x, In x (contents t) -> contains_pt (pbox x) p && pcontains x p = false
  end.
Proof.
  intros P. pose proof (contains_all_ok p t P) as H. rewrite contains_one_hd.
  destruct (contains_all pbox pcontains p t) as [|x r]; cbn [hd_error].
  - apply Permutation_nil in H. intros x J. destruct (_ && _) eqn:E; [|reflexivity].
    assert (F : In x []) by (rewrite <- H; apply filter_In; auto). destruct F.
  - assert (F : In x (x :: r)) by (left; reflexivity). eapply Permutation_in in F; [|exact H].
    apply filter_In in F as (F & E). apply andb_true_iff in E. tauto.
Qed.

(** *** Overlapping pairs *)

Definition meet (xy : nat * nat) : bool :=
  negb (Nat.eqb (snd xy) (fst xy)) && intersects (pbox (snd xy)) (pbox (fst xy)) && pintersects (snd xy) (fst xy).

Lemma filter_map_pair x l : filter meet (map (pair x) l) = map (pair x) (filter (fun y => meet (x, y)) l).
Proof. induction l as [|y l IH]; [reflexivity|]. cbn [map filter]. destruct (meet (x, y)); cbn [map]; congruence. Qed.

Lemma all_overlaps_ok x t : placed t ->
  Permutation (all_overlaps pbox pintersects x t) (filter meet (map (pair x) (contents t))).
Proof.
  intros P. rewrite filter_map_pair. unfold contents.
  rewrite <- (map_filter_prim (fun y => meet (x, y))), map_map.
  revert P. induction t as [b l ks IH] using tree_ind'. intros P. pose proof P as P0.
  apply placed_node in P as (P & Pk). cbn [all_overlaps].
  destruct (intersects b (pbox x)) eqn:Ob.
  - cbn [elems]. rewrite filter_app, map_app, filter_flat_map, map_flat_map.
    rewrite fold_rev, app_nil_r. apply Permutation_app_head.
    apply flat_map_perm. rewrite Forall_forall in *. intros k J. auto.
  - rewrite filter_none; [constructor|]. intros e J. specialize (P e J). unfold meet. cbn [fst snd].
    destruct (intersects (pbox (prim e)) (pbox x)) eqn:T; [|rewrite andb_false_r; reflexivity].
    rewrite (intersects_mono _ _ _ P T) in Ob. discriminate.
Qed.

Fixpoint cross {A} (l m : list A) : list (A * A) :=
  match l with [] => [] | x :: l => map (pair x) m ++ cross l m end.

Lemma pairs_app {A} (l m : list A) : Permutation (pairs (l ++ m)) (pairs l ++ cross l m ++ pairs m).
Proof.
  induction l as [|x l IH]; cbn [pairs app cross]; [apply Permutation_refl|].
  rewrite map_app, IH, <- !app_assoc. apply Permutation_app_head.
  rewrite Permutation_app_swap_app. apply Permutation_refl.
Qed.

Lemma cross_in {A} (l m : list A) x y : In (x, y) (cross l m) <-> In x l /\ In y m.
Proof.
  induction l as [|a l IH]; cbn [cross]; [cbn; tauto|]. rewrite in_app_iff, IH, in_map_iff. split.
  - intros [(z & [= -> ->] & J)|(J1 & J2)]; split; auto; [left|right]; auto.
  - intros ([->|J] & K); [left; exists y; auto|right; auto].
Qed.

Lemma filter_perm {A} (f : A -> bool) l m : Permutation l m -> Permutation (filter f l) (filter f m).
Proof.
  induction 1; cbn [filter].
  - constructor.
  - destruct (f x); [constructor|]; assumption.
  - destruct (f x), (f y); try apply Permutation_refl. constructor.
  - eapply Permutation_trans; eauto.
Qed.

Lemma placed_rest b e l ks : placed (Node b (e :: l) ks) -> placed (Node b l ks).
Proof.
  rewrite !placed_node. intros (P & Pk). split; [|exact Pk]. intros x J. apply P.
  cbn [elems] in *. right. exact J.
Qed.

Lemma list_overlaps_ok b ks l : placed (Node b l ks) ->
  Permutation (list_overlaps pbox pintersects b l ks)
    (filter meet (pairs (map prim l) ++ cross (map prim l) (map prim (flat_map elems ks)))).
Proof.
  induction l as [|e l IH]; intros P; [constructor|]. cbn [list_overlaps].
  rewrite (all_overlaps_ok (prim e) _ P), (IH (placed_rest _ _ _ _ P)). rewrite <- filter_app.
  unfold contents. cbn [elems map app]. cbn [filter app]. unfold meet at 1. cbn [fst snd].
  rewrite Nat.eqb_refl. cbn [negb andb]. apply filter_perm.
  cbn [pairs cross map]. rewrite !map_app, <- !app_assoc. apply Permutation_app_head.
  rewrite Permutation_app_swap_app. apply Permutation_refl.
Qed.

Lemma eq_cross_apart k k' : placed k -> placed k' -> intersects (tbox k) (tbox k') = false ->
  forall x y, In x (contents k) -> In y (contents k') -> meet (x, y) = false.
Proof.
  intros P P' I x y J J'. unfold contents in *. apply in_map_iff in J as (e & <- & J). apply in_map_iff in J' as (e' & <- & J').
  pose proof (placed_in _ P _ J) as C. pose proof (placed_in _ P' _ J') as C'.
  unfold meet. cbn [fst snd]. destruct (intersects (pbox (prim e')) (pbox (prim e))) eqn:T; [|rewrite andb_false_r; reflexivity].
  apply (intersects_mono _ _ _ C') in T. rewrite intersects_sym in T. apply (intersects_mono _ _ _ C) in T. congruence.
Qed.

Lemma apart_eq (l m : list box) : Forall2 (Forall2 same) l m ->
  ForallOrdPairs (fun q r => intersects q r = false) m -> ForallOrdPairs (fun q r => intersects q r = false) l.
Proof.
  induction 1 as [|a b l m E F IH]; intros H; [constructor|]. inversion H as [|? ? Hb Hm]; subst.
  constructor; [|auto]. clear - E F Hb. induction F as [|c d l m G _ IH]; [constructor|].
  inversion Hb; subst. constructor; [|auto].
  rewrite (intersects_eq _ _ _ E), intersects_sym, (intersects_eq _ _ _ G), intersects_sym. assumption.
Qed.

Lemma regular_apart b l ks : regular (Node b l ks) ->
  ForallOrdPairs (fun k k' => intersects (tbox k) (tbox k') = false) ks.
Proof.
  rewrite regular_node. intros ([->|E] & _); [constructor|].
  apply apart_eq in E; [|apply split_apart]. revert E. clear. induction ks as [|k ks IH]; [constructor|].
  cbn [map]. intros H. inversion H as [|? ? Hk Hr]; subst. constructor; [|auto].
  rewrite Forall_map in Hk. exact Hk.
Qed.

Lemma overlap_pairs_ok t : placed t -> regular t ->
  Permutation (overlap_pairs pbox pintersects t) (filter meet (pairs (contents t))).
Proof.
  induction t as [b l ks IH] using tree_ind'. intros P R. pose proof P as P0. pose proof (regular_apart _ _ _ R) as Ap.
  apply placed_node in P as (P & Pk). apply regular_node in R as (_ & Rk).
  cbn [overlap_pairs]. rewrite (list_overlaps_ok _ _ _ P0). unfold contents. cbn [elems].
  rewrite map_app. rewrite (filter_perm _ _ _ (pairs_app _ _)). rewrite app_assoc, (filter_app meet _ (pairs _)).
  apply Permutation_app_head. rewrite fold_rev, app_nil_r.
  clear - IH Pk Rk Ap. induction ks as [|k ks IHk]; [constructor|].
  inversion IH; inversion Pk; inversion Rk; inversion Ap as [|? ? Ak Ar]; subst.
  cbn [flat_map]. rewrite map_app. rewrite (filter_perm _ _ _ (pairs_app _ _)). rewrite !filter_app.
  apply Permutation_app; [auto|]. rewrite (filter_none meet (cross _ _)); [cbn [app]; auto|].
  intros (x, y) J. apply cross_in in J as (J1 & J2). rewrite map_flat_map in J2. apply in_flat_map in J2 as (k' & Jk & J2).
  rewrite Forall_forall in *. apply (eq_cross_apart k k'); auto.
Qed.
End Proofs.

(** Properties of the transforms between frames (C63). *)
From Coq Require Import List Arith Bool ZArith Lia QArith Qcanon Field Ascii String.
From Verif Require Import Lib.Base Lib.Lists Lib.Str Lib.Img MInv.Model MInv.Spec
  Tree.Model Tree.Spec Tree.Proofs Tree.Trees Tree.Copy Tree.Props
  Frames.Model Frames.Spec Frames.Above Frames.Store Frames.Merge Frames.Calls Frames.ATrans Frames.TSpec Frames.Trans.
Import ListNotations.
Local Open Scope nat_scope.

(** ** Affine transforms *)

(** A product does to a position what the factors do, the right one first. *)
Theorem product_applies_both a b v : aat (amul a b) v = aat a (aat b v).
Proof. apply mul_at. Qed.

(** inverse() undoes an invertible transform, and fails for all others. *)
Theorem inverse_transform_undoes a :
  (invertible a /\ exists b, ainv a = Ok b /\ (forall v, aat a (aat b v) = v) /\ (forall v, aat b (aat a v) = v)) \/
  (~ invertible a /\ ainv a = Throw OtherErr).
Proof.
  destruct (ainv_cases a) as [(b & E & A & B)|(E & N)].
  - left. split; [exact (inverse_invertible _ _ A B)|]. exists b. split; [exact E|]. split; [exact A|exact B].
  - right. split; [|exact E]. intros I. apply N, invertible_injective, I.
Qed.

(** Transforms that agree on all positions are equal. *)
Theorem transform_determined a b : (forall v, aat a v = aat b v) -> a = b.
Proof. apply at_ext. Qed.

(** A transform made of a matrix of four rows and columns, whose last row is
    0 0 0 1, does what the matrix does to (x, y, z, 1). *)
Theorem transform_of_matrix m v : is_matrix 4 4 m ->
  exists a, of_matrix m = Ok a /\
    vx (aat a v) = (entry m 0 0 * vx v + entry m 0 1 * vy v + entry m 0 2 * vz v + entry m 0 3)%Qc /\
    vy (aat a v) = (entry m 1 0 * vx v + entry m 1 1 * vy v + entry m 1 2 * vz v + entry m 1 3)%Qc /\
    vz (aat a v) = (entry m 2 0 * vx v + entry m 2 1 * vy v + entry m 2 2 * vz v + entry m 2 3)%Qc.
Proof.
  intros M. unfold of_matrix, mat_of, row_of. rewrite !(MInv.Proofs.mget_ok 4 4) by (auto; lia). cbn [bind].
  eexists. split; [reflexivity|]. destruct v as [x y z]. cbv [aat mv vadd dot vx vy vz r0 r1 r2 tp tr]. auto.
Qed.

(** The conversion of a transform to a matrix gives the zero matrix: the way
    there and back does not return the transform. *)
Theorem matrix_conversion_refuted : exists a, invertible a /\ of_matrix (to_matrix a) <> Ok a.
Proof. exists aone. split; [exact invertible_one|]. discriminate. Qed.

(** ** Transforms between frames *)

(** get_transform(target, source) turns positions in the source frame into the
    same positions in the target frame.  It fails exactly if the transform of a
    frame above the target, which is not above the source, is not invertible. *)
Theorem get_transform_converts st t s : sound st -> live (sheap st) t -> live (sheap st) s -> same_tree (sheap st) t s ->
  ((exists m d, above (sheap st) m t /\ ~ above (sheap st) m s /\ data (sheap st) m = Ok d /\ ~ invertible (ftrans d)) /\
   get_transform st (Some t) (Some s) = Throw OtherErr) \/
  ((forall m d, above (sheap st) m t -> ~ above (sheap st) m s -> data (sheap st) m = Ok d -> invertible (ftrans d)) /\
   exists g, get_transform st (Some t) (Some s) = Ok g /\
     forall v w, carried (sheap st) s v w <-> carried (sheap st) t (aat g v) w).
Proof.
  intros S Lt Ls Tr. destruct (transform_cases (sheap st) t s (sound_heap st S) Lt Ls Tr) as [(E & H)|H]; [left|right; exact H].
  split; [exact H|exact E].
Qed.

(** Every position of a frame is somewhere, and in one place. *)
Theorem carried_somewhere st n v : sound st -> live (sheap st) n ->
  exists w, carried (sheap st) n v w /\ forall w', carried (sheap st) n v w' -> w' = w.
Proof.
  intros S L. destruct (carried_total (sheap st) n v (sound_heap st S) L) as (w & W). exists w. split; [exact W|].
  intros w' W'. exact (carried_det _ _ _ _ W' _ W).
Qed.

Lemma invertible_get st t s : sound st -> live (sheap st) t -> live (sheap st) s -> same_tree (sheap st) t s ->
  invertible_above (sheap st) t ->
  exists g, get_transform st (Some t) (Some s) = Ok g /\ forall v w, carried (sheap st) s v w <-> carried (sheap st) t (aat g v) w.
Proof.
  intros S Lt Ls Tr I. destruct (get_transform_converts st t s S Lt Ls Tr) as [((m & d & A & _ & D & N) & _)|(_ & H)]; [|exact H].
  exfalso. exact (N (I m d A D)).
Qed.

(** get_transform_of() and get_position_of() do this with a transform and a
    position given in the source frame. *)
Theorem get_transform_of_converts st t s a : sound st -> live (sheap st) t -> live (sheap st) s -> same_tree (sheap st) t s ->
  invertible_above (sheap st) t ->
  exists g, get_transform_of st (Some t) (Some s) a = Ok g /\
    forall v w, carried (sheap st) s (aat a v) w <-> carried (sheap st) t (aat g v) w.
Proof.
  intros S Lt Ls Tr I. destruct (invertible_get st t s S Lt Ls Tr I) as (g & E & H).
  unfold get_transform, fs_get_transform in E. cbn [not_null bind] in E.
  exists (amul g a). split.
  - unfold get_transform_of, fs_get_transform_of. cbn [not_null bind]. unfold node_transform_of. rewrite E. reflexivity.
  - intros v w. rewrite mul_at. apply H.
Qed.

Theorem get_position_of_converts st t s v : sound st -> live (sheap st) t -> live (sheap st) s -> same_tree (sheap st) t s ->
  invertible_above (sheap st) t ->
  exists u, get_position_of st (Some t) (Some s) v = Ok u /\
    forall w, carried (sheap st) s v w <-> carried (sheap st) t u w.
Proof.
  intros S Lt Ls Tr I. destruct (invertible_get st t s S Lt Ls Tr I) as (g & E & H).
  unfold get_transform, fs_get_transform in E. cbn [not_null bind] in E.
  exists (aat g v). split; [|apply H]. unfold get_position_of. cbn [not_null bind]. rewrite E. reflexivity.
Qed.

(** Without a target, the transform of the frame itself is returned; without a
    source, LogicErr is thrown. *)
Theorem get_transform_null st s d : data (sheap st) s = Ok d ->
  get_transform st None (Some s) = Ok (ftrans d) /\ forall t, get_transform st t None = Throw LogicErr.
Proof.
  intros D. split; [|reflexivity]. unfold get_transform, fs_get_transform. cbn [not_null bind node_transform]. rewrite D. reflexivity.
Qed.

Lemma carried_inv h n v w d : carried h n v w -> data h n = Ok d ->
  (parent h n = Ok None /\ w = aat (ftrans d) v) \/ (exists p, parent h n = Ok (Some p) /\ carried h p (aat (ftrans d) v) w).
Proof.
  intros W D. destruct W as [n e v P D'|n p e v w P D' H]; rewrite D in D'; apply ok_inj in D'; subst e; [left; auto|right; exists p; auto].
Qed.

Lemma carried_injective h n : grown h -> live h n -> invertible_above h n ->
  forall v v' w, carried h n v w -> carried h n v' w -> v = v'.
Proof.
  intros G L I. destruct (grown_path h G n L) as (l & Pl). induction Pl as [n P|n p l P H IH]; intros v v' w W W';
    destruct (proj1 (live_data h n) L) as (d & D); destruct (carried_inv _ _ _ _ _ W D) as [(P1 & X)|(p1 & P1 & X)];
    destruct (carried_inv _ _ _ _ _ W' D) as [(P2 & X')|(p2 & P2 & X')]; rewrite P in P1, P2; try discriminate;
    (apply (invertible_injective (ftrans d)); [apply (I n d); [constructor; exact L|exact D]|]).
  - rewrite <- X. exact X'.
  - injection P1 as <-. injection P2 as <-. apply (IH (parent_live_up h n p G P)) with (w := w); [|exact X|exact X'].
    intros m e A De. apply (I m e); [exact (above_parent _ _ _ _ P A)|exact De].
Qed.

Lemma same_trees h a b c : same_tree h a b -> same_tree h b c -> same_tree h a c.
Proof.
  intros (r & A & B) (s & C & D). destruct (above_chain h r s b B C) as [K|K].
  - exists r. split; [exact A|exact (above_trans _ _ _ _ K D)].
  - exists s. split; [exact (above_trans _ _ _ _ K A)|exact D].
Qed.

(** From c to b and on to a is from c to a; there and back is nothing. *)
Theorem transforms_compose st a b c : sound st -> live (sheap st) a -> live (sheap st) b -> live (sheap st) c ->
  same_tree (sheap st) a b -> same_tree (sheap st) b c -> invertible_above (sheap st) a -> invertible_above (sheap st) b ->
  exists f g, get_transform st (Some a) (Some b) = Ok f /\ get_transform st (Some b) (Some c) = Ok g /\
    get_transform st (Some a) (Some c) = Ok (amul f g).
Proof.
  intros S La Lb Lc Tab Tbc Ia Ib. pose proof (sound_heap st S) as G.
  destruct (invertible_get st a b S La Lb Tab Ia) as (f & Ef & Hf).
  destruct (invertible_get st b c S Lb Lc Tbc Ib) as (g & Eg & Hg).
  destruct (invertible_get st a c S La Lc (same_trees _ _ _ _ Tab Tbc) Ia) as (k & Ek & Hk).
  exists f, g. split; [exact Ef|]. split; [exact Eg|]. rewrite Ek. f_equal. apply at_ext. intros v. rewrite mul_at.
  destruct (carried_total (sheap st) c v G Lc) as (w & W).
  apply (carried_injective (sheap st) a G La Ia _ _ w); [apply Hk, W|apply Hf, Hg, W].
Qed.

Theorem transforms_there_and_back st a b : sound st -> live (sheap st) a -> live (sheap st) b ->
  same_tree (sheap st) a b -> invertible_above (sheap st) a -> invertible_above (sheap st) b ->
  exists f g, get_transform st (Some a) (Some b) = Ok f /\ get_transform st (Some b) (Some a) = Ok g /\
    (forall v, aat f (aat g v) = v) /\ (forall v, aat g (aat f v) = v).
Proof.
  intros S La Lb Tab Ia Ib.
  assert (Tba : same_tree (sheap st) b a) by (destruct Tab as (r & A & B); exists r; auto).
  assert (Self : forall x, get_transform st (Some x) (Some x) = Ok aone).
  { intros x. unfold get_transform, fs_get_transform. cbn [not_null bind node_transform]. rewrite Nat.eqb_refl. reflexivity. }
  destruct (transforms_compose st a b a S La Lb La Tab Tba Ia Ib) as (f & g & Ef & Eg & E1).
  destruct (transforms_compose st b a b S Lb La Lb Tba Tab Ib Ia) as (g' & f' & Eg' & Ef' & E2).
  rewrite Ef in Ef'. rewrite Eg in Eg'. apply ok_inj in Ef', Eg'. subst f' g'.
  rewrite Self in E1, E2. apply ok_inj in E1, E2.
  exists f, g. split; [exact Ef|]. split; [exact Eg|]. split; intros v; rewrite <- mul_at, <- ?E1, <- ?E2; apply one_at.
Qed.

(** Between frames of different trees the identity is returned, whatever the
    transforms of the frames are, and no error. *)
Theorem get_transform_across_trees_refuted st t s : sound st -> live (sheap st) t -> live (sheap st) s ->
  ~ same_tree (sheap st) t s -> get_transform st (Some t) (Some s) = Ok aone.
Proof.
  intros S Lt Ls N. unfold get_transform, fs_get_transform. cbn [not_null bind node_transform].
  destruct (Nat.eqb_spec t s) as [->|_]; [reflexivity|].
  destruct (last_common_ancestor_correct (sheap st) t s (sound_heap st S) Lt Ls) as (o & -> & Ho). cbn [bind].
  destruct o as [a|]; [|reflexivity]. destruct Ho as (A & B & _). exfalso. apply N. exists a. auto.
Qed.

(** ** Setting transforms *)

Lemma carried_same h h' n : (forall m, above h m n -> parent h' m = parent h m /\ data h' m = data h m) -> grown h -> live h n ->
  forall v w, carried h' n v w <-> carried h n v w.
Proof.
  intros K G L. destruct (grown_path h G n L) as (l & P). clear L. revert K. induction P as [n P|n p l P H IH]; intros K v w;
    assert (L := parent_live _ _ _ P); destruct (K n (above_self _ _ L)) as (K1 & K2);
    destruct (proj1 (live_data h n) L) as (d & D); pose proof D as D'; rewrite <- K2 in D'; pose proof P as P'; rewrite <- K1 in P'.
  - split; intros W; [destruct (carried_inv _ _ _ _ _ W D') as [(_ & ->)|(q & Q & _)]|destruct (carried_inv _ _ _ _ _ W D) as [(_ & ->)|(q & Q & _)]];
      [apply carried_root; assumption|rewrite P' in Q; discriminate|apply carried_root; assumption|rewrite P in Q; discriminate].
  - assert (K' : forall m, above h m p -> parent h' m = parent h m /\ data h' m = data h m).
    { intros m A. apply K. exact (above_parent _ _ _ _ P A). }
    split; intros W; [destruct (carried_inv _ _ _ _ _ W D') as [(Q & _)|(q & Q & W')]|destruct (carried_inv _ _ _ _ _ W D) as [(Q & _)|(q & Q & W')]];
      [rewrite P' in Q; discriminate| |rewrite P in Q; discriminate|]; [rewrite P' in Q|rewrite P in Q]; injection Q as <-; apply (IH K') in W'.
    + exact (carried_up h n p d v w P D W').
    + exact (carried_up h' n p d v w P' D' W').
Qed.

(** set_transform(frame, wrt, update) changes the transform of this one frame,
    which has a parent: its positions are now where the update of them was in
    the frame wrt. *)
Theorem set_transform_places st f wrt u p : sound st -> live (sheap st) wrt -> parent (sheap st) f = Ok (Some p) ->
  same_tree (sheap st) p wrt -> invertible_above (sheap st) p ->
  exists st', set_transform st (Some f) (Some wrt) u = Ok st' /\ sound st' /\ sroots st' = sroots st /\
    (forall m, parent (sheap st') m = parent (sheap st) m) /\
    (forall m, m <> f -> data (sheap st') m = data (sheap st) m) /\
    node_name (sheap st') f = node_name (sheap st) f /\
    (forall v w, carried (sheap st') f v w <-> carried (sheap st) wrt (aat u v) w).
Proof.
  intros S Lw P Tr I. pose proof (sound_heap st S) as G. pose proof (parent_live_up _ _ _ G P) as Lp.
  destruct (get_transform_of_converts st p wrt u S Lp Lw Tr I) as (g & E & H).
  unfold get_transform_of, fs_get_transform_of in E. cbn [not_null bind] in E.
  destruct (proj1 (live_data (sheap st) f) (parent_live _ _ _ P)) as (d & D).
  destruct (write_sound st f g d S D) as (h' & E' & S' & _ & Df & Dm & Pm & Nm).
  exists (Store h' (sroots st)). split.
  { unfold set_transform, fs_set_transform. cbn [not_null bind]. unfold node_set_transform. rewrite P. cbn [bind]. rewrite E. cbn [bind].
    rewrite E'. reflexivity. }
  split; [exact S'|]. split; [reflexivity|]. split; [exact Pm|]. split; [exact Dm|]. split; [apply Nm|].
  cbn [sheap]. intros v w. rewrite H.
  assert (Cp : forall v w, carried h' p v w <-> carried (sheap st) p v w).
  { apply carried_same; [|exact G|exact Lp]. intros m A. split; [apply Pm|]. apply Dm. intros ->. exact (not_below_parent _ _ _ G P A). }
  split.
  - intros W. destruct (carried_inv _ _ _ _ _ W Df) as [(P' & _)|(q & P' & H')]; rewrite Pm, P in P'; [discriminate|].
    injection P' as <-. apply Cp. exact H'.
  - intros W. apply (carried_up h' f p (Frame (fname d) g)); [rewrite Pm; exact P|exact Df|]. apply Cp. exact W.
Qed.

(** Then get_transform() returns the update, unless the frame is above wrt. *)
Theorem set_transform_get st f wrt u p : sound st -> live (sheap st) wrt -> parent (sheap st) f = Ok (Some p) ->
  same_tree (sheap st) p wrt -> invertible_above (sheap st) p -> invertible_above (sheap st) wrt -> ~ above (sheap st) f wrt ->
  exists st', set_transform st (Some f) (Some wrt) u = Ok st' /\ get_transform st' (Some wrt) (Some f) = Ok u.
Proof.
  intros S Lw P Tr Ip Iw N. pose proof (sound_heap st S) as G.
  destruct (set_transform_places st f wrt u p S Lw P Tr Ip) as (st' & E & S' & _ & Pm & Dm & _ & H).
  exists st'. split; [exact E|]. pose proof (sound_heap st' S') as G'.
  assert (Lw' : live (sheap st') wrt) by (apply live_parent in Lw as (q & Q); rewrite <- Pm in Q; exact (parent_live _ _ _ Q)).
  assert (Lf' : live (sheap st') f) by (rewrite <- Pm in P; exact (parent_live _ _ _ P)).
  assert (Ab : forall a n, live (sheap st) n -> above (sheap st') a n <-> above (sheap st) a n).
  { intros a n L. apply (above_same (sheap st) (sheap st') n G L). intros; apply Pm. }
  assert (Tr' : same_tree (sheap st') wrt f).
  { destruct Tr as (r & A & B). exists r. split; [apply Ab; [exact Lw|exact B]|].
    apply Ab; [exact (parent_live _ _ _ P)|]. exact (above_parent _ _ _ _ P A). }
  assert (Iw' : invertible_above (sheap st') wrt).
  { intros m d A D. apply Ab in A; [|exact Lw]. rewrite Dm in D; [exact (Iw m d A D)|]. intros ->. contradiction. }
  destruct (invertible_get st' wrt f S' Lw' Lf' Tr' Iw') as (g & Eg & Hg). rewrite Eg. f_equal. apply at_ext. intros v.
  destruct (carried_total (sheap st') f v G' Lf') as (w & W).
  apply (carried_injective (sheap st') wrt G' Lw' Iw' _ _ w); [apply Hg, W|].
  apply H in W. apply (carried_same (sheap st) (sheap st') wrt); [|exact G|exact Lw|exact W].
  intros m A. split; [apply Pm|]. apply Dm. intros ->. contradiction.
Qed.

(** Without a frame wrt, the transform is replaced. *)
Theorem set_transform_null st f u d : sound st -> data (sheap st) f = Ok d ->
  exists st', set_transform st (Some f) None u = Ok st' /\ sound st' /\ sroots st' = sroots st /\
    data (sheap st') f = Ok (Frame (fname d) u) /\
    (forall m, parent (sheap st') m = parent (sheap st) m) /\
    (forall m, m <> f -> data (sheap st') m = data (sheap st) m).
Proof.
  intros S D. destruct (write_sound st f u d S D) as (h' & E' & S' & _ & Df & Dm & Pm & _).
  exists (Store h' (sroots st)). split; [|split; [exact S'|split; [reflexivity|auto]]].
  unfold set_transform, fs_set_transform. cbn [not_null bind node_set_transform]. rewrite E'. reflexivity.
Qed.

(** set_transform_rel() does the same: the new transform is not relative to the
    current one. *)
Theorem set_transform_rel_replaces_refuted st f u d : sound st -> data (sheap st) f = Ok d ->
  exists st', set_transform_rel st (Some f) u = Ok st' /\ data (sheap st') f = Ok (Frame (fname d) u).
Proof. intros S D. destruct (set_transform_null st f u d S D) as (st' & E & _ & _ & Df & _). exists st'. split; [exact E|exact Df]. Qed.

(** ** Many transforms at once *)

Lemma set_transforms_ok {T} : forall l (ts : list T) (h : heap (frame T)), grown h -> NoDup l -> (forall n, In n l -> live h n) ->
  List.length l = List.length ts ->
  exists h', set_transforms h (map Some l) ts = Ok h' /\ grown h' /\ (forall m, parent h' m = parent h m) /\
    (forall m, ~ In m l -> data h' m = data h m) /\ (forall m, node_name h' m = node_name h m) /\
    Forall2 (fun n t => exists d, data h' n = Ok d /\ ftrans d = t) l ts.
Proof.
  induction l as [|n l IH]; intros [|t ts] h G ND Lv Len; try discriminate; cbn [map set_transforms].
  - exists h. split; [reflexivity|]. split; [exact G|]. split; [reflexivity|]. split; [reflexivity|]. split; [reflexivity|constructor].
  - destruct (proj1 (live_data h n) (Lv n (or_introl eq_refl))) as (d & D).
    destruct (write_ok h n t d G D) as (h1 & E1 & G1 & D1 & Dm1 & P1 & _). rewrite E1. cbn [bind].
    inversion ND as [|? ? Nn ND']; subst.
    destruct (IH ts h1 G1 ND') as (h' & E & G' & Pm & Dm & Nm & F).
    { intros m I. apply live_parent. rewrite P1. apply live_parent. apply Lv. right. exact I. }
    { cbn [List.length] in Len. lia. }
    exists h'. split; [exact E|]. split; [exact G'|]. split; [intros m; rewrite Pm; apply P1|]. split; [|split].
    + intros m N. rewrite Dm by (intros I; apply N; right; exact I). apply Dm1. intros ->. apply N. left. reflexivity.
    + intros m. rewrite Nm. unfold node_name. destruct (Nat.eq_dec m n) as [->|Hm]; [rewrite D, D1; reflexivity|rewrite Dm1 by exact Hm; reflexivity].
    + constructor; [|exact F]. exists (Frame (fname d) t). rewrite Dm by exact Nn. auto.
Qed.

(** set_frame_transforms() sets the transforms of the frames, one by one, and
    nothing else; then get_frame_transforms() returns them. *)
Theorem frame_transforms_set_get {T} (st : store T) l ts : sound st -> NoDup l -> (forall n, In n l -> live (sheap st) n) ->
  List.length l = List.length ts ->
  exists st', fs_set_frame_transforms st (map Some l) ts = Ok st' /\ sound st' /\ sroots st' = sroots st /\
    fs_get_frame_transforms st' (map Some l) = Ok ts /\
    (forall m, parent (sheap st') m = parent (sheap st) m) /\
    (forall m, node_name (sheap st') m = node_name (sheap st) m) /\
    (forall m, ~ In m l -> data (sheap st') m = data (sheap st) m).
Proof.
  intros S ND Lv Len. destruct (set_transforms_ok l ts (sheap st) (sound_heap st S) ND Lv Len) as (h' & E & G' & Pm & Dm & Nm & F).
  exists (Store h' (sroots st)). unfold fs_set_frame_transforms. rewrite map_length, Len, Nat.eqb_refl, E. cbn [bind].
  split; [reflexivity|]. split; [constructor; [exact G'|exact (sound_nodup st S)|intros r I; cbn [sheap]; rewrite Pm; exact (sound_roots st S r I)]|].
  split; [reflexivity|]. split; [|auto]. clear - F. induction F as [|n t l ts (d & D & <-) F IH]; [reflexivity|].
  cbn [map fs_get_frame_transforms sheap]. rewrite D. cbn [bind]. rewrite IH. reflexivity.
Qed.

(** Setting what was got changes nothing. *)
Theorem frame_transforms_get_set {T} (st : store T) l : sound st -> NoDup l -> (forall n, In n l -> live (sheap st) n) ->
  exists ts st', fs_get_frame_transforms st (map Some l) = Ok ts /\ fs_set_frame_transforms st (map Some l) ts = Ok st' /\
    sroots st' = sroots st /\ forall m, kept (sheap st) (sheap st') m.
Proof.
  intros S ND Lv.
  assert (X : exists ts, fs_get_frame_transforms st (map Some l) = Ok ts /\ Forall2 (fun n t => exists d, data (sheap st) n = Ok d /\ ftrans d = t) l ts).
  { clear ND. induction l as [|n l IH]; [exists []; split; [reflexivity|constructor]|].
    destruct IH as (ts & E & F); [intros m I; apply Lv; right; exact I|].
    destruct (proj1 (live_data _ n) (Lv n (or_introl eq_refl))) as (d & D). exists (ftrans d :: ts).
    cbn [map fs_get_frame_transforms]. rewrite D. cbn [bind]. rewrite E. split; [reflexivity|]. constructor; [exists d; auto|exact F]. }
  destruct X as (ts & E & F). assert (Len : List.length l = List.length ts) by (clear - F; induction F; cbn [List.length]; congruence).
  destruct (set_transforms_ok l ts (sheap st) (sound_heap st S) ND Lv Len) as (h' & E' & G' & Pm & Dm & Nm & F').
  exists ts, (Store h' (sroots st)). split; [exact E|]. unfold fs_set_frame_transforms. rewrite map_length, Len, Nat.eqb_refl, E'.
  split; [reflexivity|]. split; [reflexivity|]. intros m. split; [apply Pm|]. cbn [sheap].
  destruct (in_dec Nat.eq_dec m l) as [I|N]; [|exact (Dm m N)].
  assert (Y : exists d d', data (sheap st) m = Ok d /\ data h' m = Ok d' /\ ftrans d = ftrans d').
  { clear - F F' I. revert F'. induction F as [|n t l ts (d & D & Ed) F IH]; intros F'; [destruct I|].
    inversion F' as [|? ? ? ? (d' & D' & Ed') F'']; subst. destruct I as [<-|I]; [exists d, d'; auto|exact (IH I F'')]. }
  destruct Y as (d & d' & D & D' & Et). specialize (Nm m). unfold node_name in Nm. rewrite D, D' in *. cbn [bind] in Nm.
  apply ok_inj in Nm. destruct d as [x t], d' as [x' t']. cbn [fname ftrans] in *. congruence.
Qed.

(** Vectors of different lengths are refused. *)
Theorem frame_transforms_lengths {T} (st : store T) l ts : List.length l <> List.length ts ->
  fs_set_frame_transforms st l ts = Throw LogicErr.
Proof. intros N. unfold fs_set_frame_transforms. destruct (Nat.eqb_spec (List.length l) (List.length ts)); [contradiction|reflexivity]. Qed.

(** ** A case *)
Definition q (z : Z) : Qc := Q2Qc (inject_Z z).
Definition shift (x y z : Z) : atrans := AT (V3 (q x) (q y) (q z)) (tr aone).
(** a quarter turn about the third axis, and a step *)
Definition turn (x y z : Z) : atrans := AT (V3 (q x) (q y) (q z)) (M3 (V3 0 (q (-1)) 0)%Qc (V3 1 0 0)%Qc (V3 0 0 1)%Qc).

Definition t0 : store atrans := Store [] [].
Definition grow (st : store atrans) x p t : store atrans := match fs_add st x p t with Ok (s, _) => s | _ => st end.
Definition t3 : store atrans :=
  grow (grow (grow t0 (lit "a") None (shift 1 0 0)) (lit "b") (Some 0) (turn 1 2 3)) (lit "c") (Some 0) (turn 5 0 0).

Lemma grow_history st x p t : history true st -> live_opt (sheap st) p -> history true (grow st x p t).
Proof.
  intros H L. unfold grow. destruct (fs_add st x p t) as [(st', r)| |] eqn:E; [|exact H|exact H].
  apply (history_call true st); [exact H|]. exact (call_add true st x p t st' r L E).
Qed.

Lemma t3_history : history true t3.
Proof. unfold t3. repeat (apply grow_history; [|solve [exact I | eexists; reflexivity]]). constructor. Qed.

Lemma turn_invertible x y z : invertible (turn x y z).
Proof.
  apply (inverse_invertible _ (AT (V3 (- q y) (q x) (- q z))%Qc (M3 (V3 0 1 0)%Qc (V3 (q (-1)) 0 0)%Qc (V3 0 0 1)%Qc))); intros [a b c];
    cbv [turn aat mv vadd dot vx vy vz r0 r1 r2 tp tr]; replace (q (-1)) with (-(1))%Qc by reflexivity; f_equal; ring.
Qed.

Lemma shift_invertible x y z : invertible (shift x y z).
Proof.
  apply (inverse_invertible _ (AT (V3 (- q x) (- q y) (- q z))%Qc (tr aone))); intros [a b c];
    cbv [shift aat mv vadd dot vx vy vz r0 r1 r2 tp tr aone]; f_equal; ring.
Qed.

Example transforms_met : sound t3 /\ live (sheap t3) 1 /\ live (sheap t3) 2 /\ same_tree (sheap t3) 1 2 /\
  invertible_above (sheap t3) 1 /\ parent (sheap t3) 1 = Ok (Some 0) /\ ~ above (sheap t3) 1 2 /\
  get_transform t3 (Some 1) (Some 2) = Ok (shift (-2) (-4) (-3)).
Proof.
  split; [exact (history_sound _ _ t3_history)|]. split; [eexists; reflexivity|]. split; [eexists; reflexivity|].
  assert (L0 : live (sheap t3) 0) by (eexists; reflexivity).
  split; [exists 0; split; (apply (above_parent _ 0 0); [reflexivity|constructor; exact L0])|]. split; [|split; [reflexivity|split]].
  - intros m d A D. apply above_cases in A as [->|(p & P & A)].
    + vm_compute in D. apply ok_inj in D. subst d. exact (turn_invertible 1 2 3).
    + vm_compute in P. injection P as <-. apply above_root_eq in A; [|reflexivity]. subst m. vm_compute in D. apply ok_inj in D. subst d.
      exact (shift_invertible 1 0 0).
  - intros A. apply above_cases in A as [E|(p & P & A)]; [discriminate|]. vm_compute in P. injection P as <-.
    apply above_root_eq in A; [discriminate|reflexivity].
  - vm_compute. reflexivity.
Qed.

(** set_transform() of a root is wrong: of the frames above wrt, only wrt itself
    is taken into account. *)
Theorem set_transform_of_root_refuted : exists st st' v w, history true st /\ member st 0 /\ member st 1 /\
  parent (sheap st) 0 = Ok None /\ same_tree (sheap st) 0 1 /\ set_transform st (Some 0) (Some 1) aone = Ok st' /\
  carried (sheap st) 1 v w /\ ~ carried (sheap st') 0 v w.
Proof.
  set (s2 := grow (grow t0 (lit "a") None (shift 1 0 0)) (lit "b") (Some 0) (shift 1 0 0)).
  exists s2, (match set_transform s2 (Some 0) (Some 1) aone with Ok s => s | _ => s2 end), (V3 0 0 0)%Qc, (V3 (q 2) 0 0)%Qc.
  split; [unfold s2; repeat (apply grow_history; [|solve [exact I | eexists; reflexivity]]); constructor|].
  assert (L0 : live (sheap s2) 0) by (eexists; reflexivity).
  assert (A0 : above (sheap s2) 0 0) by (constructor; exact L0).
  assert (A1 : above (sheap s2) 0 1) by (apply (above_parent _ 0 0); [reflexivity|exact A0]).
  split; [exists 0; split; [left; reflexivity|exact A0]|]. split; [exists 0; split; [left; reflexivity|exact A1]|].
  split; [reflexivity|]. split; [exists 0; auto|]. split; [reflexivity|]. split.
  - assert (X : V3 (q 2) 0%Qc 0%Qc = aat (shift 1 0 0) (aat (shift 1 0 0) (V3 0 0 0)%Qc)) by (vm_compute; reflexivity). rewrite X.
    apply (carried_up _ 1 0 (Frame (lit "b") (shift 1 0 0))); [reflexivity|reflexivity|].
    apply (carried_root _ 0 (Frame (lit "a") (shift 1 0 0))); reflexivity.
  - intros W. destruct (carried_inv _ _ _ _ (Frame (lit "a") (shift 1 0 0)) W) as [(_ & Y)|(r & P' & _)]; [reflexivity| |discriminate P'].
    apply (f_equal vx) in Y. vm_compute in Y. discriminate Y.
Qed.

Print Assumptions product_applies_both.
Print Assumptions inverse_transform_undoes.
Print Assumptions transform_determined.
Print Assumptions transform_of_matrix.
Print Assumptions matrix_conversion_refuted.
Print Assumptions get_transform_converts.
Print Assumptions carried_somewhere.
Print Assumptions get_transform_of_converts.
Print Assumptions get_position_of_converts.
Print Assumptions get_transform_null.
Print Assumptions transforms_compose.
Print Assumptions transforms_there_and_back.
Print Assumptions get_transform_across_trees_refuted.
Print Assumptions set_transform_places.
Print Assumptions set_transform_get.
Print Assumptions set_transform_null.
Print Assumptions set_transform_rel_replaces_refuted.
Print Assumptions frame_transforms_set_get.
Print Assumptions frame_transforms_get_set.
Print Assumptions frame_transforms_lengths.
Print Assumptions set_transform_of_root_refuted.

(* C01, C02: bounding boxes. *)
From Coq Require Import ZArith QArith Qround List Lia Bool.
From Verif Require Import Lib.Base BBox.Model BBox.Spec BBox.Proofs BBox.ProofsMore.
Import ListNotations.
Local Open Scope Z_scope.

(* C01 *)
Theorem bbox_contains_exact : forall n b p, wf n b -> length p = n ->
  exists r, contains_point b p = Ok r /\ (r = true <-> inside b p).
Proof. exact contains_point_spec. Qed.
Print Assumptions bbox_contains_exact.

Theorem bbox_empty_exact : forall n b, wf n b -> (empty b = true <-> forall p, ~ inside b p).
Proof. exact empty_iff. Qed.
Print Assumptions bbox_empty_exact.

Theorem bbox_crop_is_intersection : forall n a b, wf n a -> wf n b ->
  exists c, crop a b = Ok c /\ wf n c /\ forall p, inside c p <-> inside a p /\ inside b p.
Proof. exact crop_spec. Qed.
Print Assumptions bbox_crop_is_intersection.

Theorem bbox_grow_is_least_box : forall n a b, wf n a -> wf n b -> empty a = false -> empty b = false ->
  exists c, grow_bbox a b = Ok c /\ wf n c /\
    (forall p, inside a p \/ inside b p -> inside c p) /\
    (forall d, wf n d -> (forall p, inside a p \/ inside b p -> inside d p) ->
       forall p, inside c p -> inside d p).
Proof. exact grow_bbox_least. Qed.
Print Assumptions bbox_grow_is_least_box.

(* Growing a degenerate (empty but not fully empty) box does not give the least
   box: the corner of a box without points still counts. *)
Theorem bbox_grow_empty_refuted : exists a b c d,
  wf 1 a /\ empty a = true /\ wf 1 b /\ empty b = false /\ grow_bbox a b = Ok c /\
  (forall p, inside a p \/ inside b p -> inside d p) /\ exists p, inside c p /\ ~ inside d p.
Proof.
  exists (mkB [5] [5]), (mkB [0] [1]), (mkB [0] [5]), (mkB [0] [1]).
  split; [split; simpl; auto|]. split; [reflexivity|].
  split; [split; simpl; auto|]. split; [reflexivity|]. split; [reflexivity|]. split.
  - intros p [H|H]; auto. exfalso. apply (proj1 (empty_iff 1 (mkB [5] [5]) ltac:(split; simpl; auto)) eq_refl p H).
  - exists [3]. split.
    + split; [reflexivity|]. split; [discriminate|]. intros [|i]; simpl; lia.
    + intros (_ & _ & H). specialize (H O ltac:(simpl; lia)). simpl in H. lia.
Qed.
Print Assumptions bbox_grow_empty_refuted.

Theorem bbox_shift_moves_points : forall n b v p q, wf n b -> vadd p v q -> length q = n ->
  (inside (shift b v) q <-> inside b p) /\ (inside (unshift b v) p <-> inside b q).
Proof. exact shift_spec. Qed.
Print Assumptions bbox_shift_moves_points.

Theorem bbox_expand_is_dilation : forall n b k q, wf n b -> 0 <= k ->
  (inside (expand k b) q <-> exists p, inside b p /\ within k p q).
Proof. exact expand_spec. Qed.
Print Assumptions bbox_expand_is_dilation.

Theorem bbox_contract_is_erosion : forall n b k q, wf n b -> 0 <= k -> length q = n ->
  (inside (contract k b) q <-> forall p, within k p q -> inside b p).
Proof. exact contract_spec. Qed.
Print Assumptions bbox_contract_is_erosion.

Theorem bbox_intersects_exact : forall n a b, wf n a -> wf n b -> empty a = false -> empty b = false ->
  exists r, intersects a b = Ok r /\ (r = true <-> exists p, inside a p /\ inside b p).
Proof. exact intersects_spec. Qed.
Print Assumptions bbox_intersects_exact.

(* intersects() answers true for a box without points lying strictly inside another. *)
Theorem bbox_intersects_empty_refuted : exists a b,
  wf 2 a /\ wf 2 b /\ intersects a b = Ok true /\ ~ exists p, inside a p /\ inside b p.
Proof.
  exists (box_xywh 5 5 0 0), (box_xywh 0 0 10 10).
  split; [split; simpl; auto|]. split; [split; simpl; auto|]. split; [reflexivity|].
  intros (p & H & _). apply (proj1 (empty_iff 2 (box_xywh 5 5 0 0) ltac:(split; simpl; auto)) eq_refl p H).
Qed.
Print Assumptions bbox_intersects_empty_refuted.

Theorem bbox_contains_bbox_exact : forall n a b, wf n a -> wf n b -> empty b = false ->
  exists r, contains_bbox a b = Ok r /\ (r = true <-> forall p, inside b p -> inside a p).
Proof. exact contains_bbox_spec. Qed.
Print Assumptions bbox_contains_bbox_exact.

Theorem bbox_scale_points : forall n b s p, wf n b -> 0 < s -> length p = n ->
  exists c, scale b s = Ok c /\ (inside c (map (fun x => x * s) p) <-> inside b p).
Proof. exact scale_spec. Qed.
Print Assumptions bbox_scale_points.

Theorem bbox_area_counts_points : forall b, wf 2 b ->
  exists l, NoDup l /\ (forall p, In p l <-> inside b p) /\ Z.of_nat (length l) = area b /\
    area b = width b * height b.
Proof. exact area_counts. Qed.
Print Assumptions bbox_area_counts_points.

(* A point of a box need not be inside the box it grew. *)
Theorem bbox_grow_point_contains_refuted : exists b p c,
  wf 2 b /\ length p = 2%nat /\ grow_point b p = Ok c /\ contains_point c p = Ok false.
Proof.
  exists (box_xywh 0 0 2 2), [4; 4], (mkB [0;0] [4;4]). split; [split; simpl; auto|]. repeat split; reflexivity.
Qed.
Print Assumptions bbox_grow_point_contains_refuted.

(* C02 *)
Theorem bbox_default_grow_tight : forall n ps, (0 < n)%nat -> ps <> [] ->
  (forall p, In p ps -> length p = n /\ forall x, In x p -> - (i32_max - 1) <= x <= i32_max - 1) ->
  exists c, grow_points (default_int n) ps = Ok c /\ wf n c /\
    forall i, (i < n)%nat ->
      (forall p, In p ps -> nth i (bmin c) 0 <= nth i p 0 <= nth i (bmax c) 0) /\
      (exists p, In p ps /\ nth i p 0 = nth i (bmin c) 0) /\
      (exists p, In p ps /\ nth i p 0 = nth i (bmax c) 0).
Proof. exact grow_default_tight. Qed.
Print Assumptions bbox_default_grow_tight.

Theorem bbox_default_neutral : forall n b, wf n b -> empty b = false ->
  (forall x, In x (bmin b ++ bmax b) -> - (i32_max - 1) <= x <= i32_max - 1) ->
  grow_bbox (default_int n) b = Ok b.
Proof. exact grow_default_bbox. Qed.
Print Assumptions bbox_default_neutral.

(* Outside the sentinel range the box of a single point does not reach the point's coordinate. *)
Theorem bbox_default_range_refuted : exists p c,
  length p = 1%nat /\ grow_points (default_int 1) [p] = Ok c /\ bmin c <> p.
Proof.
  exists [3000000000], (mkB [2147483646] [3000000000]). split; [reflexivity|]. split; [reflexivity|]. discriminate.
Qed.
Print Assumptions bbox_default_range_refuted.

(* With an unsigned element type the default box is not even empty. *)
Theorem bbox_default_unsigned_refuted :
  empty (default_u32 2) = false /\ contains_point (default_u32 2) [2147483647; 2147483647] = Ok true /\
  grow_points (default_u32 2) [[1; 1]] = Ok (mkB [1; 1] [2147483650; 2147483650]).
Proof. repeat split; reflexivity. Qed.
Print Assumptions bbox_default_unsigned_refuted.

Theorem bbox_int_hull_encloses : forall n b, (0 < n)%nat -> length (qmin b) = n -> length (qmax b) = n ->
  (forall i, (i < n)%nat -> (nth i (qmin b) 0 <= nth i (qmax b) 0)%Q) ->
  (forall i, (i < n)%nat -> i32_min <= Qfloor (nth i (qmin b) 0%Q) /\ Qfloor (nth i (qmax b) 0%Q) < i32_max) ->
  exists c, grow_bbox_to_int b = Ok c /\ wf n c /\
    (forall i, (i < n)%nat ->
       inject_Z (nth i (bmin c) 0%Z) <= nth i (qmin b) 0 /\ nth i (qmax b) 0 < inject_Z (nth i (bmax c) 0%Z) /\
       nth i (qmin b) 0 < inject_Z (nth i (bmin c) 0%Z) + 1 /\ inject_Z (nth i (bmax c) 0%Z) <= nth i (qmax b) 0 + 1)%Q.
Proof. exact hull_encloses. Qed.
Print Assumptions bbox_int_hull_encloses.

(* The hull is not the smallest enclosing integer box (as its comment says) when
   the box has integer corners already. *)
Theorem bbox_int_hull_smallest_refuted :
  exists b c, grow_bbox_to_int b = Ok c /\ qmin b = [0%Q] /\ qmax b = [1%Q] /\ bmax c = [2] /\ inside c [1].
Proof.
  exists (mkQ [0%Q] [1%Q]), (mkB [0] [2]). split; [reflexivity|]. do 3 (split; [reflexivity|]).
  split; [reflexivity|]. split; [discriminate|]. intros [|i]; simpl; lia.
Qed.
Print Assumptions bbox_int_hull_smallest_refuted.

Theorem bbox_expand_vec_is_dilation : forall n b v q, wf n b -> length v = n ->
  (forall i, (i < n)%nat -> 0 <= nth i v 0) ->
  exists c, expand_vec b v = Ok c /\
    (inside c q <-> exists p, inside b p /\ length p = length q /\
       forall i, (i < n)%nat -> Z.abs (nth i p 0 - nth i q 0) <= nth i v 0).
Proof. exact expand_vec_spec. Qed.
Print Assumptions bbox_expand_vec_is_dilation.

Theorem bbox_expand_vec_dimension : forall n b v, wf n b -> length v <> n -> expand_vec b v = Throw ArgumentErr.
Proof. exact expand_vec_mismatch. Qed.
Print Assumptions bbox_expand_vec_dimension.

Theorem bbox_volume_counts_points : forall b, wf 3 b ->
  exists l, NoDup l /\ (forall p, In p l <-> inside b p) /\ Z.of_nat (length l) = volume b /\
    volume b = width b * height b * depth b.
Proof. exact volume_counts. Qed.
Print Assumptions bbox_volume_counts_points.

Theorem bbox_scale_roundtrip : forall n b s, wf n b -> 0 < s -> exists c, scale b s = Ok c /\ unscale c s = Ok b.
Proof. exact unscale_scale. Qed.
Print Assumptions bbox_scale_roundtrip.

Theorem bbox_unscale_points : forall n b s p, wf n b -> 0 < s -> (forall x, In x (bmin b ++ bmax b) -> 0 <= x) ->
  empty b = false -> inside b p ->
  exists c, unscale b s = Ok c /\ wf n c /\
    forall i, (i < n)%nat -> nth i (bmin c) 0 <= nth i p 0 / s <= nth i (bmax c) 0.
Proof. exact unscale_spec. Qed.
Print Assumptions bbox_unscale_points.

(* Scaling an integer box down can lose points: the box shrinks to an empty one although
   it holds a point whose scaled position is inside no box of the result. *)
Theorem bbox_unscale_contains_refuted : exists b c, wf 1 b /\ inside b [5] /\ unscale b 4 = Ok c /\
  empty c = true /\ ~ inside c [5 / 4].
Proof.
  exists (mkB [5] [7]), (mkB [1] [1]). split; [split; simpl; auto|].
  split. { split; [reflexivity|]. split; [discriminate|]. intros [|i]; simpl; lia. }
  split; [reflexivity|]. split; [reflexivity|].
  intros (_ & _ & X). specialize (X 0%nat). simpl in X. change (5 / 4) with 1 in X. lia.
Qed.
Print Assumptions bbox_unscale_contains_refuted.

(* [fully_empty] is emptiness of the closed box. *)
Theorem bbox_fully_empty_exact : forall n b, wf n b ->
  (fully_empty b = true <->
   ~ exists p, length p = n /\ forall i, (i < n)%nat -> nth i (bmin b) 0 <= nth i p 0 <= nth i (bmax b) 0).
Proof. exact fully_empty_iff. Qed.
Print Assumptions bbox_fully_empty_exact.

(* Concrete cases meeting the hypotheses. *)
Example bbox_ex_wf : wf 2 (box_xywh (-3) 2 7 4) /\ empty (box_xywh (-3) 2 7 4) = false /\
  crop (box_xywh (-3) 2 7 4) (box_xywh 0 0 10 3) = Ok (mkB [0;2] [4;3]) /\
  grow_bbox (box_xywh (-3) 2 7 4) (box_xywh 0 0 10 3) = Ok (mkB [-3;0] [10;6]) /\
  intersects (box_xywh (-3) 2 7 4) (box_xywh 4 0 10 3) = Ok false /\
  area (box_xywh (-3) 2 7 4) = 28.
Proof. split; [split; simpl; auto|]. repeat split; reflexivity. Qed.
Example bbox_ex_shift : vadd [1;2] [10;-10] [11;-8].
Proof. split; [reflexivity|]. split; [reflexivity|]. intros [|[|i]]; simpl; lia. Qed.
Example bbox_ex_points : grow_points (default_int 2) [[3;4];[-1;9];[0;0]] = Ok (mkB [-1;0] [3;9]).
Proof. reflexivity. Qed.
Example bbox_ex_hull : grow_bbox_to_int (mkQ [(-1#2)%Q;0%Q] [(3#2)%Q;(5#3)%Q]) = Ok (mkB [-1;0] [2;2]).
Proof. reflexivity. Qed.
Example bbox_ex_more : wf 3 (mkB [0;-1;2] [2;2;4]) /\ volume (mkB [0;-1;2] [2;2;4]) = 12 /\
  expand_vec (mkB [0;-1;2] [2;2;4]) [1;0;2] = Ok (mkB [-1;-1;0] [3;2;6]) /\
  scale (mkB [0;-1;2] [2;2;4]) 3 = Ok (mkB [0;-3;6] [6;6;12]) /\
  unscale (mkB [0;3;6] [7;6;12]) 3 = Ok (mkB [0;1;2] [2;2;4]) /\
  fully_empty (mkB [0;1] [0;1]) = false /\ fully_empty (mkB [0;1] [3;0]) = true.
Proof. split; [split; simpl; auto|]. repeat split; reflexivity. Qed.

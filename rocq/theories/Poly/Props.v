(** Theorems on sets of polygons: C77 (editing), C78 (geometry, searches and
    sorting), C79 (files). *)
From Coq Require Import String List Bool ZArith QArith Qround Permutation Lia Lqa.
From Verif Require Import Lib.Base Lib.Lists Lib.Str Poly.Model Poly.Spec Poly.Proofs Poly.EProofs Poly.GProofs Poly.SProofs Poly.FProofs Poly.HProofs.
From Verif Require Cut.Model Cut.Spec Cut.Props.
Import ListNotations.
Local Open Scope list_scope.
Local Open Scope Z_scope.

(** ** C77: editing *)

(** Any sequence of edits on the arrays does to the polygons what it does to a
    list of polygons, and never reads or writes outside the arrays. *)
Theorem edits_refine_list es d l : shows d l -> valid_all es l ->
  exists d', perform_all es d = Ok d' /\ shows d' (effects es l).
Proof. apply perform_all_ok. Qed.

Theorem append_polygons_adds d l p m : shows d l -> shows p m ->
  exists d', append_polygons d p = Ok d' /\ shows d' (l ++ filter full m) /\ annos d' = annos d ++ annos p.
Proof. intros S T. destruct (append_polygons_ok d l p m S T) as (d' & E & S' & A & _). eauto. Qed.

(** Moving an edge moves its two ends: the vertex and the next, or the first. *)
Theorem shift_edge_moves_ends d l1 g l2 a x b sx sy : shows d (l1 ++ g :: l2) -> verts g = a ++ x :: b ->
  let f := fun q : pt => (fst q + sx, snd q + sy)%Q in
  exists d', shift_edge d (len l1) (len a) sx sy = Ok d' /\
    shows d' (l1 ++ with_verts g
      (match b with
       | y :: b' => a ++ f x :: f y :: b'
       | [] => match a with [] => [f x] | z :: a' => f z :: a' ++ [f x] end
       end) :: l2) /\
    annos d' = annos d /\ vert_annos d' = [].
Proof.
  intros S V f. destruct (shift_edge_ok d l1 g l2 a x b _ _ sx sy S V eq_refl eq_refl) as (d' & E & (A & B & _) & S'). eauto.
Qed.

Theorem shift_marked_moves_marked d l ms sx sy : shows d l -> NoDup ms -> (forall i, In i ms -> 0 <= i < len l) ->
  exists d', shift_marked_polys d ms sx sy = Ok d' /\
    shows d' (change (fun i => existsb (Z.eqb i) ms) (moved (fun q => (fst q + sx, snd q + sy)%Q)) l).
Proof. intros S N I. destruct (shift_marked_ok d l ms sx sy S N I) as (d' & E & S' & _). eauto. Qed.

Theorem reverse_marked_turns_marked d l ms : shows d l -> NoDup ms -> (forall i, In i ms -> 0 <= i < len l) ->
  exists d', reverse_marked_polys d ms = Ok d' /\
    shows d' (change (fun i => existsb (Z.eqb i) ms) (fun g => with_verts g (rev (verts g))) l) /\ same_annos d d'.
Proof. intros S N I. destruct (reverse_marked_ok d l ms S N I) as (d' & E & S' & A & _). eauto. Qed.

(** The copies of the marked polygons come after the others and their numbers are
    the new marks. *)
Theorem append_and_shift_marks_copies d l ms sx sy : shows d l ->
  let new := map (moved (fun q => (fst q + sx, snd q + sy)%Q)) (filter full (keep (fun i => existsb (Z.eqb i) ms) l)) in
  exists d', append_and_shift_marked d ms sx sy = Ok (d', zrange (len l) (len l + len new)) /\ shows d' (l ++ new) /\ same_annos d d'.
Proof. intros S. destruct (append_and_shift_ok d l ms sx sy S) as (d' & E & S' & A & _). eauto. Qed.

(** Annotations of the file move with all the polygons; those made for display of
    vertices are dropped when a vertex changes. *)
Theorem transform_moves_annotations d l t : shows d l ->
  exists d', apply_transform d t = Ok d' /\ annos_moved (lt_apply t) d d' /\ shows d' (map (moved (lt_apply t)) l).
Proof. intros S. destruct (move_all_ok (lt_apply t) d l S) as (d' & E & S' & A & _). eauto. Qed.

(** Shifting, turning and scaling all polygons, with the annotations. *)
Theorem shift_rotate_scale d l : shows d l ->
  (forall sx sy, let f := fun q : pt => (fst q + sx, snd q + sy)%Q in
     exists d', shift d sx sy = Ok d' /\ annos_moved f d d' /\ shows d' (map (moved f) l)) /\
  (forall c s, let f := fun q : pt => (c * fst q - s * snd q, s * fst q + c * snd q)%Q in
     exists d', rotate d c s = Ok d' /\ annos_moved f d d' /\ shows d' (map (moved f) l)) /\
  (forall k, let f := fun q : pt => (fst q * k, snd q * k)%Q in
     exists d', scale d k = Ok d' /\ annos_moved f d d' /\ shows d' (map (moved f) l)).
Proof.
  intros S. repeat split; intros.
  - destruct (move_all_ok f d l S) as (d' & E & S' & A & _). eauto.
  - destruct (move_all_ok f d l S) as (d' & E & S' & A & _). eauto.
  - destruct (move_all_ok f d l S) as (d' & E & S' & A & _). eauto.
Qed.

(** A rectangle or a cloud of points replaces what was there. *)
Theorem set_rectangle_shows xl yl xh yh cl co la :
  exists d', set_rectangle xl yl xh yh cl co la = Ok d' /\ shows d' [Pg [(xl, yl); (xh, yl); (xh, yh); (xl, yh)] cl co la] /\ annos d' = [].
Proof.
  assert (S : shows reset []) by (repeat split; reflexivity).
  destruct (rect_append reset [] xl yl xh yh cl co la S) as (d' & E & S' & (A & _) & _). exists d'. auto.
Qed.
Theorem point_cloud_shows ps co la : shows (set_point_cloud ps co la) (map (fun p => Pg [p] true co la) ps) /\ cloud (set_point_cloud ps co la) = true.
Proof.
  assert (F : points (map (fun p => Pg [p] true co la) ps) = ps) by (unfold points; induction ps as [|p ps IH]; cbn; [auto|now rewrite IH]).
  split; [|reflexivity]. unfold shows. rewrite F. unfold set_point_cloud. cbn [xv yv num_verts num_polys total closed colors layers].
  unfold len. rewrite map_length, !map_map. cbn [verts shut col lay length]. repeat split; reflexivity.
Qed.

Theorem transform_marked_annotations d mark t :
  exists d', transform_marked_annos d mark t = Ok d' /\
    annos d' = change (fun i => existsb (Z.eqb i) mark)
      (fun a => Anno (fst (lt_apply t (an_x a, an_y a))) (snd (lt_apply t (an_x a, an_y a))) (an_label a)) (annos d) /\
    (forall l, shows d l -> shows d' l).
Proof. destruct (marked_annos_ok d mark t) as (d' & E & A & S & _). eauto. Qed.

Theorem vertex_edits_drop_vertex_labels d l1 g l2 a x b q : shows d (l1 ++ g :: l2) -> verts g = a ++ x :: b ->
  exists d1 d2 d3, change_vertex d (len l1) (len a) q = Ok d1 /\ insert_vertex d (len l1) (len a) q = Ok d2 /\ erase_vertex d (len l1) (len a) = Ok d3 /\
    forall d', In d' [d1; d2; d3] -> vert_annos d' = [] /\ annos d' = annos d.
Proof.
  intros S V. destruct (change_vertex_ok d l1 g l2 a x b q _ _ S V eq_refl eq_refl) as (d1 & E1 & _ & A1).
  destruct (insert_vertex_ok d l1 g l2 a (x :: b) q _ _ S V eq_refl eq_refl) as (d2 & E2 & _ & A2).
  destruct (erase_vertex_ok d l1 g l2 a x b _ _ S V eq_refl eq_refl) as (d3 & E3 & _ & A3).
  exists d1, d2, d3. repeat (split; [assumption|]). intros d' [<-|[<-|[<-|[]]]]; split; (apply A1 || apply A2 || apply A3).
Qed.

(** The transform given with its matrix turns about the centre of the smallest box. *)
Theorem around_center_keeps_center d l b11 b12 b21 b22 : shows d l -> points l <> [] ->
  exists d' b f, apply_around_center d b11 b12 b21 b22 = Ok d' /\ smallest_box (points l) b /\ shows d' (map (moved f) l) /\ annos_moved f d d' /\
    let cx := ((bxl b + bxh b) / 2)%Q in let cy := ((byl b + byh b) / 2)%Q in
    forall p, peq (f p) (cx + b11 * (fst p - cx) + b12 * (snd p - cy), cy + b21 * (fst p - cx) + b22 * (snd p - cy))%Q.
Proof.
  intros S N. destruct (around_center_ok d l b11 b12 b21 b22 S N) as (d' & b & E & B & S' & A). cbv zeta in *. eexists d', b, _. split; [exact E|]. split; [exact B|]. split; [exact S'|]. split; [exact A|].
  intros p. set (cx := ((bxl b + bxh b) / 2)%Q). set (cy := ((byl b + byh b) / 2)%Q). clearbody cx cy. unfold peq, lt_apply, trans_around. cbn [a11 a12 a21 a22 lsx lsy fst snd]. split; ring.
Qed.

Theorem compose_applies_second_first p q x : peq (lt_apply (compose_transforms p q) x) (lt_apply p (lt_apply q x)).
Proof. unfold peq, lt_apply, compose_transforms. cbn [a11 a12 a21 a22 lsx lsy fst snd]. split; ring. Qed.

(** Erasing marked polygons drops the labels of vertices and of layers but keeps
    the labels of polygons: they then number polygons that are gone. *)
Theorem erase_marked_drops_polygon_labels_refuted :
  exists d l ms d', shows d l /\ erase_marked_polys d ms = Ok d' /\ shows d' (effect (EEraseMarked ms) l) /\ len (poly_annos d') = 2 /\ num_polys d' = 1.
Proof.
  pose (l := [Pg [(0, 0); (1, 0); (1, 1)]%Q true [] []; Pg [(5, 5); (6, 5); (6, 6)]%Q true [] []]).
  pose (d := DPoly false (map fst (points l)) (map snd (points l)) [3; 3] 2 6 [true; true] [[]; []] [[]; []] [] [] [Anno 0 0 (lit "0"%string); Anno 5 5 (lit "1"%string)] []).
  assert (S : shows d l) by (repeat split). destruct (erase_marked_polys_ok d l [0] S) as (d' & E & S' & _ & _ & P & _). exists d, l, [0], d'.
  split; [exact S|]. split; [exact E|]. split; [exact S'|]. rewrite P. split; [reflexivity|]. apply S'.
Qed.

(** ** C78: geometry, searches, sorting *)

(** The area of the vertices from [start] on is that of the sum over the edges,
    for polygons turning left if asked for, else for those turning right. *)
Theorem signed_area_exact a m b cc :
  exists v, signed_poly_area (len m) (map fst (a ++ m ++ b)) (map snd (a ++ m ++ b)) (len a) cc = Ok v /\ (v == if cc then area m else - area m)%Q.
Proof. now apply area_ok. Qed.
Theorem area_turned m : (area (rev m) == - area m)%Q.
Proof. apply area_rev. Qed.
Theorem area_transformed t m : (area (map (lt_apply t) m) == (a11 t * a22 t - a12 t * a21 t) * area m)%Q.
Proof. apply area_trans. Qed.

Theorem point_in_polygon_exact q m :
  exists r, point_in_poly (fst q) (snd q) (map fst m) (map snd m) = Ok r /\ (r = true <-> in_or_on m q).
Proof. apply point_in_poly_ok. Qed.

Theorem nearest_point_of_segment p a b : let r := min_dist_seg p a b in
  on_edge (fst r) (a, b) /\ (snd r == distance2 p (fst r))%Q /\ forall q, on_edge q (a, b) -> (snd r <= distance2 p q)%Q.
Proof. apply min_dist_seg_ok. Qed.

Theorem bounding_box_exact d l : shows d l ->
  exists b, bd_box d = Ok b /\ (points l <> [] -> smallest_box (points l) b).
Proof.
  intros S. destruct (points l) as [|p r] eqn:E.
  - exists no_box. split; [now apply (bd_box_none d l)|congruence].
  - destruct (bd_box_ok d l S) as (b & B & Sm); [rewrite E; discriminate|]. exists b. rewrite E in Sm. auto.
Qed.
Theorem bounding_boxes_exact d l : shows d l ->
  exists bs, bd_boxes d = Ok bs /\ len bs = len l /\ Forall2 (fun g b => full g = true -> smallest_box (verts g) b) l bs.
Proof.
  intros S. destruct (bd_boxes_ok d l S) as (bs & E & F). exists bs. split; auto. split; [unfold len; now rewrite (F2_len _ _ _ F)|].
  clear E S. induction F as [|g b l' bs' H F IH]; constructor; auto. intros G. rewrite G in H. exact H.
Qed.

(** The vertex found is the last of the nearest. *)
Theorem closest_vertex_exact d l q : shows d l ->
  exists best, find_closest_vertex d q = Ok best /\
    match best with
    | None => points l = []
    | Some (p, v, x, m) => vertex_at l p v x /\ (m == distance2 q x)%Q /\
        forall p' v' x', vertex_at l p' v' x' -> (m <= distance2 q x')%Q /\ (later p v p' v' -> m < distance2 q x')%Q
    end.
Proof.
  intros S. destruct (find_vertex_ok d l q S) as (best & E & B). exists best. split; auto. destruct best as [[[[p v] x] m]|]; cbn [best_ok] in B.
  - destruct B as (y & A & _ & -> & -> & H). split; auto. split; [apply dist2_distance|]. intros p' v' x' A'. rewrite <- !dist2_distance. apply (H p' v' x' A' I).
  - destruct (points l) as [|x r] eqn:Ep; auto. exfalso. unfold points in Ep.
    assert (Ix : In x (flat_map verts l)) by (rewrite Ep; now left). apply in_flat_map in Ix as (g & Ig & Ix). apply in_split in Ig as (l1 & l2 & ->). apply in_split in Ix as (a & b & V).
    apply (B (len l1) (len a) x); auto. exists l1, g, l2, a, b. auto.
Qed.
(** The edge found holds the nearest point of all edges, and is the last that does. *)
Theorem closest_edge_exact d l q : shows d l ->
  exists best, find_closest_edge d q = Ok best /\
    match best with
    | None => forall p v e, ~ edge_at l p v e
    | Some (p, v, x, m) => exists e, edge_at l p v e /\ on_edge x e /\ (m == distance2 q x)%Q /\
        forall p' v' e' y, edge_at l p' v' e' -> on_edge y e' -> (m <= distance2 q y)%Q /\ (later p v p' v' -> m < distance2 q y)%Q
    end.
Proof.
  intros S. destruct (find_edge_ok d l q S) as (best & E & B). exists best. split; auto. destruct best as [[[[p v] x] m]|]; cbn [best_ok] in B.
  - destruct B as (e & A & _ & -> & -> & H). exists e. destruct (min_dist_seg_ok q (fst e) (snd e)) as (O & D & _). destruct e as [e1 e2]. cbn [fst snd] in *.
    split; auto. split; auto. split; auto. intros p' v' e' y A' Oy. destruct (H p' v' e' A' I) as [H1 H2]. destruct e' as [f1 f2]. destruct (min_dist_seg_ok q f1 f2) as (_ & _ & N). cbn [fst snd] in *. specialize (N y Oy).
    split; [eapply Qle_trans; eauto|]. intros L. eapply Qlt_le_trans; [apply (H2 L)|auto].
  - intros p v e A. exact (B p v e A I).
Qed.
Theorem closest_annotation_exact d q : anno_best q (annos d) (find_closest_anno d q).
Proof. apply closest_anno_ok. Qed.

(** The edge that would close a line is found although the line is open: its
    nearest point is at distance 0 of a point far from the line drawn. *)
Theorem closest_edge_of_open_line_refuted :
  exists d g q p v x m, shows d [g] /\ shut g = false /\ find_closest_edge d q = Ok (Some (p, v, x, m)) /\ (m == 0)%Q /\
    forall a b, In (a, b) (combine (verts g) (tl (verts g))) -> ~ on_edge q (a, b).
Proof.
  exists (DPoly false [0; 0; 4]%Q [0; 4; 4]%Q [3] 1 3 [false] [[]] [[]] [] [] [] []), (Pg [(0, 0); (0, 4); (4, 4)]%Q false [] []), (2, 2)%Q.
  eexists _, _, _, _. split; [repeat split|]. split; [reflexivity|]. split; [vm_compute; reflexivity|]. split; [reflexivity|].
  intros a b [E|[E|[]]]; injection E as <- <-; intros (t & T & X & Y); cbn [fst snd between] in *; lra.
Qed.

(** Sorting only reorders, the larger polygons first, for whatever std::sort does
    with equal ones. *)
Theorem sort_orders_polygons sort cc d l : sorts sort -> shows d l ->
  exists d' l', sort_by_size sort cc d = Ok d' /\ shows d' l' /\ Permutation l l' /\ from_large_to_small l' /\ same_annos d d'.
Proof. intros A S. destruct (sort_ok sort cc d l A S) as (d' & l' & E & S' & P & F & N & _). exists d', l'. auto. Qed.

(** With areas positive for polygons turning left: afterwards the first polygon
    turns left, and a rectangle was added only if needed and lies strictly around. *)
Theorem sort_add_outermost_turns_left sort w d l : sorts sort -> shows d l ->
  exists d' l', sort_add_rect sort true w d = Ok d' /\ shows d' l' /\ from_large_to_small l' /\ first_not_negative l' /\
    (Permutation l l' \/ exists xl yl xh yh co la,
       Permutation (Pg [(xl, yl); (xh, yl); (xh, yh); (xl, yh)] true co la :: l) l' /\
       (forall p, In p (points l) -> xl < fst p < xh /\ yl < snd p < yh)%Q /\ (xl < bxl w /\ yl < byl w /\ bxh w < xh /\ byh w < yh)%Q).
Proof. intros A S. destruct (sort_add_ok sort w d l A S) as (d' & l' & E & S' & F & _ & _ & N & X). exists d', l'. auto. Qed.

(** With areas positive for polygons turning right the rectangle added still turns
    left, so the first polygon is still a hole. *)
Theorem sort_add_other_orientation_refuted :
  exists sort w d l d', sorts sort /\ shows d l /\ sort_add_rect sort false w d = Ok d' /\ num_polys d' = 2 /\
    exists n v, vget (num_verts d') 0 = Ok n /\ signed_poly_area n (xv d') (yv d') 0 false = Ok v /\ (v < 0)%Q.
Proof.
  exists insertion_sort, (QB 0 0 10 10), (DPoly false [0; 4; 4]%Q [0; 0; 4]%Q [3] 1 3 [true] [[]] [[]] [] [] [] []), [Pg [(0, 0); (4, 0); (4, 4)]%Q true [] []].
  eexists. split; [exact insertion_sorts|]. split; [repeat split|]. split; [vm_compute; reflexivity|]. split; [reflexivity|]. eexists _, _. split; [reflexivity|]. split; [vm_compute; reflexivity|reflexivity].
Qed.

(** What is left of a line lies in the window, and its vertices are those of the
    line or lie on the border. *)
Theorem cut_line_inside msort (M : forall l, Permutation (msort l) l) l b :
  exists ps, cut_poly_line msort l b = Ok ps /\
    forall p q, In p ps -> In q p -> inside_box b q /\ (In q l \/ (fst q == bxl b \/ fst q == bxh b \/ snd q == byl b \/ snd q == byh b)%Q).
Proof. apply cut_line_ok, M. Qed.
(** A line on the border of the window lies in the window but nothing is left. *)
Theorem cut_line_keeps_border_refuted :
  exists msort l b, (forall m, Permutation (msort m) m) /\ (forall q, In q l -> inside_box b q) /\ len l = 2 /\ cut_poly_line msort l b = Ok [].
Proof.
  exists (fun m => m), [(10, 2); (10, 8)]%Q, (QB 0 0 10 10). split; [reflexivity|]. split; [|split; [reflexivity|vm_compute; reflexivity]].
  intros q [<-|[<-|[]]]; unfold inside_box; cbn [fst snd bxl bxh byl byh]; lra.
Qed.

(** The grid has a line at each multiple of the step from below the window to above. *)
Theorem grid_covers_window xl yl xh yh g co : (0 < g)%Q ->
  let x0 := Qfloor (xl / g) in let x1 := Qceiling (xh / g) in let y0 := Qfloor (yl / g) in let y1 := Qceiling (yh / g) in
  let at_ k i := (g * inject_Z k + inject_Z i * g)%Q in
  exists d, build_grid xl yl xh yh g co = Ok d /\
    shows d (map (fun i => grid_line true (at_ x0 i) (g * inject_Z y0) (g * inject_Z y1) co) (zrange 0 (x1 - x0 + 1)) ++
             map (fun i => grid_line false (at_ y0 i) (g * inject_Z x0) (g * inject_Z x1) co) (zrange 0 (y1 - y0 + 1))).
Proof. apply grid_ok. Qed.

(** ** C79: files *)

(** What is written can be read: the same vertices, colours and layers, for
    polygons that have vertices and do not repeat the first at the end; all are
    read as open and each label gets a blank. *)
Theorem file_round_trip color_of layer_of d l default : shows d l -> cloud d = false ->
  (forall g, In g l -> verts g <> [] /\ open_end (verts g) /\ color_of (col g) = col g /\ layer_of (lay g) = lay g) ->
  exists out e, write_poly d default false = Ok out /\ read_poly color_of layer_of false out = Ok e /\
    shows e (map plain l) /\ annos e = map spaced (annos d) /\ cloud e = false.
Proof. intros S C H. destruct (round_trip_ok color_of layer_of d l default S C H) as (out & e & A & B & D & F & G & _). exists out, e. auto. Qed.

(** A closed polygon is read back as open. *)
Theorem file_keeps_closed_refuted :
  exists d l out e, shows d l /\ closed d = [true] /\ write_poly d yellow false = Ok out /\ read_poly (fun c => c) (fun c => c) false out = Ok e /\ closed e = [false].
Proof.
  exists (DPoly false [0; 4; 4]%Q [0; 0; 4]%Q [3] 1 3 [true] [yellow] [[]] [] [] [] []), [Pg [(0, 0); (4, 0); (4, 4)]%Q true yellow []].
  eexists _, _. split; [repeat split|]. split; [reflexivity|]. split; [vm_compute; reflexivity|]. split; [vm_compute; reflexivity|reflexivity].
Qed.
(** A label has one more blank at its front each time. *)
Theorem file_keeps_labels_refuted :
  exists d l out e, shows d l /\ annos d = [Anno 1 2 (lit "A"%string)] /\ write_poly d yellow false = Ok out /\ read_poly (fun c => c) (fun c => c) false out = Ok e /\
    annos e = [Anno 1 2 (lit " A"%string)].
Proof.
  exists (DPoly false [0; 4; 4]%Q [0; 0; 4]%Q [3] 1 3 [true] [yellow] [[]] [Anno 1 2 (lit "A"%string)] [] [] []), [Pg [(0, 0); (4, 0); (4, 4)]%Q true yellow []].
  eexists _, _. split; [repeat split|]. split; [reflexivity|]. split; [vm_compute; reflexivity|]. split; [vm_compute; reflexivity|reflexivity].
Qed.
(** With empty lines between the polygons two are read as one. *)
Theorem file_with_empty_lines_refuted :
  exists d l out e, shows d l /\ num_polys d = 2 /\ write_poly d yellow true = Ok out /\ read_poly (fun c => c) (fun c => c) false out = Ok e /\ num_polys e = 1.
Proof.
  exists (DPoly false [0; 4; 4; 7; 8; 8]%Q [0; 0; 4; 7; 7; 8]%Q [3; 3] 2 6 [true; true] [yellow; yellow] [[]; []] [] [] [] []),
    [Pg [(0, 0); (4, 0); (4, 4)]%Q true yellow []; Pg [(7, 7); (8, 7); (8, 8)]%Q true yellow []].
  eexists _, _. split; [repeat split|]. split; [reflexivity|]. split; [vm_compute; reflexivity|]. split; [vm_compute; reflexivity|reflexivity].
Qed.
(** After the only vertex of a polygon is erased, the next polygon but one is
    written with the vertices of the one before: the first vertex is not advanced
    when a polygon without vertices is skipped. *)
Theorem file_after_emptied_polygon_refuted :
  exists d l d' out e, shows d l /\ erase_vertex d 1 0 = Ok d' /\ write_poly d' yellow false = Ok out /\ read_poly (fun c => c) (fun c => c) false out = Ok e /\
    xv d' = [0; 7]%Q /\ xv e = [0; 0]%Q.
Proof.
  exists (DPoly false [0; 4; 7]%Q [0; 5; 8]%Q [1; 1; 1] 3 3 [true; true; true] [yellow; yellow; yellow] [[]; []; []] [] [] [] []),
    [Pg [(0, 0)]%Q true yellow []; Pg [(4, 5)]%Q true yellow []; Pg [(7, 8)]%Q true yellow []].
  eexists _, _, _. split; [repeat split|]. split; [vm_compute; reflexivity|]. split; [vm_compute; reflexivity|]. split; [vm_compute; reflexivity|split; reflexivity].
Qed.

(** ** The hypotheses can be met *)

Definition tri : polygon := Pg [(0, 0); (4, 0); (4, 4)]%Q true yellow [].
Definition seg : polygon := Pg [(1, 1); (2, 5)]%Q false (lit "red"%string) (lit "1:0"%string).
Definition two : dpoly := DPoly false [0; 4; 4; 1; 2]%Q [0; 0; 4; 1; 5]%Q [3; 2] 2 5 [true; false] [yellow; lit "red"%string] [[]; lit "1:0"%string] [Anno 9 9 (lit "x"%string)] [Anno 0 0 []] [] [].
Example two_met : shows two [tri; seg].
Proof. repeat split. Qed.
Example edits_met : valid_all [EInsert 0 3 (0, 4)%Q; EErase 1 0; EChange 1 0 (3, 3)%Q; EReverseOne 0; EEraseMarked [1]; EAppend seg; EDuplicate [0; 1] 1 1; EShiftOne 3 1 1] [tri; seg].
Proof.
  cbn [valid_all valid]. split; [exists [], tri, [seg]; repeat split; cbn; lia|].
  split; [eexists [_], _, []; repeat split; cbn; lia|]. split; [eexists [_], _, []; repeat split; cbn; lia|]. split; [vm_compute; split; [discriminate|reflexivity]|]. repeat (split; [exact I|]). split; [vm_compute; split; [discriminate|reflexivity]|exact I].
Qed.
Example edits_result : exists d', perform_all [EInsert 0 3 (0, 4)%Q; EErase 1 0; EReverseOne 0] two = Ok d' /\ xv d' = [0; 4; 4; 0; 2]%Q /\ num_verts d' = [4; 1].
Proof. eexists. split; [vm_compute; reflexivity|split; reflexivity]. Qed.
Example points_met : points [tri; seg] <> [].
Proof. discriminate. Qed.
Example marks_met : NoDup [0; 1] /\ forall i, In i [0; 1] -> 0 <= i < len [tri; seg].
Proof. split; [constructor; [intros [H|[]]; discriminate H|constructor; [intros []|constructor]]|]. intros i [<-|[<-|[]]]; vm_compute; split; (discriminate || reflexivity). Qed.
Example sorts_met : sorts insertion_sort.
Proof. exact insertion_sorts. Qed.
Example order_met : sort_by_size insertion_sort true two = Ok two.
Proof. vm_compute. reflexivity. Qed.
Example in_met : point_in_poly 3 1 (map fst (verts tri)) (map snd (verts tri)) = Ok true /\ point_in_poly 1 3 (map fst (verts tri)) (map snd (verts tri)) = Ok false.
Proof. split; vm_compute; reflexivity. Qed.
Example cut_met : exists ps, cut_poly_line (fun m => m) [(1, 1); (2, 5)]%Q (QB 0 0 3 10) = Ok ps /\ ps <> [].
Proof. eexists. split; [vm_compute; reflexivity|discriminate]. Qed.
Example file_met : cloud two = false /\ forall g, In g [tri; seg] -> verts g <> [] /\ open_end (verts g) /\ (fun c : str => c) (col g) = col g.
Proof.
  split; [reflexivity|]. intros g [<-|[<-|[]]]; (split; [discriminate|]); (split; [|reflexivity]); cbn; intros [A _]; vm_compute in A; discriminate A.
Qed.
Example grid_met : (0 < 1 # 2)%Q.
Proof. reflexivity. Qed.

Print Assumptions edits_refine_list.
Print Assumptions append_polygons_adds.
Print Assumptions shift_edge_moves_ends.
Print Assumptions shift_marked_moves_marked.
Print Assumptions reverse_marked_turns_marked.
Print Assumptions append_and_shift_marks_copies.
Print Assumptions transform_moves_annotations.
Print Assumptions shift_rotate_scale.
Print Assumptions set_rectangle_shows.
Print Assumptions point_cloud_shows.
Print Assumptions transform_marked_annotations.
Print Assumptions vertex_edits_drop_vertex_labels.
Print Assumptions around_center_keeps_center.
Print Assumptions compose_applies_second_first.
Print Assumptions erase_marked_drops_polygon_labels_refuted.
Print Assumptions signed_area_exact.
Print Assumptions area_turned.
Print Assumptions area_transformed.
Print Assumptions point_in_polygon_exact.
Print Assumptions nearest_point_of_segment.
Print Assumptions bounding_box_exact.
Print Assumptions bounding_boxes_exact.
Print Assumptions closest_vertex_exact.
Print Assumptions closest_edge_exact.
Print Assumptions closest_annotation_exact.
Print Assumptions closest_edge_of_open_line_refuted.
Print Assumptions sort_orders_polygons.
Print Assumptions sort_add_outermost_turns_left.
Print Assumptions sort_add_other_orientation_refuted.
Print Assumptions cut_line_inside.
Print Assumptions cut_line_keeps_border_refuted.
Print Assumptions grid_covers_window.
Print Assumptions file_round_trip.
Print Assumptions file_keeps_closed_refuted.
Print Assumptions file_keeps_labels_refuted.
Print Assumptions file_with_empty_lines_refuted.
Print Assumptions file_after_emptied_polygon_refuted.

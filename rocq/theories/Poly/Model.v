(** Sets of polygons (src/vw/Geometry/dPoly.cc, dPoly.h) and the geometry they use
    (src/vw/Geometry/geomUtils.cc, geomUtils.h, baseUtils.h).

    Coordinates are exact rationals.  Distances are kept as their squares, which
    compare in the same way.  An access outside a vector is undefined behaviour;
    the assertions, which a release build drops, are left out.  The labels of
    vertices and polygons made by comp*Anno, the files of type pol and cnt, and
    enforce45 are left out. *)
From Coq Require Import String List Bool ZArith QArith Qround.
From Verif Require Import Lib.Base Lib.Lists Lib.Str.
From Verif Require Cut.Model.
Import ListNotations.
Local Open Scope list_scope.
Local Open Scope Q_scope.

Definition ltq (a b : Q) : bool := negb (Qle_bool b a).
Definition pt : Type := (Q * Q)%type.

(** ** Vectors *)

(* std::vector::operator[], and through a pointer to the first element *)
Definition vget {A} (l : list A) (i : Z) : res A :=
  if (i <? 0)%Z then UB OutOfBounds
  else match nth_error l (Z.to_nat i) with Some a => Ok a | None => UB OutOfBounds end.
Definition vput {A} (l : list A) (i : Z) (a : A) : res (list A) :=
  if (i <? 0)%Z || (Z.of_nat (length l) <=? i)%Z then UB OutOfBounds else Ok (upd l (Z.to_nat i) a).
(* The range of n elements from i on. *)
Definition in_vec {A} (l : list A) (i n : Z) : bool :=
  (0 <=? i)%Z && (0 <=? n)%Z && (i + n <=? Z.of_nat (length l))%Z.
Definition vslice {A} (l : list A) (i n : Z) : res (list A) :=
  if in_vec l i n then Ok (firstn (Z.to_nat n) (skipn (Z.to_nat i) l)) else UB OutOfBounds.
(* vector::erase, vector::insert and std::reverse of a range *)
Definition verase {A} (l : list A) (i n : Z) : res (list A) :=
  if in_vec l i n then Ok (firstn (Z.to_nat i) l ++ skipn (Z.to_nat (i + n)) l) else UB OutOfBounds.
Definition vinsert {A} (l : list A) (i : Z) (m : list A) : res (list A) :=
  if in_vec l i 0 then Ok (firstn (Z.to_nat i) l ++ m ++ skipn (Z.to_nat i) l) else UB OutOfBounds.
Definition vreverse {A} (l : list A) (i n : Z) : res (list A) :=
  m <- vslice l i n ;; Ok (firstn (Z.to_nat i) l ++ rev m ++ skipn (Z.to_nat (i + n)) l).

(* std::min_element, std::max_element: the value *)
Definition min_element (l : list Q) : res Q :=
  match l with [] => UB OutOfBounds | x :: l => Ok (fold_left (fun m y => if ltq y m then y else m) l x) end.
Definition max_element (l : list Q) : res Q :=
  match l with [] => UB OutOfBounds | x :: l => Ok (fold_left (fun m y => if ltq m y then y else m) l x) end.

(* baseUtils.h:63-75 eraseMarkedElements *)
Definition erase_marked {A} (vals : list A) (marks : list bool) : res (list A) :=
  r <- for_up 0 (Z.of_nat (length vals)) (fun i s =>
         m <- vget marks i ;;
         if (m : bool) then Ok s
         else v <- vget (fst s) i ;; l <- vput (fst s) (snd s) v ;; Ok (l, (snd s + 1)%Z)) (vals, 0%Z) ;;
  Ok (firstn (Z.to_nat (snd r)) (fst r)).

(** ** Geometry *)

(* geomUtils.cc:170-197 minDistFromPtToSeg; the last part is the distance squared *)
Definition min_dist_seg (p a b : pt) : pt * Q :=
  let aa := (fst b - fst a) * (fst b - fst a) + (snd b - snd a) * (snd b - snd a) in
  let bb := (fst p - fst a) * (fst b - fst a) + (snd p - snd a) * (snd b - snd a) in
  let t := if Qeq_bool aa 0 then 0 else bb / aa in
  let t := if ltq t 0 then 0 else t in
  let t := if ltq 1 t then 1 else t in
  let x := fst a + t * (fst b - fst a) in
  let y := snd a + t * (snd b - snd a) in
  ((x, y), (fst p - x) * (fst p - x) + (snd p - y) * (snd p - y)).

(* baseUtils.h distance, squared *)
Definition dist2 (p q : pt) : Q := (fst q - fst p) * (fst q - fst p) + (snd q - snd p) * (snd q - snd p).

(* geomUtils.cc:303-324 signedPolyArea on n vertices from [start] on *)
Definition signed_poly_area (n : Z) (xs ys : list Q) (start : Z) (counter_cc : bool) : res Q :=
  let sign := if counter_cc then 1 else - (1) in
  area <- for_up 0 n (fun i area =>
    let j := ((i + 1) mod n)%Z in
    xi <- vget xs (start + i)%Z ;; yi <- vget ys (start + i)%Z ;;
    xj <- vget xs (start + j)%Z ;; yj <- vget ys (start + j)%Z ;;
    x0 <- vget xs start ;; y0 <- vget ys start ;;
    Ok (area + sign * ((xi - x0) * (yj - y0) - (xj - x0) * (yi - y0)))) 0 ;;
  Ok (area / 2).

(* geomUtils.cc:499-537 isPointInPolyOrOnEdges: one edge; the answer is known, or
   the parity so far *)
Definition point_edge (x y : Q) (a b : pt) (s : bool) : bool * bool :=
  let '(a, b) := if ltq (fst b) (fst a) then (b, a) else (a, b) in
  if ltq x (fst a) || ltq (fst b) x then (false, s)
  else if Qeq_bool (fst a) (fst b) then
    let lo := if ltq (snd b) (snd a) then snd b else snd a in
    let hi := if ltq (snd a) (snd b) then snd b else snd a in
    (Qle_bool lo y && Qle_bool y hi, s)
  else
    let det := (y - snd a) * (fst b - fst a) - (x - fst a) * (snd b - snd a) in
    if Qeq_bool det 0 then (true, s)
    else (false, if ltq x (fst b) && ltq det 0 then negb s else s).
Definition point_in_poly (x y : Q) (xs ys : list Q) : res bool :=
  let n := Z.of_nat (length xs) in
  r <- for_up 0 n (fun i (s : bool * bool) =>
    if fst s then Ok s
    else
      let j := ((i + 1) mod n)%Z in
      xi <- vget xs i ;; yi <- vget ys i ;; xj <- vget xs j ;; yj <- vget ys j ;;
      Ok (point_edge x y (xi, yi) (xj, yj) (snd s))) (false, false) ;;
  Ok (fst r || snd r).

(* geomUtils.h:160-174 linTrans, applied *)
Record lin_trans := LT { a11 : Q; a12 : Q; a21 : Q; a22 : Q; lsx : Q; lsy : Q }.
Definition lt_apply (t : lin_trans) (p : pt) : pt :=
  (a11 t * fst p + a12 t * snd p + lsx t, a21 t * fst p + a22 t * snd p + lsy t).
(* geomUtils.cc:364-379 composeTransforms *)
Definition compose_transforms (p q : lin_trans) : lin_trans :=
  LT (a11 p * a11 q + a12 p * a21 q) (a11 p * a12 q + a12 p * a22 q)
     (a21 p * a11 q + a22 p * a21 q) (a21 p * a12 q + a22 p * a22 q)
     (a11 p * lsx q + a12 p * lsy q + lsx p) (a21 p * lsx q + a22 p * lsy q + lsy p).
(* geomUtils.cc:381-393 transAroundPt *)
Definition trans_around (b11 b12 b21 b22 : Q) (p : pt) : lin_trans :=
  LT b11 b12 b21 b22 (fst p - b11 * fst p - b12 * snd p) (snd p - b21 * fst p - b22 * snd p).

(** ** The set of polygons *)

(* geomUtils.h:47-57 *)
Record anno := Anno { an_x : Q; an_y : Q; an_label : str }.

(* dPoly.h:246-259 *)
Record dpoly := DPoly {
  cloud : bool; xv : list Q; yv : list Q; num_verts : list Z; num_polys : Z; total : Z;
  closed : list bool; colors : list str; layers : list str;
  annos : list anno; vert_annos : list anno; poly_annos : list anno; layer_annos : list anno }.

Definition set_pts (d : dpoly) (r : list Q * list Q) : dpoly :=
  DPoly (cloud d) (fst r) (snd r) (num_verts d) (num_polys d) (total d) (closed d) (colors d) (layers d)
        (annos d) (vert_annos d) (poly_annos d) (layer_annos d).
Definition set_counts (d : dpoly) (counts : list Z) (t : Z) : dpoly :=
  DPoly (cloud d) (xv d) (yv d) counts (num_polys d) t (closed d) (colors d) (layers d)
        (annos d) (vert_annos d) (poly_annos d) (layer_annos d).

(* dPoly.cc:42-56 reset *)
Definition reset : dpoly := DPoly false [] [] [] 0 0 [] [] [] [] [] [] [].

(* dPoly.cc:199-231 get_annoByType and set_annoByType; dPoly.h:28-30 the types *)
Inductive anno_type := FileAnno | VertAnno | PolyAnno | LayerAnno.
Definition anno_types : list anno_type := [FileAnno; VertAnno; PolyAnno; LayerAnno].
Definition get_anno (d : dpoly) (t : anno_type) : list anno :=
  match t with FileAnno => annos d | VertAnno => vert_annos d | PolyAnno => poly_annos d | LayerAnno => layer_annos d end.
Definition set_anno (d : dpoly) (t : anno_type) (l : list anno) : dpoly :=
  let w t' old := match t, t' with
                  | FileAnno, FileAnno | VertAnno, VertAnno | PolyAnno, PolyAnno | LayerAnno, LayerAnno => l
                  | _, _ => old end in
  DPoly (cloud d) (xv d) (yv d) (num_verts d) (num_polys d) (total d) (closed d) (colors d) (layers d)
        (w FileAnno (annos d)) (w VertAnno (vert_annos d)) (w PolyAnno (poly_annos d)) (w LayerAnno (layer_annos d)).
Definition move_anno (f : pt -> pt) (a : anno) : anno :=
  let q := f (an_x a, an_y a) in Anno (fst q) (snd q) (an_label a).
(* The loop over the types in shift, rotate, scale and applyTransform *)
Definition move_annos (f : pt -> pt) (d : dpoly) : dpoly :=
  fold_left (fun d t => set_anno d t (map (move_anno f) (get_anno d t))) anno_types d.

(* The first vertex of polygon p: the numbers of vertices before it are added up,
   dPoly.cc:842-845 and elsewhere *)
Definition start_of (counts : list Z) (p : Z) : res Z :=
  for_up 0 p (fun i s => n <- vget counts i ;; Ok (s + n)%Z) 0%Z.
(* The loop over the polygons with the first vertex kept along, dPoly.cc:86-90 and
   elsewhere *)
Definition each_start {S} (counts : list Z) (n : Z) (body : Z -> Z -> S -> res S) (s : S) : res S :=
  r <- for_up 0 n (fun p r =>
    start <- (if (0 <? p)%Z then n <- vget counts (p - 1)%Z ;; Ok (fst r + n)%Z else Ok (fst r)) ;;
    s <- body p start (snd r) ;; Ok (start, s)) (0%Z, s) ;;
  Ok (snd r).
Definition each_poly {S} (d : dpoly) := @each_start S (num_verts d) (num_polys d).

(* dPoly.cc:130-152 appendPolygon; the vertices are those of the two arrays from
   [start] on *)
Definition append_polygon (d : dpoly) (n : Z) (xs ys : list Q) (start : Z) (cl : bool) (col lay : str) : res dpoly :=
  if (n <=? 0)%Z then Ok d
  else
    r <- for_up 0 n (fun s r =>
           x <- vget xs (start + s)%Z ;; y <- vget ys (start + s)%Z ;; Ok (fst r ++ [x], snd r ++ [y])) (xv d, yv d) ;;
    Ok (DPoly (cloud d) (fst r) (snd r) (num_verts d ++ [n]) (num_polys d + 1) (total d + n)
              (closed d ++ [cl]) (colors d ++ [col]) (layers d ++ [lay])
              (annos d) (vert_annos d) (poly_annos d) (layer_annos d)).
(* dPoly.cc:119-128 setPolygon *)
Definition set_polygon := append_polygon reset.
(* dPoly.cc:154-162 appendRectangle *)
Definition append_rectangle (d : dpoly) (xl yl xh yh : Q) (cl : bool) (col lay : str) : res dpoly :=
  append_polygon d 4 [xl; xh; xh; xl] [yl; yl; yh; yh] 0 cl col lay.
(* dPoly.cc:164-170 setRectangle *)
Definition set_rectangle := append_rectangle reset.
(* dPoly.cc:504-534 appendPolygons; the two objects are different ones *)
Definition append_polygons (d p : dpoly) : res dpoly :=
  d <- each_poly p (fun i start d =>
         cl <- vget (closed p) i ;; col <- vget (colors p) i ;; lay <- vget (layers p) i ;; n <- vget (num_verts p) i ;;
         append_polygon d n (xv p) (yv p) start cl col lay) d ;;
  Ok (set_anno d FileAnno (annos d ++ annos p)).
(* dPoly.cc:1530-1548 set_pointCloud *)
Definition set_point_cloud (l : list pt) (col lay : str) : dpoly :=
  DPoly true (map fst l) (map snd l) (map (fun _ => 1%Z) l) (Z.of_nat (length l)) (Z.of_nat (length l))
        (map (fun _ => true) l) (map (fun _ => col) l) (map (fun _ => lay) l) [] [] [] [].

(** ** Boxes *)

Record qbox := QB { bxl : Q; byl : Q; bxh : Q; byh : Q }.
(* DBL_MAX / 4 *)
Definition big : Q := inject_Z (2 ^ 1022 - 2 ^ 969).
Definition no_box : qbox := QB big big (- big) (- big).
Definition box_of_range (xs ys : list Q) (start n : Z) : res qbox :=
  px <- vslice xs start n ;; py <- vslice ys start n ;;
  xl <- min_element px ;; yl <- min_element py ;; xh <- max_element px ;; yh <- max_element py ;;
  Ok (QB xl yl xh yh).
(* dPoly.cc:58-74 bdBox *)
Definition bd_box (d : dpoly) : res qbox :=
  if (total d <=? 0)%Z then Ok no_box else box_of_range (xv d) (yv d) 0 (total d).
(* dPoly.cc:76-106 bdBoxes *)
Definition bd_boxes (d : dpoly) : res (list qbox) :=
  each_poly d (fun p start l =>
    n <- vget (num_verts d) p ;;
    b <- (if (n <=? 0)%Z then Ok no_box else box_of_range (xv d) (yv d) start n) ;;
    Ok (l ++ [b])) [].
(* dPoly.cc:108-117 bdBoxCenter *)
Definition bd_box_center (d : dpoly) : res pt :=
  b <- bd_box d ;; Ok ((bxl b + bxh b) / 2, (byl b + byh b) / 2).

(** ** Moving vertices *)

(* The loops that replace each of n vertices from [start] on *)
Definition map_pts (f : pt -> pt) (start n : Z) (r : list Q * list Q) : res (list Q * list Q) :=
  for_up 0 n (fun v r =>
    let i := (start + v)%Z in
    x <- vget (fst r) i ;; y <- vget (snd r) i ;;
    let q := f (x, y) in
    xs <- vput (fst r) i (fst q) ;; ys <- vput (snd r) i (snd q) ;; Ok (xs, ys)) r.
Definition move_all (f : pt -> pt) (d : dpoly) : res dpoly :=
  r <- map_pts f 0 (Z.of_nat (length (xv d))) (xv d, yv d) ;; Ok (move_annos f (set_pts d r)).

Definition shift_by (sx sy : Q) (p : pt) : pt := (fst p + sx, snd p + sy).
(* dPoly.cc:327-348 shift *)
Definition shift (d : dpoly) (sx sy : Q) : res dpoly := move_all (shift_by sx sy) d.
(* dPoly.cc:350-382 rotate, with the cosine and the sine given *)
Definition rotate (d : dpoly) (c s : Q) : res dpoly := move_all (fun p => (c * fst p - s * snd p, s * fst p + c * snd p)) d.
(* dPoly.cc:384-407 scale *)
Definition scale (d : dpoly) (k : Q) : res dpoly := move_all (fun p => (fst p * k, snd p * k)) d.
(* dPoly.cc:458-488 applyTransform *)
Definition apply_transform (d : dpoly) (t : lin_trans) : res dpoly := move_all (lt_apply t) d.
(* dPoly.cc:491-502 applyTransformAroundBdBoxCenter *)
Definition apply_around_center (d : dpoly) (b11 b12 b21 b22 : Q) : res dpoly :=
  if (total d =? 0)%Z then Ok d
  else m <- bd_box_center d ;; apply_transform d (trans_around b11 b12 b21 b22 m).

(* std::map<int,int> used as a set: the keys in order *)
Definition marked (mark : list Z) (p : Z) : bool := existsb (Z.eqb p) mark.

(* dPoly.cc:409-429 transformMarkedPolys *)
Definition transform_marked_polys (d : dpoly) (mark : list Z) (t : lin_trans) : res dpoly :=
  r <- each_poly d (fun p start r =>
         if negb (marked mark p) then Ok r
         else n <- vget (num_verts d) p ;; map_pts (lt_apply t) start n r) (xv d, yv d) ;;
  Ok (set_anno (set_pts d r) VertAnno []).
(* dPoly.cc:431-442 transformMarkedAnnos *)
Definition transform_marked_annos (d : dpoly) (mark : list Z) (t : lin_trans) : res dpoly :=
  l <- for_up 0 (Z.of_nat (length (annos d))) (fun i l =>
         if negb (marked mark i) then Ok l
         else a <- vget l i ;; vput l i (move_anno (lt_apply t) a)) (annos d) ;;
  Ok (set_anno d FileAnno l).

(* dPoly.cc:836-857 insertVertex *)
Definition insert_vertex (d : dpoly) (p v : Z) (q : pt) : res dpoly :=
  start <- start_of (num_verts d) p ;;
  xs <- vinsert (xv d) (start + v) [fst q] ;; ys <- vinsert (yv d) (start + v) [snd q] ;;
  n <- vget (num_verts d) p ;; counts <- vput (num_verts d) p (n + 1)%Z ;;
  Ok (set_anno (set_counts (set_pts d (xs, ys)) counts (total d + 1)) VertAnno []).
(* dPoly.cc:859-879 eraseVertex *)
Definition erase_vertex (d : dpoly) (p v : Z) : res dpoly :=
  start <- start_of (num_verts d) p ;;
  xs <- verase (xv d) (start + v) 1 ;; ys <- verase (yv d) (start + v) 1 ;;
  n <- vget (num_verts d) p ;; counts <- vput (num_verts d) p (n - 1)%Z ;;
  Ok (set_anno (set_counts (set_pts d (xs, ys)) counts (total d - 1)) VertAnno []).
(* dPoly.cc:881-897 changeVertexValue *)
Definition change_vertex (d : dpoly) (p v : Z) (q : pt) : res dpoly :=
  start <- start_of (num_verts d) p ;;
  xs <- vput (xv d) (start + v) (fst q) ;; ys <- vput (yv d) (start + v) (snd q) ;;
  Ok (set_anno (set_pts d (xs, ys)) VertAnno []).
(* dPoly.cc:899-922 shiftEdge *)
Definition shift_edge (d : dpoly) (p v : Z) (sx sy : Q) : res dpoly :=
  start <- start_of (num_verts d) p ;;
  r <- map_pts (shift_by sx sy) (start + v) 1 (xv d, yv d) ;;
  n <- vget (num_verts d) p ;;
  r <- (if (n <=? 1)%Z then Ok r else map_pts (shift_by sx sy) (start + (v + 1) mod n) 1 r) ;;
  Ok (set_anno (set_pts d r) VertAnno []).
(* dPoly.cc:924-941 shiftOnePoly *)
Definition shift_one_poly (d : dpoly) (p : Z) (sx sy : Q) : res dpoly :=
  start <- start_of (num_verts d) p ;;
  n <- vget (num_verts d) p ;;
  r <- map_pts (shift_by sx sy) start n (xv d, yv d) ;;
  Ok (set_anno (set_pts d r) VertAnno []).
(* dPoly.cc:955-961 shiftMarkedPolys *)
Fixpoint shift_marked_polys (d : dpoly) (mark : list Z) (sx sy : Q) : res dpoly :=
  match mark with [] => Ok d | p :: mark => d <- shift_one_poly d p sx sy ;; shift_marked_polys d mark sx sy end.

(* dPoly.cc:1036-1046 reverse *)
Definition reverse (d : dpoly) : res dpoly :=
  r <- each_poly d (fun p start r =>
         n <- vget (num_verts d) p ;;
         xs <- vreverse (fst r) start n ;; ys <- vreverse (snd r) start n ;; Ok (xs, ys)) (xv d, yv d) ;;
  Ok (set_pts d r).
(* dPoly.cc:1048-1061 reverseOnePoly *)
Definition reverse_one_poly (d : dpoly) (p : Z) : res dpoly :=
  start <- start_of (num_verts d) p ;;
  n <- vget (num_verts d) p ;;
  xs <- vreverse (xv d) start n ;; ys <- vreverse (yv d) start n ;;
  Ok (set_pts d (xs, ys)).
(* dPoly.cc:971-977 reverseMarkedPolys *)
Fixpoint reverse_marked_polys (d : dpoly) (mark : list Z) : res dpoly :=
  match mark with [] => Ok d | p :: mark => d <- reverse_one_poly d p ;; reverse_marked_polys d mark end.

(** ** Taking polygons out and putting them in *)

(* dPoly.cc:991-1014 extractOnePoly, with the first vertex given or added up *)
Definition extract_one_poly (d : dpoly) (p : Z) (start : option Z) : res dpoly :=
  start <- match start with Some s => Ok s | None => start_of (num_verts d) p end ;;
  n <- vget (num_verts d) p ;; cl <- vget (closed d) p ;; col <- vget (colors d) p ;; lay <- vget (layers d) p ;;
  set_polygon n (xv d) (yv d) start cl col lay.
(* dPoly.cc:979-989 get_startingIndices *)
Definition starting_indices (d : dpoly) : res (list Z) :=
  r <- for_up 0 (num_polys d) (fun p r =>
         n <- vget (num_verts d) p ;; Ok ((fst r + n)%Z, snd r ++ [(fst r + n)%Z])) (0%Z, [0%Z]) ;;
  Ok (snd r).
(* dPoly.cc:1016-1033 extractMarkedPolys *)
Definition extract_marked_polys (d : dpoly) (mark : list Z) : res dpoly :=
  ids <- starting_indices d ;;
  for_up 0 (num_polys d) (fun p out =>
    if negb (marked mark p) then Ok out
    else s <- vget ids p ;; q <- extract_one_poly d p (Some s) ;; append_polygons out q) reset.
(* dPoly.cc:1645-1665 replaceOnePoly *)
Definition replace_one_poly (d : dpoly) (p : Z) (l : list pt) : res dpoly :=
  start <- start_of (num_verts d) p ;;
  n <- vget (num_verts d) p ;;
  xs <- verase (xv d) start n ;; ys <- verase (yv d) start n ;;
  xs <- vinsert xs start (map fst l) ;; ys <- vinsert ys start (map snd l) ;;
  counts <- vput (num_verts d) p (Z.of_nat (length l)) ;;
  Ok (set_anno (set_anno (set_counts (set_pts d (xs, ys)) counts (Z.of_nat (length xs))) VertAnno []) LayerAnno []).
(* dPoly.cc:1667-1700 eraseMarkedPolys *)
Definition erase_marked_polys (d : dpoly) (mark : list Z) : res dpoly :=
  ms <- each_poly d (fun p start ms =>
          if negb (marked mark p) then Ok ms
          else
            im <- vput (snd ms) p true ;;
            n <- vget (num_verts d) p ;;
            dm <- for_up 0 n (fun v dm => vput dm (start + v)%Z true) (fst ms) ;;
            Ok (dm, im)) (repeat false (Z.to_nat (total d)), repeat false (Z.to_nat (num_polys d))) ;;
  xs <- erase_marked (xv d) (fst ms) ;; ys <- erase_marked (yv d) (fst ms) ;;
  cl <- erase_marked (closed d) (snd ms) ;; col <- erase_marked (colors d) (snd ms) ;;
  lay <- erase_marked (layers d) (snd ms) ;; counts <- erase_marked (num_verts d) (snd ms) ;;
  Ok (DPoly (cloud d) xs ys counts (Z.of_nat (length counts)) (Z.of_nat (length xs)) cl col lay
            (annos d) [] (poly_annos d) []).
(* dPoly.cc:825-834 eraseOnePoly *)
Definition erase_one_poly (d : dpoly) (p : Z) : res dpoly := erase_marked_polys d [p].
(* dPoly.cc:1730-1748 appendAndShiftMarkedPolys: the new set and the new marks *)
Definition append_and_shift_marked (d : dpoly) (mark : list Z) (sx sy : Q) : res (dpoly * list Z) :=
  q <- extract_marked_polys d mark ;; q <- shift q sx sy ;;
  e <- append_polygons d q ;;
  Ok (e, zrange (num_polys d) (num_polys e)).

(** ** Searches *)

(* dPoly.cc:742-773 findClosestPolyVertex: the polygon, the vertex and the squared
   distance; nothing stands for the indices -1 *)
Definition find_closest_vertex (d : dpoly) (q : pt) : res (option (Z * Z * pt * Q)) :=
  each_poly d (fun p start best =>
    n <- vget (num_verts d) p ;;
    for_up 0 n (fun v best =>
      x <- vget (xv d) (start + v)%Z ;; y <- vget (yv d) (start + v)%Z ;;
      let dist := dist2 q (x, y) in
      match best with
      | Some (_, _, _, m) => if Qle_bool dist m then Ok (Some (p, v, (x, y), dist)) else Ok best
      | None => Ok (Some (p, v, (x, y), dist))
      end) best) None.
(* dPoly.cc:780-823 findClosestPolyEdge *)
Definition find_closest_edge (d : dpoly) (q : pt) : res (option (Z * Z * pt * Q)) :=
  each_poly d (fun p start best =>
    n <- vget (num_verts d) p ;;
    for_up 0 n (fun v best =>
      let j := (start + (v + 1) mod n)%Z in
      bx <- vget (xv d) (start + v)%Z ;; by_ <- vget (yv d) (start + v)%Z ;; ex <- vget (xv d) j ;; ey <- vget (yv d) j ;;
      let r := min_dist_seg q (bx, by_) (ex, ey) in
      match best with
      | Some (_, _, _, m) => if Qle_bool (snd r) m then Ok (Some (p, v, fst r, snd r)) else Ok best
      | None => Ok (Some (p, v, fst r, snd r))
      end) best) None.
(* dPoly.cc:711-735 findClosestAnnotation *)
Definition find_closest_anno (d : dpoly) (q : pt) : option (Z * Q) :=
  snd (fold_left (fun s a =>
    let dist := dist2 q (an_x a, an_y a) in
    ((fst s + 1)%Z,
     match snd s with
     | Some (_, m) => if Qle_bool dist m then Some (fst s, dist) else snd s
     | None => Some (fst s, dist)
     end)) (annos d) (0%Z, None)).

(** ** Sorting by size *)

(* dPoly.cc:1063-1077 ptAndIndex and its order; geomUtils.h:43-45 greaterThan *)
Record entry := Entry { e_w : Q; e_h : Q; e_area : Q; e_index : Z }.
Definition greater_pt (a b : entry) : bool := ltq (e_w b) (e_w a) || (Qeq_bool (e_w a) (e_w b) && ltq (e_h b) (e_h a)).
Definition greater_entry (a b : entry) : bool :=
  if greater_pt a b then true else if greater_pt b a then false else ltq (e_area b) (e_area a).

Definition qabs (q : Q) : Q := if ltq q 0 then - q else q.

(* dPoly.cc:1079-1145 sortFromLargestToSmallest; std::sort is any function here *)
Definition sort_by_size (sort : list entry -> list entry) (cc : bool) (d : dpoly) : res dpoly :=
  boxes <- bd_boxes d ;;
  let numPolys := Z.of_nat (length boxes) in
  dims <- each_start (num_verts d) numPolys (fun s start dims =>
    n <- vget (num_verts d) s ;; b <- vget boxes s ;;
    area <- signed_poly_area n (xv d) (yv d) start cc ;;
    Ok (dims ++ [Entry (bxh b - bxl b) (byh b - byl b) (qabs area) s])) [] ;;
  let dims := sort dims in
  t <- for_up 0 numPolys (fun s (t : list Z * list bool * (list str * list str)) =>
    let '(counts, cl, (col, lay)) := t in
    e <- vget dims s ;; let i := e_index e in
    n <- vget (num_verts d) i ;; counts <- vput counts s n ;;
    c <- vget (closed d) i ;; cl <- vput cl s c ;;
    k <- vget (colors d) i ;; col <- vput col s k ;;
    l <- vget (layers d) i ;; lay <- vput lay s l ;;
    Ok (counts, cl, (col, lay))) (num_verts d, closed d, (colors d, layers d)) ;;
  let '(counts, cl, (col, lay)) := t in
  r <- each_start counts numPolys (fun s start r =>
    e <- vget dims s ;;
    start2 <- start_of (num_verts d) (e_index e) ;;
    n <- vget counts s ;;
    for_up 0 n (fun v pts =>
      x <- vget (xv d) (start2 + v)%Z ;; xs <- vput (fst pts) (start + v)%Z x ;;
      y <- vget (yv d) (start2 + v)%Z ;; ys <- vput (snd pts) (start + v)%Z y ;; Ok (xs, ys)) r) (xv d, yv d) ;;
  Ok (DPoly (cloud d) (fst r) (snd r) counts (num_polys d) (total d) cl col lay
            (annos d) (vert_annos d) (poly_annos d) (layer_annos d)).

Definition minq (a b : Q) : Q := if ltq b a then b else a.
Definition maxq (a b : Q) : Q := if ltq a b then b else a.
(* dPoly.cc:1147-1190 sortBySizeAndMaybeAddBigContainingRect *)
Definition sort_add_rect (sort : list entry -> list entry) (cc : bool) (w : qbox) (d : dpoly) : res dpoly :=
  d <- sort_by_size sort cc d ;;
  if (num_polys d <=? 0)%Z then Ok d
  else
    n <- vget (num_verts d) 0 ;;
    area <- signed_poly_area n (xv d) (yv d) 0 cc ;;
    if Qle_bool 0 area then Ok d
    else
      b <- bd_box d ;;
      let xl := minq (bxl b) (bxl w) in let xh := maxq (bxh b) (bxh w) in
      let yl := minq (byl b) (byl w) in let yh := maxq (byh b) (byh w) in
      let extra := maxq (qabs (xh - xl)) (qabs (yh - yl)) + 10 in
      col <- vget (colors d) 0 ;; lay <- vget (layers d) 0 ;;
      d <- append_rectangle d (xl - extra) (yl - extra) (xh + extra) (yh + extra) true col lay ;;
      sort_by_size sort cc d.

(** ** Cutting to a window *)

(* cutPoly.cc:30-85 cutPolyLine; [msort] is the sort inside cutPoly (Cut/) *)
Definition cut_poly_line (msort : list Cut.Model.mark -> list Cut.Model.mark) (l : list pt) (b : qbox) : res (list (list pt)) :=
  let ll := l ++ rev l in
  c <- Cut.Model.cut_poly msort [length ll] ll (bxl b) (byl b) (bxh b) (byh b) ;;
  r <- for_up 0 (Z.of_nat (length (snd c))) (fun p r =>
    start <- (if (0 <? p)%Z then n <- vget (snd c) (p - 1)%Z ;; Ok (fst r + Z.of_nat n)%Z else Ok (fst r)) ;;
    n <- vget (snd c) p ;;
    piece <- vslice (fst c) start (Z.of_nat n / 2) ;;
    Ok (start, snd r ++ [piece])) (0%Z, []) ;;
  Ok (snd r).

(** ** Files *)

(* A line of a file: a colour, a vertex with the text of its layer (empty if
   none), an annotation with all the text after its coordinates, the separator,
   or an empty line.  How numbers are printed and read is left out. *)
Inductive line := LColor (c : str) | LVert (x y : Q) (lay : str) | LAnno (x y : Q) (rest : str) | LNext | LBlank.

Definition blank : Ascii.ascii := Ascii.Ascii false false false false false true false false.
(* geomUtils.h:53-55 anno::appendTo: a blank comes before the label *)
Definition anno_line (a : anno) : line := LAnno (an_x a) (an_y a) (blank :: an_label a).

(* dPoly.cc:1354-1423 writePoly: the state is the first vertex, the number of
   annotations written, the colour and the one before, and the lines *)
Definition write_poly (d : dpoly) (default : str) (empty_sep : bool) : res (list line) :=
  r <- for_up 0 (num_polys d) (fun p (s : Z * Z * str * list line) =>
    let '(start, count, prev, out) := s in
    n <- vget (num_verts d) p ;;
    if (n <=? 0)%Z then Ok s
    else
      start <- (if (0 <? p)%Z then m <- vget (num_verts d) (p - 1)%Z ;; Ok (start + m)%Z else Ok start) ;;
      color <- vget (colors d) p ;;
      let out := if negb (str_eqb color prev) || (p =? 0)%Z then out ++ [LColor color] else out in
      layer <- vget (layers d) p ;;
      s <- for_up 0 n (fun v (s : Z * list line) =>
        x <- vget (xv d) (start + v)%Z ;; y <- vget (yv d) (start + v)%Z ;;
        let out := snd s ++ [LVert x y layer] in
        match nth_error (annos d) (Z.to_nat (fst s)) with
        | Some a => Ok ((fst s + 1)%Z, out ++ [anno_line a])
        | None => Ok (fst s, out)
        end) (count, out) ;;
      let out := if cloud d then snd s else snd s ++ [if empty_sep then LBlank else LNext] in
      Ok (start, fst s, color, out)) (0%Z, 0%Z, default, []) ;;
  let '(_, count, _, out) := r in
  Ok (out ++ map anno_line (skipn (Z.to_nat count) (annos d))).

(* dPoly.cc:1215-1340 readPoly: the state of the loop over the lines *)
Record reader := Reader { r_xs : list Q; r_ys : list Q; r_beg : Z; r_layer : str; r_color : str;
  r_counts : list Z; r_closed : list bool; r_colors : list str; r_layers : list str; r_annos : list anno }.
Definition yellow : str := lit "yellow"%string.

(* dPoly.cc:1300-1334: the end of a polygon *)
Definition finish (r : reader) : res reader :=
  let n := Z.of_nat (length (r_xs r)) in
  if (r_beg r <? n)%Z then
    shut <- (if (r_beg r <? n - 1)%Z then
               xb <- vget (r_xs r) (r_beg r) ;; xe <- vget (r_xs r) (n - 1)%Z ;;
               yb <- vget (r_ys r) (r_beg r) ;; ye <- vget (r_ys r) (n - 1)%Z ;;
               Ok (Qeq_bool xb xe && Qeq_bool yb ye)
             else Ok false) ;;
    let n := if (shut : bool) then (n - 1)%Z else n in
    Ok (Reader (firstn (Z.to_nat n) (r_xs r)) (firstn (Z.to_nat n) (r_ys r)) n (r_layer r) (r_color r)
               (r_counts r ++ [(n - r_beg r)%Z]) (r_closed r ++ [shut]) (r_colors r ++ [r_color r]) (r_layers r ++ [r_layer r]) (r_annos r))
  else Ok r.

Section Read.
(* What searchForColor makes of a colour in small letters (geomUtils.cc:199-248)
   and searchForLayer of the text of a layer (geomUtils.cc:273-301). *)
Variables color_of layer_of : str -> str.

Definition read_line (is_cloud : bool) (ln : line) (is_last : bool) (r : reader) : res reader :=
  let r := match ln with
           | LColor c => Reader (r_xs r) (r_ys r) (r_beg r) (r_layer r) (color_of c) (r_counts r) (r_closed r) (r_colors r) (r_layers r) (r_annos r)
           | LAnno x y rest => Reader (r_xs r) (r_ys r) (r_beg r) (r_layer r) (r_color r) (r_counts r) (r_closed r) (r_colors r) (r_layers r) (r_annos r ++ [Anno x y rest])
           | LVert x y lay =>
               let xs := r_xs r ++ [x] in
               Reader xs (r_ys r ++ [y]) (r_beg r) (if (Z.of_nat (length xs) =? r_beg r + 1)%Z then layer_of lay else r_layer r) (r_color r)
                      (r_counts r) (r_closed r) (r_colors r) (r_layers r) (r_annos r)
           | LNext | LBlank => r
           end in
  if is_last || match ln with LNext => true | _ => false end || is_cloud then finish r else Ok r.

Fixpoint read_lines (is_cloud : bool) (l : list line) (r : reader) : res reader :=
  match l with
  | [] => Ok r
  | ln :: l => r <- read_line is_cloud ln (match l with [] => true | _ => false end) r ;; read_lines is_cloud l r
  end.

Definition read_poly (is_cloud : bool) (l : list line) : res dpoly :=
  r <- read_lines is_cloud l (Reader [] [] 0 [] yellow [] [] [] [] []) ;;
  Ok (DPoly is_cloud (r_xs r) (r_ys r) (r_counts r) (Z.of_nat (length (r_counts r)))
            (match r_counts r with [] => 0%Z | _ => r_beg r end) (r_closed r) (r_colors r) (r_layers r) (r_annos r) [] [] []).
End Read.

(** ** Grid *)

(* dPoly.cc:1550-1585 buildGrid *)
Definition build_grid (xl yl xh yh g : Q) (col : str) : res dpoly :=
  if Qle_bool g 0 then Ok reset
  else
    let xl := g * inject_Z (Qfloor (xl / g)) in let xh := g * inject_Z (Qceiling (xh / g)) in
    let yl := g * inject_Z (Qfloor (yl / g)) in let yh := g * inject_Z (Qceiling (yh / g)) in
    let nx := Qceiling ((xh - xl) / g) in let ny := Qceiling ((yh - yl) / g) in
    d <- for_up 0 (nx + 1) (fun i d => append_rectangle d (xl + inject_Z i * g) yl (xl + inject_Z i * g) yh true col []) reset ;;
    for_up 0 (ny + 1) (fun i d => append_rectangle d xl (yl + inject_Z i * g) xh (yl + inject_Z i * g) true col []) d.

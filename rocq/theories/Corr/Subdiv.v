(* Model of the subdivision of the search: subdivide_regions, src/vw/Stereo/Correlation.cc
   139-328, and EWMinMaxAccumulator, src/vw/Image/Statistics.h 193-224.

   A disparity is None where the pixel is masked.  The number of calls is bounded by
   [fuel]. *)
From Coq Require Import ZArith List Lia Bool.
From Verif Require Import Lib.Base Lib.Img BBox.Box2.
Import ListNotations.
Local Open Scope Z_scope.

Notation disparities := (img (option (Z * Z))).
Notation range := (option ((Z * Z) * (Z * Z))).

(* Statistics.h:199-211, for each of the two channels *)
Definition ew1 (v mn mx : Z) : Z * Z := if v <? mn then (v, mx) else if v >? mx then (mn, v) else (mn, mx).
Definition ew_add (v : Z * Z) (a : range) : range :=
  match a with
  | None => Some (v, v)
  | Some (mn, mx) =>
      let x := ew1 (fst v) (fst mn) (fst mx) in
      let y := ew1 (snd v) (snd mn) (snd mx) in
      Some ((fst x, fst y), (snd x, snd y))
  end.

(* for_each_pixel( crop(disparity, b), accumulator ): masked pixels are skipped *)
Definition min_max (D : disparities) (b : box) : res range :=
  for_up (y0 b) (y1 b) (fun y a => for_up (x0 b) (x1 b) (fun x a =>
    p <- get D x y ;; Ok (match p with None => a | Some v => ew_add v a end)) a) None.

(* BBox2i(accumulator.minimum(), accumulator.maximum() + Vector2i(1,1)) *)
Definition search_box (mn mx : Z * Z) : box := Box (fst mn) (snd mn) (fst mx + 1) (snd mx + 1).

(* Correlation.cc:180-215: the search range of one quadrant *)
Definition quad_search (D : disparities) (q : box) : res box :=
  a <- min_max D q ;; Ok (match a with None => box_default | Some (mn, mx) => search_box mn mx end).

(* BBox.tcc operator== *)
Definition beq (a b : box) : bool :=
  (x0 a =? x0 b) && (y0 a =? y0 b) && (x1 a =? x1 b) && (y1 a =? y1 b).
(* BBox.tcc:80-106 grow(bbox) *)
Definition bgrow (a b : box) : box :=
  if bempty b then a else
  Box (Z.min (Z.min (x0 a) (x0 b)) (x1 b)) (Z.min (Z.min (y0 a) (y0 b)) (y1 b))
      (Z.max (Z.max (x1 a) (x0 b)) (x1 b)) (Z.max (Z.max (y1 a) (y0 b)) (y1 b)).

(* Correlation.cc:222-236 *)
Definition hull_step (cur q : box) : box :=
  if negb (beq q box_default) && beq cur box_default then q else bgrow cur q.
Definition search_hull (s1 s2 s3 s4 : box) : box :=
  hull_step (hull_step (hull_step (if negb (beq s1 box_default) then s1 else box_default) s2) s3) s4.

(* BBox.tcc:191-197 area() *)
Definition area2 (b : box) : Z := if bempty b then 0 else (x1 b - x0 b) * (y1 b - y0 b).
(* prod(q.size() + kernel_size) *)
Definition work (q : box) (kx ky : Z) : Z := (x1 q - x0 q + kx) * (y1 q - y0 q + ky).

(* SearchParam: image region and disparity range *)
Notation search_param := (box * box)%type.

(* Correlation.cc:266-271, 276-281, 286-291, 302-307 *)
Definition can_merge (a b : search_param) : bool :=
  ((x0 (fst a) =? x0 (fst b)) || (y0 (fst a) =? y0 (fst b))) && beq (snd a) (snd b).
Definition merge (a b : search_param) : search_param := (bgrow (fst a) (fst b), snd a).

(* Correlation.cc:256-315: what becomes of the quadrants that could not be split *)
Definition add_failed (cur : search_param) (failed : list search_param) : list search_param :=
  match failed with
  | [_; _; _; _] => [cur]
  | [a; b; c] =>
      if can_merge a b then [merge a b; c]
      else if can_merge b c then [merge b c; a]
      else if can_merge a c then [merge a c; b]
      else failed
  | [a; b] => if can_merge a b then [merge a b] else failed
  | _ => failed
  end.

Section Subdivide.
(* The test "split_search > current_search*IMPROVEMENT_RATIO" of lines 242 and 317, in which
   the operands are int32 and may overflow: any function of the two amounts of work. *)
Variable worse : Z -> Z -> bool.
Variables (D : disparities) (kx ky : Z).

(* Correlation.cc:166-172 *)
Definition quads (b : box) : box * box * box * box :=
  let sx := Z.quot (x1 b - x0 b) 2 in
  let sy := Z.quot (y1 b - y0 b) 2 in
  (Box (x0 b) (y0 b) (x0 b + sx) (y0 b + sy),
   Box (x0 b + sx) (y0 b) (x1 b) (y0 b + sy),
   Box (x0 b) (y0 b + sy) (x0 b + sx) (y1 b),
   Box (x0 b + sx) (y0 b + sy) (x1 b) (y1 b)).

(* Correlation.cc:139-328; [out] is the list filled so far *)
Fixpoint subdivide (fuel : nat) (b : box) (out : list search_param) (fail_count : Z) : res (bool * list search_param) :=
  match fuel with
  | O => UB NoTerm
  | S fuel =>
      if ((x1 b - x0 b) * (y1 b - y0 b) <=? 200) || (bw b <? 16) || (bh b <? 16) then
        let expanded := bcrop (bexpand b 1) (Box 0 0 (icols D) (irows D)) in
        a <- min_max D expanded ;;
        match a with
        | None => Ok (true, out)
        | Some (mn, mx) => Ok (true, out ++ [(b, search_box mn mx)])
        end
      else
        let '(q1, q2, q3, q4) := quads b in
        s1 <- quad_search D q1 ;; s2 <- quad_search D q2 ;;
        s3 <- quad_search D q3 ;; s4 <- quad_search D q4 ;;
        let split := area2 s1 * work q1 kx ky + area2 s2 * work q2 kx ky
                     + area2 s3 * work q3 kx ky + area2 s4 * work q4 kx ky in
        let cur := search_hull s1 s2 s3 s4 in
        let current := area2 cur * work b kx ky in
        if worse split current && (fail_count =? 0) then
          '(o1, out) <- subdivide fuel q1 out (fail_count + 1) ;;
          '(o2, out) <- subdivide fuel q2 out (fail_count + 1) ;;
          '(o3, out) <- subdivide fuel q3 out (fail_count + 1) ;;
          '(o4, out) <- subdivide fuel q4 out (fail_count + 1) ;;
          let failed := (if o1 : bool then [] else [(q1, s1)]) ++ (if o2 : bool then [] else [(q2, s2)])
                     ++ (if o3 : bool then [] else [(q3, s3)]) ++ (if o4 : bool then [] else [(q4, s4)]) in
          Ok (true, out ++ add_failed (b, cur) failed)
        else if worse split current && (0 <? fail_count) then Ok (false, out)
        else
          '(_, out) <- subdivide fuel q1 out 0 ;;
          '(_, out) <- subdivide fuel q2 out 0 ;;
          '(_, out) <- subdivide fuel q3 out 0 ;;
          '(_, out) <- subdivide fuel q4 out 0 ;;
          Ok (true, out)
  end.
End Subdivide.

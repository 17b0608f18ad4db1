(** Cutting polygons to a window, and tests whether edges meet a box:
    src/vw/Geometry/cutPoly.cc and src/vw/Geometry/edgeUtils.cc.

    Simplifications: coordinates are rationals and the arithmetic is exact; the
    arrays of x and y are one list of points.  cutPolyLine is left out. *)
From Coq Require Import List ZArith QArith Bool.
From Verif Require Import Lib.Base Lib.Lists.
Import ListNotations.
Open Scope Q_scope.

Definition pt : Type := Q * Q.
Definition ltq (a b : Q) : bool := negb (Qle_bool b a).
(** std::max and std::min. *)
Definition maxq (a b : Q) : Q := if ltq a b then b else a.
Definition minq (a b : Q) : Q := if ltq b a then b else a.

(** ** Edges *)

(** edgeUtils.cc 179-221: cutEdge; the callers see to dot0 != dot1. *)
Definition cut_edge (p0 p1 : pt) (nx ny H : Q) : pt :=
  let '(x0, y0) := p0 in
  let '(x1, y1) := p1 in
  let dot0 := nx * x0 + ny * y0 in
  let dot1 := nx * x1 + ny * y1 in
  let t := minq (maxq ((H - dot0) / (dot1 - dot0)) 0) 1 in
  let cutx := (1 - t) * x0 + t * x1 in
  let cuty := (1 - t) * y0 + t * y1 in
  let t := minq (maxq ((H - dot1) / (dot0 - dot1)) 0) 1 in
  let cutx2 := (1 - t) * x1 + t * x0 in
  let cuty2 := (1 - t) * y1 + t * y0 in
  let cutx := (1 # 2) * cutx + (1 # 2) * cutx2 in
  let cuty := (1 # 2) * cuty + (1 # 2) * cuty2 in
  if Qeq_bool nx 0 then (cutx, H / ny)
  else if Qeq_bool ny 0 then (H / nx, cuty)
  else (cutx, cuty).

(** edgeUtils.cc 57-90: edgeIntersectsHorizontalEdge. *)
Definition edge_meets_horizontal (x0 y0 x1 y1 begx endx yval : Q) : bool :=
  if ltq yval y0 && ltq yval y1 then false
  else if ltq y0 yval && ltq y1 yval then false
  else
    let diff := y1 - y0 in
    if Qeq_bool diff 0 then Qle_bool (maxq (minq x0 x1) (minq begx endx)) (minq (maxq x0 x1) (maxq begx endx))
    else
      let det_beg := (begx - x0) * (y1 - y0) - (yval - y0) * (x1 - x0) in
      let det_end := (endx - x0) * (y1 - y0) - (yval - y0) * (x1 - x0) in
      if ltq 0 det_beg && ltq 0 det_end then false
      else if ltq det_beg 0 && ltq det_end 0 then false
      else true.

(** edgeUtils.cc 28-55: edgeIntersectsBox. *)
Definition edge_meets_box (bx by_ ex ey xl yl xh yh : Q) : bool :=
  if ltq xh bx && ltq xh ex then false
  else if ltq bx xl && ltq ex xl then false
  else if ltq yh by_ && ltq yh ey then false
  else if ltq by_ yl && ltq ey yl then false
  else if Qle_bool xl bx && Qle_bool bx xh && Qle_bool yl by_ && Qle_bool by_ yh then true
  else if Qle_bool xl ex && Qle_bool ex xh && Qle_bool yl ey && Qle_bool ey yh then true
  else if edge_meets_horizontal bx by_ ex ey xl xh yl then true
  else if edge_meets_horizontal bx by_ ex ey xl xh yh then true
  else if edge_meets_horizontal by_ bx ey ex yl yh xl then true
  else if edge_meets_horizontal by_ bx ey ex yl yh xh then true
  else false.

(** ** A half-plane *)

(** cutPoly.h 32-37: a point on the cutting line; nextIndexInward is -1 until set. *)
Record mark := Mark { mval : Q; mindex : nat; mout : bool; mnext : Z }.

Section Half.
(** The cutting line is nx * x + ny * y = H. *)
Variables nx ny H : Q.
Definition dot (p : pt) : Q := nx * fst p + ny * snd p.
Definition along (p : pt) : Q := nx * snd p - ny * fst p.

(** cutPoly.cc 162-236: what a vertex gives; the index is the number of points
    before. *)
Definition half_step (prev curr next : pt) (s : list pt * list mark) : list pt * list mark :=
  let '(cut, marks) := s in
  if ltq (dot curr) H then
    let cut := cut ++ [curr] in
    if Qle_bool (dot next) H then (cut, marks) else
    let c := cut_edge curr next nx ny H in
    (cut ++ [c], marks ++ [Mark (along c) (length cut) true (-1)])
  else if ltq H (dot curr) then
    if Qle_bool H (dot next) then (cut, marks) else
    let c := cut_edge curr next nx ny H in
    (cut ++ [c], marks ++ [Mark (along c) (length cut) false (-1)])
  else
    if Qle_bool H (dot prev) && Qle_bool H (dot next) then (cut, marks) else
    (cut ++ [curr],
     if Qle_bool H (dot prev) || Qle_bool H (dot next)
     then marks ++ [Mark (along curr) (length cut) (ltq (dot prev) H) (-1)] else marks).

(** cutPoly.cc 160-236: the vertices in turn; the one after the last is the first,
    and the one before the first is the last. *)
Fixpoint half_loop (first prev : pt) (l : list pt) (s : list pt * list mark) : list pt * list mark :=
  match l with
  | [] => s
  | curr :: l' =>
      let next := match l' with [] => first | n :: _ => n end in
      half_loop first curr l' (half_step prev curr next s)
  end.

(** cutPoly.cc 397-441: processPointsOnCutline after the sort: the i-th outward
    point gets the index of the i-th inward one. *)
Fixpoint set_next (inward : list nat) (marks : list mark) : res (list mark) :=
  match marks with
  | [] => Ok []
  | c :: marks =>
      if mout c then
        match inward with
        | [] => UB OutOfBounds
        | i :: inward =>
            marks <- set_next inward marks ;;
            Ok (Mark (mval c) (mindex c) (mout c) (Z.of_nat i) :: marks)
        end
      else marks <- set_next inward marks ;; Ok (c :: marks)
  end.
Definition process_points (sort : list mark -> list mark) (marks : list mark) : res (list mark) :=
  let marks := sort marks in
  set_next (map mindex (filter (fun c => negb (mout c)) marks)) marks.

(** cutPoly.cc 316-362: the point to visit next. *)
Definition next_point (cut : list pt) (marks : list mark) (i : nat) : res Z :=
  let after := Z.of_nat (Nat.modulo (i + 1) (length cut)) in
  match nth_error cut i with
  | None => UB OutOfBounds
  | Some p =>
      if negb (Qeq_bool (dot p) H) then Ok after
      else match find (fun c => Nat.eqb (mindex c) i) marks with
           | None => Ok after
           | Some c => Ok (if mout c then mnext c else after)
           end
  end.

(** cutPoly.cc 299-366: a connected component; [fuel] bounds the steps. *)
Fixpoint component (fuel : nat) (cut : list pt) (marks : list mark) (visited : list bool) (i : Z) : res (list bool * list pt) :=
  match fuel with
  | O => UB NoTerm
  | S fuel =>
      if (i <? 0)%Z then UB OutOfBounds else
      match nth_error visited (Z.to_nat i) with
      | None => UB OutOfBounds
      | Some true => Ok (visited, [])
      | Some false =>
          match nth_error cut (Z.to_nat i) with
          | None => UB OutOfBounds
          | Some p =>
              next <- next_point cut marks (Z.to_nat i) ;;
              '(visited, ps) <- component fuel cut marks (upd visited (Z.to_nat i) true) next ;;
              Ok (visited, p :: ps)
          end
      end
  end.

(** cutPoly.cc 283-292: the first point that was not visited. *)
Fixpoint first_unvisited (v : nat) (visited : list bool) : option nat :=
  match visited with
  | [] => None
  | true :: visited => first_unvisited (S v) visited
  | false :: _ => Some v
  end.

(** cutPoly.cc 281-368: all components. *)
Fixpoint components (fuel : nat) (cut : list pt) (marks : list mark) (visited : list bool) : res (list pt * list nat) :=
  match fuel with
  | O => UB NoTerm
  | S fuel =>
      match first_unvisited 0 visited with
      | None => Ok ([], [])
      | Some v =>
          '(visited, ps) <- component (S (length cut)) cut marks visited (Z.of_nat v) ;;
          '(X, P) <- components fuel cut marks visited ;;
          Ok (ps ++ X, length ps :: P)
      end
  end.

(** cutPoly.cc 143-371: cutToHalfSpace. *)
Definition cut_to_half_space (sort : list mark -> list mark) (poly : list pt) : res (list pt * list nat) :=
  let '(cut, marks) := match poly with [] => ([], []) | first :: _ => half_loop first (last poly first) poly ([], []) end in
  match marks with
  | [] => Ok (cut, [length cut])
  | _ =>
      marks <- process_points sort marks ;;
      components (S (length cut)) cut marks (repeat false (length cut))
  end.
End Half.

(** ** A window *)

(** cutPoly.cc 109-137: one of the cuts; [counts] are the numbers of vertices of
    the polygons, [pts] their vertices one after the other. *)
Fixpoint cut_all (sort : list mark -> list mark) (nx ny H : Q) (counts : list nat) (pts : list pt) : res (list pt * list nat) :=
  match counts with
  | [] => Ok ([], [])
  | n :: counts =>
      let rest := skipn n pts in
      if Nat.eqb n 0 then cut_all sort nx ny H counts rest else
      if (length pts <? n)%nat then UB OutOfBounds else
      '(X, P) <- cut_to_half_space nx ny H sort (firstn n pts) ;;
      '(X', P') <- cut_all sort nx ny H counts rest ;;
      Ok (X ++ X', filter (fun k => (0 <? k)%nat) P ++ P')
  end.

(** cutPoly.cc 80-141: cutPoly; dotH is (nx + ny) * H. *)
Definition cut_poly (sort : list mark -> list mark) (counts : list nat) (pts : list pt) (xll yll xur yur : Q) : res (list pt * list nat) :=
  let cut '(nx, ny, H) '(X, P) := cut_all sort nx ny ((nx + ny) * H) P X in
  s <- cut (-1 # 1, 0, xll) (pts, counts) ;;
  s <- cut (1, 0, xur) s ;;
  s <- cut (0, -1 # 1, yll) s ;;
  cut (0, 1, yur) s.

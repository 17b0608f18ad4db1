(** What a set of polygons shows to its users, and the geometry of polygons,
    stated without the arrays of the model. *)
From Coq Require Import List Bool ZArith QArith Permutation.
From Verif Require Import Lib.Base Lib.Str Poly.Model.
From Verif Require Cut.Spec.
Import ListNotations.
Local Open Scope Q_scope.

(** A polygon or, if it is not shut, a line. *)
Record polygon := Pg { verts : list pt; shut : bool; col : str; lay : str }.

Definition len {A} (l : list A) : Z := Z.of_nat (length l).
Definition points (l : list polygon) : list pt := flat_map verts l.

(** The arrays hold these polygons, one after the other. *)
Definition shows (d : dpoly) (l : list polygon) : Prop :=
  xv d = map fst (points l) /\ yv d = map snd (points l) /\
  num_verts d = map (fun g => len (verts g)) l /\ num_polys d = len l /\ total d = len (points l) /\
  closed d = map shut l /\ colors d = map col l /\ layers d = map lay l.

Definition with_verts (g : polygon) (v : list pt) : polygon := Pg v (shut g) (col g) (lay g).
Definition moved (f : pt -> pt) (g : polygon) : polygon := with_verts g (map f (verts g)).
Definition full (g : polygon) : bool := match verts g with [] => false | _ => true end.

(** Those of a list whose index is (not) in a set of indices. *)
Definition indexed {A} (l : list A) : list (Z * A) := combine (zrange 0 (len l)) l.
Definition keep {A} (test : Z -> bool) (l : list A) : list A := map snd (filter (fun e => test (fst e)) (indexed l)).
Definition change {A} (test : Z -> bool) (f : A -> A) (l : list A) : list A :=
  map (fun e => if test (fst e) then f (snd e) else snd e) (indexed l).

(** The annotations that come with the set: all four kinds are the same. *)
Definition same_annos (d e : dpoly) : Prop :=
  annos e = annos d /\ vert_annos e = vert_annos d /\ poly_annos e = poly_annos d /\ layer_annos e = layer_annos d.
Definition annos_moved (f : pt -> pt) (d e : dpoly) : Prop :=
  let mv := map (fun a => Anno (fst (f (an_x a, an_y a))) (snd (f (an_x a, an_y a))) (an_label a)) in
  annos e = mv (annos d) /\ vert_annos e = mv (vert_annos d) /\ poly_annos e = mv (poly_annos d) /\ layer_annos e = mv (layer_annos d).

(** ** Geometry *)

(** The edges of a closed polygon: each vertex with the next, the last with the first. *)
Definition ring (l : list pt) : list (pt * pt) :=
  match l with [] => [] | p :: l' => combine (p :: l') (l' ++ [p]) end.

Definition between (a b : pt) (t : Q) : pt := (fst a + t * (fst b - fst a), snd a + t * (snd b - snd a)).
Definition peq (p q : pt) : Prop := fst p == fst q /\ snd p == snd q.
Definition on_edge (q : pt) (e : pt * pt) : Prop := exists t, 0 <= t <= 1 /\ peq q (between (fst e) (snd e) t).

(** Twice the area between an edge and the origin, and the area of a polygon by
    the sum over its edges. *)
Definition qsum {A} (f : A -> Q) (l : list A) : Q := fold_right (fun a s => f a + s) 0 l.
Definition wedge (e : pt * pt) : Q := fst (fst e) * snd (snd e) - fst (snd e) * snd (fst e).
Definition area (l : list pt) : Q := qsum wedge (ring l) / 2.

Definition inside_box (b : qbox) (p : pt) : Prop := bxl b <= fst p <= bxh b /\ byl b <= snd p <= byh b.
(** The smallest box around some points. *)
Definition smallest_box (l : list pt) (b : qbox) : Prop :=
  (forall p, In p l -> inside_box b p) /\
  (forall c, (forall p, In p l -> inside_box c p) -> bxl c <= bxl b /\ bxh b <= bxh c /\ byl c <= byl b /\ byh b <= byh c).

(** Vertex [v], or edge [v], of polygon [p]. *)
Definition vertex_at (l : list polygon) (p v : Z) (x : pt) : Prop :=
  exists l1 g l2 a b, l = l1 ++ g :: l2 /\ p = len l1 /\ verts g = a ++ x :: b /\ v = len a.
Definition edge_at (l : list polygon) (p v : Z) (e : pt * pt) : Prop :=
  exists l1 g l2 a b, l = l1 ++ g :: l2 /\ p = len l1 /\ ring (verts g) = a ++ e :: b /\ v = len a.
Definition later (p v p' v' : Z) : Prop := (p < p' \/ p = p' /\ v < v')%Z.
Definition distance2 (p q : pt) : Q := (fst p - fst q) * (fst p - fst q) + (snd p - snd q) * (snd p - snd q).

(** The point is on one of the edges or the polygon winds around it an odd number
    of times (the winding number is that of Cut/). *)
Definition in_or_on (l : list pt) (q : pt) : Prop :=
  (exists e, In e (ring l) /\ on_edge q e) \/ Z.odd (Cut.Spec.winding q l) = true.

(** The box of a polygon is wider than that of another, or as wide and higher, or
    as wide and as high and the area is not less. *)
Definition absq (x : Q) : Q := if Qle_bool 0 x then x else - x.
Definition as_large (g h : polygon) : Prop :=
  forall b c, smallest_box (verts g) b -> smallest_box (verts h) c ->
    let wg := bxh b - bxl b in let wh := bxh c - bxl c in let hg := byh b - byl b in let hh := byh c - byl c in
    wh < wg \/ wg == wh /\ (hh < hg \/ hg == hh /\ absq (area (verts h)) <= absq (area (verts g))).
Definition from_large_to_small (l : list polygon) : Prop :=
  forall a g b h c, l = a ++ g :: b ++ h :: c -> full g = true -> full h = true -> as_large g h.

(** What std::sort promises with the order on sizes. *)
Definition sorts (sort : list entry -> list entry) : Prop :=
  forall l, Permutation l (sort l) /\ forall a x b y c, sort l = a ++ x :: b ++ y :: c -> greater_entry y x = false.

(** ** Edits *)

Inductive edit :=
| EAppend (g : polygon) | EInsert (p v : Z) (q : pt) | EErase (p v : Z) | EChange (p v : Z) (q : pt)
| EShiftOne (p : Z) (sx sy : Q) | EReverseOne (p : Z) | EReplace (p : Z) (v : list pt)
| EEraseMarked (ms : list Z) | ETransformMarked (ms : list Z) (t : lin_trans) | EReverseAll | ETransform (t : lin_trans)
| EExtract (ms : list Z) | EDuplicate (ms : list Z) (sx sy : Q).

(** On the list of polygons. *)
Definition on_verts (p : Z) (f : list pt -> list pt) (l : list polygon) : list polygon :=
  change (Z.eqb p) (fun g => with_verts g (f (verts g))) l.
Definition before {A} (v : Z) (l : list A) : list A := firstn (Z.to_nat v) l.
Definition from {A} (v : Z) (l : list A) : list A := skipn (Z.to_nat v) l.
Definition effect (e : edit) (l : list polygon) : list polygon :=
  match e with
  | EAppend g => if full g then l ++ [g] else l
  | EInsert p v q => on_verts p (fun w => before v w ++ q :: from v w) l
  | EErase p v => on_verts p (fun w => before v w ++ from (v + 1) w) l
  | EChange p v q => on_verts p (fun w => before v w ++ q :: from (v + 1) w) l
  | EShiftOne p sx sy => on_verts p (map (fun q => (fst q + sx, snd q + sy))) l
  | EReverseOne p => on_verts p (@rev pt) l
  | EReplace p v => on_verts p (fun _ => v) l
  | EEraseMarked ms => keep (fun i => negb (existsb (Z.eqb i) ms)) l
  | ETransformMarked ms t => change (fun i => existsb (Z.eqb i) ms) (moved (lt_apply t)) l
  | EReverseAll => map (fun g => with_verts g (rev (verts g))) l
  | ETransform t => map (moved (lt_apply t)) l
  | EExtract ms => filter full (keep (fun i => existsb (Z.eqb i) ms) l)
  | EDuplicate ms sx sy => l ++ map (moved (fun q => (fst q + sx, snd q + sy))) (filter full (keep (fun i => existsb (Z.eqb i) ms) l))
  end.
(** Polygons and vertices named must exist; one may insert after the last. *)
Definition has (l : list polygon) (p v extra : Z) : Prop :=
  exists l1 g l2, l = l1 ++ g :: l2 /\ p = len l1 /\ (0 <= v < len (verts g) + extra)%Z.
Definition valid (e : edit) (l : list polygon) : Prop :=
  match e with
  | EInsert p v _ => has l p v 1 | EErase p v | EChange p v _ => has l p v 0
  | EShiftOne p _ _ | EReverseOne p | EReplace p _ => (0 <= p < len l)%Z
  | _ => True
  end.
(** On the arrays. *)
Definition perform (e : edit) (d : dpoly) : res dpoly :=
  match e with
  | EAppend g => append_polygon d (len (verts g)) (map fst (verts g)) (map snd (verts g)) 0 (shut g) (col g) (lay g)
  | EInsert p v q => insert_vertex d p v q
  | EErase p v => erase_vertex d p v
  | EChange p v q => change_vertex d p v q
  | EShiftOne p sx sy => shift_one_poly d p sx sy
  | EReverseOne p => reverse_one_poly d p
  | EReplace p v => replace_one_poly d p v
  | EEraseMarked ms => erase_marked_polys d ms
  | ETransformMarked ms t => transform_marked_polys d ms t
  | EReverseAll => reverse d
  | ETransform t => apply_transform d t
  | EExtract ms => extract_marked_polys d ms
  | EDuplicate ms sx sy => r <- append_and_shift_marked d ms sx sy ;; Ok (fst r)
  end.
Fixpoint perform_all (es : list edit) (d : dpoly) : res dpoly :=
  match es with [] => Ok d | e :: es => d <- perform e d ;; perform_all es d end.
Fixpoint effects (es : list edit) (l : list polygon) : list polygon :=
  match es with [] => l | e :: es => effects es (effect e l) end.
Fixpoint valid_all (es : list edit) (l : list polygon) : Prop :=
  match es with [] => True | e :: es => valid e l /\ valid_all es (effect e l) end.

(** ** Results *)

Definition rect (xl yl xh yh : Q) : list pt := [(xl, yl); (xh, yl); (xh, yh); (xl, yh)].
Definition first_not_negative (l : list polygon) : Prop := match l with [] => True | g :: _ => (0 <= area (verts g))%Q end.

Definition grid_line (vertical : bool) (at_ lo hi : Q) (co : str) : polygon :=
  Pg (if vertical then [(at_, lo); (at_, lo); (at_, hi); (at_, hi)] else [(lo, at_); (hi, at_); (hi, at_); (lo, at_)]) true co [].
(** The last of the nearest annotations. *)
Definition anno_best (q : pt) (l : list anno) (r : option (Z * Q)) : Prop :=
  match r with
  | None => l = []
  | Some (i, m) => exists a x b, l = a ++ x :: b /\ i = len a /\ (m == distance2 q (an_x x, an_y x))%Q /\
      (forall y, In y a -> m <= distance2 q (an_x y, an_y y))%Q /\ (forall y, In y b -> m < distance2 q (an_x y, an_y y))%Q
  end.
Definition plain (g : polygon) : polygon := Pg (verts g) false (col g) (lay g).
Definition spaced (a : anno) : anno := Anno (an_x a) (an_y a) (blank :: an_label a).

(** The first vertex is not repeated at the end. *)
Definition open_end (v : list pt) : Prop := match v with [] => True | x :: w => match rev w with [] => True | y :: _ => ~ peq x y end end.


(* Model of edge extension: src/vw/Image/EdgeExtension.h, EdgeExtension.tcc.
   Simplification: int32 arithmetic does not overflow; one plane (the plane
   index is passed through unchanged by every mode). *)
From Coq Require Import ZArith List Lia Bool.
From Verif Require Import Lib.Base BBox.Box2.
Import ListNotations.
Local Open Scope Z_scope.

(* A view that can be read: size and element access, which may be undefined. *)
Record view (A : Type) := View { cols : Z; rows : Z; rd : Z -> Z -> res A }.
Arguments View {A}. Arguments cols {A}. Arguments rows {A}. Arguments rd {A}.

(* Functions.h:85-89 mod(a,b) *)
Definition vmod (a b : Z) : res Z :=
  m <- crem a b ;;
  Ok (if b <? 0 then (if m >? 0 then m + b else m) else (if m <? 0 then m + b else m)).

(* EdgeExtension.tcc:50, 72 *)
Definition in_view {A} (v : view A) (i j : Z) : bool :=
  (i >=? 0) && (j >=? 0) && (i <? cols v) && (j <? rows v).

(* EdgeExtension.tcc:92-93: clamp of one coordinate *)
Definition clamp_axis (n i : Z) : Z := if i <? 0 then 0 else if i >=? n then n - 1 else i.

(* EdgeExtension.tcc:115-116, 117-118 *)
Definition periodic_axis (n i : Z) : res Z :=
  d <- crem i n ;; Ok (if d <? 0 then d + n else d).

(* EdgeExtension.tcc:192-195, 196-199 *)
Definition reflect_axis (n i : Z) : res Z :=
  let d := if i <? 0 then - i else i in
  let m1 := n - 1 in
  d <- crem d (2 * m1) ;;
  Ok (if d >? m1 then 2 * m1 - d else d).

Inductive mode (A : Type) :=
| MNone | MZero (zero : A) | MValue (v : A) | MConstant | MPeriodic | MCylindrical | MReflect.
Arguments MNone {A}. Arguments MZero {A}. Arguments MValue {A}. Arguments MConstant {A}.
Arguments MPeriodic {A}. Arguments MCylindrical {A}. Arguments MReflect {A}.

(* The functors' operator(): EdgeExtension.tcc:36-38 (None), 49-54 (Zero; [zero]
   is pixel_type()), 71-76 (Value), 91-94 (Constant), 113-120 (Periodic),
   155-161 (Cylindrical), 190-201 (Reflect). *)
Definition ext_read {A} (m : mode A) (v : view A) (i j : Z) : res A :=
  match m with
  | MNone => rd v i j
  | MZero z => if in_view v i j then rd v i j else Ok z
  | MValue x => if in_view v i j then rd v i j else Ok x
  | MConstant => rd v (clamp_axis (cols v) i) (clamp_axis (rows v) j)
  | MPeriodic =>
      di <- periodic_axis (cols v) i ;; dj <- periodic_axis (rows v) j ;; rd v di dj
  | MCylindrical =>
      di <- periodic_axis (cols v) i ;; rd v di (clamp_axis (rows v) j)
  | MReflect =>
      di <- reflect_axis (cols v) i ;; dj <- reflect_axis (rows v) j ;; rd v di dj
  end.

(* EdgeExtension.tcc:98-99,102-103 and 100-101,104-105 and 177-182 *)
Definition const_src (n lo hi : Z) : Z * Z :=
  ((if lo <? 0 then 0 else if lo >=? n then n - 1 else lo),
   (if hi >? n then n else if hi <=? 0 then 1 else hi)).

(* EdgeExtension.tcc:124-135, 136-147, 166-176; w is bbox.width()/height() *)
Definition periodic_src (n w lo hi : Z) : res (Z * Z) :=
  if w >=? n then Ok (0, n)
  else
    a <- vmod lo n ;; b <- vmod (hi - 1) n ;;
    let b := b + 1 in
    Ok (if a >=? b then (0, n) else (a, b)).

(* EdgeExtension.tcc:205-226, 227-248 *)
Definition reflect_src (n w lo hi : Z) : res (Z * Z) :=
  if w >=? 2 * n - 2 then Ok (0, n)
  else
    a <- vmod lo (2 * n - 2) ;; b <- vmod (hi - 1) (2 * n - 2) ;;
    let b := b + 1 in
    Ok (if a >=? b then (0, Z.min (Z.max b (2 * n - 1 - a)) n)
        else if a >=? n then (2 * n - 1 - b, 2 * n - 1 - a)
        else if b >? n then (Z.min a (2 * n - 1 - b), n)
        else (a, b)).

(* source_bbox: EdgeExtension.tcc:40-42, 56-60, 79-83, 96-107, 122-149,
   163-184, 203-250 *)
Definition source_bbox {A} (m : mode A) (v : view A) (b : box) : res box :=
  match m with
  | MNone => Ok b
  | MZero _ | MValue _ => Ok (bcrop b (box_of 0 0 (cols v) (rows v)))
  | MConstant =>
      let (a0, a1) := const_src (cols v) (x0 b) (x1 b) in
      let (b0, b1) := const_src (rows v) (y0 b) (y1 b) in
      Ok (Box a0 b0 a1 b1)
  | MPeriodic =>
      '(a0, a1) <- periodic_src (cols v) (bw b) (x0 b) (x1 b) ;;
      '(b0, b1) <- periodic_src (rows v) (bh b) (y0 b) (y1 b) ;;
      Ok (Box a0 b0 a1 b1)
  | MCylindrical =>
      '(a0, a1) <- periodic_src (cols v) (bw b) (x0 b) (x1 b) ;;
      let (b0, b1) := const_src (rows v) (y0 b) (y1 b) in
      Ok (Box a0 b0 a1 b1)
  | MReflect =>
      '(a0, a1) <- reflect_src (cols v) (bw b) (x0 b) (x1 b) ;;
      '(b0, b1) <- reflect_src (rows v) (bh b) (y0 b) (y1 b) ;;
      Ok (Box a0 b0 a1 b1)
  end.

(* LinearEdgeExtension on integer pixels: EdgeExtension.tcc:256-275 *)
Definition linear_read (v : view Z) (i j : Z) : res Z :=
  let c := cols v - 1 in
  let r := rows v - 1 in
  if i <? 0 then
    if j <? 0 then
      a <- rd v 0 0 ;; b <- rd v 1 0 ;; d <- rd v 0 1 ;; Ok (a - i * (a - b) - j * (a - d))
    else if j >? r then
      a <- rd v 0 r ;; b <- rd v 1 r ;; d <- rd v 0 (r - 1) ;; Ok (a - i * (a - b) + (j - r) * (a - d))
    else a <- rd v 0 j ;; b <- rd v 1 j ;; Ok (a - i * (a - b))
  else if i >? c then
    if j <? 0 then
      a <- rd v c 0 ;; b <- rd v (c - 1) 0 ;; d <- rd v c 1 ;; Ok (a + (i - c) * (a - b) - j * (a - d))
    else if j >? r then
      a <- rd v c r ;; b <- rd v (c - 1) r ;; d <- rd v c (r - 1) ;; Ok (a + (i - c) * (a - b) + (j - r) * (a - d))
    else a <- rd v c j ;; b <- rd v (c - 1) j ;; Ok (a + (i - c) * (a - b))
  else
    if j <? 0 then a <- rd v i 0 ;; d <- rd v i 1 ;; Ok (a - j * (a - d))
    else if j >? r then a <- rd v i r ;; d <- rd v i (r - 1) ;; Ok (a + (j - r) * (a - d))
    else rd v i j.

(* EdgeExtension.tcc:279-286 and 287-294, one axis *)
Definition linear_src (n lo hi : Z) : Z * Z :=
  let a := if lo <? 0 then 0 else lo in
  let b := if lo <? 0 then Z.max hi 2 else hi in
  let b' := if hi >? n then n else b in
  let a' := if hi >? n then Z.min a (n - 2) else a in
  (a', b').
(* EdgeExtension.tcc:277-296 *)
Definition linear_source_bbox (v : view Z) (b : box) : box :=
  let (a0, a1) := linear_src (cols v) (x0 b) (x1 b) in
  let (b0, b1) := linear_src (rows v) (y0 b) (y1 b) in
  Box a0 b0 a1 b1.

(* EdgeExtension.h:141-143 operator() of the view with its offset *)
Definition view_ext_read {A} (m : mode A) (v : view A) (ox oy i j : Z) : res A :=
  ext_read m v (i + ox) (j + oy).
(* EdgeExtension.h:147-149 and 152-155: the rectangle the child is asked to
   prerasterize *)
Definition view_source {A} (m : mode A) (v : view A) (ox oy : Z) (b : box) : res box :=
  s <- source_bbox m v (bshift b ox oy) ;;
  Ok (if bempty s then box_of 0 0 0 0 else s).

(* A prerasterized child: same size, but only the pixels of the announced
   rectangle are readable (CropView over a buffer of that size, see
   ImageViewBase.h and BlockRasterize.h:106-113). *)
Definition restrict {A} (v : view A) (s : box) : view A :=
  View (cols v) (rows v)
    (fun i j => if (x0 s <=? i) && (i <? x1 s) && (y0 s <=? j) && (j <? y1 s) then rd v i j else UB OutOfBounds).

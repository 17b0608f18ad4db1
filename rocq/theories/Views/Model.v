(* Model of geometric image views, their pixel accessors, the rasterisation
   loop and prerasterisation:
   src/vw/Image/Manipulation.h, ImageTransform.h, PixelAccessors.h,
   ImageViewBase.h, ImageView.h, ImageResourceView.h.
   Simplifications: int32 and pointer arithmetic do not overflow; pixel types
   are not converted; views over floating-point indices are not modelled; the
   build has VW_ENABLE_BOUNDS_CHECK off. *)
From Coq Require Import ZArith List Lia Bool.
From Verif Require Import Lib.Base BBox.Box2 Blocks.Model.
Import ListNotations.
Local Open Scope Z_scope.

(* Reading one element of an allocation (m_origin + k); elsewhere undefined. *)
Definition mget {A} (buf : list A) (k : Z) : res A :=
  if k <? 0 then UB OutOfBounds
  else match nth_error buf (Z.to_nat k) with Some a => Ok a | None => UB OutOfBounds end.

(* Overwriting one element of an allocation. *)
Fixpoint lset {A} (l : list A) (n : nat) (a : A) : list A :=
  match l, n with
  | [], _ => []
  | _ :: t, O => a :: t
  | x :: t, S m => x :: lset t m a
  end.
Definition mset {A} (buf : list A) (k : Z) (a : A) : res (list A) :=
  if (k <? 0) || (Z.of_nat (length buf) <=? k) then UB OutOfBounds
  else Ok (lset buf (Z.to_nat k) a).

(* View types as a tree.
   VImg: ImageView<PixelT> with its buffer (ImageView.h:66-76), strides
     m_rstride = cols and m_pstride = rows*cols (ImageView.h:226-227).
   VRes: ImageResourceView (ImageResourceView.h:34-118) over a one-plane
     resource whose content is f; the resource refuses reads outside it.
   VCrop/VSub: Manipulation.h:81-147, 214-293.
   VTrans/VR180/VCW/VCCW/VFlipV: ImageTransform.h:59, 141, 225, 309, 393. *)
Inductive vexp (A : Type) :=
| VImg (c r p : Z) (buf : list A)
| VRes (c r : Z) (f : Z -> Z -> A)
| VCrop (ch : vexp A) (ci cj di dj : Z)
| VSub (ch : vexp A) (dx dy : Z)
| VTrans (ch : vexp A)
| VR180 (ch : vexp A)
| VCW (ch : vexp A)
| VCCW (ch : vexp A)
| VFlipV (ch : vexp A).
Arguments VImg {A}. Arguments VRes {A}. Arguments VCrop {A}. Arguments VSub {A}.
Arguments VTrans {A}. Arguments VR180 {A}. Arguments VCW {A}. Arguments VCCW {A}. Arguments VFlipV {A}.

(* SubsampleView's constructor: Manipulation.h:224-237 *)
Definition subsample {A} (ch : vexp A) (dx dy : Z) : res (vexp A) :=
  if (dx >? 0) && (dy >? 0) then Ok (VSub ch dx dy) else Throw ArgumentErr.

(* cols(), rows(), planes(): ImageView.h:150-152, ImageResourceView.h:65-67,
   Manipulation.h:109-111, 239-245, ImageTransform.h:69-71, 151-153, 235-237,
   319-321, 403-405.  Division truncates. *)
Fixpoint vcols {A} (e : vexp A) : Z :=
  match e with
  | VImg c _ _ _ => c
  | VRes c _ _ => c
  | VCrop _ _ _ di _ => di
  | VSub ch dx _ => 1 + Z.quot (vcols ch - 1) dx
  | VTrans ch => vrows ch
  | VR180 ch => vcols ch
  | VCW ch => vrows ch
  | VCCW ch => vrows ch
  | VFlipV ch => vcols ch
  end
with vrows {A} (e : vexp A) : Z :=
  match e with
  | VImg _ r _ _ => r
  | VRes _ r _ => r
  | VCrop _ _ _ _ dj => dj
  | VSub ch _ dy => 1 + Z.quot (vrows ch - 1) dy
  | VTrans ch => vcols ch
  | VR180 ch => vrows ch
  | VCW ch => vcols ch
  | VCCW ch => vcols ch
  | VFlipV ch => vrows ch
  end.

Fixpoint vplanes {A} (e : vexp A) : Z :=
  match e with
  | VImg _ _ p _ => p
  | VRes _ _ _ => 1
  | VCrop ch _ _ _ _ | VSub ch _ _ | VTrans ch | VR180 ch | VCW ch | VCCW ch | VFlipV ch => vplanes ch
  end.

(* Reading one pixel of a resource, ImageResourceView.h:70-78; a resource
   throws on a rectangle outside it. *)
Definition res_read {A} (c r : Z) (f : Z -> Z -> A) (i j p : Z) : res A :=
  if (0 <=? i) && (i <? c) && (0 <=? j) && (j <? r) then
    if p =? 0 then Ok (f i j) else UB OutOfBounds
  else Throw ArgumentErr.

(* operator()(i,j,p): ImageView.h:166-172, Manipulation.h:117-120, 249-251,
   ImageTransform.h:75-77, 159-161, 243-245, 327-329, 411-413 *)
Fixpoint vread {A} (e : vexp A) (i j p : Z) : res A :=
  match e with
  | VImg c r _ buf => mget buf (i + j * c + p * (r * c))
  | VRes c r f => res_read c r f i j p
  | VCrop ch ci cj _ _ => vread ch (ci + i) (cj + j) p
  | VSub ch dx dy => vread ch (dx * i) (dy * j) p
  | VTrans ch => vread ch j i p
  | VR180 ch => vread ch (vcols ch - 1 - i) (vrows ch - 1 - j) p
  | VCW ch => vread ch j (vrows ch - 1 - i) p
  | VCCW ch => vread ch (vcols ch - 1 - j) i p
  | VFlipV ch => vread ch i (vrows ch - 1 - j) p
  end.

(* ------------------------------------------------------------------ *)
(* Pixel accessors.  Every view's accessor is a wrapper around the accessor of
   its child, so its state is the state of the innermost accessor: the pointer
   of MemoryStridingPixelAccessor (PixelAccessors.h:52-60) or the position of
   ProceduralPixelAccessor (119-127). *)
Inductive acc := APtr (k : Z) | APos (c r p : Z).

Inductive aop :=
| NextCol | PrevCol | NextRow | PrevRow | NextPlane | PrevPlane
| Advance (di dj dp : Z).

(* PixelAccessors.h:77-86 *)
Definition step_ptr (rs ps : Z) (o : aop) (k : Z) : Z :=
  match o with
  | NextCol => k + 1
  | PrevCol => k - 1
  | NextRow => k + rs
  | PrevRow => k - rs
  | NextPlane => k + ps
  | PrevPlane => k - ps
  | Advance dc dr dp => k + (dc + dr * rs + dp * ps)
  end.

(* PixelAccessors.h:135-141 *)
Definition step_pos (o : aop) (c r p : Z) : acc :=
  match o with
  | NextCol => APos (c + 1) r p
  | PrevCol => APos (c - 1) r p
  | NextRow => APos c (r + 1) p
  | PrevRow => APos c (r - 1) p
  | NextPlane => APos c r (p + 1)
  | PrevPlane => APos c r (p - 1)
  | Advance dc dr dp => APos (c + dc) (r + dr) (p + dp)
  end.

(* SubsamplePixelAccessor, Manipulation.h:186-209 *)
Definition sub_op (dx dy : Z) (o : aop) : aop :=
  match o with
  | NextCol => Advance dx 0 0
  | PrevCol => Advance (- dx) 0 0
  | NextRow => Advance 0 dy 0
  | PrevRow => Advance 0 (- dy) 0
  | Advance di dj dp => Advance (dx * di) (dy * dj) dp
  | o => o
  end.

(* TransposePixelAccessor, ImageTransform.h:45-54 *)
Definition trans_op (o : aop) : aop :=
  match o with
  | NextCol => NextRow | PrevCol => PrevRow | NextRow => NextCol | PrevRow => PrevCol
  | Advance di dj dp => Advance dj di dp
  | o => o
  end.

(* Rotate180PixelAccessor, ImageTransform.h:127-136 *)
Definition r180_op (o : aop) : aop :=
  match o with
  | NextCol => PrevCol | PrevCol => NextCol | NextRow => PrevRow | PrevRow => NextRow
  | Advance di dj dp => Advance (- di) (- dj) dp
  | o => o
  end.

(* Rotate90CWPixelAccessor, ImageTransform.h:211-220 *)
Definition cw_op (o : aop) : aop :=
  match o with
  | NextCol => PrevRow | PrevCol => NextRow | NextRow => NextCol | PrevRow => PrevCol
  | Advance di dj dp => Advance dj (- di) dp
  | o => o
  end.

(* Rotate90CCWPixelAccessor, ImageTransform.h:295-304 *)
Definition ccw_op (o : aop) : aop :=
  match o with
  | NextCol => NextRow | PrevCol => PrevRow | NextRow => PrevCol | PrevRow => NextCol
  | Advance di dj dp => Advance (- dj) di dp
  | o => o
  end.

(* FlipVerticalPixelAccessor, ImageTransform.h:379-388 *)
Definition flipv_op (o : aop) : aop :=
  match o with
  | NextRow => PrevRow | PrevRow => NextRow
  | Advance di dj dp => Advance di (- dj) dp
  | o => o
  end.

(* One accessor operation on an accessor of view e. *)
Fixpoint astep {A} (e : vexp A) (o : aop) (a : acc) : acc :=
  match e with
  | VImg c r _ _ => match a with APtr k => APtr (step_ptr c (r * c) o k) | a => a end
  | VRes _ _ _ => match a with APos c r p => step_pos o c r p | a => a end
  | VCrop ch _ _ _ _ => astep ch o a
  | VSub ch dx dy => astep ch (sub_op dx dy o) a
  | VTrans ch => astep ch (trans_op o) a
  | VR180 ch => astep ch (r180_op o) a
  | VCW ch => astep ch (cw_op o) a
  | VCCW ch => astep ch (ccw_op o) a
  | VFlipV ch => astep ch (flipv_op o) a
  end.

(* origin(): ImageView.h:155-162, ImageResourceView.h:81, Manipulation.h:113-115,
   246-248, ImageTransform.h:73, 155-157, 239-241, 323-325, 407-409.  In the
   rotations cols() and rows() are those of the rotated view. *)
Fixpoint aorigin {A} (e : vexp A) : acc :=
  match e with
  | VImg _ _ _ _ => APtr 0
  | VRes _ _ _ => APos 0 0 0
  | VCrop ch ci cj _ _ => astep ch (Advance ci cj 0) (aorigin ch)
  | VSub ch _ _ => aorigin ch
  | VTrans ch => aorigin ch
  | VR180 ch => astep ch (Advance (vcols ch - 1) (vrows ch - 1) 0) (aorigin ch)
  | VCW ch => astep ch (Advance 0 (vrows ch - 1) 0) (aorigin ch)
  | VCCW ch => astep ch (Advance (vcols ch - 1) 0 0) (aorigin ch)
  | VFlipV ch => astep ch (Advance 0 (vrows ch - 1) 0) (aorigin ch)
  end.

(* operator*(): PixelAccessors.h:101-108, 155; the wrappers return *m_child. *)
Fixpoint aderef {A} (e : vexp A) (a : acc) : res A :=
  match e with
  | VImg _ _ _ buf => match a with APtr k => mget buf k | _ => UB NullDeref end
  | VRes c r f => match a with APos x y p => res_read c r f x y p | _ => UB NullDeref end
  | VCrop ch _ _ _ _ | VSub ch _ _ | VTrans ch | VR180 ch | VCW ch | VCCW ch | VFlipV ch => aderef ch a
  end.

(* Assignment through operator*() of a view of a memory image; the result is
   the view over the modified buffer.  A resource view is not assignable. *)
Fixpoint awrite {A} (e : vexp A) (a : acc) (v : A) : res (vexp A) :=
  match e with
  | VImg c r p buf =>
      match a with APtr k => buf' <- mset buf k v ;; Ok (VImg c r p buf') | _ => UB NullDeref end
  | VRes _ _ _ => UB NullDeref
  | VCrop ch ci cj di dj => ch' <- awrite ch a v ;; Ok (VCrop ch' ci cj di dj)
  | VSub ch dx dy => ch' <- awrite ch a v ;; Ok (VSub ch' dx dy)
  | VTrans ch => ch' <- awrite ch a v ;; Ok (VTrans ch')
  | VR180 ch => ch' <- awrite ch a v ;; Ok (VR180 ch')
  | VCW ch => ch' <- awrite ch a v ;; Ok (VCW ch')
  | VCCW ch => ch' <- awrite ch a v ;; Ok (VCCW ch')
  | VFlipV ch => ch' <- awrite ch a v ;; Ok (VFlipV ch')
  end.

(* ------------------------------------------------------------------ *)
(* ImageViewBase.h:298-309 innermost loop: w pixels of one row *)
Fixpoint rast_cols {A} (src : vexp A) (w : nat) (scol dcol : acc) (dest : vexp A) : res (vexp A) :=
  match w with
  | O => Ok dest
  | S w =>
    v <- aderef src scol ;;
    dest <- awrite dest dcol v ;;
    rast_cols src w (astep src NextCol scol) (astep dest NextCol dcol) dest
  end.
(* ImageViewBase.h:295-312 *)
Fixpoint rast_rows {A} (src : vexp A) (w h : nat) (srow drow : acc) (dest : vexp A) : res (vexp A) :=
  match h with
  | O => Ok dest
  | S h =>
    dest <- rast_cols src w srow drow dest ;;
    rast_rows src w h (astep src NextRow srow) (astep dest NextRow drow) dest
  end.
(* ImageViewBase.h:292-315 *)
Fixpoint rast_planes {A} (src : vexp A) (w h n : nat) (sp dp : acc) (dest : vexp A) : res (vexp A) :=
  match n with
  | O => Ok dest
  | S n =>
    dest <- rast_rows src w h sp dp dest ;;
    rast_planes src w h n (astep src NextPlane sp) (astep dest NextPlane dp) dest
  end.
(* ImageViewBase.h:283-316 vw::rasterize(src,dest,bbox).  Source and
   destination do not share memory. *)
Definition rasterize {A} (src dest : vexp A) (b : box) : res (vexp A) :=
  if (vcols dest =? bw b) && (vrows dest =? bh b) && (vplanes dest =? vplanes src) then
    rast_planes src (Z.to_nat (bw b)) (Z.to_nat (bh b)) (Z.to_nat (vplanes src))
      (astep src (Advance (x0 b) (y0 b) 0) (aorigin src)) (aorigin dest) dest
  else Throw ArgumentErr.

(* A new ImageView: ImageView.h:106-110 (size limits are the subject of
   ImgMem).  [z] is the initial pixel. *)
Definition new_img {A} (z : A) (c r p : Z) : vexp A := VImg c r p (repeat z (Z.to_nat (c * r * p))).

(* The memory image behind a chain of views (the shared buffer). *)
Fixpoint leaf {A} (e : vexp A) : vexp A :=
  match e with
  | VCrop ch _ _ _ _ | VSub ch _ _ | VTrans ch | VR180 ch | VCW ch | VCCW ch | VFlipV ch => leaf ch
  | e => e
  end.

(* read_image of rectangle b of a resource into a buffer of that size
   (ImageResourceView.h:86-97): the resource refuses rectangles outside it. *)
Definition res_rect {A} (c r : Z) (f : Z -> Z -> A) (b : box) : res (vexp A) :=
  if (0 <=? x0 b) && (x1 b <=? c) && (0 <=? y0 b) && (y1 b <=? r) then
    Ok (VImg (bw b) (bh b) 1
      (map (fun k => f (x0 b + k mod bw b) (y0 b + k / bw b)) (zrange 0 (bw b * bh b))))
  else Throw ArgumentErr.

(* prerasterize(bbox): ImageView.h:286, ImageResourceView.h:86-90,
   Manipulation.h:138-142, 256-288 (height of the child rectangle computed with
   m_xdelta, line 280), ImageTransform.h:95-99, 179-183, 263-267, 347-351,
   431-435. *)
Fixpoint prerasterize {A} (z : A) (e : vexp A) (b : box) : res (vexp A) :=
  match e with
  | VImg _ _ _ _ => Ok e
  | VRes c r f =>
      buf <- res_rect c r f b ;; Ok (VCrop buf (- x0 b) (- y0 b) c r)
  | VCrop ch ci cj di dj =>
      ch' <- prerasterize z ch (bshift b ci cj) ;; Ok (VCrop ch' ci cj di dj)
  | VSub ch dx dy =>
      let sx := Z.quot (bw b) dx in
      let sy := Z.quot (bh b) dy in
      let sx := if sx <? 2 then 2 else sx in
      let sy := if sy <? 2 then 2 else sy in
      boxes <- subdivide_bbox b sx sy true false ;;
      buf <- fold_left
        (fun buf t =>
           buf <- buf ;;
           pre <- prerasterize z ch (box_of (dx * x0 t) (dy * y0 t)
                                      (dx * (bw t - 1) + 1) (dx * (bh t - 1) + 1)) ;;
           let tb := bshift t (- x0 b) (- y0 b) in
           d <- rasterize (VSub pre dx dy) (VCrop buf (x0 tb) (y0 tb) (bw tb) (bh tb)) t ;;
           Ok (leaf d))
        boxes (Ok (new_img z (bw b) (bh b) 1)) ;;
      Ok (VCrop buf (- x0 b) (- y0 b) (vcols e) (vrows e))
  | VTrans ch =>
      ch' <- prerasterize z ch (box_of (y0 b) (x0 b) (bh b) (bw b)) ;; Ok (VTrans ch')
  | VR180 ch =>
      ch' <- prerasterize z ch (box_of (vcols ch - x1 b) (vrows ch - y1 b) (bw b) (bh b)) ;; Ok (VR180 ch')
  | VCW ch =>
      ch' <- prerasterize z ch (box_of (y0 b) (vrows ch - x1 b) (bh b) (bw b)) ;; Ok (VCW ch')
  | VCCW ch =>
      ch' <- prerasterize z ch (box_of (vcols ch - y1 b) (x0 b) (bh b) (bw b)) ;; Ok (VCCW ch')
  | VFlipV ch =>
      ch' <- prerasterize z ch (box_of (x0 b) (vrows ch - y1 b) (bw b) (bh b)) ;; Ok (VFlipV ch')
  end.

(* View::rasterize(dest,bbox): ImageView.h:290-292, Manipulation.h:143-146,
   289-292, ImageTransform.h:101-103 etc. *)
Definition view_rasterize {A} (z : A) (src dest : vexp A) (b : box) : res (vexp A) :=
  pre <- prerasterize z src b ;; rasterize pre dest b.

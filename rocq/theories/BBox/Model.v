(* Model of vw::math::BBox (src/vw/Math/BBox.h, src/vw/Math/BBox.tcc).

   Simplifications: coordinates are unbounded integers (RealT an integer type
   whose arithmetic does not overflow) except in the default constructor, whose
   sentinel depends on the conversion to RealT; the rational version of
   grow_bbox_to_int has exact floor. *)
From Coq Require Import ZArith QArith Qround List Lia Bool.
From Verif Require Import Lib.Base.
Import ListNotations.
Local Open Scope Z_scope.

(* BBox.h:112-270: members m_min, m_max, two vectors of DimN elements. *)
Record bbox := mkB { bmin : list Z; bmax : list Z }.

(* m_min.size() *)
Definition dim (b : bbox) : nat := length (bmin b).

(* BBox.tcc:36-44 default constructor.  [conv] is static_cast<RealT> and the
   conversion of the result of unary minus back to RealT. *)
Definition default_box (conv : Z -> Z) (n : nat) : bbox :=
  let big := conv (i32_max - 1) in
  mkB (repeat big n) (repeat (conv (- big)) n).
(* RealT = int32, int64, or a real type: both conversions are exact. *)
Definition default_int (n : nat) : bbox := default_box (fun z => z) n.
(* RealT = uint32: conversions are modulo 2^32. *)
Definition default_u32 (n : nat) : bbox := default_box wrap_u32 n.

(* BBox.tcc:53-58 BBox(minx,miny,width,height) *)
Definition box_xywh (x y w h : Z) : bbox := mkB [x; y] [x + w; y + h].

(* VW_ASSERT(m_min.size() == 0 || v.size() == m_min.size(), ...) *)
Definition dim_check (b : bbox) (n : nat) : bool := (dim b =? 0)%nat || (n =? dim b)%nat.

(* BBox.tcc:80-97 grow(point).  The loop updates max before min and never reads
   an element it has written for another index. *)
Definition grow_max (m p : Z) : Z := if p >? m then p else m.
Definition grow_min (m p : Z) : Z := if p <? m then p else m.
Definition grow_point (b : bbox) (p : list Z) : res bbox :=
  if negb (dim_check b (length p)) then Throw ArgumentErr
  else if (dim b =? 0)%nat then Ok (mkB p p)
  else Ok (mkB (map2 grow_min (bmin b) p) (map2 grow_max (bmax b) p)).

(* BBox.tcc:155-160 empty() *)
Fixpoint any_ge (l m : list Z) : bool :=
  match l, m with
  | a :: l', b :: m' => if a >=? b then true else any_ge l' m'
  | _, _ => false
  end.
Definition empty (b : bbox) : bool :=
  if any_ge (bmin b) (bmax b) then true else (dim b <=? 0)%nat.

(* BBox.tcc:162-167 fully_empty() *)
Fixpoint any_gt (l m : list Z) : bool :=
  match l, m with
  | a :: l', b :: m' => if a >? b then true else any_gt l' m'
  | _, _ => false
  end.
Definition fully_empty (b : bbox) : bool :=
  if any_gt (bmin b) (bmax b) then true else (dim b <=? 0)%nat.

(* BBox.tcc:100-106 grow(bbox) *)
Definition grow_bbox (b c : bbox) : res bbox :=
  if empty c then Ok b
  else b1 <- grow_point b (bmin c) ;; grow_point b1 (bmax c).

(* BBox.tcc:108-120 crop(bbox) *)
Definition crop (b c : bbox) : res bbox :=
  if negb (dim_check b (dim c)) then Throw ArgumentErr
  else Ok (mkB (map2 (fun m v => if m <? v then v else m) (bmin b) (bmin c))
               (map2 (fun m v => if m >? v then v else m) (bmax b) (bmax c))).

(* BBox.h:50-57, 41-48, 68-75 elementwise vector comparison *)
Fixpoint all_le (l m : list Z) : bool :=
  match l, m with
  | a :: l', b :: m' => if negb (a <=? b) then false else all_le l' m'
  | _, _ => true
  end.
Fixpoint all_lt (l m : list Z) : bool :=
  match l, m with
  | a :: l', b :: m' => if negb (a <? b) then false else all_lt l' m'
  | _, _ => true
  end.
Definition all_ge (l m : list Z) : bool := all_le m l.

(* BBox.tcc:122-129 contains(point) *)
Definition contains_point (b : bbox) (p : list Z) : res bool :=
  if negb (dim_check b (length p)) then Throw ArgumentErr
  else Ok (negb (dim b =? 0)%nat && all_ge p (bmin b) && all_lt p (bmax b)).

(* BBox.tcc:131-138 contains(bbox) *)
Definition contains_bbox (b c : bbox) : res bool :=
  if negb (dim_check b (dim c)) then Throw ArgumentErr
  else Ok (negb (dim b =? 0)%nat && all_ge (bmin c) (bmin b) && all_le (bmax c) (bmax b)).

(* BBox.tcc:140-151 intersects(bbox): loop with early return *)
Fixpoint overlap_loop (lo hi lo' hi' : list Z) : bool :=
  match lo, hi, lo', hi' with
  | a :: lo, b :: hi, a' :: lo', b' :: hi' =>
      if (a >=? b') || (b <=? a') then false else overlap_loop lo hi lo' hi'
  | _, _, _, _ => true
  end.
Definition intersects (b c : bbox) : res bool :=
  if negb (dim_check b (dim c)) then Throw ArgumentErr
  else Ok (overlap_loop (bmin b) (bmax b) (bmin c) (bmax c) && negb (dim b =? 0)%nat).

(* BBox.tcc:169-188 width(), height(), depth(): extent along axis k *)
Definition extent (k : nat) (b : bbox) : Z :=
  if empty b then 0 else nth k (bmax b) 0 - nth k (bmin b) 0.
Definition width := extent 0.
Definition height := extent 1.
Definition depth := extent 2.

(* BBox.tcc:191-197 area() *)
Definition area (b : bbox) : Z :=
  if empty b then 0
  else (nth 0 (bmax b) 0 - nth 0 (bmin b) 0) * (nth 1 (bmax b) 0 - nth 1 (bmin b) 0).

(* BBox.tcc:199-206 volume() *)
Definition volume (b : bbox) : Z :=
  if empty b then 0
  else (nth 0 (bmax b) 0 - nth 0 (bmin b) 0) * (nth 1 (bmax b) 0 - nth 1 (bmin b) 0)
       * (nth 2 (bmax b) 0 - nth 2 (bmin b) 0).

(* BBox.tcc:227-234 expand(offset) *)
Definition expand (k : Z) (b : bbox) : bbox :=
  if empty b then b
  else mkB (map (fun x => x - k) (bmin b)) (map (fun x => x + k) (bmax b)).

(* BBox.tcc:236-246 expand(vec) *)
Definition expand_vec (b : bbox) (v : list Z) : res bbox :=
  if negb (dim_check b (length v)) then Throw ArgumentErr
  else if empty b then Ok b
  else Ok (mkB (map2 Z.sub (bmin b) v) (map2 Z.add (bmax b) v)).

(* BBox.tcc:248-255 contract(offset) *)
Definition contract (k : Z) (b : bbox) : bbox :=
  if empty b then b
  else mkB (map (fun x => x + k) (bmin b)) (map (fun x => x - k) (bmax b)).

(* BBox.tcc:257-266 operator*= *)
Definition scale (b : bbox) (s : Z) : res bbox :=
  if negb (s >? 0) then Throw ArgumentErr
  else if empty b then Ok b
  else Ok (mkB (map (fun x => x * s) (bmin b)) (map (fun x => x * s) (bmax b))).

(* BBox.tcc:268-277 operator/= with an integer element type *)
Definition unscale (b : bbox) (s : Z) : res bbox :=
  if negb (s >? 0) then Throw ArgumentErr
  else if empty b then Ok b
  else Ok (mkB (map (fun x => Z.quot x s) (bmin b)) (map (fun x => Z.quot x s) (bmax b))).

(* BBox.tcc:279-286 operator+= and 288-295 operator-=.  Vector lengths are
   checked at compile time for fixed-size vectors. *)
Definition shift (b : bbox) (v : list Z) : bbox :=
  if empty b then b else mkB (map2 Z.add (bmin b) v) (map2 Z.add (bmax b) v).
Definition unshift (b : bbox) (v : list Z) : bbox :=
  if empty b then b else mkB (map2 Z.sub (bmin b) v) (map2 Z.sub (bmax b) v).

(* BBox.tcc:363-391 grow_bbox_to_int on a box with rational corners; the cast
   of a floor outside int32 is undefined, and so is the increment of INT_MAX. *)
Record qbox := mkQ { qmin : list Q; qmax : list Q }.
Fixpoint to_int_loop (lo hi : list Q) : res (option (list Z * list Z)) :=
  match lo, hi with
  | a :: lo', b :: hi' =>
      if negb (Qle_bool a b) then Ok None
      else if i32_okb (Qfloor a) && i32_okb (Qfloor b + 1)
      then r <- to_int_loop lo' hi' ;;
           Ok (match r with
               | None => None
               | Some (l, h) => Some (Qfloor a :: l, (Qfloor b + 1) :: h)
               end)
      else UB Overflow
  | _, _ => Ok (Some ([], []))
  end.
Definition grow_bbox_to_int (b : qbox) : res bbox :=
  r <- to_int_loop (qmin b) (qmax b) ;;
  Ok (match r with
      | None => default_int (length (qmin b))
      | Some (l, h) => mkB l h
      end).

(* Growing an initially default box by a sequence of points, the standard idiom
   of callers (for example src/vw/Image/BlobIndex.cc, src/vw/Cartography). *)
Fixpoint grow_points (b : bbox) (ps : list (list Z)) : res bbox :=
  match ps with
  | [] => Ok b
  | p :: ps' => b' <- grow_point b p ;; grow_points b' ps'
  end.

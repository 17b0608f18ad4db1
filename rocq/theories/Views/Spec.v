(* Specification vocabulary for geometric views. *)
From Coq Require Import ZArith List Lia Bool.
From Verif Require Import Lib.Base BBox.Box2 Views.Model.
Import ListNotations.
Local Open Scope Z_scope.

(* Two views that no client can tell apart by size queries and random access. *)
Definition same_view {A} (a b : vexp A) : Prop :=
  vcols a = vcols b /\ vrows a = vrows b /\ vplanes a = vplanes b /\
  forall i j p, vread a i j p = vread b i j p.

(* (i,j,p) is a pixel of the view. *)
Definition pixel {A} (e : vexp A) (i j p : Z) : Prop :=
  0 <= i < vcols e /\ 0 <= j < vrows e /\ 0 <= p < vplanes e.

(* A view a client may legitimately build: buffers have the size of the image,
   crops stay inside the cropped view, sampled views are not empty. *)
Fixpoint well_formed {A} (e : vexp A) : Prop :=
  match e with
  | VImg c r p buf => 0 <= c /\ 0 <= r /\ 0 <= p /\ Z.of_nat (length buf) = c * r * p
  | VRes c r _ => 0 <= c /\ 0 <= r
  | VCrop ch ci cj di dj =>
      well_formed ch /\ 0 <= ci /\ 0 <= cj /\ 0 <= di /\ 0 <= dj /\
      ci + di <= vcols ch /\ cj + dj <= vrows ch
  | VSub ch dx dy => well_formed ch /\ 0 < dx /\ 0 < dy /\ 0 < vcols ch /\ 0 < vrows ch
  | VTrans ch | VR180 ch | VCW ch | VCCW ch | VFlipV ch => well_formed ch
  end.

(* The innermost image is in memory / there is no subsampling inside. *)
Fixpoint in_memory {A} (e : vexp A) : Prop :=
  match e with
  | VImg _ _ _ _ => True
  | VRes _ _ _ => False
  | VCrop ch _ _ _ _ | VSub ch _ _ | VTrans ch | VR180 ch | VCW ch | VCCW ch | VFlipV ch => in_memory ch
  end.
Fixpoint no_sub {A} (e : vexp A) : Prop :=
  match e with
  | VImg _ _ _ _ | VRes _ _ _ => True
  | VSub _ _ _ => False
  | VCrop ch _ _ _ _ | VTrans ch | VR180 ch | VCW ch | VCCW ch | VFlipV ch => no_sub ch
  end.

(* Where the subsampling view is safe to rasterise: one plane, and equal
   factors unless the image is already in memory. *)
Fixpoint sub_safe {A} (e : vexp A) : Prop :=
  match e with
  | VImg _ _ _ _ | VRes _ _ _ => True
  | VSub ch dx dy => sub_safe ch /\ vplanes ch = 1 /\ (dx = dy \/ (in_memory ch /\ no_sub ch))
  | VCrop ch _ _ _ _ | VTrans ch | VR180 ch | VCW ch | VCCW ch | VFlipV ch => sub_safe ch
  end.

(* Net displacement of a sequence of accessor moves. *)
Definition move (o : aop) : Z * Z * Z :=
  match o with
  | NextCol => (1, 0, 0) | PrevCol => (-1, 0, 0)
  | NextRow => (0, 1, 0) | PrevRow => (0, -1, 0)
  | NextPlane => (0, 0, 1) | PrevPlane => (0, 0, -1)
  | Advance di dj dp => (di, dj, dp)
  end.
Definition cols_moved (l : list aop) : Z := fold_right (fun o s => fst (fst (move o)) + s) 0 l.
Definition rows_moved (l : list aop) : Z := fold_right (fun o s => snd (fst (move o)) + s) 0 l.
Definition planes_moved (l : list aop) : Z := fold_right (fun o s => snd (move o) + s) 0 l.

(* Size-preserving orientation changes, and their 2x2 matrices mapping
   centred destination coordinates to centred source coordinates. *)
Inductive turn := TTrans | T180 | TCW | TCCW | TFlipV.
Definition turn_view {A} (t : turn) (e : vexp A) : vexp A :=
  match t with TTrans => VTrans e | T180 => VR180 e | TCW => VCW e | TCCW => VCCW e | TFlipV => VFlipV e end.
Record mat := Mat { ma : Z; mb : Z; mc : Z; md : Z }.
Definition mid : mat := Mat 1 0 0 1.
Definition mmul (x y : mat) : mat :=
  Mat (ma x * ma y + mb x * mc y) (ma x * mb y + mb x * md y)
      (mc x * ma y + md x * mc y) (mc x * mb y + md x * md y).
Definition turn_mat (t : turn) : mat :=
  match t with
  | TTrans => Mat 0 1 1 0
  | T180 => Mat (-1) 0 0 (-1)
  | TCW => Mat 0 1 (-1) 0      (* (x,y) of the result shows (y,-x) *)
  | TCCW => Mat 0 (-1) 1 0
  | TFlipV => Mat 1 0 0 (-1)
  end.
(* The last element of the list is applied first. *)
Definition turns_view {A} (l : list turn) (e : vexp A) : vexp A := fold_right turn_view e l.
Definition turns_mat (l : list turn) : mat := fold_left (fun m t => mmul (turn_mat t) m) l mid.

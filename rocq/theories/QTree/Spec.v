(* What a quad tree of tiles should contain. *)
From Coq Require Import ZArith List Lia Bool QArith Qcanon Ascii.
From Verif Require Import Lib.Base Lib.Str Lib.Img Lib.QSum BBox.Box2 Conv.Model Conv.Spec QTree.Model.
Import ListNotations.
Local Open Scope Z_scope.

(* A tile is addressed by the quadrants 0..3 that lead to it from the root: bit 0 right, bit 1
   below.  Its name is written with one digit for each. *)
Definition quadrants (q : list Z) : Prop := Forall (fun d => 0 <= d < 4) q.
Definition name_of (q : list Z) : str := map (fun d => ascii_of_N (Z.to_N (48 + d))) q.

(* its place in the grid of tiles of its level *)
Definition qcol (q : list Z) : Z := fold_left (fun a d => 2 * a + d mod 2) q 0.
Definition qrow (q : list Z) : Z := fold_left (fun a d => 2 * a + d / 2) q 0.

(* the pixels covered by a tile that is [j] levels above full resolution *)
Definition region (ts : Z) (j : nat) (q : list Z) : box :=
  let side := ts * 2 ^ Z.of_nat j in box_of (qcol q * side) (qrow q * side) side side.

(* the source, black outside of [B] *)
Definition padded (B : box) (src : Z -> Z -> Qc) (x y : Z) : Qc :=
  if (x0 B <=? x) && (x <? x1 B) && (y0 B <=? y) && (y <? y1 B) then src x y else 0%Qc.

(* P is the image at all levels of resolution: a pixel is the mean of the four it covers,
   converted to the pixel type *)
Definition mean4 (p : Z -> Z -> Qc) (x y : Z) : Qc :=
  ((p (2 * x)%Z (2 * y)%Z + p (2 * x + 1)%Z (2 * y)%Z + p (2 * x)%Z (2 * y + 1)%Z + p (2 * x + 1)%Z (2 * y + 1)%Z) / of_int 4)%Qc.
Definition pyramid (t : chan) (src : Z -> Z -> Qc) (P : nat -> Z -> Z -> Qc) : Prop :=
  (forall x y, P O x y = src x y) /\
  forall j x y, cast_clamp_if_int t (mean4 (P j) x y) = Ok (P (S j) x y).

(* the mean over a square block *)
Definition block_mean (src : Z -> Z -> Qc) (j : nat) (x y : Z) : Qc :=
  let s := 2 ^ Z.of_nat j in
  (qsum 0 s (fun r => qsum 0 s (fun c => src (x * s + c)%Z (y * s + r)%Z)) / of_int (s * s))%Qc.

(* the tile at [q] and all those above it meet [B] and pass the check for sparse images;
   the tree has [levels] levels *)
Definition visible (ts : Z) (levels : nat) (B : box) (sparse : box -> bool) (q : list Z) : Prop :=
  forall p s, q = p ++ s ->
    let r := region ts (levels - 1 - length p) p in bempty (bcrop r B) = false /\ sparse r = true.

(* the pixels shown by the tile, in the grid of its level: all, or those covered by the data;
   nothing if there are none *)
Definition tile_box (ts : Z) (q : list Z) : box := box_of (qcol q * ts) (qrow q * ts) ts ts.
Definition data_box (j : nat) (b : box) : box :=
  let s := 2 ^ Z.of_nat j in Box (x0 b / s) (y0 b / s) (x1 b / s) (y1 b / s).
Definition shown (crop cull : bool) (T D : box) : option box :=
  if crop then if bempty D then None else Some D
  else if cull then if bempty D then None else Some T
  else Some T.

(* the pixels of the source a tile claims to show: the part of its region that has data, or, if
   some of that was cut off, what the pixels shown stand for *)
Definition described (crop cull : bool) (j : nat) (T D I b : box) : Prop :=
  let s := 2 ^ Z.of_nat j in
  (crop = false /\ cull = false \/ D = T -> b = I) /\
  ((crop = true \/ cull = true) -> D <> T -> b = Box (x0 D * s) (y0 D * s) (x1 D * s) (y1 D * s)).

(* the tile at [q] of a tree whose root is [N] levels above full resolution, cut from the part
   [B] of an image with the levels [P] *)
Definition tile_is (P : nat -> Z -> Z -> Qc) (ts : Z) (crop cull : bool) (B : box) (N : nat) (q : list Z) (a : tile) : Prop :=
  let j := (N - length q)%nat in
  let r := region ts j q in
  let T := tile_box ts q in
  let D := data_box j (bcrop r B) in
  t_name a = name_of q /\ t_region_bbox a = r /\
  exists b, shown crop cull T D = Some b /\ holds (t_image a) b (P j) /\
    described crop cull j T D (bcrop r B) (t_image_bbox a).

(* the settings used: an even tile size, the default way to branch, and a check for sparse images
   that rejects black regions only *)
Definition well_set (c : config) (source : img Qc) : Prop :=
  0 < tile_size c /\ Z.even (tile_size c) = true /\
  (forall n r, branch_func c n r = default_branch (tile_size c) n r) /\
  icols source = width c /\ irows source = height c /\ 0 <= width c /\ 0 <= height c /\
  forall b x y, sparse_image_check c b = false -> inb b x y -> padded (whole c) (pix source) x y = 0%Qc.

(* how many levels the root is above full resolution: the least number of doublings after which a
   tile covers the image *)
Definition is_height (ts w h : Z) (N : nat) : Prop :=
  Z.max w h <= ts * 2 ^ Z.of_nat N /\ forall k : nat, Z.max w h <= ts * 2 ^ Z.of_nat k -> (N <= k)%nat.

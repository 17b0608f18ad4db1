(* Model of src/vw/Mosaic/QuadTreeGenerator.h and QuadTreeGenerator.cc: cutting an image into a
   tree of tiles.

   Simplifications: pixels are scalars without an alpha channel; see Conv.Model for arithmetic.
   The progress callback never aborts.  Writing a tile always succeeds; what is written is
   collected in a list.  The file type is not "auto" and is left out, as is the metadata
   function, which is called with the same information.  int32 arithmetic does not overflow. *)
From Coq Require Import ZArith List Lia Bool QArith Qcanon Ascii String.
From Verif Require Import Lib.Base Lib.Str Lib.Img BBox.Box2 Edge.Model Conv.Model.
Import ListNotations.
Local Open Scope Z_scope.

Definition view_of (i : img Qc) : view Qc := View (icols i) (irows i) (get i).

(* QuadTreeGenerator.h:57-68 box_subsample.  The overload of rasterize for images that can be
   resized is taken (ImageViewBase.h:337-342): the size of the result is that of the subsampled
   view (Manipulation.h:238-243), and pixels are read one by one (Manipulation.h:249-251). *)
Definition box_subsample (t : chan) (image : img Qc) (sx sy : Z) : res (img Qc) :=
  let xkernel := repeat (1 / of_int sx)%Qc (Z.to_nat sx) in
  let ykernel := repeat (1 / of_int sy)%Qc (Z.to_nat sy) in
  _ <- cdiv (icols image) sx ;;
  _ <- cdiv (irows image) sy ;;
  if negb ((0 <? sx) && (0 <? sy)) then Throw ArgumentErr
  else
    let c := 1 + Z.quot (icols image - 1) sx in
    let r := 1 + Z.quot (irows image - 1) sy in
    rasterize (fun i j => sep_op t MConstant (view_of image) xkernel ykernel (sx - 1) (sy - 1) (sx * i) (sy * j))
      (Img c r (fun _ _ => 0%Qc)) (box_of 0 0 c r).

(* BBox.tcc:353-357 elem_quot, 346-350 elem_prod *)
Definition bquot (b : box) (sx sy : Z) : res box :=
  if bempty b then Ok box_default
  else x0 <- cdiv (x0 b) sx ;; y0 <- cdiv (y0 b) sy ;; x1 <- cdiv (x1 b) sx ;; y1 <- cdiv (y1 b) sy ;; Ok (Box x0 y0 x1 y1).
Definition bprod (b : box) (sx sy : Z) : box :=
  if bempty b then box_default else Box (x0 b * sx) (y0 b * sy) (x1 b * sx) (y1 b * sy).
(* BBox.tcc:269-277, operator/ by a number other than zero *)
Definition bdiv (b : box) (k : Z) : box :=
  if bempty b then b else Box (Z.quot (x0 b) k) (Z.quot (y0 b) k) (Z.quot (x1 b) k) (Z.quot (y1 b) k).

(* QuadTreeGenerator.h:74-77 TileInfo, with the image that is written *)
Record tile := Tile { t_name : str; t_image_bbox : box; t_region_bbox : box; t_image : img Qc }.

(* The members of QuadTreeGenerator, h:346-360 *)
Record config := Config {
  tile_size : Z; crop_bbox : box; crop_images : bool; cull_images : bool; width : Z; height : Z;
  branch_func : str -> box -> list (str * box);
  sparse_image_check : box -> bool }.

(* QuadTreeGenerator.cc:67-79 default_branch_func *)
Definition default_branch (ts : Z) (name : str) (region : box) : list (str * box) :=
  if (bw region >? ts) && (bh region >? ts) then
    [ (name ++ lit "0", bdiv (bshift region (x0 region) (y0 region)) 2);
      (name ++ lit "1", bdiv (bshift region (x1 region) (y0 region)) 2);
      (name ++ lit "2", bdiv (bshift region (x0 region) (y1 region)) 2);
      (name ++ lit "3", bdiv (bshift region (x1 region) (y1 region)) 2) ]
  else [].

Fixpoint each {A S : Type} (body : A -> S -> res S) (l : list A) (s : S) : res S :=
  match l with [] => Ok s | a :: l => s <- body a s ;; each body l s end.

(* crop(image,bbox) = src: Manipulation.h:128-133, 102-107 *)
Definition assign_crop (image : img Qc) (b : box) (src : img Qc) : res (img Qc) :=
  if negb ((icols src =? bw b) && (irows src =? bh b)) then Throw ArgumentErr
  else for_up 0 (irows src) (fun r d => for_up 0 (icols src) (fun c d =>
         q <- get src c r ;; put d (x0 b + c) (y0 b + r) q) d) image.

(* image = crop(src,bbox) *)
Definition crop_copy (src : img Qc) (b : box) : res (img Qc) :=
  rasterize (fun i j => get src (x0 b + i) (y0 b + j)) (Img (bw b) (bh b) (fun _ _ => 0%Qc)) (box_of 0 0 (bw b) (bh b)).

(* image = subsample(image,sx,sy): Manipulation.h:231-251 *)
Definition subsample_copy (src : img Qc) (sx sy : Z) : res (img Qc) :=
  if negb ((0 <? sx) && (0 <? sy)) then Throw ArgumentErr
  else
    let c := 1 + Z.quot (icols src - 1) sx in
    let r := 1 + Z.quot (irows src - 1) sy in
    rasterize (fun i j => get src (sx * i) (sy * j)) (Img c r (fun _ _ => 0%Qc)) (box_of 0 0 c r).

Definition no_image : img Qc := Img 0 0 (fun _ _ => 0%Qc).
Definition black (n : Z) : img Qc := Img n n (fun _ _ => 0%Qc).
(* ImageView.h is_valid_image *)
Definition is_valid (i : img Qc) : bool := negb ((icols i =? 0) || (irows i =? 0)).

Definition beq (a b : box) : bool := (x0 a =? x0 b) && (y0 a =? y0 b) && (x1 a =? x1 b) && (y1 a =? y1 b).

(* QuadTreeGenerator.h:242-244: the part of the image that is cut into tiles *)
Definition whole (c : config) : box :=
  let b := Box 0 0 (width c) (height c) in
  if bempty (crop_bbox c) then b else bcrop b (crop_bbox c).

(* QuadTreeGenerator.h:263-271: a tile at full resolution *)
Definition leaf (c : config) (source : img Qc) (region image_bbox : box) (sx sy : Z) : res (img Qc) :=
  image <- crop_copy source image_bbox ;;
  image <- (if beq image_bbox region then Ok image
            else extended_copy (MZero 0%Qc) (view_of image) (bshift region (- x0 image_bbox) (- y0 image_bbox))) ;;
  if negb (bw region =? tile_size c) || negb (bh region =? tile_size c) then subsample_copy image sx sy else Ok image.

(* QuadTreeGenerator.h:297-315: what is written, and its bounding box *)
Definition cropped (c : config) (image : img Qc) (region image_bbox : box) (sx sy : Z) : res (img Qc * box) :=
  if crop_images c || cull_images c then
    data <- bquot (bshift image_bbox (- x0 region) (- y0 region)) sx sy ;;
    if negb (bw data =? tile_size c) || negb (bh data =? tile_size c) then
      im <- (if bempty data then Ok no_image else if crop_images c then crop_copy image data else Ok image) ;;
      Ok (im, bshift (bprod data sx sy) (x0 region) (y0 region))
    else Ok (image, image_bbox)
  else Ok (image, image_bbox).

(* QuadTreeGenerator.h:276-294: one child is generated, reduced and copied into the tile *)
Definition add_child (ts : Z) (t : chan) (gen : str -> box -> res (img Qc * list tile)) (region image_bbox : box) (sx sy : Z)
    (child : str * box) (s : img Qc * list tile) : res (img Qc * list tile) :=
  let '(child_name, child_region) := child in
  let '(image, out) := s in
  if bempty (bcrop child_region image_bbox) then Ok (image, out)
  else
    '(child, written) <- gen child_name child_region ;;
    if negb (is_valid child) then Ok (image, out ++ written)
    else
      dst <- bquot (bshift child_region (- x0 region) (- y0 region)) sx sy ;;
      fx <- cdiv ts (bw dst) ;; fy <- cdiv ts (bh dst) ;;
      small <- box_subsample t child fx fy ;;
      image <- assign_crop image dst small ;;
      Ok (image, out ++ written).

(* QuadTreeGenerator.h:233-340 generate_branch, with a bound on the depth; the result is the
   image of the tile and the tiles written, in order *)
Fixpoint generate_branch (c : config) (t : chan) (source : img Qc) (fuel : nat) (name : str) (region : box)
  : res (img Qc * list tile) :=
  match fuel with
  | O => UB NoTerm
  | S fuel =>
      let ts := tile_size c in
      let image_bbox := bcrop region (whole c) in
      if bempty image_bbox then
        Ok (if negb (crop_images c || cull_images c) then black ts else no_image, [])
      else if negb (sparse_image_check c region) then Ok (no_image, [])
      else
        sx <- cdiv (bw region) ts ;; sy <- cdiv (bh region) ts ;;
        '(image, out) <-
          match branch_func c name region with
          | [] => im <- leaf c source region image_bbox sx sy ;; Ok (im, [])
          | children => each (add_child ts t (generate_branch c t source fuel) region image_bbox sx sy) children (black ts, [])
          end ;;
        '(shown, shown_bbox) <- cropped c image region image_bbox sx sy ;;
        Ok (image, if is_valid shown then out ++ [Tile name shown_bbox region shown] else out)
  end.

(* QuadTreeGenerator.h:131-137 get_tree_levels.  The logarithms are exact: ceil(log(q)/log(2))
   for the quotient q of positive numbers. *)
Definition get_tree_levels (ts w h : Z) : Z :=
  let levels := 1 + Z.log2_up ((Z.max w h + ts - 1) / ts) in
  if levels <? 1 then 1 else levels.

(* QuadTreeGenerator.cc:86-98 generate *)
Definition generate (c : config) (t : chan) (source : img Qc) : res (list tile) :=
  let levels := get_tree_levels (tile_size c) (width c) (height c) in
  let k := 2 ^ (levels - 1) in
  '(_, out) <- generate_branch c t source (Z.to_nat levels + 1) [] (Box 0 0 (tile_size c * k) (tile_size c * k)) ;;
  Ok out.

(** ** Paths *)

Local Open Scope char_scope.
(* boost::filesystem::path::operator/= for an argument that is not empty and is relative *)
Definition pappend (p x : str) : str :=
  match rev p with
  | [] => x
  | c :: _ => if Ascii.eqb c "/" then p ++ x else p ++ ["/"] ++ x
  end.
(* QuadTreeGenerator.cc:29-33 *)
Definition simple_path (tree name : str) : str := pappend tree (["r"] ++ name).

(* QuadTreeGenerator.cc:40-42, 55-57: one directory for every [l] characters, as long as more
   than [l] are left *)
Fixpoint tiers (fuel l : nat) (rest path : str) : str :=
  match fuel with
  | O => path
  | S fuel => if (l <? List.length rest)%nat then tiers fuel l (skipn l rest) (pappend path (firstn l rest)) else path
  end.
(* QuadTreeGenerator.cc:35-46; the default for [l] is 3 *)
Definition tiered_path (tree name : str) (l : nat) : str :=
  let rname := ["r"] ++ name in
  pappend (tiers (List.length rname) l rname tree) rname.

(* boost::filesystem: path(p).replace_extension("").filename(), for a path that does not end
   in a separator *)
Fixpoint after_slash (p : str) : str :=   (* of the reversed path *)
  match p with [] => [] | c :: p => if Ascii.eqb c "/" then [] else c :: after_slash p end.
Fixpoint drop_extension (p : str) : str :=   (* of the reversed filename *)
  match p with [] => [] | c :: p => if Ascii.eqb c "." then p else drop_extension p end.
Definition stem (p : str) : str :=
  let f := after_slash (rev p) in
  rev (if existsb (Ascii.eqb ".") f then drop_extension f else f).
(* QuadTreeGenerator.cc:48-62 *)
Definition named_tiered_path (tree name : str) (l : nat) : str :=
  match name with
  | [] => pappend tree (stem tree)
  | _ => pappend (tiers (List.length name) l name tree) name
  end.

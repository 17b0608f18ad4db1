(* Model of src/vw/Image/BlobIndex.h: blob::BlobIndex, the single tile labelling
   of 8-connected blobs of valid pixels.

   boost::connected_components is a parameter; BIndex/Spec.v says what is assumed
   of it.  Pixel accessors are modelled by coordinates. *)
From Coq Require Import ZArith List Lia Bool.
From Verif Require Import Lib.Base Lib.Lists Lib.Img Blob.Model.
Import ListNotations.
Local Open Scope Z_scope.

(* the label image, m_blob_count, and the edges of [connections] in the order they were added *)
Record lstate := LS { dst : img Z; count_ : Z; edges : list (Z * Z) }.

(* BlobIndex.h:195-200 and the same lines at 204-209, 218-223, 229-234: one earlier
   neighbour at (x, y).  The label of the current pixel (d) is kept beside the image
   until the pixel is done; the neighbours are other pixels. *)
Definition visit (m : img bool) (s : lstate) (x y : Z) (de : Z * list (Z * Z)) : res (Z * list (Z * Z)) :=
  v <- get m x y ;;
  if (v : bool) then
    l <- get (dst s) x y ;;
    let '(d, es) := de in
    Ok (if negb (d =? 0) && negb (d =? l) then (d, es ++ [(l, d)]) else (l, es))
  else Ok de.

(* BlobIndex.h:143-147 *)
Definition label_corner (m : img bool) (s : lstate) : res lstate :=
  v <- get m 0 0 ;;
  if (v : bool) then i <- put (dst s) 0 0 (count_ s) ;; Ok (LS i (count_ s + 1) (edges s)) else Ok s.

(* BlobIndex.h:153-160 *)
Definition label_top (m : img bool) (c : Z) (s : lstate) : res lstate :=
  v <- get m c 0 ;;
  if (v : bool) then
    p <- get m (c - 1) 0 ;;
    if (p : bool) then l <- get (dst s) (c - 1) 0 ;; i <- put (dst s) c 0 l ;; Ok (LS i (count_ s) (edges s))
    else i <- put (dst s) c 0 (count_ s) ;; Ok (LS i (count_ s + 1) (edges s))
  else Ok s.

(* BlobIndex.h:187-244 *)
Definition label_pixel (m : img bool) (r c : Z) (s : lstate) : res lstate :=
  v <- get m c r ;;
  if (v : bool) then
    d0 <- get (dst s) c r ;;
    de1 <- (if negb (c =? 0) then
              de <- visit m s (c - 1) r (d0, edges s) ;; visit m s (c - 1) (r - 1) de
            else Ok (d0, edges s)) ;;
    de2 <- visit m s c (r - 1) de1 ;;
    '(d, es) <- (if negb (c =? icols m - 1) then visit m s (c + 1) (r - 1) de2 else Ok de2) ;;
    if d =? 0 then i <- put (dst s) c r (count_ s) ;; Ok (LS i (count_ s + 1) es)
    else i <- put (dst s) c r d ;; Ok (LS i (count_ s) es)
  else Ok s.

(* BlobIndex.h:127-257 *)
Definition label_image (m : img bool) : res lstate :=
  s0 <- label_corner m (LS (Img (icols m) (irows m) (fun _ _ => 0)) 1 []) ;;
  s1 <- for_up 1 (icols m) (label_top m) s0 ;;
  for_up 1 (irows m) (fun r s => for_up 0 (icols m) (label_pixel m r) s) s1.

(* m_c_blob[index-1].add_row(...) *)
Definition add_to (bl : list blob) (index x y w : Z) : res (list blob) :=
  match nth_error bl (Z.to_nat (index - 1)) with
  | Some b => if index <? 1 then UB OutOfBounds else b' <- add_row b x y w ;; Ok (upd bl (Z.to_nat (index - 1)) b')
  | None => UB OutOfBounds
  end.

(* building_segment, start_col, index and m_c_blob *)
Record rstate := RS { building : bool; start_col : Z; index : Z; blobs : list blob }.

(* BlobIndex.h:280-294 *)
Definition rle_pixel (dst : img Z) (comp : Z -> Z) (r c : Z) (s : rstate) : res rstate :=
  d <- get dst c r ;;
  if negb (d =? 0) then
    if building s && negb (index s =? comp d) then Throw LogicErr
    else if negb (building s) then Ok (RS true c (comp d) (blobs s))
    else Ok s
  else if building s then
    bl <- add_to (blobs s) (index s) (start_col s) r (c - start_col s) ;; Ok (RS false (start_col s) (index s) bl)
  else Ok s.

(* BlobIndex.h:271-303 *)
Definition rle_row (dst : img Z) (comp : Z -> Z) (r : Z) (bl : list blob) : res (list blob) :=
  s <- for_up 0 (icols dst) (rle_pixel dst comp r) (RS false 0 0 bl) ;;
  if building s then add_to (blobs s) (index s) (start_col s) r (icols dst - start_col s) else Ok (blobs s).

(* BlobIndex.h:119-306: the label image and the blobs.  [cc n edges] is
   boost::connected_components on vertices 0..n-1: the component of each vertex and
   the number of components. *)
Definition blob_index (cc : Z -> list (Z * Z) -> (Z -> Z) * Z) (planes : Z) (m : img bool) : res (img Z * list blob) :=
  if 1 <? planes then Throw NoImplErr else
  s <- label_image m ;;
  let '(comp, k) := cc (count_ s) (edges s) in
  bl <- for_up 0 (irows m) (rle_row (dst s) comp) (repeat empty_blob (Z.to_nat (k - 1))) ;;
  Ok (dst s, bl).

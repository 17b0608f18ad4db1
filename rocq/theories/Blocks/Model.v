(* Model of region subdivision and block processing:
   src/vw/Image/AlgorithmFunctions.cc, src/vw/Image/BlockProcessor.h,
   src/vw/Image/BlockRasterize.h.
   Simplification: int32 arithmetic does not overflow. *)
From Coq Require Import ZArith List Lia Bool.
From Verif Require Import Lib.Base BBox.Box2.
Import ListNotations.
Local Open Scope Z_scope.

(* ------------------------------------------------------------------ *)
(* AlgorithmFunctions.cc:55-75 inner loop over i_offset.  [w] is
   object.width(), [oy] is j_offset + object.min().y().  Running out of fuel
   stands for a loop that does not end. *)
Fixpoint sub_cols (fuel : nat) (ox w blk : Z) (incl full : bool) (oy jdim : Z) (i : Z) : res (list box) :=
  match fuel with
  | O => UB NoTerm
  | S f =>
    if i <? w then
      if w - i <? blk then
        if negb incl then sub_cols f ox w blk incl full oy jdim (i + blk)
        else
          let idim := if full then blk else w - i in
          let i' := if full then w - blk else i in
          r <- sub_cols f ox w blk incl full oy jdim (i' + blk) ;;
          Ok (box_of (i' + ox) oy idim jdim :: r)
      else
        r <- sub_cols f ox w blk incl full oy jdim (i + blk) ;;
        Ok (box_of (i + ox) oy blk jdim :: r)
    else Ok []
  end.

(* AlgorithmFunctions.cc:38-76 outer loop over j_offset *)
Fixpoint sub_rows (fuel : nat) (o : box) (bwid bhei : Z) (incl full : bool) (j : Z) : res (list box) :=
  match fuel with
  | O => UB NoTerm
  | S f =>
    let h := bh o in
    let cols y jd := sub_cols (S (Z.to_nat (bw o))) (x0 o) (bw o) bwid incl full y jd 0 in
    if j <? h then
      if h - j <? bhei then
        if negb incl then sub_rows f o bwid bhei incl full (j + bhei)
        else
          let jdim := if full then bhei else h - j in
          let j' := if full then h - bhei else j in
          r1 <- cols (j' + y0 o) jdim ;;
          r2 <- sub_rows f o bwid bhei incl full (j' + bhei) ;;
          Ok (r1 ++ r2)
      else
        r1 <- cols (j + y0 o) bhei ;;
        r2 <- sub_rows f o bwid bhei incl full (j + bhei) ;;
        Ok (r1 ++ r2)
    else Ok []
  end.

(* AlgorithmFunctions.cc:27-78.  The fuel is the number of iterations that any
   loop with positive steps can make; a non-positive block size exhausts it. *)
Definition subdivide_bbox (o : box) (bwid bhei : Z) (incl full : bool) : res (list box) :=
  if negb incl && full then Throw LogicErr
  else sub_rows (S (Z.to_nat (bh o))) o bwid bhei incl full 0.

(* ------------------------------------------------------------------ *)
(* BlockProcessor.h:117-119 *)
Definition round_down (val md : Z) : Z :=
  val + (if val >=? 0 then - (Z.rem val md) else Z.rem (- val - 1) md - md + 1).

(* BlockProcessor.h:72-125 class Info: the shared description of the work.
   m_total_bbox and m_block_size are constant; the state is m_block_bbox. *)
Section Info.
  Variables (total : box) (bx by_ : Z).

  (* BlockProcessor.h:74-77 *)
  Definition info_init : box :=
    box_of (round_down (x0 total) bx) (round_down (y0 total) by_) bx by_.
  (* BlockProcessor.h:80-84 *)
  Definition info_bbox (blk : box) : box := bcrop blk total.
  (* BlockProcessor.h:92-94 *)
  Definition info_complete (blk : box) : bool := y0 blk >=? y1 total.
  (* BlockProcessor.h:102-110 *)
  Definition info_advance (blk : box) : box :=
    let nx := x0 blk + bx in
    if nx >=? x1 total then
      let nx' := round_down (x0 total) bx in
      let ny := y0 blk + by_ in
      Box nx' ny (nx' + bx) (ny + by_)
    else Box nx (y0 blk) (nx + bx) (y1 blk).

  (* BlockProcessor.h:129-143: a worker is about to take the lock, or runs the
     function on a box, or has returned. *)
  Inductive worker := Ready | Running (b : box) | Done.

  (* Shared state: m_block_bbox, workers, and the boxes on which the function
     has completed, newest first. *)
  Record bstate := mkS { blk : box; workers : list worker; calls : list box }.

  (* Replace element k of a list. *)
  Fixpoint upd {A} (k : nat) (a : A) (l : list A) : list A :=
    match l, k with
    | [], _ => []
    | _ :: l', O => a :: l'
    | x :: l', S k' => x :: upd k' a l'
    end.

  (* One step of worker k.  The critical section 135-139 is one step because
     the mutex is held; the call of the function is another. *)
  Inductive bstep (s : bstate) : nat -> bstate -> Prop :=
  | step_exit k : nth_error (workers s) k = Some Ready -> info_complete (blk s) = true ->
      bstep s k (mkS (blk s) (upd k Done (workers s)) (calls s))
  | step_take k : nth_error (workers s) k = Some Ready -> info_complete (blk s) = false ->
      bstep s k (mkS (info_advance (blk s)) (upd k (Running (info_bbox (blk s))) (workers s)) (calls s))
  | step_call k b : nth_error (workers s) k = Some (Running b) ->
      bstep s k (mkS (blk s) (upd k Ready (workers s)) (b :: calls s)).

  (* BlockProcessor.h:151-174: n workers are started on one Info *)
  Definition binit (n : nat) : bstate := mkS info_init (repeat Ready n) [].

  Inductive bsteps : bstate -> list nat -> bstate -> Prop :=
  | bsteps_nil s : bsteps s [] s
  | bsteps_cons s k s1 tr s2 : bstep s k s1 -> bsteps s1 tr s2 -> bsteps s (k :: tr) s2.
End Info.

(* ------------------------------------------------------------------ *)
(* BlockProcessor.h:227-345 BlockGeneratorManager *)
Section Manager.
  Variables (cols rows : Z) (bx by_ : Z).
  (* BlockProcessor.h:257-258 *)
  Definition table_width : Z := Z.quot (cols - 1) bx + 1.
  Definition table_height : Z := Z.quot (rows - 1) by_ + 1.
  (* BlockProcessor.h:268-271 region of block (ix,iy) *)
  Definition block_bbox (ix iy : Z) : box :=
    bcrop (box_of (ix * bx) (iy * by_) bx by_) (box_of 0 0 cols rows).
  (* BlockProcessor.h:279-281 *)
  Definition get_block_index (x y : Z) : Z * Z := (Z.quot x bx, Z.quot y by_).
  (* BlockProcessor.h:296-299 *)
  Definition get_block_start_pixel (i : Z * Z) : Z * Z := (fst i * bx, snd i * by_).
  (* BlockProcessor.h:302-308 *)
  Definition check_block_index (i : Z * Z) : bool :=
    negb ((fst i <? 0) || (fst i >=? table_width) || (snd i <? 0) || (snd i >=? table_height)).

  Variable A : Type.
  Variable child : Z -> Z -> A.

  (* A rasterised block (BlockProcessor.h:218-222): an image of the size of the
     region holding the child's pixels; reads outside it are undefined. *)
  Record blockimg := mkImg { iw : Z; ih : Z; ipx : Z -> Z -> A }.
  Definition generate (b : box) : blockimg :=
    mkImg (bw b) (bh b) (fun i j => child (x0 b + i) (y0 b + j)).
  Definition img_read (m : blockimg) (i j : Z) : res A :=
    if (0 <=? i) && (i <? iw m) && (0 <=? j) && (j <? ih m) then Ok (ipx m i j) else UB OutOfBounds.

  (* BlockProcessor.h:311-316 block(index): checked table access, giving the
     block's image.  The cache only decides when the image is generated. *)
  Definition block (i : Z * Z) : res blockimg :=
    if check_block_index i then Ok (generate (block_bbox (fst i) (snd i))) else Throw ArgumentErr.

  (* BlockRasterize.h:74-100 operator() with a cache *)
  Definition view_read (x y : Z) : res A :=
    if table_width * table_height =? 1 then img_read (generate (block_bbox 0 0)) x y
    else
      let idx := get_block_index x y in
      m <- block idx ;;
      let st := get_block_start_pixel idx in
      img_read m (x - fst st) (y - snd st).

  (* Destination image: what has been written where.  Coordinates relative to
     the destination, whose origin is the minimal corner of the request. *)
  Definition dest := Z -> Z -> option A.

  (* BlockRasterize.h:138-154 RasterizeFunctor::operator() with a cache: copy
     the pixels of [b] from the block; BlockRasterize.h:152-153 without.
     The pixel loop is vw::rasterize (ImageViewBase.h). *)
  Definition copy_px (src : Z -> Z -> res A) (b : box) (ox oy : Z) (d : dest) : res dest :=
    for_up (y0 b) (y1 b) (fun y d =>
      for_up (x0 b) (x1 b) (fun x d =>
        v <- src x y ;;
        Ok (fun i j => if (i =? x - ox) && (j =? y - oy) then Some v else d i j)) d) d.

  Definition functor_cached (b : box) (ox oy : Z) (d : dest) : res dest :=
    let idx := get_block_index (x0 b) (y0 b) in
    m <- block idx ;;
    let st := get_block_start_pixel idx in
    copy_px (fun x y => img_read m (x - fst st) (y - snd st)) b ox oy d.

  Definition functor_direct (b : box) (ox oy : Z) (d : dest) : res dest :=
    copy_px (fun x y => Ok (child x y)) b ox oy d.

  (* The effect of a sequence of completed calls, oldest first. *)
  Fixpoint run_calls (f : box -> Z -> Z -> dest -> res dest) (l : list box) (ox oy : Z) (d : dest) : res dest :=
    match l with
    | [] => Ok d
    | b :: l' => d' <- f b ox oy d ;; run_calls f l' ox oy d'
    end.
End Manager.

(* BlockProcessor.h:182-195 get_default_block_size: block of full width and
   default_blocksize bytes.  Division by a zero row size is undefined. *)
Definition get_default_block_size (rows cols planes psize : Z) : res (Z * Z) :=
  br <- cdiv (2*1024*1024) (planes * cols * psize) ;;
  Ok (cols, if br <? 1 then 1 else if br >? rows then rows else br).

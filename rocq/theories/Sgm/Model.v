(* Semi-global matching: disparity indices, the accumulated costs along one path,
   the pass over one line of pixels and the sum over the eight directions.
   src/vw/Stereo/SGM.h, SGM.cc, SGMAssist.h.  Buffers are lists; reading or
   writing outside of one is undefined behaviour.  Costs are unsigned 8 bit,
   accumulated costs unsigned 16 bit (SGM.h:81-82, CostType and AccumCostType);
   [int] and [size_t] arithmetic is unbounded here. *)
From Coq Require Import ZArith List Bool Lia.
From Verif Require Import Lib.Base Lib.Lists ImgMem.Model Lib.Img.
Import ListNotations.
Local Open Scope Z_scope.

Definition u16 (z : Z) : Z := z mod 65536.
Definition rd (l : list Z) (i : Z) : res Z :=
  if (0 <=? i) && (i <? Z.of_nat (length l)) then Ok (nth (Z.to_nat i) l 0) else UB OutOfBounds.
Definition wr (l : list Z) (i v : Z) : res (list Z) :=
  if (0 <=? i) && (i <? Z.of_nat (length l)) then Ok (upd l (Z.to_nat i) v) else UB OutOfBounds.

(* Vector4i of the image of search bounds: first and last column disparity, first
   and last row disparity, inclusive.  SGM.h:187 *)
Record box := Box { bx0 : Z; by0 : Z; bx1 : Z; by1 : Z }.

(* the members of SemiGlobalMatcher read below.  SGM.h:160-200 *)
Record sgm := Sgm {
  mnx : Z; mny : Z; mxx : Z; mxy : Z;     (* m_min_disp_x .. m_max_disp_y *)
  p1 : Z; p2 : Z;                          (* m_p1, m_p2 *)
  ocols : Z; orows : Z;                    (* m_num_output_cols, m_num_output_rows *)
  mincol : Z; minrow : Z;                  (* m_min_col, m_min_row *)
  bnd : img box                            (* m_disp_bound_image *)
}.

(* SGM.cc:106-160, the part of set_parameters which chooses the penalties *)
Inductive cost_kind := Census | Ternary | MeanDiff.
Definition choose_p1 (k : cost_kind) (kernel p : Z) : Z :=
  if 0 <? p then p
  else match k with
       | Census => if kernel =? 3 then 3 else if kernel =? 5 then 15
                   else if kernel =? 7 then 30 else if kernel =? 9 then 20 else 3
       | Ternary => if kernel =? 3 then 12 else if kernel =? 5 then 30
                    else if kernel =? 7 then 40 else if kernel =? 9 then 40 else 30
       | MeanDiff => 3
       end.
Definition choose_p2 (k : cost_kind) (kernel p : Z) : Z :=
  if 0 <? p then p
  else match k with
       | Census => if kernel =? 3 then 70 else if kernel =? 5 then 750
                   else if kernel =? 7 then 1500 else if kernel =? 9 then 1000 else 22
       | Ternary => if kernel =? 3 then 600 else if kernel =? 5 then 1500
                    else if kernel =? 7 then 2000 else if kernel =? 9 then 2000 else 30
       | MeanDiff => 250
       end.

Section S.
Variable g : sgm.

(* SGM.cc:99-104 *)
Definition ndx : Z := mxx g - mnx g + 1.
Definition ndy : Z := mxy g - mny g + 1.
Definition nd : Z := ndx * ndy.
(* SGM.h:240 get_bad_accum_val: numeric_limits<uint8>::max() + m_p2 as uint16 *)
Definition bad : Z := u16 (255 + p2 g).
(* SGM.h:244-247 get_num_disparities *)
Definition box_size (b : box) : Z := (bx1 b - bx0 b + 1) * (by1 b - by0 b + 1).
(* SGM.cc:2723-2726 xy_to_disp *)
Definition xy_to_disp (dx dy : Z) : Z := (dy - mny g) * ndx + (dx - mnx g).
(* SGM.cc:2730-2734 disp_to_xy *)
Definition disp_to_xy (d : Z) : res (Z * Z) :=
  y <- cdiv d ndx ;; x <- crem d ndx ;; Ok (x + mnx g, y + mny g).
(* SGM.cc:2737-2745 disp_index_to_xy, given the bounds of the pixel *)
Definition disp_index_to_xy (i : Z) (b : box) : res (Z * Z) :=
  let w := bx1 b - bx0 b + 1 in
  y <- cdiv i w ;; Ok (i - y * w + bx0 b, y + by0 b).

(* SGM.cc:755-802 populate_adjacent_disp_lookup_table; [resize] zero-fills *)
Definition clamp_less (v lo : Z) : Z := if v - 1 <? lo then v else v - 1.
Definition clamp_more (v hi : Z) : Z := if v + 1 >? hi then v else v + 1.
Definition table_row (dx dy d : Z) (t : list Z) : res (list Z) :=
  let yl := clamp_less dy (mny g) - mny g in
  let yo := dy - mny g in
  let ym := clamp_more dy (mxy g) - mny g in
  let xl := clamp_less dx (mnx g) - mnx g in
  let xo := dx - mnx g in
  let xm := clamp_more dx (mxx g) - mnx g in
  t <- wr t (d * 8 + 0) (yl * ndx + xo) ;;
  t <- wr t (d * 8 + 1) (yo * ndx + xl) ;;
  t <- wr t (d * 8 + 2) (yo * ndx + xm) ;;
  t <- wr t (d * 8 + 3) (ym * ndx + xo) ;;
  t <- wr t (d * 8 + 4) (yl * ndx + xl) ;;
  t <- wr t (d * 8 + 5) (yl * ndx + xm) ;;
  t <- wr t (d * 8 + 6) (ym * ndx + xl) ;;
  wr t (d * 8 + 7) (ym * ndx + xm).
Definition lookup_table : res (list Z) :=
  r <- for_up (mny g) (mxy g + 1) (fun dy s =>
         for_up (mnx g) (mxx g + 1) (fun dx s =>
           t <- table_row dx dy (fst s) (snd s) ;; Ok (fst s + 1, t)) s)
       (0, repeat 0 (Z.to_nat (nd * 8))) ;;
  Ok (snd r).

(* The loop over the disparities of a box used three times by evaluate_path:
     for (int dy=b[1]; dy<=b[3]; ++dy) {
       int full = xy_to_disp(b[0], dy);
       for (int dx=b[0]; dx<=b[2]; ++dx) { body; ++full; } }
   SGM.cc:833-848, 854-896, 921-930 *)
Definition box_loop {A : Type} (b : box) (body : Z -> A -> res A) (s : A) : res A :=
  for_up (by0 b) (by1 b + 1) (fun dy s =>
    r <- for_up (bx0 b) (bx1 b + 1) (fun _ r =>
           s <- body (fst r) (snd r) ;; Ok (fst r + 1, s)) (xy_to_disp (bx0 b) dy, s) ;;
    Ok (snd r)) s.

(* SGM.cc:814-819 *)
Definition p2_mod (grad : Z) : Z :=
  let m := if 0 <? grad then p2 g / grad else p2 g in
  if m <? p1 g then p1 g else m.

(* SGM.cc:829-849: copy the costs of the previous pixel, [buf] from index [po],
   into the full size buffer; also their minimum. *)
Definition load_prior (bp : box) (buf : list Z) (po : Z) (full : list Z) : res (Z * list Z) :=
  r <- box_loop bp (fun fi s =>
         let '(d, mn, full) := s in
         v <- rd buf (po + d) ;;
         full <- wr full fi v ;;
         Ok (d + 1, if v <? mn then v else mn, full)) (0, bad, full) ;;
  let '(_, mn, full) := r in Ok (mn, full).
(* SGM.cc:920-930 *)
Definition reset_prior (bp : box) (full : list Z) : res (list Z) :=
  box_loop bp (fun fi full => wr full fi bad) full.

(* SGM.cc:872-879: the least of the eight neighbours found through the table *)
Definition neighbour (t full : list Z) (fd k : Z) : res Z := i <- rd t (fd * 8 + k) ;; rd full i.
Definition lowest_adjacent (t full : list Z) (fd : Z) : res Z :=
  v <- neighbour t full fd 0 ;;
  for_up 1 8 (fun k low => v <- neighbour t full fd k ;; Ok (Z.min low v)) v.

(* SGM.cc:805-933 evaluate_path, the version without SSE instructions.  [b] and
   [bp] are the bounds of the pixel and of the previous pixel, the output goes to
   [buf] from index [oo], the local costs are [cost] from index [lo]. *)
Definition evaluate_path (t : list Z) (b bp : box) (buf : list Z) (po : Z) (full : list Z)
    (cost : list Z) (lo oo grad : Z) : res (list Z * list Z) :=
  r <- load_prior bp buf po full ;;
  let '(mn, full) := r in
  let jump := u16 (mn + p2_mod grad) in
  r <- box_loop b (fun fd s =>
         let '(pd, buf) := s in
         same <- rd full fd ;;
         adj <- lowest_adjacent t full fd ;;
         let low := Z.min (Z.min same (u16 (adj + p1 g))) jump in
         c <- rd cost (lo + pd) ;;
         buf <- wr buf (oo + pd) (u16 (c + low - mn)) ;;
         Ok (pd + 1, buf)) (0, buf) ;;
  full <- reset_prior bp full ;;
  Ok (snd r, full).

(* One lane of the SSE registers: local cost, same disparity, eight neighbours.
   SGM.cc:1057-1071 *)
Record lane := Lane { l_loc : Z; l_same : Z; l_adj : list Z }.
(* _mm_adds_epu16 and _mm_subs_epu16 *)
Definition adds16 (a b : Z) : Z := Z.min 65535 (a + b).
Definition subs16 (a b : Z) : Z := Z.max 0 (a - b).
(* SGM.cc:936-983 compute_path_internals_sse, one lane *)
Definition lane_result (jump mn : Z) (l : lane) : Z :=
  let m k := nth k (l_adj l) 0 in
  let m1234 := Z.min (Z.min (m 0%nat) (m 1%nat)) (Z.min (m 2%nat) (m 3%nat)) in
  let m5678 := Z.min (Z.min (m 4%nat) (m 5%nat)) (Z.min (m 6%nat) (m 7%nat)) in
  let r := adds16 (Z.min m1234 m5678) (p1 g) in
  let r := Z.min r (Z.min (l_same l) jump) in
  subs16 (adds16 r (l_loc l)) mn.
(* the lanes filled so far are copied out in order; [oi] is output_index *)
Fixpoint flush (jump mn : Z) (oo oi : Z) (ls : list lane) (buf : list Z) : res (Z * list Z) :=
  match ls with
  | [] => Ok (oi, buf)
  | l :: ls => buf <- wr buf (oo + oi) (lane_result jump mn l) ;; flush jump mn oo (oi + 1) ls buf
  end.
Fixpoint neighbours (t full : list Z) (fd : Z) (n : nat) (k : Z) : res (list Z) :=
  match n with
  | O => Ok []
  | S n => v <- neighbour t full fd k ;; vs <- neighbours t full fd n (k + 1) ;; Ok (v :: vs)
  end.
(* SGM.cc:1013-1148 evaluate_path with SSE instructions *)
Definition evaluate_path_sse (t : list Z) (b bp : box) (buf : list Z) (po : Z) (full : list Z)
    (cost : list Z) (lo oo grad : Z) : res (list Z * list Z) :=
  r <- load_prior bp buf po full ;;
  let '(mn, full) := r in
  let jump := u16 (mn + p2_mod grad) in
  r <- box_loop b (fun fd s =>
         let '(pd, oi, ls, buf) := s in
         c <- rd cost (lo + pd) ;;
         same <- rd full fd ;;
         vs <- neighbours t full fd 8 0 ;;
         let ls := ls ++ [Lane c same vs] in
         if Z.of_nat (length ls) =? 8
         then r <- flush jump mn oo oi ls buf ;; Ok (pd + 1, fst r, [], snd r)
         else Ok (pd + 1, oi, ls, buf)) (0, 0, [], buf) ;;
  let '(_, oi, ls, buf) := r in
  r <- flush jump mn oo oi ls buf ;;
  full <- reset_prior bp full ;;
  Ok (snd r, full).

(* SGM.cc:677-704 calc_main_buf_size: the start of every pixel in the large
   buffers and their size.  The memory limit is not modelled. *)
Definition starts0 : img Z := Img (ocols g) (orows g) (fun _ _ => 0).
Definition calc_main_buf_size : res (img Z * Z) :=
  r <- for_up 0 (orows g) (fun r s =>
         for_up 0 (ocols g) (fun c s =>
           let '(m, n) := s in
           m <- put m c r n ;;
           b <- get (bnd g) c r ;;
           Ok (m, n + box_size b)) s) (starts0, 0) ;;
  let '(m, n) := r in
  Ok (m, if n <? 6 then 6 else n).

(* SGMAssist.h:565-588 one_buf_size; (int) sqrt(..) is the integer square root *)
Definition one_buf_size (main : Z) : Z :=
  let line := Z.sqrt (ocols g * ocols g + orows g * orows g) + 1 in
  let n := line * nd in
  if n >? main then main else n.

(* SGMAssist.h:705-772 PixelPassDoWork: the loop over the pixels of a line.  The
   state: the start of the outputs, the previous pixel (start of its outputs,
   bounds, gray value) if any, the number of elements used, the two buffers.
   [ev] is evaluate_path. *)
Definition eval_fn := list Z -> box -> box -> list Z -> Z -> list Z -> list Z -> Z -> Z -> Z -> res (list Z * list Z).
Record pstate := PS { ps_out : Z; ps_prev : option (Z * box * Z); ps_used : Z; ps_buf : list Z; ps_full : list Z }.
Definition pass_step (ev : eval_fn) (t : list Z) (starts : img Z) (cost : list Z) (image : img Z)
    (size : Z) (px : Z * Z) (s : pstate) : res pstate :=
  let '(c, r) := px in
  b <- get (bnd g) c r ;;
  lo <- get starts c r ;;
  let n := box_size b in
  let used := ps_used s + n in
  if used >? size then Throw ArgumentErr
  else
    v <- get image (c + mincol g) (r + minrow g) ;;
    bf <- match ps_prev s with
          | Some (po, bp, pv) =>
              ev t b bp (ps_buf s) po (ps_full s) cost lo (ps_out s) (Z.abs (v - pv))
          | None =>
              buf <- for_up 0 n (fun d buf => x <- rd cost (lo + d) ;; wr buf (ps_out s + d) x) (ps_buf s) ;;
              Ok (buf, ps_full s)
          end ;;
    Ok (PS (ps_out s + n) (Some (ps_out s, b, v)) used (fst bf) (snd bf)).
Fixpoint pass_loop (ev : eval_fn) (t : list Z) (starts : img Z) (cost : list Z) (image : img Z)
    (size : Z) (pxs : list (Z * Z)) (s : pstate) : res pstate :=
  match pxs with
  | [] => Ok s
  | px :: pxs => s <- pass_step ev t starts cost image size px s ;;
                 pass_loop ev t starts cost image size pxs s
  end.
(* SGMAssist.h:609-615 clear_buffers, then the loop *)
Definition line_pass (ev : eval_fn) (t : list Z) (starts : img Z) (main : Z) (cost : list Z) (image : img Z)
    (pxs : list (Z * Z)) : res (list Z) :=
  let size := one_buf_size main in
  s <- pass_loop ev t starts cost image size pxs
         (PS 0 None 0 (repeat 0 (Z.to_nat size)) (repeat bad (Z.to_nat nd))) ;;
  Ok (ps_buf s).

(* SGMAssist.h:791-820 update_accum_buffer: the additions it performs on the
   shared buffer, in order: (index, value) *)
Fixpoint accum_updates (starts : img Z) (buf : list Z) (o : Z) (pxs : list (Z * Z)) : res (list (Z * Z)) :=
  match pxs with
  | [] => Ok []
  | (c, r) :: pxs =>
      b <- get (bnd g) c r ;;
      s <- get starts c r ;;
      let n := box_size b in
      us <- for_up 0 n (fun i us => v <- rd buf (o + i) ;; Ok (us ++ [(s + i, v)])) [] ;;
      rest <- accum_updates starts buf (o + n) pxs ;;
      Ok (us ++ rest)
  end.
(* One task of a direction: SGMAssist.h:705-778.  The line is walked twice with
   the iterator of PixelIterator.h:140-200, modelled in ImgMem. *)
Definition task_updates (ev : eval_fn) (t : list Z) (starts : img Z) (main : Z) (cost : list Z) (image : img Z)
    (fuel : nat) (x y : Z) (d : dir8) : res (list (Z * Z)) :=
  pxs <- l_walk fuel (mk_line x y d (ocols g) (orows g)) ;;
  buf <- line_pass ev t starts main cost image pxs ;;
  accum_updates starts buf 0 pxs.

(* SGM.cc:2462-2608 accum_sgm_multithread: the first pixels of the lines of each
   direction; the directions are processed one after the other *)
Definition dir_starts (d : dir8) : list (Z * Z) :=
  let w := ocols g in let h := orows g in
  match d with
  | B => map (fun i => (i, 0)) (zrange 0 w)
  | T => map (fun i => (i, h - 1)) (zrange 0 w)
  | R => map (fun i => (0, i)) (zrange 0 h)
  | L => map (fun i => (w - 1, i)) (zrange 0 h)
  | BR => map (fun i => (i, 0)) (zrange 0 w) ++ map (fun i => (0, i)) (zrange 1 h)
  | BL => map (fun i => (i, 0)) (zrange 0 w) ++ map (fun i => (w - 1, i)) (zrange 1 h)
  | TR => map (fun i => (i, h - 1)) (zrange 0 w) ++ map (fun i => (0, i)) (zrange 0 (h - 1))
  | TL => map (fun i => (i, h - 1)) (zrange 0 w) ++ map (fun i => (w - 1, i)) (zrange 0 (h - 1))
  end.
Definition dir_order : list dir8 := [B; T; R; L; BR; BL; TR; TL].
End S.

(* The threads of one direction add to the shared buffer of accumulated costs
   without a lock (SGMAssist.h:813): output_accum_ptr[i] += computed_accum_ptr[i]
   is a load followed by a store of another step. *)
Record thread := Thr { todo : list (Z * Z); loaded : option Z }.
Inductive tstep : list Z -> thread -> list Z -> thread -> Prop :=
| t_load : forall m i v us, 0 <= i < Z.of_nat (length m) ->
    tstep m (Thr ((i, v) :: us) None) m (Thr ((i, v) :: us) (Some (nth (Z.to_nat i) m 0)))
| t_store : forall m i v us x, 0 <= i < Z.of_nat (length m) ->
    tstep m (Thr ((i, v) :: us) (Some x)) (upd m (Z.to_nat i) (u16 (x + v))) (Thr us None).
(* any thread may take the next step *)
Inductive psteps : list Z -> list thread -> list Z -> list thread -> Prop :=
| p_refl : forall m ts, psteps m ts m ts
| p_step : forall m ts1 t ts2 m' t' m'' ts'', tstep m t m' t' ->
    psteps m' (ts1 ++ t' :: ts2) m'' ts'' -> psteps m (ts1 ++ t :: ts2) m'' ts''.
Definition finished (t : thread) : Prop := todo t = [] /\ loaded t = None.

(* One direction: a task per line, all additions interleaved in any order, then
   join_all.  The thread pool itself is modelled in Pool. *)
Definition dir_run (g : sgm) (ev : eval_fn) (t : list Z) (starts : img Z) (main : Z) (cost : list Z) (image : img Z)
    (d : dir8) (m m' : list Z) : Prop :=
  exists fuel progs ts,
    Forall2 (fun st us => task_updates g ev t starts main cost image fuel (fst st) (snd st) d = Ok us)
      (dir_starts g d) progs /\
    psteps m (map (fun us => Thr us None) progs) m' ts /\ Forall finished ts.
Fixpoint dirs_run (g : sgm) (ev : eval_fn) (t : list Z) (starts : img Z) (main : Z) (cost : list Z) (image : img Z)
    (ds : list dir8) (m m' : list Z) : Prop :=
  match ds with
  | [] => m = m'
  | d :: ds => exists m1, dir_run g ev t starts main cost image d m m1 /\
                          dirs_run g ev t starts main cost image ds m1 m'
  end.
(* SGM.cc:734-752 (the buffer is zero-filled) and 2462-2608 *)
Definition accum_sgm (g : sgm) (ev : eval_fn) (cost : list Z) (image : img Z) (acc : list Z) : Prop :=
  exists t starts main,
    lookup_table g = Ok t /\ calc_main_buf_size g = Ok (starts, main) /\
    dirs_run g ev t starts main cost image dir_order (repeat 0 (Z.to_nat main)) acc.

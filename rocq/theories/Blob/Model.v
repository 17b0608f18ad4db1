(* Model of src/vw/Image/BlobIndex.h and BlobIndex.cc: BlobCompressed.

   The code keeps the segment starts and ends of a row in two lists of equal
   length; here they are zipped: a row is a list of pairs (start, end), relative
   to m_min.x, the end being one past the last column.  The state left behind by
   an exception is not modelled. *)
From Coq Require Import ZArith List Lia Bool.
From Verif Require Import Lib.Base Lib.Lists.
Import ListNotations.
Local Open Scope Z_scope.

Notation seg := (Z * Z)%type.
Notation row := (list (Z * Z)%type).
(* BlobIndex.h:70-72 *)
Record blob := Blob { bx : Z; by_ : Z; rows : list row }.

Definition nrows (b : blob) : Z := Z.of_nat (length (rows b)).
(* BlobIndex.cc:75 *)
Definition empty_blob : blob := Blob (-1) (-1) [].

Definition shift_row (v : Z) (r : row) : row := map (fun s => (fst s + v, snd s + v)) r.
(* BlobIndex.cc:35-44 *)
Definition shift_x (v : Z) (b : blob) : blob := Blob (bx b + v) (by_ b) (map (shift_row (- v)) (rows b)).

(* BlobIndex.cc:46-61, one row: a start equal to the previous end is dropped
   together with that end.  The iterator is advanced before the emptiness of the
   list is looked at. *)
Fixpoint join (s : seg) (r : row) : row :=
  match r with
  | [] => [s]
  | s' :: t => if fst s' =? snd s then join (fst s, snd s') t else s :: join s' t
  end.
Definition refactor_row (r : row) : res row :=
  match r with [] => UB BadIter | s :: t => Ok (join s t) end.
Fixpoint refactor_rows (l : list row) : res (list row) :=
  match l with
  | [] => Ok []
  | r :: t => r' <- refactor_row r ;; t' <- refactor_rows t ;; Ok (r' :: t')
  end.
Definition refactor (b : blob) : res blob := l <- refactor_rows (rows b) ;; Ok (Blob (bx b) (by_ b) l).

(* BlobIndex.cc:77-85 *)
Definition size (b : blob) : Z :=
  fold_left (fun acc r => fold_left (fun a s => a + (snd s - fst s)) r acc) (rows b) 0.

(* BlobIndex.cc:106-117: (min.x, min.y, max.x, max.y) *)
Definition bounding_box (b : blob) : Z * Z * Z * Z :=
  let max_col := fold_left (fun acc r => fold_left (fun a s => if a <? snd s then snd s else a) r acc) (rows b) 0 in
  (bx b, by_ b, bx b + max_col, by_ b + nrows b).

(* BlobIndex.cc:119-137; the box is (minx, miny, maxx, maxy).  back() and front()
   of a non-empty list. *)
Definition intersects (b : blob) (box : Z * Z * Z * Z) : bool :=
  let '(x0, y0, x1, y1) := box in
  if (y1 <=? by_ b) || (by_ b + nrows b <=? y0) then false
  else existsb (fun ir : nat * row => let '(i, r) := ir in
         match r with
         | [] => false
         | s :: _ =>
           if (by_ b + Z.of_nat i <? y0) || (y1 <=? by_ b + Z.of_nat i) then false
           else (x0 <? snd (last r s) + bx b) && (fst s + bx b <? x1)
         end) (combine (seq 0 (length (rows b))) (rows b)).

(* m_row_end[i].back() and m_row_start[k].front() *)
Definition back_end (b : blob) (i : Z) : res Z :=
  match nth_error (rows b) (Z.to_nat i) with
  | Some (s :: t) => Ok (snd (last (s :: t) s))
  | Some [] => UB BadIter
  | None => UB OutOfBounds
  end.
Definition front_start (b : blob) (i : Z) : res Z :=
  match nth_error (rows b) (Z.to_nat i) with
  | Some (s :: _) => Ok (fst s)
  | Some [] => UB BadIter
  | None => UB OutOfBounds
  end.

(* BlobIndex.cc:139-159 *)
Definition right_test (b r : blob) (i k : Z) : res bool :=
  if (0 <=? k) && (k <? nrows r)
  then e <- back_end b i ;; s <- front_start r k ;; Ok (e + bx b =? s + bx r)
  else Ok false.
Fixpoint right_loop (b r : blob) (n : nat) (i ri : Z) : res bool :=
  match n with
  | O => Ok false
  | S n' =>
    if (i <? nrows b) && (ri <? nrows r) then
      t0 <- right_test b r i ri ;; if (t0 : bool) then Ok true else
      t1 <- right_test b r i (ri + 1) ;; if (t1 : bool) then Ok true else
      t2 <- right_test b r i (ri + 2) ;; if (t2 : bool) then Ok true else
      right_loop b r n' (i + 1) (ri + 1)
    else Ok false
  end.
Definition is_on_right (b r : blob) : res bool := right_loop b r (length (rows b)) 0 (by_ b - by_ r - 1).

(* BlobIndex.cc:161-176 *)
Definition is_on_bottom (b t : blob) : res bool :=
  if negb (by_ t =? by_ b + nrows b) then Ok false else
  match rev (rows b), rows t with
  | top :: _, bot :: _ =>
    Ok (existsb (fun p => existsb (fun q =>
          (fst q + bx t <=? snd p + bx b) && (fst p + bx b <=? snd q + bx t)) bot) top)
  | _, _ => UB OutOfBounds
  end.

(* m_row_start.back() = m_row_start.back() + one segment *)
Definition push_last (l : list row) (s : seg) : list row :=
  match rev l with [] => [] | r :: t => rev t ++ [r ++ [s]] end.

(* BlobIndex.cc:178-211 *)
Definition add_row (b : blob) (sx sy w : Z) : res blob :=
  if bx b =? -1 then Ok (Blob sx sy [hd [] (rows b) ++ [(0, w)]])
  else if negb ((sy =? by_ b + nrows b) || (sy =? by_ b + nrows b - 1)) then Throw NoImplErr
  else
    l <- (if sy =? by_ b + nrows b then Ok (rows b ++ [[]])
          else match rev (rows b) with
               | [] => UB OutOfBounds
               | [] :: _ => UB BadIter
               | (s :: t) :: _ => if sx <? fst (last (s :: t) s) + bx b then Throw NoImplErr else Ok (rows b)
               end) ;;
    let b' := Blob (bx b) (by_ b) (push_last l (sx - bx b, sx - bx b + w)) in
    if sx <? bx b then Ok (shift_x (sx - bx b) b') else Ok b'.

(* BlobIndex.cc:237-302: one segment of the victim, already in this blob's
   columns, put at its place in a row; [put_after] looks at the gap after
   segment s *)
Fixpoint put_after (v s : seg) (r : row) : res row :=
  match r with
  | [] => if snd s <=? fst v then Ok [s; v] else Throw NoImplErr
  | s' :: t =>
    if (snd s <=? fst v) && (snd v <=? fst s') then Ok (s :: v :: r)
    else r' <- put_after v s' t ;; Ok (s :: r')
  end.
Definition put_seg (v : seg) (r : row) : res row :=
  match r with
  | [] => Ok [v]
  | s :: t => if snd v <=? fst s then Ok (v :: r) else put_after v s t
  end.
Fixpoint put_segs (vs : row) (r : row) : res row :=
  match vs with [] => Ok r | v :: t => r' <- put_seg v r ;; put_segs t r' end.

(* BlobIndex.cc:226-304: the rows both blobs have; [k] is m_index *)
Fixpoint merge_rows (l : list row) (k dx : Z) (vs : list row) : res (list row) :=
  match vs with
  | [] => Ok l
  | v :: t =>
    l' <- (if (0 <=? k) && (k <? Z.of_nat (length l))
           then r <- put_segs (shift_row dx v) (nth (Z.to_nat k) l []) ;; Ok (upd l (Z.to_nat k) r)
           else Ok l) ;;
    merge_rows l' (k + 1) dx t
  end.

(* BlobIndex.cc:310-327 and 341-357: rows a..b-1 of the victim, blank outside *)
Definition extra_rows (v : blob) (dx a b : Z) : list row :=
  map (fun i => if (0 <=? i) && (i <? nrows v) then shift_row dx (nth (Z.to_nat i) (rows v) []) else []) (zrange a b).

(* BlobIndex.cc:372-376: front() of every row after the first non-empty one *)
Fixpoint lowest (l : list row) (acc : Z) : res Z :=
  match l with
  | [] => Ok acc
  | [] :: _ => UB BadIter
  | (s :: _) :: t => lowest t (if fst s <? acc then fst s else acc)
  end.
(* BlobIndex.cc:366-376 *)
Fixpoint first_lowest (l : list row) : res Z :=
  match l with
  | [] => UB OutOfBounds
  | [] :: t => first_lowest t
  | (s :: _) :: t => lowest t (fst s)
  end.

(* BlobIndex.cc:213-379 *)
Definition absorb (b v : blob) : res blob :=
  match rows b with
  | [] => Ok (Blob (bx v) (by_ v) (rows v))
  | _ =>
    let dx := bx v - bx b in
    l1 <- merge_rows (rows b) (by_ v - by_ b) dx (rows v) ;;
    let '(y2, l2) := if by_ v <? by_ b then (by_ v, extra_rows v dx 0 (by_ b - by_ v) ++ l1) else (by_ b, l1) in
    let n2 := Z.of_nat (length l2) in
    let l3 := if y2 + n2 <? nrows v + by_ v then l2 ++ extra_rows v dx (n2 + y2 - by_ v) (nrows v) else l2 in
    low <- first_lowest l3 ;;
    refactor (shift_x low (Blob (bx b) y2 l3))
  end.

(* BlobIndex.cc:381-389 *)
Definition decompress (b : blob) : list (Z * Z) :=
  flat_map (fun ir : nat * row => let '(i, r) := ir in
    flat_map (fun s => map (fun c => (c + bx b, Z.of_nat i + by_ b)) (zrange (fst s) (snd s))) r)
    (combine (seq 0 (length (rows b))) (rows b)).

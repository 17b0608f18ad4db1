(* Model of src/vw/Image/ErodeView.h: a sparse mask over an image, one
   std::map from segment end to segment start (both inclusive) per row. *)
From Coq Require Import ZArith List Lia Bool.
From Verif Require Import Lib.Base Lib.Lists Lib.SMap Blob.Model.
Import ListNotations.
Local Open Scope Z_scope.

(* ErodeView.h:133, 138: m_data *)
Definition emap : Type := smap Z.

(* ErodeView.h:255-270: the entries from the first iterator to the one after
   lower_bound(segmentEnd), inclusive.  (For a segment whose end is more than one
   before its start the real iterators would be in the wrong order.) *)
Fixpoint upto (e : Z) (l : emap) : emap :=
  match l with [] => [] | x :: t => if e <=? fst x then [x] else x :: upto e t end.

(* ErodeView.h:272-328: the loop over old segments, given as the snapshot of
   the entries the iterator will visit (erase() keeps other iterators valid).
   The result is the map, the expanded segment, and skipNewSegment. *)
Fixpoint scan (es m : emap) (s e : Z) : res (emap * Z * Z * bool) :=
  match es with
  | [] => Ok (m, s, e, false)
  | (oe, os) :: t =>
    if (oe <? s - 1) || (e + 1 <? os) then scan t m s e
    else if (os <=? s) && (e <=? oe) then Ok (m, s, e, true)
    else if (s <=? os) && (oe <=? e) then scan t (erase oe m) s e
    else if ((s - 1 <=? oe) && (oe <=? e + 1)) || ((s - 1 <=? os) && (os <=? e + 1))
      then scan t (erase oe m) (if os <? s then os else s) (if e <? oe then oe else e)
    else Throw LogicErr
  end.

(* ErodeView.h:248-337: one segment, end inclusive *)
Definition add_seg (m : emap) (s e : Z) : res emap :=
  '(m', s', e', skip) <- scan (upto e (from (s - 1) m)) m s e ;;
  Ok (if (skip : bool) then m' else insert e' s' m').

(* ErodeView.h:243-339: the segments of one blob row *)
Fixpoint add_segs (m : emap) (x : Z) (r : row) : res emap :=
  match r with
  | [] => Ok m
  | (a, z) :: t => m' <- add_seg m (a + x) (z + x - 1) ;; add_segs m' x t
  end.

(* ErodeView.h:224-345: the state after the call and the exception it ended
   with, if any.  A negative row becomes a huge size_t. *)
Fixpoint add_rows (d : list emap) (x y : Z) (l : list row) : list emap * option exn :=
  match l with
  | [] => (d, None)
  | r :: t =>
    if (y <? 0) || (Z.of_nat (length d) <=? y) then (d, Some InputErr)
    else match add_segs (nth (Z.to_nat y) d []) x r with
         | Ok m => add_rows (upd d (Z.to_nat y) m) x (y + 1) t
         | Throw ex => (d, Some ex)
         | UB _ => (d, Some LogicErr)
         end
  end.
Definition absorb_blob (d : list emap) (b : blob) : list emap * option exn := add_rows d (bx b) (by_ b) (rows b).

(* ErodeView.h:347-364 (both list overloads) *)
Fixpoint absorb_blobs (d : list emap) (l : list blob) : list emap * option exn :=
  match l with
  | [] => (d, None)
  | b :: t => match absorb_blob d b with (d', None) => absorb_blobs d' t | r => r end
  end.

(* ErodeView.h:168-186: an empty mask for an image of n rows *)
Definition new_mask (n : Z) : list emap := repeat [] (Z.to_nat n).

(* ErodeView.h:199-221 *)
Definition read {A} (blank : A) (under : Z -> Z -> A) (d : list emap) (i j : Z) : res A :=
  if (j <? 0) || (Z.of_nat (length d) <=? j) then UB OutOfBounds
  else match from i (nth (Z.to_nat j) d []) with
       | [] => Ok (under i j)
       | (_, s) :: _ => if i <? s then Ok (under i j) else Ok blank
       end.

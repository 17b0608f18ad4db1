(** Local extrema of interest images (src/vw/InterestPoint/Extrema.h).

    An interest image is a function on columns and rows with a size; values are exact
    rationals.  A point found is its column, row, scale and interest; the other fields of an
    interest point are left out. *)
From Coq Require Import List Bool ZArith QArith.
From Verif Require Import Lib.Base.
Import ListNotations.
Local Open Scope Z_scope.

Record image := Img { cols : Z; rows : Z; at_px : Z -> Z -> Q }.
(* InterestPoint/InterestTraits.h:50: what an operator looks for *)
Inductive peak := PMax | PMin | PMinMax.

(* Extrema.h:41-59 is_local_max *)
Definition is_local_max (f : Z -> Z -> Q) (i j : Z) : bool :=
  let v := f i j in
  if Qle_bool v (f i (j - 1)) then false else if Qle_bool v (f i (j + 1)) then false
  else if Qle_bool v (f (i - 1) j) then false else if Qle_bool v (f (i + 1) j) then false
  else if Qle_bool v (f (i - 1) (j - 1)) then false else if Qle_bool v (f (i - 1) (j + 1)) then false
  else if Qle_bool v (f (i + 1) (j - 1)) then false else if Qle_bool v (f (i + 1) (j + 1)) then false
  else true.
(* Extrema.h:63-81 is_local_min *)
Definition is_local_min (f : Z -> Z -> Q) (i j : Z) : bool :=
  let v := f i j in
  if Qle_bool (f i (j - 1)) v then false else if Qle_bool (f i (j + 1)) v then false
  else if Qle_bool (f (i - 1) j) v then false else if Qle_bool (f (i + 1) j) v then false
  else if Qle_bool (f (i - 1) (j - 1)) v then false else if Qle_bool (f (i - 1) (j + 1)) v then false
  else if Qle_bool (f (i + 1) (j - 1)) v then false else if Qle_bool (f (i + 1) (j + 1)) v then false
  else true.
(* Extrema.h:84-120 is_local_minmax, IsSpatialExtremum *)
Definition is_extremum (t : peak) (f : Z -> Z -> Q) (i j : Z) : bool :=
  match t with PMax => is_local_max f i j | PMin => is_local_min f i j | PMinMax => is_local_max f i j || is_local_min f i j end.

(* Extrema.h:125-157 is_local_max in space and scale; fm and fp are the planes below and above *)
Definition is_scale_max (fm f fp : Z -> Z -> Q) (i j : Z) : bool :=
  let v := f i j in
  if Qle_bool v (f i (j - 1)) then false else if Qle_bool v (f i (j + 1)) then false
  else if Qle_bool v (f (i - 1) j) then false else if Qle_bool v (f (i + 1) j) then false
  else if Qle_bool v (fm i j) then false else if Qle_bool v (fp i j) then false
  else if Qle_bool v (f (i - 1) (j - 1)) then false else if Qle_bool v (f (i - 1) (j + 1)) then false
  else if Qle_bool v (f (i + 1) (j - 1)) then false else if Qle_bool v (f (i + 1) (j + 1)) then false
  else true.
(* Extrema.h:160-192 is_local_min in space and scale *)
Definition is_scale_min (fm f fp : Z -> Z -> Q) (i j : Z) : bool :=
  let v := f i j in
  if Qle_bool (f i (j - 1)) v then false else if Qle_bool (f i (j + 1)) v then false
  else if Qle_bool (f (i - 1) j) v then false else if Qle_bool (f (i + 1) j) v then false
  else if Qle_bool (fm i j) v then false else if Qle_bool (fp i j) v then false
  else if Qle_bool (f (i - 1) (j - 1)) v then false else if Qle_bool (f (i - 1) (j + 1)) v then false
  else if Qle_bool (f (i + 1) (j - 1)) v then false else if Qle_bool (f (i + 1) (j + 1)) v then false
  else true.
(* Extrema.h:195-232 is_local_minmax, IsScaleExtremum *)
Definition is_scale_extremum (t : peak) (fm f fp : Z -> Z -> Q) (i j : Z) : bool :=
  match t with PMax => is_scale_max fm f fp i j | PMin => is_scale_min fm f fp i j
             | PMinMax => is_scale_max fm f fp i j || is_scale_min fm f fp i j end.

(* A point found: InterestPoint(i, j, scale, interest) *)
Record point := Pt { px : Z; py : Z; scale : Q; interest : Q }.

(* for (x = a; x < b; x++) *)
Definition between (a b : Z) : list Z := map (fun k => a + Z.of_nat k) (seq 0 (Z.to_nat (b - a))).
(* Extrema.h:243-250 and 285-293: the loops over the pixels of a plane that are not at its border *)
Definition scan (ncols nrows : Z) (f : Z -> Z -> Q) (test : Z -> Z -> bool) (s : Q) (found : list point) : list point :=
  fold_left (fun l j => fold_left (fun l i => if test i j then l ++ [Pt i j s (f i j)] else l) (between 1 (ncols - 1)) l)
    (between 1 (nrows - 1)) found.

(* Extrema.h:235-253 find_peaks of one image; points are added to the list given *)
Definition find_peaks (t : peak) (im : image) (found : list point) : list point :=
  scan (cols im) (rows im) (at_px im) (is_extremum t (at_px im)) 1%Q found.

(* Extrema.h:256-297 find_peaks of the planes of an octave; the scale of a plane is given
   from outside *)
Definition find_scale_peaks (t : peak) (plane_scale : Z -> Q) (data : list image) (found : list point) : res (list point) :=
  match data with
  | [] => Throw ArgumentErr
  | im0 :: _ =>
      if negb (forallb (fun im => (cols im0 =? cols im) && (rows im0 =? rows im)) data) then Throw ArgumentErr
      else
        let none := Img 0 0 (fun _ _ => 0%Q) in
        let plane := fun k => nth (Z.to_nat k) data none in
        Ok (fold_left (fun l k =>
              scan (cols im0) (rows im0) (at_px (plane k)) (is_scale_extremum t (at_px (plane (k - 1))) (at_px (plane k)) (at_px (plane (k + 1)))) (plane_scale k) l
              ) (between 1 (Z.of_nat (length data) - 1)) found)
  end.

(* Model of src/vw/Cartography/Chipper.{h,cc}: a cloud of points is cut into chips of about the
   same number of points, which are stored as blocks of an image.

   Simplifications: coordinates are exact rationals, and only their differences, which decide
   the direction of a cut, are rounded, by any function [sub].  The running total in partition is
   exact.  Indices do not wrap (fewer than 2^31 points).  m_dir is left out, it is never used,
   and so are the bounds left1, left2, right1, right2 found in finalSplit, which emit ignores. *)
From Coq Require Import ZArith QArith Qcanon List Lia Bool.
From Verif Require Import Lib.Base Lib.Img.
Import ListNotations.
Local Open Scope Z_scope.

Definition point : Type := Qc * Qc * Qc.
Definition px (p : point) : Qc := fst (fst p).
Definition py (p : point) : Qc := snd (fst p).
Definition origin : point := (0%Qc, 0%Qc, 0%Qc).

Definition qlt (a b : Qc) : bool := match (a ?= b)%Qc with Lt => true | _ => false end.

(* Chipper.h:66-81 ChipPtRef *)
Record ref := Ref { pos : Qc; pt : Z; oi : Z }.
(* Chipper.h:83-131 ChipRefList *)
Record vec := Vec { size : Z; el : Z -> ref }.
Definition vget (v : vec) (i : Z) : res ref := if (0 <=? i) && (i <? size v) then Ok (el v i) else UB OutOfBounds.
Definition vset (v : vec) (i : Z) (r : ref) : res vec :=
  if (0 <=? i) && (i <? size v) then Ok (Vec (size v) (fun j => if j =? i then r else el v j)) else UB OutOfBounds.
(* an element that was never set *)
Definition blank : ref := Ref 0%Qc (-1) (-1).
Definition of_list (l : list ref) : vec := Vec (Z.of_nat (length l)) (fun i => nth (Z.to_nat i) l blank).
Definition set_oi (r : ref) (i : Z) : ref := Ref (pos r) (pt r) i.

(* std::stable_sort with Chipper.h:77-80 operator< *)
Fixpoint insert (r : ref) (l : list ref) : list ref :=
  match l with [] => [r] | s :: l => if qlt (pos s) (pos r) then s :: insert r l else r :: s :: l end.
Fixpoint stable_sort (l : list ref) : list ref := match l with [] => [] | r :: l => insert r (stable_sort l) end.
Definition sort (v : vec) : vec := of_list (stable_sort (map (el v) (zrange 0 (size v)))).

(* Chipper.cc:113-151 load *)
Definition load (buffer : list point) : res (vec * vec * vec) :=
  let n := Z.of_nat (length buffer) in
  let refs (f : point -> Qc) := Vec n (fun i => Ref (f (nth (Z.to_nat i) buffer origin)) i (-1)) in
  let xvec := sort (refs px) in
  yvec <- for_up 0 n (fun i yvec => r <- vget xvec i ;; s <- vget yvec (pt r) ;; vset yvec (pt r) (set_oi s i)) (refs py) ;;
  let yvec := sort yvec in
  xvec <- for_up 0 n (fun i xvec => r <- vget yvec i ;; s <- vget xvec (oi r) ;; vset xvec (oi r) (set_oi s i)) xvec ;;
  Ok (xvec, yvec, Vec n (fun _ => blank)).

(* Chipper.cc:156-177 partition.  The total is a quotient with denominator [n]; lround rounds
   halves up. *)
Definition lround (a b : Z) : Z := (2 * a + b) / (2 * b).
Definition partition (size maxpts : Z) : res (list Z) :=
  q <- cdiv size maxpts ;; r <- crem size maxpts ;;
  let n := if negb (r =? 0) then q + 1 else q in
  '(_, parts) <- for_up 0 n (fun _ '(total, parts) => let total := total + size in Ok (total, parts ++ [lround total n])) (0, [0]) ;;
  Ok parts.

Section Chip.
Variables (sub : Qc -> Qc -> Qc)          (* subtraction of coordinates *)
          (conv : point -> point)         (* from the georeference to xyz, or the identity *)
          (buffer : list point) (bs : Z) (parts : list Z).
Definition state : Type := img point * Z.     (* m_outImg and m_currChip *)
Definition part (p : Z) : res Z := if (0 <=? p) && (p <? Z.of_nat (length parts)) then Ok (nth (Z.to_nat p) parts 0) else UB OutOfBounds.

(* Chipper.cc:326-367 emit *)
Definition emit (wide : vec) (widemin widemax : Z) (st : state) : res state :=
  let '(out, cur) := st in
  if negb (widemax - widemin + 1 <=? bs * bs) then Throw ArgumentErr
  else
    nrb <- cdiv (irows out) bs ;;
    posx <- cdiv cur nrb ;;
    let posy := cur - posx * nrb in
    let startx := posx * bs in
    let starty := posy * bs in
    if negb ((startx + bs <=? icols out) && (starty + bs <=? irows out)) then Throw ArgumentErr
    else
      '(_, out) <- for_up widemin (widemax + 1) (fun idx '(count, out) =>
          let count := count + 1 in
          x <- cdiv count bs ;;
          let y := count - x * bs in
          r <- vget wide idx ;;
          p <- (if (0 <=? pt r) && (pt r <? Z.of_nat (length buffer)) then Ok (nth (Z.to_nat (pt r)) buffer origin) else UB OutOfBounds) ;;
          out <- put out (startx + x) (starty + y) (conv p) ;;
          Ok (count, out)) (-1, out) ;;
      Ok (out, cur + 1).

(* Chipper.cc:257-324 finalSplit *)
Definition final_split (wide : vec) (pleft pright : Z) (st : state) : res state :=
  left <- part pleft ;; right <- part pright ;; center <- part (pright - 1) ;;
  st <- emit wide left (center - 1) st ;;
  emit wide center (right - 1) st.

(* Chipper.cc:227-243: the points of the narrow array go to the two sides of the spare array *)
Definition distribute (wide narrow spare : vec) (left right center : Z) : res (vec * vec) :=
  '(wide, spare, _, _) <- for_up left (right + 1) (fun i '(wide, spare, lstart, rstart) =>
      r <- vget narrow i ;;
      if oi r <? center then
        spare <- vset spare lstart r ;;
        s <- vget wide (oi r) ;; wide <- vset wide (oi r) (set_oi s lstart) ;;
        Ok (wide, spare, lstart + 1, rstart)
      else
        spare <- vset spare rstart r ;;
        s <- vget wide (oi r) ;; wide <- vset wide (oi r) (set_oi s rstart) ;;
        Ok (wide, spare, lstart, rstart + 1)) (wide, spare, left, center) ;;
  Ok (wide, spare).

(* Chipper.cc:196-252 split; [decide] is decideSplit *)
Definition split (decide : vec -> vec -> vec -> Z -> Z -> state -> res (vec * vec * vec * state))
  (wide narrow spare : vec) (pleft pright : Z) (st : state) : res (vec * vec * vec * state) :=
  left <- part pleft ;; right <- part pright ;;
  let right := right - 1 in
  if pright - pleft =? 1 then st <- emit wide left right st ;; Ok (wide, narrow, spare, st)
  else if pright - pleft =? 2 then st <- final_split wide pleft pright st ;; Ok (wide, narrow, spare, st)
  else
    pcenter <- cdiv (pleft + pright) 2 ;;
    center <- part pcenter ;;
    '(wide, spare) <- distribute wide narrow spare left right center ;;
    '(wide, spare, narrow, st) <- decide wide spare narrow pleft pcenter st ;;
    '(wide, spare, narrow, st) <- decide wide spare narrow pcenter pright st ;;
    Ok (wide, narrow, spare, st).

(* Chipper.cc:180-194 decideSplit; the arrays are returned in the order in which they came.
   [fuel] bounds the depth of the recursion. *)
Fixpoint decide_split (fuel : nat) (v1 v2 spare : vec) (pleft pright : Z) (st : state) : res (vec * vec * vec * state) :=
  match fuel with
  | O => UB NoTerm
  | S fuel =>
      left <- part pleft ;; right <- part pright ;;
      let right := right - 1 in
      a <- vget v1 right ;; b <- vget v1 left ;; c <- vget v2 right ;; d <- vget v2 left ;;
      if qlt (sub (pos c) (pos d)) (sub (pos a) (pos b)) then split (decide_split fuel) v1 v2 spare pleft pright st
      else
        '(v2, v1, spare, st) <- split (decide_split fuel) v2 v1 spare pleft pright st ;;
        Ok (v1, v2, spare, st)
  end.
End Chip.

(* Chipper.cc:78-110 the constructor *)
Definition chipper (sub : Qc -> Qc -> Qc) (conv : point -> point) (buffer : list point) (bs cols rows : Z) : res (img point) :=
  let out := Img cols rows (fun _ _ => origin) in
  let total := Z.of_nat (length buffer) in
  if negb (i32_okb (bs * bs)) then UB Overflow
  else if total =? 0 then Ok out
  else
    c <- crem cols bs ;; r <- crem rows bs ;;
    if negb ((c =? 0) && (r =? 0)) then Throw ArgumentErr
    else if negb (i32_okb (cols * rows)) then UB Overflow
    else if negb (total <=? cols * rows) then Throw ArgumentErr
    else
      '(xvec, yvec, spare) <- load buffer ;;
      parts <- partition (size xvec) (bs * bs) ;;
      '(_, _, _, st) <- decide_split sub conv buffer bs parts (length parts) xvec yvec spare 0 (Z.of_nat (length parts) - 1) (out, 0) ;;
      Ok (fst st).

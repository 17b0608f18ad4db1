(* Vocabulary of the statements about semi-global matching.  The matcher assigns a
   disparity to every pixel; along a path of pixels a change of disparity costs p1
   if it is by at most one in each direction and a penalty depending on the change
   of the gray value otherwise. *)
From Coq Require Import ZArith List Bool.
From Verif Require Import Lib.Base ImgMem.Model ImgMem.Spec Lib.Img Sgm.Model.
Import ListNotations.
Local Open Scope Z_scope.

(* a disparity is a pair (dx,dy) *)
Definition in_box (b : box) (d : Z * Z) : Prop := bx0 b <= fst d <= bx1 b /\ by0 b <= snd d <= by1 b.
Definition in_boxb (b : box) (d : Z * Z) : bool :=
  (bx0 b <=? fst d) && (fst d <=? bx1 b) && (by0 b <=? snd d) && (snd d <=? by1 b).
Definition cells (b : box) : list (Z * Z) :=
  flat_map (fun dy => map (fun dx => (dx, dy)) (zrange (bx0 b) (bx1 b + 1))) (zrange (by0 b) (by1 b + 1)).
(* place of a disparity in the vector of a pixel *)
Definition pos (b : box) (d : Z * Z) : Z := (snd d - by0 b) * (bx1 b - bx0 b + 1) + (fst d - bx0 b).
(* all disparities of the search range *)
Definition range (g : sgm) : box := Box (mnx g) (mny g) (mxx g) (mxy g).

Definition same (d e : Z * Z) : bool := (fst d =? fst e) && (snd d =? snd e).
Definition near (d e : Z * Z) : bool := (Z.abs (fst d - fst e) <=? 1) && (Z.abs (snd d - snd e) <=? 1).
(* penalty for a jump, given the difference of the gray values *)
Definition jump_penalty (q1 q2 grad : Z) : Z := Z.max q1 (if 0 <? grad then q2 / grad else q2).
Definition minl (v : Z) (l : list Z) : Z := fold_right Z.min v l.

(* one pixel of a path: search box, cost of every disparity, gray value *)
Record site := Site { s_box : box; s_cost : Z * Z -> Z; s_gray : Z }.
Definition grad (s q : site) : Z := Z.abs (s_gray s - s_gray q).

(* One step along a path: [L] are the accumulated costs of the previous pixel,
   known for the disparities of its box [bp] and taken as 255 + q2 elsewhere; m is
   their minimum.  The disparity d of the current pixel with cost c follows the
   cheapest of: the same disparity, one at most one away for q1 more, any for the
   jump penalty more.  m is subtracted. *)
Definition prior_costs (bp : box) (L : Z * Z -> Z) (q2 : Z) (e : Z * Z) : Z := if in_boxb bp e then L e else 255 + q2.
Definition prior_least (bp : box) (L : Z * Z -> Z) (q2 : Z) : Z := minl (255 + q2) (map L (cells bp)).
Definition step_cost (R : box) (q1 q2 : Z) (bp : box) (L c : Z * Z -> Z) (gr : Z) (d : Z * Z) : Z :=
  c d
  + minl (prior_least bp L q2 + jump_penalty q1 q2 gr)
         (map (fun e => prior_costs bp L q2 e + (if same d e then 0 else q1)) (filter (near d) (cells R)))
  - prior_least bp L q2.

(* The accumulated cost of disparity d at the first pixel of [past], which lists
   the pixels of the path from the current one backwards. *)
Fixpoint path_cost (R : box) (q1 q2 : Z) (past : list site) (d : Z * Z) : Z :=
  match past with
  | [] => 0
  | s :: rest =>
      match rest with
      | [] => s_cost s d
      | q :: _ => step_cost R q1 q2 (s_box q) (path_cost R q1 q2 rest) (s_cost s) (grad s q) d
      end
  end.

(* The energy of a choice of disparities, current pixel first. *)
Definition penalty (q1 q2 : Z) (s q : site) (d e : Z * Z) : Z :=
  if same d e then 0 else if near d e then q1 else jump_penalty q1 q2 (grad s q).
Fixpoint energy (q1 q2 : Z) (past : list site) (ds : list (Z * Z)) : Z :=
  match past, ds with
  | s :: rest, d :: ds' =>
      s_cost s d
      + match rest, ds' with q :: _, e :: _ => penalty q1 q2 s q d e | _, _ => 0 end
      + energy q1 q2 rest ds'
  | _, _ => 0
  end.
Definition choice (past : list site) (ds : list (Z * Z)) : Prop :=
  Forall2 (fun s d => in_box (s_box s) d) past ds.
Definition is_min (P : Z -> Prop) (v : Z) : Prop := P v /\ forall u, P u -> v <= u.
Definition energies (q1 q2 : Z) (past : list site) (v : Z) : Prop :=
  exists ds, choice past ds /\ v = energy q1 q2 past ds.
Definition energies_at (q1 q2 : Z) (past : list site) (d : Z * Z) (v : Z) : Prop :=
  exists ds, choice past (d :: ds) /\ v = energy q1 q2 past (d :: ds).

(* The pixels of the image met going backwards from (c,r) along a direction. *)
Definition in_imgb (w h c r : Z) : bool := (0 <=? c) && (c <? w) && (0 <=? r) && (r <? h).
Fixpoint back (n : nat) (w h : Z) (d : dir8) (c r : Z) : list (Z * Z) :=
  match n with
  | O => []
  | S n => if in_imgb w h c r
           then (c, r) :: back n w h d (c - fst (heading d)) (r - snd (heading d)) else []
  end.
Definition past_pixels (w h : Z) (d : dir8) (c r : Z) : list (Z * Z) := back (Z.to_nat (w + h)) w h d c r.
Definition site_at (g : sgm) (starts : img Z) (cost : list Z) (image : img Z) (p : Z * Z) : site :=
  let b := pix (bnd g) (fst p) (snd p) in
  Site b (fun d => nth (Z.to_nat (pix starts (fst p) (snd p) + pos b d)) cost 0)
       (pix image (fst p + mincol g) (snd p + minrow g)).
Definition past_sites (g : sgm) starts cost image (d : dir8) (c r : Z) : list site :=
  map (site_at g starts cost image) (past_pixels (ocols g) (orows g) d c r).

(* Well formed search boxes and parameters small enough for 16 bit sums. *)
Definition box_ok (R b : box) : Prop :=
  bx0 b <= bx1 b + 1 /\ by0 b <= by1 b + 1 /\ forall d, in_box b d -> in_box R d.
Definition sgm_ok (g : sgm) : Prop :=
  mnx g <= mxx g /\ mny g <= mxy g /\
  0 <= p1 g <= 7936 /\ 0 <= p2 g <= 7936 /\
  0 < ocols g /\ 0 < orows g /\ icols (bnd g) = ocols g /\ irows (bnd g) = orows g /\
  forall c r, inside (bnd g) c r -> box_ok (range g) (pix (bnd g) c r).
Definition costs_ok (l : list Z) : Prop := Forall (fun c => 0 <= c <= 255) l.
(* the image covers the pixels of the output region, gray values are not negative *)
Definition image_ok (g : sgm) (image : img Z) : Prop :=
  forall c r, 0 <= c < ocols g -> 0 <= r < orows g -> inside image (c + mincol g) (r + minrow g).

(* The eight neighbours of a disparity in the order of the table, moved back into
   the search range. *)
Definition compass : list (Z * Z) :=
  [(0, -1); (-1, 0); (1, 0); (0, 1); (-1, -1); (1, -1); (-1, 1); (1, 1)].
Definition clampz (lo hi v : Z) : Z := Z.max lo (Z.min hi v).
Definition towards (R : box) (d o : Z * Z) : Z * Z :=
  (clampz (bx0 R) (bx1 R) (fst d + fst o), clampz (by0 R) (by1 R) (snd d + snd o)).

Definition all_directions : list dir8 := [TL; T; TR; L; R; BL; B; BR].

(* A pixel with something to choose from, all of it in the search range. *)
Definition site_ok (R : box) (s : site) : Prop :=
  (exists d, in_box (s_box s) d) /\ (forall d, in_box (s_box s) d -> in_box R d /\ 0 <= s_cost s d <= 255).

(* Along the path, jumping to the best disparity of the previous pixel never costs
   more than the value taken for the disparities outside its box. *)
Fixpoint calm (R : box) (q1 q2 : Z) (past : list site) : Prop :=
  match past with
  | s :: ((q :: _) as rest) =>
      prior_least (s_box q) (path_cost R q1 q2 rest) q2 + jump_penalty q1 q2 (grad s q) <= 255 + q2 /\ calm R q1 q2 rest
  | _ => True
  end.

(* The boxes only grow along the path. *)
Fixpoint growing (past : list site) : Prop :=
  match past with
  | s :: ((q :: _) as rest) => (forall d, in_box (s_box q) d -> in_box (s_box s) d) /\ growing rest
  | _ => True
  end.

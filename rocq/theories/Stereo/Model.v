(** Points in space from pixels of several cameras (src/vw/Stereo/StereoModel.cc).

    Coordinates are exact rationals.  [None] stands for a point that is not a number:
    the code divides by zero.  The error of three rays or more is a sum of square
    roots; the model keeps the list of the squares.  Messages are left out. *)
From Coq Require Import List Bool ZArith QArith.
From Verif Require Import Lib.Base Lib.Img GeoRef.Model.
Import ListNotations.
Local Open Scope Q_scope.

Record vec := V3 { vx : Q; vy : Q; vz : Q }.
Definition vzero : vec := V3 0 0 0.
Definition vadd (a b : vec) : vec := V3 (vx a + vx b) (vy a + vy b) (vz a + vz b).
Definition vsub (a b : vec) : vec := V3 (vx a - vx b) (vy a - vy b) (vz a - vz b).
Definition vscale (k : Q) (a : vec) : vec := V3 (k * vx a) (k * vy a) (k * vz a).
(* Math/Vector.h dot_prod; Math/Vector.h:1738-1743 cross_prod *)
Definition dot (a b : vec) : Q := vx a * vx b + vy a * vy b + vz a * vz b.
Definition cross (a b : vec) : vec := V3 (vy a * vz b - vz a * vy b) (vz a * vx b - vx a * vz b) (vx a * vy b - vy a * vx b).
(* Product of a matrix with a vector *)
Definition mulv (m : mat) (a : vec) : vec :=
  V3 (m00 m * vx a + m01 m * vy a + m02 m * vz a) (m10 m * vx a + m11 m * vy a + m12 m * vz a) (m20 m * vx a + m21 m * vy a + m22 m * vz a).

(* StereoModel.cc:35-48 triangulate_pair *)
Definition triangulate_pair (dir0 ctr0 dir1 ctr1 : vec) : option (vec * vec) :=
  let v12 := cross dir0 dir1 in
  let v1 := cross v12 dir0 in
  let v2 := cross v12 dir1 in
  if Qeq_bool (dot v2 dir0) 0 || Qeq_bool (dot v1 dir1) 0 then None
  else
    let p1 := vadd ctr0 (vscale (dot v2 (vsub ctr1 ctr0) / dot v2 dir0) dir0) in
    let p2 := vadd ctr1 (vscale (dot v1 (vsub ctr0 ctr1) / dot v1 dir1) dir1) in
    Some (vscale (1 # 2) (vadd p1 p2), vsub p1 p2).

(* StereoModel.cc:68-91 are_nearly_parallel *)
Definition tolerance (angle_tol : Q) : Q := if ltq 0 angle_tol then angle_tol else 1 # 10000.
Fixpoint all_close (tol : Q) (dirs : list vec) : bool :=
  match dirs with
  | d :: (e :: _) as r => (if Qle_bool tol (1 - dot d e) then false else true) && all_close tol r
  | _ => true
  end.
Definition are_nearly_parallel (angle_tol : Q) (dirs : list vec) : bool := all_close (tolerance angle_tol) dirs.

(* The error: a vector between the two nearest points, or for other numbers of
   rays the squares of the distances to the rays *)
Inductive error := Between (e : vec) | Squares (l : list Q).

(* StereoModel.cc:211-228: the sums over the rays, each a direction and a centre *)
Definition add_ray (s : mat * vec) (r : vec * vec) : mat * vec :=
  let '(m, v) := s in
  let '(V3 a b c, V3 x y z) := r in
  (M3 (m00 m + (1 - a * a)) (m01 m - a * b) (m02 m - a * c)
      (m10 m) (m11 m + (1 - b * b)) (m12 m - b * c)
      (m20 m) (m21 m) (m22 m + (1 - c * c)),
   V3 (vx v + (1 - a * a) * x - a * b * y - a * c * z)
      (vy v + (1 - b * b) * y - a * b * x - b * c * z)
      (vz v + (1 - c * c) * z - a * c * x - b * c * y)).
Definition ray_sums (rays : list (vec * vec)) : mat * vec :=
  let '(m, v) := fold_left add_ray rays (M3 0 0 0 0 0 0 0 0 0, vzero) in
  (M3 (m00 m) (m01 m) (m02 m) (m01 m) (m11 m) (m12 m) (m02 m) (m12 m) (m22 m), v).
(* StereoModel.cc:236-244: square of the distance from a point to a ray *)
Definition ray_square (p : vec) (r : vec * vec) : Q :=
  let '(V3 a b c, V3 x y z) := r in
  let v := a * (vx p - x) + b * (vy p - y) + c * (vz p - z) in
  let dist := (vx p - x) * (vx p - x) + (vy p - y) * (vy p - y) + (vz p - z) * (vz p - z) - v * v in
  if ltq dist 0 then 0 else dist.
(* StereoModel.cc:211-251: several rays *)
Definition triangulate_many (rays : list (vec * vec)) : res (option (vec * error)) :=
  let '(m, v) := ray_sums rays in
  n <- inverse3 m ;;
  let p := mulv n v in
  Ok (Some (p, Squares (map (ray_square p) rays))).
(* StereoModel.cc:187-252 triangulate_point *)
Definition triangulate_point (rays : list (vec * vec)) : res (option (vec * error)) :=
  match rays with
  | [(d0, c0); (d1, c1)] =>
      match triangulate_pair d0 c0 d1 c1 with
      | Some (p, e) => Ok (Some (p, Between e))
      | None => Ok None
      end
  | _ => triangulate_many rays
  end.

(* A camera; [None] is a PixelToRayErr *)
Record camera := Cam { to_vector : pt -> option (res vec); center_at : pt -> option (res vec) }.
(* Camera/CameraModel.h:102 invalid_pixel *)
Definition invalid_pixel : pt := (inject_Z (-100000000), inject_Z (-100000000)).
(* A pixel; [None] has a coordinate that is not a number *)
Definition pixel : Type := option pt.
Definition usable (p : pixel) : bool :=
  match p with
  | None => false
  | Some q => negb (Qeq_bool (fst q) (fst invalid_pixel) && Qeq_bool (snd q) (snd invalid_pixel))
  end.

(* StereoModel.cc:113-123: the valid rays; [None] is a PixelToRayErr *)
Fixpoint valid_rays (cams : list camera) (pixels : list pixel) : option (res (list (vec * vec))) :=
  match cams, pixels with
  | c :: cs, p :: ps =>
      if usable p then
        let q := match p with Some q => q | None => (0, 0) end in
        match to_vector c q with
        | None => None
        | Some (Throw e) => Some (Throw e)
        | Some (UB u) => Some (UB u)
        | Some (Ok d) =>
            match center_at c q with
            | None => None
            | Some (Throw e) => Some (Throw e)
            | Some (UB u) => Some (UB u)
            | Some (Ok o) =>
                match valid_rays cs ps with
                | Some (Ok l) => Some (Ok ((d, o) :: l))
                | r => r
                end
            end
        end
      else valid_rays cs ps
  | _, _ => Some (Ok [])
  end.

(* StereoModel.cc:135-140 *)
Definition behind (p : vec) (r : vec * vec) : bool := ltq (dot (vsub p (snd r)) (fst r)) 0.
Definition reflected (rays : list (vec * vec)) (p : vec) : vec :=
  if existsb (behind p) rays
  then vadd (vscale (-1) p) (vscale 2 (match rays with r :: _ => snd r | [] => vzero end))
  else p.
(* StereoModel.cc:97-147 operator() *)
Definition triangulate (cams : list camera) (angle_tol : Q) (pixels : list pixel) : res (option (vec * error)) :=
  if negb (length pixels =? length cams)%nat then Throw ArgumentErr
  else
    match valid_rays cams pixels with
    | None => Ok (Some (vzero, Between vzero))
    | Some r =>
        rays <- r ;;
        if (length rays <? 2)%nat then Ok (Some (vzero, Between vzero))
        else if are_nearly_parallel angle_tol (map fst rays) then Ok (Some (vzero, Between vzero))
        else
          o <- triangulate_point rays ;;
          match o with
          | Some (p, e) => Ok (Some (reflected rays p, e))
          | None => Ok None
          end
    end.

(* StereoModel.cc:276-298: one pixel of operator() on a map of disparities, and
   whether it is counted as divergent; the sums in single precision are exact *)
Definition disparity_point (cams : list camera) (angle_tol : Q) (d : option (Q * Q)) (x y : Z) : res ((vec * error) * bool) :=
  match d with
  | Some (dx, dy) =>
      o <- triangulate cams angle_tol [Some (inject_Z x, inject_Z y); Some (inject_Z x + dx, inject_Z y + dy)] ;;
      match o with
      | Some (p, e) => Ok ((p, e), false)
      | None => Ok ((vzero, Between vzero), true)
      end
  | None => Ok ((vzero, Between vzero), false)
  end.
(* StereoModel.cc:254-309 operator() on a map: the loops over rows and columns *)
Definition disparity_cloud (cams : list camera) (angle_tol : Q) (m : img (option (Q * Q))) : res (img (vec * error) * Z) :=
  for_up 0 (irows m) (fun y s =>
    for_up 0 (icols m) (fun x s =>
      let '(im, n) := s in
      d <- get m x y ;;
      r <- disparity_point cams angle_tol d x y ;;
      im' <- put im x y (fst r) ;;
      Ok (im', if snd r then n + 1 else n)%Z) s)
    (Img (icols m) (irows m) (fun _ _ => (vzero, Between vzero)), 0%Z).

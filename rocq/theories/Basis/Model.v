(** Bases and tangents of planes (src/vw/Math/VectorUtils.cc).

    Coordinates are exact rationals.  Lengths of vectors, which are square roots, are a
    function given from outside; [None] stands for what is not a number. *)
From Coq Require Import List Bool ZArith QArith.
From Verif Require Import Lib.Base GeoRef.Model Stereo.Model.
Import ListNotations.
Local Open Scope Q_scope.

Definition over (v : vec) (k : Q) : vec := V3 (vx v / k) (vy v / k) (vz v / k).
(* VectorUtils.cc:39-46 the index of the greatest coordinate by magnitude *)
Definition max_idx (z : vec) : Z :=
  let '(m, i) := (qabs (vx z), 0%Z) in
  let '(m, i) := if ltq m (qabs (vy z)) then (qabs (vy z), 1%Z) else (m, i) in
  if ltq m (qabs (vz z)) then 2%Z else i.
Definition coord (z : vec) (i : Z) : Q := if (i =? 0)%Z then vx z else if (i =? 1)%Z then vy z else vz z.
Definition set_coord (z : vec) (i : Z) (q : Q) : vec :=
  if (i =? 0)%Z then V3 q (vy z) (vz z) else if (i =? 1)%Z then V3 (vx z) q (vz z) else V3 (vx z) (vy z) q.
(* VectorUtils.cc:48-53 two coordinates swapped, one of them negated *)
Definition across (z : vec) : vec :=
  let idx1 := ((max_idx z + 1) mod 3)%Z in
  let idx2 := ((max_idx z + 2) mod 3)%Z in
  set_coord (set_coord vzero idx1 (- coord z idx2)) idx2 (coord z idx1).
(* VectorUtils.cc:30-60 formBasis: X, Y and Z.  A division by a length of zero gives what is not a number. *)
Definition form_basis (norm : vec -> Q) (v : vec) : res (option (vec * vec * vec)) :=
  let n := norm v in
  if Qeq_bool n 0 then Throw ArgumentErr
  else
    let z := over v n in
    let x := across z in
    let nx := norm x in
    if Qeq_bool nx 0 then Ok None
    else let x := over x nx in Ok (Some (x, cross z x, z)).

(* VectorUtils.cc:68-80 the tangents before they are scaled *)
Definition slopes (n : vec) : option (vec * vec) :=
  if ltq (1 # 10) (qabs (vz n)) then Some (V3 1 0 (- vx n / vz n), V3 0 1 (- vy n / vz n))
  else if ltq (1 # 10) (qabs (vy n)) then Some (V3 1 (- vx n / vy n) 0, V3 0 (- vz n / vy n) 1)
  else if Qeq_bool (vx n) 0 then None
  else Some (V3 (- vy n / vx n) 1 0, V3 (- vz n / vx n) 0 1).
(* VectorUtils.cc:65-85 computePlaneTangents *)
Definition plane_tangents (norm : vec -> Q) (n : vec) (offset : Q) : option (vec * vec) :=
  match slopes n with
  | None => None
  | Some (t1, t2) => Some (vscale offset (over t1 (norm t1)), vscale offset (over t2 (norm t2)))
  end.

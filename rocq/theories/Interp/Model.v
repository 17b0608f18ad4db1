(** Interpolation of positions, times and directions:
    src/vw/Math/PositionInterp.cc, src/vw/Camera/TimeInterp.cc and the table of
    directions in src/vw/Math/QuatInterp.cc.

    Simplifications: numbers are rationals and the arithmetic is exact; a division
    by zero (infinite or not a number in the code) is the outcome DivByZero;
    integers do not overflow.  Curve3DPositionInterpolation and the interpolation
    of quaternions are left out. *)
From Coq Require Import List ZArith QArith Qround Qabs Bool.
From Verif Require Import Lib.Base Lib.Lists.
Import ListNotations.
Open Scope Q_scope.

Definition ltq (a b : Q) : bool := negb (Qle_bool b a).

(** Vector3. *)
Definition v3 : Type := Q * Q * Q.
Definition vzero : v3 := (0, 0, 0).
Definition vadd (a b : v3) : v3 := let '(x, y, z) := a in let '(x', y', z') := b in (x + x', y + y', z + z').
Definition vscale (k : Q) (a : v3) : v3 := let '(x, y, z) := a in (k * x, k * y, k * z).
Definition vsub (a b : v3) : v3 := vadd a (vscale (-1 # 1) b).

(** Access to a std::vector by an int. *)
Definition get {X} (l : list X) (i : Z) : res X :=
  if (i <? 0)%Z then UB OutOfBounds else match nth_error l (Z.to_nat i) with Some x => Ok x | None => UB OutOfBounds end.
Definition divq (a b : Q) : res Q := if Qeq_bool b 0 then UB DivByZero else Ok (a / b).
Definition size {X} (l : list X) : Z := Z.of_nat (length l).

(** ** Linear *)

(** PositionInterp.cc 80-87: LinearPositionInterpolation. *)
Definition linear_position (p v : v3) (t : Q) : v3 := vadd p (vscale t v).

(** PositionInterp.cc 92-96, 131-134, 339-343, 426-430: m_tend. *)
Definition tend {X} (samples : list X) (t0 dt : Q) : Q := t0 + dt * inject_Z (size samples - 1).
Definition eps : Q := 1 # 100000000.

(** PositionInterp.cc 98-126: LinearPiecewisePositionInterpolation. *)
Definition linear_piecewise (samples : list v3) (t0 dt t : Q) : res v3 :=
  if negb (Qle_bool t0 t && Qle_bool t (tend samples t0 dt + eps)) then Throw ArgumentErr else
  u <- divq (t - t0) dt ;;
  let low := Qfloor u in
  let high := Qceiling u in
  let high := if ltq (Qabs (t - tend samples t0 dt)) eps && (high =? size samples)%Z then low else high in
  if negb ((0 <=? low)%Z && (high <? size samples)%Z) then Throw ArgumentErr else
  let low_t := t0 + dt * inject_Z low in
  norm <- divq (t - low_t) dt ;;
  a <- get samples low ;;
  b <- get samples high ;;
  Ok (vadd a (vscale norm (vsub b a))).

(** ** Weights *)

(** PositionInterp.cc 45-74: get_wts_and_indices.  [weight] stands for
    exp(-sigma * ratio * ratio), [sort] for std::sort with descending weights.  A
    negative number of weights makes the resize throw std::length_error. *)
Definition wts_and_indices (weight : Q -> Q) (sort : list (Q * Z) -> list (Q * Z)) (t0 dt t : Q) (num_samples num_wts : Z) :
  res (list (Q * Z)) :=
  V <- fold_right (fun i (r : res (list (Q * Z))) =>
         r <- r ;; ratio <- divq (t0 + dt * inject_Z i - t) dt ;; Ok ((weight ratio, i) :: r)) (Ok []) (zseq 0 (Z.to_nat num_samples)) ;;
  let len := Z.min num_samples num_wts in
  if (len <? 0)%Z then Throw OtherErr else
  let V := firstn (Z.to_nat len) (sort V) in
  let sum := fold_left (fun s w => s + fst w) V 0 in
  fold_right (fun w (r : res (list (Q * Z))) => r <- r ;; x <- divq (fst w) sum ;; Ok ((x, snd w) :: r)) (Ok []) V.

(** PositionInterp.cc 131-159: SmoothPiecewisePositionInterpolation. *)
Definition smooth_piecewise (weight : Q -> Q) (sort : list (Q * Z) -> list (Q * Z)) (samples : list v3) (t0 dt : Q) (num_wts : Z) (t : Q) : res v3 :=
  if (size samples <=? 1)%Z then Throw ArgumentErr else
  if negb (Qle_bool t0 t && Qle_bool t (tend samples t0 dt)) then Throw ArgumentErr else
  wi <- wts_and_indices weight sort t0 dt t (size samples) num_wts ;;
  fold_left (fun (ans : res v3) w => ans <- ans ;; s <- get samples (snd w) ;; Ok (vadd ans (vscale (fst w) s))) wi (Ok vzero).

(** ** Lagrange *)

(** PositionInterp.cc 196-208: the first sample after [t], or the last. *)
Fixpoint first_after (times : list Q) (t : Q) (i : Z) : Z :=
  match times with [] => (-1)%Z | x :: times => if ltq t x then i else first_after times t (i + 1) end.
Definition next_sample (times : list Q) (t : Q) : Z :=
  let next := first_after times t 0 in if (next <? 0)%Z then (size times - 1)%Z else next.

(** PositionInterp.cc 211-221: the window, kept within bounds. *)
Definition var_window (n next radius : Z) : Z * Z :=
  let start := (next - radius)%Z in
  let fin := (next + radius)%Z in
  let '(start, fin) := (if (start <? 0) then (0, fin - start) else (start, fin))%Z in
  (if (n <? fin) then (start - (fin - n), n) else (start, fin))%Z.

(** PositionInterp.cc 230-241, 323-328: a product over the other samples of the window. *)
Definition product (start fin j : Z) (factor : Z -> res Q) : res Q :=
  for_up start fin (fun i s => if (i =? j)%Z then Ok s else f <- factor i ;; Ok (s * f)) 1.

(** PositionInterp.cc 178-243: LagrangianInterpolationVarTime, constructor and
    operator(). *)
Definition lagrange_var (samples : list v3) (times : list Q) (radius : Z) (t : Q) : res v3 :=
  if (size samples <=? 1)%Z then Throw ArgumentErr else
  if negb (size samples =? size times)%Z then Throw ArgumentErr else
  if (radius <=? 1)%Z then Throw ArgumentErr else
  let n := size times in
  let '(start, fin) := var_window n (next_sample times t) radius in
  if negb ((0 <=? start)%Z && (fin <=? n)%Z) then Throw ArgumentErr else
  for_up start fin (fun j ans =>
    num <- product start fin j (fun i => ti <- get times i ;; Ok (t - ti)) ;;
    den <- product start fin j (fun i => tj <- get times j ;; ti <- get times i ;; Ok (tj - ti)) ;;
    w <- divq num den ;;
    s <- get samples j ;;
    Ok (vadd ans (vscale w s))) vzero.

(** std::round of a number that is not negative. *)
Definition roundq (x : Q) : Z := Qfloor (x + (1 # 2)).

(** PositionInterp.cc 252-278: the checks of the constructor of
    LagrangianInterpolation. *)
Definition lagrange_checks (samples : list v3) (start_time dt last_time : Q) (radius : Z) : bool :=
  (1 <? size samples)%Z && (1 <? radius)%Z && ltq 0 dt && ltq start_time last_time &&
  (size samples =? roundq ((last_time - start_time) / dt) + 1)%Z.

(** PositionInterp.cc 268-277: m_denoms. *)
Definition denom (radius : Z) (dt : Q) (j : Z) : res Q :=
  product 0 (2 * radius) j (fun i => Ok (inject_Z (j - i) * dt)).

(** PositionInterp.cc 288-306: the window, both ends included. *)
Definition const_window (n low radius : Z) : Z * Z :=
  let start := (low - (radius - 1))%Z in
  let fin := (low + 1 + (radius - 1))%Z in
  let '(start, fin) := (if start <? 0 then (start + - start, fin + - start) else (start, fin))%Z in
  (if n <=? fin then let shift := fin - n + 1 in (start - shift, fin - shift) else (start, fin))%Z.

(** PositionInterp.cc 312-314: m_times_temp. *)
Fixpoint times_temp (x dt : Q) (k : nat) : list Q :=
  match k with O => [] | S k => x :: times_temp (x + dt) dt k end.

(** PositionInterp.cc 247-334: LagrangianInterpolation, constructor and operator(). *)
Definition lagrange_const (samples : list v3) (start_time dt last_time : Q) (radius : Z) (t : Q) : res v3 :=
  if negb (lagrange_checks samples start_time dt last_time radius) then Throw ArgumentErr else
  let n := size samples in
  let low := Qfloor ((t - start_time) / dt) in
  if negb ((0 <=? low)%Z && (low + 1 <? n)%Z) then Throw ArgumentErr else
  let '(start, fin) := const_window n low radius in
  if negb ((0 <=? start)%Z && (fin <? n)%Z) then Throw ArgumentErr else
  let temp := times_temp (start_time + inject_Z start * dt) dt (Z.to_nat (2 * radius)) in
  for_up start (fin + 1) (fun j ans =>
    num <- product start (fin + 1) j (fun i => ti <- get temp (i - start) ;; Ok (t - ti)) ;;
    den <- denom radius dt (j - start) ;;
    w <- divq num den ;;
    s <- get samples j ;;
    Ok (vadd ans (vscale w s))) vzero.

(** ** Positions and velocities *)

(** PositionInterp.cc 346-372: PiecewiseAPositionInterpolation. *)
Definition piecewise_a (samples velocity : list v3) (t0 dt t : Q) : res v3 :=
  if negb (Qle_bool t0 t && Qle_bool t (tend samples t0 dt + eps)) then Throw ArgumentErr else
  u <- divq (t - t0) dt ;;
  let low := Qfloor u in
  let high := (low + 1)%Z in
  let offset := t - (t0 + dt * inject_Z low) in
  let high := if ltq (Qabs (t - tend samples t0 dt)) eps && (high =? size samples)%Z then low else high in
  if negb ((0 <=? low)%Z && (high <? size samples)%Z) then Throw ArgumentErr else
  vl <- get velocity low ;;
  vh <- get velocity high ;;
  p <- get samples low ;;
  let a := vscale (/ dt) (vsub vh vl) in
  Ok (vadd (vadd p (vscale offset vl)) (vscale (offset * offset / 2) a)).

(** PositionInterp.cc 433-456: HermitePositionInterpolation. *)
Definition hermite (samples velocity : list v3) (t0 dt t : Q) : res v3 :=
  if negb (Qle_bool t0 t && ltq t (tend samples t0 dt)) then Throw ArgumentErr else
  u <- divq (t - t0) dt ;;
  let low := Qfloor u in
  let high := (low + 1)%Z in
  if negb ((0 <=? low)%Z && (high <? size samples)%Z) then Throw ArgumentErr else
  let low_t := t0 + dt * inject_Z low in
  x <- divq (t - low_t) dt ;;
  pl <- get samples low ;;
  vl <- get velocity low ;;
  ph <- get samples high ;;
  vh <- get velocity high ;;
  Ok (vadd (vadd (vadd (vscale (1 - 3 * (x * x) + 2 * (x * x * x)) pl)
                       (vscale (x - 2 * (x * x) + x * x * x) (vscale dt vl)))
                 (vscale (3 * (x * x) - 2 * (x * x * x)) ph))
           (vscale (x * x * x - x * x) (vscale dt vh))).

(** ** Times of lines *)

(** TimeInterp.cc 27-31: LinearTimeInterpolation. *)
Definition linear_time (t0 dt line : Q) : Q := dt * line + t0.

(** An insertion m[key] = value into a std::map with keys that are compared by <. *)
Fixpoint put (key : Q) (v : Q * Q) (m : list (Q * (Q * Q))) : list (Q * (Q * Q)) :=
  match m with
  | [] => [(key, v)]
  | (k, w) :: m' => if ltq key k then (key, v) :: m else if ltq k key then (k, w) :: put key v m' else (k, v) :: m'
  end.

(** TimeInterp.cc 36-57: TLCTimeInterpolation; the two maps m_m and m_b, which have
    the same keys, are one. *)
Fixpoint tlc_table (offset : Q) (tlc : list (Q * Q)) (m : list (Q * (Q * Q))) : res (list (Q * (Q * Q))) :=
  match tlc with
  | (l0, s0) :: (((l1, s1) :: _) as rest) =>
      slope <- divq (s1 - s0) (l1 - l0) ;;
      tlc_table offset rest (put l0 (slope, offset + s0 - slope * l0) m)
  | _ => Ok m
  end.

(** TimeInterp.cc 59-67: lower_bound, and one step back unless it is the first. *)
Fixpoint before_lower_bound (line : Q) (prev : option (Q * Q)) (m : list (Q * (Q * Q))) : option (Q * Q) :=
  match m with
  | [] => prev
  | (k, v) :: m' => if ltq k line then before_lower_bound line (Some v) m' else match prev with Some p => Some p | None => Some v end
  end.
Definition tlc_time (offset : Q) (tlc : list (Q * Q)) (line : Q) : res Q :=
  m <- tlc_table offset tlc [] ;;
  match before_lower_bound line None m with
  | Some (slope, b) => Ok (line * slope + b)
  | None => UB BadIter
  end.

(** ** A table of directions *)

(** QuatInterp.cc 257-342: SlerpGridPointingInterpolation at ([col], [row]).
    Directions are an arbitrary type, [slerp] is the spherical interpolation,
    [extrapolate] the linear one. *)
Section Grid.
Variable D : Type.
Variable slerp : Q -> D -> D -> D.
Variable extrapolate : Q -> D -> D -> D.
(** A double converted to an int. *)
Definition trunc (x : Q) : Z := if ltq x 0 then Qceiling x else Qfloor x.
Definition cell (directions : list (list D)) (r c : Z) : res D := row <- get directions r ;; get row c.

Definition grid (directions : list (list D)) (row0 drow col0 dcol col row : Q) : res D :=
  match directions with
  | [] => Throw ArgumentErr
  | [] :: _ => Throw ArgumentErr
  | front :: _ =>
      let row_end := row0 + drow * inject_Z (size directions - 1) in
      let col_end := col0 + dcol * inject_Z (size front - 1) in
      if negb (Qle_bool row0 row && Qle_bool row row_end) then Throw ArgumentErr else
      u <- divq (row - row0) drow ;;
      let low_irow := Qfloor u in
      let high_irow := Qceiling u in
      if negb ((0 <=? low_irow)%Z && (high_irow <? size directions)%Z) then Throw ArgumentErr else
      norm_row <- divq (row - (row0 + drow * inject_Z low_irow)) drow ;;
      v <- divq (col - col0) dcol ;;
      let '(low_icol, high_icol) :=
        if ltq col col0 then (0, 1)%Z
        else if ltq col_end col then (trunc (col_end - 1), trunc col_end)
        else (Qfloor v, Qceiling v) in
      norm_col <- divq (col - (col0 + dcol * inject_Z low_icol)) dcol ;;
      ll <- cell directions low_irow low_icol ;;
      hl <- cell directions high_irow low_icol ;;
      let L := slerp norm_row ll hl in
      lh <- cell directions low_irow high_icol ;;
      hh <- cell directions high_irow high_icol ;;
      let H := slerp norm_row lh hh in
      if Qle_bool col0 col && Qle_bool col col_end then Ok (slerp norm_col L H)
      else t <- divq (col - col0) (col_end - col0) ;; Ok (extrapolate t L H)
  end.
End Grid.
Arguments grid {D}.
Arguments cell {D}.

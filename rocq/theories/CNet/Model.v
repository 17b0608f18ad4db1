(** Control networks: src/vw/BundleAdjustment/ControlNetwork.{h,cc}, and the files
    of ground control points (ControlNetworkLoader.cc).

    Simplification: coordinates and standard deviations are integers; they are
    only copied and compared. *)
From Coq Require Import List ZArith Bool Ascii String.
From Verif Require Import Lib.Base Lib.Str.
Import ListNotations.
Open Scope Z_scope.

(** ControlNetwork.h 38-55: a measure; the type is the number of the enumeration. *)
Record measure := Meas { mcol : Z; mrow : Z; mcol_sigma : Z; mrow_sigma : Z; mimage : nat; mignore : bool; mtype : Z }.

(** ControlNetwork.h 145-146: the types of points. *)
Inductive ptype := GroundControlPoint | TiePoint | PointFromDem.
Record vec3 := V3 { vx : Z; vy : Z; vz : Z }.

(** ControlNetwork.h 125-148: a control point, without the name. *)
Record point := Point { pmeasures : list measure; pignore : bool; pposition : vec3; psigma : vec3; pptype : ptype }.

(** ControlNetwork.h 248-249: the types of networks. *)
Inductive ntype := Singleton | ImageToImage | ImageToGround.

(** ControlNetwork.h 209-219: a network, without the texts that describe it. *)
Record network := Net { npoints : list point; nimages : list str; nntype : ntype }.

(** ControlNetwork.cc 28-35: a measure. *)
Definition new_measure (col row cs rs : Z) (image : nat) : measure := Meas col row cs rs image false 3.

(** ControlNetwork.cc 50-54: a point. *)
Definition new_point (t : ptype) : point := Point [] false (V3 0 0 0) (V3 1 1 1) t.

(** ControlNetwork.h 111-117: operator==. *)
Definition measure_eqb (a b : measure) : bool :=
  (mcol a =? mcol b) && (mrow a =? mrow b) &&
  ((mcol_sigma a =? mcol_sigma b) && (mrow_sigma a =? mrow_sigma b)) &&
  Nat.eqb (mimage a) (mimage b).

(** ControlNetwork.cc 42-46: get_image_name. *)
Definition get_image_name (net : network) (m : measure) : str :=
  match nth_error (nimages net) (mimage m) with Some x => x | None => [] end.

(** ControlNetwork.cc 56-62: add_measure, add_measures. *)
Definition with_measures (ms : list measure) (p : point) : point := Point ms (pignore p) (pposition p) (psigma p) (pptype p).
Definition add_measure (m : measure) (p : point) : point := with_measures (pmeasures p ++ [m]) p.
Definition add_measures (ms : list measure) (p : point) : point := with_measures (pmeasures p ++ ms) p.

(** std::vector::erase at a position inside. *)
Definition erase_at {X} (i : nat) (l : list X) : list X := firstn i l ++ skipn (S i) l.

(** ControlNetwork.cc 64-72: delete_measure. *)
Definition delete_measure (i : nat) (p : point) : res point :=
  if (List.length (pmeasures p) <=? i)%nat then Throw LogicErr else Ok (with_measures (erase_at i (pmeasures p)) p).

(** ControlNetwork.cc 74-79: find. *)
Fixpoint find_from (i : nat) (ms : list measure) (q : measure) : nat :=
  match ms with
  | [] => i
  | m :: ms => if measure_eqb m q then i else find_from (S i) ms q
  end.
Definition find (p : point) (q : measure) : nat := find_from 0 (pmeasures p) q.

(** ControlNetwork.h 236-239: add_image_name. *)
Definition add_image_name (x : str) (net : network) : network * nat :=
  (Net (npoints net) (nimages net ++ [x]) (nntype net), List.length (nimages net)).

Definition is_gcp (p : point) : bool := match pptype p with GroundControlPoint => true | _ => false end.
Definition is_tie (p : point) : bool := match pptype p with TiePoint => true | _ => false end.
Definition to_ground (t : ntype) : bool := match t with ImageToGround => true | _ => false end.

(** ControlNetwork.cc 92-98: add_control_point. *)
Definition add_control_point (p : point) (net : network) : network :=
  let t := if negb (to_ground (nntype net)) && is_gcp p then ImageToGround else nntype net in
  Net (npoints net ++ [p]) (nimages net) t.

(** ControlNetwork.cc 100-111: add_control_points. *)
Definition add_control_points (ps : list point) (net : network) : network :=
  let t := if negb (to_ground (nntype net)) then if existsb is_gcp ps then ImageToGround else nntype net else nntype net in
  Net (npoints net ++ ps) (nimages net) t.

(** ControlNetwork.cc 113-122: delete_control_point. *)
Definition delete_control_point (i : nat) (net : network) : res network :=
  if (List.length (npoints net) <=? i)%nat then Throw LogicErr
  else Ok (Net (erase_at i (npoints net)) (nimages net) (nntype net)).

(** ControlNetwork.cc 124-129: find_measure. *)
Fixpoint find_measure_from (i : nat) (ps : list point) (q : measure) : nat :=
  match ps with
  | [] => i
  | p :: ps => if negb (Nat.eqb (find p q) (List.length (pmeasures p))) then i else find_measure_from (S i) ps q
  end.
Definition find_measure (net : network) (q : measure) : nat := find_measure_from 0 (npoints net) q.

(** ControlNetwork.h 266-275 and 278-284: the numbers of points of a type. *)
Fixpoint count_points (f : point -> bool) (count : nat) (ps : list point) : nat :=
  match ps with [] => count | p :: ps => count_points f (if f p then S count else count) ps end.
Definition num_ground_control_points (net : network) : nat :=
  if negb (to_ground (nntype net)) then O else count_points is_gcp 0 (npoints net).
Definition num_tie_points (net : network) : nat := count_points is_tie 0 (npoints net).

(** ** Files of ground control points

    A file is a list of tokens: the header with the datum, numbers, names of
    images, and the ends of the lines.  Numbers are written with enough digits
    and read back exactly.  Names contain no blanks and no commas. *)
Inductive tok := Header | Num (z : Z) | Name (s : str) | End.

Section Files.
(** cartesian_to_geodetic and geodetic_to_cartesian of the datum, and the digits
    of a number. *)
Variable geodetic : vec3 -> vec3.
Variable cartesian : vec3 -> vec3.
Variable digits : Z -> str.

(** ControlNetwork.cc 163-190: the measures of a point. *)
Fixpoint write_measures (images : list str) (ms : list measure) : list tok * res unit :=
  match ms with
  | [] => ([], Ok tt)
  | m :: ms =>
      match nth_error images (mimage m) with
      | None => ([], Throw ArgumentErr)
      | Some x =>
          let '(t, r) := write_measures images ms in
          ([Name x; Num (mcol m); Num (mrow m); Num (mcol_sigma m); Num (mrow_sigma m)] ++
             match ms with [] => [End] | _ => [] end ++ t, r)
      end
  end.

Definition positive (z : Z) : Z := if z <=? 0 then 1 else z.

(** ControlNetwork.cc 147-191: the points. *)
Fixpoint write_points (images : list str) (count : Z) (ps : list point) : list tok * res unit :=
  match ps with
  | [] => ([], Ok tt)
  | p :: ps =>
      let llh := geodetic (pposition p) in
      let s := psigma p in
      let head := [Num (count + 1); Num (vy llh); Num (vx llh); Num (vz llh);
                   Num (positive (vx s)); Num (positive (vy s)); Num (positive (vz s))] in
      match write_measures images (pmeasures p) with
      | (t, Ok _) => let '(u, r) := write_points images (count + 1) ps in (head ++ t ++ u, r)
      | (t, r) => (head ++ t, r)
      end
  end.

(** ControlNetwork.cc 131-193: write_in_gcp_format: the file, and whether an
    exception was thrown.  The datum is a specified one. *)
Definition write_gcp (net : network) : list tok * res unit :=
  let '(t, r) := write_points (nimages net) 0 (npoints net) in (Header :: End :: t, r).

(** getline: the lines of a file. *)
Fixpoint lines (acc : list tok) (ts : list tok) : list (list tok) :=
  match ts with
  | [] => match acc with [] => [] | _ => [acc] end
  | End :: ts => acc :: lines [] ts
  | t :: ts => lines (acc ++ [t]) ts
  end.

(** ControlNetworkLoader.cc 665-679: the measures of a line. *)
Definition as_name (t : tok) : option str :=
  match t with Num z => Some (digits z) | Name x => Some x | _ => None end.
Fixpoint read_measures (fuel : nat) (ts : list tok) : res (list (str * (Z * Z * Z * Z))) :=
  match fuel with
  | O => UB NoTerm
  | S fuel =>
      match ts with
      | t :: Num a :: Num b :: Num c :: Num d :: ts =>
          match as_name t with
          | None => Ok []
          | Some x =>
              if (c <=? 0) || (d <=? 0) then Throw ArgumentErr else
              l <- read_measures fuel ts ;; Ok ((x, (a, b, c, d)) :: l)
          end
      | _ => Ok []
      end
  end.

(** ControlNetworkLoader.cc 588-595: the numbers of the images by name, and by
    the last part of the name; a later entry replaces an earlier one. *)
Definition file_name (x : str) : str := after_last "/"%char x.
Fixpoint image_lookup (i : nat) (images : list str) : list (str * nat) :=
  match images with
  | [] => []
  | x :: images => (x, i) :: (file_name x, i) :: image_lookup (S i) images
  end.
Fixpoint last_entry (l : list (str * nat)) (x : str) : option nat :=
  match l with
  | [] => None
  | (y, i) :: l =>
      match last_entry l x with
      | Some j => Some j
      | None => if str_eqb y x then Some i else None
      end
  end.

(** ControlNetworkLoader.cc 696-714: the measures whose image is known. *)
Fixpoint known_measures (table : list (str * nat)) (l : list (str * (Z * Z * Z * Z))) : list measure :=
  match l with
  | [] => []
  | (x, (a, b, c, d)) :: l =>
      match last_entry table x with
      | Some i => new_measure a b c d i :: known_measures table l
      | None => known_measures table l
      end
  end.

(** ControlNetworkLoader.cc 612-720: one line; the network, and whether a point
    was added. *)
Definition read_line (table : list (str * nat)) (net : network) (ts : list tok) : res (network * bool) :=
  match ts with
  | Num _ :: Num lat :: Num lon :: Num h :: Num s0 :: Num s1 :: Num s2 :: rest =>
      l <- read_measures (S (List.length rest)) rest ;;
      if (s0 <=? 0) || (s1 <=? 0) || (s2 <=? 0) then Throw ArgumentErr else
      let p := Point (known_measures table l) false (cartesian (V3 lon lat h)) (V3 s0 s1 s2) GroundControlPoint in
      match pmeasures p with
      | [] => Ok (net, false)
      | _ => Ok (add_control_point p net, true)
      end
  | _ => Ok (net, false)
  end.

Fixpoint read_lines (table : list (str * nat)) (net : network) (count : nat) (ls : list (list tok)) : network * res nat :=
  match ls with
  | [] => (net, Ok count)
  | t :: ls =>
      match read_line table net t with
      | Ok (net, added) => read_lines table net (if added then S count else count) ls
      | Throw e => (net, Throw e)
      | UB u => (net, UB u)
      end
  end.

(** ControlNetworkLoader.cc 574-729: add_ground_control_points, for one file with
    the datum given: the network and the number of points added. *)
Definition read_gcp (net : network) (ts : list tok) : network * res nat :=
  read_lines (image_lookup 0 (nimages net)) net 0 (lines [] ts).
End Files.

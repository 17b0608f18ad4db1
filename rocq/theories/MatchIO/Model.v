(** Binary interest point and match files
    (src/vw/InterestPoint/MatcherIO.cc, src/vw/InterestPoint/InterestPoint.h).

    A file is the list of its bytes.  Every number is represented by the bit
    pattern it has in memory, so floats are 32-bit patterns and copying a float
    is copying its pattern.  The machine is little endian (x86/ARM), which is
    what the code assumes by writing objects from memory.  Running out of disk
    or memory is not modelled. *)
From Verif Require Import Lib.Base.
From Coq Require Import List ZArith.
Import ListNotations.
Open Scope Z_scope.

(** InterestPoint.h 58-96: the members of an interest point. *)
Record ip := Ip {
  px : Z; py : Z;            (* float x, y *)
  pix : Z; piy : Z;          (* int32 ix, iy *)
  porient : Z;               (* float orientation *)
  pscale : Z;                (* float scale *)
  pinterest : Z;             (* float interest *)
  ppolarity : Z;             (* bool polarity: 0 or 1 *)
  poctave : Z; pscale_lvl : Z;   (* uint32 octave, scale_lvl *)
  pdesc : list Z             (* Vector<float> descriptor *)
}.

(** InterestPoint.h 58-62: the default interest point: everything zero except
    scale, which is 1.0f, bit pattern 0x3f800000. *)
Definition default_ip : ip := Ip 0 0 0 0 0 1065353216 0 0 0 0 [].

(** The [k] bytes of an object in memory, least significant first. *)
Fixpoint enc (k : nat) (v : Z) : list Z :=
  match k with
  | O => []
  | S k' => v mod 256 :: enc k' (v / 256)
  end.

Fixpoint dec (bs : list Z) : Z :=
  match bs with
  | [] => 0
  | b :: bs' => b + 256 * dec bs'
  end.

(** An input stream: the bytes left and whether it tests true. *)
Record stream := Stream { rest : list Z; good : bool }.

(** std::istream::read of [k] bytes over an object currently holding [old].
    A stream in a failed state stores nothing.  If fewer than [k] bytes are
    left they are stored over the first bytes of the object and the stream
    fails. *)
Definition sread (k : nat) (old : Z) (f : stream) : Z * stream :=
  if good f then
    if (k <=? length (rest f))%nat
    then (dec (firstn k (rest f)), Stream (skipn k (rest f)) true)
    else (dec (rest f ++ skipn (length (rest f)) (enc k old)), Stream [] false)
  else (old, f).

(** MatcherIO.cc 248-263: write_ip_record. *)
Definition write_ip_record (p : ip) : list Z :=
  enc 4 (px p) ++ enc 4 (py p) ++ enc 4 (pix p) ++ enc 4 (piy p) ++
  enc 4 (porient p) ++ enc 4 (pscale p) ++ enc 4 (pinterest p) ++
  enc 1 (ppolarity p) ++ enc 4 (poctave p) ++ enc 4 (pscale_lvl p) ++
  enc 8 (Z.of_nat (length (pdesc p))) ++
  flat_map (enc 4) (pdesc p).

(** MatcherIO.cc 287-288: the loop reading the descriptor, whose [n] elements
    were just created as zero. *)
Fixpoint read_desc (n : nat) (f : stream) : list Z * stream :=
  match n with
  | O => ([], f)
  | S n' =>
      let (v, f) := sread 4 0 f in
      let (vs, f) := read_desc n' f in
      (v :: vs, f)
  end.

(** MatcherIO.cc 265-290: read_ip_record. *)
Definition read_ip_record (f : stream) : res (ip * stream) :=
  if negb (good f) then Throw IOErr                        (* 266-267 *)
  else
    let d := default_ip in                                 (* 269 *)
    let (x, f) := sread 4 (px d) f in
    let (y, f) := sread 4 (py d) f in
    let (ix, f) := sread 4 (pix d) f in
    let (iy, f) := sread 4 (piy d) f in
    let (o, f) := sread 4 (porient d) f in
    let (s, f) := sread 4 (pscale d) f in
    let (i, f) := sread 4 (pinterest d) f in
    let (po, f) := sread 1 (ppolarity d) f in
    let (oc, f) := sread 4 (poctave d) f in
    let (lv, f) := sread 4 (pscale_lvl d) f in
    let (size, f) := sread 8 0 f in                        (* 281-282 *)
    if negb (good f)
    then Ok (Ip x y ix iy o s i po oc lv [], f)            (* 283-284 *)
    else
      let (ds, f) := read_desc (Z.to_nat size) f in        (* 286-288 *)
      Ok (Ip x y ix iy o s i po oc lv ds, f).

(** MatcherIO.cc 318-319, 337-338, 439-442: [n] records appended to a vector. *)
Fixpoint read_records (n : nat) (f : stream) : res (list ip * stream) :=
  match n with
  | O => Ok ([], f)
  | S n' =>
      '(p, f) <- read_ip_record f ;;
      '(ps, f) <- read_records n' f ;;
      Ok (p :: ps, f)
  end.

(** MatcherIO.cc 292-303: write_binary_ip_file.  The result is the contents of
    the file. *)
Definition write_binary_ip_file (ps : list ip) : list Z :=
  enc 8 (Z.of_nat (length ps)) ++ flat_map write_ip_record ps.

(** MatcherIO.cc 305-322: read_binary_ip_file ([None]: the file cannot be
    opened).  read_binary_ip_file_list, 324-341, is the same code with a list
    for the result. *)
Definition read_binary_ip_file (file : option (list Z)) : res (list ip) :=
  match file with
  | None => Throw IOErr                                    (* 310-311 *)
  | Some bytes =>
      let (size, f) := sread 8 0 (Stream bytes true) in    (* 313-314 *)
      if negb (good f) then Ok []                          (* 315-316 *)
      else '(ps, _) <- read_records (Z.to_nat size) f ;; Ok ps
  end.

(** MatcherIO.cc 344-366: write_binary_match_file.  The file is opened, and so
    emptied, before the sizes are compared: the result is what the file holds
    afterwards and how the call ended. *)
Definition write_binary_match_file (ps qs : list ip) : list Z * res unit :=
  let size1 := Z.of_nat (length ps) in
  let size2 := Z.of_nat (length qs) in
  if negb (size1 =? size2) then ([], Throw IOErr)          (* 355-357 *)
  else (enc 8 size1 ++ enc 8 size2 ++
        flat_map write_ip_record ps ++ flat_map write_ip_record qs, Ok tt).

(** MatcherIO.cc 406-444: read_binary_match_file. *)
Definition read_binary_match_file (file : option (list Z))
  : res (list ip * list ip) :=
  match file with
  | None => Ok ([], [])                                    (* 416-417 *)
  | Some bytes =>
      let (size1, f) := sread 8 0 (Stream bytes true) in   (* 421-422 *)
      if negb (good f) then Throw IOErr                    (* 427-428 *)
      else
        let (size2, f) := sread 8 0 f in                   (* 425-426 *)
        if negb (size1 =? size2) then Throw IOErr          (* 430-432 *)
        else if negb (good f) then Ok ([], [])             (* 434-437 *)
        else
          '(ps, f) <- read_records (Z.to_nat size1) f ;;
          '(qs, _) <- read_records (Z.to_nat size2) f ;;
          Ok (ps, qs)
  end.

(* Model of src/vw/Camera/ExifData.cc: reading the Exif tags of JPEG and TIFF files.

   A file, or a section of one that was read into memory, is the list of its bytes; a read
   outside of it is undefined behaviour.  Pointers are positions in that list and do not wrap
   (64 bits).  Simplifications: values of type double are kept as the integer, the quotient or
   the bytes they are made from; the map of tags is a list, newest first; warnings are not
   printed.  Which reader is used depends on the ending of the file name (ExifData.cc:487-497),
   that choice is left out.  Allocation succeeds. *)
From Coq Require Import ZArith List Lia Bool.
From Verif Require Import Lib.Base.
Import ListNotations.
Local Open Scope Z_scope.

Definition byte (m : list Z) (p : Z) : res Z :=
  if (0 <=? p) && (p <? Z.of_nat (length m)) then Ok (nth (Z.to_nat p) m 0) else UB OutOfBounds.
(* memcpy of n bytes *)
Fixpoint copy (m : list Z) (p : Z) (n : nat) : res (list Z) :=
  match n with O => Ok [] | S n => b <- byte m p ;; l <- copy m (p + 1) n ;; Ok (b :: l) end.

(* ExifData.cc:105-113 Put16u, 136-148 Put32u *)
Definition put16u (motorola : bool) (v : Z) : list Z :=
  if motorola then [(v / 256) mod 256; v mod 256] else [v mod 256; (v / 256) mod 256].
Definition put32u (motorola : bool) (v : Z) : list Z :=
  if motorola then [(v / 16777216) mod 256; (v / 65536) mod 256; (v / 256) mod 256; v mod 256]
  else [v mod 256; (v / 256) mod 256; (v / 65536) mod 256; (v / 16777216) mod 256].

(* ExifData.cc:116-122 Get16u *)
Definition get16u (motorola : bool) (m : list Z) (p : Z) : res Z :=
  a <- byte m p ;; b <- byte m (p + 1) ;; Ok (if motorola then a * 256 + b else b * 256 + a).
(* ExifData.cc:125-133 Get32s: the most significant byte is a signed char *)
Definition schar (b : Z) : Z := if b >=? 128 then b - 256 else b.
Definition get32s (motorola : bool) (m : list Z) (p : Z) : res Z :=
  a <- byte m p ;; b <- byte m (p + 1) ;; c <- byte m (p + 2) ;; d <- byte m (p + 3) ;;
  Ok (if motorola then schar a * 16777216 + b * 65536 + c * 256 + d else schar d * 16777216 + c * 65536 + b * 256 + a).
(* ExifData.cc:151-153 Get32u *)
Definition get32u (motorola : bool) (m : list Z) (p : Z) : res Z :=
  v <- get32s motorola m p ;; Ok (v mod 4294967296).

(* ExifData.cc:51-64 the formats *)
Definition UBYTE := 1. Definition ASCII := 2. Definition USHORT := 3. Definition ULONG := 4. Definition URATIONAL := 5.
Definition SBYTE := 6. Definition UNDEFINED := 7. Definition SSHORT := 8. Definition SLONG := 9. Definition SRATIONAL := 10.
Definition SINGLE := 11. Definition DOUBLE := 12.
(* ExifData.cc:81 BytesPerFormat *)
Definition bytes_per (f : Z) : Z := nth (Z.to_nat f) [0; 1; 1; 2; 4; 8; 1; 1; 2; 4; 8; 4; 8] 0.

(* a double: an integer, a quotient of two integers, or what is at an address in memory *)
Inductive num := NInt (z : Z) | NRat (n d : Z) | NRaw (l : list Z).

(* ExifData.cc:155-208 convert_any_format.  The 16 bits of an SSHORT are taken as signed;
   the bytes of floating point numbers are used as they are in memory. *)
Definition convert_any_format (mo : bool) (m : list Z) (p f : Z) : res num :=
  if f =? SBYTE then b <- byte m p ;; Ok (NInt (schar b))
  else if f =? UBYTE then b <- byte m p ;; Ok (NInt b)
  else if f =? USHORT then v <- get16u mo m p ;; Ok (NInt v)
  else if f =? ULONG then v <- get32u mo m p ;; Ok (NInt v)
  else if (f =? URATIONAL) || (f =? SRATIONAL) then
    n <- get32s mo m p ;; d <- get32s mo m (p + 4) ;; Ok (if d =? 0 then NInt 0 else NRat n d)
  else if f =? SSHORT then v <- get16u mo m p ;; Ok (NInt (if v >=? 32768 then v - 65536 else v))
  else if f =? SLONG then v <- get32s mo m p ;; Ok (NInt v)
  else if f =? SINGLE then l <- copy m p 4 ;; Ok (NRaw l)
  else if f =? DOUBLE then l <- copy m p 8 ;; Ok (NRaw l)
  else Ok (NInt 0).

(* (int)d for a double that is an integer *)
Definition int_of (n : num) : res Z :=
  match n with
  | NInt z => if (-2147483648 <=? z) && (z <=? 2147483647) then Ok z else UB Overflow
  | _ => UB Overflow
  end.

(* ExifData.h:48-55 ExifTagData *)
Inductive tagval := TInt (i : Z) | TDouble (d : num) | TStr (s : list Z).
Definition tagdict := list (Z * tagval).
Fixpoint find_tag (t : Z) (l : tagdict) : option tagval :=
  match l with [] => None | (k, v) :: l => if t =? k then Some v else find_tag t l end.

Definition is_link (tag : Z) : bool := (tag =? 34665) || (tag =? 40965).   (* 0x8769, 0xA005 *)

(* ExifData.cc:262-288: the value is stored *)
Definition store (mo : bool) (m : list Z) (p tag format : Z) (count : Z) (tags : tagdict) : res tagdict :=
  if (format =? ASCII) || (format =? UNDEFINED) then
    s <- copy m p (Z.to_nat count) ;; Ok ((tag, TStr s) :: tags)
  else if (format =? UBYTE) || (format =? USHORT) || (format =? ULONG) || (format =? SBYTE) || (format =? SSHORT) || (format =? SLONG) then
    n <- convert_any_format mo m p format ;; i <- int_of n ;; Ok ((tag, TInt i) :: tags)
  else n <- convert_any_format mo m p format ;; Ok ((tag, TDouble n) :: tags).

(* ExifData.cc:230-319: one entry of a directory at position [p].  [base] is OffsetBase, [len]
   is ExifLength, [sub] reads a directory one level down. *)
Definition entry (sub : Z -> tagdict -> res tagdict) (mo : bool) (m : list Z) (base len p : Z) (tags : tagdict) : res tagdict :=
  tag <- get16u mo m p ;;
  format <- get16u mo m (p + 2) ;;
  components <- get32u mo m (p + 4) ;;
  if (format >? 12) || (format <=? 0) then Ok tags
  else if components >? 65536 then Ok tags
  else
    let count := components * bytes_per format in
    value <- (if count >? 4 then
                o <- get32u mo m (p + 8) ;;
                Ok (if (o + count) mod 4294967296 >? len then None else Some (base + o))
              else Ok (Some (p + 8))) ;;
    match value with
    | None => Ok tags
    | Some v =>
        tags <- store mo m v tag format count tags ;;
        if is_link tag then
          o <- get32u mo m v ;;
          if o >? len then Ok tags else sub (base + o) tags
        else Ok tags
    end.

(* ExifData.cc:214-344 process_exif_dir.  [levels] is 5 minus the nesting level. *)
Fixpoint process_exif_dir (mo : bool) (m : list Z) (base len : Z) (levels : nat) (p : Z) (tags : tagdict) : res tagdict :=
  match levels with
  | O => Throw IOErr
  | S levels =>
      n <- get16u mo m p ;;
      let dir_end := p + 2 + 12 * n in
      if (dir_end + 4 >? base + len) && negb ((dir_end + 2 =? base + len) || (dir_end =? base + len)) then Throw IOErr
      else
        tags <- for_up 0 n (fun de tags =>
                  entry (process_exif_dir mo m base len levels) mo m base len (p + 2 + 12 * de) tags) tags ;;
        if dir_end + 4 <=? base + len then
          o <- get32u mo m dir_end ;;
          if o =? 0 then Ok tags
          else if o >? len then Ok tags
          else process_exif_dir mo m base len levels (base + o) tags
        else Ok tags
  end.

Fixpoint list_eqb (a b : list Z) : bool :=
  match a, b with [], [] => true | x :: a, y :: b => (x =? y) && list_eqb a b | _, _ => false end.
(* memcmp(...) == 0; all bytes have to be there *)
Definition memeq (m : list Z) (p : Z) (l : list Z) : res bool := s <- copy m p (length l) ;; Ok (list_eqb s l).

(* ExifData.cc:346-364 process_tiff_header: byte order and offset of the first directory *)
Definition process_tiff_header (m : list Z) (b : Z) : res (bool * Z) :=
  ii <- memeq m b [73; 73] ;;
  mo <- (if ii then Ok false else mm <- memeq m b [77; 77] ;; if mm then Ok true else Throw IOErr) ;;
  v <- get16u mo m (b + 2) ;;
  if negb (v =? 42) then Throw IOErr
  else o <- get32s mo m (b + 4) ;; Ok (mo, o).

(* ExifData.cc:366-376 process_exif: an Exif section of a JPEG file *)
Definition exif_header : list Z := [69; 120; 105; 102; 0; 0].
Definition process_exif (data : list Z) : res tagdict :=
  h <- memeq data 2 exif_header ;;
  if negb h then Throw IOErr
  else
    '(mo, first) <- process_tiff_header data 8 ;;
    process_exif_dir mo data 8 ((Z.of_nat (length data) - 8) mod 4294967296) 5 (8 + first) [].

(* ExifData.cc:378-408 read_tiff_ifd *)
Definition read_tiff_ifd (file : list Z) : res tagdict :=
  '(mo, first) <- process_tiff_header file 0 ;;
  process_exif_dir mo file 0 (Z.of_nat (length file) mod 4294967296) 5 first [].

(* fgetc *)
Definition fgetc (s : list Z) : Z * list Z := match s with [] => (-1, []) | c :: s => (c, s) end.

(* ExifData.cc:424-430: a marker and the padding before it; [k] is 7 - i *)
Fixpoint read_marker (k : nat) (s : list Z) (pos : Z) : res (Z * list Z * Z) :=
  match k with
  | O => UB NoTerm
  | S k =>
      let '(c, s) := fgetc s in
      let pos := pos + 1 in
      if negb (c =? 255) then Ok (c, s, pos)
      else match k with O => Throw IOErr | _ => read_marker k s pos end
  end.

(* ExifData.cc:421-477: the loop over sections; the result is what is returned, ExifLocation if
   it was set, and the tags *)
Fixpoint read_sections (fuel : nat) (s : list Z) (pos : Z) : res (bool * option Z * tagdict) :=
  match fuel with
  | O => UB NoTerm
  | S fuel =>
      '(marker, s, pos) <- read_marker 7 s pos ;;
      let '(lh, s) := fgetc s in
      let '(ll, s) := fgetc s in
      let itemlen := if (lh <? 0) || (ll <? 0) then -1 else lh * 256 + ll in
      if negb (itemlen >=? 2) then Throw IOErr
      else
        let payload := firstn (Z.to_nat (itemlen - 2)) s in
        let data := lh :: ll :: payload in
        let s := skipn (Z.to_nat (itemlen - 2)) s in
        let pos := pos + itemlen in
        if negb (Z.of_nat (length payload) =? itemlen - 2) then Throw IOErr
        else if marker =? 218 then Ok (false, None, [])
        else if marker =? 217 then Ok (false, None, [])
        else if marker =? 225 then
          h <- memeq data 2 [69; 120; 105; 102] ;;
          if h then tags <- process_exif data ;; Ok (true, Some (pos - itemlen + 8), tags)
          else Ok (false, None, [])
        else read_sections fuel s pos
  end.
(* ExifData.cc:410-418, 475-477 read_jpeg_sections *)
Definition read_jpeg_sections (file : list Z) : res (bool * option Z * tagdict) :=
  let '(a, s) := fgetc file in
  if negb (a =? 255) then Ok (false, None, [])
  else
    let '(b, s) := fgetc s in
    if negb (b =? 216) then Ok (false, None, []) else read_sections (length s + 1) s 2.

(* ExifData.cc:504-542 get_tag_value.  [trunc] is (int)d for a double given as bytes. *)
Definition get_tag_int (trunc : list Z -> res Z) (tags : tagdict) (t : Z) : res (option Z) :=
  match find_tag t tags with
  | Some (TInt i) => Ok (Some i)
  | Some (TDouble (NInt z)) => i <- int_of (NInt z) ;; Ok (Some i)
  | Some (TDouble (NRat n d)) => i <- int_of (NInt (Z.quot n d)) ;; Ok (Some i)
  | Some (TDouble (NRaw l)) => i <- trunc l ;; Ok (Some i)
  | _ => Ok None
  end.
Definition get_tag_double (tags : tagdict) (t : Z) : option num :=
  match find_tag t tags with Some (TInt i) => Some (NInt i) | Some (TDouble d) => Some d | _ => None end.
(* the string ends at the first zero *)
Fixpoint c_str (l : list Z) : list Z := match l with [] => [] | b :: l => if b =? 0 then [] else b :: c_str l end.
Definition get_tag_string (tags : tagdict) (t : Z) : option (list Z) :=
  match find_tag t tags with Some (TStr s) => Some (c_str s) | _ => None end.

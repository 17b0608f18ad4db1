(* What it means for a file to hold Exif tags. *)
From Coq Require Import ZArith List Lia Bool.
From Verif Require Import Lib.Base Exif.Model.
Import ListNotations.
Local Open Scope Z_scope.

(* the bytes [l] are found at position p *)
Definition at_ (m : list Z) (p : Z) (l : list Z) : Prop := exists a b, m = a ++ l ++ b /\ Z.of_nat (length a) = p.

(* an integer of k bytes (two's complement), most or least significant byte first *)
Fixpoint little (k : nat) (v : Z) : list Z := match k with O => [] | S k => v mod 256 :: little k (v / 256) end.
Definition word (motorola : bool) (k : nat) (v : Z) : list Z := if motorola then rev (little k v) else little k v.

(* the data of a tag: integers, quotients of integers, text or floating point numbers (as bit
   patterns), with the code of their format *)
Inductive datum := Ints (f : Z) (xs : list Z) | Rats (f : Z) (xs : list (Z * Z)) | Text (f : Z) (s : list Z) | Floats (f : Z) (xs : list Z).

Definition format_of (d : datum) : Z := match d with Ints f _ | Rats f _ | Text f _ | Floats f _ => f end.
Definition count_of (d : datum) : Z := Z.of_nat match d with Ints _ l => length l | Rats _ l => length l | Text _ l => length l | Floats _ l => length l end.
Definition width (f : Z) : nat :=
  if (f =? 1) || (f =? 6) then 1%nat else if (f =? 3) || (f =? 8) then 2%nat else if (f =? 4) || (f =? 9) || (f =? 11) then 4%nat else 8%nat.
Definition bytes_of (motorola : bool) (d : datum) : list Z :=
  match d with
  | Ints f xs => flat_map (word motorola (width f)) xs
  | Rats f xs => flat_map (fun '(n, d) => word motorola 4 n ++ word motorola 4 d) xs
  | Text f s => s
  | Floats f xs => flat_map (word motorola (width f)) xs
  end.

(* Data that can be read: numbers fit an int (also those of the unsigned formats of 32 bits), and
   floating point numbers have the byte order of the machine, which is little endian. *)
Definition int32 (v : Z) : Prop := -2147483648 <= v < 2147483648.
Definition fits (f v : Z) : Prop :=
  (f = 1 /\ 0 <= v < 256) \/ (f = 3 /\ 0 <= v < 65536) \/ (f = 4 /\ 0 <= v < 2147483648) \/
  (f = 6 /\ -128 <= v < 128) \/ (f = 8 /\ -32768 <= v < 32768) \/ (f = 9 /\ int32 v).
Definition readable (motorola : bool) (d : datum) : Prop :=
  count_of d <= 65536 /\
  match d with
  | Ints f xs => xs <> [] /\ Forall (fits f) xs
  | Rats f xs => xs <> [] /\ (f = 5 \/ f = 10) /\ Forall (fun '(n, d) => int32 n /\ int32 d) xs
  | Text f s => f = 2 \/ f = 7
  | Floats f xs => xs <> [] /\ (f = 11 \/ f = 12) /\ motorola = false
  end.

(* what is stored for it: the first number, or the text *)
Definition value_of (d : datum) : tagval :=
  match d with
  | Ints _ (x :: _) => TInt x
  | Rats _ ((n, d) :: _) => if d =? 0 then TDouble (NInt 0) else TDouble (NRat n d)
  | Text _ s => TStr s
  | Floats f (x :: _) => TDouble (NRaw (little (width f) x))
  | _ => TInt 0
  end.

Section File.
Variables (motorola : bool) (m : list Z) (base len : Z).

(* the tags that link to another directory *)
Definition link (tag : Z) : Prop := tag = 34665 \/ tag = 40965.

(* the 12 bytes of an entry at p; data of more than 4 bytes is found elsewhere *)
Definition entry_at (p tag : Z) (d : datum) : Prop :=
  0 <= tag < 65536 /\ readable motorola d /\
  at_ m p (word motorola 2 tag ++ word motorola 2 (format_of d) ++ word motorola 4 (count_of d)) /\
  let s := bytes_of motorola d in
  if (length s <=? 4)%nat then at_ m (p + 8) s
  else exists o, 0 <= o /\ o + Z.of_nat (length s) <= len /\ at_ m (p + 8) (word motorola 4 o) /\ at_ m (base + o) s.
Definition link_at (p tag o : Z) : Prop :=
  link tag /\ 0 <= o <= len /\ o < 2147483648 /\
  at_ m p (word motorola 2 tag ++ word motorola 2 4 ++ word motorola 4 1 ++ word motorola 4 o).

(* Directories, nested at most k deep, and their tags in order.  A directory is a count, that
   many entries, and the offset of the directory that follows it, or zero; the offset may be
   missing at the end of the data. *)
Inductive dir_at : nat -> Z -> list (Z * tagval) -> Prop :=
| dir_alone k p n T : 0 <= n < 65536 -> at_ m p (word motorola 2 n) -> entries_at k (p + 2) (Z.to_nat n) T ->
    p + 2 + 12 * n + 4 <= base + len -> at_ m (p + 2 + 12 * n) (word motorola 4 0) -> dir_at (S k) p T
| dir_cut k p n T : 0 <= n < 65536 -> at_ m p (word motorola 2 n) -> entries_at k (p + 2) (Z.to_nat n) T ->
    (p + 2 + 12 * n = base + len \/ p + 2 + 12 * n + 2 = base + len) -> dir_at (S k) p T
| dir_more k p n T o T' : 0 <= n < 65536 -> at_ m p (word motorola 2 n) -> entries_at k (p + 2) (Z.to_nat n) T ->
    p + 2 + 12 * n + 4 <= base + len -> at_ m (p + 2 + 12 * n) (word motorola 4 o) ->
    0 < o <= len -> dir_at k (base + o) T' -> dir_at (S k) p (T ++ T')
with entries_at : nat -> Z -> nat -> list (Z * tagval) -> Prop :=
| entries_nil k p : entries_at k p 0 []
| entries_data k p n tag d T : entry_at p tag d -> ~ link tag -> entries_at k (p + 12) n T ->
    entries_at k p (S n) ((tag, value_of d) :: T)
| entries_link k p n tag o T T' : link_at p tag o -> dir_at k (base + o) T -> entries_at k (p + 12) n T' ->
    entries_at k p (S n) ((tag, TInt o) :: T ++ T').
End File.

(* the value a tag has in the end: that of its last entry *)
Fixpoint last_of (tag : Z) (T : list (Z * tagval)) : option tagval :=
  match T with
  | [] => None
  | (t, v) :: T => match last_of tag T with Some w => Some w | None => if t =? tag then Some v else None end
  end.

(* a TIFF file with one directory *)
Definition long (motorola : bool) (d : datum) : bool := (4 <? length (bytes_of motorola d))%nat.
Fixpoint entries_bytes (motorola : bool) (off : Z) (fs : list (Z * datum)) : list Z :=
  match fs with
  | [] => []
  | (tag, d) :: fs =>
      let s := bytes_of motorola d in
      word motorola 2 tag ++ word motorola 2 (format_of d) ++ word motorola 4 (count_of d) ++
      (if long motorola d then word motorola 4 off else s ++ repeat 0 (4 - length s)) ++
      entries_bytes motorola (if long motorola d then off + Z.of_nat (length s) else off) fs
  end.
Definition area_bytes (motorola : bool) (fs : list (Z * datum)) : list Z :=
  flat_map (fun '(_, d) => if long motorola d then bytes_of motorola d else []) fs.
Definition tiff_header (motorola : bool) : list Z :=
  (if motorola then [77; 77] else [73; 73]) ++ word motorola 2 42 ++ word motorola 4 8.
Definition tiff_file (motorola : bool) (fs : list (Z * datum)) : list Z :=
  let n := Z.of_nat (length fs) in
  tiff_header motorola ++ word motorola 2 n ++ entries_bytes motorola (8 + 2 + 12 * n + 4) fs ++ word motorola 4 0 ++ area_bytes motorola fs.

(* a section of a JPEG file: padding, marker, length, contents *)
Definition section (s : nat * Z * list Z) : list Z :=
  let '(pad, marker, contents) := s in
  repeat 255 pad ++ [marker] ++ word true 2 (Z.of_nat (length contents) + 2) ++ contents.
Definition plain_section (s : nat * Z * list Z) : Prop :=
  let '(pad, marker, contents) := s in
  (pad <= 6)%nat /\ 0 <= marker < 255 /\ marker <> 216 + 1 /\ marker <> 216 + 2 /\ marker <> 225 /\ Z.of_nat (length contents) + 2 < 65536.

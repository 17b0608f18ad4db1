(* Netpbm files: DiskImageResourcePBM (src/vw/FileIO/DiskImageResourcePBM.h,
   src/vw/FileIO/DiskImageResourcePBM.cc).

   A file is the list of its bytes.  An input stream is what is left of it
   with the flags eofbit and failbit; the operations of std::istream are
   those of the C++ standard in the "C" locale.  Failure to allocate memory
   and errors of the file system other than a missing file are not
   modelled. *)
From Coq Require Import ZArith List Bool.
From Verif Require Import Lib.Base IBuf.Model.
Import ListNotations.
Local Open Scope Z_scope.

Definition isspace (c : Z) : bool := (c =? 32) || ((9 <=? c) && (c <=? 13)).
Definition isdigit (c : Z) : bool := (48 <=? c) && (c <=? 57).

Record stream : Set := mks { rest : list Z; eofb : bool; failb : bool }.
Definition good (s : stream) : bool := negb (eofb s) && negb (failb s).
Definition set_fail (s : stream) : stream := mks (rest s) (eofb s) true.

Fixpoint skip_sp (l : list Z) : list Z :=
  match l with c :: l' => if isspace c then skip_sp l' else l | [] => [] end.

(* The sentry of the formatted extractions: skips white space. *)
Definition sentry (s : stream) : stream * bool :=
  if good s then
    match skip_sp (rest s) with
    | [] => (mks [] true true, false)
    | l => (mks l false false, true)
    end
  else (set_fail s, false).

Fixpoint span (p : Z -> bool) (l : list Z) : list Z * list Z :=
  match l with
  | c :: l' => if p c then let (a, b) := span p l' in (c :: a, b) else ([], l)
  | [] => ([], [])
  end.
Definition at_end (l : list Z) : bool := match l with [] => true | _ => false end.

(* input >> string *)
Definition get_word (s : stream) (old : list Z) : stream * list Z :=
  let (s, ok) := sentry s in
  if ok : bool then
    let (w, l) := span (fun c => negb (isspace c)) (rest s) in
    (mks l (at_end l) false, w)
  else (s, old).

Definition decimal (ds : list Z) : Z := fold_left (fun a d => 10 * a + (d - 48)) ds 0.
Definition get_sign (l : list Z) : bool * list Z :=
  match l with
  | 45 :: l' => (true, l')
  | 43 :: l' => (false, l')
  | _ => (false, l)
  end.

(* input >> int32: 0 without digits, the nearest limit on overflow, the old
   value when the stream is bad or at its end. *)
Definition get_i32 (s : stream) (old : Z) : stream * Z :=
  let (s, ok) := sentry s in
  if ok : bool then
    let (neg, l) := get_sign (rest s) in
    let (ds, l) := span isdigit l in
    match ds with
    | [] => (mks l (at_end l) true, 0)
    | _ =>
        let v := if neg : bool then - decimal ds else decimal ds in
        if v <? i32_min then (mks l (at_end l) true, i32_min)
        else if i32_max <? v then (mks l (at_end l) true, i32_max)
        else (mks l (at_end l) false, v)
    end
  else (s, old).

(* input >> uint32: a negative number is taken modulo 2^32. *)
Definition get_u32 (s : stream) (old : Z) : stream * Z :=
  let (s, ok) := sentry s in
  if ok : bool then
    let (neg, l) := get_sign (rest s) in
    let (ds, l) := span isdigit l in
    match ds with
    | [] => (mks l (at_end l) true, 0)
    | _ =>
        if 4294967295 <? decimal ds then (mks l (at_end l) true, 4294967295)
        else (mks l (at_end l) false, wrap_u32 (if neg : bool then - decimal ds else decimal ds))
    end
  else (s, old).

(* peek(), get(), ignore() and ignore(n, delim); -1 is EOF. *)
Definition peek (s : stream) : stream * Z :=
  if good s then
    match rest s with
    | [] => (mks [] true false, -1)
    | c :: _ => (s, c)
    end
  else (set_fail s, -1).
Definition get (s : stream) : stream * Z :=
  if good s then
    match rest s with
    | [] => (mks [] true true, -1)
    | c :: l => (mks l false false, c)
    end
  else (set_fail s, -1).
Fixpoint drop_line (n : nat) (l : list Z) : list Z * bool :=
  match n with
  | O => (l, false)
  | S n' =>
      match l with
      | [] => ([], true)
      | c :: l' => if c =? 10 then (l', false) else drop_line n' l'
      end
  end.
Definition ignore1 (s : stream) : stream :=
  if good s then
    match rest s with [] => mks [] true false | _ :: l => mks l false false end
  else set_fail s.
Definition ignore_line (n : nat) (s : stream) : stream :=
  if good s then let (l, e) := drop_line n (rest s) in mks l e false
  else set_fail s.

(* DiskImageResourcePBM.cc:53-54 and 57-58; every round takes a character. *)
Fixpoint skip_spaces (fuel : nat) (s : stream) : stream :=
  match fuel with
  | O => s
  | S f => let (s, c) := peek s in if isspace c then skip_spaces f (ignore1 s) else s
  end.
(* DiskImageResourcePBM.cc:55-59. *)
Fixpoint skip_lines (fuel : nat) (s : stream) : stream :=
  match fuel with
  | O => s
  | S f =>
      let (s, c) := peek s in
      if c =? 35 then
        let s := ignore_line 1024 s in
        skip_lines f (skip_spaces (S (length (rest s))) s)
      else s
  end.
(* DiskImageResourcePBM.cc:52-60, skip_any_comments. *)
Definition skip_any_comments (s : stream) : stream :=
  let s := skip_spaces (S (length (rest s))) s in
  skip_lines (S (length (rest s))) s.

(* DiskImageResourcePBM.cc:63-74, normalize, for one byte. *)
Definition normalize1 (max_value v : Z) : Z :=
  if max_value <? v then 255 else (v * 255 / max_value) mod 256.

(* DiskImageResourcePBM.h:81-84 and DiskImageResource.h:97-99; m_magic is the
   number after the P. *)
Record resource : Set := mkres {
  magic : Z; max_value : Z; fmt : format; position : Z; rescale : bool }.

(* DiskImageResourcePBM.cc:104-106. *)
Definition magic_of (w : list Z) : option Z :=
  match w with
  | [p; d] => if (p =? 80) && (49 <=? d) && (d <=? 54) then Some (d - 48) else None
  | _ => None
  end.

(* DiskImageResourcePBM.cc:95-152, open.  The file is None when it cannot be
   opened; m_filename was set by the constructor; [j1], [j2] and [j3] are the
   values of uninitialised variables (iwidth, iheight and m_max_value). *)
Definition open (file : option (list Z)) (resc : bool) (j1 j2 j3 : Z) : res resource :=
  match file with
  | None => Throw ArgumentErr
  | Some bytes =>
      let s := mks bytes false false in
      let (s, w) := get_word s [] in
      match magic_of w with
      | None => Throw ArgumentErr
      | Some m =>
          let s := skip_any_comments s in
          let (s, iwidth) := get_i32 s j1 in
          let s := skip_any_comments s in
          let (s, iheight) := get_i32 s j2 in
          let (s, maxv) :=
            if negb (m =? 1) && negb (m =? 4) then get_i32 (skip_any_comments s) j3
            else (s, 1) in
          let (s, c) := get s in
          if isspace c then
            let pos := Z.of_nat (length bytes) - Z.of_nat (length (rest s)) in
            if (maxv <=? 0) || (255 <? maxv) then Throw IOErr
            else
              let f ct pf := mkfmt (wrap_u32 iwidth) (wrap_u32 iheight) 1 pf ct true in
              let f := if (m =? 1) || (m =? 4) then f CBool PGray
                       else if (m =? 2) || (m =? 5) then f CU8 PGray
                       else f CU8 PRGB in
              Ok (mkres m maxv f pos resc)
          else Throw IOErr
      end
  end.

(* ImageResource.h:76-79, byte_size. *)
Definition byte_size (f : format) : res Z :=
  s <- csize (fchan f) ;; n <- nchan (fpix f) ;; Ok (s * n * fcols f * frows f * fplanes f).

(* DiskImageResourcePBM.cc:179-183: n numbers; [buf] is not initialised
   before the loop. *)
Fixpoint read_ascii (n : nat) (s : stream) (buf : Z) : list Z :=
  match n with
  | O => []
  | S n' => let (s, buf) := get_u32 s buf in buf mod 256 :: read_ascii n' s buf
  end.
(* DiskImageResourcePBM.cc:186: what a short file does not provide stays as
   it was in the array. *)
Definition read_binary (n : nat) (l : list Z) (junk : list Z) : list Z :=
  firstn n l ++ skipn (length (firstn n l)) junk.

(* DiskImageResourcePBM.cc:155-196, read, of a bounding box of size [w] by
   [h].  [junk] is the array before it is filled, [jbuf] the number buf. *)
Definition read_pbm (fo : fops) (r : resource) (file : option (list Z)) (dm : list Z) (dest : buffer)
    (w h : Z) (junk : list Z) (jbuf : Z) : res (list Z) :=
  let f := fmt r in
  if negb ((w =? wrap_i32 (fcols f)) && (h =? wrap_i32 (frows f))) then Throw NoImplErr
  else if negb ((fcols (bfmt dest) =? wrap_u32 (wrap_i32 (fcols f))) &&
                (frows (bfmt dest) =? wrap_u32 (wrap_i32 (frows f)))) then Throw IOErr
  else
    match file with
    | None => Throw IOErr
    | Some bytes =>
        let input := skipn (Z.to_nat (position r)) bytes in
        n <- byte_size f ;;
        if magic r =? 4 then Throw NoImplErr
        else
          let data := if magic r <=? 3 then read_ascii (Z.to_nat n) (mks input false false) jbuf
                      else read_binary (Z.to_nat n) input junk in
          let data := if negb (magic r =? 1) && negb (magic r =? 4)
                      then map (normalize1 (max_value r)) data else data in
          src <- buffer_of f 0 ;;
          convert fo dm dest data src (rescale r)
    end.

(* The extension of the file name, as far as create looks at it
   (DiskImageResourcePBM.cc:209-218). *)
Inductive extension : Set := ExtPBM | ExtPGM | ExtPPM | ExtOther.

(* Decimal text of an unsigned number (below 10^20). *)
Fixpoint dec_aux (n : nat) (v : Z) (acc : list Z) : list Z :=
  match n with
  | O => acc
  | S n' => if v <? 10 then 48 + v :: acc else dec_aux n' (v / 10) (48 + v mod 10 :: acc)
  end.
Definition dec (v : Z) : list Z := dec_aux 20 v [].

(* DiskImageResourcePBM.cc:199-273, create: the resource and the file, which
   is truncated first. *)
Definition create (ext : extension) (f : format) (resc default_ascii : bool) : res (resource * list Z) :=
  if negb (fplanes f =? 1) then Throw NoImplErr
  else
    m <- match ext with
         | ExtPBM => Ok 4
         | ExtPGM => Ok 5
         | ExtPPM => Ok 6
         | ExtOther =>
             n <- nchan (fpix f) ;;
             if n =? 1 then (if cteqb (fchan f) CBool then Ok 4 else Ok 5)
             else if n =? 3 then Ok 6
             else Throw NoImplErr
         end ;;
    if m =? 4 then Throw NoImplErr
    else
      let pf := if m =? 5 then PGray else PRGB in
      let f := mkfmt (fcols f) (frows f) 1 pf CU8 (fpre f) in
      let m := if default_ascii : bool then m - 3 else m in
      let header := [80; 48 + m; 10] ++ dec (fcols f) ++ [32] ++ dec (frows f) ++ [10] ++ dec 255 ++ [10] in
      Ok (mkres m 255 f (Z.of_nat (length header)) resc, header).

(* DiskImageResourcePBM.cc:298-302. *)
Definition ascii_text (data : list Z) : list Z :=
  match data with
  | [] => []
  | v :: l => dec v ++ flat_map (fun w => 32 :: dec w) l
  end.

(* DiskImageResourcePBM.cc:276-309, write, of a bounding box of size [w] by
   [h]: the file after it.  The file is opened for appending, so that the
   data are written at its end whatever seekp was told. *)
Definition write_pbm (fo : fops) (r : resource) (file : list Z) (sm : list Z) (src : buffer)
    (w h : Z) (junk : list Z) : res (list Z) :=
  let f := fmt r in
  if negb ((w =? wrap_i32 (fcols f)) && (h =? wrap_i32 (frows f))) then Throw NoImplErr
  else if negb ((fcols (bfmt src) =? wrap_u32 (wrap_i32 (fcols f))) &&
                (frows (bfmt src) =? wrap_u32 (wrap_i32 (frows f)))) then Throw IOErr
  else if magic r =? 4 then Throw NoImplErr
  else
    dst <- buffer_of f 0 ;;
    data <- convert fo junk dst sm src (rescale r) ;;
    if magic r <=? 3 then Ok (file ++ ascii_text data) else Ok (file ++ data).

(** Names of match and interest point files
    (src/vw/InterestPoint/MatcherIO.cc 36-220).

    Names are lists of characters.  Paths follow boost::filesystem on POSIX;
    names that start with two slashes (network names) are not modelled. *)
From Verif Require Import Lib.Base Lib.Str.
From Coq Require Import List ZArith Ascii String Bool.
Import ListNotations.
Open Scope nat_scope.

Definition slash : ascii := "/"%char.
Definition dot : ascii := "."%char.

(** boost::filesystem::path::filename: what follows the last slash; "." after a
    trailing slash, and the slash itself for the root directory. *)
Definition path_filename (t : str) : str :=
  match after_last slash t with
  | [] => if existsb (fun c => negb (Ascii.eqb slash c)) t then [dot]
          else match t with [] => [] | _ => [slash] end
  | b => b
  end.

(** Remove trailing slashes. *)
Fixpoint strip_slashes (r : str) : str :=
  match r with
  | c :: r' => if Ascii.eqb slash c then strip_slashes r' else r
  | [] => []
  end.

(** boost::filesystem::path::parent_path: what precedes the last component,
    without the separating slashes, except that the root stays. *)
Definition path_parent (t : str) : str :=
  let d := upto_last slash t in
  match rev (strip_slashes (rev d)), d, after_last slash t with
  | [], _ :: _, _ :: _ => [slash]
  | p, _, _ => p
  end.

(** boost::filesystem::operator/ : joined with one slash when needed. *)
Definition path_join (d b : str) : str :=
  match rev d with
  | [] => b
  | c :: _ => if Ascii.eqb slash c then d ++ b else d ++ [slash] ++ b
  end.

(** MatcherIO.cc 39: g_name_budget. *)
Definition g_name_budget : nat := 240.

(** MatcherIO.cc 45-49: the 64-bit FNV-1a hash. *)
Definition fnv_step (h : Z) (c : ascii) : Z :=
  (Z.lxor h (Z.of_nat (nat_of_ascii c)) * 1099511628211 mod 2 ^ 64)%Z.

Definition fnv1a64 (t : str) : Z := fold_left fnv_step t 14695981039346656037%Z.

Definition hex_digit (d : Z) : ascii :=
  nth (Z.to_nat d) (lit "0123456789abcdef") "0"%char.

(** MatcherIO.cc 50-52: printed in hexadecimal, padded with zeros to 16
    characters; a 64-bit number never needs more. *)
Fixpoint hex (k : nat) (h : Z) : str :=
  match k with
  | O => []
  | S k' => hex k' (h / 16) ++ [hex_digit (h mod 16)]
  end.

(** MatcherIO.cc 44-53: fnv1a64Hex. *)
Definition fnv1a64Hex (t : str) : str := hex 16 (fnv1a64 t).

(** MatcherIO.cc 59-71: shortenName. *)
Definition shortenName (name : str) (max_len : nat) : str :=
  if List.length name <=? max_len then name
  else
    let hash := fnv1a64Hex name in
    if max_len <=? List.length hash + 1
    then firstn (if max_len <? List.length hash then max_len else List.length hash) hash
    else
      let lead := max_len - List.length hash - 1 in
      firstn lead name ++ lit "_" ++ hash.

(** MatcherIO.cc 78-85: shorten_vwip_name. *)
Definition shorten_vwip_name (path_no_ext : str) : str :=
  let cap := if 5 <? g_name_budget then g_name_budget - 5 else 1 in
  let name := shortenName (path_filename path_no_ext) cap ++ lit ".vwip" in
  match path_parent path_no_ext with
  | [] => name
  | p => path_join p name
  end.

(** std::string::erase(pos, len). *)
Definition erase (t : str) (pos len : nat) : str :=
  firstn pos t ++ skipn (pos + len) t.

(** MatcherIO.cc 107-113: the part of a name before its last dot. *)
Definition before_dot (t : str) : str :=
  if existsb (Ascii.eqb dot) t
  then firstn (List.length t - List.length (after_last dot t) - 1) t
  else t.

(** MatcherIO.cc 89-114: strip_path. *)
Definition strip_path (out_prefix filename : str) : str :=
  let ss := out_prefix ++ lit "-" in
  let filename :=
    match sfind ss filename with
    | Some found => if negb (str_eqb out_prefix [])
                    then erase filename found (List.length ss) else filename
    | None => filename
    end in
  before_dot (path_filename filename).

(** MatcherIO.cc 118-129: capPrefixBase. *)
Definition capPrefixBase (out_prefix : str) (reserve : nat) : str :=
  if str_eqb out_prefix [] then out_prefix
  else
    let base := path_filename out_prefix in
    let max_base := if reserve <? g_name_budget then g_name_budget - reserve else 0 in
    if List.length base <=? max_base then out_prefix
    else
      let base := firstn max_base base in
      match path_parent out_prefix with
      | [] => base
      | dir => path_join dir base
      end.

Definition match_ext (plain_text : bool) : str :=
  if plain_text then lit ".txt" else lit ".match".

(** MatcherIO.cc 131-171: match_filename. *)
Definition match_filename (out_prefix input_file1 input_file2 : str) (plain_text : bool) : str :=
  let name1 := strip_path out_prefix input_file1 in
  let name2 := strip_path out_prefix input_file2 in
  let ext := match_ext plain_text in
  let hash_len := 16 in
  let prefix := capPrefixBase out_prefix (1 + 2 + List.length ext + 2 * hash_len) in
  let prefix_base := path_filename prefix in
  let overhead := List.length prefix_base + 2 + List.length ext in
  let overhead := if negb (str_eqb prefix []) then overhead + 1 else overhead in
  let cap := if overhead + 2 <? g_name_budget then (g_name_budget - overhead) / 2 else hash_len in
  let name1 := shortenName name1 cap in
  let name2 := shortenName name2 cap in
  let suffix := name1 ++ lit "__" ++ name2 ++ ext in
  if str_eqb prefix [] then suffix else prefix ++ lit "-" ++ suffix.

(** boost::filesystem::path::replace_extension(""): drop what starts at the last
    dot of the last component (the components "." and ".." have none). *)
Definition drop_extension (t : str) : str :=
  let b := after_last slash t in
  if existsb (Ascii.eqb dot) b && negb (str_eqb b (lit ".")) && negb (str_eqb b (lit ".."))
  then firstn (List.length t - List.length (after_last dot b) - 1) t
  else t.

(** MatcherIO.cc 174-182: clean_match_filename of a match file. *)
Definition clean_match_filename (match_file : str) (plain_text : bool) : str :=
  drop_extension match_file ++ (if plain_text then lit "-clean.txt" else lit "-clean.match").

(** MatcherIO.cc 194-211: ip_filename. *)
Definition ip_filename (out_prefix input_file : str) : str :=
  let name := strip_path out_prefix input_file in
  let hash_len := 16 in
  let prefix := capPrefixBase out_prefix (1 + 5 + hash_len) in
  let prefix_base := path_filename prefix in
  let overhead := List.length prefix_base + 1 + 5 in
  let cap := if overhead <? g_name_budget then g_name_budget - overhead else hash_len in
  let name := shortenName name cap in
  prefix ++ lit "-" ++ name ++ lit ".vwip".

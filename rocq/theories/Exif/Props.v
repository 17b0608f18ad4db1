(** Theorems about reading Exif tags (Camera/ExifData.cc). *)
From Coq Require Import ZArith List Lia Bool.
From Verif Require Import Lib.Base Exif.Model Exif.Spec Exif.Proofs Exif.More.
Import ListNotations.
Local Open Scope Z_scope.

(** ** Numbers *)

(* What Put16u and Put32u write, Get16u and Get32u read, in both byte orders. *)
Theorem exif_put_get mo m p v :
  (at_ m p (put16u mo v) -> get16u mo m p = Ok (v mod 65536)) /\
  (at_ m p (put32u mo v) -> get32u mo m p = Ok (v mod 4294967296)).
Proof.
  assert (E : put32u mo v = word mo 4 v).
  { unfold put32u, word. cbn [little rev app]. rewrite !Z.div_div by lia. destruct mo; reflexivity. }
  split.
  - intros H. apply get16u_word. destruct mo; exact H.
  - rewrite E. intros H. unfold get32u. rewrite (get32s_word mo m p v H). cbn [bind]. f_equal.
    destruct (Z.geb_spec (v mod 4294967296) 2147483648); divs.
Qed.
Print Assumptions exif_put_get.
Example exif_put_get_ex : at_ [0; 18; 52; 9] 1 (put16u true 4660) /\ get16u true [0; 18; 52; 9] 1 = Ok 4660 /\ get16u false [0; 18; 52; 9] 1 = Ok 13330.
Proof. split; [exists [0], [9]; auto|]. split; reflexivity. Qed.

(** ** TIFF files *)

(* A file that starts with a TIFF header for a directory is read: afterwards a tag has the value
   of its last entry in that directory, those it links to and those that follow, at most five
   deep, and other tags have none. *)
Theorem exif_tiff_read (mo : bool) file o T :
  at_ file 0 ((if mo then [77; 77] else [73; 73]) ++ word mo 2 42 ++ word mo 4 o) -> 0 <= o < 2147483648 ->
  Z.of_nat (length file) < 4294967296 -> dir_at mo file 0 (Z.of_nat (length file)) 5 o T ->
  exists tags, read_tiff_ifd file = Ok tags /\ forall t, find_tag t tags = last_of t T.
Proof.
  intros H O L D. unfold read_tiff_ifd. rewrite (header_ok mo file 0 o ltac:(lia) H) by (unfold int32; lia). cbn [bind]. rewrite Z.mod_small by lia.
  rewrite (proj1 (dir_ok mo file 0 (Z.of_nat (length file)) ltac:(lia)) 5%nat o T D []). rewrite app_nil_r.
  eexists. split; [reflexivity|]. intros t. apply find_last.
Qed.
Print Assumptions exif_tiff_read.

Lemma at_found m p l : 0 <= p <= Z.of_nat (length m) -> firstn (length l) (skipn (Z.to_nat p) m) = l -> at_ m p l.
Proof.
  intros P E. exists (firstn (Z.to_nat p) m), (skipn (length l) (skipn (Z.to_nat p) m)). split.
  - rewrite <- E at 1. now rewrite !firstn_skipn.
  - rewrite firstn_length. lia.
Qed.
(* a directory that links to another one *)
Definition ex_linked : list Z :=
  tiff_header false ++ word false 2 1 ++ (word false 2 34665 ++ word false 2 4 ++ word false 4 1 ++ word false 4 26) ++ word false 4 0 ++
  word false 2 1 ++ (word false 2 34855 ++ word false 2 3 ++ word false 4 1 ++ word false 2 100 ++ [0; 0]) ++ word false 4 0.
Example exif_tiff_read_ex : at_ ex_linked 0 (tiff_header false) /\
  dir_at false ex_linked 0 (Z.of_nat (length ex_linked)) 5 8 [(34665, TInt 26); (34855, TInt 100)] /\
  (tags <- read_tiff_ifd ex_linked ;; Ok (find_tag 34855 tags)) = Ok (Some (TInt 100)).
Proof.
  split; [apply at_found; [vm_compute; intuition discriminate|reflexivity]|]. split; [|reflexivity].
  apply (dir_alone _ _ _ _ 4 8 1); [lia|apply at_found; [vm_compute; intuition discriminate|reflexivity]| |vm_compute; discriminate|apply at_found; [vm_compute; intuition discriminate|reflexivity]].
  apply (entries_link _ _ _ _ 4 10 0 34665 26 [(34855, TInt 100)] []); [|  |constructor].
  - split; [now left|]. split; [vm_compute; intuition discriminate|]. split; [lia|]. apply at_found; [vm_compute; intuition discriminate|reflexivity].
  - apply (dir_alone _ _ _ _ 3 26 1); [lia|apply at_found; [vm_compute; intuition discriminate|reflexivity]| |vm_compute; discriminate|apply at_found; [vm_compute; intuition discriminate|reflexivity]].
    apply (entries_data _ _ _ _ 3 28 0 34855 (Ints 3 [100])); [| |constructor].
    + split; [lia|]. split; [split; [vm_compute; discriminate|split; [discriminate|constructor; [unfold fits; lia|constructor]]]|].
      split; apply at_found; try (vm_compute; intuition discriminate); reflexivity.
    + unfold link. lia.
Qed.

(* Any list of tags that can be read, in either byte order, is read back from a file with one
   directory. *)
Theorem exif_tiff_roundtrip mo fs :
  Forall (fun '(t, d) => 0 <= t < 65536 /\ ~ link t /\ readable mo d) fs -> Z.of_nat (length fs) < 65536 ->
  Z.of_nat (length (tiff_file mo fs)) < 4294967296 ->
  exists tags, read_tiff_ifd (tiff_file mo fs) = Ok tags /\
    forall t, find_tag t tags = last_of t (map (fun '(t, d) => (t, value_of d)) fs).
Proof.
  intros F N L. set (n := Z.of_nat (length fs)) in *. set (file := tiff_file mo fs) in *.
  assert (W : at_ file 0 file) by (exists [], []; rewrite app_nil_r; auto).
  assert (E : file = tiff_header mo ++ word mo 2 n ++ entries_bytes mo (8 + 2 + 12 * n + 4) fs ++ word mo 4 0 ++ area_bytes mo fs) by reflexivity.
  rewrite E in W at 2. apply at_app in W as [W0 W]. apply at_app in W as [W1 W]. apply at_app in W as [W2 W]. apply at_app in W as [W3 W4]. rewrite !word_length in *.
  assert (HL : Z.of_nat (length (tiff_header mo)) = 8) by (unfold tiff_header; rewrite !app_length, !word_length; destruct mo; reflexivity). rewrite HL in *.
  assert (EL : Z.of_nat (length (entries_bytes mo (8 + 2 + 12 * n + 4) fs)) = 12 * n).
  { apply entries_length. eapply Forall_impl; [|exact F]. intros [t d] H. apply H. }
  rewrite EL in *. change (Z.of_nat 2) with 2 in *. change (Z.of_nat 4) with 4 in *. rewrite Z.add_0_l in *.
  pose proof (at_pos _ _ _ W4) as P4.
  apply (exif_tiff_read mo file 8); auto; [lia|].
  apply dir_alone with (n := n); auto; [lia| |lia].
  unfold n at 1. rewrite Nat2Z.id. eapply entries_written; eauto. lia.
Qed.
Print Assumptions exif_tiff_roundtrip.

(* What get_tag_value returns afterwards, if no tag occurs twice. *)
Theorem exif_tag_values mo fs trunc :
  Forall (fun '(t, d) => 0 <= t < 65536 /\ ~ link t /\ readable mo d) fs -> Z.of_nat (length fs) < 65536 ->
  Z.of_nat (length (tiff_file mo fs)) < 4294967296 -> NoDup (map fst fs) ->
  exists tags, read_tiff_ifd (tiff_file mo fs) = Ok tags /\
    (forall t f x xs, In (t, Ints f (x :: xs)) fs ->
       get_tag_int trunc tags t = Ok (Some x) /\ get_tag_double tags t = Some (NInt x) /\ get_tag_string tags t = None) /\
    (forall t f n d xs, In (t, Rats f ((n, d) :: xs)) fs -> d <> 0 ->
       get_tag_double tags t = Some (NRat n d) /\ get_tag_string tags t = None /\
       (int32 (n ÷ d) -> get_tag_int trunc tags t = Ok (Some (n ÷ d)))) /\
    (forall t f s, In (t, Text f s) fs -> get_tag_int trunc tags t = Ok None /\ get_tag_double tags t = None /\
       (~ In 0 s -> get_tag_string tags t = Some s) /\
       (forall a b, s = a ++ 0 :: b -> ~ In 0 a -> get_tag_string tags t = Some a)) /\
    (forall t, ~ In t (map fst fs) -> get_tag_int trunc tags t = Ok None /\ get_tag_double tags t = None /\ get_tag_string tags t = None).
Proof.
  intros F N L ND. destruct (exif_tiff_roundtrip mo fs F N L) as (tags & E & T). exists tags. split; auto.
  assert (No : forall t fs, ~ In t (map fst fs) -> last_of t (map (fun '(t, d) => (t, value_of d)) fs) = None).
  { clear. induction fs as [|[k d] fs IH]; intros H; auto. cbn [map last_of fst] in *. rewrite IH by (intros X; apply H; now right).
    destruct (Z.eqb_spec k t); auto. destruct H. now left. }
  assert (V : forall t d, In (t, d) fs -> find_tag t tags = Some (value_of d)).
  { intros t d I. rewrite T. clear - I ND No. induction fs as [|[k e] fs IH]; [easy|]. cbn [map last_of fst] in *. inversion_clear ND as [|? ? NI ND'].
    destruct I as [I|I].
    - injection I as -> ->. rewrite No by auto. now rewrite Z.eqb_refl.
    - now rewrite IH. }
  assert (C1 : forall a b, ~ In 0 a -> c_str (a ++ b) = a ++ c_str b).
  { clear. induction a as [|x a IH]; intros b H; auto. cbn [app c_str]. destruct (Z.eqb_spec x 0); [destruct H; now left|]. rewrite IH; auto. intros X. apply H. now right. }
  repeat split.
  - unfold get_tag_int. now rewrite (V _ _ H).
  - unfold get_tag_double. now rewrite (V _ _ H).
  - unfold get_tag_string. now rewrite (V _ _ H).
  - unfold get_tag_double. rewrite (V _ _ H). cbn [value_of]. destruct (Z.eqb_spec d 0); [contradiction|reflexivity].
  - unfold get_tag_string. rewrite (V _ _ H). cbn [value_of]. destruct (Z.eqb_spec d 0); reflexivity.
  - intros I. unfold get_tag_int. rewrite (V _ _ H). cbn [value_of]. destruct (Z.eqb_spec d 0); [contradiction|]. unfold int_of. unfold int32 in I.
    destruct (Z.leb_spec (-2147483648) (n ÷ d)), (Z.leb_spec (n ÷ d) 2147483647); try lia. reflexivity.
  - unfold get_tag_int. now rewrite (V _ _ H).
  - unfold get_tag_double. now rewrite (V _ _ H).
  - intros Z0. unfold get_tag_string. rewrite (V _ _ H). cbn [value_of]. f_equal. specialize (C1 s [] Z0). cbn [c_str] in C1. now rewrite !app_nil_r in C1.
  - intros a b -> Z0. unfold get_tag_string. rewrite (V _ _ H). cbn [value_of]. rewrite C1 by auto. cbn [c_str Z.eqb]. now rewrite app_nil_r.
  - unfold get_tag_int. now rewrite T, No.
  - unfold get_tag_double. now rewrite T, No.
  - unfold get_tag_string. now rewrite T, No.
Qed.
Print Assumptions exif_tag_values.

Definition ex_tags : list (Z * datum) :=
  [(271, Text 2 [65; 66; 67; 68; 69; 0]); (33434, Rats 5 [(1, 250)]); (37380, Rats 10 [(-1, 3)]); (34855, Ints 3 [100; 200]); (37386, Ints 9 [-5])].
Example exif_tiff_ex : Forall (fun '(t, d) => 0 <= t < 65536 /\ ~ link t /\ readable true d) ex_tags /\
  (tags <- read_tiff_ifd (tiff_file true ex_tags) ;;
   i <- get_tag_int (fun _ => Ok 0) tags 34855 ;; j <- get_tag_int (fun _ => Ok 0) tags 37386 ;;
   Ok (get_tag_string tags 271, get_tag_double tags 33434, get_tag_double tags 37380, i, j, get_tag_double tags 1)) =
  Ok (Some [65; 66; 67; 68; 69], Some (NRat 1 250), Some (NRat (-1) 3), Some 100, Some (-5), None).
Proof.
  split; [|reflexivity].
  repeat (apply Forall_cons || apply Forall_nil); cbn -[Z.le Z.lt Z.mul]; unfold link, readable, fits, int32; cbn -[Z.le Z.lt];
    repeat match goal with |- _ /\ _ => split | |- Forall _ (_ :: _) => apply Forall_cons | |- Forall _ [] => apply Forall_nil | |- _ :: _ <> _ => discriminate end; try lia.
Qed.

(** ** JPEG files *)


(* The Exif section of a JPEG file is found behind any other sections, however padded; its tags
   are those of a TIFF file with the same contents, or it fails in the same way, and the
   location that is reported is where these contents start. *)
Theorem exif_jpeg_read sections pad t rest :
  Forall plain_section sections -> (pad <= 6)%nat -> Z.of_nat (length t) + 8 < 65536 -> Forall (fun c => 0 <= c) t ->
  (forall mo o, process_tiff_header t 0 = Ok (mo, o) -> 0 <= o) ->
  let file := [255; 216] ++ flat_map section sections ++ section (pad, 225, exif_header ++ t) ++ rest in
  exists loc, at_ file loc t /\ read_jpeg_sections file = (tags <- read_tiff_ifd t ;; Ok (true, Some loc, tags)).
Proof.
  intros S P L B O file. set (here := 2 + Z.of_nat (length (flat_map section sections)) + Z.of_nat pad + 1).
  exists (here + 8). split.
  - exists ([255; 216] ++ flat_map section sections ++ repeat 255 pad ++ [225] ++ word true 2 (Z.of_nat (length (exif_header ++ t)) + 2) ++ exif_header), rest. split.
    + unfold file, section. rewrite <- !app_assoc. reflexivity.
    + rewrite !app_length, repeat_length, word_length. cbn [length exif_header]. unfold here. lia.
  - unfold file, read_jpeg_sections. cbn [app fgetc]. change (255 =? 255) with true. change (216 =? 216) with true. cbn [negb].
    match goal with |- read_sections (length ?s + 1) _ _ = _ => destruct (sections_step sections S (length s + 1) (section (pad, 225, exif_header ++ t) ++ rest) 2) as (fuel & F1 & F2); [lia|] end.
    rewrite F2. destruct fuel as [|fuel]; [lia|]. rewrite section_step; [|lia|discriminate|rewrite app_length; cbn [length exif_header]; lia].
    cbn zeta. change (225 =? 218) with false. change (225 =? 217) with false. change (225 =? 225) with true. cbn iota. fold here.
    set (w := word true 2 _). assert (W : length w = 2%nat) by apply word_length. destruct w as [|lh [|ll [|]]]; try discriminate. cbn [app].
    assert (M : memeq (lh :: ll :: exif_header ++ t) 2 [69; 120; 105; 102] = Ok true).
    { unfold memeq. rewrite (copy_at _ [69; 120; 105; 102] 2); [reflexivity|]. exists [lh; ll], ([0; 0] ++ t). auto. }
    change (lh :: ll :: 69 :: 120 :: 105 :: 102 :: 0 :: 0 :: t) with (lh :: ll :: exif_header ++ t). rewrite M. cbn [bind]. now rewrite exif_section_ok.
Qed.
Print Assumptions exif_jpeg_read.

(* Tags are read back from a JPEG file, in either byte order. *)
Theorem exif_jpeg_roundtrip mo fs sections pad rest :
  Forall (fun '(t, d) => 0 <= t < 65536 /\ ~ link t /\ readable mo d) fs -> Z.of_nat (length fs) < 65536 ->
  Z.of_nat (length (tiff_file mo fs)) + 8 < 65536 -> Forall (fun c => 0 <= c) (tiff_file mo fs) ->
  Forall plain_section sections -> (pad <= 6)%nat ->
  exists loc tags, read_jpeg_sections ([255; 216] ++ flat_map section sections ++ section (pad, 225, exif_header ++ tiff_file mo fs) ++ rest) = Ok (true, Some loc, tags) /\
    forall t, find_tag t tags = last_of t (map (fun '(t, d) => (t, value_of d)) fs).
Proof.
  intros F N L B S P. destruct (exif_tiff_roundtrip mo fs F N ltac:(lia)) as (tags & E & T).
  destruct (exif_jpeg_read sections pad (tiff_file mo fs) rest S P L B) as (loc & _ & R).
  - intros mo' o H. assert (W : at_ (tiff_file mo fs) 0 (tiff_header mo)) by (eexists [], _; split; reflexivity).
    unfold tiff_header in W. rewrite (header_ok mo _ 0 8 ltac:(lia) W) in H by (unfold int32; lia). injection H as <- <-. lia.
  - exists loc, tags. rewrite R, E. auto.
Qed.
Print Assumptions exif_jpeg_roundtrip.

(* There are no tags if the image or the end of the file comes first. *)
Theorem exif_jpeg_none sections pad marker c rest :
  Forall plain_section sections -> (pad <= 6)%nat -> marker = 218 \/ marker = 217 -> Z.of_nat (length c) + 2 < 65536 ->
  read_jpeg_sections ([255; 216] ++ flat_map section sections ++ section (pad, marker, c) ++ rest) = Ok (false, None, []).
Proof.
  intros S P M L. unfold read_jpeg_sections. cbn [app fgetc]. change (255 =? 255) with true. change (216 =? 216) with true. cbn [negb].
  match goal with |- read_sections (length ?s + 1) _ _ = _ => destruct (sections_step sections S (length s + 1) (section (pad, marker, c) ++ rest) 2) as (fuel & F1 & F2); [lia|] end.
  rewrite F2. destruct fuel as [|fuel]; [lia|]. rewrite section_step by lia. cbn zeta.
  destruct (Z.eqb_spec marker 218), (Z.eqb_spec marker 217); auto; lia.
Qed.
Print Assumptions exif_jpeg_none.

Definition ex_sections : list (nat * Z * list Z) := [(1%nat, 224, [74; 70; 73; 70; 0; 1; 1]); (3%nat, 254, []); (1%nat, 219, [1; 2; 3])].
Example exif_jpeg_ex : Forall plain_section ex_sections /\ Z.of_nat (length (tiff_file true ex_tags)) + 8 < 65536 /\ Forall (fun c => 0 <= c) (tiff_file true ex_tags) /\
  ('(found, loc, tags) <- read_jpeg_sections ([255; 216] ++ flat_map section ex_sections ++ section (1%nat, 225, exif_header ++ tiff_file true ex_tags) ++ [255; 218]) ;;
   Ok (found, loc, get_tag_double tags 33434)) = Ok (true, Some 36, Some (NRat 1 250)) /\
  read_jpeg_sections ([255; 216] ++ flat_map section ex_sections ++ section (1%nat, 218, [0; 1]) ++ [7]) = Ok (false, None, []).
Proof.
  split; [repeat (apply Forall_cons || apply Forall_nil); unfold plain_section; cbn; lia|]. split; [reflexivity|]. split; [repeat constructor; vm_compute; discriminate|]. split; reflexivity.
Qed.

(** ** What is not true *)

Definition is_bytes (l : list Z) : Prop := Forall (fun c => 0 <= c < 256) l.
Ltac bytes := repeat (apply Forall_cons || apply Forall_nil); split; (vm_compute; (discriminate || reflexivity)).

(* An entry whose data would lie beyond the end of the file is not always refused: the end of
   the data is computed in 32 bits, and with an offset near 2^32 it wraps around.  The data is
   then read outside of the buffer. *)
Theorem exif_offset_refuted : exists file, is_bytes file /\ read_tiff_ifd file = UB OutOfBounds.
Proof.
  exists (tiff_header false ++ word false 2 1 ++ word false 2 271 ++ word false 2 2 ++ word false 4 8 ++ word false 4 4294967292 ++ word false 4 0).
  split; [bytes|reflexivity].
Qed.
Print Assumptions exif_offset_refuted.

(* The offset of the next directory may be equal to the length of the data; the directory is
   then read outside of the buffer. *)
Theorem exif_next_refuted : exists file, is_bytes file /\ read_tiff_ifd file = UB OutOfBounds /\
  exists n, at_ file (8 + 2) (word false 4 n) /\ n = Z.of_nat (length file).
Proof.
  exists (tiff_header false ++ word false 2 0 ++ word false 4 14). split; [bytes|]. split; [reflexivity|].
  exists 14. split; [|reflexivity]. exists (tiff_header false ++ word false 2 0), []. auto.
Qed.
Print Assumptions exif_next_refuted.

(* The offset of the first directory is not checked at all. *)
Theorem exif_first_refuted : forall o, 8 <= o < 2147483648 ->
  read_tiff_ifd ([73; 73] ++ word false 2 42 ++ word false 4 o) = UB OutOfBounds.
Proof.
  intros o O. unfold read_tiff_ifd. rewrite (header_ok false _ 0 o); [|lia| |unfold int32; lia].
  - cbn [bind process_exif_dir]. unfold get16u, byte. cbn [length app word little].
    destruct (Z.ltb_spec o (Z.of_nat 8)); [lia|]. now rewrite andb_false_r.
  - exists [], []. now rewrite app_nil_r.
Qed.
Print Assumptions exif_first_refuted.

(* Unsigned integers of 32 bits are not read correctly: the conversion of a large one to int is
   undefined, and a large unsigned quotient is read as a negative one. *)
Theorem exif_unsigned_refuted :
  read_tiff_ifd (tiff_file false [(256, Ints 4 [2147483648])]) = UB Overflow /\
  (tags <- read_tiff_ifd (tiff_file false [(282, Rats 5 [(4294967295, 1)])]) ;; Ok (find_tag 282 tags)) = Ok (Some (TDouble (NRat (-1) 1))).
Proof. split; reflexivity. Qed.
Print Assumptions exif_unsigned_refuted.

(* Floating point numbers in files with the most significant byte first have their bytes
   reversed: 1.0 (3F800000 in hexadecimal) is read as 4.6E-41. *)
Theorem exif_float_refuted : exists x,
  (tags <- read_tiff_ifd (tiff_file false [(282, Floats 11 [x])]) ;; Ok (find_tag 282 tags)) = Ok (Some (TDouble (NRaw (little 4 x)))) /\
  (tags <- read_tiff_ifd (tiff_file true [(282, Floats 11 [x])]) ;; Ok (find_tag 282 tags)) = Ok (Some (TDouble (NRaw (rev (little 4 x))))) /\
  little 4 x <> rev (little 4 x).
Proof. exists 1065353216. split; [reflexivity|]. split; [reflexivity|]. discriminate. Qed.
Print Assumptions exif_float_refuted.

(* Exif tags are not found if another application section with the same marker (as used for XMP)
   comes before them: the search stops. *)
Theorem exif_second_section_refuted : exists other pad fs rest, firstn 6 other <> exif_header /\
  read_jpeg_sections ([255; 216] ++ section (1%nat, 225, other) ++ section (pad, 225, exif_header ++ tiff_file true fs) ++ rest) = Ok (false, None, []) /\
  ('(found, _, tags) <- read_jpeg_sections ([255; 216] ++ section (pad, 225, exif_header ++ tiff_file true fs) ++ rest) ;; Ok (found, find_tag 271 tags)) = Ok (true, Some (TStr [65; 0])).
Proof.
  exists [104; 116; 116; 112; 58; 47; 47], 1%nat, [(271, Text 2 [65; 0])], []. split; [discriminate|]. split; reflexivity.
Qed.
Print Assumptions exif_second_section_refuted.

(* A file without Exif tags that ends in an end-of-image marker, which has no length, is an
   error, not a file without tags. *)
Theorem exif_eoi_refuted : read_jpeg_sections [255; 216; 255; 217] = Throw IOErr.
Proof. reflexivity. Qed.
Print Assumptions exif_eoi_refuted.

(* A section with the marker of Exif data that is shorter than four bytes is compared with
   "Exif" beyond its end; one of four or five bytes likewise with the rest of the header. *)
Theorem exif_short_section_refuted :
  read_jpeg_sections [255; 216; 255; 225; 0; 5; 69; 120; 105; 255; 217] = UB OutOfBounds /\
  read_jpeg_sections [255; 216; 255; 225; 0; 7; 69; 120; 105; 102; 0; 255; 217] = UB OutOfBounds.
Proof. split; reflexivity. Qed.
Print Assumptions exif_short_section_refuted.

(** C32: match file names. *)
From Verif Require Import Lib.Base Lib.Str MatchName.Model MatchName.Spec MatchName.Proofs.
From Coq Require Import List ZArith Ascii String Bool Lia.
Import ListNotations.
Open Scope nat_scope.

(** Whatever the output prefix and the image files, the last component of every
    generated name is within the budget of 240 characters, and that of the
    clean match file within 246, below the file system limit of 255. *)
Theorem match_name_fits p f1 f2 pt c :
  last_component (match_filename p f1 f2 pt) c -> List.length c <= 240.
Proof. apply match_fits. Qed.

Theorem clean_match_name_fits p f1 f2 pt c :
  last_component (clean_match_filename (match_filename p f1 f2 pt) pt) c ->
  List.length c <= 246.
Proof.
  intros H. apply component_after in H. subst c.
  destruct (clean_eq p f1 f2 pt) as (body & E & C). rewrite C.
  assert (X : List.length (after_last slash (body ++ match_ext pt)) <= 240).
  { rewrite <- E. apply (match_fits p f1 f2 pt).
    set (t := match_filename p f1 f2 pt).
    split; [apply (after_last_no_In slash t)|].
    destruct (in_dec ascii_dec slash t) as [I|I].
    - right. destruct (last_split slash t I) as (a & b & T & N). exists a.
      rewrite T at 2. rewrite after_last_split by exact N. exact T.
    - left. rewrite after_last_no by exact I. reflexivity. }
  assert (N : ~ In slash (match_ext pt)).
  { destruct pt; cbn [match_ext lit list_ascii_of_string In]; intuition discriminate. }
  rewrite after_last_app_no in X by exact N.
  rewrite after_last_app_no.
  2:{ intros I. apply in_app_or in I as [I|I]; [|contradiction].
      cbn [lit list_ascii_of_string In] in I. intuition discriminate. }
  rewrite !app_length in *. cbn [lit list_ascii_of_string List.length] in *. lia.
Qed.

Theorem ip_name_fits p f c :
  last_component (ip_filename p f) c -> List.length c <= 240.
Proof. apply ip_fits. Qed.

Theorem vwip_name_fits t c :
  last_component (shorten_vwip_name t) c -> List.length c <= 240.
Proof. apply vwip_fits. Qed.

(** The image names are used unchanged when they and the prefix are short
    enough: together with the prefix, the separators and the extension each
    must leave half of the budget to the other.  Files in the output directory
    lose the prefix, other files their directory, both their extension. *)
Theorem match_name_short p b f1 f2 n1 n2 pt :
  p <> [] -> last_component p b -> b <> [] ->
  not_within (p ++ lit "-") f1 -> not_within (p ++ lit "-") f2 ->
  image_name f1 n1 -> image_name f2 n2 ->
  List.length b <= 199 ->
  List.length b + 9 + 2 * List.length n1 <= 240 ->
  List.length b + 9 + 2 * List.length n2 <= 240 ->
  match_filename p f1 f2 pt =
  p ++ lit "-" ++ n1 ++ lit "__" ++ n2 ++ lit (if pt then ".txt" else ".match").
Proof.
  intros P B NB W1 W2 I1 I2 LB L1 L2.
  rewrite match_filename_eq.
  pose proof (filename_component p b B NB) as F.
  assert (M : mprefix p pt = p).
  { unfold mprefix. apply cap_id; [destruct pt; cbn; lia|].
    rewrite F. unfold g_name_budget. destruct pt; cbn [ext_len match_ext lit list_ascii_of_string List.length]; lia. }
  rewrite M. replace (str_eqb p []) with false by (symmetry; apply str_eqb_false; exact P).
  rewrite (strip_path_name p f1 n1 (or_introl W1) I1), (strip_path_name p f2 n2 (or_introl W2) I2).
  assert (C : forall n : str, List.length b + 9 + 2 * List.length n <= 240 -> List.length n <= mcap p pt).
  { intros n L. unfold mcap. rewrite M, F.
    replace (str_eqb p []) with false by (symmetry; apply str_eqb_false; exact P).
    apply Nat.div_le_lower_bound; [lia|]. pose proof (ext_le pt). lia. }
  rewrite !shorten_short by (apply C; assumption).
  rewrite <- !app_assoc. destruct pt; reflexivity.
Qed.

(** Images that live under the prefix are named by what follows it. *)
Theorem image_name_prefixed p f n :
  p <> [] -> image_name f n -> ~ In "/"%char f -> strip_path p (p ++ lit "-" ++ f) = n.
Proof. apply strip_path_prefixed. Qed.

(** Different pairs get different names, as long as the names are short enough
    not to be shortened and the first name of each pair neither contains two
    underscores in a row nor ends with one. *)
Theorem match_name_distinct p f1 f2 g1 g2 n1 n2 m1 m2 pt :
  not_within (p ++ lit "-") f1 \/ p = [] -> not_within (p ++ lit "-") f2 \/ p = [] ->
  not_within (p ++ lit "-") g1 \/ p = [] -> not_within (p ++ lit "-") g2 \/ p = [] ->
  image_name f1 n1 -> image_name f2 n2 -> image_name g1 m1 -> image_name g2 m2 ->
  short_for p n1 -> short_for p n2 -> short_for p m1 -> short_for p m2 ->
  not_within (lit "__") (n1 ++ lit "_") -> not_within (lit "__") (m1 ++ lit "_") ->
  match_filename p f1 f2 pt = match_filename p g1 g2 pt -> n1 = m1 /\ n2 = m2.
Proof.
  intros W1 W2 W3 W4 I1 I2 I3 I4 L1 L2 L3 L4 N1 N2 E.
  apply match_eq_names in E.
  rewrite (strip_path_name p f1 n1 W1 I1), (strip_path_name p f2 n2 W2 I2),
    (strip_path_name p g1 m1 W3 I3), (strip_path_name p g2 m2 W4 I4) in E.
  rewrite !shorten_short in E by (apply short_for_cap; assumption).
  exact (separated _ _ _ _ N1 N2 E).
Qed.

(** Names too long to be used as they are (240 characters always are) only
    collide when their 64-bit hashes do. *)
Theorem match_name_long_distinct p f1 f2 g1 g2 n1 n2 m1 m2 pt :
  not_within (p ++ lit "-") f1 \/ p = [] -> not_within (p ++ lit "-") f2 \/ p = [] ->
  not_within (p ++ lit "-") g1 \/ p = [] -> not_within (p ++ lit "-") g2 \/ p = [] ->
  image_name f1 n1 -> image_name f2 n2 -> image_name g1 m1 -> image_name g2 m2 ->
  120 <= List.length n1 -> 120 <= List.length n2 ->
  120 <= List.length m1 -> 120 <= List.length m2 ->
  match_filename p f1 f2 pt = match_filename p g1 g2 pt ->
  fnv1a64 n1 = fnv1a64 m1 /\ fnv1a64 n2 = fnv1a64 m2.
Proof.
  intros W1 W2 W3 W4 I1 I2 I3 I4 L1 L2 L3 L4 E.
  apply match_eq_names in E. pose proof (mcap_ge p pt) as C.
  rewrite (strip_path_name p f1 n1 W1 I1), (strip_path_name p f2 n2 W2 I2),
    (strip_path_name p g1 m1 W3 I3), (strip_path_name p g2 m2 W4 I4) in E.
  assert (U : mcap p pt < 120).
  { unfold mcap. apply Nat.div_lt_upper_bound; [lia|].
    assert (4 <= ext_len pt) by (destruct pt; cbn; lia).
    destruct (str_eqb _ []); lia. }
  destruct (shorten_long n1 (mcap p pt)) as (_ & _ & X1); [lia|].
  destruct (shorten_long m1 (mcap p pt)) as (_ & _ & X2); [lia|].
  apply app_same_length in E as [E1 E2]; [|congruence].
  apply app_inv_head in E2.
  split; eapply shorten_long_eq; try eassumption; lia.
Qed.

(** The claim in general is false.  Two different pairs of short image names
    share a match file because the separator may occur in a name ... *)
Theorem match_name_separator_refuted :
  match_filename (lit "run/run") (lit "a__b.tif") (lit "c.tif") false =
  match_filename (lit "run/run") (lit "a.tif") (lit "b__c.tif") false.
Proof. vm_compute. reflexivity. Qed.

(** ... because the prefix is also removed from the middle of a name, although
    it should only be when the name starts with it ... *)
Theorem match_name_prefix_refuted :
  match_filename (lit "a") (lit "data-1.tif") (lit "x.tif") false =
  match_filename (lit "a") (lit "dat1.tif") (lit "x.tif") false.
Proof. vm_compute. reflexivity. Qed.

(** ... and for every prefix-free pair of files that only differ in directory. *)
Theorem match_name_directory_refuted d d' f g pt :
  ~ In "/"%char f -> f <> [] ->
  match_filename [] (d ++ lit "/" ++ f) g pt = match_filename [] (d' ++ lit "/" ++ f) g pt.
Proof.
  intros N H.
  assert (S : forall d, strip_path [] (d ++ lit "/" ++ f) = before_dot f).
  { intros e. unfold strip_path.
    assert (X : match sfind ([] ++ lit "-") (e ++ lit "/" ++ f) with
                | Some found => if negb (str_eqb [] [])
                    then erase (e ++ lit "/" ++ f) found (List.length ([] ++ lit "-")) else e ++ lit "/" ++ f
                | None => e ++ lit "/" ++ f end = e ++ lit "/" ++ f)
      by (destruct (sfind _ _); reflexivity).
    rewrite X. f_equal. apply filename_component; [|exact H].
    split; [exact N|]. right. exists e. reflexivity. }
  rewrite !match_filename_eq, !S. reflexivity.
Qed.

(** Non-vacuity. *)
Example ex_name : match_filename (lit "out/run") (lit "imgs/left.tif") (lit "out/run-right.cub") false
                  = lit "out/run-left__right.match".
Proof. vm_compute. reflexivity. Qed.

Example ex_image_name : image_name (lit "imgs/left.crop.tif") (lit "left.crop").
Proof.
  exists (lit "left.crop.tif"). split; [|split].
  - split; [cbn [lit list_ascii_of_string In]; intuition discriminate|].
    right. exists (lit "imgs"). reflexivity.
  - discriminate.
  - right. exists (lit "tif"). split; [cbn [lit list_ascii_of_string In]; intuition discriminate|reflexivity].
Qed.

Example ex_not_within : not_within (lit "__") (lit "left_1" ++ lit "_").
Proof.
  intros a b. apply sfind_none. vm_compute. reflexivity.
Qed.

Example ex_long : List.length (match_filename (lit "out/run") (repeat "x"%char 300) (lit "y") true) = 130.
Proof. vm_compute. reflexivity. Qed.

Print Assumptions match_name_fits.
Print Assumptions clean_match_name_fits.
Print Assumptions ip_name_fits.
Print Assumptions vwip_name_fits.
Print Assumptions match_name_short.
Print Assumptions image_name_prefixed.
Print Assumptions match_name_distinct.
Print Assumptions match_name_long_distinct.
Print Assumptions match_name_separator_refuted.
Print Assumptions match_name_prefix_refuted.
Print Assumptions match_name_directory_refuted.

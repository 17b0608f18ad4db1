(* Headers, files with one directory, and the same data at different positions. *)
From Coq Require Import ZArith List Lia Bool.
From Verif Require Import Lib.Base Exif.Model Exif.Spec Exif.Proofs.
Import ListNotations.
Local Open Scope Z_scope.

Lemma header_ok (mo : bool) m b o : 0 <= b -> at_ m b ((if mo then [77; 77] else [73; 73]) ++ word mo 2 42 ++ word mo 4 o) -> int32 o ->
  process_tiff_header m b = Ok (mo, o).
Proof.
  intros B H I. apply at_app in H as [H0 H]. apply at_app in H as [H1 H2]. rewrite word_length in H2.
  unfold process_tiff_header, memeq. cbn [length].
  replace (b + Z.of_nat (length (if mo then [77; 77] else [73; 73] : list Z))) with (b + 2) in * by (destruct mo; reflexivity).
  replace (b + 2 + Z.of_nat 2) with (b + 4) in H2 by lia.
  pose proof (copy_at m _ b H0) as C. destruct mo; cbn [length] in C; rewrite C; cbn [bind list_eqb Z.eqb Pos.eqb andb].
  - rewrite (get16u_at true m (b + 2) 42 H1 ltac:(lia)). cbn [bind Z.eqb Pos.eqb negb]. rewrite (get32s_at true m (b + 4) o H2 I). reflexivity.
  - rewrite (get16u_at false m (b + 2) 42 H1 ltac:(lia)). cbn [bind Z.eqb Pos.eqb negb]. rewrite (get32s_at false m (b + 4) o H2 I). reflexivity.
Qed.

Lemma entries_length mo : forall fs off, Forall (fun '(_, d) => readable mo d) fs -> Z.of_nat (length (entries_bytes mo off fs)) = 12 * Z.of_nat (length fs).
Proof.
  induction fs as [|[tag d] fs IH]; intros off F; auto. inversion_clear F. cbn [entries_bytes]. rewrite !app_length, !word_length, !Nat2Z.inj_add, IH by auto. cbn [length].
  assert (length (if long mo d then word mo 4 off else bytes_of mo d ++ repeat 0 (4 - length (bytes_of mo d))) = 4%nat).
  { unfold long. destruct (Nat.ltb_spec 4 (length (bytes_of mo d))); [apply word_length|]. rewrite app_length, repeat_length. lia. }
  lia.
Qed.

Lemma entries_written mo m len k : forall fs p off,
  Forall (fun '(t, d) => 0 <= t < 65536 /\ ~ link t /\ readable mo d) fs ->
  at_ m p (entries_bytes mo off fs) -> at_ m off (area_bytes mo fs) -> off + Z.of_nat (length (area_bytes mo fs)) <= len ->
  entries_at mo m 0 len k p (length fs) (map (fun '(t, d) => (t, value_of d)) fs).
Proof.
  induction fs as [|[tag d] fs IH]; intros p off F A B L; cbn [length map]; [constructor|].
  inversion_clear F as [|? ? F1 F2]. destruct F1 as (F0 & F1 & F3). cbn [entries_bytes] in A.
  apply at_app in A as [A1 A]. apply at_app in A as [A2 A]. apply at_app in A as [A3 A]. apply at_app in A as [A4 A5]. rewrite !word_length in *.
  change (Z.of_nat 2) with 2 in *. change (Z.of_nat 4) with 4 in *.
  assert (L4 : length (if long mo d then word mo 4 off else bytes_of mo d ++ repeat 0 (4 - length (bytes_of mo d))) = 4%nat).
  { unfold long. destruct (Nat.ltb_spec 4 (length (bytes_of mo d))); [apply word_length|]. rewrite app_length, repeat_length. lia. }
  rewrite L4 in A5. replace (p + 2 + 2 + 4 + Z.of_nat 4) with (p + 12) in A5 by lia. replace (p + 2 + 2 + 4) with (p + 8) in A4 by lia.
  unfold area_bytes in B, L. cbn [flat_map] in B, L. fold (area_bytes mo fs) in B, L. rewrite app_length in L. apply at_app in B as [B1 B2].
  assert (AH : at_ m p (word mo 2 tag ++ word mo 2 (format_of d) ++ word mo 4 (count_of d))).
  { apply at_append; auto. rewrite word_length. apply at_append; auto. rewrite word_length. exact A3. }
  apply entries_data; auto.
  - split; auto. split; auto. split; auto. cbn zeta. unfold long in *. destruct (Nat.leb_spec (length (bytes_of mo d)) 4).
    + destruct (Nat.ltb_spec 4 (length (bytes_of mo d))); [lia|]. now apply at_app in A4.
    + destruct (Nat.ltb_spec 4 (length (bytes_of mo d))); [|lia]. exists off. pose proof (at_pos _ _ _ B1). split; [lia|]. split; [lia|]. split; auto.
  - apply IH with (off := if long mo d then off + Z.of_nat (length (bytes_of mo d)) else off); auto.
    + destruct (long mo d); [exact B2|]. cbn [length] in B2. now rewrite Z.add_0_r in B2.
    + destruct (long mo d); cbn [length] in L; lia.
Qed.

Section Shift.
Variables (pre t : list Z) (mo : bool) (len : Z).
Let b := Z.of_nat (length pre).
Hypothesis B : Forall (fun c => 0 <= c) t.

Lemma byte_shift p : 0 <= p -> byte (pre ++ t) (b + p) = byte t p.
Proof.
  intros H. unfold byte, b. rewrite app_length.
  destruct (Z.leb_spec 0 (Z.of_nat (length pre) + p)), (Z.leb_spec 0 p); try lia. cbn [andb].
  destruct (Z.ltb_spec (Z.of_nat (length pre) + p) (Z.of_nat (length pre + length t))), (Z.ltb_spec p (Z.of_nat (length t))); try lia; auto.
  rewrite app_nth2 by lia. do 2 f_equal. lia.
Qed.
Lemma byte_shift1 p k : 0 <= p -> 0 <= k -> byte (pre ++ t) (b + p + k) = byte t (p + k).
Proof. intros. rewrite <- Z.add_assoc. apply byte_shift. lia. Qed.
Lemma copy_shift n : forall p, 0 <= p -> copy (pre ++ t) (b + p) n = copy t p n.
Proof. induction n; intros p H; cbn [copy]; auto. rewrite byte_shift by auto. rewrite <- Z.add_assoc, IHn by lia. reflexivity. Qed.
Lemma get16u_shift m p : 0 <= p -> get16u m (pre ++ t) (b + p) = get16u m t p.
Proof. intros. unfold get16u. now rewrite byte_shift, byte_shift1 by lia. Qed.
Lemma get32s_shift m p : 0 <= p -> get32s m (pre ++ t) (b + p) = get32s m t p.
Proof. intros. unfold get32s. now rewrite byte_shift, !byte_shift1 by lia. Qed.
Lemma get32u_shift m p : 0 <= p -> get32u m (pre ++ t) (b + p) = get32u m t p.
Proof. intros. unfold get32u. now rewrite get32s_shift. Qed.

Lemma convert_shift p f : 0 <= p -> convert_any_format mo (pre ++ t) (b + p) f = convert_any_format mo t p f.
Proof.
  intros H. unfold convert_any_format. rewrite byte_shift, get16u_shift, get32s_shift, get32u_shift, !copy_shift by auto.
  replace (b + p + 4) with (b + (p + 4)) by lia. rewrite get32s_shift by lia. reflexivity.
Qed.
Lemma store_shift p tag f c tags : 0 <= p -> store mo (pre ++ t) (b + p) tag f c tags = store mo t p tag f c tags.
Proof. intros H. unfold store. now rewrite copy_shift, convert_shift by auto. Qed.

Lemma entry_shift sub sub' p tags : 0 <= p -> (forall o tags, 0 <= o -> sub (b + o) tags = sub' o tags) ->
  entry sub mo (pre ++ t) b len (b + p) tags = entry sub' mo t 0 len p tags.
Proof.
  intros H S. unfold entry. rewrite get16u_shift by auto. destruct (get16u mo t p) as [tag| |]; cbn [bind]; auto.
  replace (b + p + 2) with (b + (p + 2)) by lia. rewrite get16u_shift by lia. destruct (get16u mo t (p + 2)) as [f| |]; cbn [bind]; auto.
  replace (b + p + 4) with (b + (p + 4)) by lia. rewrite get32u_shift by lia. destruct (get32u mo t (p + 4)) as [n| |]; cbn [bind]; auto.
  destruct ((f >? 12) || (f <=? 0)); auto. destruct (n >? 65536); auto. cbn zeta.
  replace (b + p + 8) with (b + (p + 8)) by lia. rewrite get32u_shift by lia.
  assert (G : forall v, 0 <= v ->
    (tags <- store mo (pre ++ t) (b + v) tag f (n * bytes_per f) tags ;;
     if is_link tag then o <- get32u mo (pre ++ t) (b + v) ;; if o >? len then Ok tags else sub (b + o) tags else Ok tags) =
    (tags <- store mo t v tag f (n * bytes_per f) tags ;;
     if is_link tag then o <- get32u mo t v ;; if o >? len then Ok tags else sub' (0 + o) tags else Ok tags)).
  { intros v V. rewrite store_shift by auto. destruct (store mo t v tag f (n * bytes_per f) tags) as [tg| |]; cbn [bind]; auto. destruct (is_link tag); auto.
    rewrite get32u_shift by auto. destruct (get32u mo t v) as [o| |] eqn:G; cbn [bind]; auto. destruct (o >? len); auto. rewrite S; auto.
    unfold get32u in G. destruct (get32s mo t v); cbn [bind] in G; try discriminate. injection G as <-. apply Z.mod_pos_bound. lia. }
  destruct (n * bytes_per f >? 4).
  - destruct (get32u mo t (p + 8)) as [o| |] eqn:E; cbn [bind]; auto. destruct ((o + n * bytes_per f) mod 4294967296 >? len); auto. rewrite Z.add_0_l. apply G.
    unfold get32u in E. destruct (get32s mo t (p + 8)); cbn [bind] in E; try discriminate. injection E as <-. apply Z.mod_pos_bound. lia.
  - cbn [bind]. apply G. lia.
Qed.

Lemma byte_pos p v : byte t p = Ok v -> 0 <= v.
Proof.
  unfold byte. destruct ((0 <=? p) && (p <? Z.of_nat (length t))) eqn:E; [|discriminate]. apply andb_true_iff in E as [E1 E2]. apply Z.leb_le in E1. apply Z.ltb_lt in E2.
  intros H. injection H as <-. assert (I : In (nth (Z.to_nat p) t 0) t) by (apply nth_In; lia). exact (proj1 (Forall_forall _ _) B _ I).
Qed.
Lemma get16u_pos m p v : get16u m t p = Ok v -> 0 <= v.
Proof.
  unfold get16u. destruct (byte t p) eqn:E1; cbn [bind]; try discriminate. destruct (byte t (p + 1)) eqn:E2; cbn [bind]; try discriminate.
  apply byte_pos in E1, E2. intros H. injection H as <-. destruct m; lia.
Qed.

Lemma dir_shift k : forall p tags, 0 <= p -> process_exif_dir mo (pre ++ t) b len k (b + p) tags = process_exif_dir mo t 0 len k p tags.
Proof.
  induction k as [|k IH]; intros p tags H; cbn [process_exif_dir]; auto. rewrite get16u_shift by auto. destruct (get16u mo t p) as [n| |] eqn:N; cbn [bind]; auto. cbn zeta.
  replace (b + p + 2 + 12 * n) with (b + (p + 2 + 12 * n)) by lia. set (e := p + 2 + 12 * n).
  assert (Q1 : (b + e + 4 >? b + len) = (e + 4 >? 0 + len)) by (destruct (Z.gtb_spec (b + e + 4) (b + len)), (Z.gtb_spec (e + 4) (0 + len)); auto; lia).
  assert (Q2 : (b + e + 2 =? b + len) = (e + 2 =? 0 + len)) by (destruct (Z.eqb_spec (b + e + 2) (b + len)), (Z.eqb_spec (e + 2) (0 + len)); auto; lia).
  assert (Q3 : (b + e =? b + len) = (e =? 0 + len)) by (destruct (Z.eqb_spec (b + e) (b + len)), (Z.eqb_spec e (0 + len)); auto; lia).
  assert (Q4 : (b + e + 4 <=? b + len) = (e + 4 <=? 0 + len)) by (destruct (Z.leb_spec (b + e + 4) (b + len)), (Z.leb_spec (e + 4) (0 + len)); auto; lia).
  rewrite Q1, Q2, Q3, Q4. destruct ((e + 4 >? 0 + len) && negb ((e + 2 =? 0 + len) || (e =? 0 + len))); auto.
  assert (LE : for_up 0 n (fun de tags => entry (process_exif_dir mo (pre ++ t) b len k) mo (pre ++ t) b len (b + p + 2 + 12 * de) tags) tags =
               for_up 0 n (fun de tags => entry (process_exif_dir mo t 0 len k) mo t 0 len (p + 2 + 12 * de) tags) tags).
  { unfold for_up. apply loop_ext. intros j s J. replace (b + p + 2 + 12 * j) with (b + (p + 2 + 12 * j)) by lia. apply entry_shift; [lia|]. intros o tg O. apply IH. auto. }
  rewrite LE. clear LE. destruct (for_up 0 n _ tags) as [tg| |]; cbn [bind]; auto. destruct (Z.leb_spec (e + 4) (0 + len)); auto.
  destruct (Z.le_gt_cases 0 n) as [N0|N0].
  - rewrite get32u_shift by (unfold e; lia). destruct (get32u mo t e) as [o| |] eqn:E; cbn [bind]; auto. destruct (o =? 0); auto. destruct (o >? len); auto. rewrite Z.add_0_l. apply IH.
    unfold get32u in E. destruct (get32s mo t e); cbn [bind] in E; try discriminate. injection E as <-. apply Z.mod_pos_bound. lia.
  - apply get16u_pos in N. lia.
Qed.
End Shift.

Lemma header_shift pre t : process_tiff_header (pre ++ t) (Z.of_nat (length pre)) = process_tiff_header t 0.
Proof.
  unfold process_tiff_header, memeq. cbn [length]. 
  assert (C : copy (pre ++ t) (Z.of_nat (length pre)) 2 = copy t 0 2) by (rewrite <- (Z.add_0_r (Z.of_nat (length pre))); apply copy_shift; lia).
  rewrite !C.
  destruct (copy t 0 2) as [l| |]; cbn [bind]; auto.
  assert (G : forall mo, (v <- get16u mo (pre ++ t) (Z.of_nat (length pre) + 2) ;; if negb (v =? 42) then Throw IOErr
     else o <- get32s mo (pre ++ t) (Z.of_nat (length pre) + 4) ;; Ok (mo, o)) =
     (v <- get16u mo t (0 + 2) ;; if negb (v =? 42) then Throw IOErr else o <- get32s mo t (0 + 4) ;; Ok (mo, o))).
  { intros mo. now rewrite get16u_shift, get32s_shift by lia. }
  destruct (list_eqb l [73; 73]); cbn [bind]; [apply G|]. destruct (list_eqb l [77; 77]); cbn [bind]; auto.
Qed.

Lemma exif_section_ok lh ll t : Forall (fun c => 0 <= c) t -> (forall mo o, process_tiff_header t 0 = Ok (mo, o) -> 0 <= o) ->
  process_exif (lh :: ll :: exif_header ++ t) = read_tiff_ifd t.
Proof.
  intros B O. unfold process_exif. set (pre := lh :: ll :: exif_header). change (lh :: ll :: exif_header ++ t) with (pre ++ t).
  assert (M : memeq (pre ++ t) 2 exif_header = Ok true).
  { unfold memeq. rewrite (copy_at (pre ++ t) exif_header 2); [reflexivity|]. exists [lh; ll], t. auto. }
  rewrite M. cbn [bind negb]. change 8 with (Z.of_nat (length pre)) at 1. rewrite header_shift. unfold read_tiff_ifd.
  destruct (process_tiff_header t 0) as [[mo o]| |] eqn:H; cbn [bind]; auto. specialize (O mo o eq_refl).
  replace (Z.of_nat (length (pre ++ t)) - 8) with (Z.of_nat (length t)) by (rewrite app_length; change (length pre) with 8%nat; lia).
  change 8 with (Z.of_nat (length pre)). now rewrite dir_shift.
Qed.

Lemma marker_ok marker s : marker <> 255 -> forall pad k pos, (pad < k)%nat -> read_marker k (repeat 255 pad ++ marker :: s) pos = Ok (marker, s, pos + Z.of_nat pad + 1).
Proof.
  intros M. induction pad as [|pad IH]; intros [|k] pos L; try lia; cbn [repeat app read_marker fgetc].
  - destruct (Z.eqb_spec marker 255); [contradiction|]. cbn [negb]. do 2 f_equal. cbn [Z.of_nat]. lia.
  - change (255 =? 255) with true. cbn [negb]. destruct k; [lia|]. rewrite IH by lia. do 2 f_equal. lia.
Qed.

(* what happens at a section *)
Lemma section_step fuel pad marker c rest pos : (pad <= 6)%nat -> marker <> 255 -> Z.of_nat (length c) + 2 < 65536 ->
  read_sections (S fuel) (section (pad, marker, c) ++ rest) pos =
  let at0 := pos + Z.of_nat pad + 1 in
  let data := word true 2 (Z.of_nat (length c) + 2) ++ c in
  if marker =? 218 then Ok (false, None, []) else if marker =? 217 then Ok (false, None, [])
  else if marker =? 225 then
    h <- memeq data 2 [69; 120; 105; 102] ;;
    if h then tags <- process_exif data ;; Ok (true, Some (at0 + 8), tags) else Ok (false, None, [])
  else read_sections fuel rest (at0 + Z.of_nat (length c) + 2).
Proof.
  intros P M L. unfold section. cbn [read_sections]. rewrite <- !app_assoc. cbn [app]. rewrite marker_ok by (auto; lia). cbn [bind].
  unfold word. cbn [little rev app fgetc]. set (v := Z.of_nat (length c) + 2) in *.
  assert (L1 : 0 <= (v / 256) mod 256) by (apply Z.mod_pos_bound; lia). assert (L2 : 0 <= v mod 256) by (apply Z.mod_pos_bound; lia).
  destruct (Z.ltb_spec ((v / 256) mod 256) 0), (Z.ltb_spec (v mod 256) 0); try lia. cbn [orb].
  assert (V : (v / 256) mod 256 * 256 + v mod 256 = v) by (unfold v; divs). rewrite V.
  destruct (Z.geb_spec v 2); [|unfold v in *; lia]. cbn [negb]. replace (Z.to_nat (v - 2)) with (length c) by (unfold v; lia).
  rewrite firstn_app, firstn_all, Nat.sub_diag, skipn_app, skipn_all, Nat.sub_diag. cbn [firstn skipn app]. rewrite app_nil_r.
  destruct (Z.eqb_spec (Z.of_nat (length c)) (v - 2)); [|unfold v in *; lia]. cbn [negb].
  destruct (marker =? 218); auto. destruct (marker =? 217); auto. cbn zeta. replace (pos + Z.of_nat pad + 1 + v - v + 8) with (pos + Z.of_nat pad + 1 + 8) by lia.
  destruct (marker =? 225); auto. f_equal. unfold v. lia.
Qed.

Lemma sections_step S : Forall plain_section S -> forall fuel rest pos, (length (flat_map section S ++ rest) < fuel)%nat ->
  exists fuel', (length rest < fuel')%nat /\ read_sections fuel (flat_map section S ++ rest) pos = read_sections fuel' rest (pos + Z.of_nat (length (flat_map section S))).
Proof.
  induction 1 as [|[[pad marker] c] S (P1 & P2 & P3 & P4 & P5 & P6) _ IH]; intros fuel rest pos L.
  - exists fuel. split; auto. cbn [flat_map app length]. now rewrite Z.add_0_r.
  - destruct fuel as [|fuel]; [lia|]. cbn [flat_map] in *. rewrite <- app_assoc in *. rewrite section_step by lia. cbn zeta.
    destruct (Z.eqb_spec marker 218), (Z.eqb_spec marker 217), (Z.eqb_spec marker 225); try lia.
    assert (SL : length (section (pad, marker, c)) = (pad + 3 + length c)%nat) by (unfold section; rewrite !app_length, repeat_length, word_length; cbn [length]; lia).
    rewrite app_length, SL in L. destruct (IH fuel rest (pos + Z.of_nat pad + 1 + Z.of_nat (length c) + 2)) as (fuel' & F1 & F2); [lia|].
    exists fuel'. split; auto. rewrite F2. f_equal. rewrite app_length, SL. lia.
Qed.

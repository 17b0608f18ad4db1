(* Theorems about conversions between image buffers. *)
From Coq Require Import ZArith List Bool Lia.
From Verif Require Import Lib.Base IBuf.Model IBuf.Spec IBuf.Mem IBuf.Proofs IBuf.Loops IBuf.More IBuf.Laws IBuf.Trips.
Import ListNotations.
Local Open Scope Z_scope.

(* C55.  The number of channels of a format is that of its colours, plus one
   for an alpha channel and one for a mask; other formats are refused. *)
Theorem format_channels : forall f,
  (forall n, nchan f = Ok n <-> channels f n) /\
  ((exists n, channels f n) \/ nchan f = Throw ArgumentErr).
Proof.
  intros f.
  assert (S : forall n, channels f n -> nchan f = Ok n).
  { intros n C. induction C as [| | | | |f g n C IH A|f g n C IH A|n R]; try reflexivity.
    - destruct A; cbn in IH |- *; injection IH as <-; reflexivity.
    - destruct A; cbn in IH |- *; injection IH as <-; reflexivity.
    - unfold nchan. cbn [nchan0]. rewrite (proj2 (Z.leb_le 1 n)), (proj2 (Z.leb_le n 13)) by lia. cbn [andb].
      rewrite (proj2 (Z.ltb_lt 0 n)) by lia. reflexivity. }
  assert (T : (exists n, channels f n) \/ nchan f = Throw ArgumentErr).
  { destruct f; try (right; reflexivity).
    all: try (left; eexists; first [constructor; fail | eapply ch_alpha; constructor; fail
      | eapply ch_mask; constructor; fail | eapply ch_mask; [eapply ch_alpha; constructor|constructor]]; fail).
    unfold nchan. cbn [nchan0]. destruct (Z.leb_spec 1 n), (Z.leb_spec n 13); cbn [andb]; try (right; reflexivity).
    left. exists n. apply ch_generic. lia. }
  split; [|exact T]. intros n. split; [|apply S].
  intros E. destruct T as [[k C]|T]; [|congruence]. pose proof (S k C). assert (k = n) by congruence. subst. exact C.
Qed.

(* C55.  Converting one buffer into another of the same size and a compatible
   format: every pixel of the destination becomes the conversion of the pixel
   of the source at the same place, no other byte changes, and the conversion
   succeeds exactly when that of every pixel does.  Strides are arbitrary. *)
Theorem convert_pixelwise : forall fo dm dst sm src rs,
  direct dm dst sm src -> alpha_tested (bfmt dst) (bfmt src) ->
  ((forall k r c, in_buffer src k r c ->
      exists ys, converted fo (bfmt dst) (bfmt src) rs (pixel_at sm src k r c) = Ok ys) ->
   exists dm', convert fo dm dst sm src rs = Ok dm' /\ length dm' = length dm /\
     (forall k r c, in_buffer src k r c ->
        converted fo (bfmt dst) (bfmt src) rs (pixel_at sm src k r c) = Ok (pixel_at dm' dst k r c)) /\
     (forall x, 0 <= x -> ~ covers dst x -> byte dm' x = byte dm x)) /\
  (forall dm', convert fo dm dst sm src rs = Ok dm' ->
     forall k r c, in_buffer src k r c ->
       exists ys, converted fo (bfmt dst) (bfmt src) rs (pixel_at sm src k r c) = Ok ys).
Proof.
  intros fo dm dst sm src rs D AT. destruct (direct_spec fo dm dst sm src rs D AT) as [R1 R2].
  split; auto. intros H. destruct (R1 H) as (m & E & L & _ & V & U). exists m. auto.
Qed.

(* C55.  What happens to one channel: without rescaling the value is kept
   modulo the size of the new type; between uint8 and uint16 rescaling
   multiplies or divides by 257; the mean of three channels is rounded
   towards zero; premultiplication rounds v*alpha/max and its reverse
   v*max/alpha to a nearest integer. *)
Theorem channel_conversion : forall fo s d v, integral s -> integral d ->
  (exists w, conv fo s d false v = Ok w /\ in_range d w /\ (w - v) mod 2 ^ (8 * csize0 d) = 0) /\
  (in_range d v -> conv fo s d false v = Ok v) /\
  (in_range CU8 v -> conv fo CU8 CU16 true v = Ok (257 * v)) /\
  (in_range CU16 v -> conv fo CU16 CU8 true v = Ok (v / 257)) /\
  (~ (s = CU8 /\ d = CU16) -> ~ (s = CU16 /\ d = CU8) -> conv fo s d true v = conv fo s d false v).
Proof.
  intros fo s d v Is Id. split; [|split; [|split; [|split]]]; [| | | |intros; rewrite conv_cast by auto; apply conv_rescale; auto].
  - rewrite conv_cast by auto. eexists. split; [reflexivity|]. split; [apply norm_range; auto|].
    assert (P : 0 < 2 ^ (8 * csize0 d)) by (apply Z.pow_pos_nonneg; pose proof (csize0_nonneg d); lia).
    rewrite Zminus_mod, norm_mod, Z.sub_diag. apply Z.mod_0_l. lia.
  - intros R. rewrite conv_cast by auto. f_equal. apply in_range_okv; auto.
  - intros R. change (conv fo CU8 CU16 true v) with (Ok (norm CU16 (v * 257))). f_equal.
    rewrite Z.mul_comm. apply (in_range_okv CU16); [repeat split; try constructor; discriminate|].
    unfold in_range in *. change (2 ^ (8 * csize0 CU8)) with 256 in R. change (2 ^ (8 * csize0 CU16)) with 65536. lia.
  - intros R. change (conv fo CU16 CU8 true v) with (Ok (norm CU8 (Z.quot v 257))). f_equal.
    unfold in_range in R. change (2 ^ (8 * csize0 CU16)) with 65536 in R.
    rewrite Z.quot_div_nonneg by lia. apply (in_range_okv CU8); [repeat split; try constructor; discriminate|].
    unfold in_range. change (2 ^ (8 * csize0 CU8)) with 256.
    split; [apply Z.div_pos; lia|apply Z.div_lt_upper_bound; lia].
Qed.
Theorem channel_mean : forall fo t x y z, integral t -> t <> CU64 -> t <> CI64 ->
  in_range t x -> in_range t y -> in_range t z ->
  average fo t [x; y; z] = Ok (Z.quot (x + y + z) 3).
Proof.
  intros fo t x y z I N1 N2 Rx Ry Rz. rewrite average_narrow by (auto; discriminate).
  cbn [zsum fold_right length Z.of_nat Pos.of_succ_nat Pos.succ].
  replace (x + (y + (z + 0))) with (x + y + z) by lia. f_equal.
  apply in_range_okv; auto. destruct I as [N [F1 F2]].
  destruct N; try congruence; unfold in_range in *; cbn [csize0] in *; simpl in *;
    match goal with |- ?lo <= _ < ?hi =>
      pose proof (quot_between x y z lo (hi - 1) ltac:(lia) ltac:(lia) ltac:(lia)) end; simpl in *; lia.
Qed.
Theorem channel_alpha : forall fo t v a w, t = CU8 \/ t = CI8 \/ t = CU16 \/ t = CI16 ->
  (mul1 fo t v a = Ok w -> in_range t w /\ nearest w (v * a) (int_max t)) /\
  (div1 fo t v a = Ok w -> a <> 0 /\ in_range t w /\ nearest w (v * int_max t) a).
Proof.
  intros fo t v a w T.
  assert (NT : narrow t = true) by (destruct T as [->|[->|[->| ->]]]; reflexivity).
  assert (IT : integral t) by (destruct T as [->|[->|[->| ->]]]; (split; [constructor|split; discriminate])).
  assert (MX : int_max t <> 0) by (destruct T as [->|[->|[->| ->]]]; discriminate).
  assert (TI : forall u, to_int t u = Ok w -> u = w /\ in_range t w).
  { intros u H. assert (W : okv t w) by (eapply to_int_ok; [apply narrow_int; auto|exact H]).
    split; [|apply in_range_okv; auto].
    unfold to_int in H. destruct ((int_min t <=? u) && (u <=? int_max t)); congruence. }
  split.
  - unfold mul1. rewrite NT. intros H. apply TI in H as [<- R]. split; auto. apply round_nearest; auto.
  - unfold div1. rewrite NT. destruct (Z.eqb_spec a 0) as [|NA]; [discriminate|].
    intros H. apply TI in H as [<- R]. split; auto. split; auto. apply round_nearest; auto.
Qed.

(* C55.  The opaque value added with an alpha channel is the largest of its
   type; premultiplication and its reverse keep the last channel and scale
   every other one by it. *)
Theorem channel_opaque : forall t, integral t ->
  in_range t (set_max t) /\ forall v, in_range t v -> v <= set_max t.
Proof.
  intros t [N [F1 F2]]. destruct N; try congruence; unfold in_range; cbn; split; intros; lia.
Qed.
Theorem pixel_alpha : forall fo t cs a ys,
  (premultiply fo t (cs ++ [a]) = Ok ys <->
   exists ws, ys = ws ++ [a] /\ Forall2 (fun c w => mul1 fo t c a = Ok w) cs ws) /\
  (unpremultiply fo t (cs ++ [a]) = Ok ys <->
   exists ws, ys = ws ++ [a] /\ Forall2 (fun c w => div1 fo t c a = Ok w) cs ws).
Proof.
  intros fo t cs a ys. unfold premultiply, unpremultiply. cbv zeta. rewrite last_last, removelast_last.
  assert (M : forall f ws, mapM f cs = Ok ws <-> Forall2 (fun c w => f c = Ok w) cs ws).
  { intros f. induction cs as [|c cs IH]; intros ws; cbn [mapM].
    - split; intros H; [injection H as <-; constructor|inversion H; reflexivity].
    - split; intros H.
      + apply bind_ok in H as (y & E & H). apply bind_ok in H as (l & E' & H). injection H as <-.
        constructor; auto. apply IH; auto.
      + inversion H as [|? w ? ws' E F]; subst. rewrite E. cbn [bind]. apply IH in F. rewrite F. reflexivity. }
  split; (split;
    [intros H; apply bind_ok in H as (ws & E & H); injection H as <-; exists ws; split; auto; apply M in E; exact E
    |intros (ws & -> & F); apply M in F; rewrite F; reflexivity]).
Qed.

(* C55.  Between buffers of the same format a conversion copies the bytes. *)
Theorem convert_exact : forall fo dm dst sm src rs, direct dm dst sm src ->
  fpix (bfmt dst) = fpix (bfmt src) -> fchan (bfmt dst) = fchan (bfmt src) ->
  fpre (bfmt dst) = fpre (bfmt src) ->
  exists dm', convert fo dm dst sm src rs = Ok dm' /\
    (forall k r c i, in_buffer src k r c -> 0 <= i < pixel_size src ->
       byte dm' (addr dst k r c + i) = byte sm (addr src k r c + i)) /\
    (forall x, 0 <= x -> ~ covers dst x -> byte dm' x = byte dm x).
Proof.
  intros fo dm dst sm src rs D EP EC EF.
  assert (AT : alpha_tested (bfmt dst) (bfmt src)) by (right; right; rewrite EP; tauto).
  assert (CV : forall k r c, in_buffer src k r c ->
    converted fo (bfmt dst) (bfmt src) rs (pixel_at sm src k r c) = Ok (pixel_at sm src k r c)).
  { intros k r c I. unfold converted. rewrite EF, EP, EC.
    assert (RC : recolor (conv fo (fchan (bfmt src)) (fchan (bfmt src)) rs) (average fo (fchan (bfmt src)))
      (set_max (fchan (bfmt src))) (pixel_at sm src k r c) (nchan0 (fpix (bfmt src))) = Ok (pixel_at sm src k r c)).
    { rewrite recolor_same.
      - apply mapM_id. intros x Ix. apply conv_same; [|apply (di_src _ _ _ _ D)].
        pose proof (pixel_okv sm src k r c (di_sm _ _ _ _ D) (di_fs _ _ _ _ D) I) as V.
        rewrite Forall_forall in V. auto.
      - rewrite pixel_length. rewrite Z2Nat.id; auto. apply nchan0_nonneg. }
    rewrite RC. destruct (has_alpha (fpix (bfmt src))); auto. destruct (fpre (bfmt src)); auto. }
  destruct (direct_spec fo dm dst sm src rs D AT) as [R1 _].
  destruct R1 as (dm' & E & L & B & V & U).
  { intros k r c I. eexists. apply CV; auto. }
  exists dm'. split; auto. split; auto.
  intros k r c i I Hi. specialize (V k r c I). rewrite CV in V by auto. injection V as V.
  assert (Id : in_buffer dst k r c).
  { destruct (di_size _ _ _ _ D) as [S1 S2]. unfold in_buffer in *.
    rewrite S1, S2, (di_planes _ _ _ _ D). auto. }
  destruct (di_fs _ _ _ _ D k r c I) as [A1 A2]. destruct (di_fd _ _ _ _ D k r c Id) as [A3 A4].
  unfold pixel_at in V. rewrite EP, EC in V.
  assert (SZ : pixel_size dst = pixel_size src) by (unfold pixel_size; rewrite EP, EC; reflexivity).
  rewrite SZ in A4. unfold pixel_size in *.
  set (t := fchan (bfmt src)) in *. set (n := nchan0 (fpix (bfmt src))) in *.
  assert (C : 0 < csize0 t) by (apply in_table_size, numeric_table, (di_src _ _ _ _ D)).
  set (j := i / csize0 t).
  pose proof (Z.div_mod i (csize0 t) ltac:(lia)) as DM. fold j in DM.
  pose proof (Z.mod_pos_bound i (csize0 t) C) as MB.
  assert (J0 : 0 <= j) by (apply Z.div_pos; lia).
  assert (J1 : j < n) by (apply Z.div_lt_upper_bound; lia).
  assert (VJ : value t sm (addr src k r c + j * csize0 t) = value t dm' (addr dst k r c + j * csize0 t)).
  { assert (Ij : In j (zrange 0 n)) by (apply in_zrange; lia).
    revert V Ij. generalize (zrange 0 n). intros l. induction l as [|x l IH]; cbn [map]; intros V [].
    - injection V as V _. subst. exact V.
    - injection V as _ V. auto. }
  rewrite DM. rewrite !Z.add_assoc, !(Z.mul_comm (csize0 t)).
  symmetry. apply (value_bytes t); auto; try nia. apply (di_sm _ _ _ _ D).
Qed.

(* C55.  A buffer of scalar planes and a buffer with one channel per plane:
   plane k is channel k, in both directions. *)
Theorem convert_planes_channels : forall fo dm dst sm src rs,
  numeric (fchan (bfmt dst)) -> numeric (fchan (bfmt src)) ->
  same_size (bfmt dst) (bfmt src) -> fpix (bfmt dst) <> fpix (bfmt src) ->
  bytes_ok sm -> bytes_ok dm -> fits sm src -> fits dm dst -> apart dst ->
  let cv := conv fo (fchan (bfmt src)) (fchan (bfmt dst)) false in
  (forall v, exists w, cv v = Ok w) ->
  (planar (bfmt src) (bfmt dst) ->
   exists dm', convert fo dm dst sm src rs = Ok dm' /\
     (forall k r c, in_buffer src k r c ->
        exists v, pixel_at sm src k r c = [v] /\ cv v = Ok (nth (Z.to_nat k) (pixel_at dm' dst 0 r c) 0)) /\
     (forall x, 0 <= x -> ~ covers dst x -> byte dm' x = byte dm x)) /\
  (planar (bfmt dst) (bfmt src) ->
   exists dm', convert fo dm dst sm src rs = Ok dm' /\
     (forall k r c, in_buffer dst k r c ->
        exists w, pixel_at dm' dst k r c = [w] /\ cv (nth (Z.to_nat k) (pixel_at sm src 0 r c) 0) = Ok w) /\
     (forall x, 0 <= x -> ~ covers dst x -> byte dm' x = byte dm x)).
Proof.
  intros fo dm dst sm src rs Nd Ns [S1 S2] NP BS BD FS FD AP cv TOT.
  pose proof (in_table_size _ (proj1 (numeric_table _) Nd)) as Cd.
  pose proof (in_table_size _ (proj1 (numeric_table _) Ns)) as Cs.
  assert (ONE : forall d s p v, make_plan d s false = Ok p -> fpix d = PScalar -> fpix s = PScalar ->
     fchan d = fchan (bfmt dst) -> fchan s = fchan (bfmt src) ->
     px fo p [v] = (w <- cv v ;; Ok [w])).
  { intros d s p v MP Ed Es Cd' Cs'. destruct (make_plan_ok _ _ _ _ MP) as (_ & _ & _ & _ & ->).
    unfold px, stage1, src_alpha. rewrite Ed, Es, Cd', Cs'. cbn. fold cv. destruct (cv v); reflexivity. }
  split.
  - intros (P1 & P2 & P3 & P4).
    set (dst' := as_planes dst (fplanes (bfmt src)) (csize0 (fchan (bfmt dst)))).
    assert (CE : convert fo dm dst sm src rs = convert_pixels fo dm dst' sm src false).
    { unfold convert. cbv zeta. rewrite S1, S2, !Z.eqb_refl. cbn [andb].
      destruct (pfeqb_spec (fpix (bfmt dst)) (fpix (bfmt src))) as [|_]; [contradiction|].
      rewrite P1, P2. unfold pfeqb at 1. destruct (pformat_eq_dec PScalar PScalar); [|congruence].
      rewrite Z.eqb_refl. cbn [andb]. unfold nchan, csize.
      apply Z.ltb_lt in P4. rewrite P4. cbn [bind]. rewrite P3, Z.eqb_refl.
      apply Z.ltb_lt in Cd. rewrite Cd. cbn [bind]. rewrite <- P3. reflexivity. }
    rewrite CE.
    destruct (make_plan_total (bfmt dst') (bfmt src) false) as [p MP];
      [rewrite P1; cbn; lia|cbn; lia|apply numeric_table; auto|apply numeric_table; auto|].
    assert (G : good p).
    { destruct (make_plan_ok _ _ _ _ MP) as (H1 & H2 & T1 & T2 & ->).
      unfold good. cbn [sct dct sn dn]. rewrite P1. cbn in T2 |- *. repeat split; auto; lia. }
    destruct (convert_pixels_spec fo dm dst' sm src false p MP G) as [R1 _]; auto.
    { apply as_planes_fits; auto. }
    { apply as_planes_apart; auto. }
    assert (PX : forall k r c, exists v, pixel_at sm src k r c = [v]).
    { intros. unfold pixel_at. rewrite P1. cbn [nchan0]. change (zrange 0 1) with [0]. cbn [map]. eauto. }
    destruct R1 as (dm' & E & L & B & V & U).
    { intros k r c I. destruct (PX k r c) as [v ->].
      rewrite (ONE _ _ _ v MP); auto. destruct (TOT v) as [w ->]. cbn. eauto. }
    exists dm'. split; auto. split.
    + intros k r c I. specialize (V k r c I). destruct (PX k r c) as [v Ev]. exists v. split; auto.
      rewrite Ev, (ONE _ _ _ v MP) in V; auto. unfold dst' in V.
      rewrite as_planes_pixel in V by (auto; unfold in_buffer in I; lia).
      destruct (cv v); cbn [bind] in V; congruence.
    + intros x Hx N. apply U; auto. intros C. apply N. eapply as_planes_covers; eauto.
  - intros (P1 & P2 & P3 & P4).
    set (src' := as_planes src (fplanes (bfmt dst)) (csize0 (fchan (bfmt src)))).
    assert (CE : convert fo dm dst sm src rs = convert_pixels fo dm dst sm src' false).
    { unfold convert. cbv zeta. rewrite S1, S2, !Z.eqb_refl. cbn [andb].
      destruct (pfeqb_spec (fpix (bfmt dst)) (fpix (bfmt src))) as [|_]; [contradiction|].
      destruct (pfeqb_spec (fpix (bfmt src)) PScalar) as [E|_]; [congruence|]. cbn [andb bind].
      rewrite P1, P2. unfold pfeqb. destruct (pformat_eq_dec PScalar PScalar); [|congruence].
      rewrite Z.eqb_refl. cbn [andb]. unfold nchan, csize.
      apply Z.ltb_lt in P4. rewrite P4. cbn [bind]. rewrite P3, Z.eqb_refl.
      apply Z.ltb_lt in Cs. rewrite Cs. cbn [bind]. rewrite <- P3. reflexivity. }
    rewrite CE.
    destruct (make_plan_total (bfmt dst) (bfmt src') false) as [p MP];
      [cbn; lia|rewrite P1; cbn; lia|apply numeric_table; auto|apply numeric_table; auto|].
    assert (G : good p).
    { destruct (make_plan_ok _ _ _ _ MP) as (H1 & H2 & T1 & T2 & ->).
      unfold good. cbn [sct dct sn dn]. rewrite P1. cbn in T1 |- *. repeat split; auto; lia. }
    destruct (convert_pixels_spec fo dm dst sm src' false p MP G) as [R1 _]; auto.
    { apply as_planes_fits; auto. }
    assert (IBE : forall k r c, in_buffer src' k r c <-> in_buffer dst k r c).
    { intros. unfold in_buffer, src'. cbn [as_planes bfmt fplanes frows fcols]. rewrite S1, S2. tauto. }
    assert (PX : forall k r c, in_buffer dst k r c -> pixel_at sm src' k r c = [nth (Z.to_nat k) (pixel_at sm src 0 r c) 0]).
    { intros k r c I. unfold src'. apply as_planes_pixel; auto. unfold in_buffer in I. lia. }
    destruct R1 as (dm' & E & L & B & V & U).
    { intros k r c I. apply IBE in I. rewrite PX by auto.
      rewrite (ONE _ _ _ _ MP); auto.
      destruct (TOT (nth (Z.to_nat k) (pixel_at sm src 0 r c) 0)) as [w ->]. cbn. eauto. }
    exists dm'. split; auto. split; auto.
    intros k r c I. apply IBE in I as I'. specialize (V k r c I'). rewrite PX in V by auto.
    rewrite (ONE _ _ _ _ MP) in V; auto.
    destruct (TOT (nth (Z.to_nat k) (pixel_at sm src 0 r c) 0)) as [w Ew]. rewrite Ew in *. cbn [bind] in V.
    exists w. split; congruence.
Qed.

Lemma nt_bind {A B} (m : res A) (f : A -> res B) : ~ throws m -> (forall x, ~ throws (f x)) -> ~ throws (bind m f).
Proof.
  intros H K [e E]. destruct m as [x|x|x]; cbn [bind] in E.
  - apply (K x). exists e; auto.
  - apply H. exists x; auto.
  - discriminate.
Qed.
Lemma nt_ok {A} (x : A) : ~ throws (Ok x).
Proof. intros [e E]; discriminate. Qed.
Lemma nt_ub {A} u : ~ throws (UB u : res A).
Proof. intros [e E]; discriminate. Qed.
Lemma nt_loop {S} (f : Z -> S -> res S) n : (forall i s, ~ throws (f i s)) -> forall i s, ~ throws (loop n i f s).
Proof. intros H. induction n; intros i s; cbn [loop]; [apply nt_ok|]. apply nt_bind; auto. Qed.
Lemma nt_for_up {S} (f : Z -> S -> res S) a b s : (forall i s, ~ throws (f i s)) -> ~ throws (for_up a b f s).
Proof. intros. apply nt_loop; auto. Qed.
Lemma nt_mapM f l : (forall x, ~ throws (f x)) -> ~ throws (mapM f l).
Proof. intros H. induction l; cbn [mapM]; [apply nt_ok|]. apply nt_bind; auto. intros. apply nt_bind; auto. intros; apply nt_ok. Qed.

Lemma nt_convert_pixels fo dm dst sm src rs p : quiet fo ->
  make_plan (bfmt dst) (bfmt src) rs = Ok p -> ~ throws (convert_pixels fo dm dst sm src rs).
Proof.
  intros Q MP. unfold convert_pixels. rewrite MP. cbn [bind].
  assert (LD : forall t m a, ~ throws (load t m a)).
  { intros. unfold load. destruct (in_mem m a (csize0 t)); [apply nt_ok|apply nt_ub]. }
  assert (ST : forall t m a v, ~ throws (store t m a v)).
  { intros. unfold store. destruct (in_mem m a (csize0 t)); [apply nt_ok|apply nt_ub]. }
  assert (LA : forall t m a n, ~ throws (load_all t m a n)) by (intros; apply nt_mapM; auto).
  assert (SA : forall t l m a, ~ throws (store_all t m a l)).
  { induction l; intros; cbn [store_all]; [apply nt_ok|]. apply nt_bind; auto. }
  assert (TI : forall t v, ~ throws (to_int t v)).
  { intros. unfold to_int. destruct (_ && _); [apply nt_ok|apply nt_ub]. }
  assert (MU : forall t v a, ~ throws (mul1 fo t v a)).
  { intros. unfold mul1. destruct (narrow t); auto. apply nt_bind; [|intros; apply nt_ok].
    intros [e E]. destruct (Q e) as (_ & Q2 & _). eapply Q2; eauto. }
  assert (DV : forall t v a, ~ throws (div1 fo t v a)).
  { intros. unfold div1. destruct (narrow t).
    - destruct (a =? 0); [apply nt_ub|auto].
    - apply nt_bind; [|intros; apply nt_ok]. intros [e E]. destruct (Q e) as (_ & _ & Q3). eapply Q3; eauto. }
  assert (CV : forall s d r v, ~ throws (conv fo s d r v)).
  { intros. unfold conv.
    assert (F : ~ throws (if cteqb s d then Ok v else w <- f_conv fo s d r v;; Ok (norm d w))).
    { destruct (cteqb s d); [apply nt_ok|]. apply nt_bind; [|intros; apply nt_ok].
      intros [e E]. destruct (Q e) as (Q1 & _). eapply Q1; eauto. }
    destruct (int_type s); auto. destruct (int_type d); auto.
    destruct (r && cteqb s CU16 && cteqb d CU8); [apply nt_ok|].
    destruct (r && cteqb s CU8 && cteqb d CU16); apply nt_ok. }
  assert (AV : forall t l, ~ throws (average fo t l)).
  { intros. unfold average. destruct (int_type t); [|apply nt_ok]. cbv zeta.
    apply nt_bind.
    - assert (K : forall m : res Z, ~ throws m -> ~ throws (fold_left (fun m x => s <- m ;;
        match t with
        | CU64 => Ok (wrap_i64 (s + x))
        | CI64 => if i64_ok (s + x) then Ok (s + x) else UB Overflow
        | _ => Ok (s + x)
        end) l m)).
      { induction l; intros m H; cbn [fold_left]; auto. apply IHl. apply nt_bind; auto.
        intros s. destruct t; try apply nt_ok. destruct (i64_ok (s + a)); [apply nt_ok|apply nt_ub]. }
      apply K. apply nt_ok.
    - intros s. apply nt_bind; [|intros; apply nt_ok]. unfold cdiv.
      destruct (_ =? 0); [apply nt_ub|apply nt_ok]. }
  assert (PM : forall t xs, ~ throws (premultiply fo t xs)).
  { intros. unfold premultiply. apply nt_bind; [apply nt_mapM; auto|intros; apply nt_ok]. }
  assert (UM : forall t xs, ~ throws (unpremultiply fo t xs)).
  { intros. unfold unpremultiply. apply nt_bind; [apply nt_mapM; auto|intros; apply nt_ok]. }
  apply nt_for_up; intros k s1. apply nt_for_up; intros r s2. apply nt_for_up; intros c s3.
  unfold pixel. cbv zeta. apply nt_bind.
  { destruct (unpre_src p); [|destruct (pre_src p)].
    - apply nt_bind; auto. intros; apply nt_bind; auto; intros; apply nt_ok.
    - apply nt_bind; auto. intros; apply nt_bind; auto; intros; apply nt_ok.
    - apply nt_ok. }
  intros buf. set (get := fun ch => match buf with Some l => Ok (nth (Z.to_nat ch) l 0)
                | None => load (sct p) sm (bdata src + k * bps src + r * brs src + c * bcs src + ch * csize0 (sct p)) end).
  assert (GT : forall ch, ~ throws (get ch)).
  { intros ch. unfold get. destruct buf; auto. apply nt_ok. }
  apply nt_bind.
  { apply nt_for_up. intros i s. apply (nt_bind (get i)); auto. intros; apply nt_bind; auto. }
  intros m1. apply nt_bind.
  { destruct (_ && _).
    - apply (nt_bind (get 0)); auto; intros. apply nt_bind; auto; intros. apply nt_bind; auto; intros.
      apply (nt_bind (get 0)); auto; intros. apply nt_bind; auto.
    - destruct (_ && _); [|apply nt_ok].
      apply (nt_bind (get 0)); auto; intros. apply nt_bind; auto; intros.
      apply (nt_bind (get 1)); auto; intros. apply nt_bind; auto; intros.
      apply (nt_bind (get 2)); auto; intros. apply nt_bind; auto; intros.
      apply nt_bind; auto. }
  intros m2. apply nt_bind.
  { destruct (_ && _ && _).
    - apply (nt_bind (get (sn p - 1))); auto; intros. apply nt_bind; auto.
    - destruct (_ && _); [auto|apply nt_ok]. }
  intros m3. destruct (pre_dst p); [|apply nt_ok].
  apply nt_bind; auto; intros. apply nt_bind; auto.
Qed.

(* C55.  can_convert tells exactly which conversions are refused. *)
Theorem can_convert_exact : forall d s,
  can_convert d s = Ok tt <->
  same_size d s /\ numeric (fchan d) /\ numeric (fchan s) /\
  (compatible (fpix d) (fpix s) \/ planar s d \/ planar d s).
Proof.
  intros d s. unfold can_convert, same_size. cbv zeta. rewrite !numeric_table, accepted_spec.
  set (tab := if in_table (fchan s) && in_table (fchan d) then Ok tt else Throw NoImplErr).
  assert (TB : tab = Ok tt <-> in_table (fchan d) = true /\ in_table (fchan s) = true).
  { unfold tab. destruct (in_table (fchan s)), (in_table (fchan d)); cbn [andb]; split; intros; try discriminate; try tauto; destruct H; discriminate. }
  clearbody tab.
  destruct (Z.eqb_spec (fcols d) (fcols s)) as [E1|E1]; cbn [andb]; [|split; [discriminate|tauto]].
  destruct (Z.eqb_spec (frows d) (frows s)) as [E2|E2]; [|split; [discriminate|tauto]].
  destruct (pfeqb_spec (fpix d) (fpix s)) as [E3|E3]; [tauto|].
  unfold planar, nchan.
  destruct (pfeqb_spec (fpix s) PScalar) as [E4|E4]; cbn [andb].
  - assert (A : accepted (fpix d) (fpix s) = false).
    { destruct (accepted (fpix d) (fpix s)) eqn:A; auto. apply accepted_channels in A. tauto. }
    assert (E5 : fpix d <> PScalar) by congruence.
    rewrite A. destruct (pfeqb_spec (fpix d) PScalar) as [|_]; [contradiction|]. cbn [andb].
    destruct (Z.eqb_spec (fplanes d) 1) as [E6|E6]; cbn [bind].
    + destruct (Z.ltb_spec 0 (nchan0 (fpix d))) as [E7|E7]; cbn [bind].
      * destruct (Z.eqb_spec (fplanes s) (nchan0 (fpix d))) as [E8|E8]; cbn [bind]; [tauto|].
        split; [discriminate|]. intros (_ & _ & _ & [[H|H]|[H|H]]); try tauto; discriminate.
      * split; [discriminate|]. intros (_ & _ & _ & [[H|H]|[H|H]]); try tauto; try discriminate; lia.
    + split; [discriminate|]. intros (_ & _ & _ & [[H|H]|[H|H]]); try tauto; discriminate.
  - cbn [bind]. destruct (pfeqb_spec (fpix d) PScalar) as [E5|E5]; cbn [andb].
    + assert (A : accepted (fpix d) (fpix s) = false).
      { destruct (accepted (fpix d) (fpix s)) eqn:A; auto. apply accepted_channels in A. tauto. }
      rewrite A.
      destruct (Z.eqb_spec (fplanes s) 1) as [E6|E6]; cbn [bind].
      * destruct (Z.ltb_spec 0 (nchan0 (fpix s))) as [E7|E7]; cbn [bind].
        -- destruct (Z.eqb_spec (fplanes d) (nchan0 (fpix s))) as [E8|E8]; cbn [bind]; [tauto|].
           split; [discriminate|]. intros (_ & _ & _ & [[H|H]|[H|H]]); try tauto; discriminate.
        -- split; [discriminate|]. intros (_ & _ & _ & [[H|H]|[H|H]]); try tauto; try discriminate; lia.
      * split; [discriminate|]. intros (_ & _ & _ & [[H|H]|[H|H]]); try tauto; discriminate.
    + cbn [bind]. destruct (accepted (fpix d) (fpix s)).
      * tauto.
      * split; [discriminate|]. intros (_ & _ & _ & [[H|H]|[H|H]]); try tauto; discriminate.
Qed.
Theorem can_convert_agrees : forall fo dm dst sm src rs, quiet fo -> 0 < nchan0 (fpix (bfmt src)) ->
  (throws (convert fo dm dst sm src rs) <-> throws (can_convert (bfmt dst) (bfmt src))).
Proof.
  intros fo dm dst sm src rs Q K.
  assert (OKC : can_convert (bfmt dst) (bfmt src) = Ok tt \/ throws (can_convert (bfmt dst) (bfmt src))).
  { unfold can_convert, throws, nchan. cbv zeta.
    repeat match goal with |- context [if ?b then _ else _] => destruct b; cbn [bind] end; eauto. }
  split.
  - intros T. destruct OKC as [O|]; auto. exfalso. revert T.
    apply can_convert_exact in O as (SZ & Nd & Ns & C). pose proof SZ as [S1 S2].
    destruct C as [C|[C|C]].
    + rewrite convert_direct by auto. destruct (compatible_channels _ _ C K) as [KD _].
      destruct (make_plan_total (bfmt dst) (bfmt src) rs K KD) as [p MP];
        [apply numeric_table; auto|apply numeric_table; auto|].
      eapply nt_convert_pixels; eauto.
    + destruct C as (P1 & P2 & P3 & P4).
      pose proof (in_table_size _ (proj1 (numeric_table _) Nd)) as Cd.
      unfold convert. cbv zeta. rewrite S1, S2, !Z.eqb_refl. cbn [andb].
      destruct (pfeqb_spec (fpix (bfmt dst)) (fpix (bfmt src))) as [E|NE].
      * destruct (make_plan_total (bfmt dst) (bfmt src) rs K ltac:(rewrite E; auto)) as [p MP];
          [apply numeric_table; auto|apply numeric_table; auto|].
        eapply nt_convert_pixels; eauto.
      * rewrite P1, P2. unfold pfeqb at 1. destruct (pformat_eq_dec PScalar PScalar); [|congruence].
        rewrite Z.eqb_refl. cbn [andb]. unfold nchan, csize.
        apply Z.ltb_lt in P4. rewrite P4. cbn [bind]. rewrite P3, Z.eqb_refl.
        apply Z.ltb_lt in Cd. rewrite Cd. cbn [bind].
        destruct (make_plan_total (bfmt (as_planes dst (nchan0 (fpix (bfmt dst))) (csize0 (fchan (bfmt dst))))) (bfmt src) false) as [p MP];
          [auto|cbn; lia|apply numeric_table; auto|apply numeric_table; auto|].
        eapply nt_convert_pixels; eauto.
    + destruct C as (P1 & P2 & P3 & P4).
      pose proof (in_table_size _ (proj1 (numeric_table _) Ns)) as Cs.
      unfold convert. cbv zeta. rewrite S1, S2, !Z.eqb_refl. cbn [andb].
      destruct (pfeqb_spec (fpix (bfmt dst)) (fpix (bfmt src))) as [E|NE].
      * destruct (make_plan_total (bfmt dst) (bfmt src) rs K ltac:(rewrite E; auto)) as [p MP];
          [apply numeric_table; auto|apply numeric_table; auto|].
        eapply nt_convert_pixels; eauto.
      * destruct (pfeqb_spec (fpix (bfmt src)) PScalar) as [E|_]; [congruence|]. cbn [andb bind].
        rewrite P1, P2. unfold pfeqb. destruct (pformat_eq_dec PScalar PScalar); [|congruence].
        rewrite Z.eqb_refl. cbn [andb]. unfold nchan, csize.
        apply Z.ltb_lt in P4. rewrite P4. cbn [bind]. rewrite P3, Z.eqb_refl.
        apply Z.ltb_lt in Cs. rewrite Cs. cbn [bind].
        destruct (make_plan_total (bfmt dst) (bfmt (as_planes src (nchan0 (fpix (bfmt src))) (csize0 (fchan (bfmt src))))) false) as [p MP];
          [cbn; lia|rewrite P1; cbn; lia|apply numeric_table; auto|apply numeric_table; auto|].
        eapply nt_convert_pixels; eauto.
  - intros [e T]. unfold can_convert in T. cbv zeta in T. unfold convert. cbv zeta.
    assert (TBL : forall d s sm' dm' r, (in_table (fchan (bfmt s)) && in_table (fchan (bfmt d)) = false) ->
      throws (convert_pixels fo dm' d sm' s r)).
    { intros d s sm' dm' r F. unfold convert_pixels, make_plan, nchan, csize, throws.
      destruct (0 <? nchan0 (fpix (bfmt s))); cbn [bind]; eauto.
      destruct (0 <? nchan0 (fpix (bfmt d))); cbn [bind]; eauto.
      destruct (0 <? csize0 (fchan (bfmt s))); cbn [bind]; eauto.
      destruct (0 <? csize0 (fchan (bfmt d))); cbn [bind]; eauto.
      rewrite F. cbn [bind]. eauto. }
    destruct (_ && _); [|eexists; reflexivity].
    destruct (in_table (fchan (bfmt src)) && in_table (fchan (bfmt dst))) eqn:TB.
    + destruct (pfeqb (fpix (bfmt dst)) (fpix (bfmt src))); [discriminate|].
      destruct (if pfeqb (fpix (bfmt src)) PScalar && (fplanes (bfmt dst) =? 1) then _ else _) as [[|]|?|?];
        cbn [bind] in *; try discriminate; [|eexists; reflexivity].
      destruct (if pfeqb (fpix (bfmt dst)) PScalar && (fplanes (bfmt src) =? 1) then _ else _) as [[|]|?|?];
        cbn [bind] in *; try discriminate; [|eexists; reflexivity].
      destruct (accepted (fpix (bfmt dst)) (fpix (bfmt src))); [discriminate|]. eexists; reflexivity.
    + destruct (pfeqb (fpix (bfmt dst)) (fpix (bfmt src))); [apply TBL; auto|].
      destruct (if pfeqb (fpix (bfmt src)) PScalar && (fplanes (bfmt dst) =? 1) then _ else _) as [[|]|?|?];
        cbn [bind] in *; try discriminate; [| |eexists; reflexivity].
      * unfold csize. destruct (0 <? csize0 (fchan (bfmt dst))); cbn [bind]; [apply TBL; auto|eexists; reflexivity].
      * destruct (if pfeqb (fpix (bfmt dst)) PScalar && (fplanes (bfmt src) =? 1) then _ else _) as [[|]|?|?];
          cbn [bind] in *; try discriminate; [| |eexists; reflexivity].
        -- unfold csize. destruct (0 <? csize0 (fchan (bfmt src))); cbn [bind]; [apply TBL; auto|eexists; reflexivity].
        -- destruct (accepted (fpix (bfmt dst)) (fpix (bfmt src))); [apply TBL; auto|eexists; reflexivity].
Qed.

Lemma recolored_same fo d s rs xs : Z.of_nat (length xs) = nchan0 (fpix d) ->
  recolor (conv fo (fchan s) (fchan d) rs) (average fo (fchan d)) (set_max (fchan d)) xs (nchan0 (fpix d)) =
  mapM (conv fo (fchan s) (fchan d) rs) xs.
Proof. intros. apply recolor_same; auto. Qed.

(* C55.  Storing integer channels in a wider type, or 8-bit channels scaled
   to 16 bits, and converting back loses nothing. *)
Theorem convert_back : forall fo mm mid sm src bm back rs, direct mm mid sm src ->
  fpix (bfmt mid) = fpix (bfmt src) -> fpre (bfmt mid) = fpre (bfmt src) ->
  integral (fchan (bfmt mid)) -> integral (fchan (bfmt src)) ->
  (rs = false /\ csize0 (fchan (bfmt src)) <= csize0 (fchan (bfmt mid)) \/
   fchan (bfmt src) = CU8 /\ fchan (bfmt mid) = CU16) ->
  bfmt back = bfmt src -> bytes_ok bm -> fits bm back -> apart back ->
  exists mm' bm', convert fo mm mid sm src rs = Ok mm' /\ convert fo bm back mm' mid rs = Ok bm' /\
    forall k r c, in_buffer src k r c -> pixel_at bm' back k r c = pixel_at sm src k r c.
Proof.
  intros fo mm mid sm src bm back rs D EP EF Im Is W EB BB FB AB.
  apply there_and_back; auto; try (right; right; rewrite EP; tauto).
  intros k r c I.
  pose proof (pixel_okv sm src k r c (di_sm _ _ _ _ D) (di_fs _ _ _ _ D) I) as V. rewrite Forall_forall in V.
  set (xs := pixel_at sm src k r c) in *.
  assert (LX : Z.of_nat (length xs) = nchan0 (fpix (bfmt src))).
  { unfold xs. rewrite pixel_length, Z2Nat.id; auto. apply nchan0_nonneg. }
  destruct (mapM_back_ok (conv fo (fchan (bfmt src)) (fchan (bfmt mid)) rs)
    (conv fo (fchan (bfmt mid)) (fchan (bfmt src)) rs) xs) as (ys & Y1 & Y2).
  { intros x Ix. specialize (V x Ix). destruct rs.
    - destruct W as [[W _]|[W1 W2]]; [discriminate|]. rewrite W1, W2 in *.
      apply in_range_okv in V; auto.
      destruct (channel_conversion fo CU8 CU16 x Is Im) as (_ & _ & C1 & _ & _). exists (257 * x). split; [auto|].
      destruct (channel_conversion fo CU16 CU8 (257 * x) Im Is) as (_ & _ & _ & C2 & _). rewrite C2.
      + f_equal. rewrite Z.mul_comm. apply Z.div_mul. discriminate.
      + unfold in_range in *. change (2 ^ (8 * csize0 CU8)) with 256 in V.
        change (2 ^ (8 * csize0 CU16)) with 65536. lia.
    - rewrite conv_cast by auto. eexists. split; [reflexivity|]. rewrite conv_cast by auto. f_equal.
      rewrite norm_narrow; auto. destruct W as [[_ W]|[-> ->]]; auto. discriminate. }
  pose proof (mapM_length _ _ _ Y1) as LY.
  assert (R1 : recolor (conv fo (fchan (bfmt src)) (fchan (bfmt mid)) rs) (average fo (fchan (bfmt mid)))
      (set_max (fchan (bfmt mid))) xs (nchan0 (fpix (bfmt mid))) = Ok ys)
    by (rewrite recolored_same; [auto|congruence]).
  assert (R2 : recolor (conv fo (fchan (bfmt mid)) (fchan (bfmt src)) rs) (average fo (fchan (bfmt src)))
      (set_max (fchan (bfmt src))) ys (nchan0 (fpix (bfmt src))) = Ok xs)
    by (rewrite recolored_same; [auto|congruence]).
  exists ys. unfold converted. cbv zeta. rewrite EP in *. rewrite EF in *.
  destruct (has_alpha (fpix (bfmt src))); auto. destruct (fpre (bfmt src)); auto.
Qed.

(* C55.  8- and 16-bit pixels whose colours are premultiplied by a non-zero
   alpha come back unchanged from a buffer without premultiplication. *)
Theorem premultiply_back : forall fo mm mid sm src bm back rs, direct mm mid sm src ->
  fpix (bfmt src) = PGrayA \/ fpix (bfmt src) = PRGBA ->
  fchan (bfmt src) = CU8 \/ fchan (bfmt src) = CU16 ->
  fpix (bfmt mid) = fpix (bfmt src) -> fchan (bfmt mid) = fchan (bfmt src) ->
  fpre (bfmt src) = true -> fpre (bfmt mid) = false ->
  bfmt back = bfmt src -> bytes_ok bm -> fits bm back -> apart back ->
  (forall k r c, in_buffer src k r c ->
     let xs := pixel_at sm src k r c in
     0 < last xs 0 /\ Forall (fun x => x <= last xs 0) xs) ->
  exists mm' bm', convert fo mm mid sm src rs = Ok mm' /\ convert fo bm back mm' mid rs = Ok bm' /\
    forall k r c, in_buffer src k r c -> pixel_at bm' back k r c = pixel_at sm src k r c.
Proof.
  intros fo mm mid sm src bm back rs D P T EP ET F1 F2 EB BB FB AB HX.
  apply there_and_back; auto; try (right; right; rewrite EP; tauto).
  intros k r c I. specialize (HX k r c I). cbv zeta in HX.
  pose proof (pixel_okv sm src k r c (di_sm _ _ _ _ D) (di_fs _ _ _ _ D) I) as V.
  set (xs := pixel_at sm src k r c) in *. destruct HX as [H1 H2].
  assert (LX : Z.of_nat (length xs) = nchan0 (fpix (bfmt src))).
  { unfold xs. rewrite pixel_length, Z2Nat.id; auto. apply nchan0_nonneg. }
  assert (NX : xs <> []).
  { intros E. rewrite E in LX. destruct P as [E2|E2]; rewrite E2 in LX; discriminate. }
  set (t := fchan (bfmt src)) in *.
  assert (IT : integral t) by (destruct T as [-> | ->]; repeat split; try constructor; discriminate).
  assert (RG : forall x, In x xs -> 0 <= x <= int_max t).
  { intros x Ix. rewrite Forall_forall in V. specialize (V x Ix). apply in_range_okv in V; auto.
    unfold in_range in V. destruct T as [E|E]; rewrite E in *; cbn in V |- *; unfold int_max; cbn; lia. }
  destruct (alpha_back fo t xs T NX) as (ys & Y1 & Y2 & LY & OY).
  { split; auto. apply RG, last_In; auto. }
  { apply Forall_forall. intros x Ix. apply removelast_In in Ix. rewrite Forall_forall in H2.
    split; [apply RG; auto|apply H2; auto]. }
  exists ys. unfold converted. cbv zeta. rewrite EP, ET, F1, F2. fold t.
  assert (HA : has_alpha (fpix (bfmt src)) = true) by (destruct P as [-> | ->]; reflexivity).
  rewrite HA, Y1. cbn [bind].
  assert (RC : forall n, Z.of_nat (length ys) = n ->
    recolor (conv fo t t rs) (average fo t) (set_max t) ys n = Ok ys).
  { intros n Hn. rewrite recolor_same by auto. apply mapM_id. intros x Ix.
    apply conv_same; [|apply IT]. rewrite Forall_forall in OY. auto. }
  rewrite RC by congruence. cbn [bind]. split; [reflexivity|exact Y2].
Qed.

(* C55.  Writing to a box of a buffer replaces the pixels in the box by the
   conversions of those of the argument and leaves the others unchanged. *)
Theorem buffer_write_box : forall fo m self bm buf x y w h,
  0 <= w < 2 ^ 32 -> 0 <= h < 2 ^ 32 -> 0 <= x -> 0 <= y ->
  x + w <= fcols (bfmt self) -> y + h <= frows (bfmt self) ->
  fcols (bfmt buf) = w -> frows (bfmt buf) = h -> fplanes (bfmt buf) = fplanes (bfmt self) ->
  compatible (fpix (bfmt self)) (fpix (bfmt buf)) -> 0 < nchan0 (fpix (bfmt buf)) ->
  numeric (fchan (bfmt self)) -> numeric (fchan (bfmt buf)) ->
  bytes_ok m -> bytes_ok bm -> fits m self -> fits bm buf -> apart self ->
  alpha_tested (bfmt self) (bfmt buf) ->
  (forall k r c, in_buffer buf k r c ->
     exists ys, converted fo (bfmt self) (bfmt buf) false (pixel_at bm buf k r c) = Ok ys) ->
  exists m', write fo m self bm buf x y w h = Ok m' /\
    (forall k r c, in_buffer buf k r c ->
       converted fo (bfmt self) (bfmt buf) false (pixel_at bm buf k r c) =
       Ok (pixel_at m' self k (y + r) (x + c))) /\
    (forall k r c, in_buffer self k r c -> ~ (x <= c < x + w /\ y <= r < y + h) ->
       pixel_at m' self k r c = pixel_at m self k r c).
Proof.
  intros fo m self bm buf x y w h W H X Y XW YH EC ER EP CP KN NS NB BM BB FM FB AP AT HC.
  assert (SZ : same_size (bfmt (cropped self x y w h)) (bfmt buf)).
  { unfold same_size. cbn [cropped bfmt fcols frows]. change (2 ^ 32) with 4294967296 in *.
    rewrite !wrap_u32_id by lia. auto. }
  assert (D : direct m (cropped self x y w h) bm buf)
    by (constructor; auto using cropped_fits, cropped_apart).
  assert (AT' : alpha_tested (bfmt (cropped self x y w h)) (bfmt buf)) by exact AT.
  destruct (direct_spec fo _ _ _ _ false D AT') as [R _].
  destruct R as (m' & E & L & B & V & U); [exact HC|].
  exists m'. split; [exact E|]. split.
  - intros k r c I. specialize (V k r c I). rewrite cropped_pixel in V.
    rewrite (Z.add_comm y), (Z.add_comm x). exact V.
  - intros k r c I N. apply pixel_same; [|apply FM; auto].
    intros i Hi. apply U; [pose proof (FM k r c I); lia|].
    apply cropped_outside; auto.
Qed.
(* C55.  Reading a box of a buffer. *)
Theorem buffer_read_box : forall fo m self bm buf x y w h,
  0 <= w < 2 ^ 32 -> 0 <= h < 2 ^ 32 -> 0 <= x -> 0 <= y ->
  x + w <= fcols (bfmt self) -> y + h <= frows (bfmt self) ->
  fcols (bfmt buf) = w -> frows (bfmt buf) = h -> fplanes (bfmt buf) = fplanes (bfmt self) ->
  compatible (fpix (bfmt buf)) (fpix (bfmt self)) -> 0 < nchan0 (fpix (bfmt self)) ->
  numeric (fchan (bfmt self)) -> numeric (fchan (bfmt buf)) ->
  bytes_ok m -> bytes_ok bm -> fits m self -> fits bm buf -> apart buf ->
  alpha_tested (bfmt buf) (bfmt self) ->
  (forall k r c, in_buffer buf k r c ->
     exists ys, converted fo (bfmt buf) (bfmt self) false (pixel_at m self k (y + r) (x + c)) = Ok ys) ->
  exists bm', read fo m self bm buf x y w h = Ok bm' /\
    forall k r c, in_buffer buf k r c ->
      converted fo (bfmt buf) (bfmt self) false (pixel_at m self k (y + r) (x + c)) =
      Ok (pixel_at bm' buf k r c).
Proof.
  intros fo m self bm buf x y w h W H X Y XW YH EC ER EP CP KN NS NB BM BB FM FB AP AT HC.
  assert (SZ : same_size (bfmt buf) (bfmt (cropped self x y w h))).
  { unfold same_size. cbn [cropped bfmt fcols frows]. change (2 ^ 32) with 4294967296 in *.
    rewrite !wrap_u32_id by lia. auto. }
  assert (D : direct bm buf m (cropped self x y w h))
    by (constructor; auto using cropped_fits).
  assert (AT' : alpha_tested (bfmt buf) (bfmt (cropped self x y w h))) by exact AT.
  assert (IB : forall k r c, in_buffer (cropped self x y w h) k r c <-> in_buffer buf k r c).
  { intros. rewrite cropped_in by auto. unfold in_buffer. rewrite EC, ER, EP. tauto. }
  destruct (direct_spec fo _ _ _ _ false D AT') as [R _].
  destruct R as (bm' & E & L & B & V & U).
  { intros k r c I. rewrite IB in I. rewrite cropped_pixel, (Z.add_comm r), (Z.add_comm c). apply HC; auto. }
  exists bm'. split; [exact E|]. intros k r c I. rewrite <- IB in I. specialize (V k r c I).
  rewrite cropped_pixel in V. rewrite (Z.add_comm y), (Z.add_comm x). exact V.
Qed.

(* C55.  A buffer made from a format and a pointer uses every byte of a
   contiguous block once. *)
Theorem buffer_contiguous : forall f o, 0 <= o -> 0 <= fcols f -> 0 <= frows f -> 0 <= fplanes f ->
  let total := fplanes f * frows f * fcols f * (nchan0 (fpix f) * csize0 (fchan f)) in
  (0 < nchan0 (fpix f) /\ 0 < csize0 (fchan f) ->
   exists b, buffer_of f o = Ok b /\ bfmt b = f /\
     (forall a, covers b a <-> o <= a < o + total) /\ apart b /\
     (forall m, o + total <= Z.of_nat (length m) -> fits m b)) /\
  (~ (0 < nchan0 (fpix f) /\ 0 < csize0 (fchan f)) -> buffer_of f o = Throw ArgumentErr).
Proof.
  intros f o O C R P total. split.
  - intros [N S]. assert (E : exists b, buffer_of f o = Ok b /\ bfmt b = f).
    { unfold buffer_of, csize, nchan. apply Z.ltb_lt in N, S. rewrite N, S. cbn [bind]. eauto. }
    destruct E as (b & E & EF). exists b. split; auto. split; auto.
    destruct (layout [] f o b E O C R P) as (H1 & H2 & _). split; auto. split; auto.
    intros m. apply (layout m f o b E O C R P).
  - intros N. unfold buffer_of, csize, nchan.
    destruct (Z.ltb_spec 0 (csize0 (fchan f))); cbn [bind]; auto.
    destruct (Z.ltb_spec 0 (nchan0 (fpix f))); cbn [bind]; auto. tauto.
Qed.

(* C55, refuted.  An alpha channel is looked for in the destination format
   when the source is not gray+alpha (src_alpha, ImageResource.cc:476-477):
   premultiplied RGB pixels converted to unpremultiplied RGBA are divided by
   their blue channel, which is undefined when blue is 0. *)
Theorem rgb_blue_is_alpha_refuted :
  exists d s sm dm, direct dm d sm s /\ fpix (bfmt s) = PRGB /\ fpix (bfmt d) = PRGBA /\
    fpre (bfmt s) = true /\ fpre (bfmt d) = false /\
    (forall fo, convert fo dm d sm s false = Ok [64; 191; 40; 255] /\
                converted fo (bfmt d) (bfmt s) false [10; 30; 40] = Ok [10; 30; 40; 255] /\
                pixel_at sm s 0 0 0 = [10; 30; 40]) /\
    (forall fo, convert fo dm d [10; 20; 0] s false = UB DivByZero).
Proof.
  exists (mkbuf 0 (mkfmt 1 1 1 PRGBA CU8 false) 4 4 4), (mkbuf 0 (mkfmt 1 1 1 PRGB CU8 true) 3 3 3),
    [10; 30; 40], [0; 0; 0; 0].
  split; [|do 4 (split; [reflexivity|]); split; intros fo;
           [destruct fo as [? ? ? ? tu]; repeat split; vm_compute; destruct (tu CU8 10 40), (tu CU8 30 40); reflexivity
           |vm_compute; reflexivity]].
  constructor; cbn [bfmt fpix fchan fplanes]; try (constructor; fail); try reflexivity.
  - apply comp_colour; constructor.
  - split; reflexivity.
  - repeat constructor; lia.
  - repeat constructor; lia.
  - intros k r c (K & R & C). unfold addr. cbn in *. lia.
  - intros k r c (K & R & C). unfold addr. cbn in *. lia.
  - intros k r c k' r' c' (K & R & C) (K' & R' & C') NE. cbn in *. exfalso. apply NE. repeat f_equal; lia.
Qed.
(* C55, refuted.  For the same reason the alpha channel of an RGBA source is
   ignored when the destination has no alpha channel: a transparent pixel
   keeps its colour, where one of a gray+alpha source becomes black. *)
Theorem rgba_alpha_ignored_refuted :
  exists d s g, fpix (bfmt s) = PRGBA /\ fpix (bfmt g) = PGrayA /\ fpix (bfmt d) = PRGB /\
    (forall fo, convert fo [0; 0; 0] d [9; 9; 9; 0] s false = Ok [9; 9; 9]) /\
    (forall fo, convert fo [0; 0; 0] d [9; 0] g false = Ok [0; 0; 0]).
Proof.
  exists (mkbuf 0 (mkfmt 1 1 1 PRGB CU8 false) 3 3 3), (mkbuf 0 (mkfmt 1 1 1 PRGBA CU8 false) 4 4 4),
    (mkbuf 0 (mkfmt 1 1 1 PGrayA CU8 false) 2 2 2).
  repeat split; vm_compute; reflexivity.
Qed.
(* C55, refuted.  The rescale argument is not passed on when planes are
   converted to channels (ImageResource.cc:426,434): a uint16 value is cut to
   its low byte although rescaling was asked for. *)
Theorem planes_drop_rescale_refuted :
  exists d s sm, planar (bfmt s) (bfmt d) /\ fchan (bfmt s) = CU16 /\ fchan (bfmt d) = CU8 /\
    forall fo, conv fo CU16 CU8 true 1000 = Ok 3 /\ pixel_at sm s 0 0 0 = [1000] /\
      convert fo [0; 0] d sm s true = Ok [232; 232].
Proof.
  exists (mkbuf 0 (mkfmt 1 1 1 PGrayA CU8 false) 2 2 2), (mkbuf 0 (mkfmt 1 1 2 PScalar CU16 false) 2 2 2),
    [232; 3; 232; 3].
  repeat split; vm_compute; reflexivity.
Qed.
(* C55, refuted.  can_convert and convert do not compare the number of planes
   of buffers of the same pixel format: a source with more planes than the
   destination is accepted and written past its end. *)
Theorem more_planes_overrun_refuted :
  exists d s sm dm, can_convert (bfmt d) (bfmt s) = Ok tt /\ fits dm d /\ fits sm s /\ apart d /\
    fplanes (bfmt d) < fplanes (bfmt s) /\
    forall fo, convert fo dm d sm s false = UB OutOfBounds.
Proof.
  exists (mkbuf 0 (mkfmt 1 1 1 PGray CU8 false) 1 1 1), (mkbuf 0 (mkfmt 1 1 2 PGray CU8 false) 1 1 1),
    [1; 2], [0].
  split; [reflexivity|]. split; [|split; [|split; [|split]]].
  - intros k r c (K & R & C). unfold addr. cbn in *. lia.
  - intros k r c (K & R & C). unfold addr. cbn in *. lia.
  - intros k r c k' r' c' (K & R & C) (K' & R' & C') NE. cbn in *. exfalso. apply NE. repeat f_equal; lia.
  - cbn. lia.
  - intros fo. vm_compute. reflexivity.
Qed.
(* C55, refuted.  Two buffers of unknown pixel format: can_convert has no
   objection, convert throws. *)
Theorem can_convert_unknown_refuted :
  exists d s, can_convert (bfmt d) (bfmt s) = Ok tt /\
    forall fo dm sm, convert fo dm d sm s false = Throw ArgumentErr.
Proof.
  exists (mkbuf 0 (mkfmt 1 1 1 PUnknown CU8 false) 1 1 1), (mkbuf 0 (mkfmt 1 1 1 PUnknown CU8 false) 1 1 1).
  split; [reflexivity|]. intros. vm_compute. reflexivity.
Qed.
(* C55, refuted.  The mean of uint64 channels is summed in a signed 64-bit
   accumulator: three channels 2^63 average to a smaller value. *)
Theorem mean_u64_refuted :
  exists v, in_range CU64 v /\ forall fo, exists w, average fo CU64 [v; v; v] = Ok w /\ w <> v.
Proof.
  exists (2 ^ 63). split; [unfold in_range; cbn; lia|]. intros fo. eexists. split; [vm_compute; reflexivity|].
  discriminate.
Qed.

(* Cases meeting the hypotheses. *)
Definition ex_src : buffer := mkbuf 1 (mkfmt 2 2 1 PRGBA CU8 true) 4 9 18.
Definition ex_mid : buffer := mkbuf 0 (mkfmt 2 2 1 PRGBA CU8 false) 4 8 16.
Definition ex_wide : buffer := mkbuf 0 (mkfmt 2 2 1 PRGBA CU16 true) 8 16 32.
Definition ex_gray : buffer := mkbuf 3 (mkfmt 2 2 1 PGray CI32 true) 4 8 16.
Definition ex_mem : list Z := [7; 10; 20; 30; 40;  1; 2; 3; 4;  7;  255; 0; 1; 255;  0; 50; 99; 100; 7].
Ltac ex_red := unfold addr, pixel_size, ex_src, ex_mid, ex_wide, ex_gray in *;
  cbn [bdata bps brs bcs bfmt fpix fchan nchan0 csize0 fcols frows fplanes length repeat ex_mem Z.of_nat Pos.of_succ_nat Pos.succ] in *.
Ltac ex_direct :=
  constructor; cbn [bfmt fpix fchan fplanes ex_src ex_mid ex_wide ex_gray];
  [ first [apply comp_same; reflexivity|apply comp_colour; constructor] | reflexivity
  | first [exact n_u8|exact n_u16|exact n_i32] | first [exact n_u8|exact n_u16|exact n_i32]
  | split; reflexivity | reflexivity
  | repeat (constructor; [lia|]); constructor | repeat (constructor; [lia|]); constructor
  | intros k r c (K & R & C); ex_red; lia
  | intros k r c (K & R & C); ex_red; lia
  | intros k r c k' r' c' (K & R & C) (K' & R' & C') NE; ex_red;
    assert (k = k') by lia; subst; destruct (Z.eq_dec r r'), (Z.eq_dec c c'); subst; try congruence; lia ].
Example ex_direct_mid : direct (repeat 0 16) ex_mid ex_mem ex_src.
Proof. ex_direct. Qed.
Example ex_direct_wide : direct (repeat 0 32) ex_wide ex_mem ex_src.
Proof. ex_direct. Qed.
Example ex_direct_gray : direct (repeat 9 20) ex_gray ex_mem ex_src.
Proof. ex_direct. Qed.
Definition ex_fo : fops := mkfops (fun _ _ _ _ => Ok 0) (fun _ _ => 0) (fun _ _ _ => Ok 0) (fun _ _ _ => Ok 0) (fun _ _ _ => false).
Example ex_premultiplied : forall k r c, in_buffer ex_src k r c ->
  let xs := pixel_at ex_mem ex_src k r c in 0 < last xs 0 /\ Forall (fun x => x <= last xs 0) xs.
Proof.
  intros k r c (K & R & C). cbn in K, R, C. assert (k = 0) by lia. subst.
  assert (r = 0 \/ r = 1) as [-> | ->] by lia; assert (c = 0 \/ c = 1) as [-> | ->] by lia;
    (split; [vm_compute; reflexivity|]); vm_compute; repeat constructor; discriminate.
Qed.
Example ex_convert_mid : convert ex_fo (repeat 0 16) ex_mid ex_mem ex_src false =
  Ok [64; 127; 191; 40; 64; 127; 191; 4; 255; 0; 1; 255; 0; 127; 252; 100].
Proof. vm_compute. reflexivity. Qed.
Example ex_convert_gray : convert ex_fo (repeat 9 20) ex_gray ex_mem ex_src false =
  Ok [9; 9; 9; 20; 0; 0; 0; 2; 0; 0; 0; 85; 0; 0; 0; 49; 0; 0; 0; 9].
Proof. vm_compute. reflexivity. Qed.
Example ex_alpha_tested : alpha_tested (bfmt ex_mid) (bfmt ex_src) /\ alpha_tested (bfmt ex_gray) (bfmt ex_src).
Proof. split; [right; right; split; auto|left; split; [reflexivity|left; reflexivity]]. Qed.
Example ex_planar : planar (mkfmt 5 4 3 PScalar CI16 false) (mkfmt 5 4 1 PRGB CU8 false).
Proof. repeat split. Qed.
Example ex_quiet : quiet ex_fo.
Proof. repeat split; discriminate. Qed.

Print Assumptions format_channels.
Print Assumptions convert_pixelwise.
Print Assumptions channel_conversion.
Print Assumptions channel_mean.
Print Assumptions channel_alpha.
Print Assumptions channel_opaque.
Print Assumptions pixel_alpha.
Print Assumptions convert_exact.
Print Assumptions convert_planes_channels.
Print Assumptions can_convert_exact.
Print Assumptions can_convert_agrees.
Print Assumptions convert_back.
Print Assumptions premultiply_back.
Print Assumptions buffer_write_box.
Print Assumptions buffer_read_box.
Print Assumptions buffer_contiguous.
Print Assumptions rgb_blue_is_alpha_refuted.
Print Assumptions rgba_alpha_ignored_refuted.
Print Assumptions planes_drop_rescale_refuted.
Print Assumptions more_planes_overrun_refuted.
Print Assumptions can_convert_unknown_refuted.
Print Assumptions mean_u64_refuted.

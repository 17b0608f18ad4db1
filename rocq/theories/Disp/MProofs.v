(** Proofs about masks and ranges of disparities. *)
From Coq Require Import List ZArith QArith Qround Qabs Bool Lia Lqa.
From Verif Require Import Lib.Base Lib.Img BBox.Box2 Disp.Model Disp.Spec.
Import ListNotations.
Open Scope Q_scope.

Lemma leqP a b : reflect (a <= b) (Qle_bool a b).
Proof. apply iff_reflect. symmetry. apply Qle_bool_iff. Qed.
Lemma ltqP a b : reflect (a < b) (ltq a b).
Proof. unfold ltq. destruct (leqP b a); constructor; lra. Qed.
Lemma fl x : inject_Z (Qfloor x) <= x /\ x < inject_Z (Qfloor x) + 1.
Proof. split; [apply Qfloor_le|]. pose proof (Qlt_floor x) as H. rewrite inject_Z_plus in H. exact H. Qed.
Lemma ce x : inject_Z (Qceiling x) - 1 < x /\ x <= inject_Z (Qceiling x).
Proof.
  unfold Qceiling. pose proof (fl (- x)) as H. rewrite inject_Z_opp. set (n := inject_Z (Qfloor (- x))) in *. clearbody n. lra.
Qed.
Lemma inj_le a b : inject_Z a <= inject_Z b <-> (a <= b)%Z.
Proof. rewrite Zle_Qle. reflexivity. Qed.
Lemma inj_lt a b : inject_Z a < inject_Z b <-> (a < b)%Z.
Proof. rewrite Zlt_Qlt. reflexivity. Qed.
Lemma fl_iff x n : (Qfloor x < n)%Z <-> x < inject_Z n.
Proof.
  pose proof (fl x) as [A B]. split; intros H.
  - assert (K : (Qfloor x + 1 <= n)%Z) by lia. apply inj_le in K. rewrite inject_Z_plus in K. change (inject_Z 1) with 1 in K. lra.
  - apply inj_lt. lra.
Qed.
Lemma fl_ge x n : (n <= Qfloor x)%Z <-> inject_Z n <= x.
Proof. pose proof (fl_iff x n). split; intros K; [apply Qnot_lt_le; intros L; apply H in L; lia|]. destruct (Z_lt_le_dec (Qfloor x) n) as [L|]; auto. apply H in L. lra. Qed.
Lemma trunc_pos x : 0 <= x -> trunc x = Qfloor x.
Proof. intros H. unfold trunc. destruct (ltqP x 0); auto. lra. Qed.

Lemma in_pixels {A} (m : img A) v : In v (pixels m) <-> exists x y, inside m x y /\ pix m x y = v.
Proof.
  unfold pixels, to_rows. rewrite in_concat. split.
  - intros (l & H & Hv). apply in_map_iff in H as (y & <- & Hy). apply in_map_iff in Hv as (x & <- & Hx).
    apply in_zrange in Hx, Hy. exists x, y. split; auto. split; lia.
  - intros (x & y & [H1 H2] & <-). exists (map (fun x => pix m x y) (zrange 0 (icols m))). split.
    + apply in_map_iff. exists y. split; auto. apply in_zrange. lia.
    + apply in_map_iff. exists x. split; auto. apply in_zrange. lia.
Qed.

Lemma minmax_fold l : forall s,
  (forall lx ly hx hy, s = Some (lx, ly, (hx, hy)) -> lx <= hx /\ ly <= hy) ->
  match fold_left minmax l s with
  | None => s = None /\ forall p, In p l -> valid p = false
  | Some (lx, ly, (hx, hy)) =>
      lx <= hx /\ ly <= hy /\
      (forall p, In p l -> valid p = true -> (lx <= dx p /\ dx p <= hx /\ ly <= dy p /\ dy p <= hy)) /\
      (forall a b c d, s = Some (a, b, (c, d)) -> lx <= a /\ ly <= b /\ c <= hx /\ d <= hy) /\
      (let was f x := (exists p, In p l /\ valid p = true /\ f p = x) in
       let old g x := (match s with Some q => g q = x | None => False end) in
       (was dx lx \/ old (fun '(a, b, (c, d)) => a) lx) /\ (was dy ly \/ old (fun '(a, b, (c, d)) => b) ly) /\
       (was dx hx \/ old (fun '(a, b, (c, d)) => c) hx) /\ (was dy hy \/ old (fun '(a, b, (c, d)) => d) hy))
  end.
Proof.
  induction l as [|p l IH]; intros s W; cbn [fold_left].
  - destruct s as [[[a b] [c d]]|]; [|split; [auto|intros p []]].
    destruct (W _ _ _ _ eq_refl). split; [auto|split; [auto|split; [intros p []|split]]].
    + intros a' b' c' d' E. injection E as <- <- <- <-. lra.
    + cbv zeta. auto.
  - assert (W' : forall lx ly hx hy, minmax s p = Some (lx, ly, (hx, hy)) -> lx <= hx /\ ly <= hy).
    { intros lx ly hx hy. unfold minmax. destruct (valid p); [|intros E; eapply W; eauto].
      destruct s as [[[a b] [c d]]|].
      - destruct (W _ _ _ _ eq_refl). destruct (ltqP (dx p) a), (ltqP c (dx p)), (ltqP (dy p) b), (ltqP d (dy p)); intros E; injection E as <- <- <- <-; lra.
      - intros E; injection E as <- <- <- <-; lra. }
    specialize (IH _ W'). destruct (fold_left minmax l (minmax s p)) as [[[lx ly] [hx hy]]|].
    + destruct IH as (H1 & H2 & H3 & H4 & H5). split; [auto|split; [auto|]]. split; [|split].
      * intros q [<-|Hq] V; [|apply H3; auto]. unfold minmax in H4. rewrite V in H4. destruct s as [[[a b] [c d]]|].
        -- destruct (W _ _ _ _ eq_refl). destruct (ltqP (dx p) a), (ltqP c (dx p)), (ltqP (dy p) b), (ltqP d (dy p)); specialize (H4 _ _ _ _ eq_refl); lra.
        -- specialize (H4 _ _ _ _ eq_refl); lra.
      * intros a b c d ->. unfold minmax in H4. destruct (valid p); [|apply H4; auto].
        destruct (W _ _ _ _ eq_refl). destruct (ltqP (dx p) a), (ltqP c (dx p)), (ltqP (dy p) b), (ltqP d (dy p)); specialize (H4 _ _ _ _ eq_refl); lra.
      * cbn zeta in H5 |- *. destruct H5 as (A & B & C & D).
        assert (U : forall f x, (exists q, In q l /\ valid q = true /\ f q = x) -> exists q, In q (p :: l) /\ valid q = true /\ (f q : Q) = x).
        { intros f x (q & ? & ? & ?). exists q. split; [right|]; auto. }
        unfold minmax in A, B, C, D. destruct (valid p) eqn:V; [|split; [|split; [|split]]; [destruct A as [X|X]|destruct B as [X|X]|destruct C as [X|X]|destruct D as [X|X]]; first [left; apply U; exact X|right; exact X]].
        destruct s as [[[a b] [c d]]|].
        -- destruct (W _ _ _ _ eq_refl).
           assert (P : forall f : px -> Q, exists q, In q (p :: l) /\ valid q = true /\ f q = f p) by (intros f; exists p; split; [left|]; auto).
           repeat split.
           ++ destruct A as [A|A]; [left; auto|]. destruct (ltqP (dx p) a), (ltqP c (dx p)), (ltqP (dy p) b), (ltqP d (dy p)); subst; auto.
           ++ destruct B as [A'|A']; [left; auto|]. destruct (ltqP (dx p) a), (ltqP c (dx p)), (ltqP (dy p) b), (ltqP d (dy p)); subst; auto.
           ++ destruct C as [A'|A']; [left; auto|]. destruct (ltqP (dx p) a), (ltqP c (dx p)), (ltqP (dy p) b), (ltqP d (dy p)); subst; auto.
           ++ destruct D as [A'|A']; [left; auto|]. destruct (ltqP (dx p) a), (ltqP c (dx p)), (ltqP (dy p) b), (ltqP d (dy p)); subst; auto.
        -- assert (P : forall f : px -> Q, exists q, In q (p :: l) /\ valid q = true /\ f q = f p) by (intros f; exists p; split; [left|]; auto).
           repeat split; left; [destruct A as [X|X]|destruct B as [X|X]|destruct C as [X|X]|destruct D as [X|X]]; auto; subst; auto.
    + destruct IH as (E & H). unfold minmax in E. destruct (valid p) eqn:V.
      * destruct s as [[[a b] [c d]]|]; [|discriminate E]. destruct (ltq (dx p) a), (ltq c (dx p)), (ltq (dy p) b), (ltq d (dy p)); discriminate.
      * split; auto. intros q [<-|Hq]; auto.
Qed.

Lemma ranges_spec m :
  match ranges m with
  | None => forall x y, inside m x y -> valid (pix m x y) = false
  | Some (lx, ly, (hx, hy)) =>
      (forall x y, inside m x y -> valid (pix m x y) = true ->
         lx <= dx (pix m x y) /\ dx (pix m x y) <= hx /\ ly <= dy (pix m x y) /\ dy (pix m x y) <= hy) /\
      (exists x y, inside m x y /\ valid (pix m x y) = true /\ dx (pix m x y) = lx) /\
      (exists x y, inside m x y /\ valid (pix m x y) = true /\ dy (pix m x y) = ly) /\
      (exists x y, inside m x y /\ valid (pix m x y) = true /\ dx (pix m x y) = hx) /\
      (exists x y, inside m x y /\ valid (pix m x y) = true /\ dy (pix m x y) = hy)
  end.
Proof.
  unfold ranges. pose proof (minmax_fold (pixels m) None) as H.
  destruct (fold_left minmax (pixels m) None) as [[[lx ly] [hx hy]]|].
  - destruct H as (_ & _ & H & _ & A & B & C & D); [discriminate|]. split.
    + intros x y I V. apply H; auto. apply in_pixels. eauto.
    + assert (U : forall f x, ((exists p, In p (pixels m) /\ valid p = true /\ (f p : Q) = x) \/ False) -> exists i j, inside m i j /\ valid (pix m i j) = true /\ f (pix m i j) = x).
      { intros f x [(p & I & V & E)|[]]. apply in_pixels in I as (i & j & I & <-). eauto. }
      repeat split; apply U; auto.
  - destruct H as (_ & H); [discriminate|]. intros x y I. apply H. apply in_pixels. eauto.
Qed.

Lemma has_mask_false m : has_valid_mask m = false -> forall x y, inside m x y -> pix m x y = 0%Z.
Proof.
  unfold has_valid_mask. intros H x y I. destruct (Z.eqb_spec (pix m x y) 0); auto. exfalso.
  assert (K : existsb (fun v => negb (v =? 0)%Z) (pixels m) = true); [|congruence].
  apply existsb_exists. exists (pix m x y). split; [apply in_pixels; eauto|]. destruct (Z.eqb_spec (pix m x y) 0); auto.
Qed.

Lemma raster_ok {A} (m : img A) b : bempty b = false -> within b m ->
  raster m b = Ok (Img (bw b) (bh b) (fun x y => pix m (x0 b + x)%Z (y0 b + y)%Z)).
Proof.
  intros E (H1 & H2 & H3 & H4). unfold raster. rewrite E.
  destruct (Z.leb_spec 0 (x0 b)), (Z.leb_spec 0 (y0 b)), (Z.leb_spec (x1 b) (icols m)), (Z.leb_spec (y1 b) (irows m)); cbn [andb]; auto; lia.
Qed.
Lemma raster_in {A} (m : img A) b buf cols rows i j : raster m b = Ok buf -> inb b i j ->
  read (placed buf b cols rows) i j = Ok (pix m i j) /\ inside m i j.
Proof.
  intros R I. pose proof (inb_nonempty _ _ _ I) as E. unfold raster in R. rewrite E in R.
  destruct (Z.leb_spec 0 (x0 b)), (Z.leb_spec 0 (y0 b)), (Z.leb_spec (x1 b) (icols m)), (Z.leb_spec (y1 b) (irows m)); cbn [andb] in R; try discriminate.
  injection R as <-. destruct I as [Ix Iy]. split; [|split; lia]. unfold read, placed. cbn [cimg ci cj].
  unfold bw, bh. rewrite E. rewrite get_in.
  - cbn [pix]. do 2 f_equal; lia.
  - split; cbn [icols irows]; lia.
Qed.
Lemma raster_crop {A} (m : img A) b : exists buf, raster m (bcrop b (Box 0 0 (icols m) (irows m))) = Ok buf.
Proof.
  rewrite bcrop_eq. cbn [x0 y0 x1 y1]. unfold raster. destruct (bempty _) eqn:E; [eauto|]. cbn [x0 y0 x1 y1].
  destruct (Z.leb_spec 0 (Z.max (x0 b) 0)), (Z.leb_spec 0 (Z.max (y0 b) 0)), (Z.leb_spec (Z.min (x1 b) (icols m)) (icols m)),
    (Z.leb_spec (Z.min (y1 b) (irows m)) (irows m)); cbn [andb]; eauto; lia.
Qed.
(** A pixel of the copy. *)
Lemma raster_pix {A} (m : img A) b buf i j : raster m b = Ok buf -> inb b i j ->
  inside buf (i - x0 b) (j - y0 b) /\ pix buf (i - x0 b)%Z (j - y0 b)%Z = pix m i j.
Proof.
  intros R I. pose proof (inb_nonempty _ _ _ I) as E. unfold raster in R. rewrite E in R.
  destruct ((0 <=? x0 b) && (0 <=? y0 b) && (x1 b <=? icols m) && (y1 b <=? irows m))%Z; try discriminate.
  injection R as <-. destruct I. unfold bw, bh. rewrite E. split; [split; cbn [icols irows]; lia|].
  cbn [pix]. f_equal; lia.
Qed.
Lemma raster_back {A} (m : img A) b buf x y : raster m b = Ok buf -> inside buf x y ->
  inb b (x0 b + x) (y0 b + y) /\ pix buf x y = pix m (x0 b + x)%Z (y0 b + y)%Z.
Proof.
  unfold raster. destruct (bempty b) eqn:E.
  - intros R I. injection R as <-. destruct I as [I _]. cbn [icols] in I. lia.
  - destruct ((0 <=? x0 b) && (0 <=? y0 b) && (x1 b <=? icols m) && (y1 b <=? irows m))%Z; intros R I; try discriminate.
    injection R as <-. destruct I as [I J]. cbn [icols irows] in I, J. unfold bw, bh in *. rewrite E in *. split; auto. split; lia.
Qed.

(** The pixel that the view of the whole images shows. *)
Definition masked (disp : img px) (m1 m2 : img Z) (i j : Z) : px :=
  if (pix m1 i j =? 0)%Z then no_px else
  if negb (valid (pix disp i j)) then no_px else
  let tx := inject_Z i + dx (pix disp i j) in
  let ty := inject_Z j + dy (pix disp i j) in
  if ltq tx 0 || Qle_bool (inject_Z (icols m2)) tx || ltq ty 0 || Qle_bool (inject_Z (irows m2)) ty then no_px else
  if (pix m2 (Qfloor tx) (Qfloor ty) =? 0)%Z then no_px else pix disp i j.

Lemma read_whole {A} (m : img A) i j : inside m i j -> read (whole m) i j = Ok (pix m i j).
Proof. intros I. unfold read, whole. cbn [cimg ci cj]. rewrite get_in; auto. Qed.

Lemma mask_whole disp m1 m2 i j : same_size m1 disp -> inside disp i j ->
  mask_at (whole disp) (whole m1) (whole m2) i j = Ok (masked disp m1 m2 i j).
Proof.
  intros [S1 S2] I. unfold mask_at, masked. rewrite read_whole by (destruct I; split; lia). cbn [bind].
  destruct (pix m1 i j =? 0)%Z; auto. rewrite read_whole by auto. cbn [bind]. destruct (valid (pix disp i j)); cbn [negb]; auto.
  cbv zeta. cbn [ccols crows whole].
  set (tx := inject_Z i + dx (pix disp i j)). set (ty := inject_Z j + dy (pix disp i j)).
  destruct (ltqP tx 0), (leqP (inject_Z (icols m2)) tx), (ltqP ty 0), (leqP (inject_Z (irows m2)) ty); cbn [orb]; auto.
  rewrite !trunc_pos by lra. rewrite read_whole.
  - cbn [bind]. destruct (_ =? 0)%Z; auto.
  - split; split; first [apply fl_ge; change (inject_Z 0) with 0; lra|apply fl_iff; lra].
Qed.

Lemma masked_shown disp m1 m2 i j :
  (shown disp m1 m2 i j -> masked disp m1 m2 i j = pix disp i j) /\ (~ shown disp m1 m2 i j -> masked disp m1 m2 i j = no_px).
Proof.
  unfold shown, masked. cbv zeta.
  set (tx := inject_Z i + dx (pix disp i j)). set (ty := inject_Z j + dy (pix disp i j)).
  destruct (Z.eqb_spec (pix m1 i j) 0); [split; [intuition|auto]|].
  destruct (valid (pix disp i j)); cbn [negb]; [|split; [intuition discriminate|auto]].
  destruct (ltqP tx 0), (leqP (inject_Z (icols m2)) tx), (ltqP ty 0), (leqP (inject_Z (irows m2)) ty); cbn [orb];
    try (split; [intros (_ & _ & ? & ? & ? & ? & _); lra|auto]).
  destruct (Z.eqb_spec (pix m2 (Qfloor tx) (Qfloor ty)) 0); [split; [intuition|auto]|].
  split; auto. intros N. exfalso. apply N. repeat split; auto; lra.
Qed.

(** A view whose disparities and left mask are right at (i, j), and whose right mask is
    right at the pixel pointed to. *)
Lemma mask_part disp m1 m2 d1 p1 p2 i j :
  (pix m1 i j <> 0%Z -> read d1 i j = Ok (pix disp i j)) -> read p1 i j = Ok (pix m1 i j) ->
  (pix m1 i j <> 0%Z -> valid (pix disp i j) = true ->
     let tx := inject_Z i + dx (pix disp i j) in let ty := inject_Z j + dy (pix disp i j) in
     ccols p2 = icols m2 /\ crows p2 = irows m2 /\
     (inside m2 (Qfloor tx) (Qfloor ty) -> read p2 (Qfloor tx) (Qfloor ty) = Ok (pix m2 (Qfloor tx) (Qfloor ty)))) ->
  mask_at d1 p1 p2 i j = Ok (masked disp m1 m2 i j).
Proof.
  intros Hd H1 H2. unfold mask_at, masked. rewrite H1. cbn [bind]. destruct (Z.eqb_spec (pix m1 i j) 0) as [|N1]; auto.
  rewrite (Hd N1). cbn [bind]. destruct (valid (pix disp i j)) eqn:V; cbn [negb]; auto. cbv zeta.
  destruct (H2 N1 eq_refl) as (C & R & H). cbv zeta in H. rewrite C, R.
  set (tx := inject_Z i + dx (pix disp i j)) in *. set (ty := inject_Z j + dy (pix disp i j)) in *.
  destruct (ltqP tx 0), (leqP (inject_Z (icols m2)) tx), (ltqP ty 0), (leqP (inject_Z (irows m2)) ty); cbn [orb]; auto.
  rewrite !trunc_pos by lra. rewrite H.
  - cbn [bind]. destruct (_ =? 0)%Z; auto.
  - split; split; first [apply fl_ge; change (inject_Z 0) with 0; lra|apply fl_iff; lra].
Qed.

Lemma mask_off disp m1 m2 i j d1 p1 p2 : read p1 i j = Ok 0%Z -> masked disp m1 m2 i j = no_px ->
  mask_at d1 p1 p2 i j = Ok (masked disp m1 m2 i j).
Proof. intros R M. unfold mask_at. rewrite R. cbn. now rewrite M. Qed.

(** The pixel pointed to is in the part of the right mask. *)
Lemma target_in (l h d : Q) (a c i : Z) : (a <= i < c)%Z -> l <= d -> d <= h ->
  (a + Qfloor l <= Qfloor (inject_Z i + d) < c + Qceiling h)%Z.
Proof.
  intros [A B] L H. split.
  - apply fl_ge. rewrite inject_Z_plus. pose proof (fl l). apply inj_le in A. lra.
  - apply fl_iff. rewrite inject_Z_plus. pose proof (ce h). assert (B' : (i + 1 <= c)%Z) by lia. apply inj_le in B'.
    rewrite inject_Z_plus in B'. change (inject_Z 1) with 1 in B'. lra.
Qed.
Lemma target_in_range (d : Q) (a c i l h : Z) : (a <= i < c)%Z -> inject_Z l <= d -> d < inject_Z h + 1 ->
  (a + l <= Qfloor (inject_Z i + d) < c + h)%Z.
Proof.
  intros [A B] L H. split.
  - apply fl_ge. rewrite inject_Z_plus. apply inj_le in A. lra.
  - apply fl_iff. rewrite inject_Z_plus. assert (B' : (i + 1 <= c)%Z) by lia. apply inj_le in B'.
    rewrite inject_Z_plus in B'. change (inject_Z 1) with 1 in B'. lra.
Qed.
Lemma same_boxP a b : same_box a b = true <-> a = b.
Proof.
  unfold same_box. rewrite !andb_true_iff, !Z.eqb_eq. destruct a as [a1 a2 a3 a4], b as [b1 b2 b3 b4]; cbn [x0 y0 x1 y1]. split; [intros [[[-> ->] ->] ->]; auto|].
  intros E; injection E as -> -> -> ->; auto.
Qed.

Lemma rasterized_ok disp m1 m2 range b i j : same_size m1 disp -> within b disp -> inb b i j ->
  (range <> box_default -> forall x y, inb b x y -> pix m1 x y <> 0%Z -> valid (pix disp x y) = true ->
     inject_Z (x0 range) <= dx (pix disp x y) /\ dx (pix disp x y) < inject_Z (x1 range) + 1 /\
     inject_Z (y0 range) <= dy (pix disp x y) /\ dy (pix disp x y) < inject_Z (y1 range) + 1) ->
  mask_rasterized disp m1 m2 range b i j = Ok (masked disp m1 m2 i j).
Proof.
  intros [S1 S2] W I HR. pose proof (inb_nonempty _ _ _ I) as E.
  assert (W1 : within b m1) by (unfold within in *; lia).
  unfold mask_rasterized, mask_prerasterize.
  destruct (raster m1 b) as [buf1| |] eqn:R1; try (rewrite raster_ok in R1 by auto; discriminate). cbn [bind].
  pose proof (raster_in m1 b buf1 (icols disp) (irows disp) i j R1 I) as [P1 _].
  destruct (has_valid_mask buf1) eqn:M1; cbn [negb].
  2:{ cbn [bind fst snd]. destruct (raster_pix _ _ _ _ _ R1 I) as [J EJ].
      pose proof (has_mask_false _ M1 _ _ J) as Z0. rewrite EJ in Z0.
      apply mask_off; [now rewrite P1, Z0|]. unfold masked. now rewrite Z0. }
  destruct (raster disp b) as [buf| |] eqn:R; try (rewrite raster_ok in R by auto; discriminate).
  pose proof (raster_in disp b buf (icols disp) (irows disp) i j R I) as [P _].
  destruct (same_box range box_default) eqn:SB; cbn [negb].
  - cbn [bind]. pose proof (ranges_spec buf) as RS. destruct (ranges buf) as [[[lx ly] [hx hy]]|].
    + destruct RS as (RS & _).
      set (rb := Box (x0 b + Qfloor lx) (y0 b + Qfloor ly) (x1 b + Qceiling hx) (y1 b + Qceiling hy)).
      destruct (raster_crop m2 rb) as (buf2 & R2). rewrite R2. cbn [bind fst snd].
      apply mask_part; auto. intros N1 V. cbv zeta. cbn [ccols crows placed]. split; [auto|split; [auto|]]. intros T.
      eapply raster_in; [exact R2|]. apply inb_crop. split; [|destruct T; split; cbn [x0 y0 x1 y1]; lia].
      destruct (raster_pix _ _ _ _ _ R I) as [J EJ]. specialize (RS _ _ J). rewrite EJ in RS. specialize (RS V).
      destruct I. unfold rb, inb. cbn [x0 y0 x1 y1]. split; apply target_in; tauto.
    + cbn [bind fst snd]. apply mask_part; auto. intros N1 V. exfalso.
      destruct (raster_pix _ _ _ _ _ R I) as [J EJ]. specialize (RS _ _ J). rewrite EJ in RS. congruence.
  - assert (ND : range <> box_default) by (intros ->; rewrite (proj2 (same_boxP _ _) eq_refl) in SB; discriminate).
    specialize (HR ND _ _ I). set (rb := Box (x0 b + x0 range) (y0 b + y0 range) (x1 b + x1 range) (y1 b + y1 range)).
    destruct (raster_crop m2 rb) as (buf2 & R2). rewrite R2. cbn [bind].
    assert (T : pix m1 i j <> 0%Z -> valid (pix disp i j) = true ->
      let tx := inject_Z i + dx (pix disp i j) in let ty := inject_Z j + dy (pix disp i j) in
      inside m2 (Qfloor tx) (Qfloor ty) -> inb (bcrop rb (Box 0 0 (icols m2) (irows m2))) (Qfloor tx) (Qfloor ty)).
    { intros N1 V tx ty [T1 T2]. destruct (HR N1 V) as (A1 & A2 & A3 & A4). apply inb_crop. split; [|split; cbn [x0 y0 x1 y1]; lia].
      destruct I. unfold rb, inb. cbn [x0 y0 x1 y1]. split; apply target_in_range; auto. }
    cbv zeta in T. destruct (has_valid_mask buf2) eqn:M2; cbn [negb].
    + cbn [bind fst snd]. apply mask_part; auto. intros N1 V. cbv zeta. cbn [ccols crows placed]. split; [auto|split; [auto|]]. intros TI.
      eapply raster_in; [exact R2|]. apply T; auto.
    + cbn [bind fst snd]. apply mask_off.
      * unfold read, placed. cbn [cimg ci cj]. destruct (raster_pix _ _ _ _ _ R1 I) as [J _]. rewrite get_in; [reflexivity|].
        destruct J; split; cbn [icols irows]; lia.
      * unfold masked. destruct (Z.eqb_spec (pix m1 i j) 0) as [|N1]; auto. destruct (valid (pix disp i j)) eqn:V; cbn [negb]; auto.
        cbv zeta. set (tx := inject_Z i + dx (pix disp i j)) in *. set (ty := inject_Z j + dy (pix disp i j)) in *.
        destruct (ltqP tx 0), (leqP (inject_Z (icols m2)) tx), (ltqP ty 0), (leqP (inject_Z (irows m2)) ty); cbn [orb]; auto.
        assert (TI : inside m2 (Qfloor tx) (Qfloor ty)).
        { split; split; first [apply fl_ge; change (inject_Z 0) with 0; lra|apply fl_iff; lra]. }
        destruct (raster_pix _ _ _ _ _ R2 (T N1 eq_refl TI)) as [J EJ]. pose proof (has_mask_false _ M2 _ _ J) as Z0. rewrite EJ in Z0.
        now rewrite Z0.
Qed.

From Coq Require Import ZArith List Lia Bool QArith Qcanon Ascii String Field.
From Verif Require Import Lib.Base Lib.Str Lib.Img Lib.QSum BBox.Proofs BBox.Box2 Edge.Model Edge.Spec Conv.Model Conv.Spec Conv.Proofs Conv.Gauss QTree.Model QTree.Spec QTree.Proofs.
Import ListNotations.
Local Open Scope Z_scope.

Lemma qcol_snoc q d : qcol (q ++ [d]) = 2 * qcol q + d mod 2.
Proof. unfold qcol. now rewrite fold_left_app. Qed.
Lemma qrow_snoc q d : qrow (q ++ [d]) = 2 * qrow q + d / 2.
Proof. unfold qrow. now rewrite fold_left_app. Qed.
Lemma name_snoc q d : name_of (q ++ [d]) = (name_of q ++ [ascii_of_N (Z.to_N (48 + d))])%list.
Proof. unfold name_of. now rewrite map_app. Qed.

Definition side (ts : Z) (j : nat) : Z := ts * 2 ^ Z.of_nat j.
Lemma region_eq ts j q : region ts j q = Box (qcol q * side ts j) (qrow q * side ts j) (qcol q * side ts j + side ts j) (qrow q * side ts j + side ts j).
Proof. reflexivity. Qed.
Lemma side_S ts j : side ts (S j) = 2 * side ts j.
Proof. unfold side. rewrite pow2_S. ring. Qed.
Lemma side_pos ts j : 0 < ts -> 0 < side ts j.
Proof. intros. unfold side. pose proof (pow2_pos j). nia. Qed.

Lemma region_ne ts j q : 0 < ts -> bempty (region ts j q) = false.
Proof. intros H. rewrite region_eq. apply bempty_false. cbn [x0 y0 x1 y1]. pose proof (side_pos ts j H). lia. Qed.
Lemma region_bw ts j q : 0 < ts -> bw (region ts j q) = side ts j /\ bh (region ts j q) = side ts j.
Proof. intros H. unfold bw, bh. rewrite region_ne by auto. rewrite region_eq. cbn [x0 y0 x1 y1]. lia. Qed.
Lemma region_step ts j q d : 0 <= d < 4 -> region ts j (q ++ [d]) =
  box_of (qcol q * side ts (S j) + (d mod 2) * side ts j) (qrow q * side ts (S j) + (d / 2) * side ts j) (side ts j) (side ts j).
Proof. intros D. rewrite region_eq, qcol_snoc, qrow_snoc, side_S. unfold box_of. f_equal; ring. Qed.

Lemma default_branch_leaf ts q n : 0 < ts -> default_branch ts n (region ts 0 q) = [].
Proof.
  intros H. unfold default_branch. destruct (region_bw ts 0 q H) as [-> _]. unfold side. cbn [Z.of_nat]. rewrite Z.pow_0_r, Z.mul_1_r.
  destruct (Z.gtb_spec ts ts); [lia|]. reflexivity.
Qed.
Lemma quot2 x : Z.quot (2 * x) 2 = x.
Proof. rewrite Z.mul_comm. apply Z.quot_mul. lia. Qed.
Lemma box_ext a b d e a' b' d' e' : a = a' -> b = b' -> d = d' -> e = e' -> Box a b d e = Box a' b' d' e'.
Proof. congruence. Qed.
Lemma box_eta b : b = Box (x0 b) (y0 b) (x1 b) (y1 b).
Proof. now destruct b. Qed.
Lemma default_branch_node ts j q : 0 < ts ->
  default_branch ts (name_of q) (region ts (S j) q) = map (fun d => (name_of (q ++ [d]), region ts j (q ++ [d]))) [0; 1; 2; 3].
Proof.
  intros H. unfold default_branch. destruct (region_bw ts (S j) q H) as [-> ->]. pose proof (side_pos ts j H). rewrite side_S.
  assert (L : ts <= side ts j) by (unfold side; pose proof (pow2_pos j); nia).
  destruct (Z.gtb_spec (2 * side ts j) ts); [|lia]. cbn [andb map]. rewrite !name_snoc.
  unfold bshift. rewrite region_ne by auto.
  rewrite !region_step by lia. rewrite region_eq. cbn [x0 y0 x1 y1]. rewrite side_S.
  set (X := qcol q). set (Y := qrow q). set (s := side ts j) in *. clearbody X Y s.
  unfold bdiv.
  repeat match goal with |- context [bempty ?b] => replace (bempty b) with false by (symmetry; apply bempty_false; cbn [x0 y0 x1 y1]; lia) end.
  cbn [x0 y0 x1 y1]. unfold box_of.
  change (0 mod 2) with 0. change (1 mod 2) with 1. change (2 mod 2) with 0. change (3 mod 2) with 1.
  change (0 / 2) with 0. change (1 / 2) with 0. change (2 / 2) with 1. change (3 / 2) with 1.
  assert (Q : forall a b, a = 2 * b -> Z.quot a 2 = b) by (intros a b ->; apply quot2).
  repeat (apply f_equal2; [apply f_equal2; [reflexivity|apply box_ext; apply Q; ring]|]). reflexivity.
Qed.

Lemma digit d : 0 <= d < 4 -> 0 <= d mod 2 < 2 /\ 0 <= d / 2 < 2.
Proof. intros D. split; [apply Z.mod_pos_bound; lia|]. split; [apply Z.div_pos; lia|apply Z.div_lt_upper_bound; lia]. Qed.

Section Generate.
Variables (c : config) (t : chan) (source : img Qc) (P : nat -> Z -> Z -> Qc) (h : Z) (N : nat).
Let ts := 2 * h.
Let B := whole c.
Hypothesis Hh : 0 < h.
Hypothesis Hts : tile_size c = ts.
Hypothesis Hbr : forall n r, branch_func c n r = default_branch ts n r.
Hypothesis Hw : icols source = width c.
Hypothesis Hht : irows source = height c.
Let S0 := padded B (pix source).
Hypothesis HP : pyramid t S0 P.
Hypothesis Hsparse : forall b x y, sparse_image_check c b = false -> inb b x y -> S0 x y = 0%Qc.

Lemma ts_pos : 0 < ts. Proof. unfold ts. lia. Qed.

Lemma whole_inside x y : inb B x y -> 0 <= x < icols source /\ 0 <= y < irows source.
Proof.
  rewrite Hw, Hht. unfold B, whole. destruct (bempty (crop_bbox c)).
  - intros [? ?]. cbn [x0 y0 x1 y1] in *. lia.
  - intros I. apply inb_crop in I as [[? ?] _]. cbn [x0 y0 x1 y1] in *. lia.
Qed.
Lemma padded_in x y : inb B x y -> S0 x y = pix source x y.
Proof.
  intros [? ?]. unfold S0, padded. destruct (Z.leb_spec (x0 B) x), (Z.ltb_spec x (x1 B)), (Z.leb_spec (y0 B) y), (Z.ltb_spec y (y1 B)); cbn [andb]; auto; lia.
Qed.
Lemma padded_out x y : ~ inb B x y -> S0 x y = 0%Qc.
Proof.
  intros I. unfold S0, padded. destruct (Z.leb_spec (x0 B) x), (Z.ltb_spec x (x1 B)), (Z.leb_spec (y0 B) y), (Z.ltb_spec y (y1 B)); cbn [andb]; auto.
  exfalso. apply I. split; lia.
Qed.

(* an image of a tile holding the pixels of level j *)
Definition level_image (j : nat) (q : list Z) (im : img Qc) : Prop :=
  icols im = ts /\ irows im = ts /\ forall x y, 0 <= x < ts -> 0 <= y < ts -> pix im x y = P j (qcol q * ts + x) (qrow q * ts + y).

Definition here (j : nat) (q : list Z) : bool := negb (bempty (bcrop (region ts j q) B)) && sparse_image_check c (region ts j q).

Lemma corners b B' : bempty (bcrop b B') = false -> forall x y, inb (bcrop b B') x y <-> inb b x y /\ inb B' x y.
Proof. intros _ x y. apply inb_crop. Qed.

Lemma crop_bounds b : bempty (bcrop b B) = false ->
  0 <= x0 (bcrop b B) /\ 0 <= y0 (bcrop b B) /\ x1 (bcrop b B) <= icols source /\ y1 (bcrop b B) <= irows source.
Proof.
  intros E. apply bempty_false in E as [E1 E2].
  assert (I1 : inb (bcrop b B) (x0 (bcrop b B)) (y0 (bcrop b B))) by (split; lia).
  assert (I2 : inb (bcrop b B) (x1 (bcrop b B) - 1) (y1 (bcrop b B) - 1)) by (split; lia).
  apply inb_crop in I1 as [_ I1]. apply inb_crop in I2 as [_ I2]. apply whole_inside in I1, I2. lia.
Qed.

Lemma leaf_ok q : bempty (bcrop (region ts 0 q) B) = false -> forall sx sy,
  exists im, leaf c source (region ts 0 q) (bcrop (region ts 0 q) B) sx sy = Ok im /\ level_image 0 q im.
Proof.
  intros NE sx sy. set (r := region ts 0 q) in *. set (ib := bcrop r B) in *.
  destruct (region_bw ts 0 q ts_pos) as [Wr Hr]. fold r in Wr, Hr.
  assert (S1 : side ts 0 = ts) by (unfold side; cbn; lia). rewrite S1 in *.
  assert (Rx : x0 r = qcol q * ts /\ y0 r = qrow q * ts /\ x1 r = qcol q * ts + ts /\ y1 r = qrow q * ts + ts).
  { unfold r. rewrite region_eq, S1. cbn [x0 y0 x1 y1]. auto. }
  destruct (crop_bounds r NE) as (B1 & B2 & B3 & B4). fold ib in B1, B2, B3, B4.
  destruct (crop_copy_ok source ib NE B1 B2 B3 B4) as (im & E & I1 & I2 & I3).
  unfold leaf. rewrite E. cbn [bind].
  assert (L : exists im', (if beq ib r then Ok im else extended_copy (MZero 0%Qc) (view_of im) (bshift r (- x0 ib) (- y0 ib))) = Ok im' /\ level_image 0 q im').
  { destruct (nonempty_size ib NE) as (Wi & Hi & Wi0 & Hi0). pose proof ts_pos as T.
    destruct (beq ib r) eqn:Q.
    - unfold beq in Q. rewrite !andb_true_iff, !Z.eqb_eq in Q. exists im. split; auto. split; [lia|split; [lia|]].
      intros x y Hx Hy. destruct HP as [P0 _]. rewrite P0.
      assert (J : inb ib (qcol q * ts + x) (qrow q * ts + y)) by (split; lia).
      rewrite padded_in by (apply inb_crop in J; apply J). rewrite <- I3 by auto. f_equal; lia.
    - assert (NR : bempty r = false) by (apply region_ne; auto).
      assert (NB : bempty (bshift r (- x0 ib) (- y0 ib)) = false).
      { unfold bshift. rewrite NR. apply bempty_false. cbn [x0 y0 x1 y1]. lia. }
      destruct (extended_copy_ok (MZero 0%Qc) (view_of im) (bshift r (- x0 ib) (- y0 ib)) (fun x y => S0 (x + x0 ib) (y + y0 ib))) as (d & Ed & D1 & D2 & D3); auto.
      { cbn. lia. }
      { intros x y J. apply inb_shift in J. cbn [ext_read]. unfold in_view. cbn [cols rows view_of].
        assert (Iff : inb B (x + x0 ib) (y + y0 ib) <-> inb ib (x + x0 ib) (y + y0 ib)).
        { unfold ib. rewrite inb_crop. replace (x - - x0 ib) with (x + x0 ib) in J by lia. replace (y - - y0 ib) with (y + y0 ib) in J by lia. tauto. }
        destruct ((x >=? 0) && (y >=? 0) && (x <? icols im) && (y <? irows im)) eqn:V.
        - rewrite !andb_true_iff, !Z.geb_le, !Z.ltb_lt in V. cbn [rd view_of]. rewrite get_in by (split; lia).
          assert (J' : inb ib (x + x0 ib) (y + y0 ib)) by (split; lia).
          rewrite padded_in by (now apply Iff). rewrite <- (I3 _ _ J'). replace (x + x0 ib - x0 ib) with x by lia. replace (y + y0 ib - y0 ib) with y by lia. reflexivity.
        - rewrite padded_out; auto. rewrite Iff. intros [J1 J2].
          assert ((x >=? 0) && (y >=? 0) && (x <? icols im) && (y <? irows im) = true); [|congruence].
          rewrite !andb_true_iff, !Z.geb_le, !Z.ltb_lt. lia. }
      exists d. split; auto. destruct (nonempty_size _ NB) as (W2 & H2 & _). unfold bshift in W2, H2. rewrite NR in W2, H2. cbn [x0 y0 x1 y1] in W2, H2.
      assert (X : bw (bshift r (- x0 ib) (- y0 ib)) = ts /\ bh (bshift r (- x0 ib) (- y0 ib)) = ts).
      { unfold bshift. rewrite NR. lia. }
      split; [lia|split; [lia|]]. intros x y Hx Hy. destruct HP as [P0 _]. rewrite P0.
      specialize (D3 (qcol q * ts + x - x0 ib) (qrow q * ts + y - y0 ib)).
      replace (qcol q * ts + x - x0 ib - x0 (bshift r (- x0 ib) (- y0 ib))) with x in D3 by (unfold bshift; rewrite NR; cbn [x0]; lia).
      replace (qrow q * ts + y - y0 ib - y0 (bshift r (- x0 ib) (- y0 ib))) with y in D3 by (unfold bshift; rewrite NR; cbn [y0]; lia).
      rewrite D3.
      + f_equal; lia.
      + apply inb_shift. split; lia. }
  destruct L as (im' & -> & L). cbn [bind]. rewrite Wr, Hr, Hts, Z.eqb_refl. cbn [negb orb]. eauto.
Qed.

Lemma holds_level j q im : level_image j q im -> holds im (tile_box ts q) (P j).
Proof.
  intros (A & D & E). pose proof ts_pos. assert (NE : bempty (tile_box ts q) = false) by (apply box_of_ne; auto).
  destruct (nonempty_size _ NE) as (W & H' & _). unfold tile_box, box_of in W, H'. cbn [x0 y0 x1 y1] in W, H'. fold (tile_box ts q) in W, H'.
  change (Box (qcol q * ts) (qrow q * ts) (qcol q * ts + ts) (qrow q * ts + ts)) with (tile_box ts q) in W, H'.
  split; [lia|split; [lia|]]. intros x y [Hx Hy]. unfold tile_box, box_of in *. cbn [x0 y0 x1 y1] in *. rewrite E by lia. f_equal; lia.
Qed.

Lemma data_eq j q : let r := region ts j q in let ib := bcrop r B in let s := 2 ^ Z.of_nat j in let D := data_box j ib in bempty ib = false ->
  bquot (bshift ib (- x0 r) (- y0 r)) s s = Ok (Box (x0 D - qcol q * ts) (y0 D - qrow q * ts) (x1 D - qcol q * ts) (y1 D - qrow q * ts)) /\
  qcol q * ts <= x0 D <= x1 D /\ qrow q * ts <= y0 D <= y1 D /\ x1 D <= qcol q * ts + ts /\ y1 D <= qrow q * ts + ts.
Proof.
  intros r ib s D NE. pose proof (pow2_pos j) as Hs. fold s in Hs. pose proof ts_pos as T. pose proof NE as NE'. apply bempty_false in NE'.
  assert (Rx : x0 r = qcol q * ts * s /\ y0 r = qrow q * ts * s /\ x1 r = (qcol q * ts + ts) * s /\ y1 r = (qrow q * ts + ts) * s).
  { unfold r. rewrite region_eq. unfold side. fold s. cbn [x0 y0 x1 y1]. lia. }
  assert (I : x0 r <= x0 ib /\ y0 r <= y0 ib /\ x1 ib <= x1 r /\ y1 ib <= y1 r).
  { unfold ib. rewrite bcrop_eq. cbn [x0 y0 x1 y1]. lia. }
  assert (Qd : forall a k, k * s <= a -> Z.quot (a + - (k * s)) s = a / s - k).
  { intros a k Hk. rewrite Z.quot_div_nonneg by lia. replace (a + - (k * s)) with (a + (- k) * s) by ring. rewrite Z.div_add by lia. lia. }
  split.
  - unfold bquot. replace (bempty (bshift ib (- x0 r) (- y0 r))) with false.
    2:{ unfold bshift. rewrite NE. symmetry. apply bempty_false. cbn [x0 y0 x1 y1]. lia. }
    unfold bshift. rewrite NE. cbn [x0 y0 x1 y1]. unfold cdiv. destruct (Z.eqb_spec s 0); [lia|]. cbn [bind]. do 2 f_equal.
    all: unfold D, data_box; fold s; cbn [x0 y0 x1 y1]; destruct Rx as (R1 & R2 & R3 & R4); rewrite ?R1, ?R2; apply Qd; nia.
  - unfold D, data_box. fold s. cbn [x0 y0 x1 y1].
    assert (M : forall a b, a <= b -> a / s <= b / s) by (intros; apply Z.div_le_mono; lia).
    assert (M2 : forall k, (k * s) / s = k) by (intros; apply Z.div_mul; lia).
    pose proof (M (x0 r) (x0 ib) ltac:(lia)). pose proof (M (y0 r) (y0 ib) ltac:(lia)). pose proof (M (x0 ib) (x1 ib) ltac:(lia)). pose proof (M (y0 ib) (y1 ib) ltac:(lia)).
    pose proof (M (x1 ib) (x1 r) ltac:(lia)). pose proof (M (y1 ib) (y1 r) ltac:(lia)).
    destruct Rx as (R1 & R2 & R3 & R4). rewrite R1 in *. rewrite R2 in *. rewrite R3 in *. rewrite R4 in *. rewrite !M2 in *. lia.
Qed.

Lemma cropped_ok j q im : bempty (bcrop (region ts j q) B) = false -> level_image j q im ->
  let D := data_box j (bcrop (region ts j q) B) in
  exists sh bx, cropped c im (region ts j q) (bcrop (region ts j q) B) (2 ^ Z.of_nat j) (2 ^ Z.of_nat j) = Ok (sh, bx) /\
    match shown (crop_images c) (cull_images c) (tile_box ts q) D with
    | None => is_valid sh = false
    | Some b => is_valid sh = true /\ holds sh b (P j) /\
        described (crop_images c) (cull_images c) j (tile_box ts q) D (bcrop (region ts j q) B) bx
    end.
Proof.
  intros NE L D. pose proof (holds_level j q im L) as HL. destruct L as (C & R & PX). pose proof ts_pos as T.
  destruct (data_eq j q NE) as (E & D1 & D2 & D3 & D4). fold D in E, D1, D2, D3, D4. fold (region ts j q) in E.
  set (ib := bcrop (region ts j q) B) in *.
  assert (V : is_valid im = true).
  { unfold is_valid. destruct (Z.eqb_spec (icols im) 0); [lia|]. destruct (Z.eqb_spec (irows im) 0); [lia|]. reflexivity. }
  assert (TD : tile_box ts q = Box (qcol q * ts) (qrow q * ts) (qcol q * ts + ts) (qrow q * ts + ts)) by reflexivity.
  unfold cropped. destruct (crop_images c || cull_images c) eqn:F.
  - rewrite E. cbn [bind]. rewrite Hts.
    set (data := Box (x0 D - qcol q * ts) (y0 D - qrow q * ts) (x1 D - qcol q * ts) (y1 D - qrow q * ts)).
    assert (ED : bempty data = bempty D).
    { unfold bempty, data. cbn [x0 y0 x1 y1]. destruct (x0 D >=? x1 D) eqn:A, (x0 D - qcol q * ts >=? x1 D - qcol q * ts) eqn:A'; bp; try lia;
      destruct (y0 D >=? y1 D) eqn:A1, (y0 D - qrow q * ts >=? y1 D - qrow q * ts) eqn:A1'; bp; try lia; auto. }
    destruct (bempty D) eqn:DE.
    + assert (bw data = 0) by (unfold bw; now rewrite ED). destruct (Z.eqb_spec (bw data) ts); [lia|]. cbn [negb orb].
      rewrite ED. cbn [bind]. eexists. eexists. split; [reflexivity|].
      unfold shown. rewrite DE. destruct (crop_images c); [reflexivity|]. cbn [orb] in F. rewrite F. reflexivity.
    + pose proof DE as DE'. apply bempty_false in DE'. destruct (nonempty_size data ED) as (W & H' & _). change (x0 data) with (x0 D - qcol q * ts) in W. change (x1 data) with (x1 D - qcol q * ts) in W. change (y0 data) with (y0 D - qrow q * ts) in H'. change (y1 data) with (y1 D - qrow q * ts) in H'.
      assert (SH : shown (crop_images c) (cull_images c) (tile_box ts q) D = Some (if crop_images c then D else tile_box ts q)).
      { unfold shown. rewrite DE. destruct (crop_images c); auto. cbn [orb] in F. now rewrite F. }
      rewrite SH. destruct (negb (bw data =? ts) || negb (bh data =? ts)) eqn:Q.
      * assert (ND : D <> tile_box ts q).
        { intros X. rewrite TD in X. pose proof (f_equal x0 X) as X0. pose proof (f_equal x1 X) as X1. pose proof (f_equal y0 X) as Y0. pose proof (f_equal y1 X) as Y1.
          cbn [x0 y0 x1 y1] in X0, X1, Y0, Y1. rewrite orb_true_iff, !negb_true_iff, !Z.eqb_neq in Q. lia. }
        assert (BX : bshift (bprod data (2 ^ Z.of_nat j) (2 ^ Z.of_nat j)) (x0 (region ts j q)) (y0 (region ts j q)) =
                     Box (x0 D * 2 ^ Z.of_nat j) (y0 D * 2 ^ Z.of_nat j) (x1 D * 2 ^ Z.of_nat j) (y1 D * 2 ^ Z.of_nat j)).
        { unfold bprod. rewrite ED. unfold bshift. pose proof (pow2_pos j).
          match goal with |- (if bempty ?b then _ else _) = _ => replace (bempty b) with false by (symmetry; apply bempty_false; unfold data; cbn [x0 y0 x1 y1]; nia) end.
          rewrite region_eq. unfold data, side. cbn [x0 y0 x1 y1]. apply box_ext; ring. }
        assert (DS : forall b, b = bshift (bprod data (2 ^ Z.of_nat j) (2 ^ Z.of_nat j)) (x0 (region ts j q)) (y0 (region ts j q)) ->
                     described (crop_images c) (cull_images c) j (tile_box ts q) D ib b).
        { intros b ->. rewrite BX. split; [intros [[A A']|A]; [rewrite A, A' in F; discriminate|contradiction]|reflexivity]. }
        rewrite ED. destruct (crop_images c) eqn:CI.
        -- destruct (crop_copy_ok im data ED) as (d & -> & K1 & K2 & K3); try (unfold data; cbn [x0 y0 x1 y1]; lia).
           cbn [bind]. eexists. eexists. split; [reflexivity|]. split; [|split].
           ++ unfold is_valid. destruct (Z.eqb_spec (icols d) 0); [lia|]. destruct (Z.eqb_spec (irows d) 0); [lia|]. reflexivity.
           ++ destruct (nonempty_size D DE) as (W2 & H2 & _). split; [lia|split; [lia|]]. intros x y [Hx Hy].
              specialize (K3 (x - qcol q * ts) (y - qrow q * ts)). unfold data in K3. cbn [x0 y0 x1 y1] in K3.
              replace (x - qcol q * ts - (x0 D - qcol q * ts)) with (x - x0 D) in K3 by lia.
              replace (y - qrow q * ts - (y0 D - qrow q * ts)) with (y - y0 D) in K3 by lia.
              rewrite K3 by (split; cbn [x0 y0 x1 y1]; lia). rewrite PX by lia. f_equal; lia.
           ++ now apply DS.
        -- cbn [bind]. eexists. eexists. split; [reflexivity|]. split; [auto|split; [auto|now apply DS]].
      * rewrite orb_false_iff, !negb_false_iff, !Z.eqb_eq in Q.
        assert (X : D = tile_box ts q) by (rewrite TD, (box_eta D); apply box_ext; lia).
        eexists. eexists. split; [reflexivity|]. rewrite <- X. split; [auto|]. split.
        -- destruct (crop_images c); now rewrite X.
        -- split; [auto|]. intros _ A. congruence.
  - apply orb_false_iff in F as [F1 F2]. eexists. eexists. split; [reflexivity|]. rewrite F1, F2. cbn [shown].
    split; [auto|split; [auto|]]. split; [auto|]. intros [A|A]; discriminate.
Qed.

Lemma not_here_zero j q : here j q = false -> forall x y, 0 <= x < ts -> 0 <= y < ts -> P j (qcol q * ts + x) (qrow q * ts + y) = 0%Qc.
Proof.
  intros H x y Hx Hy. apply (pyramid_zero t S0 P HP). intros u v Hu Hv. pose proof (pow2_pos j) as Hs. set (s := 2 ^ Z.of_nat j) in *.
  assert (I : inb (region ts j q) u v).
  { rewrite region_eq. unfold side. fold s. unfold inb. cbn [x0 y0 x1 y1]. nia. }
  unfold here in H. apply andb_false_iff in H as [H|H].
  - apply padded_out. intros IB. rewrite negb_false_iff in H. assert (J : inb (bcrop (region ts j q) B) u v) by (now apply inb_crop).
    apply inb_nonempty in J. congruence.
  - now apply (Hsparse (region ts j q)).
Qed.

Fixpoint paths (j : nat) (q : list Z) : list (list Z) :=
  if here j q then
    match j with O => [] | S i => flat_map (fun d => paths i (q ++ [d])) [0; 1; 2; 3] end ++
    match shown (crop_images c) (cull_images c) (tile_box ts q) (data_box j (bcrop (region ts j q) B)) with Some _ => [q] | None => [] end
  else [].

Notation is_tile := (tile_is P ts (crop_images c) (cull_images c) B N).

Definition quadrant (d x y : Z) : Prop := h * (d mod 2) <= x < h * (d mod 2) + h /\ h * (d / 2) <= y < h * (d / 2) + h.
Definition filled_in (j : nat) (q done : list Z) (im : img Qc) : Prop :=
  icols im = ts /\ irows im = ts /\ forall d x y, 0 <= d < 4 -> quadrant d x y ->
    (In d done -> pix im x y = P (S j) (qcol q * ts + x) (qrow q * ts + y)) /\ (~ In d done -> pix im x y = 0%Qc).

Lemma quadrant_unique d e x y : 0 <= d < 4 -> 0 <= e < 4 -> quadrant d x y -> quadrant e x y -> d = e.
Proof.
  intros D E [A1 A2] [B1 B2]. pose proof (digit d D). pose proof (digit e E). pose proof (Z.div_mod d 2 ltac:(lia)). pose proof (Z.div_mod e 2 ltac:(lia)).
  assert (d mod 2 = e mod 2) by nia. assert (d / 2 = e / 2) by nia. lia.
Qed.
Lemma quadrant_within d x y : 0 <= d < 4 -> quadrant d x y -> 0 <= x < ts /\ 0 <= y < ts.
Proof. intros D [A1 A2]. pose proof (digit d D). unfold ts. nia. Qed.
Lemma quadrant_some x y : 0 <= x < ts -> 0 <= y < ts -> exists d, 0 <= d < 4 /\ quadrant d x y.
Proof.
  unfold ts, quadrant. intros Hx Hy.
  destruct (Z.lt_ge_cases x h), (Z.lt_ge_cases y h); [exists 0|exists 2|exists 1|exists 3]; cbn [Z.modulo Z.div Z.div_eucl]; cbn; lia.
Qed.

(* the pixels of a quadrant are the means of those of the child *)
Lemma child_mean j q d x y p : 0 <= d < 4 -> quadrant d x y ->
  (forall u v, 0 <= u < ts -> 0 <= v < ts -> p u v = P j (qcol (q ++ [d]) * ts + u) (qrow (q ++ [d]) * ts + v)) ->
  cast_clamp_if_int t (mean4 p (x - h * (d mod 2)) (y - h * (d / 2))) = Ok (P (S j) (qcol q * ts + x) (qrow q * ts + y)).
Proof.
  intros D [Q1 Q2] H. destruct HP as [_ PS]. rewrite <- PS. f_equal. unfold mean4. rewrite !H by (unfold ts; lia). rewrite qcol_snoc, qrow_snoc. unfold ts.
  assert (EX : forall k, (2 * qcol q + d mod 2) * (2 * h) + (2 * (x - h * (d mod 2)) + k) = 2 * (qcol q * (2 * h) + x) + k) by (intros; ring).
  assert (EY : forall k, (2 * qrow q + d / 2) * (2 * h) + (2 * (y - h * (d / 2)) + k) = 2 * (qrow q * (2 * h) + y) + k) by (intros; ring).
  pose proof (EX 0) as EX0. pose proof (EY 0) as EY0. rewrite !Z.add_0_r in EX0, EY0. now rewrite !EX, !EY, EX0, EY0.
Qed.

Lemma is_level_valid j q im : level_image j q im -> is_valid im = true.
Proof.
  intros (A & A' & _). pose proof ts_pos. unfold is_valid. destruct (Z.eqb_spec (icols im) 0); [lia|]. destruct (Z.eqb_spec (irows im) 0); [lia|]. reflexivity.
Qed.

Lemma add_child_ok j q d image out done fuel :
  let r := region ts (S j) q in
  bempty (bcrop r B) = false -> 0 <= d < 4 -> ~ In d done -> filled_in j q done image ->
  (exists im wr, generate_branch c t source fuel (name_of (q ++ [d])) (region ts j (q ++ [d])) = Ok (im, wr) /\
     Forall2 is_tile (paths j (q ++ [d])) wr /\
     (here j (q ++ [d]) = true -> level_image j (q ++ [d]) im) /\
     (here j (q ++ [d]) = false -> is_valid im = false \/ level_image j (q ++ [d]) im)) ->
  exists image' wr, add_child ts t (generate_branch c t source fuel) r (bcrop r B) (2 ^ Z.of_nat (S j)) (2 ^ Z.of_nat (S j))
      (name_of (q ++ [d]), region ts j (q ++ [d])) (image, out) = Ok (image', out ++ wr) /\
    Forall2 is_tile (paths j (q ++ [d])) wr /\ filled_in j q (done ++ [d]) image'.
Proof.
  intros r NE Dd ND (F1 & F2 & F3) (im & wr & G & GT & GH & GN). set (k := region ts j (q ++ [d])) in *. pose proof ts_pos as T.
  pose proof (pow2_pos j) as Hs. pose proof (side_pos ts j T) as Hsd. destruct (digit d Dd) as [Dm Dd2].
  assert (K : bcrop k (bcrop r B) = bcrop k B).
  { rewrite !bcrop_eq. unfold k, r. rewrite (region_step ts j q d Dd), region_eq. unfold box_of. cbn [x0 y0 x1 y1]. rewrite side_S. apply box_ext; nia. }
  (* a tile that is not there leaves its quadrant black *)
  assert (Skip : here j (q ++ [d]) = false -> filled_in j q (done ++ [d]) image).
  { intros NH. split; [auto|split; [auto|]]. intros e x y He Q. rewrite in_app_iff. cbn [In]. split.
    - intros [I|[<-|[]]]; [now apply F3 with e|]. destruct (F3 d x y He Q) as [_ ->]; auto.
      pose proof (child_mean j q d x y (fun _ _ => 0%Qc) He Q) as CM. rewrite mean4_zero, cast_zero in CM by reflexivity.
      assert (E0 : Ok 0%Qc = Ok (P (S j) (qcol q * ts + x) (qrow q * ts + y))); [|congruence].
      apply CM. intros u v Hu Hv. symmetry. now apply not_here_zero.
    - intros NI. apply (F3 e x y He Q). tauto. }
  unfold add_child. rewrite K. destruct (bempty (bcrop k B)) eqn:KE.
  - assert (NH : here j (q ++ [d]) = false) by (unfold here; fold k; now rewrite KE).
    exists image, []. rewrite app_nil_r. split; auto. split; [|auto]. destruct j; cbn [paths]; rewrite NH; constructor.
  - rewrite G. cbn [bind]. destruct (is_valid im) eqn:V; cbn [negb].
    2:{ exists image, wr. split; auto. split; auto. apply Skip. destruct (here j (q ++ [d])) eqn:H; auto. pose proof (is_level_valid _ _ _ (GH eq_refl)). congruence. }
    assert (L : level_image j (q ++ [d]) im) by (destruct (here j (q ++ [d])); [auto|destruct (GN eq_refl); [congruence|auto]]).
    assert (DST : bquot (bshift k (- x0 r) (- y0 r)) (2 ^ Z.of_nat (S j)) (2 ^ Z.of_nat (S j)) = Ok (box_of (h * (d mod 2)) (h * (d / 2)) h h)).
    { unfold bshift, k. rewrite region_ne by auto. rewrite (region_step ts j q d Dd). unfold r. rewrite region_eq. unfold box_of. cbn [x0 y0 x1 y1].
      assert (SD : side ts j = h * 2 ^ Z.of_nat (S j)) by (unfold side, ts; rewrite pow2_S; ring).
      unfold bquot. match goal with |- (if bempty ?b then _ else _) = _ => replace (bempty b) with false by (symmetry; apply bempty_false; cbn [x0 y0 x1 y1]; lia) end.
      cbn [x0 y0 x1 y1]. pose proof (pow2_pos (S j)) as Hs'. unfold cdiv. destruct (Z.eqb_spec (2 ^ Z.of_nat (S j)) 0); [lia|]. cbn [bind]. f_equal.
      rewrite SD. set (s := 2 ^ Z.of_nat (S j)) in *. set (X := qcol q * side ts (S j)). set (Y := qrow q * side ts (S j)).
      assert (Q : forall a b, a = b * s -> Z.quot a s = b) by (intros a b ->; apply Z.quot_mul; lia).
      apply box_ext; apply Q; ring. }
    rewrite DST. cbn [bind]. destruct L as (L1 & L2 & L3).
    assert (NB : bempty (box_of (h * (d mod 2)) (h * (d / 2)) h h) = false) by (apply box_of_ne; auto).
    destruct (nonempty_size _ NB) as (W & W' & _). unfold box_of in W at 2, W' at 2. cbn [x0 y0 x1 y1] in W, W'.
    replace (bw (box_of (h * (d mod 2)) (h * (d / 2)) h h)) with h by (unfold box_of in *; cbn [x0 y0 x1 y1] in *; lia).
    replace (bh (box_of (h * (d mod 2)) (h * (d / 2)) h h)) with h by (unfold box_of in *; cbn [x0 y0 x1 y1] in *; lia).
    unfold cdiv. destruct (Z.eqb_spec h 0); [lia|]. cbn [bind].
    assert (TQ : Z.quot ts h = 2) by (unfold ts; apply Z.quot_mul; lia). rewrite TQ.
    destruct (box_subsample_ok t im h (fun x y => P (S j) (qcol q * ts + (x + h * (d mod 2))) (qrow q * ts + (y + h * (d / 2))))) as (sm & -> & M1 & M2 & M3); auto.
    { intros x y Hx Hy. rewrite <- (child_mean j q d (x + h * (d mod 2)) (y + h * (d / 2)) (pix im)); auto.
      - do 2 f_equal; lia.
      - split; lia. }
    cbn [bind].
    destruct (assign_crop_ok image (box_of (h * (d mod 2)) (h * (d / 2)) h h) sm NB) as (im' & -> & A1 & A2 & A3 & A4);
      try (unfold box_of in *; cbn [x0 y0 x1 y1] in *; unfold ts in *; nia).
    cbn [bind]. exists im', wr. split; auto. split; auto. split; [lia|split; [lia|]]. intros e x y He Q. rewrite in_app_iff. cbn [In].
    assert (IQ : inb (box_of (h * (d mod 2)) (h * (d / 2)) h h) x y <-> quadrant d x y) by reflexivity.
    destruct (Z.eq_dec d e) as [<-|Ne].
    + split; [intros _|tauto]. rewrite A3 by (now apply IQ). unfold box_of. cbn [x0 y0 x1 y1]. destruct Q as [Q1 Q2]. rewrite M3 by lia. f_equal; lia.
    + assert (NQ : ~ quadrant d x y) by (intros Q'; apply Ne; eapply quadrant_unique; eauto).
      rewrite A4 by (now rewrite IQ). split; [intros [I|[I|[]]]; [|congruence]|intros NI]; apply (F3 e x y He Q); tauto.
Qed.

Lemma generate_branch_ok : forall j (q : list Z) fuel, (List.length q + j = N)%nat -> (j < fuel)%nat ->
  exists im out, generate_branch c t source fuel (name_of q) (region ts j q) = Ok (im, out) /\
    Forall2 is_tile (paths j q) out /\
    (here j q = true -> level_image j q im) /\ (here j q = false -> is_valid im = false \/ level_image j q im).
Proof.
  induction j as [|j IH]; intros q [|fuel] LN LF; try lia; cbn [generate_branch]; cbn zeta; fold B; rewrite Hts; pose proof ts_pos as T.
  - set (r := region ts 0 q) in *.
    destruct (bempty (bcrop r B)) eqn:NE.
    { assert (NH : here 0 q = false) by (unfold here; fold r; now rewrite NE). eexists. eexists. split; [reflexivity|]. cbn [paths]. rewrite NH.
      split; [constructor|]. split; [discriminate|]. intros _. destruct (negb (crop_images c || cull_images c)); [right|left; reflexivity].
      split; [reflexivity|split; [reflexivity|]]. intros x y Hx Hy. symmetry. now apply not_here_zero. }
    destruct (sparse_image_check c r) eqn:SP; cbn [negb].
    2:{ assert (NH : here 0 q = false) by (unfold here; fold r; now rewrite NE, SP). eexists. eexists. split; [reflexivity|]. cbn [paths]. rewrite NH.
      split; [constructor|]. split; [discriminate|]. intros _. left; reflexivity. }
    destruct (region_bw ts 0 q T) as [Wr Hr]. fold r in Wr, Hr. rewrite Wr, Hr. unfold cdiv. destruct (Z.eqb_spec ts 0); [lia|]. cbn [bind].
    rewrite Hbr. change (default_branch ts (name_of q) r) with (default_branch ts (name_of q) (region ts 0 q)). rewrite default_branch_leaf by auto.
    assert (SQ : Z.quot (side ts 0) ts = 2 ^ Z.of_nat 0) by (unfold side; rewrite Z.mul_comm; apply Z.quot_mul; lia). rewrite SQ.
    destruct (leaf_ok q NE (2 ^ Z.of_nat 0) (2 ^ Z.of_nat 0)) as (im & E & L). fold r in E. rewrite E. cbn [bind].
    destruct (cropped_ok 0 q im NE L) as (sh & bx & CE & CS). fold r in CE, CS. rewrite CE. cbn [bind].
    eexists. eexists. split; [reflexivity|]. assert (HH : here 0 q = true) by (unfold here; fold r; now rewrite NE, SP).
    split; [|split; [auto|congruence]]. cbn [paths]. rewrite HH. fold r.
    assert (J0 : (N - List.length q = 0)%nat) by lia.
    destruct (shown (crop_images c) (cull_images c) (tile_box ts q) (data_box 0 (bcrop r B))) eqn:SH.
    + destruct CS as (-> & H1 & H2). cbn [app]. constructor; [|constructor]. unfold tile_is. rewrite J0. cbn [t_name t_region_bbox t_image t_image_bbox].
      split; auto. split; auto. eexists. split; [exact SH|]. auto.
    + rewrite CS. constructor.
  - set (r := region ts (S j) q) in *.
    destruct (bempty (bcrop r B)) eqn:NE.
    { assert (NH : here (S j) q = false) by (unfold here; fold r; now rewrite NE). eexists. eexists. split; [reflexivity|]. cbn [paths]. rewrite NH.
      split; [constructor|]. split; [discriminate|]. intros _. destruct (negb (crop_images c || cull_images c)); [right|left; reflexivity].
      split; [reflexivity|split; [reflexivity|]]. intros x y Hx Hy. symmetry. now apply not_here_zero. }
    destruct (sparse_image_check c r) eqn:SP; cbn [negb].
    2:{ assert (NH : here (S j) q = false) by (unfold here; fold r; now rewrite NE, SP). eexists. eexists. split; [reflexivity|]. cbn [paths]. rewrite NH.
      split; [constructor|]. split; [discriminate|]. intros _. left; reflexivity. }
    destruct (region_bw ts (S j) q T) as [Wr Hr]. fold r in Wr, Hr. rewrite Wr, Hr. unfold cdiv. destruct (Z.eqb_spec ts 0); [lia|]. cbn [bind].
    rewrite Hbr. change (default_branch ts (name_of q) r) with (default_branch ts (name_of q) (region ts (S j) q)). rewrite default_branch_node by auto.
    assert (SQ : Z.quot (side ts (S j)) ts = 2 ^ Z.of_nat (S j)) by (unfold side; rewrite Z.mul_comm; apply Z.quot_mul; lia). rewrite SQ.
    assert (CH : forall l done image out, NoDup (done ++ l) -> Forall (fun d => 0 <= d < 4) l -> filled_in j q done image ->
      exists image' wr, each (add_child ts t (generate_branch c t source fuel) r (bcrop r B) (2 ^ Z.of_nat (S j)) (2 ^ Z.of_nat (S j)))
        (map (fun d => (name_of (q ++ [d]), region ts j (q ++ [d]))) l) (image, out) = Ok (image', out ++ wr) /\
        Forall2 is_tile (flat_map (fun d => paths j (q ++ [d])) l) wr /\ filled_in j q (done ++ l) image').
    { induction l as [|d l IHl]; intros done image out ND FD FI.
      - exists image, []. cbn [map each flat_map]. rewrite !app_nil_r. split; auto.
      - inversion_clear FD as [|? ? D1 D2]. cbn [map each flat_map].
        destruct (add_child_ok j q d image out done fuel NE D1) as (im1 & wr1 & E1 & T1 & I1); auto.
        { intros I. apply NoDup_remove_2 in ND. apply ND. rewrite in_app_iff. auto. }
        { apply IH; [rewrite app_length; cbn [List.length]; lia|lia]. }
        fold r in E1. rewrite E1. cbn [bind].
        destruct (IHl (done ++ [d]) im1 (out ++ wr1)) as (im2 & wr2 & E2 & T2 & I2); auto.
        { rewrite <- app_assoc. exact ND. }
        exists im2, (wr1 ++ wr2). rewrite app_assoc. split; auto. split; [now apply Forall2_app|]. now rewrite <- app_assoc in I2. }
    destruct (CH [0; 1; 2; 3] [] (black ts) []) as (im & wr & E & TT & FI).
    { cbn [app]. repeat constructor; cbn [In]; lia. }
    { repeat constructor; lia. }
    { split; [reflexivity|split; [reflexivity|]]. intros d x y _ _. split; [intros []|reflexivity]. }
    cbn [map] in E |- *. rewrite E. cbn [bind app].
    assert (L : level_image (S j) q im).
    { destruct FI as (I1 & I2 & I3). split; auto. split; auto. intros x y Hx Hy. destruct (quadrant_some x y Hx Hy) as (d & Hd & Q).
      apply (I3 d x y Hd Q). cbn [app In]. lia. }
    destruct (cropped_ok (S j) q im NE L) as (sh & bx & CE & CS). fold r in CE, CS. rewrite CE. cbn [bind].
    eexists. eexists. split; [reflexivity|]. assert (HH : here (S j) q = true) by (unfold here; fold r; now rewrite NE, SP).
    split; [|split; [auto|congruence]]. cbn [paths]. rewrite HH. fold r.
    assert (J0 : (N - List.length q = S j)%nat) by lia.
    destruct (shown (crop_images c) (cull_images c) (tile_box ts q) (data_box (S j) (bcrop r B))) eqn:SH.
    + destruct CS as (-> & H1 & H2). apply Forall2_app; auto. constructor; [|constructor]. unfold tile_is. rewrite J0. cbn [t_name t_region_bbox t_image t_image_bbox].
      split; auto. split; auto. eexists. split; [exact SH|]. auto.
    + rewrite CS, app_nil_r. auto.
Qed.
(** *** which tiles *)
Definition showable (j : nat) (q : list Z) : Prop :=
  shown (crop_images c) (cull_images c) (tile_box ts q) (data_box j (bcrop (region ts j q) B)) <> None.

Lemma four d : In d [0; 1; 2; 3] <-> 0 <= d < 4.
Proof. cbn [In]. lia. Qed.

Lemma paths_in : forall j q p, In p (paths j q) <->
  exists s, p = q ++ s /\ quadrants s /\ (List.length s <= j)%nat /\
    (forall a b, s = a ++ b -> here (j - List.length a) (q ++ a) = true) /\ showable (j - List.length s) p.
Proof.
  assert (Self : forall j q p, here j q = true ->
    (In p (match shown (crop_images c) (cull_images c) (tile_box ts q) (data_box j (bcrop (region ts j q) B)) with Some _ => [q] | None => [] end) <-> p = q /\ showable j q)).
  { intros j q p _. unfold showable. destruct (shown _ _ _ _); cbn [In]; [|split; [tauto|intros [_ A]; congruence]].
    split; [intros [<-|[]]; split; [auto|discriminate]|intros [-> _]; auto]. }
  induction j as [|j IH]; intros q p; cbn [paths].
  - destruct (here 0 q) eqn:H.
    + rewrite app_nil_l, Self by auto. split.
      * intros [-> Sh]. exists []. rewrite app_nil_r. split; auto. split; [constructor|]. split; [auto|]. split; [|exact Sh].
        intros a b E. symmetry in E. apply app_eq_nil in E as [-> ->]. now rewrite app_nil_r.
      * intros (s & -> & _ & L & _ & Sh). destruct s; [|cbn [List.length] in L; lia]. rewrite app_nil_r in *. auto.
    + cbn [In]. split; [tauto|]. intros (s & -> & _ & L & A & _). specialize (A [] s eq_refl). rewrite app_nil_r in A. cbn [List.length Nat.sub] in A. congruence.
  - destruct (here (S j) q) eqn:H.
    + rewrite in_app_iff, Self by auto. rewrite in_flat_map. split.
      * intros [(d & D & I)|[-> Sh]].
        -- apply four in D. apply IH in I as (s & -> & Q & L & A & Sh). exists (d :: s). rewrite <- app_assoc. cbn [app List.length]. split; auto.
           split; [constructor; auto|]. split; [lia|]. split; [|rewrite <- app_assoc in Sh; exact Sh].
           intros [|e a] b E; [rewrite app_nil_r; cbn [List.length Nat.sub]; auto|]. cbn [app] in E. injection E as <- E.
           specialize (A a b E). rewrite <- app_assoc in A. exact A.
        -- exists []. rewrite app_nil_r. split; auto. split; [constructor|]. split; [cbn; lia|]. split; [|exact Sh].
           intros a b E. symmetry in E. apply app_eq_nil in E as [-> ->]. now rewrite app_nil_r.
      * intros (s & -> & Q & L & A & Sh). destruct s as [|d s]; [right; rewrite app_nil_r in *; auto|left].
        inversion_clear Q as [|? ? Q1 Q2]. exists d. rewrite four. split; auto. apply IH. exists s. rewrite <- app_assoc. split; auto. split; auto.
        cbn [List.length] in L. split; [lia|]. split; [|exact Sh]. intros a b E. specialize (A (d :: a) b). rewrite <- app_assoc. apply A. cbn [app]. now rewrite E.
    + cbn [In]. split; [tauto|]. intros (s & -> & _ & L & A & _). specialize (A [] s eq_refl). rewrite app_nil_r in A. cbn [List.length Nat.sub] in A. congruence.
Qed.

(* no address begins with one listed before *)
Definition later (a b : list Z) : Prop := ~ exists s, b = a ++ s.

Lemma FOP_app {A} (R : A -> A -> Prop) l1 l2 : ForallOrdPairs R l1 -> ForallOrdPairs R l2 -> (forall a b, In a l1 -> In b l2 -> R a b) -> ForallOrdPairs R (l1 ++ l2).
Proof.
  intros H1 H2 X. induction H1 as [|a l F H IH]; cbn [app]; auto. constructor.
  - rewrite Forall_forall in *. intros b I. apply in_app_iff in I as [I|I]; [auto|]. apply X; cbn [In]; auto.
  - apply IH. intros a' b I J. apply X; cbn [In]; auto.
Qed.

Lemma paths_prefix j q p : In p (paths j q) -> exists s, p = q ++ s.
Proof. intros I. apply paths_in in I as (s & -> & _). eauto. Qed.

Lemma paths_order : forall j q, ForallOrdPairs later (paths j q).
Proof.
  assert (Self : forall j (q : list Z), ForallOrdPairs later (match shown (crop_images c) (cull_images c) (tile_box ts q) (data_box j (bcrop (region ts j q) B)) with Some _ => [q] | None => [] end)).
  { intros. destruct (shown _ _ _ _); repeat constructor. }
  induction j as [|j IH]; intros q; cbn [paths]; (destruct (here _ q); [|constructor]).
  - cbn [app]. apply Self.
  - assert (FM : forall l, NoDup l -> ForallOrdPairs later (flat_map (fun d => paths j (q ++ [d])) l)).
    { induction l as [|d l IHl]; intros ND; cbn [flat_map]; [constructor|]. inversion_clear ND. apply FOP_app; auto.
      intros a b Ia Ib (s & E). apply paths_prefix in Ia as (u & ->). apply in_flat_map in Ib as (e & Ie & Ib). apply paths_prefix in Ib as (v & ->).
      rewrite <- !app_assoc in E. apply app_inv_head in E. cbn [app] in E. congruence. }
    apply FOP_app; auto.
    + apply FM. repeat constructor; cbn [In]; lia.
    + intros a b Ia Ib (s & E). apply in_flat_map in Ia as (d & _ & Ia). apply paths_prefix in Ia as (u & ->).
      destruct (shown _ _ _ _); [|contradiction]. destruct Ib as [<-|[]]. rewrite <- !app_assoc in E. rewrite <- (app_nil_r q) in E at 1.
      apply app_inv_head in E. discriminate.
Qed.
End Generate.

(** *** names *)
Lemma digit_inj d e : 0 <= d < 4 -> 0 <= e < 4 -> ascii_of_N (Z.to_N (48 + d)) = ascii_of_N (Z.to_N (48 + e)) -> d = e.
Proof.
  intros D E H. apply (f_equal N_of_ascii) in H. rewrite !N_ascii_embedding in H by lia. lia.
Qed.
Lemma name_inj p q : quadrants p -> quadrants q -> name_of p = name_of q -> p = q.
Proof.
  intros Hp. revert q. induction Hp as [|d p D Hp IH]; intros [|e q] Hq E; try discriminate; auto. cbn [name_of map] in E.
  inversion_clear Hq as [|? ? E1 E2]. injection E as E E'. f_equal; [now apply digit_inj|now apply IH].
Qed.
Lemma name_length q : List.length (name_of q) = List.length q.
Proof. apply map_length. Qed.
Lemma name_prefix p q s : quadrants p -> quadrants q -> name_of q = (name_of p ++ s)%list -> exists u, q = p ++ u.
Proof.
  intros Hp Hq E. exists (skipn (List.length p) q). assert (F : firstn (List.length p) q = p).
  { apply name_inj; auto.
    - unfold quadrants in *. rewrite Forall_forall in *. intros x I. apply Hq. rewrite <- (firstn_skipn (List.length p) q). apply in_app_iff. auto.
    - unfold name_of in *. rewrite <- firstn_map, E. rewrite <- (map_length (fun d => ascii_of_N (Z.to_N (48 + d))) p). rewrite firstn_app, Nat.sub_diag, firstn_all. cbn [firstn]. apply app_nil_r. }
  rewrite <- F at 1. symmetry. apply firstn_skipn.
Qed.

(** *** addresses *)
Lemma address_exists : forall n X Y, 0 <= X < 2 ^ Z.of_nat n -> 0 <= Y < 2 ^ Z.of_nat n -> exists q, quadrants q /\ List.length q = n /\ qcol q = X /\ qrow q = Y.
Proof.
  induction n as [|n IH]; intros X Y HX HY.
  - exists []. cbn in *. split; [constructor|]. repeat split; lia.
  - rewrite pow2_S in HX, HY. pose proof (pow2_pos n). pose proof (Z.div_mod X 2 ltac:(lia)). pose proof (Z.div_mod Y 2 ltac:(lia)).
    pose proof (Z.mod_pos_bound X 2 ltac:(lia)). pose proof (Z.mod_pos_bound Y 2 ltac:(lia)).
    destruct (IH (X / 2) (Y / 2)) as (q & Q & L & C & R); [lia|lia|].
    exists (q ++ [Y mod 2 * 2 + X mod 2]). split; [apply Forall_app; split; [auto|repeat constructor; lia]|]. split; [rewrite app_length; cbn [List.length]; lia|].
    rewrite qcol_snoc, qrow_snoc, C, R. split.
    + rewrite (Z.add_comm (Y mod 2 * 2)), Z.mod_add, Z.mod_small by lia. lia.
    + rewrite (Z.add_comm (Y mod 2 * 2)), Z.div_add, (Z.div_small (X mod 2) 2) by lia. lia.
Qed.
Lemma address_range : forall q, quadrants q -> 0 <= qcol q < 2 ^ Z.of_nat (List.length q) /\ 0 <= qrow q < 2 ^ Z.of_nat (List.length q).
Proof.
  intros q. induction q as [|d q IH] using rev_ind; intros Q; [cbn; lia|]. apply Forall_app in Q as [Q D]. apply Forall_inv in D. cbn beta in D.
  destruct (IH Q). rewrite qcol_snoc, qrow_snoc, app_length. cbn [List.length]. rewrite Nat.add_1_r, pow2_S.
  pose proof (digit d D). lia.
Qed.
Lemma address_unique : forall p q, quadrants p -> quadrants q -> List.length p = List.length q -> qcol p = qcol q -> qrow p = qrow q -> p = q.
Proof.
  intros p. induction p as [|d p IH] using rev_ind; intros q Hp Hq L C R.
  - destruct q; [auto|discriminate].
  - destruct q as [|e q _] using rev_ind; [rewrite app_length in L; cbn [List.length] in L; lia|].
    rewrite !app_length in L. cbn [List.length] in L. rewrite !qcol_snoc in C. rewrite !qrow_snoc in R.
    apply Forall_app in Hp as [Hp D]. apply Forall_app in Hq as [Hq E]. apply Forall_inv in D, E. cbn beta in D, E.
    pose proof (digit d D). pose proof (digit e E). pose proof (Z.div_mod d 2 ltac:(lia)). pose proof (Z.div_mod e 2 ltac:(lia)).
    assert (qcol p = qcol q) by lia. assert (qrow p = qrow q) by lia. assert (d mod 2 = e mod 2) by lia. assert (d / 2 = e / 2) by lia.
    f_equal; [apply IH; auto; lia|f_equal; lia].
Qed.
(* the tile above one covers its pixels *)
Lemma region_up ts q d j x y : 0 < ts -> 0 <= d < 4 -> inb (region ts j (q ++ [d])) x y -> inb (region ts (S j) q) x y.
Proof.
  intros T D. rewrite (region_step ts j q d D), region_eq, side_S. pose proof (side_pos ts j T). destruct (digit d D).
  unfold inb, box_of. cbn [x0 y0 x1 y1]. nia.
Qed.
Lemma region_above ts s : 0 < ts -> quadrants s -> forall q j x y, inb (region ts j (q ++ s)) x y -> inb (region ts (j + List.length s) q) x y.
Proof.
  intros T. induction s as [|d s IH]; intros Q q j x y.
  - rewrite app_nil_r. cbn [List.length]. now rewrite Nat.add_0_r.
  - inversion_clear Q as [|? ? D Q']. intros I. replace (q ++ d :: s) with ((q ++ [d]) ++ s) in I by (now rewrite <- app_assoc). apply IH in I; auto.
    cbn [List.length]. rewrite Nat.add_succ_r. eapply region_up; eauto.
Qed.

From Coq Require Import ZArith List Lia Bool.
From Verif Require Import Lib.Base BBox.Proofs ImgMem.Model.
Import ListNotations.
Local Open Scope Z_scope.

Definition ok_img {A} (im : img A) : Prop :=
  0 <= icols im /\ 0 <= irows im /\ 0 <= iplanes im /\
  (rstride im = icols im /\ pstride im = irows im * icols im) /\
  Z.of_nat (length (idata im)) = icols im * irows im * iplanes im.

Lemma mul32_ok a b : i32_ok (a * b) -> mul32 a b = Ok (a * b).
Proof. unfold mul32, i32_okb, i32_ok. intros H. destruct (Z.leb_spec i32_min (a * b)), (Z.leb_spec (a * b) i32_max); simpl; auto; lia. Qed.
Lemma mul32_inv a b c : mul32 a b = Ok c -> c = a * b /\ i32_ok (a * b).
Proof.
  unfold mul32, i32_okb, i32_ok. destruct (Z.leb_spec i32_min (a * b)), (Z.leb_spec (a * b) i32_max); simpl; intros E; inversion E; auto.
Qed.

Lemma set_size_ok {A} (z : A) al im c r p im' : ok_img im -> set_size z al im c r p = Ok im' -> ok_img im'.
Proof.
  intros O. unfold set_size.
  destruct ((c =? icols im) && (r =? irows im) && (p =? iplanes im)); [intros E; inversion E; subst; auto|].
  destruct (negb ((c >=? 0) && (r >=? 0) && (p >=? 0))) eqn:N; [discriminate|].
  destruct (negb ((c <? MAX_SIDE) && (r <? MAX_SIDE))); [discriminate|].
  destruct (negb (p <? MAX_PLANES)); [discriminate|]. destruct (negb (c * r * p <? MAX_TOTAL)); [discriminate|].
  destruct (negb (c * r * p =? 0) && negb al); [discriminate|].
  intros E. apply bind_ok in E. destruct E as (ps & E1 & E). apply bind_ok in E. destruct E as (rc & E2 & E).
  apply bind_ok in E. destruct E as (n & E3 & E). inversion E; subst; clear E.
  apply mul32_inv in E1. apply mul32_inv in E2. apply mul32_inv in E3. destruct E1 as [-> _], E2 as [-> _], E3 as [-> _].
  apply negb_false_iff in N. rewrite !andb_true_iff in N.
  unfold ok_img; simpl. rewrite repeat_length. assert (0 <= r * c * p) by nia.
  rewrite Z2Nat.id by auto. repeat split; try lia.
Qed.

Lemma run_ok {A} (z : A) al ops : forall im im', ok_img im -> run z al ops im = Ok im' -> ok_img im'.
Proof.
  induction ops as [|[c r p|] t IH]; intros im im' O E; simpl in E.
  - inversion E; subst; auto.
  - apply bind_ok in E. destruct E as (im1 & E1 & E). eapply IH; [|exact E]. eapply set_size_ok; eauto.
  - eapply IH; [|exact E]. unfold ok_img; simpl; lia.
Qed.
Lemma img0_ok {A} : ok_img (@img0 A).
Proof. unfold ok_img; simpl; lia. Qed.

Lemma offset_range {A} (im : img A) c r p : ok_img im ->
  0 <= c < icols im -> 0 <= r < irows im -> 0 <= p < iplanes im ->
  0 <= offset im c r p < Z.of_nat (length (idata im)).
Proof.
  intros (_ & _ & _ & (E1 & E2) & L) Hc Hr Hp. unfold offset. rewrite E1, E2, L.
  assert (0 <= c + r * icols im < irows im * icols im) by nia.
  assert ((p + 1) * (irows im * icols im) <= iplanes im * (irows im * icols im)) by (apply Z.mul_le_mono_nonneg_r; nia).
  nia.
Qed.
Lemma offset_inj {A} (im : img A) c r p c' r' p' : ok_img im ->
  0 <= c < icols im -> 0 <= r < irows im -> 0 <= p < iplanes im ->
  0 <= c' < icols im -> 0 <= r' < irows im -> 0 <= p' < iplanes im ->
  offset im c r p = offset im c' r' p' -> c = c' /\ r = r' /\ p = p'.
Proof.
  intros (_ & _ & _ & (E1 & E2) & L) Hc Hr Hp Hc' Hr' Hp'. unfold offset. rewrite E1, E2. intros E.
  assert (0 <= c + r * icols im < irows im * icols im) by nia.
  assert (0 <= c' + r' * icols im < irows im * icols im) by nia.
  assert (p = p') by (destruct (Z.lt_trichotomy p p') as [G|[G|G]]; [exfalso; nia|auto|exfalso; nia]). subst p'.
  assert (r = r') by (destruct (Z.lt_trichotomy r r') as [G|[G|G]]; [exfalso; nia|auto|exfalso; nia]). subst r'.
  lia.
Qed.

(* ---------------- iteration ---------------- *)
Lemma it_at w h n : 0 < w -> 0 < h -> w * h <= 2147483648 -> 0 <= n -> n / (w * h) <= i32_max ->
  let a := It w h n (w * h) in
  it_col a = Ok (n mod (w * h) mod w) /\ it_row a = Ok (n mod (w * h) / w) /\ it_plane a = Ok (n / (w * h)).
Proof.
  intros W H B N P a. assert (P0 : 0 < w * h) by nia.
  unfold it_col, it_row, it_plane, crem, cdiv, a. cbn [it_idx it_ppp it_w].
  destruct (Z.eqb_spec (w * h) 0); [lia|]. destruct (Z.eqb_spec w 0); [lia|]. cbn [bind].
  rewrite (Z.rem_mod_nonneg n (w * h)), (Z.quot_div_nonneg n (w * h)) by lia.
  pose proof (Z.mod_pos_bound n (w * h) P0).
  rewrite wrap_i32_id by (unfold i32_ok, i32_min, i32_max; lia).
  rewrite wrap_i32_id by (pose proof (Z.div_pos n (w * h) N P0); unfold i32_ok, i32_min; lia).
  rewrite Z.rem_mod_nonneg, Z.quot_div_nonneg by lia. auto.
Qed.

(* Raster order: every pixel of every plane, plane by plane, row by row. *)
Definition raster (w h planes : Z) : list (Z * Z * Z) :=
  flat_map (fun p => flat_map (fun r => map (fun c => (c, r, p)) (zrange 0 w)) (zrange 0 h)) (zrange 0 planes).

Definition coords (w h n : Z) : Z * Z * Z := (n mod (w * h) mod w, n mod (w * h) / w, n / (w * h)).

Lemma walk_eq w h : 0 < w -> 0 < h -> w * h <= 2147483648 -> forall k n total fuel,
  0 <= n -> total = n + Z.of_nat k -> total <= i32_max * (w * h) -> (k < fuel)%nat ->
  walk fuel (It w h n (w * h)) (It w h total (w * h)) = Ok (map (coords w h) (zseq n k)).
Proof.
  intros W H B. induction k; intros n total fuel N T M F; destruct fuel; try lia; cbn [walk].
  - unfold it_equal; cbn [it_idx]. destruct (Z.eqb_spec n total); [|lia]. reflexivity.
  - unfold it_equal; cbn [it_idx]. destruct (Z.eqb_spec n total); [lia|].
    assert (n / (w * h) <= i32_max) by (apply Z.div_le_upper_bound; nia).
    destruct (it_at w h n W H B N) as (-> & -> & ->); auto. cbn [bind].
    unfold it_inc; cbn [it_w it_h it_idx it_ppp].
    rewrite IHk by lia. reflexivity.
Qed.

Lemma zseq_shift a n : forall b, zseq (a + b) n = map (fun k => a + k) (zseq b n).
Proof. induction n; intros; simpl; auto. rewrite <- IHn. do 2 f_equal. ring. Qed.

Lemma map_coords_row w h r p : 0 < w -> 0 < h -> 0 <= r < h -> 0 <= p ->
  map (coords w h) (zseq (p * (w * h) + r * w) (Z.to_nat w)) = map (fun c => (c, r, p)) (zrange 0 w).
Proof.
  intros W H Hr Hp. unfold zrange. rewrite Z.sub_0_r.
  replace (p * (w * h) + r * w) with (p * (w * h) + r * w + 0) by ring.
  rewrite zseq_shift, map_map. apply map_ext_in. intros c Hc. apply in_zseq in Hc.
  assert (0 <= c < w) by lia.
  unfold coords.
  assert (0 <= r * w + c < w * h) by nia.
  assert (E1 : (p * (w * h) + r * w + c) mod (w * h) = r * w + c).
  { symmetry. apply Z.mod_unique with (q := p); [left; auto|ring]. }
  assert (E2 : (p * (w * h) + r * w + c) / (w * h) = p).
  { symmetry. apply Z.div_unique with (r := r * w + c); [left; auto|ring]. }
  rewrite E1, E2.
  assert (E3 : (r * w + c) mod w = c) by (symmetry; apply Z.mod_unique with (q := r); [left; auto|ring]).
  assert (E4 : (r * w + c) / w = r) by (symmetry; apply Z.div_unique with (r := c); [left; auto|ring]).
  rewrite E3, E4. reflexivity.
Qed.

Lemma map_coords_rows w h p : 0 < w -> 0 < h -> 0 <= p -> forall k r, 0 <= r -> r + Z.of_nat k <= h ->
  map (coords w h) (zseq (p * (w * h) + r * w) (k * Z.to_nat w)) =
  flat_map (fun r => map (fun c => (c, r, p)) (zrange 0 w)) (zseq r k).
Proof.
  intros W H Hp. induction k; intros r Hr Hk; [reflexivity|].
  cbn [zseq flat_map Nat.mul]. rewrite zseq_app, map_app. f_equal; [apply map_coords_row; lia|].
  rewrite <- IHk by lia. rewrite Z2Nat.id by lia. f_equal. f_equal. ring.
Qed.

Lemma map_coords_planes w h : 0 < w -> 0 < h -> forall k p, 0 <= p ->
  map (coords w h) (zseq (p * (w * h)) (k * (Z.to_nat h * Z.to_nat w))) =
  flat_map (fun p => flat_map (fun r => map (fun c => (c, r, p)) (zrange 0 w)) (zrange 0 h)) (zseq p k).
Proof.
  intros W H. induction k; intros p Hp; [reflexivity|].
  cbn [zseq flat_map Nat.mul]. rewrite zseq_app, map_app. f_equal.
  - pose proof (map_coords_rows w h p W H Hp (Z.to_nat h) 0) as E. rewrite Z.mul_0_l, Z.add_0_r in E.
    rewrite E by lia. unfold zrange. rewrite (Z.sub_0_r h). reflexivity.
  - rewrite <- IHk by lia. f_equal. f_equal. nia.
Qed.

Lemma walk_raster w h planes fuel : 0 < w -> 0 < h -> w * h <= 2147483648 -> 0 <= planes <= i32_max ->
  (Z.to_nat (planes * (w * h)) < fuel)%nat ->
  (b <- it_begin w h ;; e <- it_end w h planes ;; walk fuel b e) = Ok (raster w h planes).
Proof.
  intros W H B P F. unfold it_begin, it_end, mk_iter.
  rewrite mul32_ok by (unfold i32_ok, i32_min, i32_max; lia). cbn [bind].
  replace (0 * (w * h) + 0 * w + 0) with 0 by ring.
  replace (planes * (w * h) + 0 * w + 0) with (planes * (w * h)) by ring.
  assert (0 <= planes * (w * h)) by nia.
  rewrite (walk_eq w h W H B (Z.to_nat (planes * (w * h))) 0 (planes * (w * h)) fuel); try lia; [|nia].
  unfold raster, zrange at 3. rewrite Z.sub_0_r.
  pose proof (map_coords_planes w h W H (Z.to_nat planes) 0) as E. rewrite Z.mul_0_l in E.
  rewrite <- E by lia. do 3 f_equal. rewrite <- !Z2Nat.inj_mul by nia. f_equal. ring.
Qed.

Lemma in_raster w h planes c r p : In (c, r, p) (raster w h planes) <-> 0 <= c < w /\ 0 <= r < h /\ 0 <= p < planes.
Proof.
  unfold raster. rewrite in_flat_map. split.
  - intros (p' & Hp & H). rewrite in_flat_map in H. destruct H as (r' & Hr & H).
    apply in_map_iff in H. destruct H as (c' & E & Hc). inversion E; subst.
    rewrite in_zrange in *. lia.
  - intros (Hc & Hr & Hp). exists p. split; [apply in_zrange; lia|]. apply in_flat_map.
    exists r. split; [apply in_zrange; lia|]. apply in_map_iff. exists c. split; auto. apply in_zrange; lia.
Qed.
Lemma nodup_raster w h planes : NoDup (raster w h planes).
Proof.
  assert (F : forall X Y (f : X -> list Y) (g : Y -> X) l, NoDup l -> (forall a b, In b (f a) -> g b = a) ->
    (forall a, NoDup (f a)) -> NoDup (flat_map f l)).
  { intros X Y f g l N G F. induction N; simpl; [constructor|]. apply nodup_app_intro; auto.
    intros y Hy Hy'. apply in_flat_map in Hy'. destruct Hy' as (z & Hz & Hy').
    apply G in Hy. apply G in Hy'. congruence. }
  unfold raster. apply F with (g := snd); [apply zrange_nodup| |].
  - intros a [[i j] p] H. rewrite in_flat_map in H. destruct H as (j' & Hj & H).
    apply in_map_iff in H. destruct H as (i' & E & Hi). inversion E; auto.
  - intros p. apply F with (g := fun q => snd (fst q)); [apply zrange_nodup| |].
    + intros a [[i j] p'] H. apply in_map_iff in H. destruct H as (i' & E & Hi). inversion E; auto.
    + intros j. apply FinFun.Injective_map_NoDup; [|apply zrange_nodup].
      intros a b E. inversion E; auto.
Qed.

(* ---------------- line iterator ---------------- *)
Lemma l_walk_eq fuel : forall x y w h dc dr, (dc <> 0 \/ dr <> 0) -> -1 <= dc <= 1 -> -1 <= dr <= 1 ->
  Z.max 0 (if dc =? 0 then (if dr >? 0 then h - y else y + 1) else if dc >? 0 then w - x else x + 1) < Z.of_nat fuel ->
  exists n, l_walk fuel (LIt x y w h dc dr) =
     Ok (map (fun k => (x + k * dc, y + k * dr)) (zseq 0 n)) /\
     (forall k, 0 <= k < Z.of_nat n -> 0 <= x + k * dc < w /\ 0 <= y + k * dr < h) /\
     ~ (0 <= x + Z.of_nat n * dc < w /\ 0 <= y + Z.of_nat n * dr < h).
Proof.
  induction fuel; intros x y w h dc dr NZ C R F; [lia|].
  cbn [l_walk]. unfold l_good; cbn [l_col l_row l_w l_h].
  destruct ((x >=? 0) && (y >=? 0) && (x <? w) && (y <? h)) eqn:G.
  - rewrite !andb_true_iff in G.
    destruct (IHfuel (x + dc) (y + dr) w h dc dr NZ C R) as (n & E & I & O).
    { destruct (Z.eqb_spec dc 0); [destruct (Z.gtb_spec dr 0)|destruct (Z.gtb_spec dc 0)]; lia. }
    exists (S n). unfold l_inc; cbn [l_col l_row l_w l_h l_dc l_dr]. rewrite E. cbn [bind zseq map]. split; [|split].
    + f_equal. f_equal; [f_equal; ring|]. 
      assert (Sh : forall m a, zseq (a + 1) m = map (fun k => k + 1) (zseq a m)).
      { induction m; intros; simpl; auto. rewrite IHm. reflexivity. }
      rewrite Sh. rewrite map_map. apply map_ext. intros k. f_equal; ring.
    + intros k Hk. destruct (Z.eq_dec k 0); [subst; lia|].
      specialize (I (k - 1)). replace (x + k * dc) with (x + dc + (k - 1) * dc) by ring.
      replace (y + k * dr) with (y + dr + (k - 1) * dr) by ring. apply I. lia.
    + rewrite Nat2Z.inj_succ.
      replace (x + Z.succ (Z.of_nat n) * dc) with (x + dc + Z.of_nat n * dc) by ring.
      replace (y + Z.succ (Z.of_nat n) * dr) with (y + dr + Z.of_nat n * dr) by ring. exact O.
  - exists 0%nat. split; [reflexivity|]. split; [lia|]. rewrite <- not_true_iff_false, !andb_true_iff in G. lia.
Qed.

From Coq Require Import ZArith List Lia Bool.
From Verif Require Import Lib.Base Lib.Img BBox.Box2 Corr.Model Corr.Spec.
Import ListNotations.
Local Open Scope Z_scope.

(* sums over ranges *)
Lemma zrange_snoc a b : a <= b -> zrange a (b + 1) = zrange a b ++ [b].
Proof.
  intros H. rewrite (zrange_app a b (b + 1)) by lia. f_equal. rewrite zrange_cons by lia. now rewrite zrange_nil by lia.
Qed.
Lemma zrange_shift a b c : zrange (a + c) (b + c) = map (fun x => x + c) (zrange a b).
Proof.
  unfold zrange. replace (b + c - (a + c)) with (b - a) by lia. generalize (Z.to_nat (b - a)). intros n. revert a.
  induction n; intros a; cbn [zseq map]; auto. f_equal. rewrite <- IHn. f_equal. lia.
Qed.
Lemma sum_snoc f k : 0 <= k -> zsum (map f (zrange 0 (k + 1))) = zsum (map f (zrange 0 k)) + f k.
Proof. intros H. rewrite zrange_snoc by lia. rewrite map_app, zsum_app. cbn. lia. Qed.
Lemma sum_cons f k : 0 <= k -> zsum (map f (zrange 0 (k + 1))) = f 0 + zsum (map (fun i => f (i + 1)) (zrange 0 k)).
Proof.
  intros H. rewrite zrange_cons by lia. cbn [map zsum fold_right]. f_equal.
  change (0 + 1) with 1. replace 1 with (0 + 1) at 1 by lia. rewrite zrange_shift, map_map. reflexivity.
Qed.
Lemma sum_ext (f g : Z -> Z) k : (forall i, 0 <= i < k -> f i = g i) -> zsum (map f (zrange 0 k)) = zsum (map g (zrange 0 k)).
Proof. intros H. f_equal. apply map_ext_in. intros a Ha. apply in_zrange in Ha. auto. Qed.
Lemma sum_add (f g : Z -> Z) l : zsum (map (fun i => f i + g i) l) = zsum (map f l) + zsum (map g l).
Proof. induction l; cbn [map zsum fold_right]; [reflexivity|]. unfold zsum in IHl. rewrite IHl. lia. Qed.
Lemma sum_swap (f : Z -> Z -> Z) (l m : list Z) :
  zsum (map (fun i => zsum (map (fun j => f i j) m)) l) = zsum (map (fun j => zsum (map (fun i => f i j) l)) m).
Proof.
  induction l; cbn [map zsum fold_right].
  - induction m; cbn [map zsum fold_right]; auto.
  - rewrite sum_add. unfold zsum in *. rewrite IHl. reflexivity.
Qed.
Lemma win_slide s x k : 0 <= k ->
  zsum (map (fun i => s (x + 1 + i)) (zrange 0 k)) = zsum (map (fun i => s (x + i)) (zrange 0 k)) + (s (x + k) - s x).
Proof.
  intros H. pose proof (sum_snoc (fun i => s (x + i)) k H) as A. pose proof (sum_cons (fun i => s (x + i)) k H) as B.
  cbn beta in A, B. rewrite A in B. rewrite Z.add_0_r in B.
  rewrite (sum_ext _ (fun i => s (x + (i + 1)))) by (intros; f_equal; lia). lia.
Qed.

(* the column sums *)
Lemma col_pass_ok f s s' n : forall a, (forall x, a <= x < a + Z.of_nat n -> f (s x) x = Ok (s' x)) ->
  col_pass f (map s (zseq a n)) a = Ok (map s' (zseq a n)).
Proof.
  induction n; intros a H; cbn [zseq map col_pass]; [reflexivity|].
  rewrite H by lia. cbn [bind]. rewrite IHn by (intros; apply H; lia). reflexivity.
Qed.
Lemma col_pass_ok0 f s s' w : (forall x, 0 <= x < w -> f (s x) x = Ok (s' x)) ->
  col_pass f (map s (zrange 0 w)) 0 = Ok (map s' (zrange 0 w)).
Proof. intros H. unfold zrange. apply col_pass_ok. intros x Hx. apply H. lia. Qed.
Lemma at_map (s : Z -> Z) w i : 0 <= i < w -> at_ (map s (zrange 0 w)) i = Ok (s i).
Proof.
  intros H. unfold at_. rewrite map_length, zrange_length.
  replace (0 <=? i) with true by (symmetry; apply Z.leb_le; lia).
  replace (i <? Z.of_nat (Z.to_nat (w - 0))) with true by (symmetry; apply Z.ltb_lt; lia). cbn [andb].
  rewrite (nth_error_nth' _ 0) by (rewrite map_length, zrange_length; lia).
  rewrite (nth_indep _ 0 (s 0)) by (rewrite map_length, zrange_length; lia).
  rewrite map_nth. unfold zrange. rewrite zseq_nth by lia. do 2 f_equal. lia.
Qed.

Lemma raster_snoc w h : 0 <= h -> raster w (h + 1) = raster w h ++ map (fun x => (x, h)) (zrange 0 w).
Proof. intros Hh. unfold raster. rewrite zrange_snoc by lia. rewrite flat_map_app. cbn [flat_map]. now rewrite app_nil_r. Qed.
Lemma raster_length w h : 0 <= w -> 0 <= h -> Z.of_nat (length (raster w h)) = w * h.
Proof.
  intros Hw Hh. pattern h. apply natlike_ind; auto; [unfold raster; rewrite (zrange_nil 0 0) by lia; cbn; lia|].
  intros x Hx IH. unfold Z.succ. rewrite raster_snoc by lia. rewrite app_length, map_length, zrange_length.
  rewrite Nat2Z.inj_add, IH. lia.
Qed.

Definition col_sum (f : Z -> Z -> Z) (ky y x : Z) : Z := zsum (map (fun j => f x (y + j)) (zrange 0 ky)).

Section Sum.
Variables (input : img Z) (kx ky : Z).
Let W := icols input.
Let H := irows input.
Let P := pix input.
Hypotheses (Hkx : 1 <= kx <= W) (Hky : 1 <= ky <= H).

Lemma first_sums_ok : first_sums input ky = Ok (map (col_sum P ky 0) (zrange 0 W)).
Proof.
  unfold first_sums.
  destruct (for_up_inv (fun r s => s = map (col_sum P r 0) (zrange 0 W))
    (fun row sums => col_pass (fun c x => p <- get input x row ;; Ok (c + p)) sums 0) 0 ky (repeat 0 (Z.to_nat W)))
    as (s' & E & ->); [lia| | |exact E].
  - assert (A : forall a n, repeat 0 n = map (col_sum P 0 0) (zseq a n)).
    { intros a n; revert a; induction n; intros a; cbn [repeat zseq map]; [reflexivity|]. rewrite (IHn (a + 1)). reflexivity. }
    unfold zrange. replace (Z.to_nat (W - 0)) with (Z.to_nat W) by lia. apply A.
  - intros r s Hr ->. eexists. split; [|reflexivity].
    apply col_pass_ok0. intros x Hx. rewrite get_in by (split; unfold W, H in *; lia). cbn [bind]. f_equal.
    unfold col_sum. rewrite sum_snoc by lia. rewrite Z.add_0_l. reflexivity.
Qed.

Lemma slide_ok row : 0 <= row -> row + ky < H ->
  slide input ky row (map (col_sum P ky row) (zrange 0 W)) = Ok (map (col_sum P ky (row + 1)) (zrange 0 W)).
Proof.
  intros R0 R1. unfold slide. apply col_pass_ok0. intros x Hx.
  rewrite !get_in by (split; unfold W, H in *; lia). cbn [bind]. f_equal. unfold col_sum.
  rewrite (win_slide (fun j => P x j) row ky) by lia. unfold P. lia.
Qed.

Lemma seed_ok (s : Z -> Z) : seed (map s (zrange 0 W)) kx = Ok (zsum (map s (zrange 0 kx))).
Proof.
  unfold seed.
  destruct (for_up_inv (fun k a => a = zsum (map s (zrange 0 k)))
    (fun i t => c <- at_ (map s (zrange 0 W)) i ;; Ok (t + c)) 0 kx 0) as (s' & E & ->); [lia|reflexivity| |exact E].
  intros k a Hk ->. rewrite at_map by lia. cbn [bind]. eexists. split; [reflexivity|]. rewrite sum_snoc by lia. reflexivity.
Qed.

Lemma write_ok room out v : Z.of_nat (length out) < room -> write room out v = Ok (out ++ [v]).
Proof. intros L. unfold write. replace (Z.of_nat (length out) <? room) with true; auto. symmetry. apply Z.ltb_lt. auto. Qed.

Lemma sum_row_ok (s : Z -> Z) room out : Z.of_nat (length out) + (W - kx + 1) <= room ->
  sum_row (map s (zrange 0 W)) kx room out =
  Ok (out ++ map (fun x => zsum (map (fun i => s (x + i)) (zrange 0 kx))) (zrange 0 (W - kx + 1))).
Proof.
  intros R. unfold sum_row. rewrite seed_ok. cbn [bind]. rewrite map_length, zrange_length.
  replace (Z.of_nat (Z.to_nat (W - 0))) with W by lia.
  replace (W <? kx) with false by (symmetry; apply Z.ltb_ge; lia).
  destruct (for_up_inv (fun k st => st = (out ++ map (fun x => zsum (map (fun i => s (x + i)) (zrange 0 kx))) (zrange 0 (k - kx)),
      zsum (map (fun i => s (k - kx + i)) (zrange 0 kx))))
    (fun front st => let '(out, row_sum) := st in
      out <- write room out row_sum ;;
      f <- at_ (map s (zrange 0 W)) front ;; b <- at_ (map s (zrange 0 W)) (front - kx) ;;
      Ok (out, row_sum + (f - b))) kx W (out, zsum (map s (zrange 0 kx)))) as (st & E & F); [lia| | |].
  - rewrite Z.sub_diag. rewrite (zrange_nil 0 0) by lia. cbn [map]. rewrite app_nil_r. reflexivity.
  - intros k st Hk ->. rewrite write_ok by (rewrite app_length, map_length, zrange_length; lia).
    cbn [bind]. rewrite !at_map by lia. cbn [bind]. eexists. split; [reflexivity|]. f_equal.
    + rewrite <- app_assoc. f_equal. replace (k + 1 - kx) with (k - kx + 1) by lia. rewrite zrange_snoc by lia.
      rewrite map_app. reflexivity.
    + replace (k + 1 - kx) with (k - kx + 1) by lia. rewrite win_slide by lia. replace (k - kx + kx) with k by lia. reflexivity.
  - rewrite E, F. cbn [bind]. rewrite write_ok by (rewrite app_length, map_length, zrange_length; lia).
    f_equal. rewrite <- app_assoc. f_equal. rewrite zrange_snoc by lia. rewrite map_app. reflexivity.
Qed.

Lemma fast_box_sum_ok : Z.rem kx 2 = 1 -> Z.rem ky 2 = 1 ->
  fast_box_sum input kx ky =
  Ok (map (fun p => box_sum P (fst p) (snd p) kx ky) (raster (W - kx + 1) (H - ky + 1))).
Proof.
  intros Ox Oy. unfold fast_box_sum. rewrite Ox, Oy. cbn [Z.eqb Pos.eqb andb negb].
  fold W H. replace (W - kx + 1 <? 0) with false by (symmetry; apply Z.ltb_ge; lia).
  replace (H - ky + 1 <? 0) with false by (symmetry; apply Z.ltb_ge; lia). cbn [orb].
  rewrite first_sums_ok. cbn [bind]. destruct (Z.eqb_spec (H - ky + 1) 0) as [e|_]; [lia|].
  set (bs := fun p : Z * Z => box_sum P (fst p) (snd p) kx ky).
  assert (Row : forall y out, Z.of_nat (length out) + (W - kx + 1) <= (W - kx + 1) * (H - ky + 1) ->
    sum_row (map (col_sum P ky y) (zrange 0 W)) kx ((W - kx + 1) * (H - ky + 1)) out =
    Ok (out ++ map bs (map (fun x => (x, y)) (zrange 0 (W - kx + 1))))).
  { intros y out Ho. rewrite sum_row_ok by auto. do 2 f_equal. rewrite map_map. apply map_ext. intros x.
    unfold bs, box_sum, col_sum. cbn [fst snd]. apply sum_swap. }
  destruct (for_up_inv (fun y st => st = (map (col_sum P ky y) (zrange 0 W), map bs (raster (W - kx + 1) y)))
    (fun row st => let '(sums, out) := st in
      out <- sum_row sums kx ((W - kx + 1) * (H - ky + 1)) out ;;
      sums <- slide input ky row sums ;; Ok (sums, out)) 0 (H - ky + 1 - 1)
    (map (col_sum P ky 0) (zrange 0 W), [])) as (st & E & F); [lia| | |].
  - unfold raster at 1. rewrite (zrange_nil 0 0) by lia. reflexivity.
  - intros y st Hy ->. rewrite Row by (rewrite map_length, raster_length by lia; nia). cbn [bind].
    rewrite slide_ok by lia. cbn [bind]. eexists. split; [reflexivity|]. f_equal. rewrite raster_snoc by lia.
    rewrite map_app. reflexivity.
  - rewrite E, F. cbn [bind]. rewrite Row by (rewrite map_length, raster_length by lia; nia). f_equal.
    rewrite raster_snoc by lia. rewrite map_app. replace (H - ky + 1 - 1) with (H - ky) by lia. reflexivity.
Qed.
End Sum.

(* entries of rasterised images *)
Lemma nth_error_zrange_map {A} (f : Z -> A) w x : 0 <= x < w -> nth_error (map f (zrange 0 w)) (Z.to_nat x) = Some (f x).
Proof.
  intros H. apply map_nth_error. unfold zrange. rewrite (nth_error_nth' _ 0) by (rewrite zseq_length; lia).
  rewrite zseq_nth by lia. f_equal. lia.
Qed.
Lemma raster_entry w h x y : 0 <= x < w -> 0 <= y < h -> entry (raster w h) w x y (x, y).
Proof.
  intros Hx Hy. unfold entry. assert (H0 : 0 <= h) by lia. revert y Hy. pattern h. apply natlike_ind; [intros; lia| |lia].
  intros k Hk IH y Hy. unfold Z.succ in *. rewrite raster_snoc by lia.
  pose proof (raster_length w k ltac:(lia) Hk) as L.
  destruct (Z.eq_dec y k) as [->|N].
  - rewrite nth_error_app2 by nia. replace (Z.to_nat (k * w + x) - length (raster w k))%nat with (Z.to_nat x) by nia.
    apply (nth_error_zrange_map (fun x => (x, k))). auto.
  - rewrite nth_error_app1 by nia. apply IH. lia.
Qed.
Lemma entry_map {A B} (f : A -> B) l w x y a : entry l w x y a -> entry (map f l) w x y (f a).
Proof. unfold entry. apply map_nth_error. Qed.
Lemma in_raster w h p : In p (raster w h) <-> 0 <= fst p < w /\ 0 <= snd p < h.
Proof.
  unfold raster. rewrite in_flat_map. split.
  - intros (y & Hy & I). apply in_map_iff in I. destruct I as (x & <- & Hx). apply in_zrange in Hy, Hx. cbn. lia.
  - intros [Hx Hy]. destruct p as [x y]. exists y. split; [apply in_zrange; auto|]. apply in_map_iff. exists x. split; auto. apply in_zrange. auto.
Qed.

Lemma read_list_ok {A} (f : Z -> Z -> res A) g l : (forall p, In p l -> f (fst p) (snd p) = Ok (g p)) ->
  read_list f l = Ok (map g l).
Proof.
  induction l as [|[x y] l IH]; intros H; cbn [read_list map]; auto.
  pose proof (H (x, y) (or_introl eq_refl)) as E. cbn [fst snd] in E. rewrite E. cbn [bind].
  rewrite IH by (intros; apply H; right; auto). reflexivity.
Qed.
Lemma rasterize_ok f g w h : (forall x y, 0 <= x < w -> 0 <= y < h -> f x y = Ok (g x y)) ->
  exists m, rasterize f w h = Ok m /\ icols m = w /\ irows m = h /\
    forall x y, 0 <= x < w -> 0 <= y < h -> pix m x y = g x y.
Proof.
  intros Hf. unfold rasterize. rewrite (read_list_ok f (fun p => g (fst p) (snd p))).
  - cbn [bind]. eexists. split; [reflexivity|]. cbn [of_list icols irows pix]. split; auto. split; auto.
    intros x y Hx Hy. pose proof (entry_map (fun p => g (fst p) (snd p)) _ _ _ _ _ (raster_entry w h x y Hx Hy)) as E.
    unfold entry in E. cbn [fst snd] in E. apply nth_error_nth with (d := 0) in E. auto.
  - intros p Hp. apply in_raster in Hp. apply Hf; tauto.
Qed.

Lemma pixel_cost_eq k a b : pixel_cost k a b = mismatch k a b.
Proof. destruct k; cbn [pixel_cost mismatch]; [destruct (Z.ltb_spec a b); lia|ring]. Qed.

Lemma box_sum_ext f g x y kx ky : (forall i j, x <= i < x + kx -> y <= j < y + ky -> f i j = g i j) ->
  box_sum f x y kx ky = box_sum g x y kx ky.
Proof. intros H. unfold box_sum. apply sum_ext. intros j Hj. apply sum_ext. intros i Hi. apply H; lia. Qed.

Lemma Forall2_weak {A B} (P Q : A -> B -> Prop) l m : (forall a b, P a b -> Q a b) -> Forall2 P l m -> Forall2 Q l m.
Proof. intros H F. induction F; constructor; auto. Qed.

Lemma Forall2_len {A B} (P : A -> B -> Prop) l m : Forall2 P l m -> length l = length m.
Proof. intros F. induction F; cbn; auto. Qed.

Section Search.
Variables (k : cost) (left right : img Z) (sx sy kx ky : Z).
Let W := icols left.
Let H := irows left.
Hypotheses (Hkx : 1 <= kx <= W) (Hky : 1 <= ky <= H) (Ox : Z.rem kx 2 = 1) (Oy : Z.rem ky 2 = 1).
Hypotheses (Hsx : 1 <= sx) (Hsy : 1 <= sy).
Hypotheses (Rw : W + sx - 1 <= icols right) (Rh : H + sy - 1 <= irows right).
Let C (p d : Z * Z) := score k (pix left) (pix right) kx ky (fst p) (snd p) d.
Let R := raster (W - kx + 1) (H - ky + 1).

Lemma costs_ok d : candidate sx sy d -> costs_of k left right kx ky d = Ok (map (fun p => C p d) R).
Proof.
  intros [Dx Dy]. unfold costs_of. fold W H.
  destruct (rasterize_ok (fun x y => get right (x + fst d) (y + snd d)) (fun x y => pix right (x + fst d) (y + snd d)) W H)
    as (rc & -> & c1 & r1 & P1).
  { intros x y Hx Hy. apply get_in. split; lia. }
  cbn [bind].
  destruct (rasterize_ok (fun x y => a <- get left x y ;; b <- get rc x y ;; Ok (pixel_cost k a b))
    (fun x y => mismatch k (pix left x y) (pix right (x + fst d) (y + snd d))) W H) as (ap & -> & c2 & r2 & P2).
  { intros x y Hx Hy. rewrite !get_in by (split; unfold W, H in *; lia). cbn [bind]. rewrite pixel_cost_eq, P1 by auto. reflexivity. }
  cbn [bind]. rewrite (fast_box_sum_ok ap kx ky) by (rewrite ?c2, ?r2; auto). f_equal. rewrite c2, r2. fold R.
  apply map_ext_in. intros p Hp. apply in_raster in Hp. unfold C, score. apply box_sum_ext. intros i j Hi Hj.
  apply P2; lia.
Qed.

(* the state of one pixel once the candidates of D have been tried *)
Definition good (c : Z * Z -> Z) (D : Z * Z -> Prop) (q : qual) : Prop :=
  (forall d, D d -> best q <= c d <= worst q) /\ D (at_disp q) /\ c (at_disp q) = best q /\
  (forall d, D d -> before d (at_disp q) -> best q < c d) /\ (exists d, D d /\ c d = worst q).
Definition tried (x y : Z) (d : Z * Z) : Prop :=
  0 <= fst d < sx /\ 0 <= snd d /\ (snd d < y \/ (snd d = y /\ fst d < x)).
Definition state (x y : Z) (c : Z * Z -> Z) (q : qual) : Prop :=
  (x = 0 /\ y = 0 /\ at_disp q = (0, 0)) \/ ((0 < x \/ 0 < y) /\ good c (tried x y) q).

Lemma update_ok x y c q : 0 <= x < sx -> 0 <= y -> state x y c q -> state (x + 1) y c (update (x, y) (c (x, y)) q).
Proof.
  intros Hx Hy [(-> & -> & E)|(Pos & (B & D & Eq & F & (w & Dw & Ew)))].
  - right. split; [lia|]. unfold update. cbn [fst snd Z.eqb andb negb]. rewrite E.
    assert (T : forall d, tried (0 + 1) 0 d -> d = (0, 0)).
    { intros [a b] T. unfold tried in T. cbn [fst snd] in T. f_equal; lia. }
    assert (T0 : tried (0 + 1) 0 (0, 0)) by (unfold tried; cbn [fst snd]; lia).
    split; [|split; [|split; [|split]]]; cbn [best worst at_disp].
    + intros d Td. rewrite (T d Td). lia.
    + auto.
    + auto.
    + intros d Td Bd. rewrite (T d Td) in Bd. unfold before in Bd. cbn in Bd. lia.
    + exists (0, 0). auto.
  - right. split; [lia|]. unfold update. cbn [fst snd].
    replace (negb ((x =? 0) && (y =? 0))) with true.
    2:{ destruct (Z.eqb_spec x 0), (Z.eqb_spec y 0); cbn; auto. lia. }
    assert (Told : forall d, tried x y d -> tried (x + 1) y d) by (unfold tried; intros; lia).
    assert (Tnew : forall d, tried (x + 1) y d -> tried x y d \/ d = (x, y)).
    { intros [a b] T. unfold tried in *. cbn [fst snd] in *.
      destruct (Z.eq_dec a x), (Z.eq_dec b y); subst; auto; left; lia. }
    assert (Tme : tried (x + 1) y (x, y)) by (unfold tried; cbn [fst snd]; lia).
    assert (Bme : forall d, tried x y d -> ~ before (x, y) d).
    { intros [a b] T Bf. unfold tried, before in *. cbn [fst snd] in *. lia. }
    destruct (Z.ltb_spec (c (x, y)) (best q)) as [L|L]; [|destruct (Z.ltb_spec (c (x, y)) (worst q)) as [M|M]];
      cbn [negb]; (split; [|split; [|split; [|split]]]); cbn [best worst at_disp]; auto.
    + intros d Td. destruct (Tnew d Td) as [To| ->]; [specialize (B d To); lia|].
      specialize (B w Dw). lia.
    + intros d Td Bd. destruct (Tnew d Td) as [To| ->]; [specialize (B d To); lia|].
      unfold before in Bd. cbn [fst snd] in Bd. lia.
    + exists w. auto.
    + intros d Td. destruct (Tnew d Td) as [To| ->]; [specialize (B d To); lia|]. lia.
    + intros d Td Bd. destruct (Tnew d Td) as [To| ->]; [auto|]. exfalso. exact (Bme _ D Bd).
    + exists w. auto.
    + intros d Td. destruct (Tnew d Td) as [To| ->]; [specialize (B d To); lia|]. lia.
    + intros d Td Bd. destruct (Tnew d Td) as [To| ->]; [auto|]. exfalso. exact (Bme _ D Bd).
    + exists (x, y). auto.
Qed.

Definition inv (x y : Z) (qs : list qual) : Prop := Forall2 (fun p q => state x y (C p) q) R qs.

Lemma update_all d qs (P Q : Z * Z -> qual -> Prop) : (forall p q, P p q -> Q p (update d (C p d) q)) ->
  forall l, Forall2 P l qs -> Forall2 Q l (map2 (update d) (map (fun p => C p d) l) qs).
Proof.
  intros HPQ l F. induction F; cbn [map map2]; constructor; auto.
Qed.

Lemma search_ok : exists qs,
  for_up 0 sy (fun dy q => for_up 0 sx (fun dx q =>
         c <- costs_of k left right kx ky (dx, dy) ;;
         Ok (map2 (update (dx, dy)) c q)) q) (repeat (Qual 0 0 (0, 0)) (Z.to_nat ((W - kx + 1) * (H - ky + 1)))) = Ok qs /\
  inv 0 sy qs.
Proof.
  apply (for_up_inv (inv 0)); [lia| |].
  - assert (L : length R = Z.to_nat ((W - kx + 1) * (H - ky + 1))).
    { apply Nat2Z.inj. unfold R. rewrite raster_length by lia. rewrite Z2Nat.id by nia. reflexivity. }
    rewrite <- L. unfold inv. clear L. generalize R. intros l. induction l; cbn [length repeat]; constructor; auto. left. auto.
  - intros dy q Hdy I0.
    destruct (for_up_inv (fun x => inv x dy) (fun dx q => c <- costs_of k left right kx ky (dx, dy) ;;
         Ok (map2 (update (dx, dy)) c q)) 0 sx q) as (q' & E & I'); [lia|auto| |].
    + intros dx q1 Hdx I1. rewrite costs_ok by (split; cbn [fst snd]; lia). cbn [bind]. eexists. split; [reflexivity|].
      unfold inv. apply (update_all (dx, dy) q1 (fun p q => state dx dy (C p) q)); auto. intros p q0 S0. apply update_ok; auto; lia.
    + exists q'. split; auto. unfold inv in *. eapply Forall2_weak; [|exact I']. intros p q0 S0. cbn beta in *.
      destruct S0 as [(X & _)|(_ & (B & D & Eq & F & (w & Dw & Ew)))]; [lia|]. right. split; [lia|].
      assert (T : forall d, tried sx dy d <-> tried 0 (dy + 1) d) by (unfold tried; intros; lia).
      unfold good. split; [intros d Td; apply B, T; auto|]. split; [apply T; auto|]. split; auto.
      split; [intros d Td; apply F, T; auto|]. exists w. split; auto. apply T. auto.
Qed.

Lemma best_of_search_ok : exists out, best_of_search k left right sx sy kx ky = Ok out /\
  Z.of_nat (length out) = (W - kx + 1) * (H - ky + 1) /\
  forall x y, 0 <= x < W - kx + 1 -> 0 <= y < H - ky + 1 -> exists p, entry out (W - kx + 1) x y p /\
    candidate sx sy (disp p) /\
    (forall d, candidate sx sy d -> C (x, y) (disp p) <= C (x, y) d) /\
    (forall d, candidate sx sy d -> before d (disp p) -> C (x, y) (disp p) < C (x, y) d) /\
    (valid p = true <-> exists d e, candidate sx sy d /\ candidate sx sy e /\ C (x, y) d <> C (x, y) e).
Proof.
  destruct search_ok as (qs & E & I0). unfold best_of_search. fold W H.
  replace (W - kx + 1 <? 0) with false by (symmetry; apply Z.ltb_ge; lia).
  replace (H - ky + 1 <? 0) with false by (symmetry; apply Z.ltb_ge; lia). cbn [orb].
  rewrite E. cbn [bind]. eexists. split; [reflexivity|]. split.
  - rewrite map_length. rewrite <- (Forall2_len _ _ _ I0). unfold R. rewrite raster_length by lia. reflexivity.
  - intros x y Hx Hy. pose proof (raster_entry _ _ x y Hx Hy) as Er. fold R in Er.
    assert (exists q, entry qs (W - kx + 1) x y q /\ state 0 sy (C (x, y)) q) as (q & Eq & S0).
    { unfold entry in *. unfold inv in I0. revert Er. generalize (Z.to_nat (y * (W - kx + 1) + x)). clear - I0.
      induction I0; intros [|n] Er; cbn [nth_error] in *; try discriminate.
      - injection Er as ->. eauto.
      - eauto. }
    eexists. split; [apply (entry_map _ _ _ _ _ _ Eq)|]. cbn [valid disp].
    destruct S0 as [(_ & X & _)|(_ & (B & D & Ed & F & (w & Dw & Ew)))]; [lia|].
    assert (T : forall d, tried 0 sy d <-> candidate sx sy d) by (unfold tried, candidate; intros; lia).
    split; [apply T; auto|]. split.
    { intros d Cd. rewrite Ed. apply B, T. auto. }
    split. { intros d Cd Bd. rewrite Ed. apply F; auto. apply T; auto. }
    split.
    + intros V. exists (at_disp q), w. split; [apply T; auto|]. split; [apply T; auto|]. rewrite Ed, Ew.
      destruct (Z.eqb_spec (best q) (worst q)); [discriminate|auto].
    + intros (d & e & Cd & Ce & N). destruct (Z.eqb_spec (best q) (worst q)) as [X|]; auto.
      pose proof (B d (proj2 (T d) Cd)). pose proof (B e (proj2 (T e) Ce)). lia.
Qed.
End Search.

Lemma calc_disparity_ok k left_in right_in region sx sy kx ky :
  let w := x1 region - x0 region in let h := y1 region - y0 region in
  1 <= kx <= w -> 1 <= ky <= h -> Z.rem kx 2 = 1 -> Z.rem ky 2 = 1 -> 1 <= sx -> 1 <= sy ->
  0 <= x0 region -> 0 <= y0 region -> x1 region <= icols left_in -> y1 region <= irows left_in ->
  x1 region + sx - 1 <= icols right_in -> y1 region + sy - 1 <= irows right_in ->
  exists out, calc_disparity k left_in right_in region sx sy kx ky = Ok out /\
  Z.of_nat (length out) = (w - kx + 1) * (h - ky + 1) /\
  forall x y, 0 <= x < w - kx + 1 -> 0 <= y < h - ky + 1 -> exists p, entry out (w - kx + 1) x y p /\
    let c := score k (pix left_in) (pix right_in) kx ky (x0 region + x) (y0 region + y) in
    candidate sx sy (disp p) /\
    (forall d, candidate sx sy d -> c (disp p) <= c d) /\
    (forall d, candidate sx sy d -> before d (disp p) -> c (disp p) < c d) /\
    (valid p = true <-> exists d e, candidate sx sy d /\ candidate sx sy e /\ c d <> c e).
Proof.
  intros w h Hkx Hky Ox Oy Hsx Hsy X0 Y0 X1 Y1 RX RY. unfold calc_disparity. fold w h.
  destruct (rasterize_ok (fun x y => get left_in (x + x0 region) (y + y0 region))
    (fun x y => pix left_in (x + x0 region) (y + y0 region)) w h) as (l & -> & cl & rl & Pl).
  { intros x y Hx Hy. apply get_in. unfold w, h in *. split; lia. }
  cbn [bind x0 y0 x1 y1].
  destruct (rasterize_ok (fun x y => get right_in (x + x0 region) (y + y0 region))
    (fun x y => pix right_in (x + x0 region) (y + y0 region)) (x1 region + (sx - 1) - x0 region) (y1 region + (sy - 1) - y0 region))
    as (r & -> & cr & rr & Pr).
  { intros x y Hx Hy. apply get_in. split; lia. }
  cbn [bind].
  destruct (best_of_search_ok k l r sx sy kx ky) as (out & E & L & F);
    try (rewrite ?cl, ?rl, ?cr, ?rr; unfold w, h in *; lia).
  exists out. split; [exact E|]. rewrite cl, rl in *. split; [exact L|].
  intros x y Hx Hy. destruct (F x y Hx Hy) as (p & Ep & Cp & B1 & B2 & V). exists p. split; [exact Ep|]. cbv zeta.
  assert (S0 : forall d, candidate sx sy d -> score k (pix left_in) (pix right_in) kx ky (x0 region + x) (y0 region + y) d =
    score k (pix l) (pix r) kx ky x y d).
  { intros d [Dx Dy]. unfold score, box_sum. apply sum_ext. intros j Hj. apply sum_ext. intros i Hi.
    rewrite Pl by lia. rewrite Pr by (unfold w, h in *; lia). f_equal; f_equal; lia. }
  split; [exact Cp|]. split; [|split].
  - intros d Cd. rewrite !S0 by auto. apply (B1 d Cd).
  - intros d Cd Bd. rewrite !S0 by auto. apply (B2 d Cd Bd).
  - cbn [fst snd] in V. rewrite V. split; intros (d & e & Cd & Ce & N); exists d, e; rewrite ?S0 in * by auto; auto.
Qed.

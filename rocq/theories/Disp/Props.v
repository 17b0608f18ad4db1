(** C72: a disparity map is masked, bounded and transformed pixel by pixel as its
    masks, search range and transform say, also when only a part is computed.
    C73: the filters of outliers and the resampling of a disparity map follow the
    pixels of the window around each pixel. *)
From Coq Require Import List ZArith QArith Qround Qabs Bool Lia Lqa Permutation Sorted.
From Verif Require Import Lib.Base Lib.Img BBox.Box2 Disp.Model Disp.Spec Disp.MProofs Disp.KProofs Disp.TProofs.
Import ListNotations.
Open Scope Q_scope.

(** ** C72 *)

(** A pixel of the masked map is the disparity if both masks are on, and is otherwise
    not valid. *)
Theorem masked_disparities disp m1 m2 i j : same_size m1 disp -> inside disp i j ->
  (shown disp m1 m2 i j -> mask_at (whole disp) (whole m1) (whole m2) i j = Ok (pix disp i j)) /\
  (~ shown disp m1 m2 i j -> mask_at (whole disp) (whole m1) (whole m2) i j = Ok no_px).
Proof.
  intros SS I. rewrite mask_whole by auto. destruct (masked_shown disp m1 m2 i j) as [A B]. split; intros H; [rewrite A|rewrite B]; auto.
Qed.

(** Computing the region [b] gives every pixel of it as the view does, without a
    search range, and with one that holds the disparities of the region. *)
Theorem masked_regions disp m1 m2 range b i j : same_size m1 disp -> within b disp -> inb b i j ->
  (range <> box_default -> forall x y, inb b x y -> pix m1 x y <> 0%Z -> valid (pix disp x y) = true ->
     inject_Z (x0 range) <= dx (pix disp x y) /\ dx (pix disp x y) < inject_Z (x1 range) + 1 /\
     inject_Z (y0 range) <= dy (pix disp x y) /\ dy (pix disp x y) < inject_Z (y1 range) + 1) ->
  (shown disp m1 m2 i j -> mask_rasterized disp m1 m2 range b i j = Ok (pix disp i j)) /\
  (~ shown disp m1 m2 i j -> mask_rasterized disp m1 m2 range b i j = Ok no_px).
Proof.
  intros SS W I HR. rewrite rasterized_ok by auto. destruct (masked_shown disp m1 m2 i j) as [A B]. split; intros H; [rewrite A|rewrite B]; auto.
Qed.
Definition ones (w h : Z) : img Z := Img w h (fun x y => if (x =? 3)%Z then 0%Z else 1%Z).
Definition four : img px := Img 4 2 (fun x y => if (x =? 2)%Z then no_px else (true, (3 # 2, inject_Z y - 1))).
Example masked_regions_met :
  map (fun i => mask_rasterized four (ones 4 2) (ones 6 2) (Box 0 (-1) 2 0) (Box 0 1 4 2) i 1) [0; 1; 2; 3]%Z =
  [Ok (true, (3 # 2, 0)); Ok (true, (3 # 2, 0)); Ok no_px; Ok no_px] /\
  map (fun i => mask_rasterized four (ones 4 2) (ones 6 2) box_default (Box 0 0 4 2) i 1) [0; 1; 2; 3]%Z =
  [Ok (true, (3 # 2, 0)); Ok (true, (3 # 2, 0)); Ok no_px; Ok no_px] /\
  map (fun i => mask_rasterized four (ones 4 2) (ones 6 2) box_default (Box 0 0 4 2) i 0) [0; 1; 2; 3]%Z = [Ok no_px; Ok no_px; Ok no_px; Ok no_px].
Proof. vm_compute. auto. Qed.

(** disparity_mask with a search range: a disparity outside the range, which a filter
    that moves the disparities can make, is looked up outside the part of the right
    mask that was copied to memory. *)
Theorem masked_regions_any_range_refuted : exists disp m1 m2 range b i j,
  same_size m1 disp /\ within b disp /\ inb b i j /\ valid (pix disp i j) = true /\
  shown disp m1 m2 i j /\ mask_rasterized disp m1 m2 range b i j = UB OutOfBounds.
Proof.
  exists (Img 2 1 (fun _ _ => (true, (4, 0)))), (Img 2 1 (fun _ _ => 1%Z)), (Img 9 1 (fun _ _ => 1%Z)), (Box 0 0 1 0), (Box 0 0 2 1), 1%Z, 0%Z.
  repeat split; try reflexivity; try discriminate; vm_compute; try reflexivity; discriminate.
Qed.

(** The range of a disparity map is the smallest box with all valid disparities, and
    zero if there are none. *)
Theorem disparity_range_exact m :
  ((forall x y, inside m x y -> valid (pix m x y) = false) -> disparity_range m = (0, 0, (0, 0))) /\
  ((exists x y, inside m x y /\ valid (pix m x y) = true) ->
   exists lx ly hx hy, disparity_range m = (lx, ly, (hx, hy)) /\
   (forall x y, inside m x y -> valid (pix m x y) = true ->
      lx <= dx (pix m x y) /\ dx (pix m x y) <= hx /\ ly <= dy (pix m x y) /\ dy (pix m x y) <= hy) /\
   (exists x y, inside m x y /\ valid (pix m x y) = true /\ dx (pix m x y) = lx) /\
   (exists x y, inside m x y /\ valid (pix m x y) = true /\ dy (pix m x y) = ly) /\
   (exists x y, inside m x y /\ valid (pix m x y) = true /\ dx (pix m x y) = hx) /\
   (exists x y, inside m x y /\ valid (pix m x y) = true /\ dy (pix m x y) = hy)).
Proof.
  unfold disparity_range. pose proof (ranges_spec m) as H. destruct (ranges m) as [[[lx ly] [hx hy]]|]; split.
  - destruct H as (_ & (x & y & I & V & _) & _). intros K. rewrite K in V by auto. discriminate.
  - intros _. exists lx, ly, hx, hy. auto.
  - auto.
  - intros (x & y & I & V). rewrite H in V by auto. discriminate.
Qed.
Example disparity_range_met : disparity_range (of_rows no_px [[no_px; (true, (2, -3))]; [(true, (-(1#2), 7)); no_px]]) = (-(1#2), -3, (2, 7)).
Proof. reflexivity. Qed.

(** disparity_range_mask keeps the valid disparities that point into the box, whose
    smallest corner has two equal coordinates. *)
Theorem range_mask_keeps mn max_x max_y p i j :
  let tx := inject_Z i + dx p in let ty := inject_Z j + dy p in
  let within_box := mn <= tx /\ tx < max_x - 1 /\ mn <= ty /\ ty < max_y - 1 in
  (valid p = true -> within_box -> range_mask mn mn max_x max_y p i j = p) /\
  (valid p = true -> ~ within_box -> valid (range_mask mn mn max_x max_y p i j) = false) /\
  (valid p = false -> range_mask mn mn max_x max_y p i j = p).
Proof.
  cbv zeta. unfold range_mask. destruct (valid p) eqn:V; [|repeat split; auto; discriminate].
  destruct (ltqP (inject_Z i + dx p) mn), (leqP (max_x - 1) (inject_Z i + dx p)), (ltqP (inject_Z j + dy p) mn), (leqP (max_y - 1) (inject_Z j + dy p));
    cbn [orb]; (split; [intros E H|split; [intros E H|intros E]]); auto; try discriminate; try lra.
Qed.
Example range_mask_met : range_mask 0 0 9 5 (true, (2, 1)) 3 1 = (true, (2, 1)) /\ range_mask 0 0 6 5 (true, (2, 1)) 3 1 = no_px /\ range_mask 0 0 9 5 (true, (2, -2)) 3 1 = no_px.
Proof. vm_compute. auto. Qed.

(** disparity_range_mask compares the rows to the smallest column: with other corners
    a disparity that points above the box is kept. *)
Theorem range_mask_rows_refuted : exists min_x min_y max_x max_y p i j,
  valid (range_mask min_x min_y max_x max_y p i j) = true /\ inject_Z j + dy p < min_y.
Proof. exists 0, 4, 9, 9, (true, (1, 1)), 1%Z, 1%Z. vm_compute. auto. Qed.

(** transform_disparities with a subregion: the size stays, and each valid disparity
    becomes the difference from the pixel of the subregion to where the transform
    takes the pixel it pointed to, rounded to the nearest if asked for; other pixels
    stay not valid, and a map of another size is refused. *)
Theorem transformed_disparities do_round sub forward m : (0 <= icols m)%Z -> (0 <= irows m)%Z ->
  (bw sub <> icols m \/ bh sub <> irows m -> transform_region do_round sub forward m = Throw ArgumentErr) /\
  (bw sub = icols m -> bh sub = irows m ->
   exists out, transform_region do_round sub forward m = Ok out /\ same_size out m /\
   forall x y, inside m x y ->
     valid (pix out x y) = valid (pix m x y) /\
     (valid (pix m x y) = true ->
      let bx := inject_Z (x0 sub + x) in let by_ := inject_Z (y0 sub + y) in
      let q := forward (bx + dx (pix m x y), by_ + dy (pix m x y)) in
      let ok v want := if do_round then (exists n, v = inject_Z n) /\ Qabs (v - want) <= 1 # 2 /\ (Qabs (v - want) == 1 # 2 -> Qabs want <= Qabs v) else v = want in
      ok (dx (pix out x y)) (fst q - bx) /\ ok (dy (pix out x y)) (snd q - by_))).
Proof.
  intros C R. split.
  - intros H. unfold transform_region. destruct (Z.eqb_spec (bw sub) (icols m)), (Z.eqb_spec (bh sub) (irows m)); cbn [andb negb]; auto. lia.
  - intros W H. destruct (transform_ok do_round sub forward m W H C R) as (out & E & SS & P). exists out. split; [auto|split; [auto|]].
    intros x y I. rewrite P by auto. unfold moved. cbv zeta. destruct (valid (pix m x y)) eqn:V; [|split; [reflexivity|discriminate]].
    destruct (forward (inject_Z (x0 sub + x) + dx (pix m x y), inject_Z (y0 sub + y) + dy (pix m x y))) as [tx ty]. cbn [fst snd].
    destruct do_round; unfold valid, dx, dy; cbn [fst snd]; (split; [auto|]); intros _; [|auto].
    split; (split; [eauto|]); apply round_ok.
Qed.
Example transformed_disparities_met :
  match transform_region true (Box 10 20 12 21) (fun '(x, y) => (2 * x, y + (1 # 2))) (of_rows no_px [[(true, (1, 2)); no_px]]) with
  | Ok out => to_rows out = [[(true, (12, 3)); no_px]]
  | _ => False
  end.
Proof. vm_compute. auto. Qed.

(** Transforming pixel by pixel keeps the valid pixels, and by two transforms one
    after the other is the same as by both. *)
Theorem transforms_compose f g p i j : valid (transform_px f p i j) = valid p /\
  ((forall q r, fst q == fst r -> snd q == snd r -> fst (g q) == fst (g r) /\ snd (g q) == snd (g r)) ->
   pxeq (transform_px g (transform_px f p i j) i j) (transform_px (fun q => g (f q)) p i j)).
Proof.
  unfold transform_px. destruct (f (inject_Z i + dx p, inject_Z j + dy p)) as [a b] eqn:F.
  split; [reflexivity|]. intros G. unfold pxeq, valid, dx, dy in *. cbn [fst snd] in *.
  specialize (G (inject_Z i + (a - inject_Z i), inject_Z j + (b - inject_Z j)) (a, b)). cbn [fst snd] in G.
  destruct G as [G1 G2]; [lra|lra|].
  destruct (g (inject_Z i + (a - inject_Z i), inject_Z j + (b - inject_Z j))) as [u v], (g (a, b)) as [u' v']. cbn [fst snd] in *.
  split; [reflexivity|split; lra].
Qed.
Example transforms_compose_met : pxeq (transform_px (fun '(x, y) => (x * 2, y - 1)) (true, (3, 4)) 5 6) (true, (11, 3)) /\ valid (transform_px (fun '(x, y) => (x * 2, y - 1)) no_px 5 6) = false.
Proof. vm_compute. auto. Qed.

(** ** C73 *)

(** rm_outliers_using_thresh keeps exactly the valid pixels for which the share of the
    window, extended at the edges of the image, that is valid and close is at least
    the threshold; the rest is not valid, and nothing else changes. *)
Theorem outliers_by_share m h v th rej i j : nonempty m -> inside m i j -> (0 < h)%Z -> (0 < v)%Z ->
  exists p, rm_outliers m h v th rej i j = Ok p /\
  (valid p = true <-> valid (pix m i j) = true /\
     rej * inject_Z ((2 * h + 1) * (2 * v + 1)) <= inject_Z (count (close th (pix m i j)) (window (edge m) h v i j))) /\
  (valid p = true -> p = pix m i j).
Proof.
  intros N I H V. eexists. split; [apply rm_ok; auto|]. unfold passes. rewrite edge_in by auto.
  destruct (valid (pix m i j)) eqn:VA; cbn [andb]; [|rewrite VA; split; [intuition discriminate|auto]].
  destruct (leqP (rej * inject_Z ((2 * h + 1) * (2 * v + 1))) (inject_Z (count (close th (pix m i j)) (window (edge m) h v i j)))) as [K|K].
  - rewrite VA. intuition.
  - split; [|discriminate]. split; [discriminate|intros [_ ?]; contradiction].
Qed.
Definition spike : img px := Img 5 5 (fun x y => (true, (if (x =? 2)%Z && (y =? 2)%Z then 9 else if (y <? 3)%Z then 1 else 2, 0))).
Example outliers_by_share_met : rm_outliers spike 1 1 (1 # 2) (3 # 9) 2 2 = Ok no_px /\ rm_outliers spike 1 1 (1 # 2) (5 # 9) 1 2 = Ok (true, (1, 0)) /\
  rm_outliers spike 1 1 (1 # 2) (6 # 9) 1 2 = Ok no_px /\ count (close (1 # 2) (true, (1, 0))) (window (edge spike) 1 1 1 2) = 5%Z.
Proof. vm_compute. auto. Qed.

(** Kernels that are not positive are refused. *)
Theorem kernels_refused m h v th rej sort d i j : (h <= 0 \/ v <= 0)%Z ->
  rm_outliers m h v th rej i j = Throw ArgumentErr /\ mean_at sort (extended m) h v d i j = Throw ArgumentErr /\ stddev_at (extended m) h v th rej i j = Throw ArgumentErr.
Proof.
  intros H. assert (K : kernel_ok h v = false). { destruct (kernel_ok h v) eqn:E; auto. apply kernel_okP in E. lia. }
  unfold rm_outliers, thresh_at, mean_at, stddev_at. rewrite K. auto.
Qed.

(** disparity_cleanup_using_thresh: a pixel of the result is not valid or is that of
    the map, which rm_outliers_using_thresh keeps too; and away from the border it has
    a neighbour that is kept by that and is not further than three pixels in either
    coordinate. *)
Theorem cleanup_keeps m h v th rej i j : nonempty m -> inside m i j -> (0 < h)%Z -> (0 < v)%Z ->
  exists p, cleanup m h v th rej i j = Ok p /\
  (valid p = true -> p = pix m i j /\ rm_outliers m h v th rej i j = Ok p) /\
  (valid p = true -> (1 <= i < icols m - 1)%Z -> (1 <= j < irows m - 1)%Z ->
   exists x y q, (i - 1 <= x <= i + 1)%Z /\ (j - 1 <= y <= j + 1)%Z /\ (x, y) <> (i, j) /\ inside m x y /\
     rm_outliers m h v th rej x y = Ok q /\ q = pix m x y /\ valid q = true /\ Qabs (dx p - dx q) <= 3 /\ Qabs (dy p - dy q) <= 3).
Proof.
  intros N I H V. rewrite cleanup_ok by auto. cbv zeta. set (f := first_pass m h v th rej).
  assert (RF : forall x y, rm_outliers m h v th rej x y = Ok (f x y)) by (intros; apply rm_ok; auto).
  assert (FV : forall x y, valid (f x y) = true -> f x y = edge m x y).
  { intros x y. unfold f, first_pass. destruct (valid (edge m x y)) eqn:E; auto. destruct (passes _ _ _ _ _ _ _); auto. discriminate. }
  eexists. split; [reflexivity|]. destruct (valid (f i j)) eqn:VF; [|rewrite VF; split; discriminate].
  destruct (passes f 1 1 3 (1 # 5) i j) eqn:P; [|split; discriminate]. rewrite VF. split.
  - intros _. rewrite RF, (FV _ _ VF), edge_in by auto. auto.
  - intros _ BI BJ. unfold passes in P. rewrite VF in P. cbn [andb] in P. apply Qle_bool_iff in P.
    set (c := count (close 3 (f i j)) (window f 1 1 i j)) in *.
    assert (C2 : (2 <= c)%Z). { assert (K : (1 < c)%Z); [|lia]. apply inj_lt. change (inject_Z 1) with 1. change (inject_Z ((2 * 1 + 1) * (2 * 1 + 1))) with 9 in P. lra. }
    assert (EW : window f 1 1 i j = map (fun '(x, y) => f x y)
        [(i - 1, j - 1); (i, j - 1); (i + 1, j - 1); (i - 1, j); (i, j); (i + 1, j); (i - 1, j + 1); (i, j + 1); (i + 1, j + 1)]%Z).
    { unfold window, window_rows. assert (Z3 : forall k, zrange (k - 1) (k + 1 + 1) = [k - 1; k; k + 1]%Z).
      { intros k. unfold zrange. replace (Z.to_nat (k + 1 + 1 - (k - 1))) with 3%nat by lia. cbn [zseq]. repeat f_equal; lia. }
      rewrite !Z3. reflexivity. }
    assert (EX : exists x y, (x, y) <> (i, j) /\ (i - 1 <= x <= i + 1)%Z /\ (j - 1 <= y <= j + 1)%Z /\ close 3 (f i j) (f x y) = true).
    { unfold c, count in C2. rewrite EW in C2.
      set (l := [(i - 1, j - 1); (i, j - 1); (i + 1, j - 1); (i - 1, j); (i + 1, j); (i - 1, j + 1); (i, j + 1); (i + 1, j + 1)]%Z).
      destruct (existsb (fun '(x, y) => close 3 (f i j) (f x y)) l) eqn:E.
      - apply existsb_exists in E as ((x & y) & IL & CL). exists x, y. split; [|split; [|split]]; auto; cbn in IL;
          (repeat (destruct IL as [IL|IL]; [injection IL as <- <-; try lia; intros K; injection K; lia|])); destruct IL.
      - exfalso. unfold l in E. cbn [existsb] in E. rewrite !orb_false_iff in E. cbn [map filter] in C2.
        destruct E as (E1 & E2 & E3 & E4 & E5 & E6 & E7 & E8 & _). rewrite E1, E2, E3, E4, E5, E6, E7, E8 in C2.
        destruct (close 3 (f i j) (f i j)); cbn [length] in C2; lia. }
    destruct EX as (x & y & NE & BX & BY & CL). exists x, y, (f x y). unfold close in CL. apply andb_prop in CL as [CL C3]. apply andb_prop in CL as [V1 C1].
    assert (IX : inside m x y) by (split; lia).
    split; [auto|split; [auto|split; [auto|split; [auto|split; [auto|]]]]]. split; [rewrite (FV _ _ V1), edge_in by auto; auto|]. split; [auto|].
    split; apply Qle_bool_iff; auto.
Qed.
Definition pair_and_one : img px := Img 7 4 (fun x y => if (y =? 1)%Z && ((x =? 1) || (x =? 2) || (x =? 5))%Z then (true, (1, 0)) else no_px).
Example cleanup_met : map (fun x => cleanup pair_and_one 1 1 1 (1 # 100) x 1) [1; 2; 5]%Z = [Ok (true, (1, 0)); Ok (true, (1, 0)); Ok no_px].
Proof. vm_compute. auto. Qed.

(** disparity_cleanup_using_thresh asks for a neighbour within three pixels, but a
    pixel of the border is repeated outside the image and counts as its own neighbour:
    a single valid pixel in a corner stays. *)
Theorem isolated_border_pixel_removed_refuted : exists m i j h v th rej,
  nonempty m /\ inside m i j /\ (forall x y, inside m x y -> valid (pix m x y) = true -> (x, y) = (i, j)) /\
  exists p, cleanup m h v th rej i j = Ok p /\ valid p = true.
Proof.
  exists (Img 4 4 (fun x y => if (x =? 0)%Z && (y =? 0)%Z then (true, (1, 1)) else no_px)), 0%Z, 0%Z, 1%Z, 1%Z, 1, (1 # 5).
  split; [split; reflexivity|split; [split; cbn; lia|split]].
  - intros x y _ V. cbn [pix] in V. destruct (Z.eqb_spec x 0), (Z.eqb_spec y 0); subst; cbn in V; try discriminate. auto.
  - exists (true, (1, 1)). vm_compute. auto.
Qed.

(** rm_outliers_using_mean keeps exactly the valid pixels that are near the mean of
    what is read: the valid pixels of each row of the window before the first that is
    gross.  A pixel of the window is gross if more than three quarters of the valid
    ones have less than half its magnitude. *)
Theorem outliers_by_mean sort m h v d i j : sorts sort -> nonempty m -> inside m i j -> (0 < h)%Z -> (0 < v)%Z ->
  exists p, mean_at sort (extended m) h v d i j = Ok p /\
  (valid p = true <-> valid (pix m i j) = true /\ near_mean (read_kept (window_rows (edge m) h v i j)) d (pix m i j) = true) /\
  (valid p = true -> p = pix m i j).
Proof.
  intros HS N I H V. eexists. split; [apply (mean_ok sort _ (edge m)); auto; intros; apply extended_ok; auto|]. rewrite edge_in by auto.
  destruct (valid (pix m i j)) eqn:VA; [|rewrite VA; split; [intuition discriminate|auto]].
  destruct (near_mean (read_kept (window_rows (edge m) h v i j)) d (pix m i j)) eqn:NM; [rewrite VA; intuition|].
  split; [|discriminate]. split; [discriminate|intros [_ ?]; discriminate].
Qed.

(** Without gross pixels in the window it is the mean of all valid ones. *)
Theorem outliers_by_mean_of_window sort m h v d i j : sorts sort -> nonempty m -> inside m i j -> (0 < h)%Z -> (0 < v)%Z ->
  let w := window (edge m) h v i j in
  (forall c, In c w -> valid c = true -> gross w c = false) ->
  exists p, mean_at sort (extended m) h v d i j = Ok p /\
  (valid p = true <-> valid (pix m i j) = true /\ near_mean (filter valid w) d (pix m i j) = true).
Proof.
  intros HS N I H V w G. destruct (outliers_by_mean sort m h v d i j HS N I H V) as (p & E & K & _). exists p. split; auto.
  rewrite K, kept_all by auto. unfold kept. fold (window (edge m) h v i j). fold w.
  replace (filter (fun p => valid p && negb (gross w p)) w) with (filter valid w); [reflexivity|].
  apply filter_ext_in. intros c J. destruct (valid c) eqn:VC; auto. now rewrite (G c J VC).
Qed.

(** Insertion sort, to have a sort. *)
Fixpoint insert (x : Q) (l : list Q) : list Q := match l with [] => [x] | y :: l' => if Qle_bool x y then x :: l else y :: insert x l' end.
Definition isort (l : list Q) : list Q := fold_right insert [] l.
Lemma insert_perm x l : Permutation (x :: l) (insert x l).
Proof. induction l as [|y l IH]; cbn [insert]; auto. destruct (Qle_bool x y); auto. eapply perm_trans; [apply perm_swap|]. auto. Qed.
Lemma insert_sorted x l : StronglySorted Qle l -> StronglySorted Qle (insert x l).
Proof.
  induction 1 as [|y l SS IH F]; cbn [insert]; [repeat constructor|]. destruct (leqP x y).
  - constructor; [constructor; auto|]. constructor; auto. eapply Forall_impl; [|exact F]. intros z Hz. lra.
  - constructor; auto. rewrite <- insert_perm. constructor; auto. lra.
Qed.
Lemma isort_sorts : sorts isort.
Proof.
  intros l. induction l as [|x l [IP IS]]; cbn [isort fold_right]; [split; constructor|]. split.
  - eapply perm_trans; [apply perm_skip; exact IP|]. apply insert_perm.
  - apply insert_sorted; auto.
Qed.
Definition slope : img px := Img 3 3 (fun x y => (true, (inject_Z (10 + x + y), 0))).
Example outliers_by_mean_met : sorts isort /\
  map (fun d => mean_at isort (extended slope) 1 1 d 2 2) [1; 1 # 2] = [Ok (true, (14, 0)); Ok no_px] /\
  near_mean (filter valid (window (edge slope) 1 1 2 2)) 1 (pix slope 2 2) = true /\
  forallb (fun c => negb (gross (window (edge slope) 1 1 2 2) c)) (window (edge slope) 1 1 2 2) = true.
Proof. split; [exact isort_sorts|]. vm_compute. auto. Qed.

(** rm_outliers_using_mean leaves the gross pixels out of the mean, but in the code
    the step to the next column is skipped with them: the other pixels of the row are
    left out too, and a pixel near the mean of all that are not gross is rejected. *)
Theorem outliers_by_mean_of_kept_refuted : exists sort m h v d i j, sorts sort /\ nonempty m /\ inside m i j /\ (0 < h)%Z /\ (0 < v)%Z /\
  valid (pix m i j) = true /\ near_mean (kept (window_rows (edge m) h v i j)) d (pix m i j) = true /\
  mean_at sort (extended m) h v d i j = Ok no_px.
Proof.
  exists isort, (of_rows no_px [[(true, (1, 0)); (true, (1, 0)); (true, (1, 0))]; [(true, (50, 0)); (true, (2, 0)); (true, (2, 0))]; [(true, (2, 0)); (true, (2, 0)); (true, (2, 0))]]),
    1%Z, 1%Z, (2 # 5), 1%Z, 1%Z.
  split; [exact isort_sorts|]. split; [split; reflexivity|]. split; [split; cbn; lia|]. split; [lia|split; [lia|]]. vm_compute. auto.
Qed.

(** rm_outliers_using_stddev keeps exactly the valid pixels whose coordinates are both
    within the given multiple of the deviation from the mean of the valid pixels of
    the window, where the deviation counts as at least the other threshold; provided
    the window is not wider than high, or has few enough valid pixels. *)
Theorem outliers_by_deviation m h v t r i j : nonempty m -> inside m i j -> (0 < h)%Z -> (0 < v)%Z -> 0 <= t ->
  let l := filter valid (window (edge m) h v i j) in
  (h <= v \/ Z.of_nat (length l) <= (2 * v + 1) * (2 * v + 1))%Z ->
  exists p, stddev_at (extended m) h v t r i j = Ok p /\ (valid p = true -> p = pix m i j) /\
  (valid p = true <-> valid (pix m i j) = true /\ within_dev t r (map dx l) (dx (pix m i j)) /\ within_dev t r (map dy l) (dy (pix m i j))).
Proof.
  intros N I H V T l B. assert (RD : forall a b, extended m a b = Ok (edge m a b)) by (intros; apply extended_ok; auto).
  destruct (valid (pix m i j)) eqn:VA.
  - pose proof (stddev_ok (extended m) (edge m) h v t r i j RD H V T) as K. rewrite edge_in in K by auto. specialize (K VA). cbv zeta in K. fold l in K.
    assert (C : (count valid (window (edge m) h v i j) <= (2 * v + 1) * (2 * v + 1))%Z).
    { unfold count. fold l. destruct B as [B|B]; auto. pose proof (window_len (edge m) h v i j ltac:(lia) ltac:(lia)) as WL.
      assert (FL : (length l <= length (window (edge m) h v i j))%nat).
      { unfold l. generalize (window (edge m) h v i j). intros w. induction w as [|c w IH]; cbn [filter length]; auto. destruct (valid c); cbn [length]; lia. }
      nia. }
    apply Z.leb_le in C. rewrite C in K. destruct K as [K1 K2].
    assert (D : forall x k, within_dev t r k x \/ ~ within_dev t r k x).
    { intros x k. unfold within_dev. destruct (Qlt_le_dec (t * t * variance k) ((x - mean k) * (x - mean k))); [|left; left; auto].
      destruct (Qlt_le_dec r 0); [right; intros [A|[A _]]; lra|].
      destruct (Qlt_le_dec (t * t * (r * r)) ((x - mean k) * (x - mean k))); [right; intros [A|[_ A]]; lra|left; right; auto]. }
    destruct (D (dx (pix m i j)) (map dx l)) as [DX|DX], (D (dy (pix m i j)) (map dy l)) as [DY|DY].
    + exists (pix m i j). split; [auto|]. split; auto. tauto.
    + exists no_px. split; [apply K2; tauto|]. split; [discriminate|]. split; [discriminate|tauto].
    + exists no_px. split; [apply K2; tauto|]. split; [discriminate|]. split; [discriminate|tauto].
    + exists no_px. split; [apply K2; tauto|]. split; [discriminate|]. split; [discriminate|tauto].
  - exists (pix m i j). unfold stddev_at. rewrite (proj2 (kernel_okP h v)) by auto. cbn [negb]. rewrite RD, edge_in by auto. cbn [bind]. rewrite VA.
    split; [auto|split; [auto|]]. split; [discriminate|intros [? _]; discriminate].
Qed.
Example outliers_by_deviation_met : map (fun t => stddev_at (extended spike) 1 1 t 0 2 2) [2; 3] = [Ok no_px; Ok (true, (9, 0))] /\
  stddev_at (extended spike) 1 2 1 3 1 1 = Ok (true, (1, 0)).
Proof. vm_compute. auto. Qed.

(** rm_outliers_using_stddev keeps the values of the window in arrays that are made for
    a square with the vertical size: a window that is wider than high, of valid pixels,
    is written past their end. *)
Theorem outliers_by_deviation_wide_refuted h v t r : (0 < v)%Z -> (v < h)%Z -> exists m,
  nonempty m /\ forall i j, inside m i j -> stddev_at (extended m) h v t r i j = UB OutOfBounds.
Proof.
  intros V H. exists (Img 1 1 (fun _ _ => (true, (1, 1)))). split; [split; reflexivity|]. intros i j I.
  set (m := Img 1 1 (fun _ _ => (true, (1, 1)))) in *. assert (N : nonempty m) by (split; reflexivity).
  unfold stddev_at. rewrite (proj2 (kernel_okP h v)) by lia. cbn [negb]. rewrite extended_ok by auto. cbn [bind].
  change (valid (edge m i j)) with true. cbn [negb]. cbv zeta. set (cap := ((2 * v + 1) * (2 * v + 1))%Z).
  rewrite (kernel_fold (extended m) (edge m) (fun c s => if valid c then if (Z.of_nat (length s) <? cap)%Z then Ok (s ++ [(dx c, dy c)]) else UB OutOfBounds else Ok s)).
  2:{ intros; apply extended_ok; auto. } 2,3: lia.
  rewrite vals_fold. cbn [length Z.of_nat]. rewrite Z.add_0_l.
  assert (C : count valid (window (edge m) h v i j) = ((2 * h + 1) * (2 * v + 1))%Z).
  { rewrite <- (window_len (edge m) h v i j) by lia. unfold count. f_equal. 
    assert (AV : forall c, In c (window (edge m) h v i j) -> valid c = true) by (intros c J; apply in_window in J as (x & y & _ & _ & <-); reflexivity).
    revert AV. generalize (window (edge m) h v i j). intros w. induction w as [|c w IH]; intros AV; cbn [filter length]; auto.
    rewrite (AV c) by (left; auto). cbn [length]. rewrite IH; auto. intros; apply AV; right; auto. }
  rewrite C. destruct (Z.leb_spec ((2 * h + 1) * (2 * v + 1)) cap); [unfold cap in *; nia|].
  destruct (Z.eqb_spec ((2 * h + 1) * (2 * v + 1)) 0); [nia|]. reflexivity.
Qed.

(** std_dev_image with a kernel of odd sizes is the sum of the squared differences from
    the mean of the window, over one less than the number of its pixels. *)
Theorem deviation_image (m : img Q) a b i j : nonempty m -> (0 <= a)%Z -> (0 <= b)%Z -> (0 < a + b)%Z ->
  exists q, std_dev_at (extended m) (2 * a + 1) (2 * b + 1) i j = Ok q /\ q == unbiased (window (edge m) a b i j).
Proof. intros N A B AB. apply std_dev_ok; auto. intros; apply extended_ok; auto. Qed.
Example deviation_image_met : match std_dev_at (extended (Img 5 1 (fun x _ => inject_Z x))) 3 1 1 0 with Ok q => q == 1 | _ => False end.
Proof. vm_compute. auto. Qed.

(** std_dev_image, whose name and comment promise a standard deviation, returns the
    variance: the square of the result is not the unbiased variance. *)
Theorem deviation_image_is_deviation_refuted : exists (m : img Q) i j q, nonempty m /\
  std_dev_at (extended m) 3 3 i j = Ok q /\ ~ q * q == unbiased (window (edge m) 1 1 i j).
Proof. exists (Img 3 3 (fun x _ => inject_Z (2 * x))), 1%Z, 1%Z. eexists. split; [split; reflexivity|]. split; [vm_compute; reflexivity|]. vm_compute. discriminate. Qed.

(** std_dev_image with a kernel of even size reads one column and one row more than it
    divides by: the deviation of a constant image is not zero. *)
Theorem deviation_image_even_refuted : exists (m : img Q) q, nonempty m /\ (forall x y, pix m x y = 1) /\
  std_dev_at (extended m) 2 2 0 0 = Ok q /\ 0 < q.
Proof. exists (Img 4 4 (fun _ _ => 1)). eexists. split; [split; reflexivity|]. split; [auto|]. split; [vm_compute; reflexivity|]. reflexivity. Qed.

(** std_dev_image with a kernel of one pixel, which is accepted, divides by zero. *)
Theorem deviation_image_one_refuted (m : img Q) i j : nonempty m -> std_dev_at (extended m) 1 1 i j = UB DivByZero.
Proof.
  intros N. unfold std_dev_at. cbn [Z.ltb Z.compare andb negb]. change (1 / 2)%Z with 0%Z.
  rewrite (kernel_fold (extended m) (edge m) (fun c s => Ok (s + c))) by (auto using extended_ok; try lia).
  rewrite (foldM_pure _ Qplus) by reflexivity. cbn [bind]. unfold divq at 1. change (Qeq_bool (inject_Z (1 * 1)) 0) with false. cbv iota. cbn [bind].
  set (mn := fold_left Qplus (window (edge m) 0 0 i j) 0 / inject_Z (1 * 1)).
  rewrite (kernel_fold (extended m) (edge m) (fun c s => Ok (s + (c - mn) * (c - mn)))) by (auto using extended_ok; try lia).
  rewrite (foldM_pure _ (fun s c => s + (c - mn) * (c - mn))) by reflexivity. cbn [bind]. reflexivity.
Qed.

(** disparity_subsample: the pixels of even coordinates are kept, and each is half the
    weighted mean of the valid pixels around it; there is none if none is valid. *)
Theorem halved_disparities m i j : nonempty m ->
  match neighbours m i j with
  | [] => subsample_at m i j = Ok no_px
  | _ => exists p, subsample_at m i j = Ok p /\ pxeq p (true, (weighted dx (neighbours m i j) * (1 # 2), weighted dy (neighbours m i j) * (1 # 2)))
  end.
Proof. apply subsample_ok. Qed.
Theorem halved_size n i : (0 < n)%Z -> (0 <= i < subsample_size n <-> 0 <= 2 * i < n)%Z.
Proof. intros H. unfold subsample_size. rewrite Z.quot_div_nonneg by lia. pose proof (Z.div_mod (n - 1) 2). pose proof (Z.mod_pos_bound (n - 1) 2). lia. Qed.

(** Halved disparities are between half the bounds of the valid disparities, and are
    there wherever the pixel itself is valid. *)
Theorem halved_within m i j lx hx ly hy : nonempty m ->
  (forall x y, inside m x y -> valid (pix m x y) = true -> lx <= dx (pix m x y) /\ dx (pix m x y) <= hx /\ ly <= dy (pix m x y) /\ dy (pix m x y) <= hy) ->
  exists p, subsample_at m i j = Ok p /\
  (inside m (2 * i) (2 * j) -> valid (pix m (2 * i) (2 * j)) = true -> valid p = true) /\
  (valid p = true -> lx * (1 # 2) <= dx p /\ dx p <= hx * (1 # 2) /\ ly * (1 # 2) <= dy p /\ dy p <= hy * (1 # 2)).
Proof.
  intros N B. pose proof (subsample_ok m i j N) as SO. destruct (neighbours m i j) as [|e l] eqn:EN.
  - exists no_px. split; auto. split; [|discriminate]. intros I V. exfalso. apply (center_neighbour m i j); auto. rewrite edge_in; auto.
  - destruct SO as (p & E & VP & DX & DY). exists p. split; auto. rewrite <- EN in *.
    assert (W : forall f lo hi, (forall x y, inside m x y -> valid (pix m x y) = true -> lo <= f (pix m x y) /\ f (pix m x y) <= hi) ->
      lo <= weighted f (neighbours m i j) /\ weighted f (neighbours m i j) <= hi).
    { intros f lo hi F. apply weighted_bounds; [congruence|intros; eapply neighbour_weights; eauto|]. intros q I. destruct (neighbour_edge _ _ _ _ I) as (x & y & EE).
      destruct (edge_pix m x y N) as (x' & y' & IN & EP). pose proof (neighbour_weights _ _ _ _ I) as [V _]. rewrite EE, EP in *. apply F; auto. }
    destruct (W dx lx hx) as [A1 A2]; [intros x y I V; destruct (B x y I V); tauto|].
    destruct (W dy ly hy) as [B1 B2]; [intros x y I V; destruct (B x y I V); tauto|].
    split; auto. intros _. change (dx p == weighted dx (neighbours m i j) * (1 # 2)) in DX. change (dy p == weighted dy (neighbours m i j) * (1 # 2)) in DY. rewrite DX, DY. repeat split; apply Qmult_le_compat_r; auto; lra.
Qed.
Example halved_met : match subsample_at (Img 5 5 (fun x y => (negb (x =? 1)%Z, (inject_Z x, 3)))) 1 1 with
  | Ok p => pxeq p (true, (67 # 58, 3 # 2)) | _ => False end /\ subsample_at (Img 3 3 (fun _ _ => no_px)) 1 1 = Ok no_px.
Proof. vm_compute. auto. Qed.

(** disparity_upsample: each pixel is twice the one at half its coordinates; and
    halving the doubled map of one disparity gives it back. *)
Theorem doubled_disparities m i j : (0 <= i < 2 * icols m)%Z -> (0 <= j < 2 * irows m)%Z ->
  exists x y p, (i = 2 * x \/ i = 2 * x + 1)%Z /\ (j = 2 * y \/ j = 2 * y + 1)%Z /\ inside m x y /\
  upsample_at (whole m) i j = Ok p /\ valid p = valid (pix m x y) /\ dx p == 2 * dx (pix m x y) /\ dy p == 2 * dy (pix m x y).
Proof.
  intros I J. pose proof (Z.div_mod i 2 ltac:(lia)). pose proof (Z.mod_pos_bound i 2 ltac:(lia)). pose proof (Z.div_mod j 2 ltac:(lia)). pose proof (Z.mod_pos_bound j 2 ltac:(lia)).
  assert (IN : inside m (i / 2) (j / 2)) by (split; lia).
  exists (i / 2)%Z, (j / 2)%Z. unfold upsample_at. rewrite read_whole by auto. cbn [bind]. eexists. split; [lia|split; [lia|split; [auto|split; [reflexivity|]]]].
  unfold valid, dx, dy. cbn [fst snd]. split; [auto|split; lra].
Qed.
Theorem doubled_then_halved (m u : img px) c d i j : nonempty m -> (forall x y, inside m x y -> pix m x y = (true, (c, d))) ->
  icols u = (2 * icols m)%Z -> irows u = (2 * irows m)%Z -> (forall x y, inside u x y -> upsample_at (whole m) x y = Ok (pix u x y)) ->
  inside u (2 * i) (2 * j) -> exists p, subsample_at u i j = Ok p /\ pxeq p (true, (c, d)).
Proof.
  intros [N1 N2] M UC UR U I.
  assert (UV : forall x y, inside u x y -> valid (pix u x y) = true /\ dx (pix u x y) == 2 * c /\ dy (pix u x y) == 2 * d).
  { intros x y IN. destruct (doubled_disparities m x y) as (x' & y' & p & _ & _ & IM & E & V & X & Y); [destruct IN as [IA IB]; rewrite UC in IA; exact IA|destruct IN as [IA IB]; rewrite UR in IB; exact IB|].
    rewrite U in E by auto. injection E as ->. rewrite (M _ _ IM) in V, X, Y. auto. }
  destruct (halved_within u i j (2 * c) (2 * c) (2 * d) (2 * d)) as (p & E & V & B).
  - split; lia.
  - intros x y IN _. destruct (UV x y IN) as (_ & X & Y). rewrite X, Y. repeat split; lra.
  - exists p. split; auto. assert (VP : valid p = true) by (apply V; auto; apply UV; auto). destruct (B VP) as (B1 & B2 & B3 & B4).
    split; auto. change (dx p == c /\ dy p == d). split; lra.
Qed.
Example doubled_met : upsample_at (whole (of_rows no_px [[(true, (1, 2)); no_px]])) 1 1 = Ok (true, (2, 4)) /\ upsample_at (whole (of_rows no_px [[(true, (1, 2)); no_px]])) 2 0 = Ok (false, (0, 0)).
Proof. vm_compute. auto. Qed.

(** disparity_upsample of an image that is computed when it is asked for: the region
    given to it is not halved, so that the pixels needed are not in the copy. *)
Theorem doubled_regions_refuted : exists m b i j, nonempty m /\ inb b i j /\ (0 <= x0 b)%Z /\ (x1 b <= 2 * icols m)%Z /\ (0 <= y0 b)%Z /\ (y1 b <= 2 * irows m)%Z /\
  upsample_rasterized m b i j = UB OutOfBounds.
Proof.
  exists (Img 4 4 (fun _ _ => (true, (1, 1)))), (Box 2 2 4 4), 2%Z, 2%Z. split; [split; reflexivity|]. cbn [x0 y0 x1 y1 icols irows].
  split; [split; cbn; lia|]. repeat (split; [lia|]). vm_compute. reflexivity.
Qed.

Print Assumptions masked_disparities.
Print Assumptions masked_regions.
Print Assumptions masked_regions_any_range_refuted.
Print Assumptions disparity_range_exact.
Print Assumptions range_mask_keeps.
Print Assumptions range_mask_rows_refuted.
Print Assumptions transformed_disparities.
Print Assumptions transforms_compose.
Print Assumptions outliers_by_share.
Print Assumptions kernels_refused.
Print Assumptions cleanup_keeps.
Print Assumptions isolated_border_pixel_removed_refuted.
Print Assumptions outliers_by_mean.
Print Assumptions outliers_by_mean_of_window.
Print Assumptions outliers_by_mean_of_kept_refuted.
Print Assumptions outliers_by_deviation.
Print Assumptions outliers_by_deviation_wide_refuted.
Print Assumptions deviation_image.
Print Assumptions deviation_image_is_deviation_refuted.
Print Assumptions deviation_image_even_refuted.
Print Assumptions deviation_image_one_refuted.
Print Assumptions halved_disparities.
Print Assumptions halved_size.
Print Assumptions halved_within.
Print Assumptions doubled_disparities.
Print Assumptions doubled_then_halved.
Print Assumptions doubled_regions_refuted.

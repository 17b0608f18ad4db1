From Coq Require Import ZArith List Lia Bool.
From Verif Require Import Lib.Base Lib.Img BBox.Box2 Corr.Model Corr.Spec Corr.Proofs Corr.Subdiv Corr.SubSpec Corr.SubProofs.
Import ListNotations.
Local Open Scope Z_scope.

(* The running sums are the sums over the windows. *)
Theorem box_sum_exact : forall input kx ky,
  1 <= kx <= icols input -> 1 <= ky <= irows input -> Z.rem kx 2 = 1 -> Z.rem ky 2 = 1 ->
  exists out, fast_box_sum input kx ky = Ok out /\
    Z.of_nat (length out) = (icols input - kx + 1) * (irows input - ky + 1) /\
    forall x y, 0 <= x <= icols input - kx -> 0 <= y <= irows input - ky ->
      entry out (icols input - kx + 1) x y (box_sum (pix input) x y kx ky).
Proof.
  intros input kx ky Hx Hy Ox Oy. rewrite (fast_box_sum_ok input kx ky Hx Hy Ox Oy).
  eexists. split; [reflexivity|]. rewrite map_length, raster_length by lia. split; [reflexivity|].
  intros x y Rx Ry. apply (entry_map (fun p => box_sum (pix input) (fst p) (snd p) kx ky) _ _ _ _ (x, y)).
  apply raster_entry; lia.
Qed.
Print Assumptions box_sum_exact.

Theorem box_sum_even_kernel : forall input kx ky, Z.rem kx 2 <> 1 \/ Z.rem ky 2 <> 1 ->
  fast_box_sum input kx ky = Throw ArgumentErr.
Proof.
  intros input kx ky H. unfold fast_box_sum.
  destruct (Z.eqb_spec (Z.rem kx 2) 1), (Z.eqb_spec (Z.rem ky 2) 1); cbn [andb negb]; auto. lia.
Qed.
Print Assumptions box_sum_even_kernel.

(* In release builds nothing rejects an image one pixel smaller than the kernel: the sums are
   read beyond their end. *)
Theorem box_sum_small_image_refuted : exists input, icols input = 2 /\ irows input = 3 /\ fast_box_sum input 3 3 = UB OutOfBounds.
Proof. exists (Img 2 3 (fun _ _ => 1)). repeat split. Qed.
Print Assumptions box_sum_small_image_refuted.

Example box_sum_ex : fast_box_sum (of_rows 0 [[1;2;3;4]; [5;6;7;8]; [9;10;11;12]]) 3 1 = Ok [6; 9; 18; 21; 30; 33] /\
  fast_box_sum (of_rows 0 [[1;2;3;4]; [5;6;7;8]; [9;10;11;12]]) 3 3 = Ok [54; 63] /\
  box_sum (pix (of_rows 0 [[1;2;3;4]; [5;6;7;8]; [9;10;11;12]])) 1 0 3 3 = 63.
Proof. repeat split. Qed.

(* Block matching returns, for every pixel, the first of the best candidates, and masks the
   pixels at which all the candidates are equally good. *)
Theorem disparity_is_best_match : forall k left_in right_in region sx sy kx ky,
  let w := x1 region - x0 region in let h := y1 region - y0 region in
  1 <= kx <= w -> 1 <= ky <= h -> Z.rem kx 2 = 1 -> Z.rem ky 2 = 1 -> 1 <= sx -> 1 <= sy ->
  0 <= x0 region -> 0 <= y0 region -> x1 region <= icols left_in -> y1 region <= irows left_in ->
  x1 region + sx - 1 <= icols right_in -> y1 region + sy - 1 <= irows right_in ->
  exists out, calc_disparity k left_in right_in region sx sy kx ky = Ok out /\
  Z.of_nat (length out) = (w - kx + 1) * (h - ky + 1) /\
  forall x y, 0 <= x < w - kx + 1 -> 0 <= y < h - ky + 1 -> exists p, entry out (w - kx + 1) x y p /\
    let c := score k (pix left_in) (pix right_in) kx ky (x0 region + x) (y0 region + y) in
    candidate sx sy (disp p) /\
    (forall d, candidate sx sy d -> c (disp p) <= c d) /\
    (forall d, candidate sx sy d -> before d (disp p) -> c (disp p) < c d) /\
    (valid p = true <-> exists d e, candidate sx sy d /\ candidate sx sy e /\ c d <> c e).
Proof. exact calc_disparity_ok. Qed.
Print Assumptions disparity_is_best_match.

(* An exact copy shifted by a candidate is found, unless an earlier candidate fits as well. *)
Theorem disparity_finds_shift : forall k left_in right_in region sx sy kx ky dx dy,
  let w := x1 region - x0 region in let h := y1 region - y0 region in
  1 <= kx <= w -> 1 <= ky <= h -> Z.rem kx 2 = 1 -> Z.rem ky 2 = 1 ->
  0 <= x0 region -> 0 <= y0 region -> x1 region <= icols left_in -> y1 region <= irows left_in ->
  x1 region + sx - 1 <= icols right_in -> y1 region + sy - 1 <= irows right_in ->
  candidate sx sy (dx, dy) -> (forall x y, pix right_in (x + dx) (y + dy) = pix left_in x y) ->
  exists out, calc_disparity k left_in right_in region sx sy kx ky = Ok out /\
  forall x y, 0 <= x < w - kx + 1 -> 0 <= y < h - ky + 1 -> exists p, entry out (w - kx + 1) x y p /\
    score k (pix left_in) (pix right_in) kx ky (x0 region + x) (y0 region + y) (disp p) = 0 /\
    (disp p = (dx, dy) \/ before (disp p) (dx, dy)).
Proof.
  intros k left_in right_in region sx sy kx ky dx dy w h Hkx Hky Ox Oy X0 Y0 X1 Y1 RX RY Cd Sh.
  assert (1 <= sx /\ 1 <= sy) as [Sx Sy] by (unfold candidate in Cd; cbn [fst snd] in Cd; lia).
  destruct (calc_disparity_ok k left_in right_in region sx sy kx ky) as (out & E & _ & F); auto.
  exists out. split; [exact E|]. intros x y Hx Hy. destruct (F x y Hx Hy) as (p & Ep & Cp & B & Fst & _). exists p. split; [exact Ep|].
  set (c := score k (pix left_in) (pix right_in) kx ky (x0 region + x) (y0 region + y)) in *.
  assert (Z0 : c (dx, dy) = 0).
  { unfold c, score, box_sum. cbn [fst snd].
    assert (Zl : forall (A : Type) (f : A -> Z) l, (forall a, f a = 0) -> zsum (map f l) = 0).
    { intros A f l Hf. induction l; cbn [map zsum fold_right]; auto. rewrite Hf. unfold zsum in IHl. rewrite IHl. reflexivity. }
    apply Zl. intros j. apply Zl. intros i. rewrite Sh. destruct k; cbn [mismatch]; rewrite Z.sub_diag; reflexivity. }
  assert (Nn : forall d, 0 <= c d).
  { intros d. unfold c, score, box_sum.
    assert (Zl : forall (A : Type) (f : A -> Z) l, (forall a, 0 <= f a) -> 0 <= zsum (map f l)).
    { intros A f l Hf. induction l as [|a l IH]; cbn [map zsum fold_right]; [lia|]. specialize (Hf a). unfold zsum in IH. lia. }
    apply Zl. intros j. apply Zl. intros i. destruct k; cbn [mismatch]; [lia|nia]. }
  specialize (B (dx, dy) Cd). specialize (Nn (disp p)). split; [lia|].
  destruct (disp p) as [ex ey] eqn:Ed. unfold before. cbn [fst snd].
  destruct (Z.lt_trichotomy ey dy) as [L|[L|L]]; [right; lia| |].
  - destruct (Z.lt_trichotomy ex dx) as [M|[M|M]]; [right; lia|left; congruence|].
    specialize (Fst (dx, dy) Cd). unfold before in Fst. cbn [fst snd] in Fst. lia.
  - specialize (Fst (dx, dy) Cd). unfold before in Fst. cbn [fst snd] in Fst. lia.
Qed.
Print Assumptions disparity_finds_shift.

(* "A pixel that matches is valid": not if there is only one candidate to try; then every
   pixel is masked, also where the match is perfect. *)
Theorem single_candidate_valid_refuted : exists left right region out,
  calc_disparity ABSOLUTE_DIFFERENCE left right region 1 1 1 1 = Ok out /\ left = right /\
  length out = 6%nat /\ Forall (fun p => valid p = false) out.
Proof.
  exists (of_rows 0 [[1;2;3]; [9;8;7]]), (of_rows 0 [[1;2;3]; [9;8;7]]), (Box 0 0 3 2). eexists.
  split; [vm_compute; reflexivity|]. split; [reflexivity|]. split; [reflexivity|]. repeat constructor.
Qed.
Print Assumptions single_candidate_valid_refuted.

Example disparity_ex : calc_disparity SQUARED_DIFFERENCE (of_rows 0 [[1;5;2;8]; [9;8;7;3]]) (of_rows 0 [[0;1;5;2;8;4]; [2;9;8;7;3;6]])
    (Box 0 0 4 2) 3 1 3 1 = Ok [Pixel true (1,0); Pixel true (1,0); Pixel true (1,0); Pixel true (1,0)].
Proof. reflexivity. Qed.

(* The subdivision of the search ends, whatever the estimate of the work decides; the
   regions are disjoint, lie in the given box, hold every pixel with a disparity, and
   their ranges contain these disparities and nothing beyond the disparities in the region
   and around it. *)
Theorem subdivision_covers : forall (worse : Z -> Z -> bool) D kx ky b,
  0 <= x0 b -> 0 <= y0 b -> x1 b <= icols D -> y1 b <= irows D ->
  exists fuel l, subdivide worse D kx ky fuel b [] 0 = Ok (true, l) /\ covers D (inb b) l.
Proof.
  intros worse D kx ky b X0 Y0 X1 Y1.
  destruct (subdivide_step worse D kx ky (S (Z.to_nat (Z.max (x1 b - x0 b) (y1 b - y0 b)))) b 0 []) as (ok & l & E & T & U).
  - split; [|split; [|split]]; auto.
  - lia.
  - lia.
  - eexists. exists l. destruct ok; [|destruct (U eq_refl); lia]. split; [exact E|]. auto.
Qed.
Print Assumptions subdivision_covers.

(* A second failure to split leaves the list alone. *)
Theorem subdivision_failure_adds_nothing : forall (worse : Z -> Z -> bool) D kx ky fuel b out fail_count l,
  subdivide worse D kx ky fuel b out fail_count = Ok (false, l) -> l = out /\ 0 < fail_count.
Proof.
  intros worse D kx ky [|fuel] b out fc l; cbn [subdivide]; [discriminate|].
  destruct (_ || _ || _).
  - intros H. apply bind_ok in H. destruct H as (a & _ & H). destruct a as [[mn mx]|]; discriminate.
  - destruct (quads b) as [[[q1 q2] q3] q4]. intros H.
    repeat (apply bind_ok in H; destruct H as (? & _ & H)).
    destruct (_ && (fc =? 0)).
    + repeat (apply bind_ok in H; destruct H as ([? ?] & _ & H)). discriminate.
    + destruct (_ && (0 <? fc)) eqn:E.
      * injection H as <-. apply andb_true_iff in E. destruct E as [_ E]. apply Z.ltb_lt in E. auto.
      * repeat (apply bind_ok in H; destruct H as ([? ?] & _ & H)). discriminate.
Qed.
Print Assumptions subdivision_failure_adds_nothing.

(* a region that splits badly is kept whole, a region that splits well is split *)
Definition stripes : img (option (Z * Z)) := Img 40 40 (fun x y => Some (if x <? 24 then 3 else 5, y mod 2)).
Example subdivision_whole_ex : subdivide (fun s c => 5 * s >? 4 * c) stripes 5 5 41 (Box 0 0 40 40) [] 0 =
  Ok (true, [(Box 0 0 40 40, Box 3 0 6 2)]).
Proof. vm_compute. reflexivity. Qed.
Definition step_map : img (option (Z * Z)) := Img 20 16 (fun x y => if x <? 10 then Some (3, 1) else if y <? 8 then None else Some (50, 60)).
Example subdivision_split_ex : subdivide (fun s c => 5 * s >? 4 * c) step_map 5 5 21 (Box 0 0 20 16) [] 0 =
  Ok (true, [(Box 0 0 10 8, Box 3 1 51 61); (Box 10 0 20 8, Box 3 1 51 61);
             (Box 0 8 10 16, Box 3 1 51 61); (Box 10 8 20 16, Box 3 1 51 61)]).
Proof. vm_compute. reflexivity. Qed.

(* C08, C09, C10: geometric views, accessors and prerasterisation. *)
From Coq Require Import ZArith List Lia Bool.
From Verif Require Import Lib.Base BBox.Proofs BBox.Box2 Blocks.Model Blocks.Spec Views.Model Views.Spec Views.Proofs.
Import ListNotations.
Local Open Scope Z_scope.

(* ------------------------------ C08 ------------------------------ *)
(* What each orientation view shows: where pixel (x,y) of the image goes. *)
Theorem orientation_of_views : forall A (e : vexp A) x y p,
  vread (VTrans e) y x p = vread e x y p /\
  vread (VR180 e) (vcols e - 1 - x) (vrows e - 1 - y) p = vread e x y p /\
  vread (VCW e) (vrows e - 1 - y) x p = vread e x y p /\
  vread (VCCW e) y (vcols e - 1 - x) p = vread e x y p /\
  vread (VFlipV e) x (vrows e - 1 - y) p = vread e x y p.
Proof.
  intros A e x y p. cbn [vread].
  replace (vcols e - 1 - (vcols e - 1 - x)) with x by ring.
  replace (vrows e - 1 - (vrows e - 1 - y)) with y by ring. repeat split.
Qed.
Print Assumptions orientation_of_views.

Theorem transpose_transpose : forall A (e : vexp A), same_view (VTrans (VTrans e)) e.
Proof. repeat split. Qed.
Print Assumptions transpose_transpose.

(* Any sequence of orientation views, of any length, shows the image turned by
   the product of their matrices (coordinates relative to the centre). *)
Theorem turns_compose : forall A (l : list turn) (e : vexp A) i j p, exists si sj,
  vread (turns_view l e) i j p = vread e si sj p /\
  let u := 2 * i - (vcols (turns_view l e) - 1) in
  let v := 2 * j - (vrows (turns_view l e) - 1) in
  let m := turns_mat l in
  2 * si - (vcols e - 1) = ma m * u + mb m * v /\
  2 * sj - (vrows e - 1) = mc m * u + md m * v.
Proof. intros. destruct (turns_read l e i j p) as (a & b & H1 & H2 & H3). exists a, b. auto. Qed.
Print Assumptions turns_compose.

(* Two sequences with the same matrix give the same view; in particular all
   the group laws of the square hold. *)
Theorem turns_determined_by_matrix : forall A (l l' : list turn) (e : vexp A),
  turns_mat l = turns_mat l' -> same_view (turns_view l e) (turns_view l' e).
Proof.
  intros A l l' e E.
  pose proof (turns_dims l e) as D1. pose proof (turns_dims l' e) as D2. cbv zeta in *. rewrite <- E in D2.
  assert (D : vcols (turns_view l e) = vcols (turns_view l' e) /\ vrows (turns_view l e) = vrows (turns_view l' e)) by lia.
  destruct D as [Dc Dr]. unfold same_view. rewrite !turns_planes. repeat split; auto.
  intros i j p.
  destruct (turns_read l e i j p) as (a & b & H1 & H2 & H3).
  destruct (turns_read l' e i j p) as (a' & b' & H1' & H2' & H3').
  rewrite Dc, Dr, E in H2. rewrite Dc, Dr, E in H3. rewrite H1, H1'. f_equal; lia.
Qed.
Print Assumptions turns_determined_by_matrix.

Corollary rotation_laws : forall A (e : vexp A),
  same_view (VR180 (VR180 e)) e /\ same_view (VFlipV (VFlipV e)) e /\
  same_view (VCW (VCCW e)) e /\ same_view (VCCW (VCW e)) e /\
  same_view (VCW (VCW e)) (VR180 e) /\ same_view (VCW (VCW (VCW e))) (VCCW e) /\
  same_view (VTrans e) (VFlipV (VCCW e)) /\ same_view (VCW e) (VTrans (VFlipV e)).
Proof.
  intros A e. repeat match goal with |- _ /\ _ => split end.
  - apply (turns_determined_by_matrix A [T180; T180] [] e); reflexivity.
  - apply (turns_determined_by_matrix A [TFlipV; TFlipV] [] e); reflexivity.
  - apply (turns_determined_by_matrix A [TCW; TCCW] [] e); reflexivity.
  - apply (turns_determined_by_matrix A [TCCW; TCW] [] e); reflexivity.
  - apply (turns_determined_by_matrix A [TCW; TCW] [T180] e); reflexivity.
  - apply (turns_determined_by_matrix A [TCW; TCW; TCW] [TCCW] e); reflexivity.
  - apply (turns_determined_by_matrix A [TTrans] [TFlipV; TCCW] e); reflexivity.
  - apply (turns_determined_by_matrix A [TCW] [TTrans; TFlipV] e); reflexivity.
Qed.
Print Assumptions rotation_laws.

Theorem crop_of_crop : forall A (e : vexp A) a b c d a' b' c' d',
  same_view (VCrop (VCrop e a b c d) a' b' c' d') (VCrop e (a + a') (b + b') c' d').
Proof. intros. repeat split. intros. cbn [vread]. f_equal; ring. Qed.
Print Assumptions crop_of_crop.

Theorem subsample_twice : forall A (e : vexp A) a b a' b',
  0 < a -> 0 < b -> 0 < a' -> 0 < b' -> 0 < vcols e -> 0 < vrows e ->
  same_view (VSub (VSub e a b) a' b') (VSub e (a * a') (b * b')).
Proof.
  intros. unfold same_view. cbn [vcols vrows vplanes vread].
  repeat split; [| |intros; f_equal; ring].
  - replace (1 + Z.quot (vcols e - 1) a - 1) with (Z.quot (vcols e - 1) a) by ring. rewrite Z.quot_quot; lia.
  - replace (1 + Z.quot (vrows e - 1) b - 1) with (Z.quot (vrows e - 1) b) by ring. rewrite Z.quot_quot; lia.
Qed.
Print Assumptions subsample_twice.

(* A subsampled view shows exactly the pixels whose coordinates are multiples of
   the factors, and has a column for each of them. *)
Theorem subsample_pixels : forall A (e : vexp A) dx dy, 0 < dx -> 0 < dy -> 0 < vcols e -> 0 < vrows e ->
  forall x y p, vread (VSub e dx dy) x y p = vread e (dx * x) (dy * y) p /\
    (pixel (VSub e dx dy) x y p <-> pixel e (dx * x) (dy * y) p).
Proof.
  intros A e dx dy Dx Dy C R x y p. split; [reflexivity|]. unfold pixel. cbn [vcols vrows vplanes].
  assert (G : forall c d i, 0 < c -> 0 < d -> (0 <= i < 1 + Z.quot (c - 1) d <-> 0 <= d * i < c)).
  { intros c d i Hc Hd. split; [apply sub_range; auto|]. rewrite Z.quot_div_nonneg by lia.
    intros Hi. split; [nia|]. assert (i <= (c - 1) / d) by (apply Z.div_le_lower_bound; lia). lia. }
  rewrite <- !G by auto. tauto.
Qed.
Print Assumptions subsample_pixels.

(* An empty image subsampled by 2 claims to have a column and a row. *)
Theorem subsample_empty_refuted : exists e : vexp Z,
  well_formed e /\ vcols e = 0 /\ vrows e = 0 /\ vcols (VSub e 2 2) = 1 /\ vrows (VSub e 2 2) = 1 /\
  vread (VSub e 2 2) 0 0 0 = UB OutOfBounds.
Proof. exists (VImg 0 0 1 []). repeat split; simpl; lia. Qed.
Print Assumptions subsample_empty_refuted.

Example subsample_twice_ex : let e := VImg 7 5 1 (zrange 0 35) in
  vcols (VSub (VSub e 2 1) 2 3) = 2 /\ vrows (VSub (VSub e 2 1) 2 3) = 2 /\
  vread (VSub (VSub e 2 1) 2 3) 1 1 0 = Ok 25.
Proof. repeat split. Qed.

(* ------------------------------ C09 ------------------------------ *)
Theorem accessor_path_reads : forall A (e : vexp A) (l : list aop),
  aderef e (fold_left (fun a o => astep e o a) l (aorigin e)) =
  vread e (cols_moved l) (rows_moved l) (planes_moved l).
Proof. intros; apply path_read. Qed.
Print Assumptions accessor_path_reads.

(* Rasterising rectangle b of any view into a rectangle of a memory image
   copies b and leaves the rest of the image as it was. *)
Theorem rasterize_copies : forall A (src : vexp A) c r n buf cx cy b,
  let img := VImg c r n buf in
  let dest := VCrop img cx cy (bw b) (bh b) in
  well_formed dest -> n = vplanes src ->
  (forall x y p, inb b x y -> 0 <= p < n -> exists v, vread src x y p = Ok v) ->
  exists buf', rasterize src dest b = Ok (VCrop (VImg c r n buf') cx cy (bw b) (bh b)) /\
    length buf' = length buf /\
    forall x y p, pixel img x y p ->
      vread (VImg c r n buf') x y p =
        if (cx <=? x) && (x <? cx + bw b) && (cy <=? y) && (y <? cy + bh b)
        then vread src (x0 b + (x - cx)) (y0 b + (y - cy)) p
        else vread img x y p.
Proof.
  intros A src c r n buf cx cy b img dest W En RD.
  assert (INB : forall i j, 0 <= i < bw b -> 0 <= j < bh b -> inb b (x0 b + i) (y0 b + j)).
  { intros i j Hi Hj. destruct (bempty b) eqn:E.
    - unfold bw in Hi. rewrite E in Hi. lia.
    - rewrite (bw_nonempty b E) in Hi. rewrite (bh_nonempty b E) in Hj. unfold inb. lia. }
  destruct (rasterize_ok src dest b) as (buf' & E & L & G1 & G2); auto.
  { exact I. }
  { intros i j p (Hi & Hj & Hp). cbn [dest vcols vrows vplanes img] in *. apply RD; auto. }
  exists buf'. split; [exact E|]. split; [exact L|].
  intros x y p (Hx & Hy & Hp). cbn [img vcols vrows vplanes] in Hx, Hy, Hp.
  destruct W as ((W1 & W2 & W3 & W4) & W5 & W6 & W7 & W8 & W9 & W10). cbn [vcols vrows img] in W9, W10.
  destruct ((cx <=? x) && (x <? cx + bw b) && (cy <=? y) && (y <? cy + bh b)) eqn:B.
  - rewrite !andb_true_iff in B. rewrite <- G1.
    + unfold dest, img; cbn [addr vread]. f_equal. ring.
    + unfold pixel, dest, img; cbn [vcols vrows vplanes]. lia.
  - unfold img; cbn [vread]. apply G2.
    intros i j q (Hi & Hj & Hq). unfold dest, img in *; cbn [addr vcols vrows vplanes] in *.
    intros EA. assert (WI : well_formed (VImg c r n buf)) by (repeat split; auto).
    destruct (addr_inj (VImg c r n buf) WI I (cx + i) (cy + j) q x y p) as (Ex & Ey & Ep);
      try (unfold pixel; cbn [vcols vrows vplanes]; lia); auto.
Qed.
Print Assumptions rasterize_copies.

(* The same for any well-formed destination view, e.g. a rotated crop: every
   pixel of the destination view reads back the source pixel. *)
Theorem rasterize_into_view : forall A (src dest : vexp A) b,
  well_formed dest -> in_memory dest ->
  vcols dest = bw b -> vrows dest = bh b -> vplanes dest = vplanes src ->
  (forall i j p, pixel dest i j p -> exists v, vread src (x0 b + i) (y0 b + j) p = Ok v) ->
  exists dest', rasterize src dest b = Ok dest' /\
    vcols dest' = vcols dest /\ vrows dest' = vrows dest /\ vplanes dest' = vplanes dest /\
    forall i j p, pixel dest i j p -> vread dest' i j p = vread src (x0 b + i) (y0 b + j) p.
Proof.
  intros A src dest b W M E1 E2 E3 RD.
  destruct (rasterize_ok src dest b W M E1 E2 E3 RD) as (buf' & E & L & G1 & G2).
  exists (setbuf dest buf'). split; auto. rewrite setbuf_cols, setbuf_rows, setbuf_planes. repeat split; auto.
  intros i j p Hp. rewrite vread_addr by (apply in_mem_set; auto). rewrite vbuf_set, addr_set by auto. auto.
Qed.
Print Assumptions rasterize_into_view.

Theorem rasterize_size_mismatch : forall A (src dest : vexp A) b,
  vcols dest <> bw b \/ vrows dest <> bh b \/ vplanes dest <> vplanes src ->
  rasterize src dest b = Throw ArgumentErr.
Proof.
  intros A src dest b H. unfold rasterize.
  destruct (Z.eqb_spec (vcols dest) (bw b)), (Z.eqb_spec (vrows dest) (bh b)), (Z.eqb_spec (vplanes dest) (vplanes src));
    try reflexivity. tauto.
Qed.
Print Assumptions rasterize_size_mismatch.

Example rasterize_ex :
  rasterize (VCW (VSub (VImg 5 3 1 (zrange 0 15)) 2 2)) (VTrans (VImg 2 2 1 [0; 0; 0; 0])) (box_of 0 1 2 2)
  = Ok (VTrans (VImg 2 2 1 [12; 14; 2; 4])).
Proof. reflexivity. Qed.

(* ------------------------------ C10 ------------------------------ *)
(* For any nesting of views: prerasterising a non-empty rectangle of the view
   succeeds -- so a resource at the bottom was only asked for pixels it has --
   and the result shows the same pixels there. *)
Theorem prerasterize_agrees : forall A (z : A) (e : vexp A) b,
  well_formed e -> sub_safe e ->
  has_pixel b -> 0 <= x0 b -> x1 b <= vcols e -> 0 <= y0 b -> y1 b <= vrows e ->
  exists e', prerasterize z e b = Ok e' /\
    vcols e' = vcols e /\ vrows e' = vrows e /\ vplanes e' = vplanes e /\
    forall i j p, inb b i j -> 0 <= p < vplanes e -> vread e' i j p = vread e i j p.
Proof. intros A z e b W S P X0 X1 Y0 Y1. apply pre_ok; auto. unfold fits. auto. Qed.
Print Assumptions prerasterize_agrees.

(* Hence view.rasterize(dest, b) fills dest with the pixels of b. *)
Theorem view_rasterize_copies : forall A (z : A) (src dest : vexp A) b,
  well_formed src -> sub_safe src ->
  has_pixel b -> 0 <= x0 b -> x1 b <= vcols src -> 0 <= y0 b -> y1 b <= vrows src ->
  well_formed dest -> in_memory dest ->
  vcols dest = x1 b - x0 b -> vrows dest = y1 b - y0 b -> vplanes dest = vplanes src ->
  exists dest', view_rasterize z src dest b = Ok dest' /\
    forall i j p, pixel dest i j p -> vread dest' i j p = vread src (x0 b + i) (y0 b + j) p.
Proof.
  intros A z src dest b W S P X0 X1 Y0 Y1 Wd M Dc Dr Dp.
  destruct (pre_ok z src W S b) as (e' & E & E1 & E2 & E3 & E4); [unfold fits; auto|].
  unfold view_rasterize. rewrite E. cbn [bind].
  destruct (rasterize_into_view A e' dest b Wd M) as (d' & F & _ & _ & _ & G).
  - rewrite bw_of; auto.
  - rewrite bh_of; auto.
  - congruence.
  - intros i j p (Hi & Hj & Hp).
    destruct (read_ok src W (x0 b + i) (y0 b + j) p) as (v & Ev); [unfold pixel; lia|].
    exists v. rewrite E4; auto; [unfold inb; lia|lia].
  - exists d'. split; auto. intros i j p H. rewrite G by auto. destruct H as (Hi & Hj & Hp).
    apply E4; [unfold inb; lia|lia].
Qed.
Print Assumptions view_rasterize_copies.

(* With a larger vertical than horizontal factor the child is asked for too few
   rows and the subsampling reads outside what was prerasterised. *)
Theorem subsample_prerasterize_refuted : exists (e : vexp Z) b,
  well_formed e /\ vplanes e = 1 /\ has_pixel b /\ 0 <= x0 b /\ x1 b <= vcols e /\ 0 <= y0 b /\ y1 b <= vrows e /\
  prerasterize 0 e b = UB OutOfBounds.
Proof.
  exists (VSub (VRes 3 4 (fun i j => 10 * i + j)) 1 2), (box_of 0 0 3 2).
  repeat split; try reflexivity; simpl; lia.
Qed.
Print Assumptions subsample_prerasterize_refuted.

(* With a larger horizontal factor it is asked for rows it does not have. *)
Theorem subsample_prerasterize_wide_refuted : exists (e : vexp Z) b,
  well_formed e /\ vplanes e = 1 /\ has_pixel b /\ 0 <= x0 b /\ x1 b <= vcols e /\ 0 <= y0 b /\ y1 b <= vrows e /\
  prerasterize 0 e b = Throw ArgumentErr.
Proof.
  exists (VSub (VRes 3 2 (fun i j => 10 * i + j)) 2 1), (box_of 0 0 2 2).
  repeat split; try reflexivity; simpl; lia.
Qed.
Print Assumptions subsample_prerasterize_wide_refuted.

(* Subsampling an image of several planes cannot be rasterised at all. *)
Theorem subsample_planes_refuted : exists (e : vexp Z) b,
  well_formed e /\ vplanes e = 2 /\ has_pixel b /\ 0 <= x0 b /\ x1 b <= vcols e /\ 0 <= y0 b /\ y1 b <= vrows e /\
  prerasterize 0 e b = Throw ArgumentErr.
Proof.
  exists (VSub (VImg 2 2 2 (zrange 0 8)) 1 1), (box_of 0 0 2 2).
  repeat split; try reflexivity; simpl; lia.
Qed.
Print Assumptions subsample_planes_refuted.

Example prerasterize_ex : let e := VFlipV (VSub (VCW (VCrop (VRes 9 8 (fun i j => 10 * i + j)) 1 1 7 6)) 2 2) in
  well_formed e /\ sub_safe e /\ vcols e = 3 /\ vrows e = 4 /\
  (e' <- prerasterize 0 e (box_of 1 1 2 3) ;; vread e' 2 3 0) = vread e 2 3 0 /\ vread e 2 3 0 = Ok 12.
Proof.
  cbv zeta. split; [cbn; lia|]. split; [cbn; lia|]. split; [reflexivity|]. split; [reflexivity|].
  split; vm_compute; reflexivity.
Qed.

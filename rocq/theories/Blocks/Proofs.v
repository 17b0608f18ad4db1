From Coq Require Import ZArith List Lia Bool.
From Verif Require Import Lib.Base BBox.Proofs BBox.Box2 Blocks.Model Blocks.Spec.
Import ListNotations.
Local Open Scope Z_scope.

Lemma inbb_iff b x y : inbb b x y = true <-> inb b x y.
Proof. unfold inbb, inb. rewrite !andb_true_iff, !Z.leb_le, !Z.ltb_lt. lia. Qed.
Lemma ncover_nil x y : ncover [] x y = 0%nat.
Proof. reflexivity. Qed.
Lemma ncover_cons b l x y : ncover (b :: l) x y = ((if inbb b x y then 1 else 0) + ncover l x y)%nat.
Proof. unfold ncover; simpl. destruct (inbb b x y); reflexivity. Qed.
Lemma ncover_app l m x y : ncover (l ++ m) x y = (ncover l x y + ncover m x y)%nat.
Proof. unfold ncover. rewrite filter_app, app_length. auto. Qed.
Lemma ncover_zero l x y : (forall b, In b l -> ~ inb b x y) -> ncover l x y = 0%nat.
Proof.
  induction l; intros H; auto. rewrite ncover_cons, IHl by (intros; apply H; simpl; auto).
  destruct (inbb a x y) eqn:E; auto. apply inbb_iff in E. exfalso. apply (H a); simpl; auto.
Qed.
Lemma ncover_pos l x y : (0 < ncover l x y)%nat <-> exists b, In b l /\ inb b x y.
Proof.
  induction l as [|b l IH].
  - rewrite ncover_nil. split; [lia|intros (b & [] & _)].
  - rewrite ncover_cons. destruct (inbb b x y) eqn:E.
    + split; [|lia]. intros _. exists b. rewrite inbb_iff in E. simpl; auto.
    + simpl plus. rewrite IH. split.
      * intros (c & ? & ?). exists c; simpl; auto.
      * intros (c & [->|?] & Hc); eauto. apply inbb_iff in Hc. congruence.
Qed.

(* ---- subdivide_bbox ---- *)

Ltac zdec := repeat match goal with
  | |- context [?a <? ?b] => destruct (Z.ltb_spec a b)
  | |- context [?a <=? ?b] => destruct (Z.leb_spec a b)
  end.


Lemma if_cov (c : bool) (P : Prop) : (c = true <-> P) -> forall Q : Prop, (P <-> Q) -> forall d : bool, (d = true <-> Q) ->
  (if c then 1 else 0)%nat = (if d then 1 else 0)%nat.
Proof. intros. destruct c, d; auto; exfalso; intuition discriminate. Qed.

Lemma inb_box_of x y w h px py : inb (box_of x y w h) px py <-> x <= px < x + w /\ y <= py < y + h.
Proof. reflexivity. Qed.

Lemma b2n_eq (c d : bool) : (c = true <-> d = true) -> (if c then 1 else 0)%nat = (if d then 1 else 0)%nat.
Proof. destruct c, d; intuition discriminate. Qed.

(* number of boxes covering, as 0/1 of membership in a given box *)
Definition cov1 (b : box) (x y : Z) : nat := if inbb b x y then 1%nat else 0%nat.

Lemma cov1_split b c d x y :
  (inb d x y <-> inb b x y \/ inb c x y) -> ~ (inb b x y /\ inb c x y) ->
  (cov1 b x y + cov1 c x y = cov1 d x y)%nat.
Proof.
  unfold cov1. rewrite <- !inbb_iff. destruct (inbb b x y), (inbb c x y), (inbb d x y); intuition discriminate.
Qed.
Lemma cov1_zero b x y : ~ inb b x y -> cov1 b x y = 0%nat.
Proof. unfold cov1. rewrite <- inbb_iff. destruct (inbb b x y); intuition discriminate. Qed.
Lemma cov1_one b x y : inb b x y -> cov1 b x y = 1%nat.
Proof. unfold cov1. rewrite <- inbb_iff. intros ->; auto. Qed.
Lemma cov1_ext b c x y : (inb b x y <-> inb c x y) -> cov1 b x y = cov1 c x y.
Proof. unfold cov1. rewrite <- !inbb_iff. destruct (inbb b x y), (inbb c x y); intuition discriminate. Qed.

Lemma sub_cols_partial fuel : forall ox w blk oy jdim i,
  0 < blk -> 0 < jdim -> 0 <= i -> Z.max 0 (w - i) < Z.of_nat fuel ->
  exists l, sub_cols fuel ox w blk true false oy jdim i = Ok l /\
    (forall b, In b l -> x0 b < x1 b /\ x1 b - x0 b <= blk /\ ox + i <= x0 b /\ x1 b <= ox + w /\ y0 b = oy /\ y1 b = oy + jdim) /\
    forall x y, ncover l x y = cov1 (Box (ox + i) oy (ox + w) (oy + jdim)) x y.
Proof.
  induction fuel as [|f IH]; intros ox w blk oy jdim i Hb Hj Hi Hf; [lia|].
  cbn [sub_cols negb]. destruct (Z.ltb_spec i w) as [Lw|Lw].
  - assert (E : (if w - i <? blk
       then r <- sub_cols f ox w blk true false oy jdim (i + blk);; Ok (box_of (i + ox) oy (w - i) jdim :: r)
       else r <- sub_cols f ox w blk true false oy jdim (i + blk);; Ok (box_of (i + ox) oy blk jdim :: r))
       = (r <- sub_cols f ox w blk true false oy jdim (i + blk);; Ok (box_of (i + ox) oy (Z.min blk (w - i)) jdim :: r))).
    { destruct (Z.ltb_spec (w - i) blk); [rewrite Z.min_r by lia|rewrite Z.min_l by lia]; reflexivity. }
    cbn zeta. rewrite E. clear E.
    destruct (IH ox w blk oy jdim (i + blk)) as (l & -> & Hl & Hc); try lia.
    simpl. eexists; split; [reflexivity|]. split.
    + intros b [<-|Ib]; simpl; [lia|]. specialize (Hl b Ib). lia.
    + intros x y. rewrite ncover_cons, Hc. apply cov1_split; unfold inb, box_of; simpl; lia.
  - eexists; split; [reflexivity|]. split; [intros b []|].
    intros x y. rewrite ncover_nil. symmetry; apply cov1_zero. unfold inb; simpl. lia.
Qed.

Lemma sub_rows_partial fuel : forall o bwid bhei j,
  0 < bwid -> 0 < bhei -> 0 <= j -> Z.max 0 (bh o - j) < Z.of_nat fuel -> bempty o = false ->
  exists l, sub_rows fuel o bwid bhei true false j = Ok l /\
    (forall b, In b l -> has_pixel b /\ x1 b - x0 b <= bwid /\ y1 b - y0 b <= bhei /\
       x0 o <= x0 b /\ x1 b <= x1 o /\ y0 o <= y0 b /\ y1 b <= y1 o) /\
    forall x y, ncover l x y = cov1 (Box (x0 o) (y0 o + j) (x1 o) (y1 o)) x y.
Proof.
  induction fuel as [|f IH]; intros o bwid bhei j Hb Hh Hj Hf He; [lia|].
  pose proof (bw_nonempty o He) as EW. pose proof (bh_nonempty o He) as EH. pose proof (proj1 (bempty_false o) He) as Ne.
  cbn [sub_rows negb]. cbn zeta. destruct (Z.ltb_spec j (bh o)) as [Lw|Lw].
  - assert (E : (if bh o - j <? bhei
       then r1 <- sub_cols (S (Z.to_nat (bw o))) (x0 o) (bw o) bwid true false (j + y0 o) (bh o - j) 0;;
            r2 <- sub_rows f o bwid bhei true false (j + bhei);; Ok (r1 ++ r2)
       else r1 <- sub_cols (S (Z.to_nat (bw o))) (x0 o) (bw o) bwid true false (j + y0 o) bhei 0;;
            r2 <- sub_rows f o bwid bhei true false (j + bhei);; Ok (r1 ++ r2))
       = (r1 <- sub_cols (S (Z.to_nat (bw o))) (x0 o) (bw o) bwid true false (j + y0 o) (Z.min bhei (bh o - j)) 0;;
            r2 <- sub_rows f o bwid bhei true false (j + bhei);; Ok (r1 ++ r2))).
    { destruct (Z.ltb_spec (bh o - j) bhei); [rewrite Z.min_r by lia|rewrite Z.min_l by lia]; reflexivity. }
    rewrite E. clear E.
    destruct (sub_cols_partial (S (Z.to_nat (bw o))) (x0 o) (bw o) bwid (j + y0 o) (Z.min bhei (bh o - j)) 0)
      as (l1 & -> & Hl1 & Hc1); try lia.
    destruct (IH o bwid bhei (j + bhei)) as (l2 & -> & Hl2 & Hc2); try lia; auto.
    simpl. eexists; split; [reflexivity|]. split.
    + intros b Ib. apply in_app_or in Ib. destruct Ib as [Ib|Ib]; [|auto].
      specialize (Hl1 b Ib). unfold has_pixel. lia.
    + intros x y. rewrite ncover_app, Hc1, Hc2. apply cov1_split; unfold inb; simpl; lia.
  - eexists; split; [reflexivity|]. split; [intros b []|].
    intros x y. rewrite ncover_nil. symmetry; apply cov1_zero. unfold inb; simpl. lia.
Qed.

Lemma sub_rows_empty f o bwid bhei incl full : bempty o = true -> sub_rows (S f) o bwid bhei incl full 0 = Ok [].
Proof. intros E. cbn [sub_rows]. unfold bh. rewrite E. reflexivity. Qed.

Lemma partitions_cov1 l o : (forall x y, ncover l x y = cov1 o x y) -> partitions l o.
Proof.
  intros H x y. rewrite H. unfold cov1. rewrite <- inbb_iff. destruct (inbb o x y); intuition congruence.
Qed.

Lemma subdivide_partition o bwid bhei : 0 < bwid -> 0 < bhei ->
  exists l, subdivide_bbox o bwid bhei true false = Ok l /\ partitions l o /\
    forall b, In b l -> has_pixel b /\ x1 b - x0 b <= bwid /\ y1 b - y0 b <= bhei /\ subset b o.
Proof.
  intros Hb Hh. unfold subdivide_bbox. cbn [negb andb].
  destruct (bempty o) eqn:E.
  - rewrite sub_rows_empty by auto. exists []. split; [auto|]. split; [|intros b []].
    apply partitions_cov1. intros. rewrite ncover_nil. symmetry; apply cov1_zero.
    apply bempty_true in E. unfold inb; lia.
  - pose proof (bh_nonneg o).
    destruct (sub_rows_partial (S (Z.to_nat (bh o))) o bwid bhei 0) as (l & -> & Hl & Hc); try lia; auto.
    exists l. split; [auto|]. split.
    + apply partitions_cov1. intros. rewrite Hc. apply cov1_ext. unfold inb; simpl. lia.
    + intros b Ib. destruct (Hl b Ib) as (Px&?&?&?&?&?&?). split; [exact Px|]. split; [lia|]. split; [lia|]. unfold subset, inb. intros; lia.
Qed.

(* full tiles only *)
Definition fulls (w blk : Z) : Z := blk * (w / blk).
Lemma fulls_le w blk : 0 < blk -> fulls w blk <= w < fulls w blk + blk.
Proof. intros. unfold fulls. pose proof (Z.mul_div_le w blk ltac:(lia)). pose proof (Z.mul_succ_div_gt w blk ltac:(lia)). lia. Qed.

(* number of complete tiles from k*blk on *)
Lemma sub_cols_full fuel : forall ox w blk oy jdim k,
  0 < blk -> 0 < jdim -> 0 <= k -> Z.max 0 (w - k * blk) < Z.of_nat fuel ->
  exists l, sub_cols fuel ox w blk false false oy jdim (k * blk) = Ok l /\
    (forall b, In b l -> x1 b - x0 b = blk /\ ox <= x0 b /\ x1 b <= ox + w /\ y0 b = oy /\ y1 b = oy + jdim) /\
    forall x y, ncover l x y = cov1 (Box (ox + k * blk) oy (ox + fulls w blk) (oy + jdim)) x y.
Proof.
  induction fuel as [|f IH]; intros ox w blk oy jdim k Hb Hj Hi Hf; [lia|].
  pose proof (fulls_le w blk Hb) as FL.
  cbn [sub_cols negb]. destruct (Z.ltb_spec (k * blk) w) as [Lw|Lw].
  - replace (k * blk + blk) with ((k + 1) * blk) by lia.
    destruct (IH ox w blk oy jdim (k + 1)) as (l & E & Hl & Hc); try nia.
    destruct (Z.ltb_spec (w - k * blk) blk) as [L2|L2].
    + rewrite E. exists l. split; [auto|]. split; [auto|]. intros x y. rewrite Hc.
      assert (w / blk = k) by (symmetry; apply Z.div_unique with (w - k * blk); nia).
      unfold fulls in *. rewrite !cov1_zero; auto; unfold inb; simpl; nia.
    + rewrite E. simpl. eexists; split; [reflexivity|].
      assert (k + 1 <= w / blk) by (apply Z.div_le_lower_bound; nia).
      split.
      * intros b [<-|Ib]; simpl; [nia|auto].
      * intros x y. rewrite ncover_cons, Hc. unfold fulls in *. apply cov1_split; unfold inb, box_of; simpl; nia.
  - eexists; split; [reflexivity|]. split; [intros b []|].
    intros x y. rewrite ncover_nil. symmetry; apply cov1_zero. unfold inb; simpl. lia.
Qed.

Lemma sub_rows_full fuel : forall o bwid bhei k,
  0 < bwid -> 0 < bhei -> 0 <= k -> Z.max 0 (bh o - k * bhei) < Z.of_nat fuel -> bempty o = false ->
  exists l, sub_rows fuel o bwid bhei false false (k * bhei) = Ok l /\
    (forall b, In b l -> x1 b - x0 b = bwid /\ y1 b - y0 b = bhei /\
       x0 o <= x0 b /\ x1 b <= x1 o /\ y0 o <= y0 b /\ y1 b <= y1 o) /\
    forall x y, ncover l x y = cov1 (Box (x0 o) (y0 o + k * bhei) (x0 o + fulls (bw o) bwid) (y0 o + fulls (bh o) bhei)) x y.
Proof.
  induction fuel as [|f IH]; intros o bwid bhei k Hb Hh Hj Hf He; [lia|].
  pose proof (bw_nonempty o He) as EW. pose proof (bh_nonempty o He) as EH. pose proof (proj1 (bempty_false o) He) as Ne.
  pose proof (fulls_le (bh o) bhei Hh) as FH. pose proof (fulls_le (bw o) bwid Hb) as FW.
  cbn [sub_rows negb]. cbn zeta. destruct (Z.ltb_spec (k * bhei) (bh o)) as [Lw|Lw].
  - replace (k * bhei + bhei) with ((k + 1) * bhei) by lia.
    destruct (IH o bwid bhei (k + 1)) as (l2 & E2 & Hl2 & Hc2); try nia; auto.
    destruct (Z.ltb_spec (bh o - k * bhei) bhei) as [L2|L2].
    + rewrite E2. exists l2. split; [auto|]. split; [auto|]. intros x y. rewrite Hc2.
      assert (bh o / bhei = k) by (symmetry; apply Z.div_unique with (bh o - k * bhei); nia).
      unfold fulls in *. rewrite !cov1_zero; auto; unfold inb; simpl; nia.
    + destruct (sub_cols_full (S (Z.to_nat (bw o))) (x0 o) (bw o) bwid (k * bhei + y0 o) bhei 0)
        as (l1 & E1 & Hl1 & Hc1); try lia.
      change (0 * bwid) with 0 in E1. rewrite E1, E2. simpl. eexists; split; [reflexivity|].
      assert (k + 1 <= bh o / bhei) by (apply Z.div_le_lower_bound; nia). split.
      * intros b Ib. apply in_app_or in Ib. destruct Ib as [Ib|Ib]; [|auto].
        specialize (Hl1 b Ib). nia.
      * intros x y. rewrite ncover_app, Hc1, Hc2. unfold fulls in *. apply cov1_split; unfold inb; simpl; nia.
  - eexists; split; [reflexivity|]. split; [intros b []|].
    intros x y. rewrite ncover_nil. symmetry; apply cov1_zero. unfold inb; simpl. lia.
Qed.

Lemma subdivide_full_tiles o bwid bhei : 0 < bwid -> 0 < bhei ->
  exists l, subdivide_bbox o bwid bhei false false = Ok l /\
    (forall b, In b l -> x1 b - x0 b = bwid /\ y1 b - y0 b = bhei /\ subset b o) /\
    partitions l (Box (x0 o) (y0 o) (x0 o + bwid * (bw o / bwid)) (y0 o + bhei * (bh o / bhei))).
Proof.
  intros Hb Hh. unfold subdivide_bbox. cbn [negb andb].
  destruct (bempty o) eqn:E.
  - rewrite sub_rows_empty by auto. exists []. split; [auto|]. split; [intros b []|].
    apply partitions_cov1. intros. rewrite ncover_nil. symmetry; apply cov1_zero.
    unfold bw, bh. rewrite E, !Z.div_0_l by lia. unfold inb; simpl; lia.
  - pose proof (bh_nonneg o).
    destruct (sub_rows_full (S (Z.to_nat (bh o))) o bwid bhei 0) as (l & E' & Hl & Hc); try lia; auto.
    change (0 * bhei) with 0 in E'. rewrite E'. exists l. split; [auto|]. split.
    + intros b Ib. destruct (Hl b Ib) as (?&?&?&?&?&?). split; [lia|]. split; [lia|]. unfold subset, inb. intros; lia.
    + apply partitions_cov1. intros. rewrite Hc. apply cov1_ext. unfold inb, fulls; simpl. lia.
Qed.

(* tiles of constant size covering the object *)
Lemma sub_cols_fs fuel : forall ox w blk oy jdim i,
  0 < blk -> 0 < jdim -> 0 <= i -> Z.max 0 (w - i) < Z.of_nat fuel ->
  exists l, sub_cols fuel ox w blk true true oy jdim i = Ok l /\
    (forall b, In b l -> x1 b - x0 b = blk /\ y0 b = oy /\ y1 b = oy + jdim /\ x1 b <= ox + w /\ (blk <= w -> ox <= x0 b)) /\
    forall x y, ox + i <= x < ox + w -> oy <= y < oy + jdim -> exists b, In b l /\ inb b x y.
Proof.
  induction fuel as [|f IH]; intros ox w blk oy jdim i Hb Hj Hi Hf; [lia|].
  cbn [sub_cols negb]. cbn zeta. destruct (Z.ltb_spec i w) as [Lw|Lw].
  - destruct (Z.ltb_spec (w - i) blk) as [L2|L2].
    + replace (w - blk + blk) with w by lia.
      destruct (IH ox w blk oy jdim w) as (l & -> & Hl & Hc); try lia.
      simpl. eexists; split; [reflexivity|]. split.
      * intros b [<-|Ib]; simpl; [lia|]. specialize (Hl b Ib). lia.
      * intros x y Hx Hy. eexists; split; [left; reflexivity|]. unfold inb, box_of; simpl. lia.
    + destruct (IH ox w blk oy jdim (i + blk)) as (l & -> & Hl & Hc); try lia.
      simpl. eexists; split; [reflexivity|]. split.
      * intros b [<-|Ib]; simpl; [lia|]. specialize (Hl b Ib). lia.
      * intros x y Hx Hy. destruct (Z_lt_le_dec x (ox + (i + blk))).
        -- eexists; split; [left; reflexivity|]. unfold inb, box_of; simpl. lia.
        -- destruct (Hc x y) as (b & ? & ?); try lia. exists b; simpl; auto.
  - eexists; split; [reflexivity|]. split; [intros b []|]. intros; lia.
Qed.

Lemma sub_rows_fs fuel : forall o bwid bhei j,
  0 < bwid -> 0 < bhei -> 0 <= j -> Z.max 0 (bh o - j) < Z.of_nat fuel -> bempty o = false ->
  exists l, sub_rows fuel o bwid bhei true true j = Ok l /\
    (forall b, In b l -> x1 b - x0 b = bwid /\ y1 b - y0 b = bhei /\ x1 b <= x1 o /\ y1 b <= y1 o /\
       (bwid <= bw o -> x0 o <= x0 b) /\ (bhei <= bh o -> y0 o <= y0 b)) /\
    forall x y, x0 o <= x < x1 o -> y0 o + j <= y < y1 o -> exists b, In b l /\ inb b x y.
Proof.
  induction fuel as [|f IH]; intros o bwid bhei j Hb Hh Hj Hf He; [lia|].
  pose proof (bw_nonempty o He) as EW. pose proof (bh_nonempty o He) as EH. pose proof (proj1 (bempty_false o) He) as Ne.
  cbn [sub_rows negb]. cbn zeta. destruct (Z.ltb_spec j (bh o)) as [Lw|Lw].
  - destruct (Z.ltb_spec (bh o - j) bhei) as [L2|L2].
    + replace (bh o - bhei + bhei) with (bh o) by lia.
      destruct (sub_cols_fs (S (Z.to_nat (bw o))) (x0 o) (bw o) bwid (bh o - bhei + y0 o) bhei 0)
        as (l1 & -> & Hl1 & Hc1); try lia.
      destruct (IH o bwid bhei (bh o)) as (l2 & -> & Hl2 & Hc2); try lia; auto.
      simpl. eexists; split; [reflexivity|]. split.
      * intros b Ib. apply in_app_or in Ib. destruct Ib as [Ib|Ib]; [|auto].
        specialize (Hl1 b Ib). lia.
      * intros x y Hx Hy. destruct (Hc1 x y) as (b & ? & ?); try lia. exists b. rewrite in_app_iff. auto.
    + destruct (sub_cols_fs (S (Z.to_nat (bw o))) (x0 o) (bw o) bwid (j + y0 o) bhei 0)
        as (l1 & -> & Hl1 & Hc1); try lia.
      destruct (IH o bwid bhei (j + bhei)) as (l2 & -> & Hl2 & Hc2); try lia; auto.
      simpl. eexists; split; [reflexivity|]. split.
      * intros b Ib. apply in_app_or in Ib. destruct Ib as [Ib|Ib]; [|auto].
        specialize (Hl1 b Ib). lia.
      * intros x y Hx Hy. destruct (Z_lt_le_dec y (y0 o + (j + bhei))).
        -- destruct (Hc1 x y) as (b & ? & ?); try lia. exists b. rewrite in_app_iff. auto.
        -- destruct (Hc2 x y) as (b & ? & ?); try lia. exists b. rewrite in_app_iff. auto.
  - eexists; split; [reflexivity|]. split; [intros b []|]. intros; lia.
Qed.

Lemma subdivide_full_size o bwid bhei : 0 < bwid -> 0 < bhei ->
  exists l, subdivide_bbox o bwid bhei true true = Ok l /\
    (forall b, In b l -> x1 b - x0 b = bwid /\ y1 b - y0 b = bhei) /\
    (forall x y, inb o x y -> exists b, In b l /\ inb b x y) /\
    (bwid <= bw o -> bhei <= bh o -> forall b, In b l -> subset b o).
Proof.
  intros Hb Hh. unfold subdivide_bbox. cbn [negb andb].
  destruct (bempty o) eqn:E.
  - rewrite sub_rows_empty by auto. exists []. split; [auto|]. split; [intros b []|]. split; [|intros _ _ b []].
    intros x y H. apply bempty_true in E. unfold inb in H; lia.
  - pose proof (bh_nonneg o).
    destruct (sub_rows_fs (S (Z.to_nat (bh o))) o bwid bhei 0) as (l & E' & Hl & Hc); try lia; auto.
    rewrite E'. exists l. split; [auto|]. split; [|split].
    + intros b Ib. destruct (Hl b Ib) as (?&?&?). auto.
    + intros x y [? ?]. apply Hc; lia.
    + intros L1 L2 b Ib x y [? ?]. destruct (Hl b Ib) as (?&?&?&?&?&?). unfold inb; lia.
Qed.

(* ---- BlockProcessor ---- *)

Lemma round_down_floor v m : 0 < m -> round_down v m = m * (v / m).
Proof.
  intros Hm. unfold round_down. destruct (v >=? 0) eqn:E; b2p.
  - rewrite Z.rem_mod_nonneg by lia. pose proof (Z.div_mod v m ltac:(lia)). lia.
  - rewrite Z.rem_mod_nonneg by lia. pose proof (Z.div_mod (- v - 1) m ltac:(lia)) as D.
    pose proof (Z.mod_pos_bound (-v-1) m Hm) as B.
    set (q := (- v - 1) / m) in *. set (r := (- v - 1) mod m) in *.
    assert (v / m = - q - 1) as ->. { symmetry. apply Z.div_unique with (m - 1 - r); nia. } nia.
Qed.

Section BP.
  Variables (total : box) (bx by_ : Z).
  Hypothesis Hbx : 0 < bx.
  Hypothesis Hby : 0 < by_.
  Notation step := (bstep total bx by_).
  Notation steps := (bsteps total bx by_).
  Let rx := bx * (x0 total / bx).
  Let ry := by_ * (y0 total / by_).

  Lemma rx_le : rx <= x0 total < rx + bx.
  Proof. unfold rx. pose proof (Z.mul_div_le (x0 total) bx ltac:(lia)). pose proof (Z.mul_succ_div_gt (x0 total) bx ltac:(lia)). lia. Qed.
  Lemma ry_le : ry <= y0 total < ry + by_.
  Proof. unfold ry. pose proof (Z.mul_div_le (y0 total) by_ ltac:(lia)). pose proof (Z.mul_succ_div_gt (y0 total) by_ ltac:(lia)). lia. Qed.

  (* boxes in flight *)
  Definition running (ws : list worker) : list box :=
    flat_map (fun w => match w with Running b => [b] | _ => [] end) ws.

  (* pixel handed out before block c in raster order of blocks *)
  Definition before (c : box) (x y : Z) : Prop :=
    inb total x y /\ (y < y0 c \/ (y < y1 c /\ x < x0 c)).

  Definition aligned (b : box) : Prop :=
    exists i j, b = bcrop (box_of (i * bx) (j * by_) bx by_) total.

  Definition inv_blk (c : box) : Prop :=
    x1 c = x0 c + bx /\ y1 c = y0 c + by_ /\ (exists i, x0 c = i * bx) /\ (exists j, y0 c = j * by_) /\
    rx <= x0 c /\ (x0 c = rx \/ x0 c < x1 total) /\ ry <= y0 c.

  Definition binv (s : bstate) : Prop :=
    inv_blk (blk s) /\
    (forall b, In b (calls s ++ running (workers s)) -> aligned b /\ (bempty total = false -> has_pixel b)) /\
    (forall x y, (before (blk s) x y -> ncover (calls s ++ running (workers s)) x y = 1%nat) /\
                 (~ before (blk s) x y -> ncover (calls s ++ running (workers s)) x y = 0%nat)) /\
    (In Done (workers s) -> info_complete total (blk s) = true).

  Lemma upd_split {A} (l : list A) k a w : nth_error l k = Some w ->
    exists l1 l2, l = l1 ++ w :: l2 /\ upd k a l = l1 ++ a :: l2.
  Proof.
    revert k; induction l; destruct k; simpl; intros H; try discriminate.
    - inversion H; subst. exists [], l. auto.
    - destruct (IHl k H) as (l1 & l2 & -> & ->). exists (a0 :: l1), l2. auto.
  Qed.

  Lemma running_app l m : running (l ++ m) = running l ++ running m.
  Proof. unfold running. apply flat_map_app. Qed.

  Lemma inv_init n : binv (binit total bx by_ n).
  Proof.
    assert (R : running (repeat Ready n) = []) by (induction n; simpl; auto).
    unfold binv, binit. simpl. rewrite R. unfold info_init. rewrite !round_down_floor by auto.
    fold rx ry. pose proof rx_le; pose proof ry_le. split; [|split; [|split]].
    - unfold inv_blk; simpl. repeat split; try lia; [exists (x0 total / bx)|exists (y0 total / by_)]; unfold rx, ry; lia.
    - intros b [].
    - intros x y. split; intros Hb.
      + unfold before, inb in Hb; simpl in Hb. lia.
      + reflexivity.
    - intros I. apply repeat_spec in I. discriminate.
  Qed.

  Lemma advance_before c : inv_blk c -> info_complete total c = false -> forall x y,
    before (info_advance total bx by_ c) x y <-> before c x y \/ inb (info_bbox total c) x y.
  Proof.
    intros (E1 & E2 & _ & _ & L1 & L2 & L3) Hc x y. unfold info_complete in Hc. b2p.
    pose proof rx_le; pose proof ry_le.
    unfold info_bbox. rewrite inb_crop. unfold before, info_advance.
    rewrite round_down_floor by auto. fold rx.
    destruct (x0 c + bx >=? x1 total) eqn:E; b2p; unfold inb; simpl; lia.
  Qed.

  Lemma advance_inv c : inv_blk c -> info_complete total c = false -> inv_blk (info_advance total bx by_ c).
  Proof.
    intros (E1 & E2 & (i & Ei) & (j & Ej) & L1 & L2 & L3) Hc. unfold info_advance.
    rewrite round_down_floor by auto. fold rx.
    destruct (x0 c + bx >=? x1 total) eqn:E; b2p; unfold inv_blk; simpl.
    - repeat split; try lia.
      + exists (x0 total / bx). unfold rx; lia.
      + exists (j + 1). lia.
    - repeat split; try lia.
      + exists (i + 1). lia.
      + exists j. lia.
  Qed.

  Lemma ncover_perm_mid l1 l2 b x y : ncover (l1 ++ b :: l2) x y = (cov1 b x y + ncover (l1 ++ l2) x y)%nat.
  Proof. rewrite !ncover_app, ncover_cons. unfold cov1. lia. Qed.

  Lemma in_mid {A} (l1 l2 : list A) a b : In b (l1 ++ a :: l2) <-> b = a \/ In b (l1 ++ l2).
  Proof. rewrite !in_app_iff. simpl. intuition. Qed.

  Lemma inv_step s k s' : binv s -> step s k s' -> binv s'.
  Proof.
    intros (I1 & I2 & I3 & I4) St. destruct St as [k Hk Hc|k Hk Hc|k b Hk];
      (match goal with |- context [upd k ?a _] => destruct (upd_split (workers s) k a _ Hk) as (l1 & l2 & Ew & Eu) end);
      unfold binv; simpl; rewrite Eu; rewrite Ew in I2, I3, I4; rewrite running_app in *; simpl in *.
    - (* exit *)
      split; [auto|]. split; [auto|]. split; auto.
    - (* take *)
      split; [apply advance_inv; auto|].
      split; [|split].
      + intros b. rewrite app_assoc, in_mid, <- app_assoc. intros [->|Ib]; [|apply I2; auto]. split.
        * destruct I1 as (E1 & E2 & (i & Ei) & (j & Ej) & _). exists i, j. unfold info_bbox, box_of.
          f_equal. destruct (blk s); simpl in *. subst. f_equal; lia.
        * intros He. apply bempty_false in He. unfold has_pixel, info_bbox. rewrite bcrop_eq. simpl.
          destruct I1 as (E1 & E2 & _ & _ & L1 & L2 & L3). unfold info_complete in Hc. b2p.
          pose proof rx_le; pose proof ry_le. lia.
      + intros x y. rewrite app_assoc, ncover_perm_mid, <- app_assoc.
        rewrite advance_before by auto. destruct (I3 x y) as [I3a I3b].
        assert (D : before (blk s) x y -> ~ inb (info_bbox total (blk s)) x y).
        { unfold before, info_bbox. rewrite inb_crop. unfold inb. lia. }
        assert (De : inb (info_bbox total (blk s)) x y \/ ~ inb (info_bbox total (blk s)) x y) by (unfold inb; lia).
        assert (Db : before (blk s) x y \/ ~ before (blk s) x y) by (unfold before, inb; lia).
        split.
        * intros [Hb|Hb].
          -- rewrite I3a by auto. rewrite cov1_zero by auto. auto.
          -- destruct Db as [Db|Db]; [exfalso; apply (D Db); auto|].
             rewrite I3b by auto. rewrite cov1_one by auto. auto.
        * intros Hb. rewrite I3b by tauto. rewrite cov1_zero by tauto. auto.
      + intros Hd. exfalso. apply in_mid in Hd. destruct Hd as [Hd|Hd]; [discriminate|].
        rewrite I4 in Hc; [discriminate|]. apply in_mid. auto.
    - (* call *)
      split; [auto|]. split; [|split].
      + intros c Ic. apply I2. rewrite app_assoc, in_mid, <- app_assoc. destruct Ic; auto.
      + intros x y. specialize (I3 x y). rewrite app_assoc, ncover_perm_mid, <- app_assoc in I3.
        rewrite ncover_cons. unfold cov1 in I3. auto.
      + intros Hd. apply I4. rewrite in_mid in *. intuition discriminate.
  Qed.

  Lemma inv_steps s tr s' : steps s tr s' -> binv s -> binv s'.
  Proof. induction 1; auto. intros. apply IHbsteps. eapply inv_step; eauto. Qed.

  Lemma all_done_running ws : Forall (fun w => w = Done) ws -> running ws = [].
  Proof. induction 1; auto. subst. simpl. auto. Qed.

  Lemma process_done_partition n tr s : (0 < n)%nat -> steps (binit total bx by_ n) tr s ->
    Forall (fun w => w = Done) (workers s) ->
    partitions (calls s) total /\
    (forall b, In b (calls s) -> aligned b /\ (bempty total = false -> has_pixel b)).
  Proof.
    intros Hn Hs Hd. assert (I : binv s) by (eapply inv_steps; eauto using inv_init).
    destruct I as (I1 & I2 & I3 & I4). rewrite all_done_running, app_nil_r in * by auto.
    split; auto.
    assert (Ln : length (workers s) = n).
    { assert (G : forall a t b, steps a t b -> length (workers b) = length (workers a)).
      { induction 1; auto. rewrite IHbsteps. assert (U : forall k0 a (l : list worker), length (upd k0 a l) = length l).
        { intros k0 a l; revert k0; induction l; destruct k0; simpl; auto. }
        destruct H; simpl; apply U. }
      rewrite (G _ _ _ Hs). simpl. apply repeat_length. }
    assert (C : info_complete total (blk s) = true).
    { apply I4. destruct (workers s); simpl in Ln; [lia|]. inversion Hd; subst. simpl; auto. }
    unfold info_complete in C. b2p.
    intros x y. specialize (I3 x y). destruct I3 as [Ia Ib]. split; intros Hin.
    - apply Ia. split; auto. unfold inb in Hin. lia.
    - apply Ib. intros [? _]; auto.
  Qed.

  (* No pixel is processed twice at any moment. *)
  Lemma process_at_most_once n tr s x y : steps (binit total bx by_ n) tr s ->
    (ncover (calls s ++ running (workers s)) x y <= 1)%nat /\
    (~ inb total x y -> ncover (calls s ++ running (workers s)) x y = 0%nat).
  Proof.
    intros Hs. assert (I : binv s) by (eapply inv_steps; eauto using inv_init).
    destruct I as (_ & _ & I3 & _). destruct (I3 x y) as [Ia Ib].
    assert (Db : before (blk s) x y \/ ~ before (blk s) x y) by (unfold before, inb; lia).
    destruct Db as [D|D]; [rewrite Ia by auto|rewrite Ib by auto]; split; auto.
    intros Hn. destruct D. tauto.
  Qed.

  (* ---- termination ---- *)
  Definition blocks_left (c : box) : Z :=
    Z.max 0 (y1 total - y0 c) * (Z.max 0 (x1 total - rx) + 1) + Z.max 0 (x1 total - x0 c).
  Definition wt (w : worker) : Z := match w with Ready => 1 | Running _ => 2 | Done => 0 end.
  Definition measure (s : bstate) : Z := 3 * blocks_left (blk s) + zsum (map wt (workers s)).

  Lemma advance_less c : inv_blk c -> info_complete total c = false ->
    blocks_left (info_advance total bx by_ c) < blocks_left c.
  Proof.
    intros (E1 & E2 & _ & _ & L1 & L2 & L3) Hc. unfold info_complete in Hc. b2p.
    unfold blocks_left, info_advance. rewrite round_down_floor by auto. fold rx.
    destruct (x0 c + bx >=? x1 total) eqn:E; b2p; simpl.
    - set (W := Z.max 0 (x1 total - rx)). assert (0 <= W) by lia.
      assert (Z.max 0 (y1 total - (y0 c + by_)) + 1 <= Z.max 0 (y1 total - y0 c)) by lia. nia.
    - lia.
  Qed.

  Lemma measure_step s k s' : binv s -> step s k s' -> measure s' < measure s.
  Proof.
    intros (I1 & _) St. unfold measure. destruct St as [k Hk Hc|k Hk Hc|k b Hk];
      (match goal with |- context [upd k ?a _] => destruct (upd_split (workers s) k a _ Hk) as (l1 & l2 & Ew & Eu) end);
      cbn [blk workers calls]; rewrite Eu, Ew, !map_app, !zsum_app; unfold zsum; cbn [map fold_right wt]; try lia.
    pose proof (advance_less (blk s) I1 Hc). lia.
  Qed.

  Lemma measure_nonneg s : 0 <= measure s.
  Proof.
    unfold measure, blocks_left.
    assert (0 <= zsum (map wt (workers s))).
    { unfold zsum. induction (workers s) as [|w l IH]; cbn [map fold_right]; [lia|]. destruct w; cbn [wt]; lia. } nia.
  Qed.

  Lemma steps_bounded s tr s' : steps s tr s' -> binv s -> Z.of_nat (length tr) + measure s' <= measure s.
  Proof.
    induction 1; intros I; [simpl; lia|]. simpl length.
    pose proof (measure_step _ _ _ I H). specialize (IHbsteps (inv_step _ _ _ I H)). lia.
  Qed.

  Lemma process_terminates n : exists bound, forall tr s,
    steps (binit total bx by_ n) tr s ->
      (length tr <= bound)%nat /\
      ((forall k s', ~ step s k s') -> Forall (fun w => w = Done) (workers s)).
  Proof.
    exists (Z.to_nat (measure (binit total bx by_ n))). intros tr s Hs. split.
    - pose proof (steps_bounded _ _ _ Hs (inv_init n)). pose proof (measure_nonneg s). lia.
    - intros Hno. apply Forall_forall. intros w Iw. apply In_nth_error in Iw. destruct Iw as [k Hk].
      destruct w; auto; exfalso.
      + destruct (info_complete total (blk s)) eqn:E.
        * eapply Hno. eapply step_exit; eauto.
        * eapply Hno. eapply step_take; eauto.
      + eapply Hno. eapply step_call; eauto.
  Qed.
End BP.

(* ---- block manager ---- *)
Section Mgr.
  Variables (cols rows bx by_ : Z).
  Hypothesis Hc : 0 < cols.
  Hypothesis Hr : 0 < rows.
  Hypothesis Hbx : 0 < bx.
  Hypothesis Hby : 0 < by_.
  Variable A : Type.
  Variable child : Z -> Z -> A.

  Lemma idx_ok x y : 0 <= x < cols -> 0 <= y < rows ->
    check_block_index cols rows bx by_ (get_block_index bx by_ x y) = true.
  Proof.
    intros Hx Hy. unfold check_block_index, get_block_index, table_width, table_height. simpl.
    rewrite !Z.quot_div_nonneg by lia.
    assert (0 <= x / bx) by (apply Z.div_pos; lia). assert (0 <= y / by_) by (apply Z.div_pos; lia).
    assert (x / bx <= (cols - 1) / bx) by (apply Z.div_le_mono; lia).
    assert (y / by_ <= (rows - 1) / by_) by (apply Z.div_le_mono; lia).
    rewrite negb_true_iff, !orb_false_iff, !Z.geb_leb, !Z.ltb_ge, !Z.leb_gt. lia.
  Qed.

  Lemma block_read x y bx0 by0 : 0 <= x < cols -> 0 <= y < rows ->
    bx0 = Z.quot x bx -> by0 = Z.quot y by_ ->
    img_read A (generate A child (block_bbox cols rows bx by_ bx0 by0)) (x - bx0 * bx) (y - by0 * by_) = Ok (child x y).
  Proof.
    intros Hx Hy -> ->. rewrite !Z.quot_div_nonneg by lia.
    pose proof (Z.mul_div_le x bx ltac:(lia)). pose proof (Z.mul_succ_div_gt x bx ltac:(lia)).
    pose proof (Z.mul_div_le y by_ ltac:(lia)). pose proof (Z.mul_succ_div_gt y by_ ltac:(lia)).
    assert (0 <= x / bx) by (apply Z.div_pos; lia). assert (0 <= y / by_) by (apply Z.div_pos; lia).
    unfold img_read, generate. cbn [iw ih ipx].
    set (B := block_bbox cols rows bx by_ (x / bx) (y / by_)).
    assert (IB : inb B x y). { unfold B, block_bbox. rewrite inb_crop. unfold inb, box_of; simpl. lia. }
    pose proof (inb_nonempty _ _ _ IB) as NE. rewrite bw_nonempty, bh_nonempty by auto.
    assert (X0 : x0 B = (x / bx) * bx). { unfold B, block_bbox. rewrite bcrop_eq. simpl. nia. }
    assert (Y0 : y0 B = (y / by_) * by_). { unfold B, block_bbox. rewrite bcrop_eq. simpl. nia. }
    unfold inb in IB. rewrite X0, Y0.
    replace ((0 <=? x - x / bx * bx) && (x - x / bx * bx <? x1 B - x / bx * bx) && (0 <=? y - y / by_ * by_) && (y - y / by_ * by_ <? y1 B - y / by_ * by_)) with true.
    2:{ symmetry. rewrite !andb_true_iff, !Z.leb_le, !Z.ltb_lt. lia. }
    do 2 f_equal; lia.
  Qed.

  Lemma view_read_ok x y : 0 <= x < cols -> 0 <= y < rows ->
    view_read cols rows bx by_ A child x y = Ok (child x y).
  Proof.
    intros Hx Hy. unfold view_read.
    destruct (Z.eqb_spec (table_width cols bx * table_height rows by_) 1) as [E|E].
    - assert (table_width cols bx = 1 /\ table_height rows by_ = 1).
      { unfold table_width, table_height in *. rewrite !Z.quot_div_nonneg in * by lia.
        assert (0 <= (cols - 1) / bx) by (apply Z.div_pos; lia). assert (0 <= (rows - 1) / by_) by (apply Z.div_pos; lia). nia. }
      unfold table_width, table_height in H. rewrite !Z.quot_div_nonneg in H by lia.
      assert (cols - 1 < bx) by (apply Z.div_small_iff in H0 || idtac; destruct H as [H _]; destruct (Z_lt_le_dec (cols-1) bx); auto; pose proof (Z.div_le_lower_bound (cols-1) bx 1 ltac:(lia) ltac:(lia)); lia).
      assert (rows - 1 < by_) by (destruct H as [_ H]; destruct (Z_lt_le_dec (rows-1) by_); auto; pose proof (Z.div_le_lower_bound (rows-1) by_ 1 ltac:(lia) ltac:(lia)); lia).
      pose proof (block_read x y 0 0 Hx Hy) as R. simpl in R. rewrite !Z.sub_0_r in R.
      apply R; rewrite Z.quot_div_nonneg, Z.div_small by lia; auto.
    - unfold block. rewrite idx_ok by auto. simpl. apply block_read; auto.
  Qed.

  (* pixel loop *)
  Lemma copy_px_ok src b ox oy d :
    (forall x y, inb b x y -> src x y = Ok (child x y)) ->
    exists d', copy_px A src b ox oy d = Ok d' /\
      forall i j, d' i j = if inbb b (i + ox) (j + oy) then Some (child (i + ox) (j + oy)) else d i j.
  Proof.
    intros Hsrc. unfold copy_px.
    destruct (Z_lt_le_dec (y0 b) (y1 b)) as [Ly|Ly].
    2:{ unfold for_up. replace (Z.to_nat (y1 b - y0 b)) with O by lia. simpl. exists d. split; auto.
        intros. destruct (inbb b (i + ox) (j + oy)) eqn:E; auto. apply inbb_iff in E. unfold inb in E. lia. }
    destruct (for_up_inv (fun y dd => forall i j, dd i j = if inbb (Box (x0 b) (y0 b) (x1 b) y) (i + ox) (j + oy) then Some (child (i + ox) (j + oy)) else d i j)
      (fun y d0 => for_up (x0 b) (x1 b) (fun x d1 => v <- src x y;; Ok (fun i j => if (i =? x - ox) && (j =? y - oy) then Some v else d1 i j)) d0)
      (y0 b) (y1 b) d) as (d' & E & Hd).
    - lia.
    - intros i j. destruct (inbb (Box (x0 b) (y0 b) (x1 b) (y0 b)) (i + ox) (j + oy)) eqn:E; auto.
      apply inbb_iff in E. unfold inb in E; simpl in E. lia.
    - intros y dd Hy Hdd. destruct (Z_lt_le_dec (x0 b) (x1 b)) as [Lx|Lx].
      + destruct (for_up_inv (fun x d1 => forall i j, d1 i j = if inbb (Box (x0 b) (y0 b) (x1 b) y) (i + ox) (j + oy) || inbb (Box (x0 b) y x (y + 1)) (i + ox) (j + oy) then Some (child (i + ox) (j + oy)) else d i j)
          (fun x d1 => v <- src x y;; Ok (fun i j => if (i =? x - ox) && (j =? y - oy) then Some v else d1 i j))
          (x0 b) (x1 b) dd) as (d2 & E2 & Hd2).
        * lia.
        * intros i j. rewrite Hdd. destruct (inbb (Box (x0 b) y (x0 b) (y + 1)) (i + ox) (j + oy)) eqn:E; [|rewrite orb_false_r; auto].
          apply inbb_iff in E. unfold inb in E; simpl in E. lia.
        * intros x d1 Hx Hd1. rewrite Hsrc by (unfold inb; lia). simpl. eexists; split; [reflexivity|].
          intros i j. simpl. rewrite Hd1.
          destruct (Z.eqb_spec i (x - ox)), (Z.eqb_spec j (y - oy)); simpl.
          -- subst. replace (x - ox + ox) with x by lia. replace (y - oy + oy) with y by lia.
             replace (inbb (Box (x0 b) y (x + 1) (y + 1)) x y) with true.
             2:{ symmetry. apply inbb_iff. unfold inb; simpl; lia. } rewrite orb_true_r. auto.
          -- replace (inbb (Box (x0 b) y (x + 1) (y + 1)) (i + ox) (j + oy)) with (inbb (Box (x0 b) y x (y + 1)) (i + ox) (j + oy)); auto.
             apply eq_true_iff_eq. rewrite !inbb_iff. unfold inb; simpl; lia.
          -- replace (inbb (Box (x0 b) y (x + 1) (y + 1)) (i + ox) (j + oy)) with (inbb (Box (x0 b) y x (y + 1)) (i + ox) (j + oy)); auto.
             apply eq_true_iff_eq. rewrite !inbb_iff. unfold inb; simpl; lia.
          -- replace (inbb (Box (x0 b) y (x + 1) (y + 1)) (i + ox) (j + oy)) with (inbb (Box (x0 b) y x (y + 1)) (i + ox) (j + oy)); auto.
             apply eq_true_iff_eq. rewrite !inbb_iff. unfold inb; simpl; lia.
        * exists d2. split; auto. intros i j. rewrite Hd2.
          replace (inbb (Box (x0 b) (y0 b) (x1 b) (y + 1)) (i + ox) (j + oy)) with
            (inbb (Box (x0 b) (y0 b) (x1 b) y) (i + ox) (j + oy) || inbb (Box (x0 b) y (x1 b) (y + 1)) (i + ox) (j + oy)); auto.
          apply eq_true_iff_eq. rewrite orb_true_iff, !inbb_iff. unfold inb; simpl; lia.
      + unfold for_up. replace (Z.to_nat (x1 b - x0 b)) with O by lia. simpl. exists dd. split; auto.
        intros i j. rewrite Hdd. replace (inbb (Box (x0 b) (y0 b) (x1 b) (y + 1)) (i + ox) (j + oy)) with (inbb (Box (x0 b) (y0 b) (x1 b) y) (i + ox) (j + oy)); auto.
        apply eq_true_iff_eq. rewrite !inbb_iff. unfold inb; simpl; lia.
    - exists d'. split; auto.
  Qed.

  (* the box of a block-aligned request *)
  Lemma functor_cached_ok total b ox oy d :
    subset total (Box 0 0 cols rows) -> aligned total bx by_ b -> has_pixel b ->
    exists d', functor_cached cols rows bx by_ A child b ox oy d = Ok d' /\
      forall i j, d' i j = if inbb b (i + ox) (j + oy) then Some (child (i + ox) (j + oy)) else d i j.
  Proof.
    intros Hsub (bi & bj & Eb) Hp.
    assert (Hb : forall x y, inb b x y -> 0 <= x < cols /\ 0 <= y < rows /\ bi * bx <= x < bi * bx + bx /\ bj * by_ <= y < bj * by_ + by_).
    { intros x y I. rewrite Eb, inb_crop in I. destruct I as [I1 I2]. apply Hsub in I2.
      unfold inb, box_of in *; simpl in *. lia. }
    assert (Q : forall x y, inb b x y -> Z.quot x bx = bi /\ Z.quot y by_ = bj).
    { intros x y I. specialize (Hb x y I). rewrite !Z.quot_div_nonneg by lia. split.
      - symmetry. apply Z.div_unique with (x - bi * bx); nia.
      - symmetry. apply Z.div_unique with (y - bj * by_); nia. }
    assert (I0 : inb b (x0 b) (y0 b)) by (unfold inb, has_pixel in *; lia).
    unfold functor_cached, block. rewrite idx_ok by (specialize (Hb _ _ I0); lia). cbn [bind].
    apply copy_px_ok. intros x y I. unfold get_block_index, get_block_start_pixel. simpl.
    destruct (Q _ _ I0) as [-> ->]. destruct (Q _ _ I) as [Q1 Q2].
    apply block_read; auto; specialize (Hb _ _ I); lia.
  Qed.

  Lemma run_calls_ok (f : box -> Z -> Z -> dest A -> res (dest A)) ox oy l : forall d,
    (forall b d, In b l -> exists d', f b ox oy d = Ok d' /\
        forall i j, d' i j = if inbb b (i + ox) (j + oy) then Some (child (i + ox) (j + oy)) else d i j) ->
    exists d', run_calls A f l ox oy d = Ok d' /\
      forall i j, d' i j = if (0 <? ncover l (i + ox) (j + oy))%nat then Some (child (i + ox) (j + oy)) else d i j.
  Proof.
    induction l as [|b l IH]; intros d Hf; simpl.
    - exists d. auto.
    - destruct (Hf b d) as (d1 & -> & H1); [simpl; auto|]. simpl.
      destruct (IH d1) as (d2 & -> & H2); [intros; apply Hf; simpl; auto|].
      exists d2. split; auto. intros i j. rewrite H2, H1, ncover_cons.
      destruct (inbb b (i + ox) (j + oy)); simpl; auto.
      destruct (0 <? ncover l (i + ox) (j + oy))%nat; auto.
  Qed.

  (* end to end: block rasterisation with a cache equals the child *)
  Lemma rasterize_cached total n tr s d : (0 < n)%nat -> bempty total = false ->
    subset total (Box 0 0 cols rows) ->
    bsteps total bx by_ (binit total bx by_ n) tr s -> Forall (fun w => w = Done) (workers s) ->
    exists d', run_calls A (functor_cached cols rows bx by_ A child) (rev (calls s)) (x0 total) (y0 total) d = Ok d' /\
      forall i j, d' i j = if inbb total (i + x0 total) (j + y0 total)
                           then Some (child (i + x0 total) (j + y0 total)) else d i j.
  Proof.
    intros Hn He Hsub Hs Hd.
    destruct (process_done_partition total bx by_ Hbx Hby n tr s Hn Hs Hd) as [Hp Hb].
    destruct (run_calls_ok (functor_cached cols rows bx by_ A child) (x0 total) (y0 total) (rev (calls s)) d) as (d' & E & H').
    - intros b d0 Ib. apply in_rev in Ib. destruct (Hb b Ib) as [Ha Hx]. eapply functor_cached_ok; eauto.
    - exists d'. split; auto. intros i j. rewrite H'.
      assert (N : ncover (rev (calls s)) (i + x0 total) (j + y0 total) = ncover (calls s) (i + x0 total) (j + y0 total)).
      { generalize (calls s). intros l. induction l as [|c l IH]; auto. simpl rev.
        rewrite ncover_app, IH, !ncover_cons, ncover_nil. lia. }
      rewrite N. destruct (Hp (i + x0 total) (j + y0 total)) as [P1 P2].
      destruct (inbb total (i + x0 total) (j + y0 total)) eqn:E1.
      + rewrite P1 by (apply inbb_iff; auto). reflexivity.
      + rewrite P2; auto. rewrite <- inbb_iff. congruence.
  Qed.
End Mgr.

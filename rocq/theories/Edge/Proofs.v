From Coq Require Import ZArith List Lia Bool.
From Verif Require Import Lib.Base BBox.Proofs BBox.Box2 Edge.Model Edge.Spec.
Import ListNotations.
Local Open Scope Z_scope.

Lemma clamp_nearest n i : 0 < n -> nearest_index n i (clamp_axis n i).
Proof.
  intros. unfold nearest_index, clamp_axis. destruct (i <? 0) eqn:?; [|destruct (i >=? n) eqn:?]; b2p; (split; [lia|intros; lia]).
Qed.

Lemma rem_mod_fix a n : 0 < n -> (if Z.rem a n <? 0 then Z.rem a n + n else Z.rem a n) = a mod n.
Proof.
  intros Hn. pose proof (Z.quot_rem' a n) as Q. pose proof (Z.rem_bound_abs a n ltac:(lia)) as B.
  destruct (Z.ltb_spec (Z.rem a n) 0).
  - apply Z.mod_unique with (Z.quot a n - 1); nia.
  - apply Z.mod_unique with (Z.quot a n); nia.
Qed.

Lemma periodic_axis_mod n i : 0 < n -> periodic_axis n i = Ok (i mod n).
Proof.
  intros. unfold periodic_axis, crem. destruct (Z.eqb_spec n 0); [lia|]. simpl. rewrite rem_mod_fix by auto. auto.
Qed.
Lemma mod_periodic n i : 0 < n -> periodic_index n i (i mod n).
Proof.
  intros. split; [apply Z.mod_pos_bound; auto|]. exists (i / n). pose proof (Z.div_mod i n ltac:(lia)). lia.
Qed.
Lemma vmod_mod a n : 0 < n -> vmod a n = Ok (a mod n).
Proof.
  intros. unfold vmod, crem. destruct (Z.eqb_spec n 0); [lia|]. simpl.
  destruct (Z.ltb_spec n 0); [lia|]. rewrite rem_mod_fix by auto. auto.
Qed.

Definition fold_idx (n i : Z) : Z := let d := Z.abs i mod (2 * (n - 1)) in if d >? n - 1 then 2 * (n - 1) - d else d.
Lemma reflect_axis_fold n i : 1 < n -> reflect_axis n i = Ok (fold_idx n i).
Proof.
  intros. unfold reflect_axis, crem, fold_idx. destruct (Z.eqb_spec (2 * (n - 1)) 0); [lia|]. cbn [bind].
  replace (if i <? 0 then - i else i) with (Z.abs i) by (destruct (Z.ltb_spec i 0); lia).
  rewrite Z.rem_mod_nonneg by lia. reflexivity.
Qed.
Lemma fold_mirror n i : 1 < n -> mirror_index n i (fold_idx n i).
Proof.
  intros. unfold mirror_index, fold_idx. cbn zeta.
  pose proof (Z.mod_pos_bound (Z.abs i) (2 * (n - 1)) ltac:(lia)) as B.
  pose proof (Z.div_mod (Z.abs i) (2 * (n - 1)) ltac:(lia)) as D.
  set (d := Z.abs i mod (2 * (n - 1))) in *. set (q := Z.abs i / (2 * (n - 1))) in *.
  destruct (d >? n - 1) eqn:E; b2p; (split; [lia|]).
  - destruct (Z_le_gt_dec 0 i).
    + exists (q + 1). right. nia.
    + exists (- q - 1). left. nia.
  - destruct (Z_le_gt_dec 0 i).
    + exists q. left. nia.
    + exists (- q). right. nia.
Qed.
(* the folded index depends only on the residue, by reflection symmetry *)
Lemma fold_residue n i : 1 < n ->
  fold_idx n i = (let d := i mod (2 * (n - 1)) in if d >? n - 1 then 2 * (n - 1) - d else d).
Proof.
  intros. unfold fold_idx. cbn zeta. destruct (Z_le_gt_dec 0 i); [rewrite Z.abs_eq by lia; auto|].
  rewrite Z.abs_neq by lia.
  pose proof (Z.mod_pos_bound i (2 * (n - 1)) ltac:(lia)) as B.
  destruct (Z.eq_dec (i mod (2 * (n - 1))) 0) as [E|E].
  - rewrite Z.mod_opp_l_z, E by lia. auto.
  - rewrite Z.mod_opp_l_nz by lia.
    destruct (2 * (n - 1) - i mod (2 * (n - 1)) >? n - 1) eqn:?, (i mod (2 * (n - 1)) >? n - 1) eqn:?; b2p; lia.
Qed.

Lemma mem_rd {A} c r (px : Z -> Z -> A) i j : 0 <= i < c -> 0 <= j < r -> rd (mem_view c r px) i j = Ok (px i j).
Proof.
  intros. unfold mem_view; simpl.
  replace ((0 <=? i) && (i <? c) && (0 <=? j) && (j <? r)) with true; auto.
  symmetry. rewrite !andb_true_iff, !Z.leb_le, !Z.ltb_lt. lia.
Qed.
Lemma restrict_rd {A} (v : view A) s i j : inb s i j -> rd (restrict v s) i j = rd v i j.
Proof.
  intros. unfold restrict; simpl. replace ((x0 s <=? i) && (i <? x1 s) && (y0 s <=? j) && (j <? y1 s)) with true; auto.
  symmetry. rewrite !andb_true_iff, !Z.leb_le, !Z.ltb_lt. unfold inb in *. lia.
Qed.
Lemma in_view_iff {A} (v : view A) i j : in_view v i j = true <-> 0 <= i < cols v /\ 0 <= j < rows v.
Proof. unfold in_view. rewrite !andb_true_iff, !Z.geb_leb, !Z.leb_le, !Z.ltb_lt. lia. Qed.

(* ---- announced interval contains what one axis reads ---- *)
Lemma const_src_ok n lo hi i : 0 < n -> lo <= i < hi ->
  let (a, b) := const_src n lo hi in 0 <= a /\ b <= n /\ a <= clamp_axis n i < b.
Proof.
  intros. unfold const_src, clamp_axis.
  destruct (lo <? 0) eqn:?; [|destruct (lo >=? n) eqn:?];
  (destruct (hi >? n) eqn:?; [|destruct (hi <=? 0) eqn:?]);
  (destruct (i <? 0) eqn:?; [|destruct (i >=? n) eqn:?]); b2p; lia.
Qed.

Lemma mod_interval n lo i hi : 0 < n -> lo <= i < hi -> hi - lo < n ->
  let a := lo mod n in let b := (hi - 1) mod n in let k := i mod n in
  (a <= b -> a <= k <= b) /\ (b < a -> a <= k \/ k <= b).
Proof.
  intros Hn Hi Hw. cbn zeta.
  pose proof (Z.mod_pos_bound lo n Hn). pose proof (Z.mod_pos_bound (hi-1) n Hn). pose proof (Z.mod_pos_bound i n Hn).
  pose proof (Z.div_mod lo n ltac:(lia)). pose proof (Z.div_mod (hi-1) n ltac:(lia)). pose proof (Z.div_mod i n ltac:(lia)).
  set (a := lo mod n) in *. set (b := (hi-1) mod n) in *. set (k := i mod n) in *.
  set (qa := lo / n) in *. set (qb := (hi-1)/n) in *. set (qi := i / n) in *.
  assert (qa <= qi) by nia. assert (qi <= qb) by nia. assert (qb <= qa + 1) by nia.
  split; intros.
  - assert (qb = qa) by nia. nia.
  - destruct (Z.eq_dec qi qa); [left|right]; nia.
Qed.

Lemma periodic_src_ok n w lo hi i : 0 < n -> lo <= i < hi -> w = hi - lo ->
  exists a b, periodic_src n w lo hi = Ok (a, b) /\ 0 <= a /\ b <= n /\ a <= i mod n < b.
Proof.
  intros Hn Hi ->. unfold periodic_src. pose proof (Z.mod_pos_bound i n Hn).
  destruct (hi - lo >=? n) eqn:E; b2p.
  - exists 0, n. auto with zarith.
  - rewrite !vmod_mod by auto. cbn [bind]. cbn zeta.
    pose proof (mod_interval n lo i hi Hn Hi ltac:(lia)) as M. cbn zeta in M.
    pose proof (Z.mod_pos_bound lo n Hn). pose proof (Z.mod_pos_bound (hi-1) n Hn).
    destruct (lo mod n >=? (hi - 1) mod n + 1) eqn:?; b2p; eexists _, _; (split; [reflexivity|]); lia.
Qed.

Lemma reflect_src_ok n w lo hi i : 1 < n -> lo <= i < hi -> w = hi - lo ->
  exists a b, reflect_src n w lo hi = Ok (a, b) /\ 0 <= a /\ b <= n /\ a <= fold_idx n i < b.
Proof.
  intros Hn Hi ->. unfold reflect_src. destruct (fold_mirror n i Hn) as [F _].
  destruct (hi - lo >=? 2 * n - 2) eqn:E; b2p.
  - exists 0, n. auto with zarith.
  - rewrite !vmod_mod by lia. cbn [bind]. cbn zeta. rewrite fold_residue in * by auto. cbn zeta in *.
    replace (2 * (n - 1)) with (2 * n - 2) in * by lia.
    pose proof (mod_interval (2 * n - 2) lo i hi ltac:(lia) Hi ltac:(lia)) as M. cbn zeta in M.
    pose proof (Z.mod_pos_bound lo (2*n-2) ltac:(lia)). pose proof (Z.mod_pos_bound (hi-1) (2*n-2) ltac:(lia)).
    pose proof (Z.mod_pos_bound i (2*n-2) ltac:(lia)).
    set (a := lo mod (2*n-2)) in *. set (b := (hi-1) mod (2*n-2)) in *. set (k := i mod (2*n-2)) in *.
    destruct (k >? n - 1) eqn:?; destruct (a >=? b + 1) eqn:?; try destruct (a >=? n) eqn:?; try destruct (b + 1 >? n) eqn:?;
      b2p; eexists _, _; (split; [reflexivity|]); lia.
Qed.

Lemma edge_reads {A} (m : mode A) c r (px : Z -> Z -> A) i j : mode_ok m c r ->
  (m = MNone -> 0 <= i < c /\ 0 <= j < r) ->
  exists x, ext_read m (mem_view c r px) i j = Ok x /\
    match m with
    | MNone => x = px i j
    | MZero z | MValue z => (0 <= i < c /\ 0 <= j < r -> x = px i j) /\ (~ (0 <= i < c /\ 0 <= j < r) -> x = z)
    | MConstant => exists k l, nearest_index c i k /\ nearest_index r j l /\ x = px k l
    | MPeriodic => exists k l, periodic_index c i k /\ periodic_index r j l /\ x = px k l
    | MCylindrical => exists k l, periodic_index c i k /\ nearest_index r j l /\ x = px k l
    | MReflect => exists k l, mirror_index c i k /\ mirror_index r j l /\ x = px k l
    end.
Proof.
  intros Ho Hn. destruct m; simpl in Ho; unfold ext_read.
  - destruct (Hn eq_refl). rewrite mem_rd by lia. eauto.
  - pose proof (in_view_iff (mem_view c r px) i j) as V. cbn [cols rows mem_view] in V.
    destruct (in_view (mem_view c r px) i j).
    + destruct V as [V _]. destruct (V eq_refl). rewrite mem_rd by lia. eexists; split; [reflexivity|]. tauto.
    + eexists; split; [reflexivity|]. split; auto. intros H. apply V in H. discriminate.
  - pose proof (in_view_iff (mem_view c r px) i j) as V. cbn [cols rows mem_view] in V.
    destruct (in_view (mem_view c r px) i j).
    + destruct V as [V _]. destruct (V eq_refl). rewrite mem_rd by lia. eexists; split; [reflexivity|]. tauto.
    + eexists; split; [reflexivity|]. split; auto. intros H. apply V in H. discriminate.
  - destruct (clamp_nearest c i) as [? ?]; [lia|]. destruct (clamp_nearest r j) as [? ?]; [lia|].
    change (cols (mem_view c r px)) with c. change (rows (mem_view c r px)) with r.
    rewrite mem_rd by auto. eexists; split; [reflexivity|]. eexists _, _; repeat split; eauto; lia.
  - change (cols (mem_view c r px)) with c. change (rows (mem_view c r px)) with r.
    rewrite !periodic_axis_mod by lia. cbn [bind].
    destruct (mod_periodic c i) as [? ?]; [lia|]. destruct (mod_periodic r j) as [? ?]; [lia|].
    rewrite mem_rd by auto. eexists; split; [reflexivity|]. eexists _, _; repeat split; eauto; lia.
  - change (cols (mem_view c r px)) with c. change (rows (mem_view c r px)) with r.
    rewrite !periodic_axis_mod by lia. cbn [bind].
    destruct (mod_periodic c i) as [? ?]; [lia|]. destruct (clamp_nearest r j) as [? ?]; [lia|].
    rewrite mem_rd by auto. eexists; split; [reflexivity|]. eexists _, _; repeat split; eauto; lia.
  - change (cols (mem_view c r px)) with c. change (rows (mem_view c r px)) with r.
    rewrite !reflect_axis_fold by lia. cbn [bind].
    destruct (fold_mirror c i) as [? ?]; [lia|]. destruct (fold_mirror r j) as [? ?]; [lia|].
    rewrite mem_rd by auto. eexists; split; [reflexivity|]. eexists _, _; repeat split; eauto; lia.
Qed.

Lemma in_view_restrict {A} (v : view A) s i j : in_view (restrict v s) i j = in_view v i j.
Proof. reflexivity. Qed.

Lemma source_covers {A} (m : mode A) (v : view A) b i j : mode_ok m (cols v) (rows v) -> inb b i j ->
  exists s, source_bbox m v b = Ok s /\
    (m <> MNone -> forall x y, inb s x y -> 0 <= x < cols v /\ 0 <= y < rows v) /\
    ext_read m (restrict v s) i j = ext_read m v i j.
Proof.
  intros Ho Hb. pose proof (inb_nonempty _ _ _ Hb) as Ne. pose proof (bw_nonempty _ Ne) as Ew. pose proof (bh_nonempty _ Ne) as Eh.
  destruct Hb as [Hx Hy]. destruct m; simpl in Ho; unfold source_bbox.
  - eexists; split; [reflexivity|]. split; [tauto|]. unfold ext_read. apply restrict_rd. split; auto.
  - eexists; split; [reflexivity|]. split.
    + intros _ x y I. rewrite inb_crop in I. unfold inb, box_of in I; simpl in I. lia.
    + unfold ext_read. rewrite in_view_restrict. destruct (in_view v i j) eqn:E; auto.
      apply in_view_iff in E. apply restrict_rd. rewrite inb_crop. unfold inb, box_of; simpl. lia.
  - eexists; split; [reflexivity|]. split.
    + intros _ x y I. rewrite inb_crop in I. unfold inb, box_of in I; simpl in I. lia.
    + unfold ext_read. rewrite in_view_restrict. destruct (in_view v i j) eqn:E; auto.
      apply in_view_iff in E. apply restrict_rd. rewrite inb_crop. unfold inb, box_of; simpl. lia.
  - pose proof (const_src_ok (cols v) (x0 b) (x1 b) i ltac:(lia) Hx) as P1.
    pose proof (const_src_ok (rows v) (y0 b) (y1 b) j ltac:(lia) Hy) as P2.
    destruct (const_src (cols v) _ _), (const_src (rows v) _ _).
    eexists; split; [reflexivity|]. split.
    + intros _ x y I. unfold inb in I; simpl in I. lia.
    + unfold ext_read. apply restrict_rd. unfold inb; simpl. lia.
  - destruct (periodic_src_ok (cols v) (bw b) (x0 b) (x1 b) i) as (a0 & a1 & -> & P1); try lia.
    destruct (periodic_src_ok (rows v) (bh b) (y0 b) (y1 b) j) as (b0 & b1 & -> & P2); try lia.
    simpl. eexists; split; [reflexivity|]. split.
    + intros _ x y I. unfold inb in I; simpl in I. lia.
    + unfold ext_read. change (cols (restrict v ?s)) with (cols v). cbn [cols rows restrict].
      rewrite !periodic_axis_mod by lia. cbn [bind]. apply restrict_rd. unfold inb; simpl. lia.
  - destruct (periodic_src_ok (cols v) (bw b) (x0 b) (x1 b) i) as (a0 & a1 & -> & P1); try lia.
    pose proof (const_src_ok (rows v) (y0 b) (y1 b) j ltac:(lia) Hy) as P2.
    destruct (const_src (rows v) _ _) as [b0 b1].
    simpl. eexists; split; [reflexivity|]. split.
    + intros _ x y I. unfold inb in I; simpl in I. lia.
    + unfold ext_read. cbn [cols rows restrict].
      rewrite !periodic_axis_mod by lia. cbn [bind]. apply restrict_rd. unfold inb; simpl. lia.
  - destruct (reflect_src_ok (cols v) (bw b) (x0 b) (x1 b) i) as (a0 & a1 & -> & P1); try lia.
    destruct (reflect_src_ok (rows v) (bh b) (y0 b) (y1 b) j) as (b0 & b1 & -> & P2); try lia.
    simpl. eexists; split; [reflexivity|]. split.
    + intros _ x y I. unfold inb in I; simpl in I. lia.
    + unfold ext_read. cbn [cols rows restrict].
      rewrite !reflect_axis_fold by lia. cbn [bind]. apply restrict_rd. unfold inb; simpl. lia.
Qed.

Lemma view_source_covers {A} (m : mode A) (v : view A) ox oy b i j : mode_ok m (cols v) (rows v) -> inb b i j ->
  exists s, view_source m v ox oy b = Ok s /\
    (m <> MNone -> forall x y, inb s x y -> 0 <= x < cols v /\ 0 <= y < rows v) /\
    view_ext_read m (restrict v s) ox oy i j = view_ext_read m v ox oy i j.
Proof.
  intros Ho Hb.
  destruct (source_covers m v (bshift b ox oy) (i + ox) (j + oy) Ho) as (s & E & H1 & H2).
  { apply inb_shift. replace (i + ox - ox) with i by lia. replace (j + oy - oy) with j by lia. auto. }
  unfold view_source, view_ext_read. rewrite E. simpl. eexists; split; [reflexivity|].
  destruct (bempty s) eqn:Es; [|auto]. split.
  - intros _ x y I. unfold inb in I; simpl in I. lia.
  - rewrite <- H2. apply bempty_true in Es.
    assert (R : forall x y, rd (restrict v (box_of 0 0 0 0)) x y = rd (restrict v s) x y).
    { intros x y. unfold restrict; simpl.
      replace ((0 <=? x) && (x <? 0) && (0 <=? y) && (y <? 0)) with false.
      2:{ symmetry. rewrite !andb_false_iff, !Z.leb_gt, !Z.ltb_ge. lia. }
      replace ((x0 s <=? x) && (x <? x1 s) && (y0 s <=? y) && (y <? y1 s)) with false; auto.
      symmetry. rewrite !andb_false_iff, !Z.leb_gt, !Z.ltb_ge. lia. }
    unfold ext_read. destruct m; rewrite ?in_view_restrict, ?R; auto; cbn [cols rows restrict].
    + destruct (periodic_axis (cols v) (i + ox)); simpl; auto. destruct (periodic_axis (rows v) (j + oy)); simpl; auto. apply R.
    + destruct (periodic_axis (cols v) (i + ox)); simpl; auto. apply R.
    + destruct (reflect_axis (cols v) (i + ox)); simpl; auto. destruct (reflect_axis (rows v) (j + oy)); simpl; auto. apply R.
Qed.

(* ---- linear extrapolation ---- *)
Lemma linear_reads c r px i j : 1 < c -> 1 < r ->
  linear_read (mem_view c r px) i j = Ok (lin_spec c r px i j).
Proof.
  intros Hc Hr. unfold linear_read, lin_spec. cbn zeta.
  change (cols (mem_view c r px)) with c. change (rows (mem_view c r px)) with r.
  replace (c - 1 - 1) with (c - 2) by lia. replace (r - 1 - 1) with (r - 2) by lia.
  destruct (i <? 0) eqn:?; [|destruct (i >? c - 1) eqn:?]; (destruct (j <? 0) eqn:?; [|destruct (j >? r - 1) eqn:?]); b2p;
  rewrite ?mem_rd by lia; cbn [bind]; f_equal;
  repeat match goal with |- context [Z.max 0 (Z.min ?a ?b)] =>
    first [replace (Z.max 0 (Z.min a b)) with 0 by lia | replace (Z.max 0 (Z.min a b)) with b by lia | replace (Z.max 0 (Z.min a b)) with a by lia] end; ring.
Qed.

Lemma linear_src_ok n lo hi i : 1 < n -> lo <= i < hi ->
  let (a, b) := linear_src n lo hi in 0 <= a /\ b <= n /\
   a <= Z.max 0 (Z.min i (n - 1)) < b /\ (i < 0 -> a = 0 /\ 2 <= b) /\ (n - 1 < i -> a <= n - 2 /\ b = n).
Proof.
  intros. unfold linear_src. destruct (lo <? 0) eqn:?, (hi >? n) eqn:?; b2p; lia.
Qed.

Lemma linear_covers (v : view Z) b i j : 1 < cols v -> 1 < rows v -> inb b i j ->
  let s := linear_source_bbox v b in
  (forall x y, inb s x y -> 0 <= x < cols v /\ 0 <= y < rows v) /\
  linear_read (restrict v s) i j = linear_read v i j.
Proof.
  intros Hc Hr [Hx Hy]. unfold linear_source_bbox.
  pose proof (linear_src_ok (cols v) (x0 b) (x1 b) i Hc Hx) as P1.
  pose proof (linear_src_ok (rows v) (y0 b) (y1 b) j Hr Hy) as P2.
  destruct (linear_src (cols v) _ _) as [a0 a1], (linear_src (rows v) _ _) as [b0 b1]. cbn zeta. split.
  - intros x y I. unfold inb in I; simpl in I. lia.
  - unfold linear_read. cbn zeta. cbn [cols rows restrict].
    destruct (i <? 0) eqn:?; [|destruct (i >? cols v - 1) eqn:?]; (destruct (j <? 0) eqn:?; [|destruct (j >? rows v - 1) eqn:?]); b2p;
    rewrite ?restrict_rd by (unfold inb; simpl; lia); auto.
Qed.

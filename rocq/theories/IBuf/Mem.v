(* Reading and writing channels in a list of bytes. *)
From Coq Require Import ZArith List Bool Lia.
From Verif Require Import Lib.Base IBuf.Model IBuf.Spec.
Import ListNotations.
Local Open Scope Z_scope.

(* ---- slices ---- *)
Lemma splice_length m a bs : (a + length bs <= length m)%nat -> length (splice m a bs) = length m.
Proof.
  intros H. unfold splice. rewrite !app_length, firstn_length, skipn_length. lia.
Qed.
Lemma slice_length m a n : (a + n <= length m)%nat -> length (slice m a n) = n.
Proof. intros H. unfold slice. rewrite firstn_length, skipn_length. lia. Qed.

Lemma nth_skipn {A} (l : list A) : forall n k d, nth k (skipn n l) d = nth (n + k) l d.
Proof.
  induction l; intros; destruct n; cbn [skipn]; auto.
  - destruct k; reflexivity.
  - rewrite IHl. reflexivity.
Qed.
Lemma nth_firstn {A} (l : list A) : forall n k d, (k < n)%nat -> nth k (firstn n l) d = nth k l d.
Proof.
  induction l; intros n k d H; destruct n; try lia; cbn [firstn]; auto.
  destruct k; cbn [nth]; auto. apply IHl. lia.
Qed.
Lemma nth_slice m a n k d : (k < n)%nat -> nth k (slice m a n) d = nth (a + k) m d.
Proof. intros. unfold slice. rewrite nth_firstn by auto. apply nth_skipn. Qed.

Lemma nth_splice m a bs k d : (a + length bs <= length m)%nat ->
  nth k (splice m a bs) d =
    if ((a <=? k) && (k <? a + length bs))%nat then nth (k - a) bs d else nth k m d.
Proof.
  intros H. unfold splice.
  destruct (Nat.leb_spec a k) as [L|L].
  - rewrite app_nth2; rewrite firstn_length_le by lia; [|lia].
    destruct (Nat.ltb_spec k (a + length bs)) as [L2|L2]; cbn [andb].
    + rewrite app_nth1 by lia. reflexivity.
    + rewrite app_nth2 by lia. rewrite nth_skipn. f_equal. lia.
  - cbn [andb]. rewrite app_nth1 by (rewrite firstn_length_le; lia).
    apply nth_firstn. lia.
Qed.

Lemma list_ext {A} (d : A) (l l' : list A) : length l = length l' ->
  (forall k, (k < length l)%nat -> nth k l d = nth k l' d) -> l = l'.
Proof. intros. apply (nth_ext _ _ d d); auto. Qed.

Lemma slice_splice_same m a bs : (a + length bs <= length m)%nat ->
  slice (splice m a bs) a (length bs) = bs.
Proof.
  intros H. apply (list_ext 0).
  - apply slice_length. rewrite splice_length; lia.
  - intros k Hk. rewrite slice_length in Hk by (rewrite splice_length; lia).
    rewrite nth_slice by auto. rewrite nth_splice by auto.
    destruct (Nat.leb_spec a (a + k)); [|lia].
    destruct (Nat.ltb_spec (a + k) (a + length bs)); [|lia]. cbn [andb]. f_equal. lia.
Qed.

Lemma splice_splice m a bs cs : (a + length bs + length cs <= length m)%nat ->
  splice (splice m a bs) (a + length bs) cs = splice m a (bs ++ cs).
Proof.
  intros H.
  assert (L1 : length (splice m a bs) = length m) by (apply splice_length; lia).
  apply (list_ext 0).
  - rewrite !splice_length; auto; rewrite ?app_length; lia.
  - intros k _. rewrite !nth_splice by (rewrite ?L1, ?app_length; lia).
    rewrite app_length.
    destruct (Nat.leb_spec (a + length bs) k), (Nat.ltb_spec k (a + length bs + length cs)),
      (Nat.leb_spec a k), (Nat.ltb_spec k (a + length bs)),
      (Nat.ltb_spec k (a + (length bs + length cs))); cbn [andb]; try lia; auto.
    + rewrite app_nth2 by lia. f_equal. lia.
    + rewrite app_nth1 by lia. reflexivity.
Qed.

Lemma splice_over m a bs cs : length bs = length cs -> (a + length bs <= length m)%nat ->
  splice (splice m a bs) a cs = splice m a cs.
Proof.
  intros E H.
  assert (L1 : length (splice m a bs) = length m) by (apply splice_length; lia).
  apply (list_ext 0).
  - rewrite !splice_length; auto; lia.
  - intros k _. rewrite !nth_splice by (rewrite ?L1; lia). rewrite <- E.
    destruct ((a <=? k) && (k <? a + length bs))%nat; auto.
Qed.

(* ---- numbers ---- *)
Lemma to_bytes_length n : forall v, length (to_bytes n v) = n.
Proof. induction n; intros; cbn [to_bytes length]; auto. Qed.

Lemma to_bytes_ok n : forall v, bytes_ok (to_bytes n v).
Proof.
  unfold bytes_ok. induction n; intros; cbn [to_bytes]; constructor; auto.
  apply Z.mod_pos_bound. lia.
Qed.

Lemma pow256 n : 2 ^ (8 * Z.of_nat (S n)) = 256 * 2 ^ (8 * Z.of_nat n).
Proof.
  replace (8 * Z.of_nat (S n)) with (8 + 8 * Z.of_nat n) by lia.
  rewrite Z.pow_add_r by lia. reflexivity.
Qed.

Lemma of_to_bytes n : forall v, of_bytes (to_bytes n v) = v mod 2 ^ (8 * Z.of_nat n).
Proof.
  induction n; intros v; cbn [to_bytes of_bytes].
  - change (2 ^ (8 * Z.of_nat 0)) with 1. rewrite Z.mod_1_r. reflexivity.
  - rewrite IHn, pow256.
    assert (P : 0 < 2 ^ (8 * Z.of_nat n)) by (apply Z.pow_pos_nonneg; lia).
    rewrite Z.rem_mul_r by lia. reflexivity.
Qed.

Lemma of_bytes_range l : bytes_ok l -> 0 <= of_bytes l < 2 ^ (8 * Z.of_nat (length l)).
Proof.
  unfold bytes_ok. induction 1 as [|b l Hb Hl IH]; cbn [of_bytes length].
  - change (2 ^ (8 * Z.of_nat 0)) with 1. lia.
  - rewrite pow256. lia.
Qed.

Lemma to_of_bytes l : bytes_ok l -> to_bytes (length l) (of_bytes l) = l.
Proof.
  unfold bytes_ok. induction 1 as [|b l Hb Hl IH]; cbn [of_bytes length to_bytes]; auto.
  f_equal.
  - rewrite (Z.mul_comm 256), Z.mod_add by lia. apply Z.mod_small; lia.
  - replace ((b + 256 * of_bytes l) / 256) with (of_bytes l); auto.
    rewrite (Z.mul_comm 256), Z.div_add by lia. rewrite Z.div_small by lia. lia.
Qed.

Lemma to_bytes_mod n : forall v w, v mod 2 ^ (8 * Z.of_nat n) = w mod 2 ^ (8 * Z.of_nat n) ->
  to_bytes n v = to_bytes n w.
Proof.
  intros v w H. rewrite <- (to_of_bytes (to_bytes n v)) by apply to_bytes_ok.
  rewrite <- (to_of_bytes (to_bytes n w)) by apply to_bytes_ok.
  rewrite !to_bytes_length, !of_to_bytes, H. reflexivity.
Qed.

Lemma skipn_S (m : list Z) : forall k, skipn (S k) m = skipn 1 (skipn k m).
Proof.
  induction m; intros k; destruct k; try reflexivity.
  change (skipn (S (S k)) (a :: m)) with (skipn (S k) m). rewrite IHm. reflexivity.
Qed.

Lemma number_slice m n : forall a, 0 <= a -> (Z.to_nat a + n <= length m)%nat ->
  number m a n = of_bytes (slice m (Z.to_nat a) n).
Proof.
  induction n; intros a Ha H; cbn [number].
  - reflexivity.
  - unfold slice. destruct (skipn (Z.to_nat a) m) as [|b l] eqn:E.
    + exfalso. apply (f_equal (@length Z)) in E. rewrite skipn_length in E. cbn [length] in E. lia.
    + cbn [firstn of_bytes]. rewrite IHn by lia. unfold byte, slice. f_equal.
      * replace (Z.to_nat a) with (Z.to_nat a + 0)%nat by lia. rewrite <- nth_skipn, E. reflexivity.
      * replace (Z.to_nat (a + 1)) with (S (Z.to_nat a)) by lia.
        do 3 f_equal. change l with (skipn 1 (b :: l)). rewrite <- E.
        apply skipn_S.
Qed.

Lemma bytes_slice m a n : bytes_ok m -> bytes_ok (slice m a n).
Proof.
  unfold bytes_ok, slice. intros H. rewrite Forall_forall in *. intros x I. apply H.
  assert (I2 : In x (skipn a m)).
  { rewrite <- (firstn_skipn n (skipn a m)). apply in_or_app. auto. }
  rewrite <- (firstn_skipn a m). apply in_or_app. auto.
Qed.
Lemma bytes_splice m a bs : bytes_ok m -> bytes_ok bs -> bytes_ok (splice m a bs).
Proof.
  unfold bytes_ok, splice. intros H B. rewrite !Forall_app. rewrite Forall_forall in H.
  repeat split; auto; apply Forall_forall; intros x I; apply H.
  - rewrite <- (firstn_skipn a m). apply in_or_app. auto.
  - rewrite <- (firstn_skipn (a + length bs) m). apply in_or_app. auto.
Qed.

(* ---- channel values ---- *)
Definition okv (t : ctype) (v : Z) : Prop := norm t v = v.

Lemma csize0_cases t : csize0 t = 0 \/ csize0 t = 1 \/ csize0 t = 2 \/ csize0 t = 4 \/ csize0 t = 8.
Proof. destruct t; cbn; auto 6. Qed.
Lemma csize0_nonneg t : 0 <= csize0 t.
Proof. destruct (csize0_cases t); lia. Qed.

Lemma norm_mod t v : norm t v mod 2 ^ (8 * csize0 t) = v mod 2 ^ (8 * csize0 t).
Proof.
  unfold norm. set (m := 2 ^ (8 * csize0 t)).
  assert (P : 0 < m) by (apply Z.pow_pos_nonneg; pose proof (csize0_nonneg t); lia).
  destruct (is_signed t).
  - rewrite Zminus_mod_idemp_l. f_equal. lia.
  - apply Z.mod_mod. lia.
Qed.
Lemma norm_idem t v : norm t (norm t v) = norm t v.
Proof.
  unfold norm. set (m := 2 ^ (8 * csize0 t)).
  assert (P : 0 < m) by (apply Z.pow_pos_nonneg; pose proof (csize0_nonneg t); lia).
  destruct (is_signed t).
  - f_equal. replace ((v + m / 2) mod m - m / 2 + m / 2) with ((v + m / 2) mod m) by lia.
    apply Z.mod_mod. lia.
  - apply Z.mod_mod. lia.
Qed.
Lemma norm_cong t v w : v mod 2 ^ (8 * csize0 t) = w mod 2 ^ (8 * csize0 t) -> norm t v = norm t w.
Proof.
  unfold norm. set (m := 2 ^ (8 * csize0 t)). intros E.
  destruct (is_signed t); auto.
  rewrite (Zplus_mod v), (Zplus_mod w), E. reflexivity.
Qed.

Lemma wrap_signed v h : 0 < h -> 0 <= v < 2 * h ->
  (v + h) mod (2 * h) - h = if v <? h then v else v - 2 * h.
Proof.
  intros H R. destruct (Z.ltb_spec v h).
  - rewrite Z.mod_small; lia.
  - replace (v + h) with (v - h + 1 * (2 * h)) by lia. rewrite Z.mod_add by lia.
    rewrite Z.mod_small; lia.
Qed.

Lemma value_norm t m a : bytes_ok m -> 0 <= a -> a + csize0 t <= Z.of_nat (length m) ->
  value t m a = norm t (of_bytes (slice m (Z.to_nat a) (Z.to_nat (csize0 t)))).
Proof.
  intros B Ha Hl. unfold value.
  pose proof (csize0_nonneg t) as C.
  rewrite number_slice by lia.
  pose proof (of_bytes_range _ (bytes_slice m (Z.to_nat a) (Z.to_nat (csize0 t)) B)) as R.
  rewrite slice_length in R by lia. rewrite Z2Nat.id in R by lia.
  set (v := of_bytes (slice m (Z.to_nat a) (Z.to_nat (csize0 t)))) in *. clearbody v.
  unfold norm.
  destruct t; cbv [is_signed int_type csize0] in R |- *.
  all: try (symmetry; apply Z.mod_small; exact R).
  - symmetry. apply (wrap_signed v (2 ^ 7)); [reflexivity|exact R].
  - symmetry. apply (wrap_signed v (2 ^ 15)); [reflexivity|exact R].
  - symmetry. apply (wrap_signed v (2 ^ 31)); [reflexivity|exact R].
  - symmetry. apply (wrap_signed v (2 ^ 63)); [reflexivity|exact R].
Qed.

Lemma in_mem_spec m a n : in_mem m a n = true <-> 0 <= a /\ a + n <= Z.of_nat (length m).
Proof. unfold in_mem. rewrite andb_true_iff, Z.leb_le, Z.leb_le. tauto. Qed.

Lemma load_ok t m a : bytes_ok m -> 0 <= a -> a + csize0 t <= Z.of_nat (length m) ->
  load t m a = Ok (value t m a).
Proof.
  intros. unfold load. rewrite (proj2 (in_mem_spec _ _ _)) by auto.
  rewrite value_norm; auto.
Qed.
Lemma value_okv t m a : bytes_ok m -> 0 <= a -> a + csize0 t <= Z.of_nat (length m) ->
  okv t (value t m a).
Proof. intros. unfold okv. rewrite value_norm by auto. apply norm_idem. Qed.

(* The bytes of a pixel. *)
Definition px_bytes (t : ctype) (l : list Z) : list Z :=
  flat_map (to_bytes (Z.to_nat (csize0 t))) l.
Lemma px_bytes_length t l : length (px_bytes t l) = (length l * Z.to_nat (csize0 t))%nat.
Proof.
  unfold px_bytes. induction l; cbn [flat_map length]; auto.
  rewrite app_length, to_bytes_length, IHl. lia.
Qed.
Lemma px_bytes_ok t l : bytes_ok (px_bytes t l).
Proof.
  unfold px_bytes. induction l; cbn [flat_map]; [constructor|].
  apply Forall_app. split; auto. apply to_bytes_ok.
Qed.

Lemma store_ok t m a v : 0 <= a -> a + csize0 t <= Z.of_nat (length m) ->
  store t m a v = Ok (splice m (Z.to_nat a) (to_bytes (Z.to_nat (csize0 t)) v)).
Proof. intros. unfold store. rewrite (proj2 (in_mem_spec _ _ _)) by auto. reflexivity. Qed.

Lemma store_all_ok t : forall l m a, 0 <= a ->
  a + Z.of_nat (length l) * csize0 t <= Z.of_nat (length m) ->
  store_all t m a l = Ok (splice m (Z.to_nat a) (px_bytes t l)).
Proof.
  pose proof (csize0_nonneg t) as C.
  induction l as [|v l IH]; intros m a Ha H; cbn [store_all].
  - unfold splice. cbn [px_bytes flat_map length app]. rewrite Nat.add_0_r, firstn_skipn. reflexivity.
  - cbn [length] in H. rewrite store_ok by nia. cbn [bind].
    assert (L : (Z.to_nat a + length (to_bytes (Z.to_nat (csize0 t)) v) <= length m)%nat)
      by (rewrite to_bytes_length; nia).
    rewrite IH.
    + replace (Z.to_nat (a + csize0 t)) with (Z.to_nat a + length (to_bytes (Z.to_nat (csize0 t)) v))%nat
        by (rewrite to_bytes_length; lia).
      rewrite splice_splice; [reflexivity|].
      rewrite to_bytes_length, px_bytes_length. nia.
    + lia.
    + rewrite splice_length by auto. nia.
Qed.

Lemma mapM_ok (f : Z -> res Z) g l : (forall x, In x l -> f x = Ok (g x)) -> mapM f l = Ok (map g l).
Proof.
  induction l; intros H; cbn [mapM map]; auto.
  rewrite H by (left; auto). cbn [bind]. rewrite IHl by (intros; apply H; right; auto). reflexivity.
Qed.

Lemma load_all_ok t m a n : bytes_ok m -> 0 <= n -> 0 <= a ->
  a + n * csize0 t <= Z.of_nat (length m) ->
  load_all t m a n = Ok (map (fun k => value t m (a + k * csize0 t)) (zrange 0 n)).
Proof.
  intros B Hn Ha H. unfold load_all. pose proof (csize0_nonneg t) as C.
  apply mapM_ok. intros k I. apply in_zrange in I. apply load_ok; auto; nia.
Qed.

(* Channels of a pixel in the bytes of a pixel. *)
Lemma slice_px m t a l k : (Z.to_nat a + length (px_bytes t l) <= length m)%nat ->
  (k < length l)%nat ->
  slice (splice m (Z.to_nat a) (px_bytes t l)) (Z.to_nat a + k * Z.to_nat (csize0 t)) (Z.to_nat (csize0 t))
  = to_bytes (Z.to_nat (csize0 t)) (nth k l 0).
Proof.
  intros H Hk. rewrite px_bytes_length in H.
  set (s := Z.to_nat (csize0 t)) in *.
  apply (list_ext 0).
  - rewrite slice_length, to_bytes_length; auto.
    rewrite splice_length; [nia|rewrite px_bytes_length; fold s; lia].
  - intros j Hj. rewrite slice_length in Hj
      by (rewrite splice_length; [nia|rewrite px_bytes_length; fold s; lia]).
    rewrite nth_slice by auto. rewrite nth_splice by (rewrite px_bytes_length; fold s; lia).
    rewrite px_bytes_length. fold s.
    destruct (Nat.leb_spec (Z.to_nat a) (Z.to_nat a + k * s + j)); [|lia].
    destruct (Nat.ltb_spec (Z.to_nat a + k * s + j) (Z.to_nat a + length l * s)); [|nia].
    cbn [andb]. replace (Z.to_nat a + k * s + j - Z.to_nat a)%nat with (k * s + j)%nat by lia.
    clear - Hj Hk. unfold px_bytes. fold s. revert k Hk.
    induction l as [|v l IH]; intros k Hk; cbn [length] in Hk; [lia|].
    cbn [flat_map]. destruct k.
    + cbn [Nat.mul Nat.add nth]. rewrite app_nth1 by (rewrite to_bytes_length; auto). reflexivity.
    + cbn [nth]. rewrite app_nth2 by (rewrite to_bytes_length; nia). rewrite to_bytes_length.
      replace (S k * s + j - s)%nat with (k * s + j)%nat by nia. apply IH. lia.
Qed.

Lemma value_stored t m a l k : bytes_ok m -> 0 <= a ->
  a + Z.of_nat (length l) * csize0 t <= Z.of_nat (length m) ->
  Forall (okv t) l -> (k < length l)%nat ->
  value t (splice m (Z.to_nat a) (px_bytes t l)) (a + Z.of_nat k * csize0 t) = nth k l 0.
Proof.
  intros B Ha H V Hk. pose proof (csize0_nonneg t) as C.
  assert (L : (Z.to_nat a + length (px_bytes t l) <= length m)%nat) by (rewrite px_bytes_length; nia).
  rewrite value_norm; [|apply bytes_splice; auto; apply px_bytes_ok|nia|rewrite splice_length by auto; nia].
  replace (Z.to_nat (a + Z.of_nat k * csize0 t)) with (Z.to_nat a + k * Z.to_nat (csize0 t))%nat by nia.
  rewrite slice_px by auto. rewrite of_to_bytes. rewrite Z2Nat.id by auto.
  rewrite Forall_forall in V. rewrite <- (V (nth k l 0)) at 2 by (apply nth_In; auto).
  apply norm_cong. apply Z.mod_mod.
  assert (0 < 2 ^ (8 * csize0 t)) by (apply Z.pow_pos_nonneg; lia). lia.
Qed.

Lemma map_zrange_nth {A} (f : Z -> A) n (l : list A) d : Z.of_nat (length l) = n ->
  (forall k, (k < length l)%nat -> f (Z.of_nat k) = nth k l d) -> map f (zrange 0 n) = l.
Proof.
  intros E H. apply (list_ext d).
  - rewrite map_length, zrange_length. lia.
  - intros k Hk. rewrite map_length, zrange_length in Hk.
    rewrite (nth_indep _ d (f 0)) by (rewrite map_length, zrange_length; lia).
    rewrite map_nth. unfold zrange. rewrite zseq_nth by lia. cbn [Z.add]. apply H. lia.
Qed.

Lemma pixel_stored t m a l : bytes_ok m -> 0 <= a ->
  a + Z.of_nat (length l) * csize0 t <= Z.of_nat (length m) -> Forall (okv t) l ->
  map (fun i => value t (splice m (Z.to_nat a) (px_bytes t l)) (a + i * csize0 t))
    (zrange 0 (Z.of_nat (length l))) = l.
Proof.
  intros. apply (map_zrange_nth _ _ _ 0); auto. intros. apply value_stored; auto.
Qed.

Lemma byte_splice m a bs x : (a + length bs <= length m)%nat -> 0 <= x ->
  ~ (Z.of_nat a <= x < Z.of_nat a + Z.of_nat (length bs)) ->
  byte (splice m a bs) x = byte m x.
Proof.
  intros H Hx N. unfold byte. rewrite nth_splice by auto.
  destruct (Nat.leb_spec a (Z.to_nat x)), (Nat.ltb_spec (Z.to_nat x) (a + length bs)); cbn [andb]; auto.
  exfalso. apply N. lia.
Qed.

Lemma number_ext m m' n : forall a, 0 <= a ->
  (forall x, a <= x < a + Z.of_nat n -> byte m x = byte m' x) -> number m a n = number m' a n.
Proof.
  induction n; intros a Ha H; cbn [number]; auto.
  rewrite H by lia. rewrite (IHn (a + 1)); auto; [lia|]. intros. apply H. lia.
Qed.
Lemma value_ext t m m' a : 0 <= a ->
  (forall x, a <= x < a + csize0 t -> byte m x = byte m' x) -> value t m a = value t m' a.
Proof.
  intros Ha H. unfold value. pose proof (csize0_nonneg t).
  rewrite (number_ext m m') by (auto; intros; apply H; lia). reflexivity.
Qed.

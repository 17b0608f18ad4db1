(** C35: histograms, medians and outlier brackets. *)
From Verif Require Import Lib.Base Lib.Lists Stats.Model Stats.Spec Stats.Proofs.
From Coq Require Import List Arith Bool ZArith QArith Qround Qabs Lqa Lia Permutation SpecFloat.
Import ListNotations.

(** The position of a value on the scale 0 .. n-1, rounded. *)
Definition position (n : Z) (lo hi v : Q) : Z := c_round (inject_Z (n - 1) * ((v - lo) / (hi - lo))).

(** The bin that counts a value within the range is the one whose point
    lo + k (hi - lo) / (n - 1) is nearest. *)
Theorem histogram_nearest_point n lo hi v :
  (1 < n)%Z -> lo < hi -> lo <= v <= hi ->
  (0 <= position n lo hi v <= n - 1)%Z /\
  Qabs (v - (lo + inject_Z (position n lo hi v) * ((hi - lo) / inject_Z (n - 1)))) <= (hi - lo) / inject_Z (n - 1) / 2.
Proof.
  intros Hn L (H1 & H2). split.
  - pose proof (in_range_index (Hist n 0 lo (hi - lo) []) v) as X. unfold index in X. cbn [num_bins range min_value] in X.
    unfold position. apply X; [lia|lra|lra].
  - unfold position. set (m := inject_Z (n - 1)). assert (M : 0 < m) by (unfold m; change 0 with (inject_Z 0); rewrite <- Zlt_Qlt; lia).
    set (w := (hi - lo) / m). assert (W : 0 < w) by (unfold w; apply Qlt_shift_div_l; lra).
    assert (E : m * ((v - lo) / (hi - lo)) == (v - lo) / w) by (unfold w; field; lra).
    set (q := m * ((v - lo) / (hi - lo))) in *. pose proof (c_round_bounds q) as (B1 & B2). set (k := inject_Z (c_round q)) in *.
    assert (Ev : v == lo + q * w) by (rewrite E; field; lra).
    assert (X1 : (q - (1 # 2)) * w <= k * w) by (apply Qmult_le_r; assumption).
    assert (X2 : k * w <= (q + (1 # 2)) * w) by (apply Qmult_le_r; assumption).
    assert (Y1 : (q - (1 # 2)) * w == q * w - w * (1 # 2)) by ring.
    assert (Y2 : (q + (1 # 2)) * w == q * w + w * (1 # 2)) by ring.
    assert (Y3 : w / 2 == w * (1 # 2)) by field.
    rewrite Y3. apply Qabs_case; intros; lra.
Qed.

(** Saturating: every value added is counted once, in the bin at its position or
    the last bin on its side. *)
Theorem histogram_counts n lo hi vs h0 h :
  (0 < n)%Z -> initialize n lo hi = Ok h0 -> add_values h0 vs true = Ok h ->
  num_values h = Z.of_nat (length vs) /\
  zsum (bin_values h) = Z.of_nat (length vs) /\
  length (bin_values h) = Z.to_nat n /\
  forall k, (0 <= k < n)%Z ->
    nth (Z.to_nat k) (bin_values h) 0%Z =
    Z.of_nat (count (fun v => (Z.max 0 (Z.min (n - 1) (position n lo hi v)) =? k)%Z) vs).
Proof.
  intros P E A. destruct (init_ok _ _ _ _ P E) as (-> & Sd). set (h0 := Hist n 0 lo (hi - lo) _) in *.
  destruct (add_values_ok true vs h0 h Sd A) as (S1 & (B1 & _ & _) & N & K).
  assert (Sl : forall v, slot h0 v = Z.max 0 (Z.min (n - 1) (position n lo hi v))) by reflexivity.
  assert (K' : forall k, (0 <= k < n)%Z -> nth (Z.to_nat k) (bin_values h) 0%Z =
    Z.of_nat (count (fun v => (Z.max 0 (Z.min (n - 1) (position n lo hi v)) =? k)%Z) vs)).
  { intros k Hk. rewrite K by lia. unfold h0 at 1. cbn [bin_values]. rewrite nth_repeat, Z.add_0_l. f_equal.
    apply count_ext. intros v _. unfold lands. rewrite Sl. cbn [orb]. apply andb_true_r. }
  assert (Ln : length (bin_values h) = Z.to_nat n) by (rewrite (proj2 S1), B1; reflexivity).
  split; [|split; [|split; [exact Ln|exact K']]].
  - rewrite N. cbn [h0 num_values]. rewrite Z.add_0_l. f_equal. unfold count. f_equal.
    assert (X : forall (f : Q -> bool), (forall v, f v = true) -> forall l, filter f l = l).
    { intros f Hf l. induction l as [|a l IH]; [reflexivity|]. cbn [filter]. rewrite Hf, IH. reflexivity. }
    apply X. intros v. unfold lands. rewrite Z.eqb_refl. reflexivity.
  - rewrite <- (zsum_counts (fun v => Z.max 0 (Z.min (n - 1) (position n lo hi v))) (Z.to_nat n) vs) by (intros; lia).
    f_equal. apply nth_ext with (d := 0%Z) (d' := 0%Z).
    + rewrite map_length, seq_length. exact Ln.
    + intros i Hi. rewrite Ln in Hi.
      rewrite nth_map_seq by exact Hi. rewrite <- (K' (Z.of_nat i)) by lia. rewrite Nat2Z.id. reflexivity.
Qed.

(** Not saturating: the values whose position is outside 0 .. n-1 are not
    counted at all. *)
Theorem histogram_counts_inside n lo hi vs h0 h :
  (0 < n)%Z -> initialize n lo hi = Ok h0 -> add_values h0 vs false = Ok h ->
  num_values h = Z.of_nat (count (fun v => (0 <=? position n lo hi v)%Z && (position n lo hi v <? n)%Z) vs) /\
  forall k, (0 <= k < n)%Z ->
    nth (Z.to_nat k) (bin_values h) 0%Z = Z.of_nat (count (fun v => (position n lo hi v =? k)%Z) vs).
Proof.
  intros P E A. destruct (init_ok _ _ _ _ P E) as (-> & Sd). set (h0 := Hist n 0 lo (hi - lo) _) in *.
  destruct (add_values_ok false vs h0 h Sd A) as (S1 & (B1 & _ & _) & N & K).
  assert (Sl : forall v, slot h0 v = Z.max 0 (Z.min (n - 1) (position n lo hi v))) by reflexivity.
  assert (Il : forall v, index h0 v = position n lo hi v) by reflexivity.
  split.
  - rewrite N. cbn [h0 num_values]. rewrite Z.add_0_l. f_equal. apply count_ext. intros v _. unfold lands. rewrite Z.eqb_refl, Sl, Il.
    cbn [orb andb]. set (p := position n lo hi v). apply Bool.eq_true_iff_eq. rewrite Z.eqb_eq, andb_true_iff, Z.leb_le, Z.ltb_lt. lia.
  - intros k Hk. rewrite K by lia. unfold h0 at 1. cbn [bin_values]. rewrite nth_repeat, Z.add_0_l. f_equal.
    apply count_ext. intros v _. unfold lands. rewrite Sl, Il. cbn [orb]. set (p := position n lo hi v).
    apply Bool.eq_true_iff_eq. rewrite andb_true_iff, !Z.eqb_eq. lia.
Qed.

(** Adding values of the range always works. *)
Theorem histogram_adds_in_range n lo hi vs h0 sat :
  (0 < n < 2 ^ 31)%Z -> lo < hi -> Forall (fun v => lo <= v <= hi) vs -> initialize n lo hi = Ok h0 ->
  exists h, add_values h0 vs sat = Ok h.
Proof.
  intros Hn L F E. destruct (init_ok _ _ _ _ (proj1 Hn) E) as (Eh & Sd).
  assert (G : forall vs h, sound h -> alike h0 h -> Forall (fun v => lo <= v <= hi) vs -> exists h', add_values h vs sat = Ok h').
  { clear F vs. intros vs. induction vs as [|v vs IH]; intros h Sh A F; cbn [add_values]; [eauto|]. inversion F as [|? ? Hv F'].
    pose proof A as (A1 & A2 & A3). rewrite Eh in A1, A2, A3. cbn [num_bins min_value range] in *.
    assert (I : (0 <= index h v <= num_bins h - 1)%Z).
    { apply in_range_index; rewrite ?A1, ?A2, ?A3; [lia|lra|lra]. }
    assert (Eb : bin_of h v = Ok (index h v)).
    { unfold bin_of. destruct (Qeq_bool (range h) 0) eqn:Z0; [apply Qeq_bool_eq in Z0; rewrite A3 in Z0; lra|].
      fold (index h v). unfold to_int. destruct (Z.leb_spec (- 2 ^ 31) (index h v)); [|lia].
      destruct (Z.ltb_spec (index h v) (2 ^ 31)); [reflexivity|lia]. }
    destruct (bump_ok h (index h v) Sh ltac:(lia)) as (h1 & E1 & S1 & (B1 & B2 & B3) & _).
    assert (Ea : add_value h v sat = Ok h1).
    { unfold add_value. rewrite Eb. cbn [bind]. destruct (Z.ltb_spec (index h v) 0); [lia|].
      destruct (Z.leb_spec (num_bins h) (index h v)); [lia|exact E1]. }
    rewrite Ea. cbn [bind]. apply IH; [exact S1| |exact F']. destruct A as (? & ? & ?). repeat split; congruence. }
  apply (G vs h0 Sd); [repeat split|exact F].
Qed.

(** In exact arithmetic get_percentile returns the first bin at which the count
    so far reaches the requested fraction of all values; there always is one if
    the histogram has values. *)
Theorem percentile_first_bin n lo hi vs h0 h p :
  (0 < n)%Z -> initialize n lo hi = Ok h0 -> add_values h0 vs true = Ok h -> vs <> [] -> 0 <= p <= 1 ->
  exists k, exact_percentile h p = Ok (Z.of_nat k) /\ (k < length (bin_values h))%nat /\
    p * inject_Z (Z.of_nat (length vs)) <= inject_Z (cum (bin_values h) (S k)) /\
    forall k', (k' < k)%nat -> inject_Z (cum (bin_values h) (S k')) < p * inject_Z (Z.of_nat (length vs)).
Proof.
  intros P E A Ne (P0 & P1). destruct (histogram_counts _ _ _ _ _ _ P E A) as (N & Su & Ln & _).
  set (s := inject_Z (Z.of_nat (length vs))).
  assert (Ps : 0 < s). { unfold s. change 0 with (inject_Z 0). rewrite <- Zlt_Qlt. destruct vs; [congruence|cbn [length]; lia]. }
  unfold exact_percentile, get_percentile, lt.
  assert (T0 : ex_le (ex_of 0) (Some p) = true) by (apply Qle_bool_iff; exact P0).
  assert (T1 : ex_le (Some p) (ex_of 1) = true) by (apply Qle_bool_iff; exact P1).
  rewrite T0, T1. cbn [negb]. rewrite !andb_false_r. cbn [orb].
  rewrite N. change (ex_of (Z.of_nat (length vs))) with (Some s). change (ex_of 0) with (Some 0).
  pose proof (percentile_loop_ok s p Ps (bin_values h) 0%Z 0 0%Z ltac:(rewrite Qmult_0_l; reflexivity)) as X.
  change (inject_Z 0) with 0.
  destruct (percentile_loop _ _ _ _ (bin_values h) _ _ _ _) as [j|[]|]; try contradiction.
  - destruct X as (k & L & -> & Hk & Hm). exists k. cbn [Z.add] in *. split; [reflexivity|]. split; [exact L|].
    split; [exact Hk|exact Hm].
  - exfalso. assert (Hl : (length (bin_values h) - 1 < length (bin_values h))%nat) by lia.
    specialize (X _ Hl). replace (S (length (bin_values h) - 1)) with (length (bin_values h)) in X by lia.
    unfold cum in X. rewrite firstn_all, Su in X. cbn [Z.add] in X. fold s in X.
    assert (p * s <= 1 * s) by (apply Qmult_le_r; assumption). lra.
Qed.

(** The order of the values does not matter. *)
Theorem median_order_statistic vs :
  vs <> [] ->
  exists m, median vs = Ok m /\
    if Nat.odd (length vs) then is_kth vs (length vs / 2) m
    else exists x y, is_kth vs (length vs / 2 - 1) x /\ is_kth vs (length vs / 2) y /\ m == (x + y) / 2.
Proof.
  intros Ne. unfold median. set (n := Z.of_nat (length vs)).
  assert (Hn : (0 < n)%Z) by (unfold n; destruct vs; [congruence|cbn [length]; lia]).
  assert (Hd : Z.to_nat (n / 2) = (length vs / 2)%nat).
  { unfold n. rewrite <- (Nat2Z.id (length vs / 2)). f_equal. symmetry. apply (Nat2Z.inj_div _ 2). }
  assert (R : (0 <= n / 2 < n)%Z) by (split; [apply Z.div_pos; lia|apply Z.div_lt; lia]).
  destruct (at_index_ok vs (n / 2) R) as (x & Ex & Kx). rewrite Hd in Kx.
  assert (Od : Nat.odd (length vs) = (n mod 2 =? 1)%Z).
  { unfold n. pose proof (Nat.div_mod (length vs) 2 ltac:(lia)) as D. pose proof (Nat.mod_upper_bound (length vs) 2 ltac:(lia)) as U.
    assert (M : (Z.of_nat (length vs) mod 2 = Z.of_nat (length vs mod 2))%Z) by (rewrite Nat2Z.inj_mod; reflexivity).
    rewrite M. destruct (Nat.odd (length vs)) eqn:O.
    - apply Nat.odd_spec in O as (q & Hq). assert (length vs mod 2 = 1)%nat by (rewrite Hq; rewrite Nat.add_comm, Nat.mul_comm, Nat.mod_add by lia; reflexivity).
      symmetry. apply Z.eqb_eq. lia.
    - assert (Ev : Nat.even (length vs) = true) by (rewrite <- Nat.negb_odd, O; reflexivity).
      apply Nat.even_spec in Ev as (q & Hq). assert (length vs mod 2 = 0)%nat by (rewrite Hq, Nat.mul_comm, Nat.mod_mul by lia; reflexivity).
      symmetry. apply Z.eqb_neq. lia. }
  rewrite Od. destruct (n mod 2 =? 1)%Z eqn:Em.
  - exists x. split; [exact Ex|exact Kx].
  - apply Z.eqb_neq in Em. assert (R1 : (0 <= n / 2 - 1 < n)%Z).
    { pose proof (Z.mod_pos_bound n 2 ltac:(lia)). pose proof (Z.div_mod n 2 ltac:(lia)). lia. }
    destruct (at_index_ok vs (n / 2 - 1) R1) as (y & Ey & Ky).
    rewrite Ex, Ey. cbn [bind]. eexists. split; [reflexivity|]. exists y, x.
    replace (Z.to_nat (n / 2 - 1)) with (length vs / 2 - 1)%nat in Ky by lia. split; [exact Ky|]. split; [exact Kx|].
    rewrite (Qplus_comm x y). reflexivity.
Qed.

Theorem median_permutation vs ws m m' :
  Permutation vs ws -> median vs = Ok m -> median ws = Ok m' -> m == m'.
Proof.
  intros Pm Hm Hm'. assert (Ne : vs <> []) by (intros ->; discriminate Hm).
  assert (Ne' : ws <> []) by (intros ->; discriminate Hm').
  destruct (median_order_statistic vs Ne) as (a & Ea & Ka). destruct (median_order_statistic ws Ne') as (b & Eb & Kb).
  assert (a = m) by congruence. assert (b = m') by congruence. subst a b. rewrite <- (Permutation_length Pm) in Kb.
  destruct (Nat.odd (length vs)).
  - eapply kth_unique; [eapply kth_perm; [exact Pm|exact Ka]|exact Kb].
  - destruct Ka as (x & y & Kx & Ky & ->), Kb as (x' & y' & Kx' & Ky' & ->).
    assert (x == x') by (eapply kth_unique; [eapply kth_perm; [exact Pm|exact Kx]|exact Kx']).
    assert (y == y') by (eapply kth_unique; [eapply kth_perm; [exact Pm|exact Ky]|exact Ky']).
    rewrite H, H0. reflexivity.
Qed.

(** An empty list reads outside the array. *)
Theorem median_empty : median [] = UB OutOfBounds.
Proof. reflexivity. Qed.

(** The brackets around the quartiles.  For a fraction up to one quarter, four
    values or more and a factor that is not negative, the brackets are in order
    and the values between the two quartiles are inside. *)
Theorem outlier_brackets vec pct factor :
  (4 <= length vec)%nat -> 0 <= pct <= 1 # 4 -> 0 <= factor ->
  exists b e q1 q3 i j, find_outlier_brackets vec pct factor = Ok (true, b, e) /\
    is_kth vec i q1 /\ is_kth vec j q3 /\ (i <= j < length vec)%nat /\
    Qabs (pct * inject_Z (Z.of_nat (length vec)) - inject_Z (Z.of_nat i)) <= 1 # 2 /\
    Qabs ((1 - pct) * inject_Z (Z.of_nat (length vec)) - inject_Z (Z.of_nat (S j))) <= 1 # 2 /\
    b == q1 - factor * (q3 - q1) /\ e == q3 + factor * (q3 - q1) /\ b <= q1 /\ q1 <= q3 /\ q3 <= e.
Proof.
  intros L (P0 & P1) F. unfold find_outlier_brackets.
  assert (T1 : Qle_bool pct (1 # 2) = true) by (apply Qle_bool_iff; lra). rewrite T1.
  assert (T2 : Qle_bool 0 pct = true) by (apply Qle_bool_iff; lra). rewrite T2.
  rewrite (Permutation_length (sort_perm vec)). set (n := Z.of_nat (length vec)).
  assert (Hn : (4 <= n)%Z) by (unfold n; lia).
  assert (Hq : 4 <= inject_Z n) by (change 4 with (inject_Z 4); rewrite <- Zle_Qle; exact Hn).
  destruct (Z.leb_spec n 0); [lia|]. destruct (Z.leb_spec n 3); [lia|].
  destruct (at_index_ok vec 0 ltac:(fold n; lia)) as (x0 & -> & _). cbn [bind].
  destruct (at_index_ok vec (n - 1) ltac:(fold n; lia)) as (x1 & -> & _). cbn [bind].
  assert (A1 : 0 <= pct * inject_Z n) by (apply Qmult_le_0_compat; lra).
  assert (A2 : pct * inject_Z n <= (1 # 4) * inject_Z n) by (apply Qmult_le_r; lra).
  assert (A3 : (1 - pct) * inject_Z n == inject_Z n - pct * inject_Z n) by ring.
  pose proof (c_round_bounds (pct * inject_Z n)) as (B1 & B2).
  pose proof (c_round_bounds ((1 - pct) * inject_Z n)) as (B3 & B4).
  pose proof (c_round_spec (pct * inject_Z n)) as C1. pose proof (c_round_spec ((1 - pct) * inject_Z n)) as C2.
  set (bn := c_round (pct * inject_Z n)) in *. set (en := c_round ((1 - pct) * inject_Z n)) in *.
  assert (D1 : (bn + 1 <= en)%Z).
  { rewrite Zle_Qle, inject_Z_plus. change (inject_Z 1) with 1. lra. }
  assert (D0 : (0 <= bn)%Z) by (apply (c_round_range _ n); lra).
  assert (D2 : (en <= n)%Z) by (apply (c_round_range _ n); lra).
  replace (Z.min (n - 1) (Z.max bn 0)) with bn by lia. replace (Z.min (n - 1) (Z.max (en - 1) 0)) with (en - 1)%Z by lia.
  destruct (at_index_ok vec bn ltac:(fold n; lia)) as (q1 & -> & K1). cbn [bind].
  destruct (at_index_ok vec (en - 1) ltac:(fold n; lia)) as (q3 & -> & K3). cbn [bind].
  assert (M : q1 <= q3) by (eapply kth_mono; [|exact K1|exact K3]; lia).
  assert (G : 0 <= factor * (q3 - q1)) by (apply Qmult_le_0_compat; lra).
  eexists _, _, q1, q3, (Z.to_nat bn), (Z.to_nat (en - 1)). split; [reflexivity|]. split; [exact K1|]. split; [exact K3|].
  split; [unfold n in *; lia|]. replace (Z.of_nat (Z.to_nat bn)) with bn by lia.
  replace (Z.of_nat (S (Z.to_nat (en - 1)))) with en by lia.
  split; [exact C1|]. split; [exact C2|]. split; [reflexivity|]. split; [reflexivity|]. split; [lra|]. split; [exact M|lra].
Qed.

(** Three values or fewer: the brackets are the extremes and the call says so. *)
Theorem outlier_brackets_few vec pct factor :
  (1 <= length vec <= 3)%nat ->
  exists b e, find_outlier_brackets vec pct factor = Ok (false, b, e) /\ Forall (fun v => b <= v <= e) vec /\
    is_kth vec 0 b /\ is_kth vec (length vec - 1) e.
Proof.
  intros L. unfold find_outlier_brackets. rewrite (Permutation_length (sort_perm vec)). set (n := Z.of_nat (length vec)).
  destruct (Z.leb_spec n 0); [lia|]. destruct (Z.leb_spec n 3); [|lia].
  destruct (at_index_ok vec 0 ltac:(fold n; lia)) as (b & -> & Kb). cbn [bind].
  destruct (at_index_ok vec (n - 1) ltac:(fold n; lia)) as (e & -> & Ke). cbn [bind].
  exists b, e. split; [reflexivity|]. replace (Z.to_nat (n - 1)) with (length vec - 1)%nat in Ke by lia.
  split; [|split; [exact Kb|exact Ke]]. apply Forall_forall. intros v J. split.
  - destruct Kb as (H1 & _). change (Z.to_nat 0) with 0%nat in H1. apply Qnot_lt_le. intros C.
    pose proof (count_pos (below b) vec v J) as X. assert (B : below b v = true).
    { unfold below. apply negb_true_iff. destruct (Qle_bool b v) eqn:E; [|reflexivity]. apply Qle_bool_iff in E. lra. }
    specialize (X B). lia.
  - destruct Ke as (_ & H2). apply Qnot_lt_le. intros C.
    assert (count (upto e) vec < length vec)%nat; [|lia].
    clear - J C. induction vec as [|a l IH]; [destruct J|]. rewrite count_cons. cbn [length]. destruct J as [->|J].
    + assert (U : upto e v = false).
      { unfold upto. destruct (Qle_bool v e) eqn:E; [|reflexivity]. apply Qle_bool_iff in E. lra. }
      rewrite U. pose proof (count_le (upto e) l). lia.
    + specialize (IH J). destruct (upto e a); lia.
Qed.

(** ** A concrete histogram *)

Definition sample : list Q := [1; 2; 5 # 2; 9; 4; 3; 10; 0; 7 # 2; 12].

Example sample_histogram : exists h0 h, initialize 6 0 10 = Ok h0 /\ add_values h0 sample true = Ok h /\
  bin_values h = [1; 3; 3; 0; 0; 3]%Z /\ exact_percentile h (1 # 2) = Ok 2%Z /\ exact_percentile h 1 = Ok 5%Z.
Proof. eexists. eexists. split; [reflexivity|]. split; [vm_compute; reflexivity|]. vm_compute. repeat split. Qed.

Example sample_median : exists m, median sample = Ok m /\ m == 13 # 4.
Proof. eexists. split; [vm_compute; reflexivity|]. reflexivity. Qed.

Example sample_brackets : exists b e, find_outlier_brackets sample (1 # 4) (3 # 2) = Ok (true, b, e) /\
  b == - (29 # 4) /\ e == 75 # 4.
Proof. eexists. eexists. split; [vm_compute; reflexivity|]. split; reflexivity. Qed.

(** ** What does not hold *)

(** The bin that counts a value is not the one whose centre is nearest. *)
Theorem histogram_bin_center_refuted :
  exists h0 h, initialize 4 0 4 = Ok h0 /\ add_value h0 (7 # 10) true = Ok h /\ bin_values h = [0; 1; 0; 0]%Z /\
    Qabs ((7 # 10) - bin_center h0 0) < Qabs ((7 # 10) - bin_center h0 1).
Proof. eexists. eexists. split; [reflexivity|]. split; [vm_compute; reflexivity|]. vm_compute. split; reflexivity. Qed.

(** Without saturation a value outside the range is counted all the same if it
    is close. *)
Theorem histogram_ignores_outside_refuted :
  exists h0 h, initialize 4 0 4 = Ok h0 /\ add_value h0 (-1 # 2) false = Ok h /\ num_values h = 1%Z.
Proof. eexists. eexists. split; [reflexivity|]. split; [vm_compute; reflexivity|]. reflexivity. Qed.

(** Without the check a value outside writes outside the array. *)
Theorem histogram_no_check_refuted :
  exists h0, initialize 4 0 4 = Ok h0 /\ add_value_no_check h0 5 = UB OutOfBounds.
Proof. eexists. split; [reflexivity|]. vm_compute. reflexivity. Qed.

(** A range of width zero: the bin is computed from 0/0. *)
Theorem histogram_flat_range_refuted :
  exists h0, initialize 4 1 1 = Ok h0 /\ add_value h0 1 true = UB Overflow.
Proof. eexists. split; [reflexivity|]. vm_compute. reflexivity. Qed.

(** In double precision the fractions need not add up to one: with one value in
    each of ten bins the percentile 1 is refused with an exception. *)
Theorem percentile_one_double_refuted :
  exists h0 h, initialize 10 0 9 = Ok h0 /\ add_values h0 [0; 1; 2; 3; 4; 5; 6; 7; 8; 9] true = Ok h /\
    exact_percentile h 1 = Ok 9%Z /\ double_percentile h (dbl_of 1) = Throw LogicErr.
Proof. eexists. eexists. split; [reflexivity|]. split; [vm_compute; reflexivity|]. split; vm_compute; reflexivity. Qed.

(** An empty histogram has no percentiles, not even 0. *)
Theorem percentile_empty_throws n lo hi h p :
  (0 < n)%Z -> initialize n lo hi = Ok h -> 0 <= p <= 1 -> exact_percentile h p = Throw LogicErr.
Proof.
  intros Hn E (P0 & P1). destruct (init_ok _ _ _ _ Hn E) as (-> & _). unfold exact_percentile, get_percentile, lt.
  assert (T0 : ex_le (ex_of 0) (Some p) = true) by (apply Qle_bool_iff; exact P0).
  assert (T1 : ex_le (Some p) (ex_of 1) = true) by (apply Qle_bool_iff; exact P1).
  rewrite T0, T1. cbn [negb]. rewrite !andb_false_r. cbn [orb num_values bin_values].
  assert (X : forall m i r, percentile_loop ex_of ex_plus ex_div ex_le (repeat 0%Z m) i (ex_of 0) r (Some p) = Throw LogicErr).
  { induction m as [|m IH]; intros i r; cbn [repeat percentile_loop]; [reflexivity|].
    replace (ex_plus r (ex_div (ex_of 0) (ex_of 0))) with (@None Q) by (destruct r; reflexivity). apply IH. }
  apply X.
Qed.

(** A fraction below one half can give brackets in the wrong order, outside of
    which every value lies. *)
Theorem outlier_brackets_order_refuted :
  exists b e, find_outlier_brackets [0; 0; 1; 1] (49 # 100) (3 # 2) = Ok (true, b, e) /\ e < b /\
    Forall (fun v => v < b /\ e < v) [0; 0; 1; 1].
Proof. eexists. eexists. split; [vm_compute; reflexivity|]. split; [reflexivity|]. repeat constructor. Qed.

Print Assumptions histogram_nearest_point.
Print Assumptions histogram_counts.
Print Assumptions histogram_counts_inside.
Print Assumptions histogram_adds_in_range.
Print Assumptions percentile_first_bin.
Print Assumptions median_order_statistic.
Print Assumptions median_permutation.
Print Assumptions median_empty.
Print Assumptions outlier_brackets.
Print Assumptions outlier_brackets_few.
Print Assumptions histogram_bin_center_refuted.
Print Assumptions histogram_ignores_outside_refuted.
Print Assumptions histogram_no_check_refuted.
Print Assumptions histogram_flat_range_refuted.
Print Assumptions percentile_one_double_refuted.
Print Assumptions percentile_empty_throws.
Print Assumptions outlier_brackets_order_refuted.

(** Histogram, median and outlier brackets: proofs. *)
From Verif Require Import Lib.Base Lib.Lists Stats.Model Stats.Spec.
From Coq Require Import List Arith Bool ZArith QArith Qround Qabs Lqa Lia Permutation Sorted.
Import ListNotations.

(** ** Rounding *)

Lemma c_round_spec q : Qabs (q - inject_Z (c_round q)) <= 1 # 2.
Proof.
  unfold c_round. destruct (Qle_bool 0 q) eqn:E.
  - pose proof (Qfloor_le (q + (1 # 2))) as H1. pose proof (Qlt_floor (q + (1 # 2))) as H2. rewrite inject_Z_plus in H2. change (inject_Z 1) with 1 in H2.
    apply Qabs_case; intros; lra.
  - pose proof (Qfloor_le (- q + (1 # 2))) as H1. pose proof (Qlt_floor (- q + (1 # 2))) as H2. rewrite inject_Z_plus in H2. change (inject_Z 1) with 1 in H2.
    rewrite inject_Z_opp. apply Qabs_case; intros; lra.
Qed.

Lemma c_round_bounds q : q - (1 # 2) <= inject_Z (c_round q) <= q + (1 # 2).
Proof. pose proof (c_round_spec q) as H. apply Qabs_Qle_condition in H. lra. Qed.

Lemma c_round_range q m : 0 <= q <= inject_Z m -> (0 <= c_round q <= m)%Z.
Proof.
  intros (H1 & H2). unfold c_round. assert (E : Qle_bool 0 q = true) by (apply Qle_bool_iff; exact H1). rewrite E. split.
  - change 0%Z with (Qfloor 0). apply Qfloor_resp_le. lra.
  - pose proof (Qfloor_le (q + (1 # 2))) as X. assert (Y : inject_Z (Qfloor (q + (1 # 2))) < inject_Z (m + 1)).
    { rewrite inject_Z_plus. change (inject_Z 1) with 1. lra. }
    rewrite <- Zlt_Qlt in Y. lia.
Qed.

Lemma c_round_mono a b : a <= b -> (c_round a <= c_round b)%Z.
Proof.
  intros H. unfold c_round. destruct (Qle_bool 0 a) eqn:Ea, (Qle_bool 0 b) eqn:Eb.
  - apply Qfloor_resp_le. lra.
  - apply Qle_bool_iff in Ea. assert (~ 0 <= b) by (rewrite <- Qle_bool_iff; congruence). lra.
  - apply Qle_bool_iff in Eb. assert (Na : ~ 0 <= a) by (rewrite <- Qle_bool_iff; congruence).
    assert (0 <= Qfloor (b + (1 # 2)))%Z by (change 0%Z with (Qfloor 0); apply Qfloor_resp_le; lra).
    assert (0 <= Qfloor (- a + (1 # 2)))%Z by (change 0%Z with (Qfloor 0); apply Qfloor_resp_le; lra). lia.
  - assert (Qfloor (- b + (1 # 2)) <= Qfloor (- a + (1 # 2)))%Z by (apply Qfloor_resp_le; lra). lia.
Qed.

(** ** Counting *)

Definition index (h : hist) (v : Q) : Z :=
  c_round (inject_Z (num_bins h - 1) * ((v - min_value h) / range h)).

Definition slot (h : hist) (v : Q) : Z := Z.max 0 (Z.min (num_bins h - 1) (index h v)).

Definition sound (h : hist) : Prop := (0 < num_bins h)%Z /\ length (bin_values h) = Z.to_nat (num_bins h).

Definition alike (h h' : hist) : Prop :=
  num_bins h' = num_bins h /\ min_value h' = min_value h /\ range h' = range h.

Lemma bump_ok h b : sound h -> (0 <= b < num_bins h)%Z ->
  exists h', bump h b = Ok h' /\ sound h' /\ alike h h' /\ num_values h' = (num_values h + 1)%Z /\
    forall k, (0 <= k)%Z -> nth (Z.to_nat k) (bin_values h') 0%Z = (nth (Z.to_nat k) (bin_values h) 0 + (if b =? k then 1 else 0))%Z.
Proof.
  intros (P & L) Hb. unfold bump. destruct (Z.ltb_spec b 0); [lia|]. destruct (Z.leb_spec (num_bins h) b); [lia|]. cbn [orb].
  eexists. split; [reflexivity|]. cbn [num_bins bin_values num_values]. split.
  - split; [exact P|]. cbn [bin_values num_bins]. rewrite upd_length. exact L.
  - split; [repeat split|]. split; [reflexivity|]. intros k Hk. destruct (Z.eqb_spec b k) as [E|E].
    + subst k. rewrite upd_nth_eq by lia. reflexivity.
    + rewrite upd_nth_neq by lia. lia.
Qed.

Lemma bump_inv h b h' : bump h b = Ok h' -> (0 <= b < num_bins h)%Z.
Proof.
  unfold bump. destruct (Z.ltb_spec b 0); [discriminate|]. destruct (Z.leb_spec (num_bins h) b); [discriminate|]. lia.
Qed.

Lemma bin_of_inv h v b : bin_of h v = Ok b -> b = index h v.
Proof.
  unfold bin_of, to_int. destruct (Qeq_bool _ _); [discriminate|]. destruct (_ && _); [|discriminate]. intros [= <-]. reflexivity.
Qed.

(** Where a value is counted, if it is. *)
Definition lands (h : hist) (saturate : bool) (v : Q) (k : Z) : bool :=
  (slot h v =? k)%Z && (saturate || (index h v =? slot h v)%Z).

Lemma add_value_ok h v sat h' : sound h -> add_value h v sat = Ok h' ->
  sound h' /\ alike h h' /\
  num_values h' = (num_values h + (if lands h sat v (slot h v) then 1 else 0))%Z /\
  forall k, (0 <= k)%Z ->
    nth (Z.to_nat k) (bin_values h') 0%Z = (nth (Z.to_nat k) (bin_values h) 0 + (if lands h sat v k then 1 else 0))%Z.
Proof.
  intros Sd H. pose proof Sd as (P & _). unfold add_value in H. destruct (bin_of h v) as [b| |] eqn:Eb; cbn [bind] in H; try discriminate.
  apply bin_of_inv in Eb.
  assert (C : (exists b', bump h b' = Ok h' /\ b' = slot h v /\ sat || (index h v =? slot h v)%Z = true) \/
              (h' = h /\ sat || (index h v =? slot h v)%Z = false)).
  { destruct (Z.ltb_spec b 0); [|destruct (Z.leb_spec (num_bins h) b)].
    - destruct sat; [left; exists 0%Z; repeat split; auto; unfold slot; lia|right]. injection H as <-. split; [reflexivity|].
      apply Z.eqb_neq. unfold slot. lia.
    - destruct sat; [left; exists (num_bins h - 1)%Z; repeat split; auto; unfold slot; lia|right]. injection H as <-. split; [reflexivity|].
      apply Z.eqb_neq. unfold slot. lia.
    - left. exists b. split; [exact H|]. split; [unfold slot; lia|]. apply orb_true_iff. right. apply Z.eqb_eq. unfold slot. lia. }
  destruct C as [(b' & E & -> & Sa)|(-> & Sa)].
  - pose proof (bump_inv _ _ _ E) as R. destruct (bump_ok h (slot h v) Sd R) as (h2 & E2 & S2 & A2 & N2 & K2).
    rewrite E2 in E. injection E as <-. split; [exact S2|]. split; [exact A2|]. unfold lands. rewrite Sa, Z.eqb_refl. split; [exact N2|].
    intros k Hk. rewrite K2 by exact Hk. rewrite andb_true_r. reflexivity.
  - split; [exact Sd|]. split; [repeat split|]. unfold lands. rewrite Sa. rewrite andb_false_r. split; [lia|].
    intros k Hk. rewrite andb_false_r. lia.
Qed.

Lemma alike_lands h h' sat : alike h h' -> forall v k, lands h' sat v k = lands h sat v k.
Proof. intros (E1 & E2 & E3) v k. unfold lands, slot, index. rewrite E1, E2, E3. reflexivity. Qed.

Lemma alike_slot h h' : alike h h' -> forall v, slot h' v = slot h v.
Proof. intros (E1 & E2 & E3) v. unfold slot, index. rewrite E1, E2, E3. reflexivity. Qed.

Lemma count_cons {A} (f : A -> bool) a l : count f (a :: l) = ((if f a then 1 else 0) + count f l)%nat.
Proof. unfold count. cbn [filter]. destruct (f a); reflexivity. Qed.

Lemma add_values_ok sat : forall vs h h', sound h -> add_values h vs sat = Ok h' ->
  sound h' /\ alike h h' /\
  num_values h' = (num_values h + Z.of_nat (count (fun v => lands h sat v (slot h v)) vs))%Z /\
  forall k, (0 <= k)%Z ->
    nth (Z.to_nat k) (bin_values h') 0%Z = (nth (Z.to_nat k) (bin_values h) 0 + Z.of_nat (count (fun v => lands h sat v k) vs))%Z.
Proof.
  induction vs as [|v vs IH]; intros h h' Sd H; cbn [add_values] in H.
  - injection H as <-. split; [exact Sd|]. split; [repeat split|]. split; [cbn; lia|]. intros; cbn; lia.
  - destruct (add_value h v sat) as [h1| |] eqn:E; cbn [bind] in H; try discriminate.
    destruct (add_value_ok _ _ _ _ Sd E) as (S1 & A1 & N1 & K1). destruct (IH h1 h' S1 H) as (S2 & A2 & N2 & K2).
    split; [exact S2|]. split; [destruct A1 as (? & ? & ?), A2 as (? & ? & ?); repeat split; congruence|]. split.
    + rewrite N2, N1, count_cons.
      rewrite (count_ext (fun v0 => lands h1 sat v0 (slot h1 v0)) (fun v0 => lands h sat v0 (slot h v0)))
        by (intros; rewrite (alike_slot _ _ A1), (alike_lands _ _ _ A1); reflexivity).
      destruct (lands h sat v (slot h v)); lia.
    + intros k Hk. rewrite K2, K1, count_cons by exact Hk.
      rewrite (count_ext (fun v0 => lands h1 sat v0 k) (fun v0 => lands h sat v0 k)) by (intros; apply (alike_lands _ _ _ A1)).
      destruct (lands h sat v k); lia.
Qed.

Lemma init_ok n lo hi h : (0 < n)%Z -> initialize n lo hi = Ok h ->
  h = Hist n 0 lo (hi - lo) (repeat 0%Z (Z.to_nat n)) /\ sound h.
Proof.
  intros P. unfold initialize. destruct (Z.eqb_spec n 0); [lia|]. intros [= <-]. split; [reflexivity|].
  split; [exact P|]. cbn [bin_values num_bins]. apply repeat_length.
Qed.

Lemma in_range_index h v : (0 < num_bins h)%Z -> 0 < range h -> min_value h <= v <= min_value h + range h ->
  (0 <= index h v <= num_bins h - 1)%Z.
Proof.
  intros P R (H1 & H2). unfold index. apply c_round_range.
  assert (D1 : 0 <= (v - min_value h) / range h) by (apply Qle_shift_div_l; lra).
  assert (D2 : (v - min_value h) / range h <= 1) by (apply Qle_shift_div_r; lra).
  assert (M : 0 <= inject_Z (num_bins h - 1)) by (change 0 with (inject_Z 0); rewrite <- Zle_Qle; lia).
  split; [apply Qmult_le_0_compat; assumption|]. set (m := inject_Z (num_bins h - 1)) in *. set (d := (v - min_value h) / range h) in *.
  assert (X : 0 <= m * (1 - d)) by (apply Qmult_le_0_compat; lra). assert (Y : m * (1 - d) == m - m * d) by ring. lra.
Qed.

Lemma zsum_counts {A} (f : A -> Z) n (vs : list A) : (forall v, In v vs -> 0 <= f v < Z.of_nat n)%Z ->
  zsum (map (fun k => Z.of_nat (count (fun v => (f v =? Z.of_nat k)%Z) vs)) (seq 0 n)) = Z.of_nat (length vs).
Proof.
  induction vs as [|v vs IH]; intros H.
  - clear H. change (zsum (map (fun _ : nat => 0%Z) (seq 0 n)) = 0%Z). induction (seq 0 n) as [|a l IH]; [reflexivity|].
    exact IH.
  - cbn [length]. rewrite Nat2Z.inj_succ, <- IH by (intros; apply H; right; assumption).
    assert (Hv : (0 <= f v < Z.of_nat n)%Z) by (apply H; left; reflexivity). clear H IH.
    assert (X : forall s m, (Z.of_nat s <= f v < Z.of_nat (s + m))%Z \/ (f v < Z.of_nat s)%Z ->
      (zsum (map (fun k => Z.of_nat (count (fun v0 => (f v0 =? Z.of_nat k)%Z) (v :: vs))) (seq s m)) =
       zsum (map (fun k => Z.of_nat (count (fun v0 => (f v0 =? Z.of_nat k)%Z) vs)) (seq s m)) +
       if (f v <? Z.of_nat s)%Z then 0 else 1)%Z).
    { intros s m. revert s. induction m as [|m IH]; intros s Hs.
      - cbn [seq map zsum fold_right]. destruct (Z.ltb_spec (f v) (Z.of_nat s)); lia.
      - cbn [seq map]. unfold zsum in *. cbn [fold_right]. rewrite IH by lia. rewrite count_cons.
        destruct (Z.eqb_spec (f v) (Z.of_nat s)), (Z.ltb_spec (f v) (Z.of_nat (S s))), (Z.ltb_spec (f v) (Z.of_nat s)); lia. }
    rewrite (X 0%nat n) by lia. destruct (Z.ltb_spec (f v) (Z.of_nat 0)); lia.
Qed.

(** ** Percentiles *)

Lemma percentile_loop_ok s p (Ps : 0 < s) : forall vals i r R,
  r * s == inject_Z R ->
  match percentile_loop ex_of ex_plus ex_div ex_le vals i (Some s) (Some r) (Some p) with
  | Ok j => exists k, (k < length vals)%nat /\ j = (i + Z.of_nat k)%Z /\ p * s <= inject_Z (R + cum vals (S k)) /\
      forall k', (k' < k)%nat -> inject_Z (R + cum vals (S k')) < p * s
  | Throw LogicErr => forall k, (k < length vals)%nat -> inject_Z (R + cum vals (S k)) < p * s
  | _ => False
  end.
Proof.
  induction vals as [|v vals IH]; intros i r R E; cbn [percentile_loop].
  - intros k Hk. cbn in Hk. lia.
  - assert (Ed : ex_plus (Some r) (ex_div (ex_of v) (Some s)) = Some (r + inject_Z v / s)).
    { unfold ex_of, ex_div. destruct (Qeq_bool s 0) eqn:Es; [apply Qeq_bool_eq in Es; lra|]. reflexivity. }
    rewrite Ed. clear Ed. set (r' := r + inject_Z v / s). cbn [ex_le].
    assert (E' : r' * s == inject_Z (R + v)).
    { unfold r'. rewrite inject_Z_plus, <- E. field. lra. }
    assert (C0 : forall k, (R + cum (v :: vals) (S k) = R + v + cum vals k)%Z).
    { intros k. unfold cum. cbn [firstn]. unfold zsum. cbn [fold_right]. lia. }
    destruct (Qle_bool p r') eqn:Ec.
    + apply Qle_bool_iff in Ec. exists 0%nat. cbn [length]. split; [lia|]. split; [lia|]. split; [|intros; lia].
      rewrite C0. change (cum vals 0) with 0%Z. rewrite Z.add_0_r, <- E'. apply Qmult_le_r; assumption.
    + assert (Hlt : inject_Z (R + v) < p * s).
      { rewrite <- E'. apply Qmult_lt_r; [exact Ps|]. apply Qnot_le_lt. rewrite <- Qle_bool_iff. congruence. }
      specialize (IH (i + 1)%Z r' (R + v)%Z E').
      destruct (percentile_loop _ _ _ _ vals _ _ _ _) as [j|[]|]; try exact IH.
      * destruct IH as (k & L & J & Hk & Hm). exists (S k). cbn [length]. split; [lia|]. split; [lia|]. rewrite C0.
        split; [exact Hk|]. intros [|k'] L'.
        -- rewrite C0. change (cum vals 0) with 0%Z. rewrite Z.add_0_r. exact Hlt.
        -- rewrite C0. apply Hm. lia.
      * intros [|k] L.
        -- rewrite C0. change (cum vals 0) with 0%Z. rewrite Z.add_0_r. exact Hlt.
        -- rewrite C0. apply IH. cbn [length] in L. lia.
Qed.

(** ** Sorting *)

Lemma insert_perm x l : Permutation (insert x l) (x :: l).
Proof.
  induction l as [|y l IH]; cbn [insert]; [apply Permutation_refl|]. destruct (Qle_bool x y); [apply Permutation_refl|].
  rewrite IH. constructor.
Qed.

Lemma sort_perm l : Permutation (sort_up l) l.
Proof. induction l as [|x l IH]; cbn [sort_up fold_right]; [constructor|]. rewrite insert_perm. constructor. exact IH. Qed.

Lemma insert_sorted x l : StronglySorted Qle l -> StronglySorted Qle (insert x l).
Proof.
  induction 1 as [|y l So IH F]; cbn [insert]; [repeat constructor|]. destruct (Qle_bool x y) eqn:E.
  - apply Qle_bool_iff in E. constructor; [constructor; assumption|]. constructor; [exact E|].
    eapply Forall_impl; [|exact F]. cbn beta. intros; lra.
  - assert (~ x <= y) by (rewrite <- Qle_bool_iff; congruence). constructor; [exact IH|].
    eapply Permutation_Forall; [apply Permutation_sym, insert_perm|]. constructor; [lra|exact F].
Qed.

Lemma sort_sorted l : StronglySorted Qle (sort_up l).
Proof. induction l; [constructor|]. apply insert_sorted. assumption. Qed.

Lemma count_perm {A} (f : A -> bool) l m : Permutation l m -> count f l = count f m.
Proof.
  induction 1; rewrite ?count_cons; lia.
Qed.

Lemma kth_sorted l : StronglySorted Qle l -> forall k x, nth_error l k = Some x -> is_kth l k x.
Proof.
  unfold is_kth. induction 1 as [|y l So IH F]; intros [|k] x E; try discriminate; rewrite !count_cons; cbn [nth_error] in E.
  - injection E as ->. unfold below at 1, upto at 1. assert (R : Qle_bool x x = true) by (apply Qle_bool_iff; lra). rewrite R.
    assert (Z0 : count (below x) l = 0%nat).
    { clear - F. induction F as [|z l Hz _ IHl]; [reflexivity|]. rewrite count_cons, IHl. unfold below.
      assert (Rz : Qle_bool x z = true) by (apply Qle_bool_iff; exact Hz). rewrite Rz. reflexivity. }
    rewrite Z0. cbn [negb]. lia.
  - specialize (IH k x E). apply nth_error_In in E. rewrite Forall_forall in F. specialize (F x E).
    unfold upto at 1. assert (R : Qle_bool y x = true) by (apply Qle_bool_iff; exact F). rewrite R.
    destruct (below x y); lia.
Qed.

Lemma kth_perm l m k x : Permutation l m -> is_kth l k x -> is_kth m k x.
Proof. intros H. unfold is_kth. rewrite !(count_perm _ _ _ H). auto. Qed.

Lemma kth_unique l k x y : is_kth l k x -> is_kth l k y -> x == y.
Proof.
  assert (X : forall x y, is_kth l k x -> is_kth l k y -> ~ x < y).
  { clear. intros x y (_ & H1) (H2 & _) L.
    assert (count (upto x) l <= count (below y) l)%nat; [|lia].
    clear H1 H2. induction l as [|z l IH]; [reflexivity|]. rewrite !count_cons.
    destruct (upto x z) eqn:U; [|lia]. unfold upto in U. apply Qle_bool_iff in U.
    assert (B : below y z = true).
    { unfold below. apply negb_true_iff. destruct (Qle_bool y z) eqn:E; [|reflexivity]. apply Qle_bool_iff in E. lra. }
    rewrite B. lia. }
  intros Hx Hy. pose proof (X x y Hx Hy). pose proof (X y x Hy Hx). lra.
Qed.

Lemma at_index_ok l k : (0 <= k < Z.of_nat (length l))%Z -> exists x, at_index (sort_up l) k = Ok x /\ is_kth l (Z.to_nat k) x.
Proof.
  intros H. unfold at_index. destruct (Z.ltb_spec k 0); [lia|].
  destruct (nth_error (sort_up l) (Z.to_nat k)) as [x|] eqn:E.
  - exists x. split; [reflexivity|]. eapply kth_perm; [apply sort_perm|]. apply kth_sorted; [apply sort_sorted|exact E].
  - apply nth_error_None in E. rewrite (Permutation_length (sort_perm l)) in E. lia.
Qed.

Lemma kth_mono l i j x y : (i <= j)%nat -> is_kth l i x -> is_kth l j y -> x <= y.
Proof.
  intros L Hx Hy. apply Qnot_lt_le. intros C. destruct Hx as (H1 & _), Hy as (_ & H2).
  assert (count (upto y) l <= count (below x) l)%nat; [|lia].
  clear H1 H2. induction l as [|z l IH]; [reflexivity|]. rewrite !count_cons.
  destruct (upto y z) eqn:U; [|lia]. unfold upto in U. apply Qle_bool_iff in U.
  assert (B : below x z = true).
  { unfold below. apply negb_true_iff. destruct (Qle_bool x z) eqn:E; [|reflexivity]. apply Qle_bool_iff in E. lra. }
  rewrite B. lia.
Qed.

Lemma nth_map_seq (f : nat -> Z) n i : (i < n)%nat -> nth i (map f (seq 0 n)) 0%Z = f i.
Proof.
  intros H. rewrite (nth_indep _ 0%Z (f 0%nat)) by (rewrite map_length, seq_length; exact H).
  rewrite map_nth, seq_nth by exact H. reflexivity.
Qed.

From Coq Require Import ZArith List Lia Bool.
From Verif Require Import Lib.Base Lib.Lists Lib.Img Census.Model Census.Spec Census.Proofs.
Import ListNotations.
Local Open Scope Z_scope.

Lemma pattern_near k : (forall d, In d (binary_pattern k) -> Z.abs (fst d) <= radius k /\ Z.abs (snd d) <= radius k) /\
  (forall d, In d (ternary_pattern k) -> Z.abs (fst d) <= radius k /\ Z.abs (snd d) <= radius k).
Proof.
  assert (G : forall h l, forallb (fun d => (Z.abs (fst d) <=? h) && (Z.abs (snd d) <=? h)) l = true ->
    forall d, In d l -> Z.abs (fst d) <= h /\ Z.abs (snd d) <= h).
  { intros h l F d I. rewrite forallb_forall in F. specialize (F d I). apply andb_prop in F. rewrite !Z.leb_le in F. exact F. }
  destruct k; split; apply G; vm_compute; reflexivity.
Qed.
Lemma pattern_length k : Z.of_nat (length (binary_pattern k)) <= binary_width k /\ 2 * Z.of_nat (length (ternary_pattern k)) <= ternary_width k.
Proof. destruct k; vm_compute; split; discriminate. Qed.
Lemma room_inside im h col row d : room im h col row -> Z.abs (fst d) <= h -> Z.abs (snd d) <= h -> inside im (col + fst d) (row + snd d).
Proof. unfold room, inside. lia. Qed.
Lemma room_centre im h col row : 0 <= h -> room im h col row -> inside im col row.
Proof. unfold room, inside. lia. Qed.

Lemma binary_value k im col row : room im (radius k) col row ->
  binary_census k im col row = Ok (bval (map (brighter im col row) (binary_pattern k))).
Proof.
  intros R. assert (C : inside im col row) by (apply (room_centre im (radius k)); [ destruct k; cbn; lia | exact R ]).
  assert (I : forall d, In d (binary_pattern k) -> inside im (col + fst d) (row + snd d)).
  { intros d D. destruct (proj1 (pattern_near k) d D). apply (room_inside im (radius k)); assumption. }
  destruct (pattern_length k) as (W & _).
  assert (B : forall w, 0 < w -> Z.of_nat (length (binary_pattern k)) <= w ->
    exists a', mfold (at_off col row (bin_step w im (pix im col row))) (binary_pattern k) (0, 1) = Ok (bval (map (brighter im col row) (binary_pattern k)), a')).
  { intros w W0 W1. destruct (bin_code im col row w (pix im col row) W0 (binary_pattern k) 0 0 1 ltac:(lia) ltac:(lia) ltac:(lia) ltac:(reflexivity) I) as (a' & E).
    exists a'. rewrite E. f_equal. f_equal. unfold brighter. lia. }
  destruct k; cbn [binary_census binary_pattern binary_width] in *.
  - unfold census_3x3. unfold room in R. cbn [radius] in R.
    rewrite !get_in by (unfold inside in *; lia). cbn [bind]. f_equal.
    change (rev full3) with [(1, 1); (0, 1); (-1, 1); (1, 0); (-1, 0); (1, -1); (0, -1); (-1, -1)].
    cbn [map bval]. unfold brighter. cbn [fst snd]. rewrite !Z.add_0_r. change (col + -1) with (col - 1). change (row + -1) with (row - 1).
    repeat match goal with |- context [pix im col row <? ?v] => destruct (pix im col row <? v) end; reflexivity.
  - unfold census_5x5. rewrite get_in by exact C. cbn [bind]. rewrite (window_pattern 2 col row _ _ (rev full5)) by (try lia; vm_compute; reflexivity).
    destruct (B 32 ltac:(lia) W) as (a' & E). rewrite E. reflexivity.
  - unfold census_7x7. rewrite get_in by exact C. cbn [bind]. rewrite (window_pattern 3 col row _ _ (rev full7)) by (try lia; vm_compute; reflexivity).
    destruct (B 64 ltac:(lia) W) as (a' & E). rewrite E. reflexivity.
  - unfold census_9x9. rewrite get_in by exact C. cbn [bind]. rewrite (table_pattern cols9 rows9 4 col row _ _ star9) by (vm_compute; reflexivity).
    destruct (B 32 ltac:(lia) W) as (a' & E). rewrite E. reflexivity.
Qed.

Definition class_bits (t : Z) im col row (d : Z * Z) : list bool := [1 <=? class t im col row d; 2 <=? class t im col row d].
Lemma two_class t im col row d : 0 <= t ->
  two (pix im col row - t) (pix im col row + t) (pix im (col + fst d) (row + snd d)) = class_bits t im col row d.
Proof.
  intros T. unfold two, class_bits, class. set (v := pix im (col + fst d) (row + snd d)). set (c := pix im col row).
  destruct (v <? c - t) eqn:A; [ apply Z.ltb_lt in A | apply Z.ltb_ge in A ].
  - replace (c - t <=? v) with false by (symmetry; apply Z.leb_gt; lia). reflexivity.
  - replace (c - t <=? v) with true by (symmetry; apply Z.leb_le; lia). destruct (v <=? c + t) eqn:B; [ apply Z.leb_le in B | apply Z.leb_gt in B ].
    + replace (c + t <? v) with false by (symmetry; apply Z.ltb_ge; lia). reflexivity.
    + replace (c + t <? v) with true by (symmetry; apply Z.ltb_lt; lia). reflexivity.
Qed.
Lemma ternary_value k im col row t : room im (radius k) col row -> 0 <= t ->
  ternary_census k im col row t = Ok (bval (flat_map (class_bits t im col row) (ternary_pattern k))).
Proof.
  intros R T. assert (C : inside im col row) by (apply (room_centre im (radius k)); [ destruct k; cbn; lia | exact R ]).
  assert (I : forall d, In d (ternary_pattern k) -> inside im (col + fst d) (row + snd d)).
  { intros d D. destruct (proj2 (pattern_near k) d D). apply (room_inside im (radius k)); assumption. }
  destruct (pattern_length k) as (_ & W).
  assert (B : forall w, 0 < w -> 2 * Z.of_nat (length (ternary_pattern k)) <= w ->
    exists a', mfold (at_off col row (ter_step w im (pix im col row - t) (pix im col row + t))) (ternary_pattern k) (0, 1) = Ok (bval (flat_map (class_bits t im col row) (ternary_pattern k)), a')).
  { intros w W0 W1. destruct (ter_code im col row w (pix im col row - t) (pix im col row + t) W0 (ternary_pattern k) 0 0 1 ltac:(lia) ltac:(lia) ltac:(lia) ltac:(reflexivity) I) as (a' & E).
    exists a'. rewrite E. f_equal. f_equal. rewrite (flat_map_ext _ (class_bits t im col row)) by (intros d; apply two_class, T). lia. }
  destruct k; cbn [ternary_census ternary_pattern ternary_width] in *.
  - unfold census_ternary_3x3. rewrite get_in by exact C. cbn [bind]. rewrite (window_pattern 1 col row _ _ (rev full3)) by (try lia; vm_compute; reflexivity).
    destruct (B 16 ltac:(lia) W) as (a' & E). rewrite E. reflexivity.
  - unfold census_ternary_5x5. rewrite get_in by exact C. cbn [bind]. rewrite (window_pattern 2 col row _ _ (rev full5)) by (try lia; vm_compute; reflexivity).
    destruct (B 64 ltac:(lia) W) as (a' & E). rewrite E. reflexivity.
  - unfold census_ternary_7x7. rewrite get_in by exact C. cbn [bind]. rewrite (table_pattern cols7 rows7 3 col row _ _ star7) by (vm_compute; reflexivity).
    destruct (B 64 ltac:(lia) W) as (a' & E). rewrite E. reflexivity.
  - unfold census_ternary_9x9. rewrite get_in by exact C. cbn [bind]. rewrite (table_pattern cols9 rows9 4 col row _ _ star9) by (vm_compute; reflexivity).
    destruct (B 64 ltac:(lia) W) as (a' & E). rewrite E. reflexivity.
Qed.

(* C29: bit i of a code is set exactly when the i-th neighbour of the picture is
   brighter than the centre *)
Theorem census_binary_bits k im col row : room im (radius k) col row ->
  exists code, binary_census k im col row = Ok code /\ has_bits code (map (brighter im col row) (binary_pattern k)).
Proof. intros R. eexists. split; [ apply binary_value, R | apply bval_has ]. Qed.

(* C29: bits 2i and 2i+1 are 00, 01 or 11 as the i-th neighbour is darker, similar or brighter *)
Theorem census_ternary_bits k im col row t : room im (radius k) col row -> 0 <= t ->
  exists code, ternary_census k im col row t = Ok code /\
    has_bits code (flat_map (fun d => [1 <=? class t im col row d; 2 <=? class t im col row d]) (ternary_pattern k)).
Proof. intros R T. eexists. split; [ apply ternary_value; assumption | apply bval_has ]. Qed.

(* C29: the distance of two numbers is the number of binary digits in which they differ *)
Theorem hamming_counts w a b : In w [8; 16; 32; 64] -> 0 <= a < 2 ^ w -> 0 <= b < 2 ^ w ->
  hamming w a b = Ok (Z.of_nat (count (fun i => xorb (Z.testbit a i) (Z.testbit b i)) (zrange 0 w))).
Proof.
  intros W A B. assert (W8 : 8 <= w) by (cbn in W; lia). rewrite hamming_ones by assumption. f_equal.
  destruct (ones_count (Z.to_nat w) (Z.lxor a b) 0) as [E | E]; [ | lia ]. rewrite Z.shiftr_0_r in E. rewrite E.
  unfold zrange. rewrite Z.sub_0_r. f_equal. apply count_ext. intros i _. apply Z.lxor_spec.
Qed.

Lemma differ_count {A} (f g : A -> bool) l : differ (map f l) (map g l) = Z.of_nat (count (fun d => xorb (f d) (g d)) l).
Proof. induction l as [|a l IH]; [ reflexivity | ]. cbn [map differ]. rewrite IH. unfold count. cbn [filter]. destruct (xorb (f a) (g a)); cbn [Z.b2z length]; lia. Qed.
Lemma width_in k : In (binary_width k) [8; 16; 32; 64] /\ In (ternary_width k) [8; 16; 32; 64].
Proof. destruct k; cbn; tauto. Qed.

(* C29: the distance of two binary codes counts the neighbours that compare differently *)
Theorem census_binary_distance k im col row im' col' row' : room im (radius k) col row -> room im' (radius k) col' row' ->
  exists a b, binary_census k im col row = Ok a /\ binary_census k im' col' row' = Ok b /\
    hamming (binary_width k) a b = Ok (Z.of_nat (count (fun d => xorb (brighter im col row d) (brighter im' col' row' d)) (binary_pattern k))).
Proof.
  intros R R'. eexists. eexists. split; [ apply binary_value, R | ]. split; [ apply binary_value, R' | ].
  destruct (pattern_length k) as (W & _). destruct (width_in k) as (Wi & _). assert (W8 : 8 <= binary_width k) by (cbn in Wi; lia).
  assert (Rg : forall im col row, 0 <= bval (map (brighter im col row) (binary_pattern k)) < 2 ^ binary_width k).
  { intros i c r. pose proof (bval_range (map (brighter i c r) (binary_pattern k))) as B. rewrite map_length in B.
    assert (2 ^ Z.of_nat (length (binary_pattern k)) <= 2 ^ binary_width k) by (apply Z.pow_le_mono_r; lia). lia. }
  rewrite hamming_ones by auto. f_equal. rewrite ones_lxor by (rewrite !map_length; lia). apply differ_count.
Qed.

(* C29: the distance of two ternary codes adds up the class differences *)
Theorem census_ternary_distance k im col row im' col' row' t : room im (radius k) col row -> room im' (radius k) col' row' -> 0 <= t ->
  exists a b, ternary_census k im col row t = Ok a /\ ternary_census k im' col' row' t = Ok b /\
    hamming (ternary_width k) a b = Ok (zsum (map (fun d => Z.abs (class t im col row d - class t im' col' row' d)) (ternary_pattern k))).
Proof.
  intros R R' T. eexists. eexists. split; [ apply ternary_value; assumption | ]. split; [ apply ternary_value; assumption | ].
  destruct (pattern_length k) as (_ & W). destruct (width_in k) as (_ & Wi). assert (W8 : 8 <= ternary_width k) by (cbn in Wi; lia).
  assert (Len : forall im col row l, Z.of_nat (length (flat_map (class_bits t im col row) l)) = 2 * Z.of_nat (length l)).
  { intros i c r l. induction l as [|d l IH]; [ reflexivity | ]. cbn [flat_map class_bits app length]. lia. }
  assert (Rg : forall im col row, 0 <= bval (flat_map (class_bits t im col row) (ternary_pattern k)) < 2 ^ ternary_width k).
  { intros i c r. pose proof (bval_range (flat_map (class_bits t i c r) (ternary_pattern k))) as B. rewrite Len in B.
    assert (2 ^ (2 * Z.of_nat (length (ternary_pattern k))) <= 2 ^ ternary_width k) by (apply Z.pow_le_mono_r; lia). lia. }
  rewrite hamming_ones by auto. f_equal. rewrite ones_lxor; [ | apply Nat2Z.inj; rewrite !Len; reflexivity | apply Nat2Z.inj_le; rewrite Len; lia ].
  induction (ternary_pattern k) as [|d l IH]; [ reflexivity | ]. cbn [flat_map class_bits app differ map]. change (zsum (?x :: ?y)) with (x + zsum y). unfold zsum. cbn [fold_right]. fold (zsum (map (fun d => Z.abs (class t im col row d - class t im' col' row' d)) l)). rewrite <- IH.
  - clear. assert (Cl : forall im col row, class t im col row d = 0 \/ class t im col row d = 1 \/ class t im col row d = 2).
    { intros i c r. unfold class. destruct (_ <? _); [ auto | ]. destruct (_ <=? _); auto. }
    generalize (differ (flat_map (class_bits t im col row) l) (flat_map (class_bits t im' col' row') l)). intros z.
    destruct (Cl im col row) as [-> | [-> | ->]], (Cl im' col' row') as [-> | [-> | ->]]; cbn [Z.leb Z.compare Pos.compare Pos.compare_cont xorb Z.b2z Z.sub Z.opp Z.abs]; lia.
  - cbn [length] in W. lia.
  - intros i c r. pose proof (bval_range (flat_map (class_bits t i c r) l)) as B. rewrite Len in B. cbn [length] in W.
    assert (2 ^ (2 * Z.of_nat (length l)) <= 2 ^ ternary_width k) by (apply Z.pow_le_mono_r; lia). lia.
Qed.

(* C29: a binary code determines all its comparisons *)
Theorem census_binary_faithful k im col row im' col' row' : room im (radius k) col row -> room im' (radius k) col' row' ->
  (binary_census k im col row = binary_census k im' col' row' <->
   forall d, In d (binary_pattern k) -> brighter im col row d = brighter im' col' row' d).
Proof.
  intros R R'. rewrite !binary_value by assumption. split.
  - intros E d D. injection E as E. apply In_nth_error in D. destruct D as (i & D).
    assert (X : forall im col row, nth i (map (brighter im col row) (binary_pattern k)) false = brighter im col row d).
    { intros j c r. apply nth_error_nth. rewrite nth_error_map, D. reflexivity. }
    rewrite <- !X, <- !bval_bits, E. reflexivity.
  - intros H. f_equal. f_equal. apply map_ext_in, H.
Qed.

Definition recolour (f : Z -> Z) (im : img Z) : img Z := Img (icols im) (irows im) (fun x y => f (pix im x y)).

(* C29: binary codes do not change under a strictly increasing change of brightness *)
Theorem census_binary_monotone k f im col row : (forall a b, a < b -> f a < f b) -> room im (radius k) col row ->
  binary_census k (recolour f im) col row = binary_census k im col row.
Proof.
  intros F R. apply census_binary_faithful; [ exact R | exact R | ]. intros d _. unfold brighter, recolour. cbn [pix].
  set (a := pix im col row). set (b := pix im (col + fst d) (row + snd d)). destruct (a <? b) eqn:Q; [ apply Z.ltb_lt in Q | apply Z.ltb_ge in Q ].
  - apply Z.ltb_lt, F, Q.
  - apply Z.ltb_ge. destruct (Z.eq_dec a b) as [-> | X]; [ lia | ]. apply Z.lt_le_incl, F. lia.
Qed.
(* C29: ternary codes do not change under a uniform brightness offset *)
Theorem census_ternary_offset k im col row t o : 0 <= t -> room im (radius k) col row ->
  ternary_census k (recolour (fun v => v + o) im) col row t = ternary_census k im col row t.
Proof.
  intros T R. rewrite !ternary_value by assumption. f_equal. f_equal. apply flat_map_ext. intros d. unfold class_bits.
  assert (E : class t (recolour (fun v => v + o) im) col row d = class t im col row d); [ | rewrite E; reflexivity ].
  unfold class, recolour. cbn [pix]. set (a := pix im col row). set (b := pix im (col + fst d) (row + snd d)).
  replace (b + o <? a + o - t) with (b <? a - t) by (destruct (b <? a - t) eqn:Q; symmetry; [ apply Z.ltb_lt in Q; apply Z.ltb_lt; lia | apply Z.ltb_ge in Q; apply Z.ltb_ge; lia ]).
  replace (b + o <=? a + o + t) with (b <=? a + t) by (destruct (b <=? a + t) eqn:Q; symmetry; [ apply Z.leb_le in Q; apply Z.leb_le; lia | apply Z.leb_gt in Q; apply Z.leb_gt; lia ]).
  reflexivity.
Qed.

(* ---- concrete codes ---- *)
Definition ex_im : img Z := of_rows 0 [[9; 2; 3]; [4; 5; 6]; [7; 5; 1]].
Definition ex_im' : img Z := of_rows 0 [[9; 2; 8]; [4; 5; 1]; [7; 6; 1]].
Example ex_room : room ex_im (radius S3) 1 1 /\ room ex_im' (radius S3) 1 1.
Proof. unfold room, ex_im, ex_im', of_rows. cbn. lia. Qed.
Example ex_codes : census_3x3 ex_im 1 1 = Ok 140 /\ census_3x3 ex_im' 1 1 = Ok 166 /\ hamming 8 140 166 = Ok 3 /\
  census_ternary_3x3 ex_im 1 1 2 = Ok 50516.
Proof. vm_compute. auto. Qed.
Example ex_big : room (Img 20 20 (fun x y => (x * 7 + y * 11) mod 13)) (radius S9) 10 10 /\ room (Img 20 20 (fun x y => (x * 7 + y * 11) mod 13)) (radius S7) 10 10.
Proof. unfold room. cbn. lia. Qed.

Print Assumptions census_binary_bits.
Print Assumptions census_ternary_bits.
Print Assumptions hamming_counts.
Print Assumptions census_binary_distance.
Print Assumptions census_ternary_distance.
Print Assumptions census_binary_faithful.
Print Assumptions census_binary_monotone.
Print Assumptions census_ternary_offset.

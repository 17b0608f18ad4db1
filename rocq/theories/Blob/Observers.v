From Coq Require Import ZArith List Lia Bool Sorted FinFun.
From Verif Require Import Lib.Base Lib.Lists Lib.SMap Blob.Model Blob.Spec Blob.Proofs.
Import ListNotations.
Local Open Scope Z_scope.

(* ---- decompress and size ---- *)
Definition row_pixels (X y : Z) (r : row) : list (Z * Z) :=
  flat_map (fun s : seg => map (fun c => (c + X, y)) (zrange (fst s) (snd s))) r.
Fixpoint rows_pixels (X y : Z) (l : list row) : list (Z * Z) :=
  match l with [] => [] | r :: t => row_pixels X y r ++ rows_pixels X (y + 1) t end.

Lemma decompress_rows b : decompress b = rows_pixels (bx b) (by_ b) (rows b).
Proof.
  unfold decompress. destruct b as [X Y l]. cbn [bx by_ rows].
  assert (G : forall n, flat_map (fun ir : nat * row => let '(i, r) := ir in
    flat_map (fun s => map (fun c => (c + X, Z.of_nat i + Y)) (zrange (fst s) (snd s))) r)
    (combine (seq n (length l)) l) = rows_pixels X (Z.of_nat n + Y) l).
  { induction l as [|r t IH]; intros n; [ reflexivity | ]. cbn [length seq combine flat_map rows_pixels]. rewrite IH.
    replace (Z.of_nat (S n) + Y) with (Z.of_nat n + Y + 1) by lia. reflexivity. }
  exact (G 0%nat).
Qed.

Lemma in_row_pixels X y r x' y' : In (x', y') (row_pixels X y r) <-> y' = y /\ covers r (x' - X).
Proof.
  unfold row_pixels. rewrite in_flat_map. split.
  - intros (s & S & M). apply in_map_iff in M. destruct M as (c & E & C). apply in_zrange in C. injection E as E1 E2. subst x' y'.
    split; [ reflexivity | ]. exists (fst s), (snd s). split; [ destruct s; exact S | lia ].
  - intros (E & a & e & I & L). subst y'. exists (a, e). split; [ exact I | ]. apply in_map_iff. exists (x' - X). split; [ f_equal; lia | ].
    apply in_zrange. exact L.
Qed.
Lemma in_rows_pixels X l : forall y x' y', In (x', y') (rows_pixels X y l) <-> has (Blob X y l) x' y'.
Proof.
  induction l as [|r t IH]; intros y x' y'; cbn [rows_pixels].
  - split; [ intros [] | ]. intros (k & r & E & _). destruct k; discriminate.
  - rewrite in_app_iff, in_row_pixels, IH, !has_zrow. cbn [rows bx by_]. rewrite zrow_cons.
    destruct (y' - y =? 0) eqn:Q; [ apply Z.eqb_eq in Q | apply Z.eqb_neq in Q ].
    + rewrite zrow_out by lia. split; [ intros [(_ & H) | H]; [ exact H | destruct (covers_nil _ H) ] | intros H; left; split; [ lia | exact H ] ].
    + replace (y' - y - 1) with (y' - (y + 1)) by lia. split; [ intros [(E & _) | H]; [ lia | exact H ] | auto ].
Qed.
Lemma NoDup_app2 {A} (l m : list A) : NoDup l -> NoDup m -> (forall a, In a l -> In a m -> False) -> NoDup (l ++ m).
Proof.
  induction l as [|a l IH]; intros L M D; [ exact M | ]. inversion L; subst. cbn. constructor.
  - intros H. apply in_app_or in H. destruct H as [H | H]; [ contradiction | exact (D a (or_introl eq_refl) H) ].
  - apply IH; auto. intros b B C. exact (D b (or_intror B) C).
Qed.
Lemma row_pixels_nodup X y r : row_ok r -> NoDup (row_pixels X y r).
Proof.
  induction r as [|s t IH]; intros O; [ constructor | ]. pose proof O as O0. apply row_ok_cons in O. destruct O as (A & B & C).
  cbn [row_pixels flat_map]. fold (row_pixels X y t). apply NoDup_app2.
  - apply Injective_map_NoDup; [ intros c c' E; injection E; lia | apply zrange_nodup ].
  - apply IH, C.
  - intros (x', y') M T. apply in_map_iff in M. destruct M as (c & E & M). injection E as E1 E2. apply in_zrange in M.
    apply in_row_pixels in T. destruct T as (_ & a & e & I & L). specialize (B _ I). cbn in B. lia.
Qed.
Lemma rows_pixels_nodup X l : rows_ok l -> forall y, NoDup (rows_pixels X y l).
Proof.
  induction l as [|r t IH]; intros O y; [ constructor | ]. cbn [rows_pixels]. apply NoDup_app2.
  - apply row_pixels_nodup, O. left; reflexivity.
  - apply IH. intros r' H. apply O. right; exact H.
  - intros (x', y') A B. apply in_row_pixels in A. apply in_rows_pixels in B. apply has_rows in B. cbn [by_] in B. lia.
Qed.
Lemma row_size r : row_ok r -> forall acc, fold_left (fun a s => a + (snd s - fst s)) r acc = acc + Z.of_nat (length (row_pixels 0 0 r)).
Proof.
  induction r as [|s t IH]; intros O acc; [ cbn; lia | ]. apply row_ok_cons in O. destruct O as (A & B & C).
  cbn [fold_left row_pixels flat_map]. fold (row_pixels 0 0 t). rewrite IH by exact C. rewrite app_length, map_length, zrange_length. lia.
Qed.
Lemma row_pixels_length X y r : length (row_pixels X y r) = length (row_pixels 0 0 r).
Proof.
  induction r as [|s t IH]; [ reflexivity | ]. cbn [row_pixels flat_map]. fold (row_pixels X y t) (row_pixels 0 0 t).
  rewrite !app_length, !map_length, IH. reflexivity.
Qed.
Lemma size_length b : blob_ok b -> size b = Z.of_nat (length (decompress b)).
Proof.
  intros O. destruct (blob_ok_rows b O) as (R & _). rewrite decompress_rows. unfold size. destruct b as [X Y l]. cbn [bx by_ rows] in *. clear O.
  assert (G : forall y acc, fold_left (fun a r => fold_left (fun a s => a + (snd s - fst s)) r a) l acc = acc + Z.of_nat (length (rows_pixels X y l))).
  { induction l as [|r t IH]; intros y acc; [ cbn; lia | ]. cbn [fold_left rows_pixels].
    rewrite IH with (y := y + 1) by (intros r' H; apply R; right; exact H). rewrite row_size by (apply R; left; reflexivity).
    rewrite app_length, (row_pixels_length X y). lia. }
  rewrite (G Y 0). lia.
Qed.

(* ---- bounding box ---- *)
Lemma row_max r : forall acc, let m := fold_left (fun a s => if a <? snd s then snd s else a) r acc in
  acc <= m /\ (forall s : seg, In s r -> snd s <= m) /\ (m = acc \/ exists s, In s r /\ m = snd s).
Proof.
  induction r as [|s t IH]; intros acc; cbn [fold_left].
  - split; [ lia | ]. split; [ intros ? [] | left; reflexivity ].
  - destruct (IH (if acc <? snd s then snd s else acc)) as (A & B & C). cbv zeta in *. destruct (acc <? snd s) eqn:Q; [ apply Z.ltb_lt in Q | apply Z.ltb_ge in Q ].
    + split; [ lia | ]. split; [ intros s' [S | S]; [ subst s'; exact A | apply B, S ] | ].
      right. destruct C as [C | (s' & S & C)]; [ exists s; split; [ left; reflexivity | exact C ] | exists s'; split; [ right; exact S | exact C ] ].
    + split; [ lia | ]. split; [ intros s' [S | S]; [ subst s'; lia | apply B, S ] | ].
      destruct C as [C | (s' & S & C)]; [ left; exact C | right; exists s'; split; [ right; exact S | exact C ] ].
Qed.
Lemma rows_max l : forall acc, let m := fold_left (fun acc r => fold_left (fun a s => if a <? snd s then snd s else a) r acc) l acc in
  acc <= m /\ (forall (r : row) s, In r l -> In s r -> snd s <= m) /\ (m = acc \/ exists r s, In r l /\ In s r /\ m = snd s).
Proof.
  induction l as [|r t IH]; intros acc; cbn [fold_left].
  - split; [ lia | ]. split; [ intros ? ? [] | left; reflexivity ].
  - destruct (row_max r acc) as (A1 & B1 & C1). cbv zeta in *.
    destruct (IH (fold_left (fun a s => if a <? snd s then snd s else a) r acc)) as (A & B & C).
    set (m1 := fold_left (fun a s => if a <? snd s then snd s else a) r acc) in *.
    split; [ lia | ]. split.
    + intros r' s [H | H] S; [ subst r'; specialize (B1 _ S); lia | apply (B _ _ H S) ].
    + destruct C as [C | (r' & s & R & S & C)]; [ | right; exists r', s; split; [ right; exact R | auto ] ].
      destruct C1 as [C1 | (s & S & C1)]; [ left; rewrite C; exact C1 | right; exists r, s; split; [ left; reflexivity | split; [ exact S | rewrite C; exact C1 ] ] ].
Qed.

Lemma has_of_seg b r s : In r (rows b) -> In s r -> row_ok r -> exists y, has b (bx b + fst s) y /\ has b (bx b + snd s - 1) y.
Proof.
  intros R S O. apply In_nth_error in R. destruct R as (k & R). destruct (in_seg_covers _ _ O S) as (A & B).
  exists (by_ b + Z.of_nat k). split; exists k, r; (split; [ exact R | ]; split; [ reflexivity | ]).
  - replace (bx b + fst s - bx b) with (fst s) by lia. exact A.
  - replace (bx b + snd s - 1 - bx b) with (snd s - 1) by lia. exact B.
Qed.
Lemma has_in_row b j : rows_ok (rows b) -> 0 <= j < zlen (rows b) -> exists x, has b x (by_ b + j).
Proof.
  intros R J. destruct (proj1 (rows_ok_zrow _) R j J) as (N & O). destruct (zrow (rows b) j) as [|s t] eqn:E; [ congruence | ].
  exists (bx b + fst s). apply has_zrow. replace (by_ b + j - by_ b) with j by lia. rewrite E. replace (bx b + fst s - bx b) with (fst s) by lia.
  apply in_seg_covers; [ exact O | left; reflexivity ].
Qed.

Lemma bbox_tight b : blob_ok b -> let '(x0, y0, x1, y1) := bounding_box b in
  (forall x y, has b x y -> x0 <= x < x1 /\ y0 <= y < y1) /\
  (exists y, has b x0 y) /\ (exists y, has b (x1 - 1) y) /\ (exists x, has b x y0) /\ (exists x, has b x (y1 - 1)).
Proof.
  intros O. destruct (blob_ok_rows b O) as (R & N). destruct O as (O1 & r0 & s0 & R0 & S0 & Z0). unfold bounding_box.
  destruct (rows_max (rows b) 0) as (A & B & C). cbv zeta in *.
  set (m := fold_left _ (rows b) 0) in *.
  pose proof (zlen_ne _ N) as Ln.
  split; [ | split; [ | split; [ | split ] ] ].
  - intros x y H. split; [ | apply (has_rows _ _ _ H) ]. destruct H as (k & r & E & _ & s & e & I & L).
    apply nth_error_In in E. destruct (O1 _ E) as (_ & _ & P). specialize (P _ I). specialize (B _ _ E I). cbn in *. lia.
  - destruct (has_of_seg b r0 s0 R0 S0 (proj2 (R _ R0))) as (y & H & _). exists y. rewrite Z0, Z.add_0_r in H. exact H.
  - destruct C as [C | (r & s & Ri & S & C)].
    + exfalso. destruct (R _ R0) as (_ & (_ & F)). rewrite Forall_forall in F. specialize (F _ S0). specialize (B _ _ R0 S0). lia.
    + destruct (has_of_seg b r s Ri S (proj2 (R _ Ri))) as (y & _ & H). exists y. rewrite C. exact H.
  - destruct (has_in_row b 0 R ltac:(lia)) as (x & H). exists x. rewrite Z.add_0_r in H. exact H.
  - destruct (has_in_row b (zlen (rows b) - 1) R ltac:(lia)) as (x & H). exists x.
    replace (by_ b + nrows b - 1) with (by_ b + (zlen (rows b) - 1)) by (rewrite nrows_zlen; lia). exact H.
Qed.

(* ---- intersects ---- *)
Lemma in_combine_seq {A} (l : list A) i a : In (i, a) (combine (seq 0 (length l)) l) <-> nth_error l i = Some a.
Proof.
  assert (G : forall n, In (i, a) (combine (seq n (length l)) l) <-> (n <= i)%nat /\ nth_error l (i - n) = Some a).
  { induction l as [|b t IH]; intros n; cbn [length seq combine].
    - split; [ intros [] | intros (_ & E); destruct (i - n)%nat; discriminate ].
    - cbn [In]. rewrite IH. split.
      + intros [E | (L & E)].
        * injection E as E1 E2. subst. split; [ lia | ]. rewrite Nat.sub_diag. reflexivity.
        * split; [ lia | ]. replace (i - n)%nat with (S (i - S n)) by lia. exact E.
      + intros (L & E). destruct (i - n)%nat as [|m] eqn:Q.
        * cbn in E. injection E as E. subst b. left. f_equal. lia.
        * right. split; [ lia | ]. replace (i - S n)%nat with m by lia. exact E. }
  rewrite (G 0%nat). rewrite Nat.sub_0_r. split; [ tauto | intros H; split; [ lia | exact H ] ].
Qed.
Lemma covers_last s t x : row_ok (s :: t) -> covers (s :: t) x -> x < snd (last (s :: t) s).
Proof. intros O (a & e & I & L). destruct (row_ok_last t s s _ O I) as (H & _). cbn [fst snd] in H. lia. Qed.

Lemma intersects_spec b x0 y0 x1 y1 : blob_ok b ->
  intersects b (x0, y0, x1, y1) = true <->
  exists y xl xr, y0 <= y < y1 /\ has b xl y /\ has b xr y /\ xl < x1 /\ x0 <= xr.
Proof.
  intros O. destruct (blob_ok_rows b O) as (R & N). unfold intersects. split.
  - destruct ((y1 <=? by_ b) || (by_ b + nrows b <=? y0)); [ discriminate | ]. intros H. apply existsb_exists in H.
    destruct H as ((i, r) & I & H). apply in_combine_seq in I. destruct r as [|s t]; [ discriminate | ].
    destruct ((by_ b + Z.of_nat i <? y0) || (y1 <=? by_ b + Z.of_nat i)) eqn:Q; [ discriminate | ].
    apply orb_false_iff in Q. destruct Q as (Q1 & Q2). apply Z.ltb_ge in Q1. apply Z.leb_gt in Q2.
    apply andb_prop in H. destruct H as (H1 & H2). apply Z.ltb_lt in H1. apply Z.ltb_lt in H2.
    destruct (R _ (nth_error_In _ _ I)) as (_ & Or).
    exists (by_ b + Z.of_nat i), (bx b + fst s), (bx b + snd (last (s :: t) s) - 1).
    split; [ lia | ]. split; [ | split; [ | lia ] ].
    + exists i, (s :: t). split; [ exact I | ]. split; [ reflexivity | ]. replace (bx b + fst s - bx b) with (fst s) by lia.
      apply in_seg_covers; [ exact Or | left; reflexivity ].
    + exists i, (s :: t). split; [ exact I | ]. split; [ reflexivity | ].
      replace (bx b + snd (last (s :: t) s) - 1 - bx b) with (snd (last (s :: t) s) - 1) by lia.
      apply in_seg_covers; [ exact Or | apply last_in ].
  - intros (y & xl & xr & Y & Hl & Hr & L1 & L2). pose proof (has_rows _ _ _ Hl) as Hy.
    destruct ((y1 <=? by_ b) || (by_ b + nrows b <=? y0)) eqn:Q.
    { apply orb_prop in Q. destruct Q as [Q | Q]; apply Z.leb_le in Q; lia. }
    destruct Hl as (i & r & E & Yi & C). destruct Hr as (i' & r' & E' & Yi' & C'). assert (i' = i) by lia. subst i'.
    rewrite E in E'. injection E' as E'. subst r'.
    apply existsb_exists. exists (i, r). split; [ apply in_combine_seq; exact E | ].
    destruct r as [|s t]; [ destruct (covers_nil _ C) | ]. destruct (R _ (nth_error_In _ _ E)) as (_ & Or).
    destruct ((by_ b + Z.of_nat i <? y0) || (y1 <=? by_ b + Z.of_nat i)) eqn:Q1.
    { apply orb_prop in Q1. destruct Q1 as [Q1 | Q1]; [ apply Z.ltb_lt in Q1 | apply Z.leb_le in Q1 ]; lia. }
    pose proof (row_ok_first _ _ _ Or C). pose proof (covers_last _ _ _ Or C').
    apply andb_true_intro. split; apply Z.ltb_lt; lia.
Qed.

(* ---- neighbours across a tile border ---- *)
Definition lastend (b : blob) (i : Z) : Z := snd (last (zrow (rows b) i) (0, 0)).
Definition firststart (b : blob) (i : Z) : Z := fst (hd (0, 0) (zrow (rows b) i)).
Lemma nth_error_zrow l j : 0 <= j < zlen l -> nth_error l (Z.to_nat j) = Some (zrow l j).
Proof. intros J. rewrite zrow_in by exact J. apply nth_error_nth'. unfold zlen in J. lia. Qed.
Lemma back_end_ok b i : rows_ok (rows b) -> 0 <= i < nrows b -> back_end b i = Ok (lastend b i).
Proof.
  intros R I. unfold back_end, lastend. rewrite nth_error_zrow by exact I. destruct (proj1 (rows_ok_zrow _) R i I) as (N & _).
  destruct (zrow (rows b) i) as [|s t]; [ congruence | ]. rewrite (last_default s t s (0, 0)). reflexivity.
Qed.
Lemma front_start_ok b i : rows_ok (rows b) -> 0 <= i < nrows b -> front_start b i = Ok (firststart b i).
Proof.
  intros R I. unfold front_start, firststart. rewrite nth_error_zrow by exact I. destruct (proj1 (rows_ok_zrow _) R i I) as (N & _).
  destruct (zrow (rows b) i) as [|s t]; [ congruence | reflexivity ].
Qed.
Lemma lastend_has b i : rows_ok (rows b) -> 0 <= i < nrows b ->
  has b (bx b + lastend b i - 1) (by_ b + i) /\ forall x, has b x (by_ b + i) -> x < bx b + lastend b i.
Proof.
  intros R I. unfold lastend. destruct (proj1 (rows_ok_zrow _) R i I) as (N & O). split.
  - apply has_zrow. replace (by_ b + i - by_ b) with i by lia. destruct (zrow (rows b) i) as [|s t]; [ congruence | ].
    replace (bx b + snd (last (s :: t) (0, 0)) - 1 - bx b) with (snd (last (s :: t) (0, 0)) - 1) by lia.
    apply in_seg_covers; [ exact O | apply last_in ].
  - intros x H. apply has_zrow in H. replace (by_ b + i - by_ b) with i in H by lia. destruct (zrow (rows b) i) as [|s t]; [ congruence | ].
    rewrite (last_default s t (0, 0) s). pose proof (covers_last _ _ _ O H). lia.
Qed.
Lemma firststart_has b i : rows_ok (rows b) -> 0 <= i < nrows b ->
  has b (bx b + firststart b i) (by_ b + i) /\ forall x, has b x (by_ b + i) -> bx b + firststart b i <= x.
Proof.
  intros R I. unfold firststart. destruct (proj1 (rows_ok_zrow _) R i I) as (N & O). split.
  - apply has_zrow. replace (by_ b + i - by_ b) with i by lia. destruct (zrow (rows b) i) as [|s t]; [ congruence | ]. cbn [hd].
    replace (bx b + fst s - bx b) with (fst s) by lia. apply in_seg_covers; [ exact O | left; reflexivity ].
  - intros x H. apply has_zrow in H. replace (by_ b + i - by_ b) with i in H by lia. destruct (zrow (rows b) i) as [|s t]; [ congruence | ].
    cbn [hd]. pose proof (row_ok_first _ _ _ O H). lia.
Qed.

Definition meets (b r : blob) (i k : Z) : Prop := 0 <= k < nrows r /\ lastend b i + bx b = firststart r k + bx r.
Lemma right_test_ok b r i k : rows_ok (rows b) -> rows_ok (rows r) -> 0 <= i < nrows b ->
  exists t, right_test b r i k = Ok t /\ (t = true <-> meets b r i k).
Proof.
  intros Rb Rr I. unfold right_test, meets. destruct ((0 <=? k) && (k <? nrows r)) eqn:Q.
  - apply andb_prop in Q. destruct Q as (Q1 & Q2). apply Z.leb_le in Q1. apply Z.ltb_lt in Q2.
    rewrite back_end_ok, front_start_ok by (assumption || lia). cbn [bind]. eexists. split; [ reflexivity | ]. rewrite Z.eqb_eq. intuition lia.
  - eexists. split; [ reflexivity | ]. split; [ discriminate | ]. intros (K & _). apply andb_false_iff in Q.
    destruct Q as [Q | Q]; [ apply Z.leb_gt in Q | apply Z.ltb_ge in Q ]; lia.
Qed.
Lemma right_loop_ok b r : rows_ok (rows b) -> rows_ok (rows r) -> forall n i ri, 0 <= i -> Z.of_nat n = nrows b - i ->
  exists t, right_loop b r n i ri = Ok t /\
    (t = true <-> exists i' k, i <= i' < nrows b /\ meets b r i' k /\ ri + (i' - i) <= k <= ri + (i' - i) + 2).
Proof.
  intros Rb Rr. induction n as [|n IH]; intros i ri I E; cbn [right_loop].
  - exists false. split; [ reflexivity | ]. split; [ discriminate | ]. intros (i' & k & H & _). lia.
  - destruct (i <? nrows b) eqn:Q1; [ | apply Z.ltb_ge in Q1; lia ]. cbn [andb].
    destruct (ri <? nrows r) eqn:Q2; [ apply Z.ltb_lt in Q2 | apply Z.ltb_ge in Q2 ].
    + destruct (right_test_ok b r i ri Rb Rr ltac:(lia)) as (t0 & E0 & T0). rewrite E0. cbn [bind]. destruct t0.
      { exists true. split; [ reflexivity | ]. split; [ intros _ | reflexivity ]. exists i, ri. split; [ lia | ]. split; [ apply T0; reflexivity | lia ]. }
      destruct (right_test_ok b r i (ri + 1) Rb Rr ltac:(lia)) as (t1 & E1 & T1). rewrite E1. cbn [bind]. destruct t1.
      { exists true. split; [ reflexivity | ]. split; [ intros _ | reflexivity ]. exists i, (ri + 1). split; [ lia | ]. split; [ apply T1; reflexivity | lia ]. }
      destruct (right_test_ok b r i (ri + 2) Rb Rr ltac:(lia)) as (t2 & E2 & T2). rewrite E2. cbn [bind]. destruct t2.
      { exists true. split; [ reflexivity | ]. split; [ intros _ | reflexivity ]. exists i, (ri + 2). split; [ lia | ]. split; [ apply T2; reflexivity | lia ]. }
      destruct (IH (i + 1) (ri + 1) ltac:(lia) ltac:(lia)) as (t & Et & T). exists t. split; [ exact Et | ]. rewrite T. split.
      * intros (i' & k & H & M & L). exists i', k. split; [ lia | ]. split; [ exact M | lia ].
      * intros (i' & k & H & M & L). destruct (Z.eq_dec i' i) as [X | X].
        -- exfalso. subst i'. assert (K : k = ri \/ k = ri + 1 \/ k = ri + 2) by lia.
           destruct K as [K | [K | K]]; subst k; [ apply T0 in M | apply T1 in M | apply T2 in M ]; discriminate.
        -- exists i', k. split; [ lia | ]. split; [ exact M | lia ].
    + exists false. split; [ reflexivity | ]. split; [ discriminate | ]. intros (i' & k & H & (M & _) & L). lia.
Qed.

Lemma is_on_right_spec b r B : blob_ok b -> blob_ok r ->
  (forall x y, has b x y -> x < B) -> (forall x y, has r x y -> B <= x) ->
  exists t, is_on_right b r = Ok t /\
    (t = true <-> exists x y x' y', has b x y /\ has r x' y' /\ adjacent8 x y x' y').
Proof.
  intros Ob Or Lb Lr. destruct (blob_ok_rows b Ob) as (Rb & _). destruct (blob_ok_rows r Or) as (Rr & _).
  destruct (right_loop_ok b r Rb Rr (length (rows b)) 0 (by_ b - by_ r - 1)) as (t & E & T); [ lia | unfold nrows; lia | ].
  exists t. split; [ exact E | ]. rewrite T. clear T E. unfold meets, adjacent8. split.
  - intros (i & k & I & (K & M) & L). destruct (lastend_has b i Rb I) as (H1 & _). destruct (firststart_has r k Rr K) as (H2 & _).
    exists (bx b + lastend b i - 1), (by_ b + i), (bx r + firststart r k), (by_ r + k).
    split; [ exact H1 | ]. split; [ exact H2 | ]. lia.
  - intros (x & y & x' & y' & Hb & Hr & Ax & Ay). pose proof (has_rows _ _ _ Hb) as Yb. pose proof (has_rows _ _ _ Hr) as Yr.
    pose proof (Lb _ _ Hb). pose proof (Lr _ _ Hr).
    exists (y - by_ b), (y' - by_ r). split; [ lia | ].
    destruct (lastend_has b (y - by_ b) Rb ltac:(lia)) as (H1 & H1'). destruct (firststart_has r (y' - by_ r) Rr ltac:(lia)) as (H2 & H2').
    replace (by_ b + (y - by_ b)) with y in * by lia. replace (by_ r + (y' - by_ r)) with y' in * by lia.
    specialize (H1' _ Hb). specialize (H2' _ Hr). apply Lb in H1. apply Lr in H2. split; [ lia | lia ].
Qed.

Lemma is_on_bottom_spec b t B : blob_ok b -> blob_ok t ->
  (forall x y, has b x y -> y < B) -> (forall x y, has t x y -> B <= y) ->
  exists v, is_on_bottom b t = Ok v /\
    (v = true <-> exists x y x' y', has b x y /\ has t x' y' /\ adjacent8 x y x' y').
Proof.
  intros Ob Ot Lb Lt. destruct (blob_ok_rows b Ob) as (Rb & Nb). destruct (blob_ok_rows t Ot) as (Rt & Nt).
  pose proof (zlen_ne _ Nb) as Zb. pose proof (zlen_ne _ Nt) as Zt.
  destruct (has_in_row b (zlen (rows b) - 1) Rb ltac:(lia)) as (xb & Hb0). destruct (has_in_row t 0 Rt ltac:(lia)) as (xt & Ht0).
  apply Lb in Hb0. apply Lt in Ht0.
  unfold is_on_bottom. destruct (negb (by_ t =? by_ b + nrows b)) eqn:Q.
  - exists false. split; [ reflexivity | ]. split; [ discriminate | ]. intros (x & y & x' & y' & Hb & Ht & Ax & Ay). exfalso.
    apply negb_true_iff, Z.eqb_neq in Q. rewrite nrows_zlen in Q. pose proof (has_rows _ _ _ Hb) as Y1. pose proof (has_rows _ _ _ Ht) as Y2.
    rewrite nrows_zlen in Y1, Y2. apply Lb in Hb. apply Lt in Ht. lia.
  - apply negb_false_iff, Z.eqb_eq in Q. rewrite nrows_zlen in Q.
    destruct (exists_last Nb) as (l & r & E). replace (rev (rows b)) with (r :: rev l) by (rewrite E, rev_app_distr; reflexivity).
    destruct (rows t) as [|r' l'] eqn:E'; [ congruence | ]. eexists. split; [ reflexivity | ].
    assert (Zl : zlen (rows b) = zlen l + 1) by (rewrite E, zlen_app; unfold zlen; cbn [length]; lia).
    assert (Hr : forall x, has b x (by_ t - 1) <-> covers r (x - bx b)).
    { intros x. rewrite has_zrow, E, zrow_app. replace (by_ t - 1 - by_ b) with (zlen l) by lia. rewrite Z.ltb_irrefl, Z.sub_diag, zrow_cons. reflexivity. }
    assert (Hr' : forall x, has t x (by_ t) <-> covers r' (x - bx t)).
    { intros x. rewrite has_zrow, E', Z.sub_diag, zrow_cons. reflexivity. }
    destruct (Rb r ltac:(rewrite E; apply in_or_app; right; left; reflexivity)) as (_ & (_ & Fr)).
    destruct (Rt r' ltac:(left; reflexivity)) as (_ & (_ & Fr')). rewrite Forall_forall in Fr, Fr'.
    rewrite existsb_exists. split.
    + intros (p & P & H). apply existsb_exists in H. destruct H as (q & Qi & H). apply andb_prop in H. destruct H as (H1 & H2).
      apply Z.leb_le in H1. apply Z.leb_le in H2. specialize (Fr _ P). specialize (Fr' _ Qi).
      (* the pixel of each closest to the other *)
      exists (Z.max (fst p + bx b) (Z.min (snd p + bx b - 1) (fst q + bx t))), (by_ t - 1),
             (Z.max (fst q + bx t) (Z.min (snd q + bx t - 1) (Z.max (fst p + bx b) (Z.min (snd p + bx b - 1) (fst q + bx t))))), (by_ t).
      split; [ apply Hr; exists (fst p), (snd p); split; [ destruct p; exact P | lia ] | ].
      split; [ apply Hr'; exists (fst q), (snd q); split; [ destruct q; exact Qi | lia ] | ].
      unfold adjacent8. lia.
    + intros (x & y & x' & y' & Hb & Ht & Ax & Ay). pose proof (has_rows _ _ _ Hb) as Y1. pose proof (has_rows _ _ _ Ht) as Y2.
      rewrite nrows_zlen in Y1, Y2. assert (y = by_ t - 1) by lia. assert (y' = by_ t) by lia. subst y y'.
      apply Hr in Hb. apply Hr' in Ht. destruct Hb as (s & e & I & L). destruct Ht as (s' & e' & I' & L').
      exists (s, e). split; [ exact I | ]. apply existsb_exists. exists (s', e'). split; [ exact I' | ]. cbn [fst snd].
      apply andb_true_intro. split; apply Z.leb_le; lia.
Qed.

(** Theorems about cutting a cloud of points into chips (Cartography/Chipper.cc). *)
From Coq Require Import ZArith QArith Qcanon List Lia Bool Permutation Sorted.
From Verif Require Import Lib.Base Lib.Img Chip.Model Chip.Spec Chip.Proofs Chip.Split Chip.Rec.
Import ListNotations.
Local Open Scope Z_scope.

(* The points are cut into the least number of chips that can hold them: every point is in
   exactly one of them, their sizes differ by at most one and fit a block, any two are separated
   by a line parallel to an axis, and the points of each are in the order of an axis.  The image
   has one chip in each block, down the columns of blocks, and zeros elsewhere. *)
Theorem chipper_cuts sub conv buffer bs cols rows : let total := Z.of_nat (length buffer) in
  0 < bs -> bs * bs <= i32_max -> cols mod bs = 0 -> rows mod bs = 0 -> 0 <= cols -> 0 <= rows -> cols * rows <= i32_max -> 0 < total <= cols * rows ->
  exists out chips, chipper sub conv buffer bs cols rows = Ok out /\ icols out = cols /\ irows out = rows /\
    Permutation (concat chips) (zrange 0 total) /\
    (let n := Z.of_nat (length chips) in n = (total + bs * bs - 1) / (bs * bs) /\
     Forall (fun c => let k := Z.of_nat (length c) in total / n <= k <= (total + n - 1) / n /\ 0 < k <= bs * bs) chips) /\
    ForallOrdPairs (separated buffer) chips /\ Forall (fun c => along (X buffer) c \/ along (Y buffer) c) chips /\
    forall x y, inside out x y -> pix out x y = chips_in buffer bs conv (rows / bs) 0 chips (fun _ _ => origin) x y.
Proof.
  intros total BS BB MC MR C0 R0 CR T. unfold chipper. fold total.
  assert (OK : i32_okb (bs * bs) = true) by (unfold i32_okb, i32_min in *; apply andb_true_iff; split; apply Z.leb_le; nia). rewrite OK. cbn [negb].
  destruct (Z.eqb_spec total 0) as [?|NT]; [lia|]. unfold crem. destruct (Z.eqb_spec bs 0) as [?|NB]; [lia|]. cbn [bind]. rewrite !Z.rem_mod_nonneg, MC, MR by lia. cbn [Z.eqb andb negb].
  assert (OK2 : i32_okb (cols * rows) = true) by (unfold i32_okb, i32_min in *; apply andb_true_iff; split; apply Z.leb_le; nia). rewrite OK2. cbn [negb].
  destruct (Z.leb_spec total (cols * rows)); [|lia]. cbn [negb].
  destruct (loaded buffer) as (xv & yv & sp & E & Sx & Sy & Ss & L1 & L2 & R1 & R2 & PX). rewrite E. cbn [bind]. fold total in Sx, Sy, Ss, L1, L2, R1, R2, PX. rewrite Sx.
  destruct (partition_ok total (bs * bs) ltac:(lia) ltac:(nia)) as (n & parts & E2 & N & NE & PE). rewrite E2. cbn [bind].
  set (cb := cols / bs). set (nrb := rows / bs).
  assert (CE : cols = cb * bs) by (unfold cb; pose proof (Z.div_mod cols bs ltac:(lia)); lia).
  assert (RE : rows = nrb * bs) by (unfold nrb; pose proof (Z.div_mod rows bs ltac:(lia)); lia).
  assert (CB : 0 <= cb) by (apply Z.div_pos; lia). assert (NRB : 0 < nrb) by nia.
  assert (D : bs * bs * n <= total + bs * bs - 1 < bs * bs * n + bs * bs).
  { pose proof (Z.div_mod (total + bs * bs - 1) (bs * bs) ltac:(nia)). pose proof (Z.mod_pos_bound (total + bs * bs - 1) (bs * bs) ltac:(nia)). rewrite NE. lia. }
  assert (BP : 0 < bs * bs) by nia.
  assert (NS : n <= total) by nia.
  assert (ROOM : n <= cb * nrb).
  { assert (bs * bs * n < bs * bs * (cb * nrb + 1)) by (replace (bs * bs * (cb * nrb + 1)) with (cols * rows + bs * bs) by (rewrite CE, RE; ring); lia). nia. }
  assert (MX : (total + n - 1) / n <= bs * bs).
  { assert ((total + n - 1) / n < bs * bs + 1); [|lia]. apply Z.div_lt_upper_bound; [lia|]. nia. }
  assert (PL : Z.of_nat (length parts) = n + 1) by (rewrite PE, map_length, zrange_length; lia).
  replace (Z.of_nat (length parts) - 1) with n by lia.
  destruct (decide_ok sub conv buffer bs cb nrb n BS CB NRB N NS MX ROOM (length parts) (X buffer) (Y buffer) xv yv sp 0 n (Img cols rows (fun _ _ => origin)))
    as (a & b & c & out & chips & E3 & _ & _ & _ & (D1 & D2 & D3) & (G1 & G2 & G3) & Q); try lia.
  { left. auto. }
  { split; cbn [icols irows]; auto. }
  { rewrite bound_0, bound_n by lia. do 7 (split; [assumption|]). intros i I. apply in_zrange. apply (Permutation_in _ PX). apply (in_map (fun i => pt (el xv i))). now apply in_zrange. }
  rewrite bound_0, bound_n in Q by lia. fold total in E3, G1. rewrite <- PE in E3. rewrite E3. cbn [bind fst].
  exists out, chips. split; [reflexivity|]. split; [now rewrite D1|]. split; [now rewrite D2|]. split; [now rewrite Q|].
  assert (LC : Z.of_nat (length chips) = n) by (apply (f_equal (@length Z)) in G1; rewrite !map_length, zrange_length in G1; lia).
  split; [|split; [exact G2|split; [exact G3|exact D3]]]. cbn zeta. rewrite LC. split; [exact NE|]. rewrite Forall_forall. intros ch I.
  assert (I' : In (Z.of_nat (length ch)) (map (fun c => Z.of_nat (length c)) chips)) by (apply (in_map (fun c => Z.of_nat (length c))); auto). rewrite G1 in I'.
  apply in_map_iff in I' as (i & <- & _). pose proof (bound_step total n i N). assert (1 <= total / n) by (apply Z.div_le_lower_bound; lia). lia.
Qed.
Print Assumptions chipper_cuts.

(* No point is lost and none is stored twice: the pixels of the image are the points of the
   cloud, in some order, and zeros. *)
Lemma flat_map_nth {A} (g : list Z -> list A) chips : flat_map (fun k => g (nth (Z.to_nat k) chips [])) (zrange 0 (Z.of_nat (length chips))) = flat_map g chips.
Proof.
  rewrite !flat_map_concat_map. f_equal. symmetry. pose proof (map_zrange_nth (fun k => g (nth (Z.to_nat k) chips [])) (g []) (map g chips) 0) as H. rewrite map_length, Z.add_0_l in H. apply H.
  intros i I. rewrite map_nth. do 2 f_equal. lia.
Qed.
Lemma flat_map_repeat {A} (d : A) m l : flat_map (fun _ : Z => repeat d m) l = repeat d (length l * m).
Proof. induction l; cbn [flat_map length]; auto. rewrite IHl, <- repeat_app. f_equal. Qed.
Lemma flat_map_app_perm {A B} (f g : A -> list B) l : Permutation (flat_map (fun x => f x ++ g x) l) (flat_map f l ++ flat_map g l).
Proof.
  induction l as [|x l IH]; cbn [flat_map]; auto. rewrite IH, <- !app_assoc. apply Permutation_app_head. rewrite !app_assoc. apply Permutation_app_tail. apply Permutation_app_comm.
Qed.
Lemma map_const {A B} (d : B) (l : list A) : map (fun _ => d) l = repeat d (length l).
Proof. induction l; cbn [map length repeat]; congruence. Qed.
Lemma list_prod_flat {A B} (l : list A) (m : list B) : list_prod l m = flat_map (fun x => map (fun y => (x, y)) m) l.
Proof. induction l; cbn [list_prod flat_map]; congruence. Qed.
Lemma NoDup_list_prod {A B} (l : list A) (m : list B) : NoDup l -> NoDup m -> NoDup (list_prod l m).
Proof.
  intros L M. induction L as [|x l NI _ IH]; cbn [list_prod]; [constructor|].
  assert (G : forall k : list (A * B), NoDup k -> (forall p, In p k -> In (fst p) l) -> NoDup (map (fun y => (x, y)) m ++ k)).
  { clear IH. intros k K F. induction M as [|y m NI' _ IHm]; cbn [map app]; auto. constructor; auto. intros I. apply in_app_or in I as [I|I].
    - apply in_map_iff in I as (y' & E & I). injection E as ->. contradiction.
    - apply F in I. contradiction. }
  apply G; auto. intros [a b] I. apply in_prod_iff in I. apply I.
Qed.

Lemma concat_le B (chips : list (list Z)) : Forall (fun c => Z.of_nat (length c) <= B) chips -> Z.of_nat (length (concat chips)) <= Z.of_nat (length chips) * B.
Proof. induction 1; cbn [concat length]; [lia|]. rewrite app_length. lia. Qed.

Theorem chipper_keeps_points sub conv buffer bs cols rows : let total := Z.of_nat (length buffer) in
  0 < bs -> bs * bs <= i32_max -> cols mod bs = 0 -> rows mod bs = 0 -> 0 <= cols -> 0 <= rows -> cols * rows <= i32_max -> total <= cols * rows ->
  exists out, chipper sub conv buffer bs cols rows = Ok out /\ icols out = cols /\ irows out = rows /\
    Permutation (map (fun '(x, y) => pix out x y) (list_prod (zrange 0 cols) (zrange 0 rows)))
                (map conv buffer ++ repeat origin (Z.to_nat (cols * rows - total))).
Proof.
  intros total BS BB MC MR C0 R0 CR T. destruct (Z.eq_dec total 0) as [Z0|NZ].
  - exists (Img cols rows (fun _ _ => origin)). unfold chipper. fold total. rewrite Z0.
    assert (OK : i32_okb (bs * bs) = true) by (unfold i32_okb, i32_min in *; apply andb_true_iff; split; apply Z.leb_le; nia). rewrite OK. cbn [negb Z.eqb]. split; [reflexivity|]. split; [reflexivity|]. split; [reflexivity|].
    cbn [pix]. assert (buffer = []) by (destruct buffer; [reflexivity|unfold total in Z0; cbn [length] in Z0; lia]). subst buffer. cbn [map app].
    rewrite (map_ext _ (fun _ => origin)) by (intros [? ?]; reflexivity). rewrite map_const, prod_length, !zrange_length. replace (Z.to_nat (cols * rows - 0)) with (Z.to_nat (cols - 0) * Z.to_nat (rows - 0))%nat by nia. reflexivity.
  - destruct (chipper_cuts sub conv buffer bs cols rows) as (out & chips & E & E1 & E2 & PM & [NC SZ] & _ & _ & PX); auto; [fold total; unfold total in *; lia|]. fold total in PM, NC, SZ.
    exists out. split; auto. split; auto. split; auto. set (n := Z.of_nat (length chips)) in *. set (B := bs * bs) in *. assert (BP : 0 < B) by (unfold B; nia).
    set (cb := cols / bs). set (nrb := rows / bs) in *.
    assert (CE : cols = cb * bs) by (unfold cb; pose proof (Z.div_mod cols bs ltac:(lia)); lia).
    assert (RE : rows = nrb * bs) by (unfold nrb; pose proof (Z.div_mod rows bs ltac:(lia)); lia).
    assert (T0 : 0 < total) by (unfold total in *; lia). assert (CB : 0 < cb) by nia. assert (NRB : 0 < nrb) by nia. set (K := cb * nrb).
    assert (KB : K * B = cols * rows) by (unfold K, B; rewrite CE, RE; ring).
    assert (NK : n <= K).
    { assert (n < K + 1); [|lia]. rewrite NC. apply Z.div_lt_upper_bound; auto. nia. }
    set (chip := fun k => nth (Z.to_nat k) chips []).
    set (value := fun k q => if k <? n then if q <? Z.of_nat (length (chip k)) then conv (nth (Z.to_nat (nth (Z.to_nat q) (chip k) 0)) buffer origin) else origin else origin).
    set (place := fun '(k, q) => ((k / nrb) * bs + q / bs, (k mod nrb) * bs + q mod bs)).
    assert (PI : forall k q, 0 <= k < K -> 0 <= q < B -> inside out (fst (place (k, q))) (snd (place (k, q))) /\
       fst (place (k, q)) / bs * nrb + snd (place (k, q)) / bs = k /\ fst (place (k, q)) mod bs * bs + snd (place (k, q)) mod bs = q).
    { intros k q Kk Qq. cbn [place fst snd]. assert (0 <= k / nrb < cb) by (split; [apply Z.div_pos; lia|apply Z.div_lt_upper_bound; unfold K in *; lia]).
      pose proof (Z.mod_pos_bound k nrb NRB). pose proof (Z.div_mod k nrb ltac:(lia)).
      assert (0 <= q / bs < bs) by (split; [apply Z.div_pos; lia|apply Z.div_lt_upper_bound; unfold B in *; lia]). pose proof (Z.mod_pos_bound q bs BS). pose proof (Z.div_mod q bs ltac:(lia)).
      split; [unfold inside; rewrite E1, E2, CE, RE; nia|].
      replace (k / nrb * bs + q / bs) with (q / bs + k / nrb * bs) by lia. replace (k mod nrb * bs + q mod bs) with (q mod bs + k mod nrb * bs) by lia.
      rewrite !Z.div_add, !Z.mod_add, (Z.div_small (q / bs)), (Z.div_small (q mod bs)), (Z.mod_small (q / bs)), (Z.mod_small (q mod bs)) by lia. lia. }
    assert (BIJ : Permutation (list_prod (zrange 0 cols) (zrange 0 rows)) (map place (list_prod (zrange 0 K) (zrange 0 B)))).
    { apply Permutation_sym. apply NoDup_Permutation_bis.
      - assert (INJ : forall l, (forall p, In p l -> 0 <= fst p < K /\ 0 <= snd p < B) -> NoDup l -> NoDup (map place l)).
        { intros l LI ND. induction ND as [|p l NI _ IH]; cbn [map]; constructor; [|apply IH; intros; apply LI; now right].
          intros I. apply in_map_iff in I as (p' & E' & I). apply NI. replace p with p'; auto. destruct p as [k q], p' as [k' q'].
          destruct (LI (k, q) ltac:(now left)) as [A1 A2], (LI (k', q') ltac:(now right)) as [B1 B2]. cbn [fst snd] in *.
          destruct (PI k q A1 A2) as (_ & F1 & F2), (PI k' q' B1 B2) as (_ & F3 & F4). rewrite E' in F3, F4. congruence. }
        apply INJ; [|apply NoDup_list_prod; apply zrange_nodup]. intros [k q] I. apply in_prod_iff in I as [I1 I2]. apply in_zrange in I1, I2. auto.
      - rewrite map_length, !prod_length, !zrange_length. nia.
      - intros p I. apply in_map_iff in I as ([k q] & <- & I). apply in_prod_iff in I as [I1 I2]. apply in_zrange in I1, I2. destruct (PI k q I1 I2) as [[I3 I4] _].
        destruct (place (k, q)) as [x y]. cbn [fst snd] in *. rewrite E1 in I3. rewrite E2 in I4. apply in_prod_iff. rewrite !in_zrange. auto. }
    rewrite BIJ, map_map.
    assert (VAL : map (fun p => let '(x, y) := place p in pix out x y) (list_prod (zrange 0 K) (zrange 0 B)) = map (fun '(k, q) => value k q) (list_prod (zrange 0 K) (zrange 0 B))).
    { apply map_ext_in. intros [k q] I. apply in_prod_iff in I as [I1 I2]. apply in_zrange in I1, I2. destruct (PI k q I1 I2) as (I3 & F1 & F2). destruct (place (k, q)) as [x y]. cbn [fst snd] in *.
      rewrite PX by auto. unfold chips_in. rewrite F1, F2. unfold value, chip. rewrite Z.add_0_l, Z.sub_0_r. fold n. destruct (Z.leb_spec 0 k); [|lia]. cbn [andb]. reflexivity. }
    rewrite VAL, list_prod_flat. rewrite flat_map_concat_map, concat_map, map_map, <- flat_map_concat_map.
    rewrite (flat_map_ext _ (fun k => map (value k) (zrange 0 B))) by (intros k; now rewrite map_map).
    assert (ZR : zrange 0 K = zrange 0 n ++ zrange n K) by (apply zrange_app; lia). rewrite ZR, flat_map_app.
    assert (HI : flat_map (fun k => map (value k) (zrange 0 B)) (zrange n K) = repeat origin (Z.to_nat ((K - n) * B))).
    { rewrite flat_map_concat_map. rewrite (map_ext_in _ (fun _ => repeat origin (Z.to_nat B))).
      - rewrite <- flat_map_concat_map, flat_map_repeat, zrange_length. f_equal. nia.
      - intros k I. apply in_zrange in I. unfold value. destruct (Z.ltb_spec k n); [lia|]. rewrite map_const, zrange_length. f_equal. lia. }
    rewrite HI. set (g := fun c => map (fun i => conv (nth (Z.to_nat i) buffer origin)) c). set (h := fun c : list Z => repeat origin (Z.to_nat (B - Z.of_nat (length c)))).
    assert (LO : flat_map (fun k => map (value k) (zrange 0 B)) (zrange 0 n) = flat_map (fun c => g c ++ h c) chips).
    { rewrite <- flat_map_nth. fold n. rewrite !flat_map_concat_map. f_equal. apply map_ext_in. intros k I. apply in_zrange in I. fold (chip k). unfold value. destruct (Z.ltb_spec k n); [|lia].
      assert (LB : 0 <= Z.of_nat (length (chip k)) <= B).
      { assert (IC : In (chip k) chips) by (apply nth_In; unfold n in *; lia). apply (proj1 (Forall_forall _ _) SZ) in IC. cbn beta zeta in IC. lia. }
      rewrite (zrange_app 0 (Z.of_nat (length (chip k))) B), map_app by lia. f_equal.
      - unfold g. symmetry. pose proof (map_zrange_nth (fun q => if q <? Z.of_nat (length (chip k)) then conv (nth (Z.to_nat (nth (Z.to_nat q) (chip k) 0)) buffer origin) else origin) origin (map (fun i => conv (nth (Z.to_nat i) buffer origin)) (chip k)) 0) as HZ.
        rewrite map_length, Z.add_0_l in HZ. apply HZ. intros i Il. rewrite (nth_indep _ origin (conv (nth (Z.to_nat 0) buffer origin))) by (rewrite map_length; auto). rewrite (map_nth (fun i => conv (nth (Z.to_nat i) buffer origin))).
        rewrite Z.add_0_l. destruct (Z.ltb_spec (Z.of_nat i) (Z.of_nat (length (chip k)))); [|lia]. now rewrite Nat2Z.id.
      - unfold h. rewrite (map_ext_in _ (fun _ => origin)); [now rewrite map_const, zrange_length|]. intros q Iq. apply in_zrange in Iq. destruct (Z.ltb_spec q (Z.of_nat (length (chip k)))); auto. lia. }
    rewrite LO, flat_map_app_perm, <- app_assoc. apply Permutation_app.
    + assert (G : flat_map g chips = map (fun i => conv (nth (Z.to_nat i) buffer origin)) (concat chips)) by (unfold g; now rewrite flat_map_concat_map, concat_map). rewrite G, PM.
      assert (EQ : map conv buffer = map (fun i => conv (nth (Z.to_nat i) buffer origin)) (zrange 0 total)).
      { pose proof (map_zrange_nth (fun i => conv (nth (Z.to_nat i) buffer origin)) (conv origin) (map conv buffer) 0) as H. rewrite map_length, Z.add_0_l in H. apply H. intros i Il. rewrite map_nth. do 2 f_equal. lia. }
      now rewrite EQ.
    + assert (HL : flat_map h chips = repeat origin (Z.to_nat (n * B - total))).
      { assert (LT : Z.of_nat (length (concat chips)) = total) by (rewrite (Permutation_length PM), zrange_length; lia). rewrite <- LT. unfold n. clear - SZ. 
        assert (SB : Forall (fun c : list Z => Z.of_nat (length c) <= B) chips) by (eapply Forall_impl; [|exact SZ]; cbn beta zeta; intros; lia). clear SZ.
        induction SB as [|c chips HB SB IH]; [reflexivity|]. cbn [flat_map concat length]. rewrite IH. unfold h. rewrite <- repeat_app. f_equal. rewrite app_length.
        pose proof (concat_le B chips SB).
        lia. }
      rewrite HL, <- repeat_app. replace (Z.to_nat (n * B - total) + Z.to_nat ((K - n) * B))%nat with (Z.to_nat (cols * rows - total)); auto.
      assert (total <= n * B).
      { assert (LT : Z.of_nat (length (concat chips)) = total) by (rewrite (Permutation_length PM), zrange_length; lia). rewrite <- LT. unfold n. apply concat_le.
        eapply Forall_impl; [|exact SZ]; cbn beta zeta; intros; lia. }
      nia.
Qed.
Print Assumptions chipper_keeps_points.

(* Wrong sizes are rejected, and an empty cloud gives an empty image. *)
Theorem chipper_rejects sub conv buffer bs cols rows : let total := Z.of_nat (length buffer) in
  0 < bs -> bs * bs <= i32_max -> 0 <= cols -> 0 <= rows -> cols * rows <= i32_max -> 0 < total ->
  cols mod bs <> 0 \/ rows mod bs <> 0 \/ cols * rows < total -> chipper sub conv buffer bs cols rows = Throw ArgumentErr.
Proof.
  intros total BS BB C0 R0 CR T H. unfold chipper. fold total.
  assert (OK : i32_okb (bs * bs) = true) by (unfold i32_okb, i32_min in *; apply andb_true_iff; split; apply Z.leb_le; nia). rewrite OK. cbn [negb].
  destruct (Z.eqb_spec total 0) as [?|NT]; [lia|]. unfold crem. destruct (Z.eqb_spec bs 0) as [?|NB]; [lia|]. cbn [bind]. rewrite !Z.rem_mod_nonneg by lia.
  assert (OK2 : i32_okb (cols * rows) = true) by (unfold i32_okb, i32_min in *; apply andb_true_iff; split; apply Z.leb_le; nia). rewrite OK2. cbn [negb].
  destruct (Z.eqb_spec (cols mod bs) 0), (Z.eqb_spec (rows mod bs) 0); cbn [andb negb]; auto. destruct (Z.leb_spec total (cols * rows)); [lia|reflexivity].
Qed.
Print Assumptions chipper_rejects.

(* A block size of zero is not rejected, it is divided by. *)
Theorem chipper_zero_block_refuted sub conv buffer cols rows : buffer <> [] -> chipper sub conv buffer 0 cols rows = UB DivByZero.
Proof. intros H. unfold chipper. destruct buffer; [contradiction|]. cbn [length]. reflexivity. Qed.
Print Assumptions chipper_zero_block_refuted.

(* Seven points in blocks of two by two. *)
Definition zq (z : Z) : Qc := Q2Qc (inject_Z z).
Definition ex_cloud : list point := map (fun '(x, y) => (zq x, zq y, zq 7)) [(0, 0); (5, 1); (2, 9); (9, 2); (3, 3); (8, 4); (1, 6)].
Definition qz (q : Qc) : Z := Qnum (this q).
Example chipper_ex : 0 < Z.of_nat (length ex_cloud) <= 4 * 2 /\ 4 mod 2 = 0 /\ 2 mod 2 = 0 /\
  (out <- chipper Qcminus (fun p => p) ex_cloud 2 4 2 ;; Ok (map (map (fun p => (qz (px p), qz (py p)))) (to_rows out))) =
  Ok [[(0, 0); (9, 2); (8, 4); (2, 9)]; [(5, 1); (3, 3); (1, 6); (0, 0)]].
Proof. split; [cbn; lia|]. split; [reflexivity|]. split; vm_compute; reflexivity. Qed.
(* Nine points in nine chips, cut three levels deep. *)
Example chipper_ex2 :
  (out <- chipper Qcminus (fun p => p) (ex_cloud ++ map (fun '(x, y) => (zq x, zq y, zq 7)) [(30, 2); (30, 1)]) 1 3 3 ;; Ok (map (map (fun p => (qz (px p), qz (py p)))) (to_rows out))) =
  Ok [[(0, 0); (2, 9); (9, 2)]; [(3, 3); (5, 1); (30, 1)]; [(1, 6); (8, 4); (30, 2)]].
Proof. vm_compute. reflexivity. Qed.

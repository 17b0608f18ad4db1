(* Partitions, writing chips, and the recursion. *)
From Coq Require Import ZArith QArith Qcanon List Lia Bool Permutation Sorted.
From Verif Require Import Lib.Base Lib.Img Chip.Model Chip.Spec Chip.Proofs.
Import ListNotations.
Local Open Scope Z_scope.

Definition bound (s n i : Z) : Z := lround (i * s) n.
Lemma partition_ok s m : 0 < s -> 0 < m -> exists n parts, partition s m = Ok parts /\ 0 < n /\ n = (s + m - 1) / m /\
  parts = map (bound s n) (zrange 0 (n + 1)).
Proof.
  intros S M. unfold partition, cdiv, crem. destruct (Z.eqb_spec m 0) as [?|NM]; [lia|]. cbn [bind]. rewrite Z.quot_div_nonneg, Z.rem_mod_nonneg by lia.
  set (n := if negb (s mod m =? 0) then s / m + 1 else s / m).
  assert (N : n = (s + m - 1) / m).
  { unfold n. pose proof (Z.div_mod s m ltac:(lia)) as D. pose proof (Z.mod_pos_bound s m M) as B. destruct (Z.eqb_spec (s mod m) 0); cbn [negb].
    - replace (s + m - 1) with (m - 1 + s / m * m) by lia. rewrite Z.div_add, (Z.div_small (m - 1)) by lia. lia.
    - replace (s + m - 1) with (s mod m - 1 + (s / m + 1) * m) by lia. rewrite Z.div_add, (Z.div_small (s mod m - 1)) by lia. lia. }
  assert (P : 0 < n) by (rewrite N; apply Z.div_str_pos; lia). clearbody n.
  match goal with |- context[for_up 0 n ?f ?x] => destruct (for_up_inv (fun i '(t, p) => t = i * s /\ p = map (bound s n) (zrange 0 (i + 1))) f 0 n x) as ([t p] & E & T & Q) end.
  - lia.
  - split; [lia|]. rewrite zrange_cons, zrange_nil by lia. cbn [map]. unfold bound, lround. do 2 f_equal. symmetry. apply Z.div_small. lia.
  - intros i [t p] I [-> ->]. eexists. split; [reflexivity|]. cbn beta iota zeta. split; [lia|].
    rewrite (zrange_app 0 (i + 1) (i + 1 + 1)), map_app by lia. rewrite (zrange_cons (i + 1)), (zrange_nil (i + 1 + 1)) by lia. cbn [map]. do 2 f_equal. unfold bound. f_equal. lia.
  - rewrite E. cbn [bind]. exists n, p. auto.
Qed.

Lemma bound_0 s n : 0 < n -> bound s n 0 = 0.
Proof. intros N. unfold bound, lround. apply Z.div_small. lia. Qed.
Lemma bound_n s n : 0 < n -> bound s n n = s.
Proof. intros N. unfold bound, lround. replace (2 * (n * s) + n) with (n + s * (2 * n)) by lia. rewrite Z.div_add, (Z.div_small n) by lia. lia. Qed.
Lemma bound_step s n i : 0 < n -> s / n <= bound s n (i + 1) - bound s n i <= (s + n - 1) / n.
Proof.
  intros N. unfold bound, lround. replace (2 * ((i + 1) * s) + n) with (2 * (i * s) + n + 2 * s) by lia. set (a := 2 * (i * s) + n).
  pose proof (Z.div_mod a (2 * n) ltac:(lia)). pose proof (Z.mod_pos_bound a (2 * n) ltac:(lia)).
  pose proof (Z.div_mod (a + 2 * s) (2 * n) ltac:(lia)). pose proof (Z.mod_pos_bound (a + 2 * s) (2 * n) ltac:(lia)).
  pose proof (Z.div_mod s n ltac:(lia)). pose proof (Z.mod_pos_bound s n ltac:(lia)).
  pose proof (Z.div_mod (s + n - 1) n ltac:(lia)). pose proof (Z.mod_pos_bound (s + n - 1) n ltac:(lia)).
  set (u := a / (2 * n)) in *. set (v := (a + 2 * s) / (2 * n)) in *. set (q := s / n) in *. set (c := (s + n - 1) / n) in *. split; nia.
Qed.
Lemma bound_mono s n i j : 0 < n -> n <= s -> i < j -> bound s n i < bound s n j.
Proof.
  intros N SN L. assert (1 <= s / n) by (apply Z.div_le_lower_bound; lia).
  replace j with (i + 1 + Z.of_nat (Z.to_nat (j - i - 1))) by lia. induction (Z.to_nat (j - i - 1)) as [|k IH].
  - rewrite Z.add_0_r. pose proof (bound_step s n i N). lia.
  - pose proof (bound_step s n (i + 1 + Z.of_nat k) N). replace (i + 1 + Z.of_nat (S k)) with (i + 1 + Z.of_nat k + 1) by lia. lia.
Qed.

Lemma zrange_nth0 n i : 0 <= i < n -> nth (Z.to_nat i) (zrange 0 n) 0 = i.
Proof. intros H. unfold zrange. rewrite zseq_nth by lia. lia. Qed.
Lemma part_ok s n p : 0 < n -> 0 <= p <= n -> part (map (bound s n) (zrange 0 (n + 1))) p = Ok (bound s n p).
Proof.
  intros N P. unfold part. rewrite map_length, zrange_length. destruct (Z.leb_spec 0 p), (Z.ltb_spec p (Z.of_nat (Z.to_nat (n + 1 - 0)))); try lia. cbn [andb]. f_equal.
  rewrite (nth_indep _ 0 (bound s n 0)) by (rewrite map_length, zrange_length; lia). rewrite map_nth. f_equal. apply zrange_nth0. lia.
Qed.

Lemma put_eq {A} (m : img A) x y v : inside m x y -> put m x y v = Ok (Img (icols m) (irows m) (fun i j => if (i =? x) && (j =? y) then v else pix m i j)).
Proof. intros H. unfold put. apply insideb_iff in H. now rewrite H. Qed.

Section Draw.
Variables (conv : point -> point) (buffer : list point) (bs cb nrb : Z).
Hypotheses (BS : 0 < bs) (CB : 0 <= cb) (NRB : 0 < nrb).

(* [new] is [old] with chips drawn from block [cur] on *)
Definition drawn (cur : Z) (chips : list (list Z)) (old new : img point) : Prop :=
  icols new = cb * bs /\ irows new = nrb * bs /\
  forall x y, inside new x y -> pix new x y = chips_in buffer bs conv nrb cur chips (pix old) x y.
Definition sized (m : img point) : Prop := icols m = cb * bs /\ irows m = nrb * bs.

Lemma drawn_app cur c1 c2 a b c : drawn cur c1 a b -> drawn (cur + Z.of_nat (length c1)) c2 b c -> drawn cur (c1 ++ c2) a c.
Proof.
  intros (C1 & R1 & P1) (C2 & R2 & P2). split; auto. split; auto. intros x y I. rewrite P2 by auto. unfold chips_in.
  assert (E : pix b x y = chips_in buffer bs conv nrb cur c1 (pix a) x y) by (apply P1; unfold inside in *; rewrite C1, R1, <- C2, <- R2; auto).
  unfold chips_in in E. rewrite app_length. set (k := x / bs * nrb + y / bs) in *. set (n := x mod bs * bs + y mod bs) in *. rewrite E. clear E P1 P2.
  destruct (Z.leb_spec cur k), (Z.ltb_spec k (cur + Z.of_nat (length c1))), (Z.leb_spec (cur + Z.of_nat (length c1)) k),
    (Z.ltb_spec k (cur + Z.of_nat (length c1) + Z.of_nat (length c2))), (Z.ltb_spec k (cur + Z.of_nat (length c1 + length c2))); try lia; cbn [andb]; auto.
  - rewrite app_nth1 by lia. reflexivity.
  - rewrite app_nth2 by lia. replace (Z.to_nat (k - cur) - length c1)%nat with (Z.to_nat (k - (cur + Z.of_nat (length c1)))) by lia. reflexivity.
Qed.

Lemma place_unique x y s t m (H0 : 0 <= m < bs * bs) (H1 : 0 <= t < nrb) : 0 <= s ->
  (x = s * bs + m / bs /\ y = t * bs + m mod bs) <-> (x / bs = s /\ y / bs = t /\ x mod bs * bs + y mod bs = m).
Proof.
  intros H2. pose proof (Z.div_mod m bs ltac:(lia)). pose proof (Z.mod_pos_bound m bs BS).
  assert (0 <= m / bs < bs) by (split; [apply Z.div_pos; lia|apply Z.div_lt_upper_bound; lia]).
  split.
  - intros [-> ->].
    replace (s * bs + m / bs) with (m / bs + s * bs) by lia. replace (t * bs + m mod bs) with (m mod bs + t * bs) by lia.
    rewrite !Z.div_add, !Z.mod_add, (Z.div_small (m / bs)), (Z.div_small (m mod bs)), (Z.mod_small (m / bs)), (Z.mod_small (m mod bs)) by lia. lia.
  - intros (<- & <- & E). pose proof (Z.div_mod x bs ltac:(lia)). pose proof (Z.mod_pos_bound x bs BS). pose proof (Z.div_mod y bs ltac:(lia)). pose proof (Z.mod_pos_bound y bs BS).
    assert (m / bs = x mod bs) by (symmetry; apply (Z.div_unique m bs (x mod bs) (y mod bs)); lia).
    assert (m mod bs = y mod bs) by lia. lia.
Qed.

Lemma block_unique s t s' t' : 0 <= t < nrb -> 0 <= t' < nrb -> s * nrb + t = s' * nrb + t' -> s = s' /\ t = t'.
Proof. intros H H' E. assert (s = s') by (destruct (Z.lt_trichotomy s s') as [L|[L|L]]; auto; nia). subst. lia. Qed.

Lemma emit_ok wide a b out cur : sized out -> 0 <= cur < cb * nrb -> 0 <= a <= b -> b <= size wide -> b - a <= bs * bs ->
  (forall i, a <= i < b -> 0 <= pt (el wide i) < Z.of_nat (length buffer)) ->
  exists out', emit conv buffer bs wide a (b - 1) (out, cur) = Ok (out', cur + 1) /\ drawn cur [pts wide a b] out out'.
Proof.
  intros [SC SR] CU A B L P. unfold emit. replace (b - 1 - a + 1) with (b - a) by lia. destruct (Z.leb_spec (b - a) (bs * bs)); [|lia]. cbn [negb].
  unfold cdiv at 1. destruct (Z.eqb_spec bs 0); [lia|]. cbn [bind]. rewrite SR, SC, Z.quot_mul by lia. unfold cdiv at 1. destruct (Z.eqb_spec nrb 0); [lia|]. cbn [bind].
  rewrite Z.quot_div_nonneg by lia. set (s := cur / nrb). set (t := cur - s * nrb).
  assert (T : 0 <= t < nrb) by (unfold t, s; pose proof (Z.div_mod cur nrb ltac:(lia)); pose proof (Z.mod_pos_bound cur nrb NRB); lia).
  assert (S0 : 0 <= s < cb) by (unfold s; split; [apply Z.div_pos; lia|apply Z.div_lt_upper_bound; lia]).
  destruct (Z.leb_spec (s * bs + bs) (cb * bs)); [|nia]. destruct (Z.leb_spec (t * bs + bs) (nrb * bs)); [|nia]. cbn [andb negb]. replace (b - 1 + 1) with b by lia.
  match goal with |- context[for_up a b ?f ?st0] => set (body := f);
    destruct (for_up_inv (fun i '(c, o) => c = i - a - 1 /\ sized o /\ forall x y, inside o x y -> pix o x y = chips_in buffer bs conv nrb cur [pts wide a i] (pix out) x y) body a b st0) as ([c o] & E & I1 & [I2 I3] & I4) end.
  - lia.
  - split; [lia|]. split; [split; auto|]. intros x y I. unfold chips_in, pts. rewrite (zrange_nil a a) by lia. cbn [map length].
    destruct (_ && _) eqn:Q; auto. apply andb_true_iff in Q as [Q1 Q2]. apply Z.leb_le in Q1. apply Z.ltb_lt in Q2. cbn [Z.of_nat Pos.of_succ_nat] in Q2. replace (Z.to_nat _) with 0%nat by lia.
    cbn [nth length Z.of_nat]. pose proof (Z.mod_pos_bound x bs BS). pose proof (Z.mod_pos_bound y bs BS). destruct (Z.ltb_spec (x mod bs * bs + y mod bs) 0); auto. nia.
  - intros i [c o] I (-> & [I2 I3] & I4). unfold body. replace (i - a - 1 + 1) with (i - a) by lia. unfold cdiv. destruct (Z.eqb_spec bs 0); [lia|]. cbn [bind].
    rewrite vget_ok by lia. cbn [bind]. pose proof (P i I) as Pi. destruct (Z.leb_spec 0 (pt (el wide i))), (Z.ltb_spec (pt (el wide i)) (Z.of_nat (length buffer))); try lia. cbn [andb bind].
    rewrite Z.quot_div_nonneg by lia.
    assert (M : i - a - (i - a) / bs * bs = (i - a) mod bs) by (pose proof (Z.div_mod (i - a) bs ltac:(lia)); lia). rewrite M.
    pose proof (Z.mod_pos_bound (i - a) bs BS). assert (0 <= (i - a) / bs < bs) by (split; [apply Z.div_pos; lia|apply Z.div_lt_upper_bound; lia]).
    rewrite put_eq by (unfold inside; rewrite I2, I3; nia). cbn [bind]. eexists. split; [reflexivity|]. cbn beta iota. split; [lia|]. split; [split; auto|].
    intros x y IN. cbn [icols irows pix] in *. assert (IN' : inside o x y) by exact IN. specialize (I4 x y IN').
    destruct IN' as [IX IY]. rewrite I2 in IX. rewrite I3 in IY.
    assert (0 <= x / bs) by (apply Z.div_pos; lia). assert (0 <= y / bs < nrb) by (split; [apply Z.div_pos; lia|apply Z.div_lt_upper_bound; lia]).
    assert (LP : forall j, a <= j -> length (pts wide a j) = Z.to_nat (j - a)) by (intros; unfold pts; now rewrite map_length, zrange_length).
    assert (PN : forall j q, a <= j -> 0 <= q < j - a -> nth (Z.to_nat q) (pts wide a j) 0 = pt (el wide (a + q))).
    { intros j q J Q. unfold pts. rewrite (nth_indep _ 0 (pt (el wide 0))) by (rewrite map_length, zrange_length; lia). rewrite (map_nth (fun i => pt (el wide i))). do 2 f_equal. unfold zrange. rewrite zseq_nth by lia. lia. }
    assert (CASE : forall j, a <= j <= b -> chips_in buffer bs conv nrb cur [pts wide a j] (pix out) x y =
       if (x / bs =? s) && (y / bs =? t) && (x mod bs * bs + y mod bs <? j - a) then conv (nth (Z.to_nat (pt (el wide (a + (x mod bs * bs + y mod bs))))) buffer origin) else pix out x y).
    { intros j J. unfold chips_in. cbn [length]. change (Z.of_nat 1) with 1. set (q := x mod bs * bs + y mod bs).
      assert (0 <= q) by (unfold q; pose proof (Z.mod_pos_bound x bs BS); pose proof (Z.mod_pos_bound y bs BS); nia).
      destruct (Z.eqb_spec (x / bs) s) as [Ex|Ex], (Z.eqb_spec (y / bs) t) as [Ey|Ey]; cbn [andb].
      - rewrite Ex, Ey. replace (s * nrb + t) with cur by (unfold t; lia). destruct (Z.leb_spec cur cur), (Z.ltb_spec cur (cur + 1)); try lia. cbn [andb]. rewrite Z.sub_diag. cbn [Z.to_nat nth].
        rewrite LP by lia. rewrite Z2Nat.id by lia. destruct (Z.ltb_spec q (j - a)); auto. now rewrite PN by lia.
      - destruct (Z.leb_spec cur (x / bs * nrb + y / bs)), (Z.ltb_spec (x / bs * nrb + y / bs) (cur + 1)); cbn [andb]; auto. destruct (block_unique (x / bs) (y / bs) s t); auto; [unfold t; lia|contradiction].
      - destruct (Z.leb_spec cur (x / bs * nrb + y / bs)), (Z.ltb_spec (x / bs * nrb + y / bs) (cur + 1)); cbn [andb]; auto. destruct (block_unique (x / bs) (y / bs) s t); auto; [unfold t; lia|contradiction].
      - destruct (Z.leb_spec cur (x / bs * nrb + y / bs)), (Z.ltb_spec (x / bs * nrb + y / bs) (cur + 1)); cbn [andb]; auto. destruct (block_unique (x / bs) (y / bs) s t); auto; [unfold t; lia|contradiction]. }
    rewrite CASE in I4 |- * by lia. pose proof (place_unique x y s t (i - a) ltac:(lia) T ltac:(lia)) as PU.
    destruct (Z.eqb_spec (x / bs) s) as [Ex|Ex], (Z.eqb_spec (y / bs) t) as [Ey|Ey]; cbn [andb] in *;
      destruct (Z.eqb_spec x (s * bs + (i - a) / bs)) as [Fx|Fx], (Z.eqb_spec y (t * bs + (i - a) mod bs)) as [Fy|Fy]; cbn [andb]; try rewrite I4;
      try (destruct (proj1 PU (conj Fx Fy)) as (G1 & G2 & G3); try contradiction; try rewrite G3);
      repeat match goal with |- context[?u <? ?v] => destruct (Z.ltb_spec u v) end; try lia; auto.
    + do 2 f_equal. repeat f_equal; lia.
  - rewrite E. cbn [bind]. exists o. split; auto. split; auto.
Qed.
End Draw.

(** distributing the narrow array *)
Lemma inj_range_le (f : Z -> Z) a b c d : a <= b -> c <= d -> (forall i j, a <= i < b -> a <= j < b -> f i = f j -> i = j) -> (forall i, a <= i < b -> c <= f i < d) -> b - a <= d - c.
Proof.
  intros AB CD J I. pose proof (NoDup_incl_length (inj_nodup_map f a b J) (l' := zrange c d)) as H. rewrite map_length, !zrange_length in H. enough ((Z.to_nat (b - a) <= Z.to_nat (d - c))%nat) by lia. apply H.
  intros x X. apply in_map_iff in X as (i & <- & X). apply in_zrange in X. apply in_zrange. auto.
Qed.

Definition same_out (L R : Z) (a b : vec) : Prop := size a = size b /\ forall i, i < L \/ R <= i -> el a i = el b i.

Lemma distribute_ok fn wide narrow spare L R C :
  linked wide narrow L R -> linked narrow wide L R -> ranked fn narrow L R ->
  0 <= L -> L <= C <= R -> R <= size wide -> R <= size narrow -> R <= size spare ->
  exists wide' spare', distribute wide narrow spare L (R - 1) C = Ok (wide', spare') /\
    same_out L R wide' wide /\ same_out L R spare' spare /\
    (forall i, L <= i < R -> pos (el wide' i) = pos (el wide i) /\ pt (el wide' i) = pt (el wide i)) /\
    linked wide' spare' L C /\ linked spare' wide' L C /\ linked wide' spare' C R /\ linked spare' wide' C R /\
    ranked fn spare' L C /\ ranked fn spare' C R.
Proof.
  intros LW LN [VN ON] L0 LCR Sw Sn Ss. unfold distribute. replace (R - 1 + 1) with R by lia.
  set (I := fun i '(w, s, ls, rs) => size w = size wide /\ size s = size spare /\ L <= ls <= C /\ C <= rs <= R /\ ls - L + (rs - C) = i - L /\
    (forall j, j < L \/ R <= j -> el w j = el wide j) /\ (forall j, j < L \/ R <= j -> el s j = el spare j) /\
    (forall j, L <= j < R -> pos (el w j) = pos (el wide j) /\ pt (el w j) = pt (el wide j)) /\
    (forall q, L <= q < ls \/ C <= q < rs -> exists k, L <= k < i /\ el s q = el narrow k /\ oi (el w (oi (el narrow k))) = q) /\
    (forall q, L <= q < ls -> oi (el s q) < C) /\ (forall q, C <= q < rs -> C <= oi (el s q)) /\
    (forall q q', (L <= q <= q' /\ q' < ls) \/ (C <= q <= q' /\ q' < rs) -> (pos (el s q) <= pos (el s q'))%Qc)).
  match goal with |- context[for_up L R ?f ?st0] => set (body := f); destruct (for_up_inv I body L R st0) as ([[[w s] ls] rs] & E & Inv) end.
  - lia.
  - unfold I. repeat match goal with |- _ /\ _ => split end; intros; auto; try lia.
  - intros i [[[w s] ls] rs] Ii (I1 & I2 & I3 & I4 & I5 & I6 & I7 & I8 & I9 & I10 & I11 & I12). unfold body. rewrite vget_ok by lia. cbn [bind].
    destruct (LN i Ii) as (N1 & N2 & N3). set (o := oi (el narrow i)) in *.
    (* o is not the partner of anything before *)
    assert (FR : forall k, L <= k < i -> oi (el narrow k) <> o) by (intros k K Q; destruct (LN k ltac:(lia)) as (_ & M & _); rewrite Q, N2 in M; lia).
    assert (SP : forall q, L <= q < ls \/ C <= q < rs -> L <= oi (el s q) < R /\ oi (el w (oi (el s q))) = q /\ oi (el s q) <> o).
    { intros q Q. destruct (I9 q Q) as (k & K & E1 & E2). rewrite E1. split; [apply LN; lia|]. split; [exact E2|apply FR; lia]. }
    assert (ORD : forall q, L <= q < ls \/ C <= q < rs -> (pos (el s q) <= pos (el narrow i))%Qc) by (intros q Q; destruct (I9 q Q) as (k & K & E1 & _); rewrite E1; apply ON; lia).
    assert (INJ : forall q q', (L <= q < ls \/ C <= q < rs) -> (L <= q' < ls \/ C <= q' < rs) -> oi (el s q) = oi (el s q') -> q = q').
    { intros q q' Q Q' E0. destruct (SP q Q) as (_ & A & _), (SP q' Q') as (_ & B & _). congruence. }
    destruct (Z.ltb_spec o C) as [OC|OC].
    + assert (LC : ls < C).
      { pose proof (inj_range_le (fun q => if q =? ls then o else oi (el s q)) L (ls + 1) L C ltac:(lia) ltac:(lia)) as H. enough (ls + 1 - L <= C - L) by lia. apply H.
        - intros q q' Q Q'. destruct (Z.eqb_spec q ls) as [->|NQ], (Z.eqb_spec q' ls) as [->|NQ']; intros Z0; auto.
          + exfalso. apply (proj2 (proj2 (SP q' ltac:(lia)))). auto.
          + exfalso. apply (proj2 (proj2 (SP q ltac:(lia)))). auto.
          + apply INJ; auto; lia.
        - intros q Q. destruct (Z.eqb_spec q ls); [lia|]. split; [apply SP; lia|]. apply I10. lia. }
      rewrite vset_ok by lia. cbn [bind]. rewrite vget_ok by lia. cbn [bind]. rewrite vset_ok by lia. cbn [bind]. eexists. split; [reflexivity|]. unfold I. cbn [size el].
      split; [auto|]. split; [auto|]. split; [lia|]. split; [lia|]. split; [lia|]. split; [|split; [|split; [|split; [|split; [|split]]]]].
      * intros j J. destruct (Z.eqb_spec j o); [lia|]. now apply I6.
      * intros j J. destruct (Z.eqb_spec j ls); [lia|]. now apply I7.
      * intros j J. destruct (Z.eqb_spec j o) as [->|]; [cbn [set_oi pos pt]|]; now apply I8.
      * intros q Q. destruct (Z.eqb_spec q ls) as [->|NE].
        -- exists i. split; [lia|]. split; auto. fold o. rewrite Z.eqb_refl. reflexivity.
        -- destruct (I9 q ltac:(lia)) as (k & K & E1 & E2). exists k. split; [lia|]. split; auto. destruct (Z.eqb_spec (oi (el narrow k)) o) as [Q0|]; auto. exfalso. now apply (FR k ltac:(lia)).
      * intros q Q. destruct (Z.eqb_spec q ls); [exact OC|]. apply I10. lia.
      * intros q Q. destruct (Z.eqb_spec q ls); [lia|]. apply I11. lia.
      * intros q q' Q. destruct (Z.eqb_spec q' ls) as [->|NE']; destruct (Z.eqb_spec q ls) as [->|NE]; try lia; [apply Qcle_refl|apply ORD; lia|apply I12; lia].
    + assert (LC : rs < R).
      { pose proof (inj_range_le (fun q => if q =? rs then o else oi (el s q)) C (rs + 1) C R ltac:(lia) ltac:(lia)) as H. enough (rs + 1 - C <= R - C) by lia. apply H.
        - intros q q' Q Q'. destruct (Z.eqb_spec q rs) as [->|NQ], (Z.eqb_spec q' rs) as [->|NQ']; intros Z0; auto.
          + exfalso. apply (proj2 (proj2 (SP q' ltac:(lia)))). auto.
          + exfalso. apply (proj2 (proj2 (SP q ltac:(lia)))). auto.
          + apply INJ; auto; lia.
        - intros q Q. destruct (Z.eqb_spec q rs); [lia|]. split; [apply I11; lia|]. apply SP. lia. }
      rewrite vset_ok by lia. cbn [bind]. rewrite vget_ok by lia. cbn [bind]. rewrite vset_ok by lia. cbn [bind]. eexists. split; [reflexivity|]. unfold I. cbn [size el].
      split; [auto|]. split; [auto|]. split; [lia|]. split; [lia|]. split; [lia|]. split; [|split; [|split; [|split; [|split; [|split]]]]].
      * intros j J. destruct (Z.eqb_spec j o); [lia|]. now apply I6.
      * intros j J. destruct (Z.eqb_spec j rs); [lia|]. now apply I7.
      * intros j J. destruct (Z.eqb_spec j o) as [->|]; [cbn [set_oi pos pt]|]; now apply I8.
      * intros q Q. destruct (Z.eqb_spec q rs) as [->|NE].
        -- exists i. split; [lia|]. split; auto. fold o. rewrite Z.eqb_refl. reflexivity.
        -- destruct (I9 q ltac:(lia)) as (k & K & E1 & E2). exists k. split; [lia|]. split; auto. destruct (Z.eqb_spec (oi (el narrow k)) o) as [Q0|]; auto. exfalso. now apply (FR k ltac:(lia)).
      * intros q Q. destruct (Z.eqb_spec q rs); [lia|]. apply I10. lia.
      * intros q Q. destruct (Z.eqb_spec q rs); [exact OC|]. apply I11. lia.
      * intros q q' Q. destruct (Z.eqb_spec q' rs) as [->|NE']; destruct (Z.eqb_spec q rs) as [->|NE]; try lia; [apply Qcle_refl|apply ORD; lia|apply I12; lia].
  - rewrite E. cbn [bind]. destruct Inv as (I1 & I2 & I3 & I4 & I5 & I6 & I7 & I8 & I9 & I10 & I11 & I12).
    assert (ls = C) by lia. assert (rs = R) by lia. subst ls rs. exists w, s. split; [reflexivity|]. split; [now split|]. split; [now split|]. split; [exact I8|].
    assert (SW : forall q, L <= q < R -> L <= oi (el s q) < R /\ oi (el w (oi (el s q))) = q /\ pt (el w (oi (el s q))) = pt (el s q)).
    { intros q Q. destruct (I9 q ltac:(lia)) as (k & K & E1 & E2). rewrite E1. destruct (LN k ltac:(lia)) as (N1 & N2 & N3). split; [lia|]. split; auto. rewrite (proj2 (I8 _ N1)). exact N3. }
    (* every index of wide is reached *)
    assert (ONTO : forall j, L <= j < R -> exists q, L <= q < R /\ oi (el s q) = j).
    { intros j J. assert (IN : In j (map (fun q => oi (el s q)) (zrange L R))); [|apply in_map_iff in IN as (q & E1 & Q); apply in_zrange in Q; eauto].
      assert (ND : NoDup (map (fun q => oi (el s q)) (zrange L R))).
      { apply inj_nodup_map. intros q q' Q Q' E0. destruct (SW q Q) as (_ & A & _), (SW q' Q') as (_ & B & _). congruence. }
      apply (NoDup_length_incl ND (l' := zrange L R)); [now rewrite map_length| |now apply in_zrange].
      intros x X. apply in_map_iff in X as (q & <- & Q). apply in_zrange in Q. apply in_zrange. now apply SW. }
    assert (WS : forall j, L <= j < R -> oi (el s (oi (el w j))) = j /\ pt (el s (oi (el w j))) = pt (el w j) /\ ((j < C /\ L <= oi (el w j) < C) \/ (C <= j /\ C <= oi (el w j) < R))).
    { intros j J. destruct (ONTO j J) as (q & Q & E1). destruct (SW q Q) as (_ & E2 & E3). rewrite E1 in E2, E3. rewrite E2. split; auto. split; auto.
      destruct (Z.lt_ge_cases q C); [left|right]; (split; [|lia]).
      - rewrite <- E1. apply I10. lia.
      - rewrite <- E1. apply I11. lia. }
    repeat match goal with |- _ /\ _ => split end.
    + intros j J. destruct (WS j ltac:(lia)) as (A & B & D). repeat split; auto; lia.
    + intros q Q. destruct (SW q ltac:(lia)) as (A & B & D). specialize (I10 q ltac:(lia)). repeat split; auto; lia.
    + intros j J. destruct (WS j ltac:(lia)) as (A & B & D). repeat split; auto; lia.
    + intros q Q. destruct (SW q ltac:(lia)) as (A & B & D). specialize (I11 q ltac:(lia)). repeat split; auto; lia.
    + split; [|intros q q' Q Q'; apply I12; lia]. intros q Q. destruct (I9 q ltac:(lia)) as (k & K & E1 & _). rewrite E1. apply VN. lia.
    + split; [|intros q q' Q Q'; apply I12; lia]. intros q Q. destruct (I9 q ltac:(lia)) as (k & K & E1 & _). rewrite E1. apply VN. lia.
Qed.

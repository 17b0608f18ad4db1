(* C24: the bounded distance functions. *)
From Coq Require Import ZArith List Lia Bool.
From Verif Require Import Lib.Base Lib.Img Dist.Model Dist.Spec Dist.Proofs.
Import ListNotations.
Local Open Scope Z_scope.

(* (x',y') comes before (x,y) in the column-by-column order *)
Definition prior (x y x' y' : Z) : Prop := x' < x \/ x' = x /\ y' < y.

Section Body.
Variables (image : img Z) (p q : Z).
Hypothesis Q : 0 < q. Hypothesis P : 0 <= p.
Local Notation C := (icols image).
Local Notation R := (irows image).
Hypothesis HC : 0 <= C. Hypothesis HR : 0 <= R.
Definition V x y : Prop := interior_valid image x y.

Lemma V_dec x y : {V x y} + {~ V x y}.
Proof.
  unfold V, interior_valid. destruct (Z.eq_dec (pix image x y) 0); [right; tauto|].
  destruct (Z_lt_dec 0 x); [|right; lia]. destruct (Z_lt_dec x (C - 1)); [|right; lia].
  destruct (Z_lt_dec 0 y); [|right; lia]. destruct (Z_lt_dec y (R - 1)); [|right; lia]. left; auto.
Qed.

Definition okv x y v : Prop :=
  (~ V x y -> v = 0) /\
  (V x y -> (0 < p -> 0 < v) /\ v <= p * p /\ (v = p * p \/ exists zx zy, hole image V zx zy /\ v = q * q * dist2 x y zx zy)).
Definition inv (cx cy : Z) (d : img Z) : Prop :=
  icols d = C /\ irows d = R /\ forall x y, inside image x y -> okv x y (pix d x y) /\
    (0 < p -> V x y -> forall zx zy, hole_edge image V zx zy -> prior cx cy zx zy -> pix d x y <= q * q * dist2 x y zx zy).

Lemma bounded_step cx cy d :
  inside image cx cy -> inv cx cy d ->
  exists d', (v <- get d cx cy ;; if 0 <? v then Ok d else
    b <- is_bd_pix C R (fun c r => w <- get d c r ;; Ok (0 <? w)) cx cy ;;
    if negb b then Ok d else
    window C R p q cx cy (fun c r dq d => w <- get d c r ;; if 0 <? w then put d c r (Z.min w dq) else Ok d) d) = Ok d' /\ inv cx (cy + 1) d'.
Proof.
  intros I (DC & DR & G). rewrite get_in by (unfold inside in *; lia). cbn [bind].
  assert (SKIP : ~ (0 < p /\ hole_edge image V cx cy) -> inv cx (cy + 1) d).
  { intros NE. split; auto. split; auto. intros x y J. destruct (G x y J) as [G1 G2]. split; auto.
    intros PP VX zx zy HE PR. apply G2; auto. unfold prior in *. destruct (Z.eq_dec zx cx) as [->|]; [destruct (Z.eq_dec zy cy) as [->|]|]; try lia. tauto. }
  destruct (G cx cy I) as [[G0 G1] _].
  destruct (Z.ltb_spec 0 (pix d cx cy)) as [L|L].
  { exists d. split; auto. apply SKIP. intros [_ [[_ NV] _]]. specialize (G0 NV). lia. }
  destruct (bd_spec C R (fun c r => w <- get d c r ;; Ok (0 <? w)) (fun c r => 0 < p /\ V c r) cx cy) as (b & E & B).
  { intros c r Hc Hr. rewrite get_in by (unfold inside; lia). cbn [bind]. eexists. split; [reflexivity|].
    destruct (G c r) as [[H0 H1] _]; [unfold inside; lia|]. rewrite Z.ltb_lt. split.
    - intros K. destruct (V_dec c r) as [v|v]; [|specialize (H0 v); lia]. destruct (H1 v) as (_ & K2 & _). split; auto. nia.
    - intros [PP VV]. apply H1; auto. }
  rewrite E. cbn [bind]. destruct b; cbn [negb].
  2:{ exists d. split; auto. apply SKIP. intros [PP [_ (x' & y' & J & VJ & A1 & A2)]].
      assert (false = true) by (apply B; exists x', y'; unfold inside in J; split; [lia|split; [lia|auto]]). discriminate. }
  assert (PP : 0 < p) by (destruct B as [B _]; destruct (B eq_refl) as (? & ? & _ & _ & [? _] & _); auto).
  assert (HE : hole_edge image V cx cy).
  { split; [split; auto|].
    - intros v. destruct (G1 v) as [K _]. specialize (K PP). lia.
    - destruct B as [B _]. destruct (B eq_refl) as (x' & y' & H1 & H2 & [_ H3] & H4 & H5). exists x', y'. split; [split; lia|auto]. }
  destruct (window_spec C R p q cx cy (fun x y v => if 0 <? v then Z.min v (q * q * dist2 x y cx cy) else v)
    (fun c r dq d => w <- get d c r ;; if 0 <? w then put d c r (Z.min w dq) else Ok d) d) as (d' & E' & C' & R' & H'); auto.
  { intros c r t Hc Hr TC TR. rewrite get_in by (unfold inside; lia). cbn [bind].
    destruct (Z.ltb_spec 0 (pix t c r)) as [W|W].
    - destruct (put_in t c r (Z.min (pix t c r) (sq_dist c r cx cy * (q * q)))) as (t' & F & F1 & F2 & F3 & F4); [unfold inside; lia|].
      exists t'. split; auto. split; auto. split; auto. split; auto. intros _. rewrite F3. destruct (Z.ltb_spec 0 (pix t c r)); [|lia].
      f_equal. unfold sq_dist, dist2. ring.
    - exists t. split; auto. split; auto. split; auto. split; auto. intros _. destruct (Z.ltb_spec 0 (pix t c r)); auto; lia. }
  exists d'. split; auto. split; auto. split; auto. intros x y J. destruct (G x y J) as [[K0 K1] K2].
  destruct (H' x y) as [W1 W2]; [unfold inside in *; lia|].
  destruct (V_dec x y) as [v|v].
  - destruct (K1 v) as (M1 & M2 & M3). specialize (M1 PP).
    assert (DP : 0 < dist2 x y cx cy).
    { pose proof (dist2_nonneg x y cx cy). destruct (Z.eq_dec (dist2 x y cx cy) 0) as [z|]; [|lia]. apply dist2_0 in z. destruct z as [-> ->].
      exfalso. apply HE; auto. }
    assert (NEW : pix d' x y = Z.min (pix d x y) (q * q * dist2 x y cx cy)).
    { destruct (Z_lt_le_dec (q * q * dist2 x y cx cy) (p * p)) as [K|K].
      - rewrite W1 by auto. destruct (Z.ltb_spec 0 (pix d x y)); auto; lia.
      - rewrite W2 by auto. lia. }
    split; [split; [tauto|]|].
    + intros _. split; [intros; rewrite NEW; nia|]. split; [lia|].
      rewrite NEW. destruct (Z.min_spec (pix d x y) (q * q * dist2 x y cx cy)) as [[_ ->]|[_ ->]]; auto.
      right. exists cx, cy. split; auto. apply HE.
    + intros _ _ zx zy HZ PR. rewrite NEW. unfold prior in *. destruct (Z.eq_dec zx cx) as [->|]; [destruct (Z.eq_dec zy cy) as [->|]|]; [lia| |].
      * specialize (K2 PP v cx zy HZ ltac:(lia)). lia.
      * specialize (K2 PP v zx zy HZ ltac:(lia)). lia.
  - specialize (K0 v). assert (NEW : pix d' x y = 0).
    { destruct (Z_lt_le_dec (q * q * dist2 x y cx cy) (p * p)) as [K|K]; [rewrite W1 by auto|rewrite W2; auto].
      rewrite K0. auto. }
    split; [split; [auto|tauto]|tauto].
Qed.
End Body.

(* Valid pixels off the image edge get the smaller of the cap and the distance
   to the nearest other pixel of the image; those other pixels get zero. *)
Theorem bounded_dist_correct image p q old :
  0 < q -> 0 <= p -> 0 <= icols image -> 0 <= irows image ->
  exists d, bounded_dist image p q old = Ok d /\ icols d = icols image /\ irows d = irows image /\
    forall x y, inside image x y ->
      (interior_valid image x y -> capped_distance (hole image (interior_valid image)) p q x y (pix d x y)) /\
      (~ interior_valid image x y -> pix d x y = 0).
Proof.
  intros Q P HC HR. unfold bounded_dist. destruct (Z.ltb_spec p 0); [lia|].
  set (C := icols image) in *. set (R := irows image) in *.
  set (g := fun x y (_ : Z) => if negb (pix image x y =? 0) && (0 <? x) && (x <? C - 1) && (0 <? y) && (y <? R - 1) then p * p else 0).
  destruct (scan_map C R g (fun col row d => v <- get image col row ;;
         put d col row (if negb (v =? 0) && (0 <? col) && (col <? C - 1) && (0 <? row) && (row <? R - 1) then p * p else 0))
       0 C 0 R (Img C R old)) as (d0 & E0 & C0 & R0 & H0); auto.
  { intros x y d X Y DC DR. rewrite get_in by (unfold inside; lia). cbn [bind].
    match goal with |- exists d1, put d x y ?v = _ /\ _ => destruct (put_in d x y v) as (d1 & E & E1 & E2 & E3 & E4) end; [unfold inside; lia|].
    exists d1. split; auto. split; auto. }
  rewrite E0. cbn [bind].
  assert (G0 : forall x y, inside image x y -> (V image x y -> pix d0 x y = p * p) /\ (~ V image x y -> pix d0 x y = 0)).
  { intros x y I. destruct (H0 x y) as [K _]; [exact I|]. rewrite K by exact I. unfold g, V, interior_valid. fold C R.
    destruct (Z.eqb_spec (pix image x y) 0), (Z.ltb_spec 0 x), (Z.ltb_spec x (C - 1)), (Z.ltb_spec 0 y), (Z.ltb_spec y (R - 1)); cbn [negb andb];
      split; intros; auto; tauto || lia. }
  assert (I0 : inv image p q 0 0 d0).
  { split; auto. split; auto. intros x y I. destruct (G0 x y I) as [A B]. split; [split; auto|].
    - intros v. rewrite (A v). split; [nia|]. split; [lia|auto].
    - intros PP v zx zy [[HZ _] _] PR. unfold prior, inside in *. fold C R in HZ. lia. }
  match goal with |- exists d, for_up 0 C ?body d0 = _ /\ _ =>
    destruct (for_up_inv (fun k d => inv image p q k 0 d) body 0 C d0) as (d & E & J); [lia|auto| |] end.
  { intros k s Hk J.
    match goal with |- exists s', for_up 0 R ?body s = _ /\ _ =>
      destruct (for_up_inv (fun j d => inv image p q k j d) body 0 R s) as (s' & F & J'); [lia|auto| |] end.
    - intros j t Hj K. apply bounded_step; auto. unfold inside. fold C R. lia.
    - exists s'. split; auto. destruct J' as (A & B & G). split; auto. split; auto. intros x y I. destruct (G x y I) as [G1 G2]. split; auto.
      intros PP v zx zy HZ PR. apply G2; auto. destruct HZ as [[IZ _] _]. unfold prior, inside in *. fold C R in IZ. lia. }
  exists d. split; auto. destruct J as (A & B & G). split; auto. split; auto.
  intros x y I. destruct (G x y I) as [[O1 O2] G2]. split; [|exact O1].
  intros v. destruct (O2 v) as (M1 & M2 & M3). split; auto. split; auto.
  intros zx zy HZ. destruct (Z.eq_dec p 0) as [->|NP].
  - pose proof (dist2_nonneg x y zx zy). nia.
  - destruct (edge_closer image (V image) x y (V_dec image) I v zx zy HZ) as (ex & ey & HE & L).
    specialize (G2 ltac:(lia) v ex ey HE). assert (pix d x y <= q * q * dist2 x y ex ey).
    { apply G2. destruct HE as [[IZ _] _]. unfold prior, inside in *. fold C R in IZ. lia. } nia.
Qed.
Print Assumptions bounded_dist_correct.

Theorem bounded_dist_rejects image p q old : p < 0 -> bounded_dist image p q old = Throw ArgumentErr.
Proof. intros. unfold bounded_dist. destruct (Z.ltb_spec p 0); auto; lia. Qed.

(* max_dist = 5/2; the values are 4 d^2, so 4 is distance 1, 8 is sqrt 2, 16 is
   2 and 25 is the cap *)
Example bounded_dist_ex :
  let image := of_rows 0 [[1;1;1;1;1;1;1];[1;1;1;1;1;1;1];[1;1;0;1;1;1;1];[1;1;1;1;1;1;1];[1;1;1;1;1;1;1];[1;1;1;1;1;1;1];[1;1;1;1;1;1;1]] in
  exists d, bounded_dist image 5 2 (fun _ _ => 9) = Ok d /\
  to_rows d = [[0;0;0;0;0;0;0];[0;4;4;4;4;4;0];[0;4;0;4;16;4;0];[0;4;4;8;16;4;0];[0;4;16;16;16;4;0];[0;4;4;4;4;4;0];[0;0;0;0;0;0;0]].
Proof. eexists. split; vm_compute; reflexivity. Qed.

Section Signed.
Variables (image : img Z) (p q : Z).
Hypothesis Q : 0 < q. Hypothesis P : 0 <= p.
Local Notation C := (icols image).
Local Notation R := (irows image).
Definition Vs x y : Prop := pix image x y <> 0.
Definition side x y v : Z := if pix image x y =? 0 then - v else v.
Definition validt c r : res bool := v <- get image c r ;; Ok (negb (v =? 0)).

Definition sinv (cx cy : Z) (d : img Z) : Prop :=
  icols d = C /\ irows d = R /\ forall x y, inside image x y ->
    let v := side x y (pix d x y) in
    (v = p * p \/ exists zx zy, hole_edge image Vs zx zy /\ v = q * q * dist2 x y zx zy) /\ v <= p * p /\
    (forall zx zy, hole_edge image Vs zx zy -> prior cx cy zx zy -> v <= q * q * dist2 x y zx zy).

Lemma validt_ok c r : inside image c r -> exists b, validt c r = Ok b /\ (b = true <-> Vs c r).
Proof.
  intros I. unfold validt. rewrite get_in by auto. cbn [bind]. eexists. split; [reflexivity|]. unfold Vs.
  destruct (Z.eqb_spec (pix image c r) 0); cbn [negb]; split; intros; auto; congruence.
Qed.

Lemma signed_step cx cy d :
  inside image cx cy -> sinv cx cy d ->
  exists d', (b <- validt cx cy ;; if (b : bool) then Ok d else
    b <- is_bd_pix C R validt cx cy ;;
    if negb b then Ok d else
    window C R p q cx cy (fun c r dq d =>
      b <- validt c r ;; w <- get d c r ;;
      if (b : bool) then put d c r (Z.min w dq) else put d c r (Z.max w (- dq))) d) = Ok d' /\ sinv cx (cy + 1) d'.
Proof.
  intros I (DC & DR & G). destruct (validt_ok cx cy I) as (b & E & B). rewrite E. cbn [bind].
  assert (SKIP : ~ hole_edge image Vs cx cy -> sinv cx (cy + 1) d).
  { intros NE. split; auto. split; auto. intros x y J. destruct (G x y J) as (G0 & G1 & G2). split; [auto|split; [auto|]].
    intros zx zy HE PR. apply G2; auto. unfold prior in *. destruct (Z.eq_dec zx cx) as [->|]; [destruct (Z.eq_dec zy cy) as [->|]|]; try lia. tauto. }
  destruct b.
  { exists d. split; auto. apply SKIP. intros [[_ NV] _]. apply NV, B. auto. }
  assert (NV : ~ Vs cx cy) by (intros v; apply B in v; discriminate).
  destruct (bd_spec C R validt Vs cx cy) as (b & E2 & B2).
  { intros c r Hc Hr. apply validt_ok. unfold inside. lia. }
  rewrite E2. cbn [bind]. destruct b; cbn [negb].
  2:{ exists d. split; auto. apply SKIP. intros [_ (x' & y' & J & VJ & A1 & A2)].
      assert (false = true) by (apply B2; exists x', y'; unfold inside in J; split; [lia|split; [lia|auto]]). discriminate. }
  assert (HE : hole_edge image Vs cx cy).
  { split; [split; auto|]. destruct B2 as [B2 _]. destruct (B2 eq_refl) as (x' & y' & H1 & H2 & H3 & H4 & H5). exists x', y'. split; [split; lia|auto]. }
  destruct (window_spec C R p q cx cy (fun x y v => if pix image x y =? 0 then Z.max v (- (q * q * dist2 x y cx cy)) else Z.min v (q * q * dist2 x y cx cy))
    (fun c r dq d => b <- validt c r ;; w <- get d c r ;;
      if (b : bool) then put d c r (Z.min w dq) else put d c r (Z.max w (- dq))) d) as (d' & E' & C' & R' & H'); auto.
  { intros c r t Hc Hr TC TR. unfold validt. rewrite get_in by (unfold inside; lia). cbn [bind]. rewrite get_in by (unfold inside; lia). cbn [bind].
    assert (SD : sq_dist c r cx cy * (q * q) = q * q * dist2 c r cx cy) by (unfold sq_dist, dist2; ring). rewrite SD.
    destruct (Z.eqb_spec (pix image c r) 0) as [W|W]; cbn [negb].
    - destruct (put_in t c r (Z.max (pix t c r) (- (q * q * dist2 c r cx cy)))) as (t' & F & F1 & F2 & F3 & F4); [unfold inside; lia|].
      exists t'. split; auto. split; auto. split; auto. split; auto. intros _. rewrite F3, W. auto.
    - destruct (put_in t c r (Z.min (pix t c r) (q * q * dist2 c r cx cy))) as (t' & F & F1 & F2 & F3 & F4); [unfold inside; lia|].
      exists t'. split; auto. split; auto. split; auto. split; auto. intros _. rewrite F3. destruct (Z.eqb_spec (pix image c r) 0); auto; lia. }
  exists d'. split; auto. split; auto. split; auto. intros x y J. destruct (G x y J) as (K0 & K1 & K2).
  destruct (H' x y) as [W1 W2]; [unfold inside in *; lia|].
  assert (NEW : side x y (pix d' x y) = Z.min (side x y (pix d x y)) (q * q * dist2 x y cx cy)).
  { unfold side in *. destruct (Z_lt_le_dec (q * q * dist2 x y cx cy) (p * p)) as [K|K]; [rewrite W1 by auto|rewrite W2 by auto];
    destruct (pix image x y =? 0); lia. }
  cbv zeta in *. rewrite NEW. split; [|split; [lia|]].
  - destruct (Z.min_spec (side x y (pix d x y)) (q * q * dist2 x y cx cy)) as [[_ ->]|[_ ->]]; auto. right. exists cx, cy. auto.
  - intros zx zy HZ PR. unfold prior in *. destruct (Z.eq_dec zx cx) as [->|]; [destruct (Z.eq_dec zy cy) as [->|]|]; [lia| |].
    + specialize (K2 cx zy HZ ltac:(lia)). lia.
    + specialize (K2 zx zy HZ ltac:(lia)). lia.
Qed.
End Signed.

(* Valid pixels get the smaller of the cap and the distance to the nearest
   invalid pixel, invalid ones minus the smaller of the cap and the distance to
   the nearest invalid pixel touching a valid one. *)
Theorem bounded_signed_dist_correct image p q old :
  0 < q -> 0 <= p -> 0 <= icols image -> 0 <= irows image ->
  let valid x y := pix image x y <> 0 in
  exists d, bounded_signed_dist image p q old = Ok d /\ icols d = icols image /\ irows d = irows image /\
    forall x y, inside image x y ->
      (valid x y -> capped_distance (hole image valid) p q x y (pix d x y)) /\
      (~ valid x y -> capped_distance (hole_edge image valid) p q x y (- pix d x y)).
Proof.
  intros Q P HC HR valid. unfold bounded_signed_dist. destruct (Z.ltb_spec p 0); [lia|].
  set (C := icols image) in *. set (R := irows image) in *.
  destruct (scan_map C R (fun x y _ => if pix image x y =? 0 then - (p * p) else p * p) (fun col row d =>
      b <- validt image col row ;; put d col row (if (b : bool) then p * p else - (p * p)))
       0 C 0 R (Img C R old)) as (d0 & E0 & C0 & R0 & H0); auto.
  { intros x y d X Y DC DR. unfold validt. rewrite get_in by (unfold inside; lia). cbn [bind].
    match goal with |- exists d1, put d x y ?v = _ /\ _ => destruct (put_in d x y v) as (d1 & E & E1 & E2 & E3 & E4) end; [unfold inside; lia|].
    exists d1. split; auto. split; auto. split; auto. split; auto. intros _. rewrite E3. destruct (pix image x y =? 0); auto. }
  unfold validt in E0. rewrite E0. cbn [bind].
  assert (I0 : sinv image p q 0 0 d0).
  { split; auto. split; auto. intros x y I. cbv zeta. destruct (H0 x y) as [K _]; [exact I|]. rewrite K by exact I. unfold side.
    destruct (pix image x y =? 0); (split; [left; lia|split; [lia|]]); intros zx zy [[HZ _] _] PR; unfold prior, inside in *; fold C R in HZ; lia. }
  match goal with |- exists d, for_up 0 C ?body d0 = _ /\ _ =>
    destruct (for_up_inv (fun k d => sinv image p q k 0 d) body 0 C d0) as (d & E & J); [lia|auto| |] end.
  { intros k s Hk J.
    match goal with |- exists s', for_up 0 R ?body s = _ /\ _ =>
      destruct (for_up_inv (fun j d => sinv image p q k j d) body 0 R s) as (s' & F & J'); [lia|auto| |] end.
    - intros j t Hj K. apply (signed_step image p q Q P k j t); auto. unfold inside. fold C R. lia.
    - exists s'. split; auto. destruct J' as (A & B & G). split; auto. split; auto. intros x y I. destruct (G x y I) as (G0 & G1 & G2).
      split; [auto|split; [auto|]].
      intros zx zy HZ PR. apply G2; auto. destruct HZ as [[IZ _] _]. unfold prior, inside in *. fold C R in IZ. lia. }
  exists d. split; auto. destruct J as (A & B & G). split; auto. split; auto.
  intros x y I. destruct (G x y I) as (G0 & G1 & G2). cbv zeta in *. unfold side in *.
  assert (ALL : forall zx zy, hole_edge image valid zx zy -> (if pix image x y =? 0 then - pix d x y else pix d x y) <= q * q * dist2 x y zx zy).
  { intros zx zy HE. apply G2; auto. destruct HE as [[IZ _] _]. unfold prior, inside in *. fold C R in IZ. lia. }
  split; intros v; unfold valid in v.
  - destruct (Z.eqb_spec (pix image x y) 0); [tauto|]. split; [|split; auto].
    + destruct G0 as [G0|(zx & zy & HE & G0)]; auto. right. exists zx, zy. split; auto. apply HE.
    + intros zx zy HZ. assert (DEC : forall x y, {valid x y} + {~ valid x y}).
      { intros a b. unfold valid. destruct (Z.eq_dec (pix image a b) 0); [right; tauto|left; auto]. }
      destruct (edge_closer image valid x y DEC I v zx zy HZ) as (ex & ey & HE & L). specialize (ALL ex ey HE). nia.
  - destruct (Z.eqb_spec (pix image x y) 0); [|tauto]. split; auto.
Qed.
Print Assumptions bounded_signed_dist_correct.

Example bounded_signed_dist_ex :
  let image := of_rows 0 [[1;1;1;1;1];[1;0;0;0;1];[1;0;0;0;1];[1;0;0;0;0]] in
  exists d, bounded_signed_dist image 5 2 (fun _ _ => 9) = Ok d /\
  to_rows d = [[8;4;4;4;8];[4;0;0;0;4];[4;0;-4;0;4];[4;0;-4;0;0]].
Proof. eexists. split; vm_compute; reflexivity. Qed.

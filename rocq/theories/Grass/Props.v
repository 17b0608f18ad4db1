(* C23: the grassfire transform is the Manhattan distance. *)
From Coq Require Import ZArith List Lia Bool.
From Verif Require Import Lib.Base Lib.Img Grass.Model Grass.Spec.
Import ListNotations.
Local Open Scope Z_scope.

(* there is a zero location no further than v *)
Definition within src b x y v : Prop := exists zx zy, zero_at src b zx zy /\ manhattan x y zx zy <= v.

Lemma within_pos src b x y v : within src b x y v -> 0 <= v.
Proof. intros (zx & zy & _ & H). unfold manhattan in H. lia. Qed.
Lemma within_step src b x y x' y' v : within src b x' y' v -> manhattan x y x' y' <= 1 -> within src b x y (1 + v).
Proof. intros (zx & zy & Z & H) M. exists zx, zy. split; auto. unfold manhattan in *. lia. Qed.
Lemma within_zero src b x y v : inside src x y -> pix src x y = 0 -> 0 <= v -> within src b x y v.
Proof. intros I Z V. exists x, y. split; [left; auto|]. unfold manhattan. lia. Qed.

(* [x'] [y'] comes before [x] [y] in raster order *)
Definition before (x y x' y' : Z) : Prop := y' < y \/ y' = y /\ x' < x.
Definition after (x y x' y' : Z) : Prop := y' > y \/ y' = y /\ x' > x.
Definition dims (src d : img Z) : Prop := icols d = icols src /\ irows d = irows src.

Ltac wr d x y v d' :=
  let H := fresh in
  assert (H : inside d x y) by (unfold inside in *; lia);
  let E := fresh "E" in let C := fresh "C" in let R := fresh "R" in let V := fresh "V" in let O := fresh "O" in
  destruct (put_in d x y v H) as (d' & E & C & R & V & O); clear H.

Section Border.
Variable src : img Z.
Local Notation c := (icols src).
Local Notation r := (irows src).
Hypothesis HC : 2 <= c. Hypothesis HR : 2 <= r.
Definition border x y : Prop := x = 0 \/ y = 0 \/ x = c - 1 \/ y = r - 1.

Lemma within_border x y : inside src x y -> border x y -> within src true x y 1.
Proof.
  intros I B. unfold border, within, zero_at, manhattan, inside in *.
  destruct B as [B|[B|[B|B]]]; [exists (-1), y|exists x, (-1)|exists c, y|exists x, r]; (split; [right; split; auto|]; lia).
Qed.

Definition good1 (f : Z -> Z -> Z) x y : Prop :=
  within src true x y (f x y) /\ (pix src x y = 0 -> f x y = 0) /\ (border x y -> f x y <= 1) /\
  (0 < x -> f x y <= 1 + f (x - 1) y) /\ (0 < y -> f x y <= 1 + f x (y - 1)).
Definition I1 (x y : Z) (d : img Z) : Prop :=
  dims src d /\ forall x' y', inside src x' y' -> before x y x' y' -> good1 (pix d) x' y'.

Lemma put_I1 x y d v : inside src x y -> I1 x y d -> within src true x y v -> (pix src x y = 0 -> v = 0) -> (border x y -> v <= 1) ->
  (0 < x -> v <= 1 + pix d (x - 1) y) -> (0 < y -> v <= 1 + pix d x (y - 1)) ->
  exists d', put d x y v = Ok d' /\ I1 (x + 1) y d'.
Proof.
  intros I [[D1 D2] G] W Z0 B L U. wr d x y v d'. exists d'. split; auto. split; [split; congruence|].
  intros x' y' I' B'. unfold before in B'.
  destruct (Z.eq_dec x' x) as [->|NX]; [destruct (Z.eq_dec y' y) as [->|NY]|].
  - unfold good1. rewrite V. repeat split; auto; intros; rewrite O by lia; auto.
  - destruct (G x y' I') as (g1 & g2 & g3 & g4 & g5); [unfold before; lia|]. unfold good1.
    rewrite (O x y') by lia. repeat split; auto; intros; rewrite O by lia; auto.
  - destruct (G x' y' I') as (g1 & g2 & g3 & g4 & g5); [unfold before; lia|]. unfold good1.
    rewrite (O x' y') by lia. repeat split; auto; intros; rewrite O by lia; auto.
Qed.

Lemma mark_I1 x y d : inside src x y -> border x y -> I1 x y d -> exists d', mark src x y d = Ok d' /\ I1 (x + 1) y d'.
Proof.
  intros I B J. unfold mark. rewrite get_in by auto. cbn [bind]. pose proof J as [_ G].
  assert (P : forall x' y', inside src x' y' -> before x y x' y' -> 0 <= pix d x' y')
    by (intros x' y' I' B'; apply (within_pos src true x' y'), (G x' y' I' B')).
  pose proof (within_border x y I B). unfold inside in I.
  apply put_I1; auto; try (unfold inside; lia).
  - destruct (Z.eqb_spec (pix src x y) 0); auto. apply within_zero; auto. lia.
  - intros E. now rewrite E.
  - destruct (pix src x y =? 0); lia.
  - intros. specialize (P (x - 1) y ltac:(unfold inside; lia) ltac:(unfold before; lia)). destruct (pix src x y =? 0); lia.
  - intros. specialize (P x (y - 1) ltac:(unfold inside; lia) ltac:(unfold before; lia)). destruct (pix src x y =? 0); lia.
Qed.

Lemma fwd_I1 x y d : inside src x y -> ~ border x y -> I1 x y d -> exists d', fwd src x y d = Ok d' /\ I1 (x + 1) y d'.
Proof.
  intros I B J. unfold fwd. rewrite get_in by auto. cbn [bind]. pose proof J as [[D1 D2] G].
  pose proof I as I0. unfold border in B. unfold inside in I.
  assert (IL : inside src (x - 1) y) by (unfold inside; lia).
  assert (IU : inside src x (y - 1)) by (unfold inside; lia).
  destruct (G _ _ IL ltac:(unfold before; lia)) as (L & _). destruct (G _ _ IU ltac:(unfold before; lia)) as (U & _).
  pose proof (within_pos _ _ _ _ _ L). pose proof (within_pos _ _ _ _ _ U).
  destruct (Z.eqb_spec (pix src x y) 0) as [E|N].
  - apply put_I1; auto; try lia; try (unfold border; lia). apply within_zero; auto; lia.
  - rewrite get_in by (unfold inside in *; lia). cbn [bind].
    rewrite get_in by (unfold inside in *; lia). cbn [bind].
    apply put_I1; auto; try lia; try (unfold border; lia).
    destruct (Z.min_spec (pix d (x - 1) y) (pix d x (y - 1))) as [[_ ->]|[_ ->]].
    + eapply within_step; eauto. unfold manhattan. lia.
    + eapply within_step; eauto. unfold manhattan. lia.
Qed.

Lemma I1_row y d : I1 c y d -> I1 0 (y + 1) d.
Proof. intros [D G]. split; auto. intros x' y' I B. apply G; auto. unfold inside, before in *. lia. Qed.

(* backward pass *)
Definition good2 (f : Z -> Z -> Z) x y : Prop := f x y <= 1 + f (x + 1) y /\ f x y <= 1 + f x (y + 1).
Definition I2 (f1 : Z -> Z -> Z) (x y : Z) (d : img Z) : Prop :=
  dims src d /\ (forall x' y', inside src x' y' -> within src true x' y' (pix d x' y') /\ pix d x' y' <= f1 x' y') /\
  (forall x' y', inside src x' y' -> ~ border x' y' -> after x y x' y' -> good2 (pix d) x' y').

Lemma bwd_I2 f1 x y d : inside src x y -> ~ border x y -> I2 f1 x y d -> exists d', bwd x y d = Ok d' /\ I2 f1 (x - 1) y d'.
Proof.
  intros I B ([D1 D2] & W & G). unfold bwd. unfold inside in I. unfold border in B.
  assert (IN : forall x y, 0 <= x < c -> 0 <= y < r -> inside src x y) by (intros; unfold inside; lia).
  assert (IN' : forall x y, 0 <= x < c -> 0 <= y < r -> inside d x y) by (intros; unfold inside; rewrite D1, D2; lia).
  rewrite get_in by (apply IN'; lia). cbn [bind].
  destruct (W (x + 1) y ltac:(apply IN; lia)) as [WR _]. destruct (W x (y + 1) ltac:(apply IN; lia)) as [WD _].
  destruct (W x y ltac:(apply IN; lia)) as [WC LC].
  pose proof (within_pos _ _ _ _ _ WR). pose proof (within_pos _ _ _ _ _ WD). pose proof (within_pos _ _ _ _ _ WC).
  assert (KEEP : pix d x y <= 1 + pix d (x + 1) y -> pix d x y <= 1 + pix d x (y + 1) -> I2 f1 (x - 1) y d).
  { intros K1 K2. split; [split; auto|]. split; auto. intros x' y' I' B' A'.
    destruct (Z.eq_dec x' x) as [->|NX]; [destruct (Z.eq_dec y' y) as [->|NY]|].
    - split; auto.
    - apply G; auto. unfold after in *. lia.
    - apply G; auto. unfold after in *. lia. }
  destruct (Z.eqb_spec (pix d x y) 0) as [E|N].
  - exists d. split; auto. apply KEEP; lia.
  - rewrite get_in by (apply IN'; lia). cbn [bind]. rewrite get_in by (apply IN'; lia). cbn [bind].
    set (m := Z.min (pix d (x + 1) y) (pix d x (y + 1))).
    destruct (Z.ltb_spec m (pix d x y)); [|exists d; split; auto; apply KEEP; lia].
    assert (WM : within src true x y (m + 1)).
    { rewrite Z.add_comm. subst m. destruct (Z.min_spec (pix d (x + 1) y) (pix d x (y + 1))) as [[_ ->]|[_ ->]].
      - eapply within_step; eauto. unfold manhattan. lia.
      - eapply within_step; eauto. unfold manhattan. lia. }
    wr d x y (m + 1) d'. exists d'. split; auto. split; [split; congruence|]. split.
    + intros x' y' I'. destruct (Z.eq_dec x' x) as [->|NX]; [destruct (Z.eq_dec y' y) as [->|NY]|].
      * rewrite V. split; auto. lia.
      * rewrite O by lia. apply W; auto.
      * rewrite O by lia. apply W; auto.
    + intros x' y' I' B' A'. unfold after in A'. unfold border in B'. unfold good2.
      destruct (Z.eq_dec x' x) as [->|NX]; [destruct (Z.eq_dec y' y) as [->|NY]|].
      * rewrite V, !O by lia. subst m. lia.
      * rewrite !O by lia. apply G; auto. unfold after. lia.
      * rewrite !O by lia. apply G; auto. unfold after. lia.
Qed.

Lemma border_run old : exists d, border_mode src (Img c r old) = Ok d /\ exists f1,
  (forall x y, inside src x y -> good1 f1 x y) /\ I2 f1 c 0 d.
Proof.
  unfold border_mode.
  destruct (for_up_inv (fun x d => I1 x 0 d) (fun x => mark src x 0) 0 c (Img c r old)) as (d1 & E1 & J1); [lia| | |].
  { split; [split; auto|]. intros x y I B. unfold inside, before in *. lia. }
  { intros k s Hk J. apply mark_I1; auto; unfold inside, border; lia. }
  rewrite E1. cbn [bind]. apply I1_row in J1.
  match goal with |- exists d, bind (for_up 1 (r - 1) ?b d1) _ = _ /\ _ =>
    destruct (for_up_inv (fun y d => I1 0 y d) b 1 (r - 1) d1) as (d2 & E2 & J2) end; [lia|auto| |].
  { intros y s Hy J. destruct (mark_I1 0 y s) as (s1 & F1 & K1); auto; [unfold inside; lia|unfold border; lia|].
    rewrite F1. cbn [bind].
    destruct (for_up_inv (fun x d => I1 x y d) (fun x => fwd src x y) 1 (c - 1) s1) as (s2 & F2 & K2); [lia|auto| |].
    { intros k t Hk K. apply fwd_I1; auto; [unfold inside; lia|unfold border; lia]. }
    rewrite F2. cbn [bind]. destruct (mark_I1 (c - 1) y s2) as (s3 & F3 & K3); auto; [unfold inside; lia|unfold border; lia|].
    exists s3. split; auto. apply I1_row. replace (c - 1 + 1) with c in K3 by lia. auto. }
  rewrite E2. cbn [bind].
  destruct (for_up_inv (fun x d => I1 x (r - 1) d) (fun x => mark src x (r - 1)) 0 c d2) as (d3 & E3 & J3); [lia|auto| |].
  { intros k s Hk J. apply mark_I1; auto; unfold inside, border; lia. }
  rewrite E3. cbn [bind]. apply I1_row in J3. replace (r - 1 + 1) with r in J3 by lia. destruct J3 as [D3 G3].
  assert (G : forall x y, inside src x y -> good1 (pix d3) x y).
  { intros x y I. apply G3; auto. unfold inside, before in *. lia. }
  destruct (for_dn_inv (fun y d => I2 (pix d3) c y d) (fun y => for_dn (c - 2) 1 (fun x => bwd x y)) (r - 2) 1 d3) as (d4 & E4 & J4); [lia| | |].
  { split; auto. split; [intros; split; [apply G; auto|lia]|]. intros x y I B A. unfold inside, border, after in *. lia. }
  { intros y s Hy J. destruct (for_dn_inv (fun x d => I2 (pix d3) x y d) (fun x => bwd x y) (c - 2) 1 s) as (s1 & F1 & K1); [lia| | |].
    - destruct J as (J1' & J2' & J3'). split; auto. split; auto. intros x' y' I B A. apply J3'; auto. unfold inside, border, after in *. lia.
    - intros k t Hk K. apply bwd_I2; auto; [unfold inside; lia|unfold border; lia].
    - exists s1. split; auto. destruct K1 as (J1' & J2' & J3'). split; auto. split; auto. intros x' y' I B A. apply J3'; auto.
      unfold inside, border, after in *. lia. }
  exists d4. split; auto. exists (pix d3). split; auto.
Qed.

(* zero outside *)
Definition ext (f : Z -> Z -> Z) x y : Z := if insideb src x y then f x y else 0.
Lemma ext_in f x y : inside src x y -> ext f x y = f x y.
Proof. intros H. apply insideb_iff in H. unfold ext. now rewrite H. Qed.
Lemma ext_out f x y : ~ inside src x y -> ext f x y = 0.
Proof. intros H. unfold ext. destruct (insideb src x y) eqn:E; auto. apply insideb_iff in E. contradiction. Qed.
Lemma inside_dec x y : {inside src x y} + {~ inside src x y}.
Proof. destruct (insideb src x y) eqn:E; [left|right]; rewrite <- insideb_iff, E; congruence. Qed.
End Border.

(* distances add up along a monotone path *)
Lemma walk f : (forall k, 0 <= k -> f (k + 1) <= 1 + f k) -> forall n, 0 <= n -> f n <= n + f 0.
Proof. intros S. apply natlike_ind; [lia|]. intros n Hn IH. unfold Z.succ. specialize (S n Hn). lia. Qed.

Lemma four_ways f1 f2 :
  (forall x y, f1 x y <= 1 + f1 (x - 1) y) -> (forall x y, f1 x y <= 1 + f1 x (y - 1)) ->
  (forall x y, f2 x y <= f1 x y) -> (forall x y, f2 x y <= 1 + f2 (x + 1) y) -> (forall x y, f2 x y <= 1 + f2 x (y + 1)) ->
  forall x y zx zy, f2 x y <= manhattan x y zx zy + f1 zx zy.
Proof.
  intros L U LE R D x y zx zy.
  assert (L' : forall n x y, 0 <= n -> f1 (x + n) y <= n + f1 x y).
  { intros n x' y' Hn. pose proof (walk (fun k => f1 (x' + k) y')) as W. cbv beta in W. rewrite Z.add_0_r in W. apply W; auto.
    intros k Hk. specialize (L (x' + (k + 1)) y'). replace (x' + (k + 1) - 1) with (x' + k) in L by lia. auto. }
  assert (U' : forall n x y, 0 <= n -> f1 x (y + n) <= n + f1 x y).
  { intros n x' y' Hn. pose proof (walk (fun k => f1 x' (y' + k))) as W. cbv beta in W. rewrite Z.add_0_r in W. apply W; auto.
    intros k Hk. specialize (U x' (y' + (k + 1))). replace (y' + (k + 1) - 1) with (y' + k) in U by lia. auto. }
  assert (R' : forall n x y, 0 <= n -> f2 (x - n) y <= n + f2 x y).
  { intros n x' y' Hn. pose proof (walk (fun k => f2 (x' - k) y')) as W. cbv beta in W. rewrite Z.sub_0_r in W. apply W; auto.
    intros k Hk. specialize (R (x' - (k + 1)) y'). replace (x' - (k + 1) + 1) with (x' - k) in R by lia. auto. }
  assert (D' : forall n x y, 0 <= n -> f2 x (y - n) <= n + f2 x y).
  { intros n x' y' Hn. pose proof (walk (fun k => f2 x' (y' - k))) as W. cbv beta in W. rewrite Z.sub_0_r in W. apply W; auto.
    intros k Hk. specialize (D x' (y' - (k + 1))). replace (y' - (k + 1) + 1) with (y' - k) in D by lia. auto. }
  (* f2 x y <= f2 x1 y1 + ... with x1 = max x zx, then up and left in f1 *)
  set (x1 := Z.max x zx). set (y1 := Z.max y zy).
  pose proof (R' (x1 - x) x1 y ltac:(lia)) as A1. replace (x1 - (x1 - x)) with x in A1 by lia.
  pose proof (D' (y1 - y) x1 y1 ltac:(lia)) as A2. replace (y1 - (y1 - y)) with y in A2 by lia.
  pose proof (LE x1 y1) as A3.
  pose proof (L' (x1 - zx) zx y1 ltac:(lia)) as A4. replace (zx + (x1 - zx)) with x1 in A4 by lia.
  pose proof (U' (y1 - zy) zx zy ltac:(lia)) as A5. replace (zy + (y1 - zy)) with y1 in A5 by lia.
  unfold manhattan. lia.
Qed.

(* Every output pixel is the Manhattan distance to the nearest zero location,
   the locations outside the image counting as zero. *)
Theorem grassfire_distance src old :
  2 <= icols src -> 2 <= irows src ->
  exists dst, grassfire src old false = Ok dst /\ icols dst = icols src /\ irows dst = irows src /\
    forall x y, inside src x y -> nearest_zero src true x y (pix dst x y).
Proof.
  intros HC HR. unfold grassfire. destruct (Z.leb_spec (icols src) 1), (Z.leb_spec (irows src) 1); try lia. cbn [orb].
  destruct (border_run src HC HR old) as (d & E & f1 & G1 & (D & W & G2)).
  exists d. split; auto. destruct D as [D1 D2]. split; auto. split; auto.
  assert (P1 : forall x y, 0 <= ext src f1 x y).
  { intros x y. destruct (inside_dec src x y) as [I|I]; [rewrite ext_in by auto|rewrite ext_out by auto; lia].
    apply (within_pos src true x y), (G1 x y I). }
  assert (P2 : forall x y, 0 <= ext src (pix d) x y).
  { intros x y. destruct (inside_dec src x y) as [I|I]; [rewrite ext_in by auto|rewrite ext_out by auto; lia].
    apply (within_pos src true x y), (W x y I). }
  assert (BD : forall x y, {border src x y} + {~ border src x y}).
  { intros x y. unfold border. destruct (Z.eq_dec x 0); [left; tauto|]. destruct (Z.eq_dec y 0); [left; tauto|].
    destruct (Z.eq_dec x (icols src - 1)); [left; tauto|]. destruct (Z.eq_dec y (irows src - 1)); [left; tauto|]. right; lia. }
  intros x y I. destruct (W x y I) as [(zx & zy & Z0 & M) _].
  assert (UP : forall zx zy, zero_at src true zx zy -> pix d x y <= manhattan x y zx zy).
  { clear zx zy Z0 M. intros zx zy Z0. rewrite <- (ext_in src (pix d) x y I).
    assert (F0 : ext src f1 zx zy = 0).
    { destruct Z0 as [[I0 Z0]|[_ I0]]; [rewrite ext_in by auto; apply (G1 zx zy I0); auto|apply ext_out; auto]. }
    rewrite <- (Z.add_0_r (manhattan x y zx zy)), <- F0. apply four_ways; clear x y I zx zy Z0 F0.
    - intros x y. destruct (inside_dec src x y) as [I|I]; [|rewrite (ext_out _ _ x y) by auto; specialize (P1 (x - 1) y); lia].
      destruct (G1 x y I) as (_ & _ & B & L & _). rewrite (ext_in _ _ x y) by auto.
      destruct (BD x y) as [b|b]; [specialize (B b); specialize (P1 (x - 1) y); lia|].
      unfold border in b. rewrite ext_in by (unfold inside in *; lia). apply L. unfold inside in *; lia.
    - intros x y. destruct (inside_dec src x y) as [I|I]; [|rewrite (ext_out _ _ x y) by auto; specialize (P1 x (y - 1)); lia].
      destruct (G1 x y I) as (_ & _ & B & _ & U). rewrite (ext_in _ _ x y) by auto.
      destruct (BD x y) as [b|b]; [specialize (B b); specialize (P1 x (y - 1)); lia|].
      unfold border in b. rewrite ext_in by (unfold inside in *; lia). apply U. unfold inside in *; lia.
    - intros x y. destruct (inside_dec src x y) as [I|I]; [rewrite !ext_in by auto; apply W; auto|rewrite !ext_out by auto; lia].
    - intros x y. destruct (inside_dec src x y) as [I|I]; [|rewrite (ext_out _ _ x y) by auto; specialize (P2 (x + 1) y); lia].
      rewrite (ext_in _ _ x y) by auto. destruct (BD x y) as [b|b].
      + destruct (G1 x y I) as (_ & _ & B & _ & _). specialize (B b). destruct (W x y I) as [_ LE]. specialize (P2 (x + 1) y). lia.
      + destruct (G2 x y I b) as [R _]; [unfold after, border, inside in *; lia|]. unfold border in b. rewrite ext_in by (unfold inside in *; lia). auto.
    - intros x y. destruct (inside_dec src x y) as [I|I]; [|rewrite (ext_out _ _ x y) by auto; specialize (P2 x (y + 1)); lia].
      rewrite (ext_in _ _ x y) by auto. destruct (BD x y) as [b|b].
      + destruct (G1 x y I) as (_ & _ & B & _ & _). specialize (B b). destruct (W x y I) as [_ LE]. specialize (P2 x (y + 1)). lia.
      + destruct (G2 x y I b) as [_ R]; [unfold after, border, inside in *; lia|]. unfold border in b. rewrite ext_in by (unfold inside in *; lia). auto. }
  split; auto. exists zx, zy. split; auto. specialize (UP zx zy Z0). lia.
Qed.
Print Assumptions grassfire_distance.

Example grassfire_ex :
  exists src, 2 <= icols src /\ 2 <= irows src /\
  to_rows src = [[1;1;1;1;1];[1;1;1;1;1];[1;1;1;1;1];[1;1;1;1;0];[1;1;1;1;1]] /\
  exists dst, grassfire src (fun _ _ => 77) false = Ok dst /\
  to_rows dst = [[1;1;1;1;1];[1;2;2;2;1];[1;2;3;2;1];[1;2;2;1;0];[1;1;1;1;1]].
Proof.
  exists (of_rows 0 [[1;1;1;1;1];[1;1;1;1;1];[1;1;1;1;1];[1;1;1;1;0];[1;1;1;1;1]]).
  split; [cbn; lia|]. split; [cbn; lia|]. split; [reflexivity|]. eexists. split; vm_compute; reflexivity.
Qed.

Section Ignore.
Variable src : img Z.
Local Notation c := (icols src).
Local Notation r := (irows src).
Hypothesis HC : 2 <= c. Hypothesis HR : 2 <= r.

Definition low x y v : Prop := 0 <= v /\ (within src false x y v \/ c + r <= v).
Lemma low_step x y x' y' v : low x' y' v -> manhattan x y x' y' <= 1 -> low x y (v + 1).
Proof. intros [P [W|L]] M; (split; [lia|]); [left; rewrite Z.add_comm; eapply within_step; eauto|right; lia]. Qed.
Lemma low_min x y v w : low x y v -> low x y w -> low x y (Z.min v w).
Proof. intros V W. destruct (Z.min_spec v w) as [[_ ->]|[_ ->]]; auto. Qed.
Lemma low_cap x y : low x y (c + r).
Proof. split; [lia|right; lia]. Qed.

Definition good1i (f : Z -> Z -> Z) x y : Prop :=
  low x y (f x y) /\ (pix src x y = 0 -> f x y = 0) /\
  (0 < x -> f x y <= 1 + f (x - 1) y) /\ (0 < y -> f x y <= 1 + f x (y - 1)).
Definition J1 (x y : Z) (d : img Z) : Prop :=
  dims src d /\ forall x' y', inside src x' y' -> before x y x' y' -> good1i (pix d) x' y'.

Lemma put_J1 x y d v : inside src x y -> J1 x y d -> low x y v -> (pix src x y = 0 -> v = 0) ->
  (0 < x -> v <= 1 + pix d (x - 1) y) -> (0 < y -> v <= 1 + pix d x (y - 1)) ->
  exists d', put d x y v = Ok d' /\ J1 (x + 1) y d'.
Proof.
  intros I [[D1 D2] G] W Z0 L U. wr d x y v d'. exists d'. split; auto. split; [split; congruence|].
  intros x' y' I' B'. unfold before in B'.
  destruct (Z.eq_dec x' x) as [->|NX]; [destruct (Z.eq_dec y' y) as [->|NY]|].
  - unfold good1i. rewrite V. repeat split; auto; intros; try rewrite O by lia; auto; apply W.
  - destruct (G x y' I') as (g1 & g2 & g4 & g5); [unfold before; lia|]. unfold good1i.
    rewrite (O x y') by lia. split; [auto|split; [auto|]]. split; intros; rewrite O by lia; auto.
  - destruct (G x' y' I') as (g1 & g2 & g4 & g5); [unfold before; lia|]. unfold good1i.
    rewrite (O x' y') by lia. split; [auto|split; [auto|]]. split; intros; rewrite O by lia; auto.
Qed.

Lemma fwd_J1 x y d : inside src x y -> J1 x y d -> exists d', fwd_i src (c + r) x y d = Ok d' /\ J1 (x + 1) y d'.
Proof.
  intros I J. unfold fwd_i. rewrite get_in by auto. cbn [bind]. pose proof J as [[D1 D2] G]. pose proof I as I0. unfold inside in I.
  assert (GL : 0 < x -> low (x - 1) y (pix d (x - 1) y)).
  { intros. apply (G (x - 1) y); [unfold inside; lia|unfold before; lia]. }
  assert (GU : 0 < y -> low x (y - 1) (pix d x (y - 1))).
  { intros. apply (G x (y - 1)); [unfold inside; lia|unfold before; lia]. }
  assert (ML : manhattan x y (x - 1) y <= 1) by (unfold manhattan; lia).
  assert (MU : manhattan x y x (y - 1) <= 1) by (unfold manhattan; lia).
  destruct (Z.eqb_spec (pix src x y) 0) as [E|N].
  - apply put_J1; auto.
    + split; [lia|]. left. apply within_zero; auto; lia.
    + intros K. destruct (GL K). lia.
    + intros K. destruct (GU K). lia.
  - destruct (Z.ltb_spec 0 y) as [Y|Y]; destruct (Z.ltb_spec 0 x) as [X|X].
    + rewrite get_in by (unfold inside; lia). cbn [bind]. rewrite get_in by (unfold inside; lia). cbn [bind].
      apply put_J1; auto; try contradiction; try lia.
      rewrite <- Z.add_min_distr_r. apply low_min; eapply low_step; eauto.
    + rewrite get_in by (unfold inside; lia). cbn [bind]. apply put_J1; auto; try contradiction; try lia.
      apply low_min; [apply low_cap|eapply low_step; eauto].
    + rewrite get_in by (unfold inside; lia). cbn [bind]. apply put_J1; auto; try contradiction; try lia.
      apply low_min; [apply low_cap|eapply low_step; eauto].
    + apply put_J1; auto; try contradiction; try lia. apply low_cap.
Qed.

Definition good2i (f : Z -> Z -> Z) x y : Prop :=
  f x y <= c + r /\ (x + 1 < c -> f x y <= 1 + f (x + 1) y) /\ (y + 1 < r -> f x y <= 1 + f x (y + 1)).
Definition J2 (f1 : Z -> Z -> Z) (x y : Z) (d : img Z) : Prop :=
  dims src d /\ (forall x' y', inside src x' y' -> low x' y' (pix d x' y') /\ pix d x' y' <= f1 x' y') /\
  (forall x' y', inside src x' y' -> after x y x' y' -> good2i (pix d) x' y').

Lemma bwd_J2 f1 x y d : inside src x y -> J2 f1 x y d -> exists d', bwd_i c r (c + r) x y d = Ok d' /\ J2 f1 (x - 1) y d'.
Proof.
  intros I ([D1 D2] & W & G). unfold bwd_i. pose proof I as I0. unfold inside in I.
  assert (IN : forall x y, 0 <= x < c -> 0 <= y < r -> inside src x y) by (intros; unfold inside; lia).
  assert (IN' : forall x y, 0 <= x < c -> 0 <= y < r -> inside d x y) by (intros; unfold inside; rewrite D1, D2; lia).
  rewrite get_in by (apply IN'; lia). cbn [bind].
  destruct (W x y I0) as [WC LC].
  assert (WR : x + 1 < c -> low (x + 1) y (pix d (x + 1) y)) by (intros; apply W, IN; lia).
  assert (WD : y + 1 < r -> low x (y + 1) (pix d x (y + 1))) by (intros; apply W, IN; lia).
  assert (MR : manhattan x y (x + 1) y <= 1) by (unfold manhattan; lia).
  assert (MD : manhattan x y x (y + 1) <= 1) by (unfold manhattan; lia).
  assert (STEP : forall v d', low x y v -> v <= pix d x y -> v <= c + r -> (x + 1 < c -> v <= 1 + pix d (x + 1) y) -> (y + 1 < r -> v <= 1 + pix d x (y + 1)) ->
    icols d' = icols d -> irows d' = irows d -> pix d' x y = v -> (forall i j, i <> x \/ j <> y -> pix d' i j = pix d i j) -> J2 f1 (x - 1) y d').
  { intros v d' LV LE CAP VR VD C R V O. split; [split; congruence|]. split.
    - intros x' y' I'. destruct (Z.eq_dec x' x) as [->|NX]; [destruct (Z.eq_dec y' y) as [->|NY]|].
      + rewrite V. split; auto. lia.
      + rewrite O by lia. apply W; auto.
      + rewrite O by lia. apply W; auto.
    - intros x' y' I' A'. unfold after in A'. unfold good2i.
      destruct (Z.eq_dec x' x) as [->|NX]; [destruct (Z.eq_dec y' y) as [->|NY]|].
      + rewrite V, !O by lia. auto.
      + rewrite !O by lia. apply G; auto. unfold after. lia.
      + rewrite !O by lia. apply G; auto. unfold after. lia. }
  destruct (Z.eqb_spec (pix d x y) 0) as [E|N].
  - exists d. split; auto. apply (STEP 0 d); auto; try lia.
    + rewrite <- E. auto.
    + intros K. destruct (WR K). lia.
    + intros K. destruct (WD K). lia.
  - set (m1 := if x + 1 <? c then Z.min (pix d x y) (pix d (x + 1) y + 1) else pix d x y).
    set (m2 := if y + 1 <? r then Z.min m1 (pix d x (y + 1) + 1) else m1).
    assert (L1 : low x y m1 /\ m1 <= pix d x y /\ (x + 1 < c -> m1 <= 1 + pix d (x + 1) y)).
    { subst m1. destruct (Z.ltb_spec (x + 1) c); [|split; [auto|lia]]. split; [|lia]. apply low_min; auto. eapply low_step; eauto. }
    assert (L2 : low x y m2 /\ m2 <= m1 /\ (y + 1 < r -> m2 <= 1 + pix d x (y + 1))).
    { subst m2. destruct (Z.ltb_spec (y + 1) r); [|split; [apply L1|lia]]. split; [|lia]. apply low_min; [apply L1|]. eapply low_step; eauto. }
    replace (if x + 1 <? c then r0 <- get d (x + 1) y;; Ok (Z.min (pix d x y) (r0 + 1)) else Ok (pix d x y)) with (Ok m1).
    2:{ subst m1. destruct (Z.ltb_spec (x + 1) c); auto. rewrite get_in by (apply IN'; lia). auto. }
    cbn [bind].
    replace (if y + 1 <? r then l <- get d x (y + 1);; Ok (Z.min m1 (l + 1)) else Ok m1) with (Ok m2).
    2:{ subst m2. destruct (Z.ltb_spec (y + 1) r); auto. rewrite get_in by (apply IN'; lia). auto. }
    cbn [bind]. wr d x y m2 d1. rewrite E. cbn [bind].
    destruct (Z.ltb_spec (c + r) m2) as [K|K].
    + wr d1 x y (c + r) d2. exists d2. split; auto. apply (STEP (c + r) d2); auto; try lia; try congruence; [apply low_cap|].
      intros i j NE. rewrite O0, O by auto. auto.
    + exists d1. split; auto. apply (STEP m2 d1); auto; try lia. apply L2.
Qed.

Lemma ignore_run old : exists d, ignore_mode src (Img c r old) = Ok d /\ exists f1,
  (forall x y, inside src x y -> good1i f1 x y) /\ J2 f1 c (-1) d.
Proof.
  unfold ignore_mode.
  match goal with |- exists d, bind (for_up 0 r ?b ?d0) _ = _ /\ _ =>
    destruct (for_up_inv (fun y d => J1 0 y d) b 0 r d0) as (d1 & E1 & K1) end; [lia| | |].
  { split; [split; auto|]. intros x y I B. unfold inside, before in *. lia. }
  { intros y s Hy J. destruct (for_up_inv (fun x d => J1 x y d) (fun x => fwd_i src (c + r) x y) 0 c s) as (s1 & F1 & L1); [lia|auto| |].
    { intros k t Hk K. apply fwd_J1; auto; unfold inside; lia. }
    exists s1. split; auto. destruct L1 as [D G]. split; auto. intros x' y' I B. apply G; auto. unfold inside, before in *. lia. }
  rewrite E1. cbn [bind]. destruct K1 as [D1 G1].
  assert (G : forall x y, inside src x y -> good1i (pix d1) x y).
  { intros x y I. apply G1; auto. unfold inside, before in *. lia. }
  destruct (for_dn_inv (fun y d => J2 (pix d1) c y d) (fun y => for_dn (c - 1) 0 (fun x => bwd_i c r (c + r) x y)) (r - 1) 0 d1) as (d2 & E2 & K2); [lia| | |].
  { split; auto. split; [intros; split; [apply G; auto|lia]|]. intros x y I A. unfold inside, after in *. lia. }
  { intros y s Hy J. destruct (for_dn_inv (fun x d => J2 (pix d1) x y d) (fun x => bwd_i c r (c + r) x y) (c - 1) 0 s) as (s1 & F1 & K1); [lia| | |].
    - destruct J as (J1' & J2' & J3'). split; auto. split; auto. intros x' y' I A. apply J3'; auto. unfold inside, after in *. lia.
    - intros k t Hk K. apply bwd_J2; auto; unfold inside; lia.
    - exists s1. split; auto. destruct K1 as (J1' & J2' & J3'). split; auto. split; auto. intros x' y' I A. apply J3'; auto.
      unfold inside, after in *. lia. }
  exists d2. split; auto. exists (pix d1). split; auto.
Qed.

Definition clamp hi v : Z := Z.max 0 (Z.min (hi - 1) v).
Definition cl (f : Z -> Z -> Z) x y : Z := f (clamp c x) (clamp r y).
Lemma cl_in f x y : inside src x y -> cl f x y = f x y.
Proof. intros I. unfold cl, clamp, inside in *. f_equal; lia. Qed.
Lemma cl_inside x y : inside src (clamp c x) (clamp r y).
Proof. unfold inside, clamp. lia. Qed.
End Ignore.

(* With borders ignored every output pixel is the distance to the nearest zero
   pixel of the image, or cols + rows everywhere when the image has none. *)
Theorem grassfire_ignore_borders src old :
  2 <= icols src -> 2 <= irows src ->
  exists dst, grassfire src old true = Ok dst /\ icols dst = icols src /\ irows dst = irows src /\
    ((exists zx zy, zero_at src false zx zy) -> forall x y, inside src x y -> nearest_zero src false x y (pix dst x y)) /\
    ((forall zx zy, ~ zero_at src false zx zy) -> forall x y, inside src x y -> pix dst x y = icols src + irows src).
Proof.
  intros HC HR. unfold grassfire. destruct (Z.leb_spec (icols src) 1), (Z.leb_spec (irows src) 1); try lia. cbn [orb].
  destruct (ignore_run src HC HR old) as (d & E & f1 & G1 & (D & W & G2)).
  exists d. split; auto. destruct D as [D1 D2]. split; auto. split; auto.
  assert (G2' : forall x y, inside src x y -> good2i src (pix d) x y).
  { intros x y I. apply G2; auto. unfold inside, after in *. lia. }
  assert (UP : forall x y zx zy, inside src x y -> zero_at src false zx zy -> pix d x y <= manhattan x y zx zy).
  { intros x y zx zy I [[I0 Z0]|[? _]]; [|discriminate].
    rewrite <- (cl_in src (pix d) x y I).
    assert (F0 : cl src f1 zx zy = 0) by (rewrite cl_in by auto; apply (G1 zx zy I0); auto).
    rewrite <- (Z.add_0_r (manhattan x y zx zy)), <- F0.
    assert (S : forall x y, inside src (clamp (icols src) x) (clamp (irows src) y)) by (intros; apply cl_inside; auto).
    apply four_ways; clear x y I zx zy I0 Z0 F0; intros x y; specialize (S x y); unfold cl.
    - destruct (G1 _ _ S) as (_ & _ & L & _). pose proof HC.
      destruct (Z.eq_dec (clamp (icols src) (x - 1)) (clamp (icols src) x)) as [->|N]; [lia|].
      assert (Q : clamp (icols src) (x - 1) = clamp (icols src) x - 1) by (unfold clamp in *; lia). rewrite Q. apply L. unfold clamp in *; lia.
    - destruct (G1 _ _ S) as (_ & _ & _ & U).
      destruct (Z.eq_dec (clamp (irows src) (y - 1)) (clamp (irows src) y)) as [->|N]; [lia|].
      assert (Q : clamp (irows src) (y - 1) = clamp (irows src) y - 1) by (unfold clamp in *; lia). rewrite Q. apply U. unfold clamp in *; lia.
    - apply W; auto.
    - destruct (G2' _ _ S) as (_ & R & _).
      destruct (Z.eq_dec (clamp (icols src) (x + 1)) (clamp (icols src) x)) as [->|N]; [lia|].
      assert (Q : clamp (icols src) (x + 1) = clamp (icols src) x + 1) by (unfold clamp in *; lia). rewrite Q. apply R. unfold clamp in *; lia.
    - destruct (G2' _ _ S) as (_ & _ & R).
      destruct (Z.eq_dec (clamp (irows src) (y + 1)) (clamp (irows src) y)) as [->|N]; [lia|].
      assert (Q : clamp (irows src) (y + 1) = clamp (irows src) y + 1) by (unfold clamp in *; lia). rewrite Q. apply R. unfold clamp in *; lia. }
  split.
  - intros (zx & zy & Z0) x y I. split; [|intros; apply UP; auto].
    pose proof (UP x y zx zy I Z0). destruct (W x y I) as [[_ [(ax & ay & A & M)|C]] _].
    + exists ax, ay. split; auto. specialize (UP x y ax ay I A). lia.
    + destruct Z0 as [[I0 _]|[? _]]; [|discriminate]. unfold manhattan, inside in *. lia.
  - intros NZ x y I. destruct (W x y I) as [[_ [(ax & ay & A & M)|C]] _]; [exfalso; eapply NZ; eauto|].
    destruct (G2' x y I). lia.
Qed.
Print Assumptions grassfire_ignore_borders.

Example grassfire_ignore_ex :
  exists src, 2 <= icols src /\ 2 <= irows src /\ to_rows src = [[1;1;1;1];[1;1;1;1];[1;1;1;0]] /\
  exists dst, grassfire src (fun _ _ => 77) true = Ok dst /\ to_rows dst = [[5;4;3;2];[4;3;2;1];[3;2;1;0]].
Proof.
  exists (of_rows 0 [[1;1;1;1];[1;1;1;1];[1;1;1;0]]).
  split; [cbn; lia|]. split; [cbn; lia|]. split; [reflexivity|]. eexists. split; vm_compute; reflexivity.
Qed.

(* The property fails for images one pixel wide or high: the result is zero
   everywhere, also on nonzero pixels. *)
Theorem grassfire_thin_refuted :
  exists src dst, inside src 0 1 /\ grassfire src (fun _ _ => 0) false = Ok dst /\ pix dst 0 1 = 0 /\
    nearest_zero src true 0 1 1 /\ ~ nearest_zero src true 0 1 (pix dst 0 1).
Proof.
  exists (Img 1 3 (fun _ _ => 5)). eexists. split; [cbv; repeat split; discriminate || reflexivity|]. split; [reflexivity|]. split; [reflexivity|].
  assert (NZ : forall zx zy, zero_at (Img 1 3 (fun _ _ => 5)) true zx zy -> 1 <= manhattan 0 1 zx zy).
  { intros zx zy [[_ A]|[_ A]]; [discriminate|]. unfold inside in A. cbn in A. unfold manhattan. lia. }
  split.
  - split; auto. exists (-1), 1. split; [right; split; auto; unfold inside; cbn; lia|reflexivity].
  - intros [(zx & zy & A & B) _]. specialize (NZ zx zy A). cbn [pix] in B. lia.
Qed.
Print Assumptions grassfire_thin_refuted.
